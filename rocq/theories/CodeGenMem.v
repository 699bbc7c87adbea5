(** The matcher on arbitrary memory: what it reads, what it returns, when it faults. *)
From Coq Require Import List NArith ZArith Arith Bool Lia ZifyBool ZifyN ZifyNat Permutation.
From Verif Require Import CharClass CharClassSpec CharClassProofs RegexSpec NFA NFASem NFAProofs NFABuild DFA DFADep DFAProofs DFAMin Writer X86 X86Step CodeGen CodeGenProofs CodeGenSimd CodeGenDfa CodeGenMisc CodeGenRoutine CodeGenPlain LookRead LookFit LookWf.
Import ListNotations.
Local Open Scope N_scope.

(** Reading [w] from state [q], the automaton comes to a halt: to a state it can never leave, or
    to a byte without transition. *)
Fixpoint halts (D : dfa) (q : nat) (w : list N) : bool :=
  match dtrs (nth q D dnil) with
  | [] => true
  | ts => match w with
          | [] => false
          | c :: w' => match first_tr ts c with None => true | Some d => halts D d w' end
          end
  end.
Record bytecode (D : dfa) : Prop := {
  by_ne : D <> [];
  by_tr : forall q t, In t (dtrs (nth q D dnil)) -> (tdest t < length D)%nat /\ proper (tlab t);
  by_short : forall q, dlong (nth q D dnil) = false }.
Lemma halts_step D q w : halts D q w =
  match dtrs (nth q D dnil) with
  | [] => true
  | ts => match w with [] => false | c :: w' => match first_tr ts c with None => true | Some d => halts D d w' end end
  end.
Proof. destruct w; reflexivity. Qed.

Lemma loops_short p q : forall ts j, emit_loops p q false j ts = ([], ts).
Proof. induction ts as [|t ts IH]; intros j; [reflexivity|]. cbn [emit_loops]. rewrite IH, andb_false_r. reflexivity. Qed.

Section Mem.
Variables (P : code) (e : env) (pre post : code) (p rej : label) (D : dfa) (krej : code).
Hypothesis HP : NoDup (binds P).
Hypothesis EP : P = pre ++ emit_dfa p rej D ++ post.
Hypothesis HD : bytecode D.
Hypothesis HR : find_lab P rej = Some krej.

Lemma state_mem : forall w a q s B, (q < length D)%nat -> text_at (mem e) a w -> pc s = emit_state p q (nth q D dnil) ++ B -> rg s RSI = a ->
  exists s', star P e s s' /\
    if halts D q w then frame s s' /\ pc s' = kfinish post rej /\ rg s' RBX = lmaddr D q w a (rg s RBX)
    else rg s' RSI = a + N.of_nat (length w) /\ exists k, pc s' = ILoadB CHAR INPUT :: k.
Proof.
  induction w as [|c w IH]; intros a q s B Hq HT HPC HA.
  all: rewrite emit_state_eq, (by_short D HD q), loops_short in HPC; cbn [fst snd app] in HPC; rewrite <- app_assoc in HPC.
  all: assert (L : exists s2, star P e s s2 /\ frame s s2 /\ pc s2 = emit_tail p (dtrs (nth q D dnil)) ++ B /\ rg s2 RSI = a /\ rg s2 RBX = (if dacc (nth q D dnil) then a else rg s RBX)).
  1, 3: (destruct (dacc (nth q D dnil)); [|exists s; cbn [app] in HPC; split; [constructor|]; split; [apply frame_refl|]; auto];
      destruct s as [pc0 rg0 fl0 xl0 xp0 stk0 sav0 out0 ob0]; cbn [pc rg] in *; subst pc0; eexists; split; [apply star_one; cbn [app step pc]; reflexivity|];
      cbn; repeat split; exact HA).
  all: destruct L as (s2 & S2 & F2 & K2 & I2 & B2).
  all: rewrite lmaddr_step, halts_step; cbn zeta; rewrite <- B2.
  all: assert (HB := by_tr D HD q); destruct (dtrs (nth q D dnil)) as [|t0 ts0] eqn:ED.
  1, 3: (exists (goto s2 (kfinish post rej)); split; [eapply star_trans; [exact S2|]; apply star_one; unfold step; rewrite K2; cbn [emit_tail app]; apply (jump_finish P pre post p rej D HP EP)|];
      split; [exact F2|]; split; reflexivity).
  - exists s2. split; [exact S2|]. split; [rewrite I2; cbn; lia|]. rewrite K2. cbn [emit_tail app]. eexists. reflexivity.
  - rewrite <- ED in *. apply text_cons in HT as (M & C1 & A1 & _ & T2).
    destruct (tail_run P e pre post p rej D HP EP (dtrs (nth q D dnil)) B s2 c a HB K2 I2 M C1 A1) as (s3 & S3 & F3 & B3 & R3).
    destruct (first_tr (dtrs (nth q D dnil)) c) as [d|] eqn:FT.
    + destruct R3 as [R3 I3]. apply first_tr_some in FT as (t & Ht & _ & Ed).
      assert (Hd : (d < length D)%nat) by (rewrite <- Ed; apply (HB t Ht)).
      destruct (find_state P pre post p rej D HP EP d Hd) as [B' E']. rewrite E' in R3. injection R3 as R3.
      destruct (IH (a + 1) d s3 B' Hd T2 (eq_sym R3) I3) as (s4 & S4 & X4).
      exists s4. split; [eapply star_trans; [exact S2|]; eapply star_trans; eauto|].
      destruct (halts D d w).
      * destruct X4 as (F4 & K4 & R4). split; [eapply frame_trans; [exact F2|]; eapply frame_trans; eauto|]. split; [exact K4|]. rewrite R4, B3. reflexivity.
      * destruct X4 as [X4 X5]. split; [rewrite X4; cbn [length]; lia|exact X5].
    + exists s3. split; [eapply star_trans; eauto|]. split; [eapply frame_trans; eauto|]. split; [exact R3|exact B3].
Qed.

Theorem dfa_code_mem w a s : text_at (mem e) a w -> 0 < a -> pc s = emit_dfa p rej D ++ post -> rg s RSI = a ->
  exists s', star P e s s' /\
    if halts D 0 w then frame s s' /\
      match longest D 0 w with
      | Some n => pc s' = post /\ rg s' RSI = a + N.of_nat n
      | None => pc s' = krej
      end
    else rg s' RSI = a + N.of_nat (length w) /\ exists k, pc s' = ILoadB CHAR INPUT :: k.
Proof.
  intros HT Ha HPC HA.
  assert (H0 : (0 < length D)%nat) by (pose proof (by_ne D HD); destruct D; [congruence|cbn; lia]).
  destruct (find_state P pre post p rej D HP EP 0%nat H0) as [B E0]. destruct s as [pc0 rg0 fl0 xl0 xp0 stk0 sav0 out0 ob0]. cbn [pc rg] in *. subst pc0.
  set (K := emit_state p 0 (nth 0 D dnil) ++ B) in *.
  destruct (state_mem w a 0%nat (mkS K (setr RBX 0 rg0) fl0 xl0 xp0 stk0 sav0 out0 ob0) B H0 HT eq_refl HA) as (s1 & S1 & X).
  assert (S0 : star P e (mkS (emit_dfa p rej D ++ post) rg0 fl0 xl0 xp0 stk0 sav0 out0 ob0) s1).
  { unfold emit_dfa. rewrite <- !app_assoc. cbn [app]. x1 idtac. x1 ltac:(exact E0). exact S1. }
  destruct (halts D 0 w); [|exists s1; split; [exact S0|exact X]].
  destruct X as (F1 & K1 & R1). change (rg (mkS K (setr RBX 0 rg0) fl0 xl0 xp0 stk0 sav0 out0 ob0) RBX) with 0 in R1.
  unfold lmaddr in R1. destruct s1 as [pc1 rg1 fl1 xl1 xp1 stk1 sav1 out1 ob1]. cbn [pc rg] in *. subst pc1. unfold kfinish in S0. cbn [app] in S0.
  destruct (longest D 0 w) as [n|].
  - eexists. split; [eapply star_trans; [exact S0|]; x1 idtac; x1 idtac; eapply star_step; [apply st_jcc_f|apply star_refl]|].
    + unfold setr. cbn [reg_eqb eval_cond]. rewrite R1. lia.
    + split; [exact F1|]. split; [reflexivity|]. exact R1.
  - eexists. split; [eapply star_trans; [exact S0|]; x1 idtac; x1 idtac; eapply star_step; [eapply st_jcc_t; [|exact HR]|apply star_refl]|].
    + unfold setr. cbn [reg_eqb eval_cond]. rewrite R1. reflexivity.
    + split; [exact F1|]. reflexivity.
Qed.
End Mem.

Theorem dfa_routine_mem D e r w : bytecode D -> 0 < r RDI -> text_at (mem e) (r RDI) w -> halts D 0 w = true ->
  returns (dfa_routine D) e r (match longest D 0 w with Some n => r RDI + N.of_nat n | None => 0 end).
Proof.
  intros HD Ha HT HH. apply wrap_run; [exact (dfa_routine_nodup D)|]. intros s krej HPC HA HR.
  destruct (dfa_code_mem (dfa_routine D) e (prolog ++ [ILoadS INPUT 4]) (epilog [] rej0) [] rej0 D krej (dfa_routine_nodup D)) with (w := w) (a := r RDI) (s := s)
    as (s' & S & X); try assumption.
  - unfold dfa_routine. rewrite <- app_assoc. reflexivity.
  - rewrite HH in X. destruct X as [F X]. exists s'. split; [exact S|]. split; [exact F|]. destruct (longest D 0 w); [left; exact X|right; auto].
Qed.

(** A run that comes to a fault cannot also come to an end. *)
Lemma star_fault P e s s1 s2 : star P e s s1 -> step P e s1 = Fault -> star P e s s2 -> pc s2 <> [].
Proof.
  induction 1 as [s|s s' s1 H1 H2 IH]; intros F K E.
  - destruct K as [s|s s' s2 K1 _]; [|congruence]. unfold step in F. rewrite E in F. discriminate.
  - destruct K as [s|s s'' s2 K1 K2]; [unfold step in H1; rewrite E in H1; discriminate|]. rewrite K1 in H1. injection H1 as ->. exact (IH F K2 E).
Qed.
Theorem dfa_routine_fault D e r w : bytecode D -> 0 < r RDI -> text_at (mem e) (r RDI) w -> halts D 0 w = false ->
  mem e (r RDI + N.of_nat (length w)) = None -> forall v, ~ returns (dfa_routine D) e r v.
Proof.
  intros HD Ha HT HH HM v V. destruct (V [] [] [] [] (mkW [] [] 0) 0) as (sE & SE & EE & _). revert EE.
  set (R := dfa_routine D) in *. assert (HN : NoDup (binds R)) by exact (dfa_routine_nodup D).
  set (k0 := [SVal (r RBX); SVal (r RCX); SVal (r RDX); SVal (r RSI); SVal (r RDI); SVal (r RBP); SVal (r R8); SSav []; SRet []]).
  set (s1 := mkS (emit_dfa [] rej0 D ++ epilog [] rej0) (setr RSI (r RDI) r) None [] [] k0 k0 (mkW [] [] 0) 0).
  assert (S1 : star R e (call_state R r [] [] [] [] (mkW [] [] 0) 0) s1).
  { unfold call_state, R at 2, dfa_routine. cbn [prolog app]. do 9 (x1 idtac). x1 ltac:(reflexivity). apply star_refl. }
  assert (FR : find_lab R rej0 = Some (skipn 3 (epilog [] rej0))).
  { apply (find_at' R (prolog ++ [ILoadS INPUT 4] ++ emit_dfa [] rej0 D ++ firstn 2 (epilog [] rej0))); [|exact HN]. unfold R, dfa_routine. rewrite <- !app_assoc. reflexivity. }
  destruct (dfa_code_mem R e (prolog ++ [ILoadS INPUT 4]) (epilog [] rej0) [] rej0 D (skipn 3 (epilog [] rej0)) HN) with (w := w) (a := r RDI) (s := s1)
    as (s2 & S2 & X); try assumption; try reflexivity.
  - rewrite HH in X. destruct X as (X & k & K). apply (star_fault R e (call_state R r [] [] [] [] (mkW [] [] 0) 0) s2 sE); [eapply star_trans; eauto| |exact SE].
    unfold step. rewrite K. cbn beta. change INPUT with RSI. rewrite X, HM. reflexivity.
Qed.

(** ** In terms of the language *)
Lemma plain_extends fuel ef A D i t ch : dfa_plain fuel ef A = Some D -> live_nfa A -> In t (dtrs (nth i D dnil)) -> includes (tlab t) ch = true ->
  exists z, dfa_run D i (ch :: z) = true.
Proof.
  intros H (_ & LV1 & LV2) Ht Hc. destruct (dfa_plain_inv _ _ _ _ H) as (D0 & -> & HF0 & L & _). pose proof HF0 as [HB HF].
  destruct (Nat.lt_ge_cases i (length D0)) as [Q|Q]; [|rewrite nth_overflow in Ht by (rewrite map_length; exact Q); destruct Ht].
  rewrite nth_finish in Ht by exact Q. cbn [finish_state dtrs] in Ht. apply (Permutation_in _ (sort_trs_perm _)) in Ht.
  destruct (HF i Q) as (_ & H1 & _). destruct (H1 t Ht) as (_ & _ & lab & _ & K). apply includes_Den in Hc as (r & Hr & Hx).
  apply K in Hr as (cc & s & I & _ & Hr). unfold items_at in I.
  assert (E : s = on_char (label_trs A (dlab (nth i D0 dnil))) ch).
  { destruct (departures_spec (label_trs A (dlab (nth i D0 dnil)))) as (_ & DI & _). apply (DI cc s I). apply includes_Den. exists r. auto. }
  apply departures_ne in I. destruct s as [|x s]; [congruence|].
  destruct (on_char_spec (label_trs A (dlab (nth i D0 dnil))) ch) as [_ OI].
  destruct (proj1 (OI x)) as (u & Hu & Hi & _); [rewrite <- E; left; reflexivity|].
  unfold label_trs in Hu. apply in_flat_map in Hu as (q & Hq & Hu).
  assert (ED : edge A q (tlab u) (tdest u)) by (exists u; auto).
  destruct (LV2 _ (LV1 _ _ _ ED)) as [z Hz]. exists z. apply (run_spec ef A D0 HF0); [exact Q|]. exists q. split; [exact Hq|].
  eapply p_chr; eauto.
Qed.
(** [halts] in terms of the words accepted: some initial part of [w] cannot be prolonged. *)
Lemma halts_language D : (forall i t, In t (dtrs (nth i D dnil)) -> exists c z, dfa_run D i (c :: z) = true) ->
  forall w q, halts D q w = true <-> exists k, (k <= length w)%nat /\ forall c z, dfa_run D q (firstn k w ++ c :: z) = false.
Proof.
  intros HL. induction w as [|c w IH]; intros q; rewrite halts_step; split.
  - intros H. exists 0%nat. split; [cbn; lia|]. intros c z. cbn. destruct (dtrs (nth q D dnil)); [reflexivity|discriminate].
  - intros (k & Hk & H). destruct (dtrs (nth q D dnil)) as [|t ts] eqn:E; [reflexivity|]. destruct (HL q t) as (c & z & Z); [rewrite E; left; reflexivity|].
    specialize (H c z). cbn in Hk. assert (k = 0%nat) by lia. subst k. cbn [firstn app] in H. congruence.
  - intros H. destruct (dtrs (nth q D dnil)) as [|t ts] eqn:E.
    + exists 0%nat. split; [lia|]. intros x z. cbn. rewrite E. reflexivity.
    + rewrite <- E in H. destruct (first_tr (dtrs (nth q D dnil)) c) as [d|] eqn:F.
      * apply IH in H as (k & Hk & H). exists (S k). split; [cbn; lia|]. intros x z. cbn. rewrite F. apply H.
      * exists 1%nat. split; [cbn; lia|]. intros x z. cbn. rewrite F. reflexivity.
  - intros (k & Hk & H). destruct (dtrs (nth q D dnil)) as [|t ts] eqn:E; [reflexivity|]. rewrite <- E. destruct k as [|k].
    + destruct (HL q t) as (x & z & Z); [rewrite E; left; reflexivity|]. specialize (H x z). cbn [firstn app] in H. congruence.
    + destruct (first_tr (dtrs (nth q D dnil)) c) as [d|] eqn:F; [|reflexivity]. apply IH. exists k. split; [cbn in Hk; lia|].
      intros x z. specialize (H x z). cbn in H. rewrite F in H. exact H.
Qed.
Lemma plain_halts fuel ef A D w : dfa_plain fuel ef A = Some D -> live_nfa A ->
  halts D 0 w = true <-> exists k, (k <= length w)%nat /\ forall c z, ~ accepts A (firstn k w ++ c :: z).
Proof.
  intros H HL. rewrite halts_language.
  - split; intros (k & Hk & K); exists k; (split; [exact Hk|]); intros c z; specialize (K c z).
    + intros X. apply (dfa_plain_language _ _ _ _ _ H) in X. congruence.
    + destruct (dfa_run D 0 (firstn k w ++ c :: z)) eqn:E; [|reflexivity]. apply (dfa_plain_language _ _ _ _ _ H) in E. contradiction.
  - intros i t Ht. destruct (dfa_plain_range _ _ _ _ H) as (_ & _ & HS). destruct (HS i t Ht) as [S1 S2].
    destruct (tlab t) as [|r0 rr] eqn:Et; [congruence|]. exists (rs r0). apply (plain_extends _ _ _ _ i t (rs r0) H HL Ht).
    apply includes_Den. exists r0. rewrite Et. split; [left; reflexivity|]. destruct S1 as (_ & S1 & _). lia.
Qed.
Lemma plain_bytecode fuel ef p D : pat_ok p -> pat_short p -> dfa_plain fuel ef (build_pat p) = Some D -> bytecode D.
Proof.
  intros Hp Hq H. destruct (dfa_plain_range _ _ _ _ H) as (L & HR & HS). split.
  - intros ->. cbn in L. lia.
  - intros q t Ht. split; [exact (HR q t Ht)|]. intros r Hr. destruct (HS q t Ht) as [S _]. pose proof (Sorted_lt _ _ _ S Hr) as G. split; [exact G|].
    destruct (plain_label _ _ _ _ q t (re r - 1) H Ht) as (x & u & Hu & Hi); [apply includes_Den; exists r; split; [exact Hr|lia]|].
    assert (PR : proper (tlab u)) by (apply (pat_proper p Hp x _ (tdest u)); exists u; auto).
    apply includes_Den in Hi as (r' & Hr' & X). destruct (PR r' Hr'). lia.
  - intros q. apply nolong_no_loop. eapply plain_nolong; [exact H|apply pat_no_long; assumption].
Qed.

(** ** The optimised automaton halts exactly when the other does *)
Lemma minimize_halts D w : (0 < length D)%nat -> in_range D -> halts (minimize D) 0 w = halts D 0 w.
Proof.
  intros L0 HR. destruct (minimize_sim D L0 HR) as (rho & f & _ & _ & F0 & HF).
  assert (G : forall w i, (i < length D)%nat -> halts (minimize D) (f i) w = halts D i w).
  { clear w. induction w as [|c w IH]; intros i Hi; rewrite !halts_step; destruct (HF i Hi) as (_ & A2 & A3).
    - destruct (dtrs (nth i D dnil)), (dtrs (nth (f i) (minimize D) dnil)); try reflexivity; destruct A2 as [B1 B2]; [discriminate (B2 eq_refl)|discriminate (B1 eq_refl)].
    - specialize (A3 c). destruct (dtrs (nth i D dnil)) as [|t l] eqn:E1, (dtrs (nth (f i) (minimize D) dnil)) as [|t' l'] eqn:E2; try reflexivity; [discriminate (proj2 A2 eq_refl)|discriminate (proj1 A2 eq_refl)|].
      rewrite A3. destruct (first_tr (t :: l) c) as [d|] eqn:E; [|reflexivity]. cbn [option_map]. apply IH.
      apply first_tr_some in E as (x & Hx & _ & <-). rewrite <- E1 in Hx. exact (HR _ _ Hx). }
  rewrite <- (G w 0%nat L0), F0. reflexivity.
Qed.
Lemma minimize_bytecode D : bytecode D -> bytecode (minimize D).
Proof.
  intros [HN HT HL]. unfold minimize. destruct (min_scan D (seq 0 (length D)) [] []) as [[D1 reps] remap] eqn:E.
  assert (A0 : allD proper D).
  { intros s Hs. destruct (In_nth D s dnil Hs) as (q & _ & Eq). subst s. split; [apply HL|]. intros t Ht. apply (HT q t Ht). }
  pose proof (min_scan_all proper _ _ _ _ _ _ _ A0 E) as A1. apply redirects_allD with (remap := remap) in A1.
  destruct (filter_nodes_all proper reps _ A1) as [A2 R2]. set (M := filter_nodes reps _) in *.
  assert (LM : length M = length reps) by (unfold M, filter_nodes; apply map_length).
  assert (NR : reps <> []).
  { destruct D as [|s D]; [congruence|]. cbn [length seq min_scan find_equiv app] in E. eapply min_scan_ne; [|exact E]. discriminate. }
  split.
  - intros Z. rewrite Z in LM. destruct reps; [congruence|discriminate].
  - intros q t Ht. destruct (nth_in_or_default q M dnil) as [K|K]; [|rewrite K in Ht; destruct Ht].
    split; [rewrite LM; exact (R2 _ t K Ht)|]. exact (proj2 (A2 _ K) t Ht).
  - intros q. apply (allD_nth proper M q A2).
Qed.
