(** The generated DFA matcher. *)
From Coq Require Import List NArith ZArith Arith Bool Lia ZifyBool ZifyN ZifyNat.
From Verif Require Import CharClass CharClassSpec NFA DFA DFAProofs DFAMin X86 X86Step CodeGen CodeGenProofs CodeGenSimd.
Import ListNotations.
Local Open Scope N_scope.

(** ** Longest accepted prefix *)
Fixpoint longest (D : dfa) (q : nat) (u : list N) : option nat :=
  match match u with
        | [] => None
        | c :: u' => match first_tr (dtrs (nth q D dnil)) c with
                     | Some d => option_map S (longest D d u')
                     | None => None
                     end
        end with
  | Some n => Some n
  | None => if dacc (nth q D dnil) then Some O else None
  end.
Lemma longest_spec D : forall u q, match longest D q u with
  | Some n => (n <= length u)%nat /\ dfa_run D q (firstn n u) = true /\ forall m, (n < m <= length u)%nat -> dfa_run D q (firstn m u) = false
  | None => forall m, (m <= length u)%nat -> dfa_run D q (firstn m u) = false
  end.
Proof.
  induction u as [|c u IH]; intros q; cbn [longest].
  - destruct (dacc (nth q D dnil)) eqn:E.
    + split; [cbn; lia|]. split; [exact E|]. cbn. intros m Hm. lia.
    + intros m Hm. destruct m; exact E.
  - destruct (first_tr (dtrs (nth q D dnil)) c) as [d|] eqn:T.
    + specialize (IH d). destruct (longest D d u) as [n|]; cbn [option_map].
      * destruct IH as (I1 & I2 & I3). split; [cbn; lia|]. split; [cbn; rewrite T; exact I2|].
        intros [|m] Hm; [lia|]. cbn. rewrite T. apply I3. cbn in Hm. lia.
      * destruct (dacc (nth q D dnil)) eqn:E.
        -- split; [lia|]. split; [exact E|]. intros [|m] Hm; [lia|]. cbn. rewrite T. apply IH. cbn in Hm. lia.
        -- intros [|m] Hm; [exact E|]. cbn. rewrite T. apply IH. cbn in Hm. lia.
    + destruct (dacc (nth q D dnil)) eqn:E.
      * split; [lia|]. split; [exact E|]. intros [|m] Hm; [lia|]. cbn. rewrite T. reflexivity.
      * intros [|m] Hm; [exact E|]. cbn. rewrite T. reflexivity.
Qed.
(** As the code computes it: address of the end, or the backup value. *)
Definition lmaddr (D : dfa) (q : nat) (u : list N) (a b : N) : N := match longest D q u with Some n => a + N.of_nat n | None => b end.
Lemma lmaddr_step D q u a b : lmaddr D q u a b =
  let b1 := if dacc (nth q D dnil) then a else b in
  match u with
  | [] => b1
  | c :: u' => match first_tr (dtrs (nth q D dnil)) c with Some d => lmaddr D d u' (a + 1) b1 | None => b1 end
  end.
Proof.
  unfold lmaddr. destruct u as [|c u]; cbn [longest].
  - destruct (dacc (nth q D dnil)); [apply N.add_0_r|reflexivity].
  - destruct (first_tr (dtrs (nth q D dnil)) c) as [d|]; [|destruct (dacc (nth q D dnil)); [apply N.add_0_r|reflexivity]].
    destruct (longest D d u) as [n|]; cbn [option_map]; [lia|]. destruct (dacc (nth q D dnil)); [apply N.add_0_r|reflexivity].
Qed.

(** ** What the generated code needs of a DFA *)
Definition disjoint_labels (ts : list ntr) : Prop :=
  forall t t' c, In t ts -> In t' ts -> includes (tlab t) c = true -> includes (tlab t') c = true -> t = t'.
Definition self_loop (D : dfa) (q : nat) : Prop := dlong (nth q D dnil) = true /\ exists t, In t (dtrs (nth q D dnil)) /\ tdest t = q.
Record codable (D : dfa) : Prop := {
  co_ne : D <> [];
  co_tr : forall q t, In t (dtrs (nth q D dnil)) -> (tdest t < length D)%nat /\ proper (tlab t) /\ includes (tlab t) 0 = false;
  co_long : forall q, dlong (nth q D dnil) = true ->
    NoDup (map tdest (dtrs (nth q D dnil))) /\ disjoint_labels (dtrs (nth q D dnil)) /\
    forall t, In t (dtrs (nth q D dnil)) -> tdest t = q -> (length (tlab t) <= 8)%nat }.

Lemma proper_nz_packable cc : proper cc -> includes cc 0 = false -> (length cc <= 8)%nat -> packable cc.
Proof.
  intros H Z L. split; [exact L|]. intros r Hr. destruct (H r Hr) as [H1 H2]. split; [|auto].
  destruct (N.le_gt_cases 1 (rs r)) as [G|G]; [exact G|]. exfalso. assert (includes cc 0 = true); [|congruence].
  unfold includes. apply existsb_exists. exists r. split; [exact Hr|lia].
Qed.

Lemma emit_loops_cases p q lg : forall ts j c rest, (lg = true -> NoDup (map tdest ts)) -> emit_loops p q lg j ts = (c, rest) ->
  (c = [] /\ rest = ts /\ (lg = true -> forall t, In t ts -> tdest t <> q)) \/
  (lg = true /\ exists a t b i, ts = a ++ t :: b /\ tdest t = q /\ c = emit_loop (tlab t) (lloop p q i) /\ rest = a ++ b).
Proof.
  induction ts as [|t ts IH]; intros j c rest ND E; cbn [emit_loops] in E.
  - injection E as <- <-. left. split; [reflexivity|]. split; [reflexivity|]. intros _ t [].
  - destruct (emit_loops p q lg (S j) ts) as [c1 r1] eqn:E1.
    assert (ND' : lg = true -> NoDup (map tdest ts)) by (intros H; specialize (ND H); inversion ND; assumption).
    specialize (IH _ _ _ ND' E1). destruct ((tdest t =? q)%nat && lg) eqn:B.
    + apply andb_true_iff in B as [B1 B2]. apply Nat.eqb_eq in B1. injection E as <- <-. right. split; [exact B2|].
      exists [], t, ts, j. split; [reflexivity|]. split; [exact B1|].
      assert (c1 = [] /\ r1 = ts) as [-> ->]; [|split; reflexivity].
      destruct IH as [(I1 & I2 & _)|(_ & a & t' & b & i & I1 & I2 & _)]; [auto|]. exfalso.
      specialize (ND B2). cbn [map] in ND. apply NoDup_cons_iff in ND as [N1 _]. apply N1. rewrite B1, I1, <- I2. apply in_map, in_or_app. right. left. reflexivity.
    + injection E as <- <-. destruct IH as [(I1 & I2 & I3)|(Hl & a & t' & b & i & I1 & I2 & I3 & I4)].
      * left. subst. split; [reflexivity|]. split; [reflexivity|]. intros Hl x [->|Hx]; [|auto]. subst lg. rewrite andb_true_r in B. lia.
      * right. split; [exact Hl|]. exists (t :: a), t', b, i. subst. split; [reflexivity|]. auto.
Qed.
Lemma emit_states_split p : forall D i q, (q < length D)%nat -> exists A B,
  emit_states p i D = A ++ IBind (lstate p (i + q)) :: emit_state p (i + q) (nth q D dnil) ++ B.
Proof.
  induction D as [|s D IH]; intros i q Hq; [cbn in Hq; lia|]. cbn [emit_states]. destruct q as [|q].
  - exists [], (emit_states p (S i) D). rewrite Nat.add_0_r. reflexivity.
  - destruct (IH (S i) q) as (A & B & E); [cbn in Hq; lia|]. rewrite E.
    exists (IBind (lstate p i) :: emit_state p i s ++ A), B. replace (i + S q)%nat with (S i + q)%nat by lia. cbn [app nth]. rewrite <- app_assoc. reflexivity.
Qed.
Lemma first_tr_none' ts c : (forall t, In t ts -> includes (tlab t) c = false) -> first_tr ts c = None.
Proof. induction ts as [|t ts IH]; intros H; [reflexivity|]. cbn. rewrite (H t (or_introl eq_refl)). apply IH. intros x Hx. apply H. right. exact Hx. Qed.
Lemma nth_error_hd_skipn {A} : forall n (u : list A) c l, skipn n u = c :: l -> nth_error u n = Some c.
Proof. induction n as [|n IH]; intros [|x u] c l H; cbn in *; try discriminate; [congruence|eauto]. Qed.
Lemma first_tr_app a b c : first_tr (a ++ b) c = match first_tr a c with Some d => Some d | None => first_tr b c end.
Proof. induction a as [|t a IH]; cbn; [reflexivity|]. destruct (includes (tlab t) c); auto. Qed.

Section Run.
Variables (P : code) (e : env) (pre post : code) (p rej : label) (D : dfa) (krej : code).
Hypothesis HP : NoDup (binds P).
Hypothesis EP : P = pre ++ emit_dfa p rej D ++ post.
Hypothesis HD : codable D.
Hypothesis HR : find_lab P rej = Some krej.

Lemma lookup_state q : (q < length D)%nat -> exists A B, P = A ++ IBind (lstate p q) :: emit_state p q (nth q D dnil) ++ B.
Proof.
  intros Hq. destruct (emit_states_split p D 0 q Hq) as (A & B & E). cbn [Nat.add] in E. unfold emit_dfa in EP. rewrite E in EP.
  exists (pre ++ [IMovI RBX 0; IJmp (lstate p 0)] ++ A), (B ++ [IBind (lfinish p); IMov INPUT BACKUP; ICmpI INPUT 0; IJcc JE rej] ++ post).
  rewrite EP. rewrite <- !app_assoc. cbn [app]. rewrite <- !app_assoc. reflexivity.
Qed.
Lemma lookup_finish : exists A, P = A ++ IBind (lfinish p) :: [IMov INPUT BACKUP; ICmpI INPUT 0; IJcc JE rej] ++ post.
Proof.
  unfold emit_dfa in EP. rewrite EP. rewrite <- !app_assoc. cbn [app]. 
  exists (pre ++ IMovI RBX 0 :: IJmp (lstate p 0) :: emit_states p 0 D). rewrite <- app_assoc. reflexivity.
Qed.
Definition kfinish : code := [IMov INPUT BACKUP; ICmpI INPUT 0; IJcc JE rej] ++ post.
Lemma jump_finish s : jump P s (lfinish p) = Next (goto s kfinish).
Proof. destruct lookup_finish as (A & E). exact (jump_at P HP s A _ _ E). Qed.
Lemma find_finish : find_lab P (lfinish p) = Some kfinish.
Proof. destruct lookup_finish as (A & E). exact (find_at' P A _ _ E HP). Qed.

(** The tests of a state after the loops. *)
Definition emit_tail (ts : list ntr) : code :=
  match ts with
  | [] => [IJmp (lfinish p)]
  | _ =>
    [ILoadB CHAR INPUT; IMov CHAR2 CHAR; IInc INPUT] ++
    match ts with
    | [t] =>
      match tlab t with
      | [r] => (if rs r + 1 =? re r then [ICmpI CHAR (rs r); IJcc JNE (lfinish p)]
                else [ISubI CHAR (rs r); ICmpI CHAR (sub64 (re r) (rs r)); IJcc JNB (lfinish p)]) ++ [IJmp (lstate p (tdest t))]
      | _ => flat_map (fun t => emit_ranges (tlab t) (lstate p (tdest t))) ts ++ [IJmp (lfinish p)]
      end
    | _ => flat_map (fun t => emit_ranges (tlab t) (lstate p (tdest t))) ts ++ [IJmp (lfinish p)]
    end
  end.
Lemma first_lab_tr ts c : first_lab (map (fun t => (tlab t, lstate p (tdest t))) ts) c = option_map (lstate p) (first_tr ts c).
Proof. induction ts as [|t ts IH]; cbn; [reflexivity|]. destruct (includes (tlab t) c); [reflexivity|exact IH]. Qed.
Lemma find_state q : (q < length D)%nat -> exists B, find_lab P (lstate p q) = Some (emit_state p q (nth q D dnil) ++ B).
Proof. intros Hq. destruct (lookup_state q Hq) as (A & B & E). exists B. exact (find_at' P A _ _ E HP). Qed.

Lemma tail_run ts k s c a : (forall t, In t ts -> (tdest t < length D)%nat /\ proper (tlab t)) ->
  pc s = emit_tail ts ++ k -> rg s RSI = a -> mem e a = Some c -> c < 256 -> a + 1 < 2 ^ 64 ->
  exists s', star P e s s' /\ frame s s' /\ rg s' RBX = rg s RBX /\
    match first_tr ts c with
    | Some d => find_lab P (lstate p d) = Some (pc s') /\ rg s' RSI = a + 1
    | None => pc s' = kfinish
    end.
Proof.
  intros HT HPC HA HM Hc Ha.
  assert (TAIL : forall ts k s, (forall t, In t ts -> (tdest t < length D)%nat /\ proper (tlab t)) -> rg s RSI = a ->
     pc s = [ILoadB CHAR INPUT; IMov CHAR2 CHAR; IInc INPUT] ++ (flat_map (fun t => emit_ranges (tlab t) (lstate p (tdest t))) ts ++ [IJmp (lfinish p)]) ++ k ->
     exists s', star P e s s' /\ frame s s' /\ rg s' RBX = rg s RBX /\
     match first_tr ts c with Some d => find_lab P (lstate p d) = Some (pc s') /\ rg s' RSI = a + 1 | None => pc s' = kfinish end).
  { clear s ts k HT HPC HA. intros ts k s HT HA HPC. destruct s as [pc0 rg0 fl0 xl0 xp0 stk0 sav0 out0 ob0]. cbn [pc rg] in *. subst pc0.
    set (s1 := mkS ((flat_map (fun t => emit_ranges (tlab t) (lstate p (tdest t))) ts ++ [IJmp (lfinish p)]) ++ k)
       (setr RSI (a + 1) (setr RCX c (setr RAX c rg0))) None xl0 xp0 stk0 sav0 out0 ob0).
    assert (S1 : star P e (mkS ([ILoadB CHAR INPUT; IMov CHAR2 CHAR; IInc INPUT] ++ (flat_map (fun t => emit_ranges (tlab t) (lstate p (tdest t))) ts ++ [IJmp (lfinish p)]) ++ k) rg0 fl0 xl0 xp0 stk0 sav0 out0 ob0) s1).
    { cbn [app]. x1 ltac:(rewrite HA; exact HM). x1 idtac. x1 idtac. unfold s1. assert (W : w64 (rg0 RSI + 1) = a + 1) by (rewrite HA; apply w64_small; exact Ha). rewrite <- W. apply star_refl. }
    destruct (tests_run P e (map (fun t => (tlab t, lstate p (tdest t))) ts) ([IJmp (lfinish p)] ++ k) s1 c) as (s2 & S2 & F2 & I2 & B2 & R2).
    - intros cc l Hin. apply in_map_iff in Hin as (t & Et & Ht). injection Et as <- <-. destruct (HT t Ht) as [H1 H2]. split; [exact H2|].
      destruct (find_state (tdest t) H1) as [B E]. rewrite E. discriminate.
    - exact Hc.
    - unfold s1. cbn [pc]. rewrite <- app_assoc. f_equal. clear. induction ts as [|t ts IH]; [reflexivity|]. cbn. rewrite IH. reflexivity.
    - reflexivity.
    - reflexivity.
    - rewrite first_lab_tr in R2. destruct (first_tr ts c) as [d|]; cbn [option_map] in R2.
      + exists s2. split; [eapply star_trans; eauto|]. split; [exact F2|]. split; [exact B2|]. split; [exact R2|]. exact I2.
      + exists (goto s2 kfinish). split; [eapply star_trans; [exact S1|]; eapply star_trans; [exact S2|]; apply star_one|].
        * unfold step. rewrite R2. cbn [app]. apply jump_finish.
        * split; [exact F2|]. split; [exact B2|reflexivity]. }
  destruct ts as [|t ts].
  - cbn [emit_tail app] in HPC. exists (goto s kfinish). split; [apply star_one; unfold step; rewrite HPC; apply jump_finish|].
    repeat split.
  - destruct ts as [|t' ts].
    + destruct (tlab t) as [|r [|r' cc]] eqn:EL.
      * apply (TAIL [t] k s HT HA). rewrite HPC. unfold emit_tail. rewrite EL. rewrite <- app_assoc. reflexivity.
      * destruct (HT t (or_introl eq_refl)) as [Hd Hpr]. rewrite EL in Hpr. destruct (Hpr r (or_introl eq_refl)) as [R1 R2].
        assert (EI : includes (tlab t) c = (rs r <=? c) && (c <? re r)) by (rewrite EL; unfold includes; cbn [existsb]; apply orb_false_r).
        destruct (find_state (tdest t) Hd) as [B E].
        unfold emit_tail in HPC. rewrite EL in HPC. cbn [first_tr]. rewrite EI.
        destruct s as [pc0 rg0 fl0 xl0 xp0 stk0 sav0 out0 ob0]. cbn [pc rg] in *. subst pc0. cbn [app].
        assert (M0 : mem e (rg0 RSI) = Some c) by (rewrite HA; exact HM). assert (FF := find_finish).
        destruct (rs r + 1 =? re r) eqn:E1; cbn [app].
        -- assert (EQ : ((rs r <=? c) && (c <? re r)) = (c =? rs r)) by lia. rewrite EQ. destruct (c =? rs r) eqn:Q.
           ++ eexists. split.
              { x1 ltac:(exact M0). x1 idtac. x1 idtac. x1 idtac. eapply star_step; [apply st_jcc_f; unfold setr; cbn [reg_eqb eval_cond]; rewrite Q; reflexivity|].
                x1 ltac:(exact E). apply star_refl. }
              unfold frame, setr. cbn [pc rg reg_eqb stk sav out obase]. rewrite HA, w64_small by exact Ha. repeat split. exact E.
           ++ eexists. split.
              { x1 ltac:(exact M0). x1 idtac. x1 idtac. x1 idtac. eapply star_step; [eapply st_jcc_t; [unfold setr; cbn [reg_eqb eval_cond]; rewrite Q; reflexivity|exact FF]|].
                apply star_refl. }
              repeat split.
        -- assert (S1 : sub64 (re r) (rs r) = re r - rs r) by (apply sub64_le; [lia|change (2^64) with 18446744073709551616; lia]).
           assert (EQ : ((rs r <=? c) && (c <? re r)) = (sub64 c (rs r) <? sub64 (re r) (rs r))).
           { rewrite S1. destruct (N.le_gt_cases (rs r) c) as [L|L].
             - rewrite sub64_le by (try change (2^64) with 18446744073709551616; lia). lia.
             - rewrite sub64_gt by (try change (2^64) with 18446744073709551616; lia). change (2^64) with 18446744073709551616. lia. }
           rewrite EQ. destruct (sub64 c (rs r) <? sub64 (re r) (rs r)) eqn:Q.
           ++ eexists. split.
              { x1 ltac:(exact M0). x1 idtac. x1 idtac. x1 idtac. x1 idtac. eapply star_step; [apply st_jcc_f; unfold setr; cbn [reg_eqb eval_cond]; rewrite Q; reflexivity|].
                x1 ltac:(exact E). apply star_refl. }
              unfold frame, setr. cbn [pc rg reg_eqb stk sav out obase]. rewrite HA, w64_small by exact Ha. repeat split. exact E.
           ++ eexists. split.
              { x1 ltac:(exact M0). x1 idtac. x1 idtac. x1 idtac. x1 idtac. eapply star_step; [eapply st_jcc_t; [unfold setr; cbn [reg_eqb eval_cond]; rewrite Q; reflexivity|exact FF]|].
                apply star_refl. }
              repeat split.
      * apply (TAIL [t] k s HT HA). rewrite HPC. unfold emit_tail. rewrite EL. rewrite <- app_assoc. reflexivity.
    + apply (TAIL (t :: t' :: ts) k s HT HA). rewrite HPC. unfold emit_tail. rewrite <- app_assoc. reflexivity.
Qed.

(** Running through the loop of a long state does not change the outcome. *)
Lemma lmaddr_loop q t : (q < length D)%nat -> In t (dtrs (nth q D dnil)) -> tdest t = q -> disjoint_labels (dtrs (nth q D dnil)) ->
  forall u a b, lmaddr D q u a b = lmaddr D q (skipn (run_len (tlab t) u) u) (a + N.of_nat (run_len (tlab t) u)) b.
Proof.
  intros Hq Ht Et HJ. induction u as [|c u IH]; intros a b.
  - cbn [run_len skipn]. rewrite N.add_0_r. reflexivity.
  - cbn [run_len]. destruct (includes (tlab t) c) eqn:E; [|cbn [skipn]; rewrite N.add_0_r; reflexivity].
    cbn [skipn]. rewrite lmaddr_step. cbn zeta.
    assert (T : first_tr (dtrs (nth q D dnil)) c = Some q).
    { destruct (first_tr (dtrs (nth q D dnil)) c) as [d|] eqn:F.
      - apply first_tr_some in F as (t' & H1 & H2 & H3). rewrite (HJ t t' c Ht H1 E H2) in Et. congruence.
      - pose proof (first_tr_none _ _ F t Ht). congruence. }
    rewrite T, IH. replace (a + 1 + N.of_nat (run_len (tlab t) u)) with (a + N.of_nat (S (run_len (tlab t) u))) by lia.
    rewrite (lmaddr_step D q (skipn _ u)). rewrite (lmaddr_step D q (skipn _ u) _ b). cbn zeta. destruct (dacc (nth q D dnil)); reflexivity.
Qed.

Definition enough (pad : list N) : Prop := (exists q, self_loop D q) -> (15 <= length pad)%nat.

(** From a state to the end. *)
Lemma state_run : forall n u pad a q s B, (length u <= n)%nat -> (q < length D)%nat -> enough pad -> text_at (mem e) a (u ++ 0 :: pad) ->
  (forall i, nth_error u i <> Some 0) ->
  P = (firstn (length P - length (pc s)) P) ++ pc s ->
  pc s = emit_state p q (nth q D dnil) ++ B -> rg s RSI = a ->
  exists s', star P e s s' /\ frame s s' /\ pc s' = kfinish /\ rg s' RBX = lmaddr D q u a (rg s RBX).
Proof.
  induction n as [|n IH]; intros u pad a q s B Hn Hq HE HT HU EPC HPC HA.
  all: destruct (emit_loops p q (dlong (nth q D dnil)) 0 (dtrs (nth q D dnil))) as [loops ts] eqn:EL.
  all: assert (EE : emit_state p q (nth q D dnil) = loops ++ (if dacc (nth q D dnil) then [IMov BACKUP INPUT] else []) ++ emit_tail ts)
     by (unfold emit_state; rewrite EL; reflexivity).
  all: rewrite EE in HPC; rewrite <- !app_assoc in HPC.
  (* the loops *)
  all: assert (L : exists s1 u1 a1, star P e s s1 /\ frame s s1 /\ rg s1 RBX = rg s RBX /\ pc s1 = (if dacc (nth q D dnil) then [IMov BACKUP INPUT] else []) ++ emit_tail ts ++ B /\
     rg s1 RSI = a1 /\ text_at (mem e) a1 (u1 ++ 0 :: pad) /\ (length u1 <= length u)%nat /\ (forall i, nth_error u1 i <> Some 0) /\
     (forall b, lmaddr D q u a b = lmaddr D q u1 a1 b) /\
     (forall t, In t ts -> In t (dtrs (nth q D dnil))) /\
     (forall c, hd 0 (u1 ++ [0]) = c -> first_tr ts c = first_tr (dtrs (nth q D dnil)) c)).
  1, 3: (destruct (emit_loops_cases p q (dlong (nth q D dnil)) (dtrs (nth q D dnil)) 0%nat loops ts (fun h => proj1 (co_long D HD q h)) EL)
      as [(L1 & L2 & L3)|(Hl & a0 & t & b0 & i & L1 & L2 & L3 & L4)]; [
      subst loops ts; exists s, u, a; split; [constructor|]; split; [apply frame_refl|]; split; [reflexivity|]; split; [exact HPC|]; split; [exact HA|];
      split; [exact HT|]; split; [lia|]; split; [exact HU|]; split; [reflexivity|]; split; [auto|reflexivity] |]).
  1, 2: (assert (Ht : In t (dtrs (nth q D dnil))) by (rewrite L1; apply in_or_app; right; left; reflexivity);
      destruct (co_long D HD q Hl) as (ND & DJ & L8); destruct (co_tr D HD q t Ht) as (_ & PR & Z);
      assert (PK : packable (tlab t)) by (apply proper_nz_packable; [exact PR|exact Z|apply L8; [exact Ht|exact L2]]);
      subst loops ts;
      set (K := (if dacc (nth q D dnil) then [IMov BACKUP INPUT] else []) ++ emit_tail (a0 ++ b0) ++ B) in *;
      destruct s as [pc0 rg0 fl0 xl0 xp0 stk0 sav0 out0 ob0]; cbn [pc rg] in *; subst pc0;
      destruct (loop_run P e HP (tlab t) (lloop p q i) K (firstn (length P - length (emit_loop (tlab t) (lloop p q i) ++ K)) P) PK EPC (length u) u pad a
        (mkS ([ILoadX INPUT; IPcmpP 20; IAdd INPUT INDEX; ICmpI INDEX 15; IJcc JG (lloop p q i)] ++ K) rg0 fl0 xl0 (pack_charclass (tlab t)) stk0 sav0 out0 ob0))
        as (s1 & S1 & F1 & B1 & K1 & I1); 
      [lia|apply HE; exists q; split; [exact Hl|exists t; auto]|exact HT|exists K; split; reflexivity|reflexivity|exact HA|];
      exists s1, (skipn (run_len (tlab t) u) u), (a + N.of_nat (run_len (tlab t) u));
      split; [unfold emit_loop; cbn [app]; eapply star_step; [cbn [step pc]; reflexivity|]; eapply star_step; [cbn [step pc]; reflexivity|]; exact S1|];
      split; [exact F1|]; split; [exact B1|]; split; [exact K1|]; split; [exact I1|];
      assert (RL := run_len_le (tlab t) u);
      split; [rewrite <- (firstn_skipn (run_len (tlab t) u) u), <- app_assoc in HT; apply text_skip in HT; rewrite firstn_length, Nat.min_l in HT by exact RL; exact HT|];
      split; [rewrite skipn_length; lia|];
      split; [intros j Hj; apply nth_error_In in Hj; assert (Hj' : In 0 u) by (rewrite <- (firstn_skipn (run_len (tlab t) u) u); apply in_or_app; right; exact Hj);
              apply In_nth_error in Hj' as [j' Hj']; exact (HU j' Hj')|];
      split; [intros b; apply lmaddr_loop; auto|];
      split; [intros x Hx; rewrite L1; apply in_or_app; apply in_app_or in Hx as [Hx|Hx]; [left|right; right]; exact Hx|];
      intros c Hc; assert (NI : includes (tlab t) c = false);
      [ destruct (skipn (run_len (tlab t) u) u) as [|c1 u1] eqn:ES; [cbn in Hc; subst c; exact Z|];
        cbn in Hc; subst c1; apply (proj2 (run_len_spec (tlab t) u)); apply nth_error_hd_skipn with (l := u1); exact ES
      | rewrite L1, !first_tr_app; cbn [first_tr]; rewrite NI; reflexivity ]).
  all: destruct L as (s1 & u1 & a1 & S1 & F1 & B1 & K1 & I1 & T1 & LE1 & U1 & LM1 & TS1 & FT1).
  (* acceptance *)
  all: assert (L : exists s2, star P e s1 s2 /\ frame s1 s2 /\ pc s2 = emit_tail ts ++ B /\ rg s2 RSI = a1 /\ rg s2 RBX = (if dacc (nth q D dnil) then a1 else rg s RBX)).
  1, 3: (destruct (dacc (nth q D dnil)); [|exists s1; cbn [app] in K1; split; [constructor|]; split; [apply frame_refl|]; auto];
      destruct s1 as [pc0 rg0 fl0 xl0 xp0 stk0 sav0 out0 ob0]; cbn [pc rg] in *; subst pc0; eexists; split; [apply star_one; cbn [app step pc]; reflexivity|];
      cbn; repeat split; exact I1).
  all: destruct L as (s2 & S2 & F2 & K2 & I2 & B2).
  all: rewrite (LM1 (rg s RBX)), lmaddr_step; cbn zeta; rewrite <- B2.
  - assert (u1 = []) by (destruct u1; [reflexivity|cbn in LE1; lia]). subst u1. cbn [app] in T1.
    apply text_cons in T1 as (M & _ & A1 & _ & _).
    destruct (tail_run ts B s2 0 a1 (fun t h => conj (proj1 (co_tr D HD q t (TS1 t h))) (proj1 (proj2 (co_tr D HD q t (TS1 t h))))) K2 I2 M) as (s3 & S3 & F3 & B3 & R3); [lia|exact A1|].
    assert (N0 : first_tr ts 0 = None) by (apply first_tr_none'; intros t Hx; apply (co_tr D HD q t (TS1 t Hx))). rewrite N0 in R3.
    exists s3. split; [eapply star_trans; [exact S1|]; eapply star_trans; eauto|]. split; [eapply frame_trans; [exact F1|]; eapply frame_trans; eauto|].
    split; [exact R3|]. exact B3.
  - destruct u1 as [|c u1].
    + cbn [app] in T1. apply text_cons in T1 as (M & _ & A1 & _ & _).
      destruct (tail_run ts B s2 0 a1 (fun t h => conj (proj1 (co_tr D HD q t (TS1 t h))) (proj1 (proj2 (co_tr D HD q t (TS1 t h))))) K2 I2 M) as (s3 & S3 & F3 & B3 & R3); [lia|exact A1|].
      assert (N0 : first_tr ts 0 = None) by (apply first_tr_none'; intros t Hx; apply (co_tr D HD q t (TS1 t Hx))). rewrite N0 in R3.
      exists s3. split; [eapply star_trans; [exact S1|]; eapply star_trans; eauto|]. split; [eapply frame_trans; [exact F1|]; eapply frame_trans; eauto|].
      split; [exact R3|]. exact B3.
    + cbn [app] in T1. apply text_cons in T1 as (M & C1 & A1 & _ & T2).
      destruct (tail_run ts B s2 c a1 (fun t h => conj (proj1 (co_tr D HD q t (TS1 t h))) (proj1 (proj2 (co_tr D HD q t (TS1 t h))))) K2 I2 M C1 A1) as (s3 & S3 & F3 & B3 & R3).
      rewrite (FT1 c eq_refl) in R3. destruct (first_tr (dtrs (nth q D dnil)) c) as [d|] eqn:FT.
      * destruct R3 as [R3 I3]. apply first_tr_some in FT as (t & Ht & _ & Ed).
        assert (Hd : (d < length D)%nat) by (rewrite <- Ed; apply (co_tr D HD q t Ht)).
        destruct (lookup_state d Hd) as (A' & B' & EPd).
        assert (ES3 : pc s3 = emit_state p d (nth d D dnil) ++ B').
        { rewrite (find_at' P _ _ _ EPd HP) in R3. congruence. }
        destruct (IH u1 pad (a1 + 1) d s3 B') as (s4 & S4 & F4 & K4 & R4).
        -- cbn in LE1. lia.
        -- exact Hd.
        -- exact HE.
        -- exact T2.
        -- intros i. exact (U1 (S i)).
        -- rewrite ES3. rewrite EPd at 2 3. rewrite EPd at 1.
           replace (length (A' ++ IBind (lstate p d) :: emit_state p d (nth d D dnil) ++ B') - length (emit_state p d (nth d D dnil) ++ B'))%nat with (length (A' ++ [IBind (lstate p d)])).
           2:{ rewrite !app_length. cbn [length]. rewrite !app_length. lia. }
           change (A' ++ IBind (lstate p d) :: emit_state p d (nth d D dnil) ++ B') with (A' ++ [IBind (lstate p d)] ++ emit_state p d (nth d D dnil) ++ B').
           rewrite app_assoc. rewrite (firstn_app (length _)), Nat.sub_diag, firstn_all. cbn [firstn]. rewrite app_nil_r. reflexivity.
        -- exact ES3.
        -- exact I3.
        -- exists s4. split; [eapply star_trans; [exact S1|]; eapply star_trans; [exact S2|]; eapply star_trans; eauto|].
           split; [eapply frame_trans; [exact F1|]; eapply frame_trans; [exact F2|]; eapply frame_trans; eauto|]. split; [exact K4|]. rewrite R4, B3. reflexivity.
      * exists s3. split; [eapply star_trans; [exact S1|]; eapply star_trans; eauto|]. split; [eapply frame_trans; [exact F1|]; eapply frame_trans; eauto|].
        split; [exact R3|]. exact B3.
Qed.

(** The routine. *)
Theorem dfa_code_run u pad a s : enough pad -> text_at (mem e) a (u ++ 0 :: pad) -> (forall i, nth_error u i <> Some 0) -> 0 < a ->
  pc s = emit_dfa p rej D ++ post -> rg s RSI = a ->
  exists s', star P e s s' /\ frame s s' /\
    match longest D 0 u with
    | Some n => pc s' = post /\ rg s' RSI = a + N.of_nat n
    | None => pc s' = krej
    end.
Proof.
  intros HE HT HU Ha HPC HA.
  assert (H0 : (0 < length D)%nat) by (destruct D; [destruct (co_ne [] HD eq_refl)|cbn; lia]).
  destruct (lookup_state 0 H0) as (A' & B' & EP0). destruct s as [pc0 rg0 fl0 xl0 xp0 stk0 sav0 out0 ob0]. cbn [pc rg] in *. subst pc0.
  set (K := emit_state p 0 (nth 0 D dnil) ++ B') in *.
  destruct (state_run (length u) u pad a 0%nat (mkS K (setr RBX 0 rg0) fl0 xl0 xp0 stk0 sav0 out0 ob0) B') as (s1 & S1 & F1 & K1 & R1).
  - lia.
  - exact H0.
  - exact HE.
  - exact HT.
  - exact HU.
  - cbn [pc]. rewrite EP0 at 2 3. rewrite EP0 at 1. replace (length (A' ++ IBind (lstate p 0) :: K) - length K)%nat with (length (A' ++ [IBind (lstate p 0)])).
    2:{ rewrite !app_length. cbn [length]. lia. }
    change (A' ++ IBind (lstate p 0) :: K) with (A' ++ [IBind (lstate p 0)] ++ K).
    rewrite app_assoc. rewrite (firstn_app (length _)), Nat.sub_diag, firstn_all. cbn [firstn]. rewrite app_nil_r. reflexivity.
  - reflexivity.
  - exact HA.
  - assert (S0 : star P e (mkS (emit_dfa p rej D ++ post) rg0 fl0 xl0 xp0 stk0 sav0 out0 ob0) s1).
    { unfold emit_dfa. rewrite <- !app_assoc. cbn [app]. eapply star_step; [cbn [step pc]; reflexivity|].
      eapply star_step; [cbn [step pc set_reg]; rewrite (jump_at P HP _ _ _ _ EP0); reflexivity|]. exact S1. }
    change (rg (mkS K (setr RBX 0 rg0) fl0 xl0 xp0 stk0 sav0 out0 ob0) RBX) with 0 in R1.
    unfold lmaddr in R1. destruct s1 as [pc1 rg1 fl1 xl1 xp1 stk1 sav1 out1 ob1]. cbn [pc rg] in *. subst pc1. unfold kfinish in S0. cbn [app] in S0.
    destruct (longest D 0 u) as [n|].
    + eexists. split; [eapply star_trans; [exact S0|]; x1 idtac; x1 idtac; eapply star_step; [apply st_jcc_f|apply star_refl]|].
      * unfold setr. cbn [reg_eqb eval_cond]. rewrite R1. lia.
      * split; [exact F1|]. split; [reflexivity|]. exact R1.
    + eexists. split; [eapply star_trans; [exact S0|]; x1 idtac; x1 idtac; eapply star_step; [eapply st_jcc_t; [|exact HR]|apply star_refl]|].
      * unfold setr. cbn [reg_eqb eval_cond]. rewrite R1. reflexivity.
      * split; [exact F1|]. reflexivity.
Qed.
End Run.
