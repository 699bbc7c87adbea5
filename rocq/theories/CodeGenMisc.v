(** The generated literal matcher, white space skipper and lookahead code; stand-alone routines. *)
From Coq Require Import List NArith ZArith Arith Bool Lia ZifyBool ZifyN ZifyNat.
From Verif Require Import CharClass CharClassSpec NFA DFA DFAProofs DFAMin X86 X86Step CodeGen CodeGenProofs CodeGenSimd CodeGenDfa.
Import ListNotations.
Local Open Scope N_scope.

Fixpoint prefixb (s u : list N) : bool :=
  match s, u with
  | [], _ => true
  | x :: s', y :: u' => (x =? y) && prefixb s' u'
  | _ :: _, [] => false
  end.
Lemma prefixb_spec s : forall u, prefixb s u = true <-> exists v, u = s ++ v.
Proof.
  induction s as [|x s IH]; intros u; cbn.
  - split; [intros _; exists u; reflexivity|auto].
  - destruct u as [|y u]; [split; [discriminate|intros [v E]; discriminate]|].
    rewrite andb_true_iff, IH, N.eqb_eq. split.
    + intros [-> [v ->]]. exists v. reflexivity.
    + intros [v E]. injection E as -> ->. eauto.
Qed.
Lemma prefixb_nz s : (forall c, In c s -> c <> 0) -> forall u pad, prefixb s (u ++ 0 :: pad) = prefixb s u.
Proof.
  induction s as [|x s IH]; intros H u pad; [reflexivity|]. destruct u as [|y u]; cbn.
  - specialize (H x (or_introl eq_refl)). destruct (x =? 0) eqn:E; [apply N.eqb_eq in E; contradiction|reflexivity].
  - rewrite IH; [reflexivity|]. intros c Hc. apply H. right. exact Hc.
Qed.
Lemma prefixb_app s1 : forall s2 u, prefixb (s1 ++ s2) u = prefixb s1 u && prefixb s2 (skipn (length s1) u).
Proof.
  induction s1 as [|x s1 IH]; intros s2 u; [reflexivity|]. destruct u as [|y u]; cbn; [reflexivity|]. rewrite IH, andb_assoc. reflexivity.
Qed.
Lemma prefixb_firstn s : forall n u, (length s <= n)%nat -> prefixb s (firstn n u) = prefixb s u.
Proof.
  induction s as [|x s IH]; intros [|n] [|y u] H; cbn in *; try lia; try reflexivity. rewrite IH; [reflexivity|lia].
Qed.
Lemma prefixb_len s : forall u, prefixb s u = true -> (length s <= length u)%nat.
Proof. intros u H. apply prefixb_spec in H as [v ->]. rewrite app_length. lia. Qed.

Lemma idx_each_prefix : forall s b j, (forall c, In c s -> c <> 0) -> (length s <= length b)%nat ->
  (idx_each true true b (s ++ j) <? length s)%nat = negb (prefixb s b).
Proof.
  induction s as [|x s IH]; intros b j H L; [reflexivity|]. destruct b as [|y b]; [cbn in L; lia|].
  cbn [idx_each app prefixb length]. assert (X : (x =? 0) = false) by (apply N.eqb_neq; apply H; left; reflexivity). rewrite X. cbn [negb andb].
  destruct (y =? 0) eqn:Y; cbn [negb].
  - apply N.eqb_eq in Y. subst y. rewrite X. cbn. reflexivity.
  - cbn [andb]. rewrite (N.eqb_sym y x). destruct (x =? y) eqn:E; cbn [andb]; [|reflexivity].
    rewrite <- (IH b j); [reflexivity|intros c Hc; apply H; right; exact Hc|cbn in L; lia].
Qed.

Section Misc.
Variables (P : code) (e : env).
Hypothesis HP : NoDup (binds P).

Lemma match_bytes rej krej junk0 : find_lab P rej = Some krej -> forall s u pad a st0 k,
  (forall c, In c s -> c <> 0 /\ c < 256) -> text_at (mem e) a (u ++ 0 :: pad) ->
  pc st0 = flat_map (emit_byte rej) s ++ k -> rg st0 RSI = a -> junk0 = 0 ->
  exists s', star P e st0 s' /\ frame st0 s' /\ rg s' RBX = rg st0 RBX /\
    if prefixb s u then pc s' = k /\ rg s' RSI = a + N.of_nat (length s) else pc s' = krej.
Proof.
  intros HR. induction s as [|x s IH]; intros u pad a st0 k Hs HT HPC HA HJ.
  - cbn in HPC. exists st0. split; [constructor|]. split; [apply frame_refl|]. split; [reflexivity|]. cbn. rewrite N.add_0_r. auto.
  - destruct (Hs x (or_introl eq_refl)) as [X1 X2].
    destruct st0 as [pc0 rg0 fl0 xl0 xp0 stk0 sav0 out0 ob0]. cbn [pc rg] in *. subst pc0. cbn [flat_map emit_byte app].
    destruct (u ++ 0 :: pad) as [|y w] eqn:EU; [destruct u; discriminate|].
    apply text_cons in HT as (M & C & A1 & W & HT). assert (M0 : mem e (rg0 RSI) = Some y) by (rewrite HA; exact M).
    destruct (y =? x) eqn:E.
    + apply N.eqb_eq in E. subst y. destruct u as [|y u]; [cbn in EU; injection EU as E1 E2; congruence|]. cbn in EU. injection EU as -> <-.
      set (s1 := mkS (flat_map (emit_byte rej) s ++ k) (setr RSI (w64 (rg0 RSI + 1)) (setr RAX x rg0)) (Some (x, x)) xl0 xp0 stk0 sav0 out0 ob0).
      destruct (IH u pad (a + 1) s1 k) as (s2 & S2 & F2 & B2 & R2).
      { intros c Hc. apply Hs. right. exact Hc. } { exact HT. } { reflexivity. }
      { unfold s1. cbn [rg]. unfold setr. cbn [reg_eqb]. rewrite HA. exact W. } { exact HJ. }
      exists s2. split.
      { x1 ltac:(exact M0). x1 idtac. x1 idtac. eapply star_step; [apply st_jcc_f; unfold setr; cbn [reg_eqb eval_cond]; rewrite N.eqb_refl; reflexivity|]. exact S2. }
      split; [exact F2|]. split; [exact B2|]. cbn [prefixb]. rewrite N.eqb_refl. cbn [andb]. destruct (prefixb s u); [|exact R2].
      destruct R2 as [R2 I2]. split; [exact R2|]. rewrite I2. cbn [length]. lia.
    + eexists. split.
      { x1 ltac:(exact M0). x1 idtac. x1 idtac. eapply star_step; [eapply st_jcc_t; [unfold setr; cbn [reg_eqb eval_cond]; rewrite E; reflexivity|exact HR]|]. apply star_refl. }
      split; [repeat split|]. split; [reflexivity|].
      assert (NP : prefixb (x :: s) u = false); [|rewrite NP; reflexivity].
      destruct u as [|y' u]; [reflexivity|]. cbn in EU. injection EU as -> _. cbn. rewrite N.eqb_sym, E. reflexivity.
Qed.

Lemma match_chunks rej krej junk : find_lab P rej = Some krej -> forall n s u pad a st0 k,
  (length s <= n)%nat -> (forall c, In c s -> c <> 0 /\ c < 256) -> text_at (mem e) a (u ++ 0 :: pad) -> (15 <= length pad)%nat ->
  pc st0 = emit_chunks n rej junk s ++ k -> rg st0 RSI = a ->
  exists s', star P e st0 s' /\ frame st0 s' /\ rg s' RBX = rg st0 RBX /\
    if prefixb s u then pc s' = k /\ rg s' RSI = a + N.of_nat (length s) else pc s' = krej.
Proof.
  intros HR. induction n as [|n IH]; intros s u pad a st0 k Hn Hs HT Hp HPC HA.
  - assert (s = []) by (destruct s; [reflexivity|cbn in Hn; lia]). subst s. cbn in HPC. exists st0. split; [constructor|]. split; [apply frame_refl|].
    split; [reflexivity|]. cbn. rewrite N.add_0_r. auto.
  - destruct s as [|x0 s0]. { cbn in HPC. exists st0. split; [constructor|]. split; [apply frame_refl|]. split; [reflexivity|]. cbn. rewrite N.add_0_r. auto. }
    remember (x0 :: s0) as s eqn:Es. assert (HPC' : pc st0 = emit_chunk rej junk (firstn 16 s) ++ emit_chunks n rej junk (skipn 16 s) ++ k).
    { rewrite HPC, Es. cbn [emit_chunks]. rewrite <- app_assoc. reflexivity. }
    clear HPC. assert (Ls : (0 < length s)%nat) by (subst s; cbn; lia). clear x0 s0 Es.
    set (s1 := firstn 16 s) in *. set (l1 := N.of_nat (length s1)).
    assert (L1 : (length s1 <= 16)%nat) by (unfold s1; rewrite firstn_length; lia).
    assert (L1' : (0 < length s1)%nat) by (unfold s1; rewrite firstn_length; lia).
    assert (H1 : forall c, In c s1 -> c <> 0) by (intros c Hc; apply Hs; rewrite <- (firstn_skipn 16 s); apply in_or_app; left; exact Hc).
    assert (LT : (16 <= length (u ++ 0%N :: pad))%nat) by (rewrite app_length; cbn [length]; lia).
    set (b := firstn 16 (u ++ 0 :: pad)).
    assert (Lb : length b = 16%nat) by (unfold b; rewrite firstn_length; lia).
    assert (LD : load (mem e) a 16 = Some b) by (apply load_text; assumption).
    destruct st0 as [pc0 rg0 fl0 xl0 xp0 stk0 sav0 out0 ob0]. cbn [pc rg] in *. subst pc0.
    set (cst := s1 ++ map (fun i => junk (N.of_nat i)) (seq (length s1) (16 - length s1))).
    assert (CP : (N.of_nat (idx_each true true b cst) <? l1) = negb (prefixb s1 u)).
    { rewrite <- (prefixb_nz s1 H1 u pad), <- (prefixb_firstn s1 16 (u ++ 0 :: pad)) by exact L1. fold b. rewrite <- (idx_each_prefix s1 b (map (fun i => junk (N.of_nat i)) (seq (length s1) (16 - length s1)))); [|exact H1|lia].
      unfold l1. fold cst. lia. }
    assert (PA : prefixb s u = prefixb s1 u && prefixb (skipn 16 s) (skipn (length s1) u)) by (rewrite <- prefixb_app; unfold s1; rewrite firstn_skipn; reflexivity).
    assert (LDr : load (mem e) (rg0 RSI) 16 = Some b) by (rewrite HA; exact LD).
    unfold emit_chunk. cbn [app]. fold cst.
    destruct (prefixb s1 u) eqn:PX; cbn [negb andb] in *.
    + set (s2 := mkS (emit_chunks n rej junk (skipn 16 s) ++ k) (setr RSI (w64 (rg0 RSI + l1)) (setr RCX (N.of_nat (idx_each true true b cst)) rg0)) None b xp0 stk0 sav0 out0 ob0).
      assert (HA1 : a + N.of_nat (length (u ++ 0 :: pad)) < 2 ^ 64) by apply HT. rewrite app_length in HA1. cbn [length] in HA1.
      assert (LU := prefixb_len _ _ PX).
      destruct (IH (skipn 16 s) (skipn (length s1) u) pad (a + l1) s2 k) as (s3 & S3 & F3 & B3 & R3).
      { rewrite skipn_length. lia. } { intros c Hc. apply Hs. rewrite <- (firstn_skipn 16 s). apply in_or_app. right. exact Hc. }
      { rewrite <- (firstn_skipn (length s1) u), <- app_assoc in HT. apply text_skip in HT. rewrite firstn_length, Nat.min_l in HT by exact LU. exact HT. }
      { exact Hp. } { reflexivity. } { unfold s2. cbn [rg]. unfold setr. cbn [reg_eqb]. rewrite HA. apply w64_small. unfold l1. lia. }
      exists s3. split.
      { x1 ltac:(exact LDr). x1 ltac:(unfold pcmpistri; cbn [N.eqb Pos.eqb]; reflexivity). x1 idtac. eapply star_step; [apply st_jcc_f; unfold setr; cbn [reg_eqb eval_cond]; exact CP|].
        x1 idtac. exact S3. }
      split; [exact F3|]. split; [exact B3|]. rewrite PA. destruct (prefixb (skipn 16 s) (skipn (length s1) u)); [|exact R3].
      destruct R3 as [R3 I3]. split; [exact R3|]. rewrite I3. unfold l1. replace (length s) with (length s1 + length (skipn 16 s))%nat; [lia|].
      unfold s1. rewrite firstn_length, skipn_length. lia.
    + eexists. split.
      { x1 ltac:(exact LDr). x1 ltac:(unfold pcmpistri; cbn [N.eqb Pos.eqb]; reflexivity). x1 idtac. eapply star_step; [eapply st_jcc_t; [unfold setr; cbn [reg_eqb eval_cond]; exact CP|exact HR]|].
        apply star_refl. }
      split; [repeat split|]. split; [reflexivity|]. rewrite PA. reflexivity.
Qed.

Theorem match_code_run rej krej junk s u pad a st0 k : find_lab P rej = Some krej ->
  (forall c, In c s -> c <> 0 /\ c < 256) -> text_at (mem e) a (u ++ 0 :: pad) -> ((8 <= length s)%nat -> (15 <= length pad)%nat) ->
  pc st0 = emit_match rej junk s ++ k -> rg st0 RSI = a ->
  exists s', star P e st0 s' /\ frame st0 s' /\
    if prefixb s u then pc s' = k /\ rg s' RSI = a + N.of_nat (length s) else pc s' = krej.
Proof.
  intros HR Hs HT Hp HPC HA. unfold emit_match in HPC. destruct (length s <? 8)%nat eqn:E.
  - destruct (match_bytes rej krej 0 HR s u pad a st0 k Hs HT HPC HA eq_refl) as (s' & ? & ? & ? & ?). eauto.
  - destruct (match_chunks rej krej junk HR (length s) s u pad a st0 k (le_n _) Hs HT) as (s' & ? & ? & ? & ?); eauto. apply Hp. lia.
Qed.

(** White space. *)
Definition is_ws (c : N) : bool := (c =? 32) || (c =? 9) || (c =? 10) || (c =? 13).
Fixpoint ws_len (u : list N) : nat := match u with [] => O | c :: u' => if is_ws c then S (ws_len u') else O end.
Theorem skip_code_run p pre k : P = pre ++ emit_skip p ++ k -> forall u pad a st0, text_at (mem e) a (u ++ 0 :: pad) ->
  pc st0 = emit_skip p ++ k -> rg st0 RSI = a ->
  exists s', star P e st0 s' /\ frame st0 s' /\ pc s' = k /\ rg s' RSI = a + N.of_nat (ws_len u).
Proof.
  intros EP. assert (FL : find_lab P p = Some (tl (emit_skip p) ++ k)) by (apply (find_at' P pre); [exact EP|exact HP]).
  assert (G : forall u pad a st0, text_at (mem e) a (u ++ 0 :: pad) -> pc st0 = tl (emit_skip p) ++ k -> rg st0 RSI = a ->
     exists s', star P e st0 s' /\ frame st0 s' /\ pc s' = k /\ rg s' RSI = a + N.of_nat (ws_len u)).
  { induction u as [|c u IH]; intros pad a st0 HT HPC HA.
    - cbn [app] in HT. apply text_cons in HT as (M & _ & A1 & W & _).
      destruct st0 as [pc0 rg0 fl0 xl0 xp0 stk0 sav0 out0 ob0]. cbn [pc rg] in *. subst pc0. assert (M0 : mem e (rg0 RSI) = Some 0) by (rewrite HA; exact M).
      eexists. split.
      { cbn [emit_skip tl app]. x1 ltac:(exact M0). do 8 (x1 idtac || (eapply star_step; [apply st_jcc_f; reflexivity|])).
        eapply star_step; [apply st_jcc_f; reflexivity|]. x1 idtac. apply star_refl. }
      split; [repeat split|]. split; [reflexivity|]. cbn [rg]. unfold setr. cbn [reg_eqb]. rewrite HA, W. cbn [ws_len]. rewrite sub64_le by lia. lia.
    - cbn [app] in HT. apply text_cons in HT as (M & _ & A1 & W & HT).
      destruct st0 as [pc0 rg0 fl0 xl0 xp0 stk0 sav0 out0 ob0]. cbn [pc rg] in *. subst pc0. assert (M0 : mem e (rg0 RSI) = Some c) by (rewrite HA; exact M).
      cbn [ws_len]. destruct (is_ws c) eqn:E.
      + assert (J : exists g, star P e (mkS (tl (emit_skip p) ++ k) rg0 fl0 xl0 xp0 stk0 sav0 out0 ob0) (mkS (tl (emit_skip p) ++ k) (setr RSI (w64 (rg0 RSI + 1)) (setr RAX c rg0)) g xl0 xp0 stk0 sav0 out0 ob0)).
        { unfold is_ws in E. cbn [emit_skip tl app].
          destruct (c =? 32) eqn:E1; [eexists; x1 ltac:(exact M0); x1 idtac; x1 idtac; eapply star_step; [eapply st_jcc_t; [exact E1|exact FL]|apply star_refl]|].
          destruct (c =? 9) eqn:E2; [eexists; x1 ltac:(exact M0); x1 idtac; x1 idtac; eapply star_step; [apply st_jcc_f; exact E1|]; x1 idtac; eapply star_step; [eapply st_jcc_t; [exact E2|exact FL]|apply star_refl]|].
          destruct (c =? 10) eqn:E3; [eexists; x1 ltac:(exact M0); x1 idtac; x1 idtac; eapply star_step; [apply st_jcc_f; exact E1|]; x1 idtac; eapply star_step; [apply st_jcc_f; exact E2|]; x1 idtac; eapply star_step; [eapply st_jcc_t; [exact E3|exact FL]|apply star_refl]|].
          destruct (c =? 13) eqn:E4; [|discriminate]. eexists; x1 ltac:(exact M0); x1 idtac; x1 idtac; eapply star_step; [apply st_jcc_f; exact E1|]; x1 idtac; eapply star_step; [apply st_jcc_f; exact E2|]; x1 idtac;
            eapply star_step; [apply st_jcc_f; exact E3|]; x1 idtac; eapply star_step; [eapply st_jcc_t; [exact E4|exact FL]|apply star_refl]. }
        destruct J as [g J].
        destruct (IH pad (a + 1) (mkS (tl (emit_skip p) ++ k) (setr RSI (w64 (rg0 RSI + 1)) (setr RAX c rg0)) g xl0 xp0 stk0 sav0 out0 ob0) HT eq_refl) as (s2 & S2 & F2 & K2 & I2).
        { cbn [rg]. unfold setr. cbn [reg_eqb]. rewrite HA. exact W. }
        exists s2. split; [eapply star_trans; [exact J|exact S2]|]. split; [exact F2|]. split; [exact K2|]. rewrite I2. lia.
      + unfold is_ws in E. destruct (c =? 32) eqn:E1; [discriminate|]. destruct (c =? 9) eqn:E2; [discriminate|]. destruct (c =? 10) eqn:E3; [discriminate|]. destruct (c =? 13) eqn:E4; [discriminate|].
        eexists. split.
        { cbn [emit_skip tl app]. x1 ltac:(exact M0). x1 idtac. x1 idtac. eapply star_step; [apply st_jcc_f; exact E1|]. x1 idtac. eapply star_step; [apply st_jcc_f; exact E2|]. x1 idtac.
          eapply star_step; [apply st_jcc_f; exact E3|]. x1 idtac. eapply star_step; [apply st_jcc_f; exact E4|]. x1 idtac. apply star_refl. }
        split; [repeat split|]. split; [reflexivity|]. cbn [rg]. unfold setr. cbn [reg_eqb]. rewrite HA, W. rewrite sub64_le by lia. lia. }
  intros u pad a st0 HT HPC HA. destruct st0 as [pc0 rg0 fl0 xl0 xp0 stk0 sav0 out0 ob0]. cbn [pc rg] in *. subst pc0.
  destruct (G u pad a (mkS (tl (emit_skip p) ++ k) rg0 fl0 xl0 xp0 stk0 sav0 out0 ob0) HT eq_refl HA) as (s2 & S2 & R2).
  exists s2. split; [|exact R2]. cbn [emit_skip app tl] in *. x1 idtac. exact S2.
Qed.

(** Lookahead code.  [LExit k]: exit number k; [LReject]; [LMore]: the text ended first. *)
Inductive lres := LExit (k : nat) | LReject | LMore.
Fixpoint ldfa_go (L : ldfa) (q : nat) (w : list N) : lres :=
  match w with
  | [] => LMore
  | c :: w' => match first_lab (nth q L []) c with
               | None => LReject
               | Some d => if (0 <=? d)%Z then ldfa_go L (Z.to_nat d) w' else LExit (Z.to_nat (- d - 1))
               end
  end.
Lemma emit_lstates_split p rej exits : forall L i q, (q < length L)%nat -> exists A B,
  emit_lstates p rej exits i L = A ++ IBind (lstate p (i + q)) :: emit_lstate p rej exits (nth q L []) ++ B.
Proof.
  induction L as [|s L IH]; intros i q Hq; [cbn in Hq; lia|]. cbn [emit_lstates]. destruct q as [|q].
  - exists [], (emit_lstates p rej exits (S i) L). rewrite Nat.add_0_r. reflexivity.
  - destruct (IH (S i) q) as (A & B & E); [cbn in Hq; lia|]. rewrite E.
    exists (IBind (lstate p i) :: emit_lstate p rej exits s ++ A), B. replace (i + S q)%nat with (S i + q)%nat by lia. cbn [app nth]. rewrite <- app_assoc. reflexivity.
Qed.
(** What the lookahead code needs: proper labels, existing destinations and exits. *)
Definition lcodable (L : ldfa) (n : nat) : Prop := L <> [] /\ forall q cc d, In (cc, d) (nth q L []) ->
  proper cc /\ if (0 <=? d)%Z then (Z.to_nat d < length L)%nat else (Z.to_nat (- d - 1) < n)%nat.
Theorem ldfa_code_run1 p rej krej exits L pre k : find_lab P rej = Some krej -> P = pre ++ emit_ldfa p rej exits L ++ k ->
  lcodable L (length exits) -> (forall l, In l exits -> find_lab P l <> None) ->
  forall w a st0, text_at (mem e) a w -> ldfa_go L 0 w <> LMore -> pc st0 = emit_ldfa p rej exits L ++ k -> rg st0 RSI = a ->
  exists s1 s', step P e st0 = Next s1 /\ star P e s1 s' /\ frame st0 s' /\ rg s' RSI = a /\
    match ldfa_go L 0 w with
    | LExit j => find_lab P (nth j exits []) = Some (pc s')
    | LReject => pc s' = krej
    | LMore => False
    end.
Proof.
  intros HR EP [HL0 HL] HX.
  assert (LK : forall q, (q < length L)%nat -> exists A B, P = A ++ IBind (lstate p q) :: emit_lstate p rej exits (nth q L []) ++ B).
  { intros q Hq. destruct (emit_lstates_split p rej exits L 0 q Hq) as (A & B & E). cbn [Nat.add] in E. unfold emit_ldfa in EP. rewrite E in EP.
    exists (pre ++ IMov PEEK INPUT :: A), (B ++ k). rewrite EP. rewrite <- !app_assoc. cbn [app]. rewrite <- !app_assoc. cbn [app]. rewrite <- app_assoc. reflexivity. }
  assert (LF : forall q, (q < length L)%nat -> exists B, find_lab P (lstate p q) = Some (emit_lstate p rej exits (nth q L []) ++ B)).
  { intros q Hq. destruct (LK q Hq) as (A & B & E). exists B. exact (find_at' P A _ _ E HP). }
  assert (G : forall w b q st0 K, (q < length L)%nat -> text_at (mem e) b w -> ldfa_go L q w <> LMore -> pc st0 = emit_lstate p rej exits (nth q L []) ++ K -> rg st0 RBX = b ->
    exists s', star P e st0 s' /\ frame st0 s' /\ rg s' RSI = rg st0 RSI /\
    match ldfa_go L q w with
    | LExit j => find_lab P (nth j exits []) = Some (pc s')
    | LReject => pc s' = krej
    | LMore => False
    end).
  { induction w as [|c w IH]; intros b q st0 K Hq HT HM HPC HB; cbn [ldfa_go] in *; [congruence|].
    apply text_cons in HT as (M & C & A1 & W & HT).
    destruct st0 as [pc0 rg0 fl0 xl0 xp0 stk0 sav0 out0 ob0]. cbn [pc rg] in *. subst pc0. assert (M0 : mem e (rg0 RBX) = Some c) by (rewrite HB; exact M).
    set (ts := map (fun t : cclass * Z => (fst t, ldest p exits (snd t))) (nth q L [])).
    set (s1 := mkS (flat_map (fun t => emit_ranges (fst t) (snd t)) ts ++ [IJmp rej] ++ K) (setr RBX (w64 (rg0 RBX + 1)) (setr RCX c (setr RAX c rg0))) None xl0 xp0 stk0 sav0 out0 ob0).
    assert (S1 : star P e (mkS (emit_lstate p rej exits (nth q L []) ++ K) rg0 fl0 xl0 xp0 stk0 sav0 out0 ob0) s1).
    { unfold emit_lstate. rewrite <- !app_assoc. cbn [app]. x1 ltac:(exact M0). x1 idtac. x1 idtac. unfold s1, ts.
      replace (flat_map (fun t : cclass * label => emit_ranges (fst t) (snd t)) (map (fun t : cclass * Z => (fst t, ldest p exits (snd t))) (nth q L [])))
        with (flat_map (fun t : cclass * Z => emit_ranges (fst t) (ldest p exits (snd t))) (nth q L [])); [apply star_refl|].
      clear. induction (nth q L []) as [|t l IH]; [reflexivity|]. cbn. rewrite IH. reflexivity. }
    assert (FL : first_lab ts c = option_map (ldest p exits) (first_lab (nth q L []) c)).
    { unfold ts. clear. induction (nth q L []) as [|[cc d] l IH]; [reflexivity|]. cbn [map first_lab fst snd]. rewrite IH. destruct (includes cc c); reflexivity. }
    destruct (tests_run P e ts ([IJmp rej] ++ K) s1 c) as (s2 & S2 & F2 & I2 & B2 & R2).
    { intros cc l Hin. unfold ts in Hin. apply in_map_iff in Hin as ([cc' d] & Et & Ht). cbn [fst snd] in Et. injection Et as <- <-.
      destruct (HL q cc' d Ht) as [H1 H2]. split; [exact H1|]. unfold ldest. destruct (0 <=? d)%Z.
      - destruct (LF _ H2) as [B E]. rewrite E. discriminate.
      - apply HX. apply nth_In. exact H2. }
    { exact C. } { reflexivity. } { reflexivity. } { reflexivity. }
    rewrite FL in R2. destruct (first_lab (nth q L []) c) as [d|] eqn:FD; cbn [option_map] in R2.
    - assert (DD : exists cc, In (cc, d) (nth q L [])).
      { clear - FD. induction (nth q L []) as [|[cc x] l IH]; cbn in FD; [discriminate|]. destruct (includes cc c).
        - injection FD as ->. exists cc. left. reflexivity.
        - destruct (IH FD) as [cc' H]. exists cc'. right. exact H. }
      destruct DD as [cc Hin]. destruct (HL q cc d Hin) as [_ H2]. unfold ldest in R2. destruct (0 <=? d)%Z eqn:SG.
      + destruct (LF _ H2) as [B E].
        assert (PC2 : pc s2 = emit_lstate p rej exits (nth (Z.to_nat d) L []) ++ B) by congruence.
        destruct (IH (b + 1) (Z.to_nat d) s2 B H2 HT HM PC2) as (s3 & S3 & F3 & I3 & R3).
        { rewrite B2. unfold s1. cbn [rg]. unfold setr. cbn [reg_eqb]. rewrite HB. exact W. }
        exists s3. split; [eapply star_trans; [exact S1|]; eapply star_trans; eauto|]. split; [eapply frame_trans; [|exact F3]; exact F2|]. split; [rewrite I3, I2; reflexivity|]. exact R3.
      + exists s2. split; [eapply star_trans; eauto|]. split; [exact F2|]. split; [rewrite I2; reflexivity|]. exact R2.
    - destruct s2 as [pc2 rg2 fl2 xl2 xp2 stk2 sav2 out2 ob2]. cbn [pc rg] in *. subst pc2.
      eexists. split; [eapply star_trans; [exact S1|]; eapply star_trans; [exact S2|]; cbn [app]; x1 ltac:(exact HR); apply star_refl|].
      split; [exact F2|]. split; [exact I2|]. reflexivity. }
  intros w a st0 HT HM HPC HA. assert (L0 : (0 < length L)%nat) by (destruct L; [congruence|cbn; lia]).
  destruct st0 as [pc0 rg0 fl0 xl0 xp0 stk0 sav0 out0 ob0]. cbn [pc rg] in *. subst pc0.
  destruct L as [|l0 L']; [congruence|].
  destruct (G w a 0%nat (mkS (emit_lstate p rej exits l0 ++ emit_lstates p rej exits 1 L' ++ k) (setr RBX (rg0 RSI) rg0) fl0 xl0 xp0 stk0 sav0 out0 ob0) (emit_lstates p rej exits 1 L' ++ k) L0 HT HM eq_refl HA) as (s2 & S2 & F2 & I2 & R2).
  eexists _, s2. split; [unfold emit_ldfa; cbn [app]; apply st_mov|]. split; [|split; [exact F2|]; split; [rewrite I2; exact HA|exact R2]].
  cbn [emit_lstates app]. x1 idtac. rewrite <- app_assoc. exact S2.
Qed.
Theorem ldfa_code_run p rej krej exits L pre k : find_lab P rej = Some krej -> P = pre ++ emit_ldfa p rej exits L ++ k ->
  lcodable L (length exits) -> (forall l, In l exits -> find_lab P l <> None) ->
  forall w a st0, text_at (mem e) a w -> ldfa_go L 0 w <> LMore -> pc st0 = emit_ldfa p rej exits L ++ k -> rg st0 RSI = a ->
  exists s', star P e st0 s' /\ frame st0 s' /\ rg s' RSI = a /\
    match ldfa_go L 0 w with
    | LExit j => find_lab P (nth j exits []) = Some (pc s')
    | LReject => pc s' = krej
    | LMore => False
    end.
Proof.
  intros HR EP HL HX w a st0 HT HM HPC HA. destruct (ldfa_code_run1 p rej krej exits L pre k HR EP HL HX w a st0 HT HM HPC HA) as (s1 & s2 & S1 & S2 & R).
  exists s2. split; [eapply star_step; [exact S1|exact S2]|exact R].
Qed.
End Misc.
