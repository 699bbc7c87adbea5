(** The literal matcher on arbitrary memory. *)
From Coq Require Import List NArith ZArith Arith Bool Lia ZifyBool ZifyN ZifyNat.
From Verif Require Import CharClass CharClassSpec NFA DFA DFAProofs DFAMin Writer X86 X86Step CodeGen CodeGenProofs CodeGenSimd CodeGenDfa CodeGenMisc CodeGenRoutine CodeGenMem.
Import ListNotations.
Local Open Scope N_scope.

(** Reading byte by byte, the answer is found within [w]. *)
Fixpoint lit_seen (s w : list N) : bool :=
  match s, w with
  | [], _ => true
  | _ :: _, [] => false
  | x :: s', y :: w' => if y =? x then lit_seen s' w' else true
  end.
(** Reading in blocks of sixteen, the answer is found within [w]. *)
Fixpoint blocks_seen (n : nat) (s w : list N) : bool :=
  match n with
  | O => true
  | S k => match s with
           | [] => true
           | _ => (16 <=? length w)%nat && (if prefixb (firstn 16 s) w then blocks_seen k (skipn 16 s) (skipn (length (firstn 16 s)) w) else true)
           end
  end.
Lemma load_none e : forall n w a, text_at (mem e) a w -> (length w < n)%nat -> mem e (a + N.of_nat (length w)) = None -> load (mem e) a n = None.
Proof.
  induction n as [|n IH]; intros w a HT HL HM; [lia|]. cbn [load]. destruct w as [|c w].
  - cbn in HM. rewrite N.add_0_r in HM. rewrite HM. reflexivity.
  - apply text_cons in HT as (M & _ & _ & W & HT). rewrite M, W. rewrite (IH w (a + 1) HT); [reflexivity|cbn in HL; lia|].
    replace (a + 1 + N.of_nat (length w)) with (a + N.of_nat (length (c :: w))) by (cbn [length]; lia). exact HM.
Qed.

Section Lit.
Variables (P : code) (e : env) (rej : label) (krej : code).
Hypothesis HR : find_lab P rej = Some krej.
Definition faults (s : st) : Prop := step P e s = Fault.

Lemma bytes_mem : forall s w a st0 k, (forall c, In c s -> c <> 0 /\ c < 256) -> text_at (mem e) a w ->
  (lit_seen s w = false -> mem e (a + N.of_nat (length w)) = None) ->
  pc st0 = flat_map (emit_byte rej) s ++ k -> rg st0 RSI = a ->
  exists s', star P e st0 s' /\
    if lit_seen s w then frame st0 s' /\ if prefixb s w then pc s' = k /\ rg s' RSI = a + N.of_nat (length s) else pc s' = krej
    else faults s'.
Proof.
  induction s as [|x s IH]; intros w a st0 k Hs HT HM HPC HA.
  - cbn in HPC. exists st0. split; [constructor|]. split; [apply frame_refl|]. cbn. rewrite N.add_0_r. auto.
  - destruct (Hs x (or_introl eq_refl)) as [X1 X2].
    destruct st0 as [pc0 rg0 fl0 xl0 xp0 stk0 sav0 out0 ob0]. cbn [pc rg] in *. subst pc0. cbn [flat_map emit_byte app lit_seen prefixb] in *.
    destruct w as [|y w].
    + eexists. split; [apply star_refl|]. cbn [length] in HM. rewrite N.add_0_r in HM. unfold faults, step. cbn [pc rg]. change INPUT with RSI. rewrite HA, (HM eq_refl). reflexivity.
    + apply text_cons in HT as (M & C & A1 & W & HT). assert (M0 : mem e (rg0 RSI) = Some y) by (rewrite HA; exact M).
      rewrite (N.eqb_sym x y). destruct (y =? x) eqn:E.
      * apply N.eqb_eq in E. subst y.
        set (s1 := mkS (flat_map (emit_byte rej) s ++ k) (setr RSI (w64 (rg0 RSI + 1)) (setr RAX x rg0)) (Some (x, x)) xl0 xp0 stk0 sav0 out0 ob0).
        destruct (IH w (a + 1) s1 k) as (s2 & S2 & R2).
        { intros c Hc. apply Hs. right. exact Hc. } { exact HT. }
        { intros K. replace (a + 1 + N.of_nat (length w)) with (a + N.of_nat (length (x :: w))) by (cbn [length]; lia). exact (HM K). }
        { reflexivity. }
        { unfold s1. cbn [rg]. unfold setr. cbn [reg_eqb]. rewrite HA. exact W. }
        exists s2. split.
        { x1 ltac:(exact M0). x1 idtac. x1 idtac. eapply star_step; [apply st_jcc_f; unfold setr; cbn [reg_eqb eval_cond]; rewrite N.eqb_refl; reflexivity|]. exact S2. }
        cbn [andb]. destruct (lit_seen s w); [|exact R2]. destruct R2 as [F2 R2]. split; [exact F2|]. destruct (prefixb s w); [|exact R2].
        destruct R2 as [R2 I2]. split; [exact R2|]. rewrite I2. cbn [length]. lia.
      * eexists. split.
        { x1 ltac:(exact M0). x1 idtac. x1 idtac. eapply star_step; [eapply st_jcc_t; [unfold setr; cbn [reg_eqb eval_cond]; rewrite E; reflexivity|exact HR]|]. apply star_refl. }
        split; [repeat split|reflexivity].
Qed.

Lemma chunks_mem junk : forall n s w a st0 k, (length s <= n)%nat -> (forall c, In c s -> c <> 0 /\ c < 256) -> text_at (mem e) a w ->
  (blocks_seen n s w = false -> mem e (a + N.of_nat (length w)) = None) ->
  pc st0 = emit_chunks n rej junk s ++ k -> rg st0 RSI = a ->
  exists s', star P e st0 s' /\
    if blocks_seen n s w then frame st0 s' /\ if prefixb s w then pc s' = k /\ rg s' RSI = a + N.of_nat (length s) else pc s' = krej
    else faults s'.
Proof.
  induction n as [|n IH]; intros s w a st0 k Hn Hs HT HM HPC HA.
  - assert (s = []) by (destruct s; [reflexivity|cbn in Hn; lia]). subst s. cbn in HPC. exists st0. split; [constructor|]. split; [apply frame_refl|]. cbn. rewrite N.add_0_r. auto.
  - destruct s as [|x0 s0]. { cbn in HPC. exists st0. split; [constructor|]. split; [apply frame_refl|]. cbn. rewrite N.add_0_r. auto. }
    remember (x0 :: s0) as s eqn:Es. assert (HPC' : pc st0 = emit_chunk rej junk (firstn 16 s) ++ emit_chunks n rej junk (skipn 16 s) ++ k).
    { rewrite HPC, Es. cbn [emit_chunks]. rewrite <- app_assoc. reflexivity. }
    assert (BS : blocks_seen (S n) s w = (16 <=? length w)%nat && (if prefixb (firstn 16 s) w then blocks_seen n (skipn 16 s) (skipn (length (firstn 16 s)) w) else true)) by (rewrite Es; reflexivity).
    rewrite BS in *. clear HPC BS. assert (Ls : (0 < length s)%nat) by (subst s; cbn; lia). clear x0 s0 Es.
    set (s1 := firstn 16 s) in *. set (l1 := N.of_nat (length s1)).
    assert (L1 : (length s1 <= 16)%nat) by (unfold s1; rewrite firstn_length; lia).
    assert (L1' : (0 < length s1)%nat) by (unfold s1; rewrite firstn_length; lia).
    assert (H1 : forall c, In c s1 -> c <> 0) by (intros c Hc; apply Hs; rewrite <- (firstn_skipn 16 s); apply in_or_app; left; exact Hc).
    destruct st0 as [pc0 rg0 fl0 xl0 xp0 stk0 sav0 out0 ob0]. cbn [pc rg] in *. subst pc0.
    destruct (16 <=? length w)%nat eqn:LT; cbn [andb] in *.
    2:{ eexists. split; [apply star_refl|]. unfold faults, step, emit_chunk. cbn [pc rg app]. change INPUT with RSI. rewrite HA, (load_none e 16 w a HT); [reflexivity|lia|exact (HM eq_refl)]. }
    set (b := firstn 16 w).
    assert (Lb : length b = 16%nat) by (unfold b; rewrite firstn_length; lia).
    assert (LD : load (mem e) a 16 = Some b) by (apply load_text; [exact HT|lia]).
    set (cst := s1 ++ map (fun i => junk (N.of_nat i)) (seq (length s1) (16 - length s1))).
    assert (CP : (N.of_nat (idx_each true true b cst) <? l1) = negb (prefixb s1 w)).
    { rewrite <- (prefixb_firstn s1 16 w) by exact L1. fold b. rewrite <- (idx_each_prefix s1 b (map (fun i => junk (N.of_nat i)) (seq (length s1) (16 - length s1)))); [|exact H1|lia].
      unfold l1. fold cst. lia. }
    assert (PA : prefixb s w = prefixb s1 w && prefixb (skipn 16 s) (skipn (length s1) w)) by (rewrite <- prefixb_app; unfold s1; rewrite firstn_skipn; reflexivity).
    assert (LDr : load (mem e) (rg0 RSI) 16 = Some b) by (rewrite HA; exact LD).
    unfold emit_chunk. cbn [app]. fold cst.
    destruct (prefixb s1 w) eqn:PX; cbn [negb andb] in *.
    + set (s2 := mkS (emit_chunks n rej junk (skipn 16 s) ++ k) (setr RSI (w64 (rg0 RSI + l1)) (setr RCX (N.of_nat (idx_each true true b cst)) rg0)) None b xp0 stk0 sav0 out0 ob0).
      assert (HA1 : a + N.of_nat (length w) < 2 ^ 64) by apply HT.
      assert (LU := prefixb_len _ _ PX).
      destruct (IH (skipn 16 s) (skipn (length s1) w) (a + l1) s2 k) as (s3 & S3 & R3).
      { rewrite skipn_length. lia. } { intros c Hc. apply Hs. rewrite <- (firstn_skipn 16 s). apply in_or_app. right. exact Hc. }
      { rewrite <- (firstn_skipn (length s1) w) in HT. apply text_skip in HT. rewrite firstn_length, Nat.min_l in HT by exact LU. exact HT. }
      { intros K. rewrite skipn_length. unfold l1. replace (a + N.of_nat (length s1) + N.of_nat (length w - length s1)) with (a + N.of_nat (length w)) by lia. exact (HM K). }
      { reflexivity. } { unfold s2. cbn [rg]. unfold setr. cbn [reg_eqb]. rewrite HA. apply w64_small. unfold l1. lia. }
      exists s3. split.
      { x1 ltac:(exact LDr). x1 ltac:(unfold pcmpistri; cbn [N.eqb Pos.eqb]; reflexivity). x1 idtac. eapply star_step; [apply st_jcc_f; unfold setr; cbn [reg_eqb eval_cond]; exact CP|].
        x1 idtac. exact S3. }
      rewrite PA. destruct (blocks_seen n (skipn 16 s) (skipn (length s1) w)); [|exact R3]. destruct R3 as [F3 R3]. split; [exact F3|].
      destruct (prefixb (skipn 16 s) (skipn (length s1) w)); [|exact R3].
      destruct R3 as [R3 I3]. split; [exact R3|]. rewrite I3. unfold l1. replace (length s) with (length s1 + length (skipn 16 s))%nat; [lia|].
      unfold s1. rewrite firstn_length, skipn_length. lia.
    + eexists. split.
      { x1 ltac:(exact LDr). x1 ltac:(unfold pcmpistri; cbn [N.eqb Pos.eqb]; reflexivity). x1 idtac. eapply star_step; [eapply st_jcc_t; [unfold setr; cbn [reg_eqb eval_cond]; exact CP|exact HR]|].
        apply star_refl. }
      split; [repeat split|]. rewrite PA. reflexivity.
Qed.
End Lit.

Definition seen (s w : list N) : bool := if (length s <? 8)%nat then lit_seen s w else blocks_seen (length s) s w.
Theorem match_code_mem P e rej krej junk s w a st0 k : find_lab P rej = Some krej ->
  (forall c, In c s -> c <> 0 /\ c < 256) -> text_at (mem e) a w -> (seen s w = false -> mem e (a + N.of_nat (length w)) = None) ->
  pc st0 = emit_match rej junk s ++ k -> rg st0 RSI = a ->
  exists s', star P e st0 s' /\
    if seen s w then frame st0 s' /\ if prefixb s w then pc s' = k /\ rg s' RSI = a + N.of_nat (length s) else pc s' = krej
    else faults P e s'.
Proof.
  intros HR Hs HT HM HPC HA. unfold emit_match in HPC. unfold seen in *. destruct (length s <? 8)%nat eqn:E.
  - exact (bytes_mem P e rej krej HR s w a st0 k Hs HT HM HPC HA).
  - exact (chunks_mem P e rej krej HR junk (length s) s w a st0 k (le_n _) Hs HT HM HPC HA).
Qed.
Theorem match_routine_mem junk s e r w : (forall c, In c s -> c <> 0 /\ c < 256) -> text_at (mem e) (r RDI) w -> seen s w = true ->
  returns (match_routine junk s) e r (if prefixb s w then r RDI + N.of_nat (length s) else 0).
Proof.
  intros Hs HT HH. apply wrap_run; [exact (match_nodup junk s)|]. intros s0 krej HPC HA HR.
  destruct (match_code_mem (match_routine junk s) e rej0 krej junk s w (r RDI) s0 (epilog [] rej0) HR Hs HT) as (s' & S & X); [congruence|exact HPC|exact HA|].
  rewrite HH in X. destruct X as [F X]. exists s'. split; [exact S|]. split; [exact F|]. destruct (prefixb s w); [left; exact X|right; auto].
Qed.
Theorem match_routine_fault junk s e r w : (forall c, In c s -> c <> 0 /\ c < 256) -> text_at (mem e) (r RDI) w -> seen s w = false ->
  mem e (r RDI + N.of_nat (length w)) = None -> forall v, ~ returns (match_routine junk s) e r v.
Proof.
  intros Hs HT HH HM v V. destruct (V [] [] [] [] (mkW [] [] 0) 0) as (sE & SE & EE & _). revert EE.
  set (R := match_routine junk s) in *. assert (HN : NoDup (binds R)) by exact (match_nodup junk s).
  set (k0 := [SVal (r RBX); SVal (r RCX); SVal (r RDX); SVal (r RSI); SVal (r RDI); SVal (r RBP); SVal (r R8); SSav []; SRet []]).
  set (s1 := mkS (emit_match rej0 junk s ++ epilog [] rej0) (setr RSI (r RDI) r) None [] [] k0 k0 (mkW [] [] 0) 0).
  assert (S1 : star R e (call_state R r [] [] [] [] (mkW [] [] 0) 0) s1).
  { unfold call_state, R at 2, match_routine. cbn [prolog app]. do 9 (x1 idtac). x1 ltac:(reflexivity). apply star_refl. }
  assert (FR : find_lab R rej0 = Some (skipn 3 (epilog [] rej0))).
  { apply (find_at' R (prolog ++ [ILoadS INPUT 4] ++ emit_match rej0 junk s ++ firstn 2 (epilog [] rej0))); [|exact HN]. unfold R, match_routine. rewrite <- !app_assoc. reflexivity. }
  destruct (match_code_mem R e rej0 _ junk s w (r RDI) s1 (epilog [] rej0) FR Hs HT (fun _ => HM) eq_refl eq_refl) as (s2 & S2 & X).
  rewrite HH in X. apply (star_fault R e (call_state R r [] [] [] [] (mkW [] [] 0) 0) s2 sE); [eapply star_trans; eauto|exact X|exact SE].
Qed.

(** ** What was read, said without recursion *)
Lemma lit_seen_spec : forall s w, lit_seen s w = false <-> exists z, z <> [] /\ s = w ++ z.
Proof.
  induction s as [|x s IH]; intros [|y w]; cbn [lit_seen].
  - split; [discriminate|]. intros (z & Z & E). destruct Z. symmetry. exact E.
  - split; [discriminate|]. intros (z & Z & E). discriminate.
  - split; [intros _; exists (x :: s); split; [discriminate|reflexivity]|reflexivity].
  - destruct (y =? x) eqn:Q.
    + apply N.eqb_eq in Q. subst y. rewrite IH. split; intros (z & Z & E); exists z; (split; [exact Z|]); [rewrite E; reflexivity|injection E as E; exact E].
    + split; [discriminate|]. intros (z & Z & E). injection E as E _. apply N.eqb_neq in Q. congruence.
Qed.
(** Block [j] of the literal is looked at if the blocks before it are there; then sixteen bytes are read. *)
Lemma blocks_seen_spec : forall n s w, (length s <= n)%nat -> blocks_seen n s w = true <->
  forall j, (16 * j < length s)%nat -> (exists z, w = firstn (16 * j) s ++ z) -> (16 * j + 16 <= length w)%nat.
Proof.
  induction n as [|n IH]; intros s w Hn; cbn [blocks_seen].
  - destruct s; [|cbn in Hn; lia]. split; [intros _ j Hj; cbn in Hj; lia|reflexivity].
  - destruct s as [|x0 s0]; [split; [intros _ j Hj; cbn in Hj; lia|reflexivity]|]. remember (x0 :: s0) as s eqn:Es. assert (Ls : (0 < length s)%nat) by (subst s; cbn; lia). clear x0 s0 Es.
    rewrite andb_true_iff. assert (L1 : length (firstn 16 s) = Nat.min 16 (length s)) by apply firstn_length.
    split.
    + intros [H1 H2] [|j] Hj [z Hz]; [lia|]. assert (L16 : length (firstn 16 s) = 16%nat) by lia.
      assert (F : firstn (16 * S j) s = firstn 16 s ++ firstn (16 * j) (skipn 16 s)).
      { rewrite <- (firstn_skipn 16 s) at 1. rewrite firstn_app, L16. replace (16 * S j - 16)%nat with (16 * j)%nat by lia. f_equal. apply firstn_all2. lia. }
      rewrite F, <- app_assoc in Hz.
      assert (PX : prefixb (firstn 16 s) w = true) by (apply prefixb_spec; eexists; exact Hz). rewrite PX, L16 in H2.
      assert (SK : skipn 16 w = firstn (16 * j) (skipn 16 s) ++ z) by (rewrite Hz, skipn_app, L16, Nat.sub_diag, skipn_all2 by lia; reflexivity).
      apply IH with (j := j) in H2; [|rewrite skipn_length; lia|rewrite skipn_length; lia|eauto]. rewrite skipn_length in H2. lia.
    + intros H. split; [specialize (H 0%nat Ls (ex_intro _ w eq_refl)); lia|]. destruct (prefixb (firstn 16 s) w) eqn:PX; [|reflexivity].
      apply IH; [rewrite skipn_length; lia|]. intros j Hj [z Hz]. rewrite skipn_length in Hj. assert (L16 : length (firstn 16 s) = 16%nat) by lia. rewrite L16 in *.
      apply prefixb_spec in PX as [v Hv]. assert (SK : skipn 16 w = v) by (rewrite Hv, skipn_app, L16, Nat.sub_diag, skipn_all2 by lia; reflexivity).
      assert (F : firstn (16 * S j) s = firstn 16 s ++ firstn (16 * j) (skipn 16 s)).
      { rewrite <- (firstn_skipn 16 s) at 1. rewrite firstn_app, L16. replace (16 * S j - 16)%nat with (16 * j)%nat by lia. f_equal. apply firstn_all2. lia. }
      specialize (H (S j) ltac:(lia)). rewrite skipn_length. cut (16 * S j + 16 <= length w)%nat; [lia|]. apply H. exists z. rewrite F, <- app_assoc, <- Hz, SK. exact Hv.
Qed.
