(** Stand-alone routines: calling the generated function. *)
From Coq Require Import List NArith ZArith Arith Bool Lia ZifyBool ZifyN ZifyNat.
From Verif Require Import CharClass CharClassSpec NFA DFA DFAProofs DFAMin Writer X86 X86Step CodeGen CodeGenProofs CodeGenSimd CodeGenDfa CodeGenMisc.
Import ListNotations.
Local Open Scope N_scope.

(** Calling a function: registers [r] (argument 1 in rdi), a return address on the stack. *)
Definition call_state (R : code) (r : reg -> N) (x p : list N) (sv q : list slot) (o : wstate) (b : N) : st :=
  mkS R r None x p (SRet [] :: q) sv o b.
(** The function ends normally (it takes finitely many steps, none of which faults), its result is
    [v], it restores every register but the result, the stack and the output. *)
Definition returns (R : code) (e : env) (r : reg -> N) (v : N) : Prop :=
  forall x p sv q o b, exists s, star R e (call_state R r x p sv q o b) s /\ pc s = [] /\ rg s RAX = v /\
    (forall i, i <> RAX -> rg s i = r i) /\ stk s = q /\ sav s = sv /\ out s = o.

(** ** Fresh labels *)
Lemma binds_ranges cc l : binds (emit_ranges cc l) = [].
Proof.
  induction cc as [|r cc IH]; [reflexivity|]. cbn [emit_ranges flat_map]. rewrite binds_app. fold (emit_ranges cc l). rewrite IH, app_nil_r.
  unfold emit_range. destruct (rs r + 1 =? re r); reflexivity.
Qed.
Lemma binds_flat {A} (f : A -> code) l : (forall x, binds (f x) = []) -> binds (flat_map f l) = [].
Proof. intros H. induction l as [|x l IH]; [reflexivity|]. cbn. rewrite binds_app, H, IH. reflexivity. Qed.
Lemma binds_tail p ts : binds (emit_tail p ts) = [].
Proof.
  assert (G : binds (flat_map (fun t : ntr => emit_ranges (tlab t) (lstate p (tdest t))) ts ++ [IJmp (lfinish p)]) = []).
  { rewrite binds_app, binds_flat; [reflexivity|]. intros t. apply binds_ranges. }
  unfold emit_tail. destruct ts as [|t ts]; [reflexivity|]. destruct ts as [|t' ts].
  - destruct (tlab t) as [|r [|r' l]]; [exact G| |exact G]. rewrite binds_app. cbn. destruct (rs r + 1 =? re r); reflexivity.
  - rewrite binds_app. exact G.
Qed.
Lemma emit_state_eq p q s : emit_state p q s = fst (emit_loops p q (dlong s) 0 (dtrs s)) ++ (if dacc s then [IMov BACKUP INPUT] else []) ++ emit_tail p (snd (emit_loops p q (dlong s) 0 (dtrs s))).
Proof. unfold emit_state. destruct (emit_loops p q (dlong s) 0 (dtrs s)). reflexivity. Qed.
Lemma binds_loops p q lg : forall ts j, (forall l, In l (binds (fst (emit_loops p q lg j ts))) -> exists i, (j <= i)%nat /\ l = lloop p q i) /\ NoDup (binds (fst (emit_loops p q lg j ts))).
Proof.
  induction ts as [|t ts IH]; intros j; cbn [emit_loops].
  - split; [intros l []|constructor].
  - destruct (IH (S j)) as [I1 I2]. destruct (emit_loops p q lg (S j) ts) as [c rest]. cbn [fst] in *.
    destruct ((tdest t =? q)%nat && lg); cbn [fst].
    + rewrite binds_app. cbn [emit_loop binds app]. split.
      * intros l [<-|H]; [exists j; split; [lia|reflexivity]|]. destruct (I1 l H) as (i & ? & ->). exists i. split; [lia|reflexivity].
      * constructor; [|exact I2]. intros H. destruct (I1 _ H) as (i & Hi & E). unfold lloop in E. injection E as E. lia.
    + split; [|exact I2]. intros l H. destruct (I1 l H) as (i & ? & ->). exists i. split; [lia|reflexivity].
Qed.
Lemma binds_state p q s : (forall l, In l (binds (emit_state p q s)) -> exists i, l = lloop p q i) /\ NoDup (binds (emit_state p q s)).
Proof.
  rewrite emit_state_eq. destruct (binds_loops p q (dlong s) (dtrs s) 0%nat) as [B1 B2].
  rewrite !binds_app, binds_tail. replace (binds (if dacc s then [IMov BACKUP INPUT] else [])) with (@nil label) by (destruct (dacc s); reflexivity).
  cbn [app]. rewrite app_nil_r. split; [|exact B2]. intros l H. destruct (B1 l H) as (i & _ & E). eauto.
Qed.
Lemma NoDup_app_intro {A} (a b : list A) : NoDup a -> NoDup b -> (forall x, In x a -> In x b -> False) -> NoDup (a ++ b).
Proof.
  induction a as [|x a IH]; intros Ha Hb H; [exact Hb|]. cbn. inversion Ha; subst. constructor.
  - rewrite in_app_iff. intros [K|K]; [contradiction|]. apply (H x); [left; reflexivity|exact K].
  - apply IH; [assumption|assumption|]. intros y Hy. apply H. right. exact Hy.
Qed.
Lemma binds_states p : forall D i, (forall l, In l (binds (emit_states p i D)) -> exists k, (i <= k)%nat /\ (l = lstate p k \/ exists j, l = lloop p k j)) /\ NoDup (binds (emit_states p i D)).
Proof.
  induction D as [|s D IH]; intros i; cbn [emit_states].
  - split; [intros l []|constructor].
  - destruct (IH (S i)) as [I1 I2]. destruct (binds_state p i s) as [B1 B2]. cbn [binds]. rewrite binds_app. split.
    + intros l [<-|H]; [exists i; auto|]. apply in_app_or in H as [H|H].
      * destruct (B1 l H) as [j ->]. exists i. split; [lia|]. right. eauto.
      * destruct (I1 l H) as (k & ? & ?). exists k. split; [lia|assumption].
    + constructor.
      * intros H. apply in_app_or in H as [H|H].
        -- destruct (B1 _ H) as [j E]. discriminate.
        -- destruct (I1 _ H) as (k & Hk & [E|[j E]]); [|discriminate]. unfold lstate in E. injection E as E. lia.
      * apply NoDup_app_intro; [exact B2|exact I2|]. intros l H1 H2. destruct (B1 _ H1) as [j ->].
        destruct (I1 _ H2) as (k & Hk & [E|[j' E]]); [discriminate|]. unfold lloop in E. injection E as E. lia.
Qed.
Definition dfa_label (p l : label) : Prop := (exists k, l = lstate p k) \/ (exists k j, l = lloop p k j) \/ l = lfinish p.
Lemma binds_dfa p rej D : (forall l, In l (binds (emit_dfa p rej D)) -> dfa_label p l) /\ NoDup (binds (emit_dfa p rej D)).
Proof.
  destruct (binds_states p D 0%nat) as [B1 B2]. unfold emit_dfa. rewrite !binds_app. cbn [binds app]. split.
  - intros l H. apply in_app_or in H as [H|[<-|[]]]; [|right; right; reflexivity].
    destruct (B1 _ H) as (k & _ & [->|[j ->]]); [left; eauto|right; left; eauto].
  - apply NoDup_app_intro; [exact B2|constructor; [intros []|constructor]|].
    intros l H [<-|[]]. destruct (B1 _ H) as (k & _ & [E|[j E]]); discriminate.
Qed.
Lemma binds_epilog p rej : binds (epilog p rej) = [rej; 3%nat :: p]. Proof. reflexivity. Qed.
Lemma dfa_routine_nodup D : NoDup (binds (dfa_routine D)).
Proof.
  unfold dfa_routine. rewrite !binds_app. cbn [prolog binds app]. destruct (binds_dfa [] rej0 D) as [B1 B2]. rewrite binds_epilog.
  apply NoDup_app_intro; [exact B2|repeat constructor; cbn; intuition discriminate|].
  intros l H K. destruct (B1 _ H) as [[k E]|[(k & j & E)|E]]; subst l; cbn in K; destruct K as [K|[K|[]]]; discriminate.
Qed.

(** ** Prologue and epilogue *)
Lemma wrap_run e r v body p rej :
  let R := prolog ++ [ILoadS INPUT 4] ++ body ++ epilog p rej in
  NoDup (binds R) ->
  (forall s krej, pc s = body ++ epilog p rej -> rg s RSI = r RDI -> find_lab R rej = Some krej ->
     exists s', star R e s s' /\ frame s s' /\ ((pc s' = epilog p rej /\ rg s' RSI = v) \/ (pc s' = krej /\ v = 0))) ->
  returns R e r v.
Proof.
  intros R HN HB x0 p0 sv q o b. unfold call_state.
  set (k0 := [SVal (r RBX); SVal (r RCX); SVal (r RDX); SVal (r RSI); SVal (r RDI); SVal (r RBP); SVal (r R8); SSav sv; SRet []] ++ q).
  set (s1 := mkS (body ++ epilog p rej) (setr RSI (r RDI) r) None x0 p0 k0 k0 o b).
  assert (S1 : star R e (mkS R r None x0 p0 (SRet [] :: q) sv o b) s1).
  { unfold R at 2. cbn [prolog app]. do 9 (x1 idtac). x1 ltac:(reflexivity). apply star_refl. }
  assert (FR : find_lab R rej = Some (skipn 3 (epilog p rej))).
  { apply (find_at' R (prolog ++ [ILoadS INPUT 4] ++ body ++ firstn 2 (epilog p rej))); [|exact HN]. unfold R. rewrite <- !app_assoc. reflexivity. }
  assert (FA : find_lab R (3%nat :: p) = Some (skipn 6 (epilog p rej))).
  { apply (find_at' R (prolog ++ [ILoadS INPUT 4] ++ body ++ firstn 5 (epilog p rej))); [|exact HN]. unfold R. rewrite <- !app_assoc. reflexivity. }
  destruct (HB s1 _ eq_refl eq_refl FR) as (s2 & S2 & (F1 & F2 & F3 & F4 & F5 & F6 & F7 & F8) & C).
  destruct s2 as [pc2 rg2 fl2 xl2 xp2 stk2 sav2 out2 ob2]. cbn [pc rg stk sav out obase s1] in *. subst stk2 sav2 out2 ob2.
  destruct C as [[-> I]|[-> ->]].
  - eexists. split.
    { eapply star_trans; [exact S1|]. eapply star_trans; [exact S2|]. unfold epilog. x1 idtac. x1 ltac:(exact FA). unfold epilog. cbn [skipn]. unfold k0. cbn [app]. do 9 (x1 idtac). apply star_refl. }
    cbn [pc rg stk sav out]. split; [reflexivity|]. split; [exact I|]. split; [|auto].
    intros i Hi. destruct i; try reflexivity. congruence.
  - eexists. split.
    { eapply star_trans; [exact S1|]. eapply star_trans; [exact S2|]. unfold epilog. cbn [skipn]. x1 idtac. x1 idtac. x1 idtac. unfold k0. cbn [app]. do 9 (x1 idtac). apply star_refl. }
    cbn [pc rg stk sav out]. split; [reflexivity|]. split; [reflexivity|]. split; [|auto].
    intros i Hi. destruct i; try reflexivity. congruence.
Qed.

(** The input text [u], NUL-terminated, at the address in the first argument; [pad]: mapped bytes behind the NUL. *)
Definition input_at (e : env) (r : reg -> N) (u pad : list N) : Prop :=
  0 < r RDI /\ text_at (mem e) (r RDI) (u ++ 0 :: pad) /\ (forall c, In c u -> c <> 0).
Lemma input_nz u : (forall c, In c u -> c <> 0) -> forall i, nth_error u i <> Some 0.
Proof. intros H i E. apply nth_error_In in E. exact (H 0 E eq_refl). Qed.

Theorem dfa_routine_run D e r u pad : codable D -> input_at e r u pad -> enough D pad ->
  returns (dfa_routine D) e r (match longest D 0 u with Some n => r RDI + N.of_nat n | None => 0 end).
Proof.
  intros HD (Ha & HT & HU) HE. apply wrap_run; [exact (dfa_routine_nodup D)|].
  intros s krej HPC HA HR.
  destruct (dfa_code_run (dfa_routine D) e (prolog ++ [ILoadS INPUT 4]) (epilog [] rej0) [] rej0 D krej (dfa_routine_nodup D)) with (u := u) (pad := pad) (a := r RDI) (s := s)
    as (s' & S & F & K); try assumption.
  - unfold dfa_routine. rewrite <- app_assoc. reflexivity.
  - apply input_nz. exact HU.
  - exists s'. split; [exact S|]. split; [exact F|]. destruct (longest D 0 u); [left; exact K|right; auto].
Qed.

Lemma match_nodup junk s : NoDup (binds (match_routine junk s)).
Proof.
  unfold match_routine. rewrite !binds_app. cbn [prolog binds app]. rewrite binds_epilog.
  assert (E : binds (emit_match rej0 junk s) = []).
  { unfold emit_match. destruct (length s <? 8)%nat; [apply binds_flat; reflexivity|]. generalize (length s) as n. intros n. revert s.
    induction n as [|n IH]; intros s; [reflexivity|]. destruct s as [|x s]; [reflexivity|]. cbn [emit_chunks]. rewrite binds_app. rewrite IH. reflexivity. }
  rewrite E. repeat constructor; cbn; intuition discriminate.
Qed.
Theorem match_routine_run junk s e r u pad : (forall c, In c s -> c <> 0 /\ c < 256) -> input_at e r u pad -> ((8 <= length s)%nat -> (15 <= length pad)%nat) ->
  returns (match_routine junk s) e r (if prefixb s u then r RDI + N.of_nat (length s) else 0).
Proof.
  intros Hs (Ha & HT & HU) HE. apply wrap_run; [exact (match_nodup junk s)|]. intros s0 krej HPC HA HR.
  destruct (match_code_run (match_routine junk s) e rej0 krej junk s u pad (r RDI) s0 (epilog [] rej0) HR Hs HT HE HPC HA) as (s' & S & F & K).
  exists s'. split; [exact S|]. split; [exact F|]. destruct (prefixb s u); [left; exact K|right; auto].
Qed.
Lemma skip_nodup : NoDup (binds skip_routine).
Proof. cbn. repeat constructor; cbn; intuition discriminate. Qed.
Theorem skip_routine_run e r u pad : input_at e r u pad -> returns skip_routine e r (r RDI + N.of_nat (ws_len u)).
Proof.
  intros (Ha & HT & HU). apply wrap_run; [exact skip_nodup|]. intros s0 krej HPC HA HR.
  destruct (skip_code_run skip_routine e skip_nodup [5%nat] (prolog ++ [ILoadS INPUT 4]) (epilog [] rej0) ltac:(reflexivity) u pad (r RDI) s0 HT HPC HA) as (s' & S & F & K & I).
  exists s'. split; [exact S|]. split; [exact F|]. left. auto.
Qed.

(** The lookahead routine has code between its body and the epilogue. *)
Lemma binds_lstates p rej exits : forall L i, (forall l, In l (binds (emit_lstates p rej exits i L)) -> exists k, (i <= k)%nat /\ l = lstate p k) /\ NoDup (binds (emit_lstates p rej exits i L)).
Proof.
  induction L as [|s L IH]; intros i; cbn [emit_lstates].
  - split; [intros l []|constructor].
  - destruct (IH (S i)) as [I1 I2].
    assert (E : binds (emit_lstate p rej exits s) = []).
    { unfold emit_lstate. rewrite !binds_app. cbn [binds app]. rewrite binds_flat; [reflexivity|]. intros t. apply binds_ranges. }
    cbn [binds]. rewrite binds_app, E. cbn [app]. split.
    + intros l [<-|H]; [exists i; auto|]. destruct (I1 l H) as (k & ? & ->). exists k. split; [lia|reflexivity].
    + constructor; [|exact I2]. intros H. destruct (I1 _ H) as (k & Hk & E'). unfold lstate in E'. injection E' as E'. lia.
Qed.
Definition exit_code (i : nat) : code := [IBind (ldfa_exit i); IMovI INPUT (N.of_nat i + 1); IJmp [7%nat]].
Lemma ldfa_nodup n L : NoDup (binds (ldfa_routine n L)).
Proof.
  unfold ldfa_routine, emit_ldfa. rewrite !binds_app. cbn [prolog binds app]. rewrite binds_epilog.
  destruct (binds_lstates [] rej0 (map ldfa_exit (seq 0 n)) L 0%nat) as [B1 B2].
  assert (E : binds (flat_map (fun i => [IBind (ldfa_exit i); IMovI INPUT (N.of_nat i + 1); IJmp [7%nat]]) (seq 0 n)) = map ldfa_exit (seq 0 n)).
  { clear; induction (seq 0 n) as [|i l IH]; [reflexivity|]. cbn [flat_map]. rewrite binds_app, IH. reflexivity. }
  rewrite E. apply NoDup_app_intro; [exact B2|apply NoDup_app_intro|].
  - apply FinFun.Injective_map_NoDup; [intros a b H; unfold ldfa_exit in H; congruence|apply seq_NoDup].
  - repeat constructor; cbn; intuition discriminate.
  - intros l H K. apply in_map_iff in H as (i & <- & _). cbn in K. destruct K as [K|[K|[K|[]]]]; discriminate.
  - intros l H K. destruct (B1 l H) as (k & _ & ->). apply in_app_or in K as [K|K].
    + apply in_map_iff in K as (i & K & _). discriminate.
    + cbn in K. destruct K as [K|[K|[K|[]]]]; discriminate.
Qed.
Theorem ldfa_routine_run n L e r w : lcodable L n -> 0 < r RDI -> text_at (mem e) (r RDI) w -> ldfa_go L 0 w <> LMore ->
  returns (ldfa_routine n L) e r (match ldfa_go L 0 w with LExit k => N.of_nat k + 1 | _ => 0 end).
Proof.
  intros HL Ha HT HM. set (R := ldfa_routine n L). assert (HN : NoDup (binds R)) by exact (ldfa_nodup n L).
  set (body := emit_ldfa [] rej0 (map ldfa_exit (seq 0 n)) L ++ [IJmp rej0] ++ flat_map exit_code (seq 0 n) ++ [IBind [7%nat]]).
  assert (ER : R = prolog ++ [ILoadS INPUT 4] ++ body ++ epilog [] rej0).
  { unfold R, ldfa_routine, body. rewrite <- !app_assoc. reflexivity. }
  rewrite ER. apply wrap_run; rewrite <- ER; [exact HN|]. intros s0 krej HPC HA HR.
  assert (FE : forall j, (j < n)%nat -> exists K, find_lab R (ldfa_exit j) = Some (IMovI INPUT (N.of_nat j + 1) :: IJmp [7%nat] :: K)).
  { intros j Hj. destruct (in_split j (seq 0 n)) as (a & b & E); [apply in_seq; lia|].
    exists (flat_map exit_code b ++ [IBind [7%nat]] ++ epilog [] rej0).
    apply (find_at' R (prolog ++ [ILoadS INPUT 4] ++ emit_ldfa [] rej0 (map ldfa_exit (seq 0 n)) L ++ [IJmp rej0] ++ flat_map exit_code a)); [|exact HN].
    rewrite ER. unfold body. rewrite E at 2. rewrite flat_map_app. cbn [flat_map]. rewrite <- !app_assoc. cbn [app exit_code]. reflexivity. }
  assert (F7 : find_lab R [7%nat] = Some (epilog [] rej0)).
  { apply (find_at' R (prolog ++ [ILoadS INPUT 4] ++ emit_ldfa [] rej0 (map ldfa_exit (seq 0 n)) L ++ [IJmp rej0] ++ flat_map exit_code (seq 0 n))); [|exact HN].
    rewrite ER. unfold body. rewrite <- !app_assoc. cbn [app]. reflexivity. }
  set (K0 := [IJmp rej0] ++ flat_map exit_code (seq 0 n) ++ [IBind [7%nat]] ++ epilog [] rej0).
  destruct (ldfa_code_run R e HN [] rej0 krej (map ldfa_exit (seq 0 n)) L (prolog ++ [ILoadS INPUT 4]) K0 HR) with (w := w) (a := r RDI) (st0 := s0)
    as (s1 & S1 & F1 & I1 & C1); try assumption.
  - rewrite ER. unfold body, K0. rewrite <- !app_assoc. reflexivity.
  - rewrite map_length, seq_length. exact HL.
  - intros l Hl. apply in_map_iff in Hl as (i & <- & Hi). apply in_seq in Hi. destruct (FE i) as [K E]; [lia|]. rewrite E. discriminate.
  - rewrite HPC. unfold body, K0. rewrite <- !app_assoc. reflexivity.
  - destruct (ldfa_go L 0 w) as [j| |] eqn:G.
    + assert (Hj : (j < n)%nat).
      { clear - G HL. destruct HL as [L0 HL]. revert G. generalize 0%nat as q. induction w as [|c w IH]; intros q G; cbn [ldfa_go] in G; [discriminate|].
        destruct (first_lab (nth q L []) c) as [d|] eqn:FD; [|discriminate]. destruct (0 <=? d)%Z eqn:SG; [eauto|].
        assert (DD : exists cc, In (cc, d) (nth q L [])).
        { clear - FD. induction (nth q L []) as [|[cc x] l IH]; cbn in FD; [discriminate|]. destruct (includes cc c).
          - injection FD as ->. exists cc. left. reflexivity.
          - destruct (IH FD) as [cc' H]. exists cc'. right. exact H. }
        destruct DD as [cc Hin]. destruct (HL q cc d Hin) as [_ H2]. rewrite SG in H2. injection G as <-. exact H2. }
      destruct (FE j Hj) as [K E]. replace (nth j (map ldfa_exit (seq 0 n)) []) with (ldfa_exit j) in C1.
      2:{ rewrite (nth_map_lt ldfa_exit (seq 0 n) 0%nat) by (rewrite seq_length; exact Hj). rewrite seq_nth by exact Hj. reflexivity. }
      rewrite E in C1. injection C1 as C1. destruct s1 as [pc2 rg2 fl2 xl2 xp2 stk2 sav2 out2 ob2]. cbn [pc rg] in *. subst pc2.
      eexists. split; [eapply star_trans; [exact S1|]; x1 idtac; x1 ltac:(exact F7); apply star_refl|]. split; [exact F1|]. left. split; reflexivity.
    + exists s1. split; [exact S1|]. split; [exact F1|]. right. auto.
    + destruct C1.
Qed.
