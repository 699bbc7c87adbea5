(** Minimisation: what it does to the language. *)
From Coq Require Import List NArith Arith Bool Lia ZifyBool ZifyN ZifyNat Permutation.
From Verif Require Import CharClass CharClassSpec CharClassProofs NFA NFASem NFAProofs DFA DFADep DFAProofs.
Import ListNotations.
Local Open Scope nat_scope.

Lemma cc_eqb_spec a : forall b, cc_eqb a b = true <-> a = b.
Proof.
  induction a as [|[x y] a IH]; intros [|[x' y'] b]; cbn [cc_eqb]; try (split; congruence).
  rewrite !andb_true_iff, IH. unfold r_eqb. cbn [rs re]. rewrite andb_true_iff, !N.eqb_eq. split.
  - intros [[-> ->] ->]. reflexivity.
  - intros E. injection E as -> -> ->. auto.
Qed.
(** Transitions as the run sees them. *)
Definition sig (l : list ntr) : list (cclass * nat) := map (fun t => (tlab t, tdest t)) l.
Lemma trs_eqb_spec a : forall b, trs_eqb a b = true <-> sig a = sig b.
Proof.
  induction a as [|t a IH]; intros [|u b]; cbn [trs_eqb sig map]; try (split; congruence).
  rewrite andb_true_iff, IH. unfold tr_eqb. rewrite andb_true_iff, Nat.eqb_eq, cc_eqb_spec. split.
  - intros [[-> ->] E]. unfold sig in E. rewrite E. reflexivity.
  - intros E. injection E as -> -> E. auto.
Qed.
Fixpoint first_sig (l : list (cclass * nat)) (ch : N) : option nat :=
  match l with [] => None | (c, d) :: l' => if includes c ch then Some d else first_sig l' ch end.
Lemma first_tr_sig l ch : first_tr l ch = first_sig (sig l) ch.
Proof. induction l as [|t l IH]; cbn; [reflexivity|]. rewrite IH. reflexivity. Qed.

Lemma nth_map_lt {X Y} (f : X -> Y) l d d' i : i < length l -> nth i (map f l) d' = f (nth i l d).
Proof. intros H. rewrite (nth_indep _ d' (f d)) by (rewrite map_length; exact H). apply map_nth. Qed.
(** What stays the same under the updates of the long flag. *)
Definition same (D D' : dfa) : Prop := length D = length D' /\ forall i, dtrs (nth i D dnil) = dtrs (nth i D' dnil) /\ dacc (nth i D dnil) = dacc (nth i D' dnil).
Lemma same_upd D r lg : same D (upd_nth D r (set_long lg)).
Proof.
  split; [symmetry; apply upd_length|]. intros i. rewrite nth_upd. destruct (i =? r) eqn:E; cbn [andb]; [|auto].
  apply Nat.eqb_eq in E. subst. destruct (r <? length D); cbn; auto.
Qed.
Lemma same_trans A B C : same A B -> same B C -> same A C.
Proof. intros [L1 H1] [L2 H2]. split; [congruence|]. intros i. destruct (H1 i), (H2 i). split; congruence. Qed.
Lemma same_refl A : same A A. Proof. split; auto. Qed.

Lemma find_equiv_some D reps s r : find_equiv D reps s = Some r -> In r reps /\ sig (dtrs (nth r D dnil)) = sig (dtrs s).
Proof.
  induction reps as [|x reps IH]; cbn [find_equiv]; [discriminate|]. destruct (trs_eqb (dtrs (nth x D dnil)) (dtrs s)) eqn:E.
  - intros H. injection H as <-. apply trs_eqb_spec in E. cbn. auto.
  - intros H. destruct (IH H). cbn. auto.
Qed.
Lemma find_equiv_none D reps s : find_equiv D reps s = None -> forall r, In r reps -> sig (dtrs (nth r D dnil)) <> sig (dtrs s).
Proof.
  induction reps as [|x reps IH]; cbn [find_equiv]; [intros _ ? []|]. destruct (trs_eqb (dtrs (nth x D dnil)) (dtrs s)) eqn:E; [discriminate|].
  intros H r [<-|Hr]; [|auto]. intros K. apply trs_eqb_spec in K. congruence.
Qed.

(** The scan splits the states into representatives and merged ones. *)
Definition split_ok (D0 : dfa) (done reps : list nat) (remap : list (nat * nat)) : Prop :=
  (forall i, In i done <-> In i reps \/ In i (map fst remap)) /\
  NoDup (reps ++ map fst remap) /\
  (forall i r, In (i, r) remap -> In r reps /\ sig (dtrs (nth r D0 dnil)) = sig (dtrs (nth i D0 dnil))).
Lemma min_scan_spec D0 : forall todo D done reps remap D' reps' remap',
  same D0 D -> NoDup (done ++ todo) -> split_ok D0 done reps remap ->
  (forall x, hd_error reps = Some x -> hd_error (reps ++ todo) = Some x) ->
  min_scan D todo reps remap = (D', reps', remap') ->
  same D0 D' /\ split_ok D0 (done ++ todo) reps' remap' /\ exists l, reps' = reps ++ l.
Proof.
  induction todo as [|i todo IH]; intros D done reps remap D' reps' remap' HS ND HO _ H; cbn [min_scan] in H.
  - injection H as <- <- <-. rewrite app_nil_r. split; [exact HS|]. split; [exact HO|]. exists []. rewrite app_nil_r. reflexivity.
  - destruct HO as (H1 & H2 & H3).
    assert (Ni : ~ In i done) by (intros K; apply NoDup_remove_2 in ND; apply ND; apply in_or_app; auto).
    assert (Ea : done ++ i :: todo = (done ++ [i]) ++ todo) by (rewrite <- app_assoc; reflexivity).
    assert (Ni1 : ~ In i reps) by (intros K; apply Ni; apply H1; auto).
    assert (Ni2 : ~ In i (map fst remap)) by (intros K; apply Ni; apply H1; auto).
    rewrite Ea. destruct (find_equiv D reps (nth i D dnil)) as [r|] eqn:E.
    + apply find_equiv_some in E as [E1 E2].
      refine (IH _ _ _ _ _ _ _ _ _ _ _ H).
      * eapply same_trans; [exact HS|apply same_upd].
      * rewrite <- Ea. exact ND.
      * split; [|split].
        -- intros k. rewrite in_app_iff, H1, map_app, in_app_iff. cbn. tauto.
        -- rewrite map_app. cbn. rewrite app_assoc. apply (Permutation_NoDup (Permutation_cons_append _ _)). constructor; [|exact H2].
           rewrite in_app_iff. tauto.
        -- intros k x Hk. apply in_app_or in Hk as [Hk|[Hk|[]]]; [auto|]. injection Hk as <- <-. split; [exact E1|].
           rewrite (proj1 (proj2 HS r)), (proj1 (proj2 HS i)). exact E2.
      * intros x Hx. destruct reps; [discriminate|exact Hx].
    + destruct (IH D (done ++ [i]) (reps ++ [i]) remap D' reps' remap' HS) as (K1 & K2 & l & K3).
      * rewrite <- Ea. exact ND.
      * split; [|split].
        -- intros k. rewrite !in_app_iff, H1. cbn. tauto.
        -- rewrite <- app_assoc. cbn. apply (Permutation_NoDup (Permutation_middle _ _ _)). constructor; [|exact H2]. rewrite in_app_iff. tauto.
        -- intros k x Hk. destruct (H3 k x Hk). split; [apply in_or_app; auto|assumption].
      * intros x Hx. destruct reps as [|y reps]; [cbn in *; congruence|exact Hx].
      * exact H.
      * split; [exact K1|]. split; [exact K2|]. exists (i :: l). rewrite K3, <- app_assoc. reflexivity.
Qed.

(** The representative of a state. *)
Fixpoint assoc (m : list (nat * nat)) (i : nat) : nat := match m with [] => i | (a, b) :: m' => if i =? a then b else assoc m' i end.
Lemma redirect_all reps : forall remap D, (forall a b, In (a, b) remap -> ~ In a reps /\ In b reps) -> NoDup (map fst remap) ->
  forall i, let D' := fold_left (fun D p => redirect (fst p) (snd p) D) remap D in
  length D' = length D /\ dacc (nth i D' dnil) = dacc (nth i D dnil) /\
  sig (dtrs (nth i D' dnil)) = map (fun p => (fst p, assoc remap (snd p))) (sig (dtrs (nth i D dnil))).
Proof.
  induction remap as [|[a b] remap IH]; intros D HR ND i; cbn [fold_left assoc].
  - split; [reflexivity|]. split; [reflexivity|]. symmetry. rewrite <- (map_id (sig (dtrs (nth i D dnil)))) at 2. apply map_ext. intros []. reflexivity.
  - cbn in ND. inversion ND as [|? ? N1 N2]; subst.
    destruct (IH (redirect a b D) (fun x y h => HR x y (or_intror h)) N2 i) as (L & EA & ES). cbn zeta in *. cbn [fst snd] in *.
    split; [rewrite L; apply map_length|].
    assert (EN : nth i (redirect a b D) dnil = mkD (dlab (nth i D dnil)) (map (fun t => if tdest t =? a then mkT (tlab t) b (tlong t) else t) (dtrs (nth i D dnil))) (dlong (nth i D dnil)) (dacc (nth i D dnil))).
    { unfold redirect. destruct (Nat.lt_ge_cases i (length D)) as [Q|Q].
      - rewrite (nth_map_lt _ D dnil dnil i Q). reflexivity.
      - rewrite !nth_overflow by (rewrite ?map_length; exact Q). reflexivity. }
    rewrite EN in EA, ES. cbn [dtrs dacc] in EA, ES. split; [exact EA|]. rewrite ES. unfold sig. rewrite !map_map. apply map_ext. intros t. cbn [fst snd].
    destruct (tdest t =? a) eqn:E; cbn [tlab tdest]; [|reflexivity]. f_equal.
    destruct (HR a b (or_introl eq_refl)) as [_ Hb].
    clear - Hb HR. induction remap as [|[c d] remap IH]; cbn [assoc]; [reflexivity|].
    destruct (b =? c) eqn:E; [|apply IH; intros x y [h|h]; apply HR; cbn; auto]. apply Nat.eqb_eq in E. subst c.
    exfalso. apply (proj1 (HR b d (or_intror (or_introl eq_refl)))). exact Hb.
Qed.
Lemma index_of_nth x l : In x l -> index_of x l < length l /\ nth (index_of x l) l 0 = x.
Proof.
  induction l as [|y l IH]; intros H; [destruct H|]. cbn [index_of]. destruct (x =? y) eqn:E.
  - apply Nat.eqb_eq in E. subst. cbn. split; [lia|reflexivity].
  - destruct H as [->|H]; [rewrite Nat.eqb_refl in E; discriminate|]. destruct (IH H) as [K1 K2]. cbn [length nth]. split; [lia|exact K2].
Qed.

Definition in_range (D : dfa) : Prop := forall i t, In t (dtrs (nth i D dnil)) -> tdest t < length D.
(** States with the same transitions agree on acceptance. *)
Definition accept_compatible (D : dfa) : Prop :=
  forall i j, i < length D -> j < length D -> trs_eqb (dtrs (nth i D dnil)) (dtrs (nth j D dnil)) = true -> dacc (nth i D dnil) = dacc (nth j D dnil).

(** The state a word leads to. *)
Fixpoint walk (D : dfa) (i : nat) (w : list N) : option nat :=
  match w with [] => Some i | ch :: w' => match first_tr (dtrs (nth i D dnil)) ch with Some d => walk D d w' | None => None end end.
Lemma run_walk D w : forall i, dfa_run D i w = match walk D i w with Some j => dacc (nth j D dnil) | None => false end.
Proof. induction w as [|ch w IH]; intros i; cbn [dfa_run walk]; [reflexivity|]. destruct (first_tr _ ch); [apply IH|reflexivity]. Qed.
Lemma walk_app D w : forall i ch, walk D i (w ++ [ch]) = match walk D i w with Some j => first_tr (dtrs (nth j D dnil)) ch | None => None end.
Proof.
  induction w as [|c w IH]; intros i ch; cbn [walk app]; [destruct (first_tr _ ch); reflexivity|].
  destruct (first_tr (dtrs (nth i D dnil)) c); [apply IH|reflexivity].
Qed.
Lemma walk_range D w : in_range D -> forall i j, i < length D -> walk D i w = Some j -> j < length D.
Proof.
  intros HR. induction w as [|ch w IH]; intros i j Hi; cbn [walk]; [congruence|].
  destruct (first_tr (dtrs (nth i D dnil)) ch) as [d|] eqn:E; [|discriminate]. apply IH.
  apply first_tr_some in E as (t & Ht & _ & <-). eapply HR. exact Ht.
Qed.
(** No two representatives have the same transitions. *)
Definition distinct_sigs (D : dfa) (reps : list nat) : Prop :=
  forall a b, In a reps -> In b reps -> sig (dtrs (nth a D dnil)) = sig (dtrs (nth b D dnil)) -> a = b.
Lemma min_scan_distinct D0 : forall todo D reps remap D' reps' remap', same D0 D -> distinct_sigs D0 reps ->
  min_scan D todo reps remap = (D', reps', remap') -> distinct_sigs D0 reps'.
Proof.
  induction todo as [|i todo IH]; intros D reps remap D' reps' remap' HS HD H; cbn [min_scan] in H.
  - injection H as <- <- <-. exact HD.
  - destruct (find_equiv D reps (nth i D dnil)) as [r|] eqn:E.
    + eapply IH; [|exact HD|exact H]. eapply same_trans; [exact HS|apply same_upd].
    + eapply IH; [exact HS| |exact H]. pose proof (find_equiv_none _ _ _ E) as N.
      intros a b Ha Hb Es. rewrite (proj1 (proj2 HS a)), (proj1 (proj2 HS b)) in Es.
      apply in_app_or in Ha as [Ha|[<-|[]]]; apply in_app_or in Hb as [Hb|[<-|[]]].
      * apply HD; [exact Ha|exact Hb|]. rewrite (proj1 (proj2 HS a)), (proj1 (proj2 HS b)). exact Es.
      * exfalso. exact (N a Ha Es).
      * exfalso. exact (N b Hb (eq_sym Es)).
      * reflexivity.
Qed.
(** What the minimised automaton answers: the acceptance of the representative of the state the
    word leads to in the original one. *)
Theorem minimize_sim D : 0 < length D -> in_range D -> exists rho f : nat -> nat,
  (forall i, i < length D -> rho i < length D /\ sig (dtrs (nth (rho i) D dnil)) = sig (dtrs (nth i D dnil))) /\
  (forall i j, i < length D -> j < length D -> sig (dtrs (nth i D dnil)) = sig (dtrs (nth j D dnil)) -> rho i = rho j) /\
  f 0 = 0 /\ forall i, i < length D ->
    dacc (nth (f i) (minimize D) dnil) = dacc (nth (rho i) D dnil) /\
    (dtrs (nth (f i) (minimize D) dnil) = [] <-> dtrs (nth i D dnil) = []) /\
    forall ch, first_tr (dtrs (nth (f i) (minimize D) dnil)) ch = option_map f (first_tr (dtrs (nth i D dnil)) ch).
Proof.
  intros L0 HR. unfold minimize. destruct (min_scan D (seq 0 (length D)) [] []) as [[D1 reps] remap] eqn:EM.
  destruct (min_scan_spec D (seq 0 (length D)) D [] [] [] D1 reps remap (same_refl D)) as (HS & (P1 & P2 & P3) & _).
  { cbn. apply seq_NoDup. }
  { split; [cbn; tauto|]. split; [constructor|intros ? ? []]. }
  { discriminate. }
  { exact EM. }
  assert (DS : distinct_sigs D reps) by (eapply min_scan_distinct; [apply same_refl| |exact EM]; intros ? ? []).
  cbn [app] in P1.
  assert (P1' : forall i, i < length D <-> In i reps \/ In i (map fst remap)).
  { intros i. rewrite <- P1, in_seq. lia. }
  assert (R0 : exists l, reps = 0 :: l).
  { destruct (length D) as [|n] eqn:EL; [lia|]. cbn [seq min_scan find_equiv] in EM.
    destruct (min_scan_spec D (seq 1 n) D [0] [0] [] D1 reps remap (same_refl D)) as (_ & _ & l & El).
    - cbn [app]. change (0 :: seq 1 n) with (seq 0 (S n)). apply seq_NoDup.
    - split; [cbn; tauto|]. split; [cbn; constructor; [intros []|constructor]|intros ? ? []].
    - cbn. auto.
    - exact EM.
    - exists l. exact El. }
  assert (NDf : NoDup (map fst remap)) by (clear - P2; induction reps as [|x reps IH]; [exact P2|]; cbn in P2; inversion P2; subst; auto).
  assert (RR : forall a b, In (a, b) remap -> ~ In a reps /\ In b reps).
  { intros a b Hab. split; [|apply (P3 a b Hab)]. intros Ha. clear - P2 Ha Hab. induction reps as [|x reps IH]; [destruct Ha|].
    cbn in P2. inversion P2 as [|? ? N1 N2]; subst. destruct Ha as [->|Ha]; [|auto]. apply N1. apply in_or_app. right. apply in_map_iff. exists (a, b). auto. }
  set (rho := assoc remap).
  assert (RHO : forall i, i < length D -> In (rho i) reps /\ sig (dtrs (nth (rho i) D dnil)) = sig (dtrs (nth i D dnil))).
  { intros i Hi. apply P1' in Hi.
    assert (G : (In (i, rho i) remap) \/ (~ In i (map fst remap) /\ rho i = i)).
    { unfold rho. clear. induction remap as [|[a b] m IH]; cbn [assoc]; [right; split; [intros []|reflexivity]|]. destruct (i =? a) eqn:E.
      - apply Nat.eqb_eq in E. subst. left. left. reflexivity.
      - destruct IH as [IH|[IH1 IH2]]; [left; right; exact IH|right]. split; [|exact IH2]. cbn. intros [->|K]; [rewrite Nat.eqb_refl in E; discriminate|auto]. }
    destruct G as [G|[G1 G2]]; [apply (P3 i); exact G|]. rewrite G2. destruct Hi as [Hi|Hi]; [auto|contradiction]. }
  set (D2 := fold_left (fun D p => redirect (fst p) (snd p) D) remap D1).
  assert (RD := redirect_all reps remap D1 RR NDf). cbn zeta in RD. fold D2 in RD.
  assert (FN : forall i, i < length D -> nth (index_of (rho i) reps) (filter_nodes reps D2) dnil =
     (fun k => mkD (dlab (nth k D2 dnil)) (map (fun t => mkT (tlab t) (index_of (tdest t) reps) (tlong t)) (filter (fun t => existsb (Nat.eqb (tdest t)) reps) (dtrs (nth k D2 dnil)))) (dlong (nth k D2 dnil)) (dacc (nth k D2 dnil))) (rho i)).
  { intros i Hi. destruct (RHO i Hi) as [H1 _]. destruct (index_of_nth _ _ H1) as [L1 E1]. unfold filter_nodes.
    rewrite (nth_map_lt _ reps 0 dnil _ L1), E1. reflexivity. }
  assert (SIG : forall i, i < length D -> exists g, sig (dtrs (nth i D dnil)) = g /\ 
     sig (map (fun t => mkT (tlab t) (index_of (tdest t) reps) (tlong t)) (filter (fun t => existsb (Nat.eqb (tdest t)) reps) (dtrs (nth (rho i) D2 dnil))))
     = map (fun p => (fst p, index_of (rho (snd p)) reps)) g).
  { intros i Hi. destruct (RHO i Hi) as [H1 H2]. eexists. split; [reflexivity|]. rewrite <- H2. pose proof (proj2 (proj2 (RD (rho i)))) as ES. rewrite <- (proj1 (proj2 HS (rho i))) in ES.
    assert (RG : forall p, In p (sig (dtrs (nth (rho i) D dnil))) -> snd p < length D).
    { intros p Hp. unfold sig in Hp. apply in_map_iff in Hp as (t & <- & Ht). cbn. eapply HR. exact Ht. }
    revert ES RG. generalize (sig (dtrs (nth (rho i) D dnil))). generalize (dtrs (nth (rho i) D2 dnil)).
    induction l as [|t l IHl]; intros g ES RG.
    - destruct g; [reflexivity|discriminate].
    - destruct g as [|[c d] g]; [discriminate|]. cbn in ES. injection ES as E1 E2 ES. fold (rho d) in E2.
      specialize (IHl g ES (fun p h => RG p (or_intror h))).
      assert (Hd : In (tdest t) reps) by (rewrite E2; apply RHO; apply (RG (c, d)); left; reflexivity).
      assert (EX : existsb (Nat.eqb (tdest t)) reps = true) by (apply existsb_exists; exists (tdest t); split; [exact Hd|apply Nat.eqb_refl]).
      cbn [filter]. rewrite EX. cbn [map sig tlab tdest fst snd] in *. rewrite E1, E2. f_equal. exact IHl. }
  destruct R0 as [l0 El0]. exists rho, (fun i => index_of (rho i) reps). split; [intros i Hi; destruct (RHO i Hi); split; [apply P1'; auto|assumption]|].
  split.
  { intros i j Hi Hj E. destruct (RHO i Hi) as [A1 A2]. destruct (RHO j Hj) as [B1 B2]. apply DS; [exact A1|exact B1|congruence]. }
  assert (rho0 : rho 0 = 0).
  { unfold rho. destruct (in_dec Nat.eq_dec 0 (map fst remap)) as [Hi|Hi].
    - exfalso. apply in_map_iff in Hi as ([a b] & Ea & Hi). cbn in Ea. subst a. apply (RR 0 b Hi). rewrite El0. left. reflexivity.
    - clear - Hi. induction remap as [|[a b] m IH]; cbn [assoc]; [reflexivity|]. cbn in Hi. destruct (0 =? a) eqn:E; [|apply IH; tauto].
      apply Nat.eqb_eq in E. subst. tauto. }
  split; [rewrite rho0, El0; reflexivity|].
  intros i Hi. rewrite FN by exact Hi. cbn beta. cbn [dacc dtrs]. destruct (SIG i Hi) as (g & G1 & G2). split; [|split].
  - rewrite (proj1 (proj2 (RD (rho i)))). symmetry. apply (proj2 (proj2 HS (rho i))).
  - unfold sig in G1, G2. destruct (dtrs (nth i D dnil)) as [|t l]; cbn in G1; subst g; [|split; [intros X; rewrite X in G2; discriminate|discriminate]].
    split; [reflexivity|]. intros _. apply map_eq_nil in G2. exact G2.
  - intros ch. rewrite !first_tr_sig, G1, G2. clear. induction g as [|[c d] g IH]; [reflexivity|]. cbn [map fst snd first_sig]. destruct (includes c ch); [reflexivity|exact IH].
Qed.
(** Words. *)
Theorem minimize_walk D : 0 < length D -> in_range D -> exists rho : nat -> nat,
  (forall i, i < length D -> rho i < length D /\ sig (dtrs (nth (rho i) D dnil)) = sig (dtrs (nth i D dnil))) /\
  (forall i j, i < length D -> j < length D -> sig (dtrs (nth i D dnil)) = sig (dtrs (nth j D dnil)) -> rho i = rho j) /\
  forall w, dfa_run (minimize D) 0 w = match walk D 0 w with Some j => dacc (nth (rho j) D dnil) | None => false end.
Proof.
  intros L0 HR. destruct (minimize_sim D L0 HR) as (rho & f & H1 & H2 & F0 & HF). exists rho. split; [exact H1|]. split; [exact H2|].
  assert (MAIN : forall w i, i < length D -> dfa_run (minimize D) (f i) w = match walk D i w with Some j => dacc (nth (rho j) D dnil) | None => false end).
  { induction w as [|ch w IH]; intros i Hi; cbn [dfa_run walk]; destruct (HF i Hi) as (A1 & _ & A3); [exact A1|]. rewrite A3.
    destruct (first_tr (dtrs (nth i D dnil)) ch) as [d|] eqn:E; [|reflexivity]. cbn [option_map].
    apply IH. apply first_tr_some in E as (t & Ht & _ & <-). eapply HR. exact Ht. }
  intros w. specialize (MAIN w 0 L0). rewrite F0 in MAIN. exact MAIN.
Qed.
Theorem minimize_language D w : 0 < length D -> in_range D -> accept_compatible D -> dfa_run (minimize D) 0 w = dfa_run D 0 w.
Proof.
  intros L0 HR HC. destruct (minimize_walk D L0 HR) as (rho & H1 & _ & ->). rewrite run_walk.
  destruct (walk D 0 w) as [j|] eqn:E; [|reflexivity]. pose proof (walk_range D w HR 0 j L0 E) as Hj. destruct (H1 j Hj) as [K1 K2].
  apply HC; [exact K1|exact Hj|apply trs_eqb_spec; exact K2].
Qed.
(** If every state is reached by some word, the condition is also necessary. *)
Theorem minimize_language_conv D : 0 < length D -> in_range D -> (forall j, j < length D -> exists w, walk D 0 w = Some j) ->
  (forall w, dfa_run (minimize D) 0 w = dfa_run D 0 w) -> accept_compatible D.
Proof.
  intros L0 HR HW H i j Hi Hj E. apply trs_eqb_spec in E. destruct (minimize_walk D L0 HR) as (rho & _ & H2 & H3).
  assert (G : forall k, k < length D -> dacc (nth (rho k) D dnil) = dacc (nth k D dnil)).
  { intros k Hk. destruct (HW k Hk) as [w Hw]. specialize (H w). rewrite H3, run_walk, Hw in H. exact H. }
  rewrite <- (G i Hi), <- (G j Hj), (H2 i j Hi Hj E). reflexivity.
Qed.

Lemma dfa_plain_range fuel ef A D : dfa_plain fuel ef A = Some D -> 0 < length D /\ in_range D /\
  forall i t, In t (dtrs (nth i D dnil)) -> Sorted (tlab t) /\ tlab t <> [].
Proof.
  intros H. destruct (dfa_plain_inv _ _ _ _ H) as (D0 & -> & [HB HF] & L & _). rewrite map_length. split; [exact L|].
  assert (G : forall i t, In t (dtrs (nth i (map (finish_state (length A - 1)) D0) dnil)) -> i < length D0 /\ In t (trs_at D0 i)).
  { intros i t Ht. destruct (Nat.lt_ge_cases i (length D0)) as [Q|Q].
    - rewrite nth_finish in Ht by exact Q. split; [exact Q|]. apply (Permutation_in _ (sort_trs_perm _)). exact Ht.
    - rewrite nth_overflow in Ht by (rewrite map_length; exact Q). destruct Ht. }
  split.
  - intros i t Ht. destruct (G i t Ht) as [Q K]. destruct (HF i Q) as (_ & H1 & _). destruct (H1 t K) as (_ & _ & lab & E & _).
    rewrite map_length. assert (tdest t < length (labs D0)) by (apply nth_error_Some; congruence). unfold labs in *. rewrite map_length in *. assumption.
  - intros i t Ht. destruct (G i t Ht) as [Q K]. destruct (HF i Q) as (_ & H1 & _). destruct (H1 t K) as (X & Y & _). auto.
Qed.

(** ** Every state of the subset construction is reached by a word *)
Inductive lreach (ef : nat) (A : nfa) (l0 : list nat) : list nat -> Prop :=
| lr_0 : lreach ef A l0 l0
| lr_s l cc s lab : lreach ef A l0 l -> In (cc, s) (departures (label_trs A l)) -> ecl ef A s lab -> lreach ef A l0 lab.
Definition labs_reach (ef : nat) (A : nfa) (l0 : list nat) (D : dfa) : Prop := forall l, In l (labs D) -> lreach ef A l0 l.
Lemma fork_items_reach ef A l0 index lx : lreach ef A l0 lx -> forall items D D',
  (forall x, In x items -> In x (departures (label_trs A lx))) -> labs_reach ef A l0 D ->
  fork_items ef A D index items = Some D' -> labs_reach ef A l0 D' /\ exists M, labs D' = labs D ++ M.
Proof.
  intros Hx. induction items as [|[cc s] items IH]; intros D D' Hs HD H; cbn [fork_items] in H.
  - injection H as <-. split; [exact HD|exists []; rewrite app_nil_r; reflexivity].
  - destruct (eclose_set ef A s [] false) as [[ec lg]|] eqn:Ee; [|discriminate].
    destruct (dfa_add_state D ec lg) as [D1 j] eqn:Ed.
    assert (G : labs_reach ef A l0 D1 /\ exists M, labs D1 = labs D ++ M).
    { unfold dfa_add_state in Ed. destruct (find_label D ec 0) as [i|]; injection Ed as <- <-.
      - unfold labs_reach. rewrite labs_upd by reflexivity. split; [exact HD|exists []; rewrite app_nil_r; reflexivity].
      - unfold labs_reach, labs. rewrite map_app. cbn [map dlab]. split; [|exists [ec]; reflexivity].
        intros l Hl. apply in_app_or in Hl as [Hl|[<-|[]]]; [apply HD; exact Hl|].
        eapply lr_s; [exact Hx|apply Hs; left; reflexivity|exists lg; exact Ee]. }
    destruct G as [G1 [M1 G2]]. apply IH in H.
    + destruct H as [H1 [M2 H2]]. split; [exact H1|]. exists (M1 ++ M2). rewrite H2, labs_upd by reflexivity. rewrite G2, app_assoc. reflexivity.
    + intros x K. apply Hs. right. exact K.
    + unfold labs_reach. rewrite labs_upd by reflexivity. exact G1.
Qed.
Lemma fork_reach ef A l0 : forall fuel,
  (forall D i D', labs_reach ef A l0 D -> i < length D -> fork_states fuel ef A D i = Some D' -> labs_reach ef A l0 D' /\ ext D D') /\
  (forall D i D', labs_reach ef A l0 D -> fork_loop fuel ef A D i = Some D' -> labs_reach ef A l0 D' /\ ext D D').
Proof.
  induction fuel as [|f [IH1 IH2]]; split; intros D i D' HD; try discriminate.
  - intros Hi H. cbn [fork_states] in H.
    destruct (fork_items ef A D i _) as [D1|] eqn:E1; [|discriminate].
    apply (fork_items_reach ef A l0 i (dlab (nth i D dnil))) in E1; auto.
    + destruct E1 as [K1 K2]. apply IH2 in H; [|exact K1]. destruct H as [H1 H2]. split; [exact H1|]. eapply ext_trans; eauto.
    + apply HD. unfold labs. apply in_map. apply nth_In. exact Hi.
  - intros H. cbn [fork_loop] in H. destruct (i <? length D) eqn:E.
    + destruct (fork_states f ef A D i) as [D1|] eqn:E1; [|discriminate]. apply IH1 in E1; [|exact HD|lia]. destruct E1 as [K1 K2].
      apply IH2 in H; [|exact K1]. destruct H as [H1 H2]. split; [exact H1|]. eapply ext_trans; eauto.
    + injection H as <-. split; [exact HD|apply ext_refl].
Qed.
Theorem dfa_plain_reach fuel ef A D : dfa_plain fuel ef A = Some D -> forall j, j < length D -> exists w, walk D 0 w = Some j.
Proof.
  intros H. pose proof (dfa_plain_det fuel ef A D) as DET0.
  destruct (dfa_plain_inv _ _ _ _ H) as (D0 & ED & [HB HF] & L & _).
  revert H. unfold dfa_plain. destruct (eclose_sub ef A [] 0) as [[ec lg]|] eqn:E0; [|discriminate].
  destruct (fork_states fuel ef A [mkD ec [] lg false] 0) as [D1|] eqn:E1; [|discriminate]. intros H.
  assert (DET : forall i t t' ch, i < length D -> In t (dtrs (nth i D dnil)) -> In t' (dtrs (nth i D dnil)) ->
    includes (tlab t) ch = true -> includes (tlab t') ch = true -> t = t').
  { intros i t t' ch. apply DET0. unfold dfa_plain. rewrite E0, E1. exact H. }
  injection H as H. clear DET0.
  assert (R0 : labs_reach ef A ec [mkD ec [] lg false]) by (intros l [<-|[]]; constructor).
  destruct (proj1 (fork_reach ef A ec fuel) _ 0 D1 R0 ltac:(cbn; lia) E1) as [RL X].
  assert (EL : labs D1 = labs D).
  { rewrite <- H. unfold labs. rewrite map_map. reflexivity. }
  assert (EL0 : labs D0 = labs D).
  { rewrite ED. unfold labs. rewrite map_map. reflexivity. }
  assert (LD : length D0 = length D) by (rewrite ED, map_length; reflexivity).
  assert (L00 : nth 0 (labs D) [] = ec) by (rewrite <- EL; destruct X as [M ->]; reflexivity).
  assert (G : forall l, lreach ef A ec l -> exists w i, walk D 0 w = Some i /\ nth_error (labs D) i = Some l).
  { intros l Hl. induction Hl as [|l cc s lab Hl (w & i & W & N) I E].
    - exists [], 0. split; [reflexivity|]. rewrite <- L00. apply nth_error_nth'. unfold labs. rewrite map_length. lia.
    - assert (Hi : i < length D) by (assert (i < length (labs D)) by (apply nth_error_Some; congruence); unfold labs in *; rewrite map_length in *; assumption).
      assert (Hi0 : i < length D0) by lia.
      destruct (HF i Hi0) as (_ & F1 & F2).
      assert (Il : items_at A D0 i = departures (label_trs A l)).
      { unfold items_at. do 2 f_equal. rewrite <- labs_nth, EL0. apply nth_error_nth. exact N. }
      rewrite Il in F1, F2. destruct (F2 cc s I) as (t & lab' & T1 & T2 & T3). rewrite (ecl_fun _ _ _ _ _ T3 E) in T2.
      destruct (F1 t T1) as (S1 & S2 & _). destruct (tlab t) as [|r0 rr] eqn:Et; [congruence|].
      assert (Hc : includes (tlab t) (rs r0) = true).
      { apply includes_Den. exists r0. rewrite Et. split; [left; reflexivity|]. destruct S1 as (_ & S1 & _). lia. }
      assert (T1' : In t (dtrs (nth i D dnil))).
      { rewrite ED, nth_finish by exact Hi0. apply (Permutation_in _ (Permutation_sym (sort_trs_perm _))). exact T1. }
      exists (w ++ [rs r0]), (tdest t). split; [|rewrite <- EL0; exact T2]. rewrite walk_app, W.
      destruct (first_tr (dtrs (nth i D dnil)) (rs r0)) as [d|] eqn:Ef.
      + apply first_tr_some in Ef as (t' & T' & C' & <-). rewrite (DET i t t' (rs r0) Hi T1' T' Hc C'). reflexivity.
      + rewrite (first_tr_none _ _ Ef t T1') in Hc. discriminate. }
  intros j Hj.
  assert (Hjl : j < length (labs D)) by (unfold labs; rewrite map_length; exact Hj).
  destruct (G (nth j (labs D) [])) as (w & i & W & N).
  { apply RL. rewrite EL. apply nth_In. exact Hjl. }
  exists w. rewrite W. f_equal. destruct HB as (ND & _). rewrite EL0 in ND.
  apply (proj1 (NoDup_nth_error (labs D)) ND); [apply nth_error_Some; congruence|]. rewrite N. symmetry. apply nth_error_nth'. exact Hjl.
Qed.
