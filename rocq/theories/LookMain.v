(** The automaton and what the alternatives can read. *)
From Coq Require Import List NArith ZArith Arith Bool Lia ZifyBool ZifyN ZifyNat Permutation.
From Verif Require Import CharClass CharClassSpec CharClassProofs Stream NFA NFAProofs DFA DFADep DFAProofs DFAMin ATN Grammar CodeGen CodeGenProofs CodeGenMisc Lookahead LookSpec LookOrder LookClosure LookItems LookAuto LookMin.
Import ListNotations.
Local Open Scope nat_scope.

Section Main.
Variable D : list (list N * cmach).
Variables (fuel cf : nat) (id : list N) (i : nat) (up : path) (n : cnode) (T : ldfa).
Notation root := ((id, i) :: up).
Hypothesis Hroot : node_at D root = Some n.
Hypothesis HT : ldfa_plain D fuel cf root = SOk T.
Notation br := (branch D root).
Notation PC := (fun c => 1 <= c <= length (ctrs n)).

Lemma plain_inv : exists L, T = map (fun s => sort_ltrs (ltrs s)) L /\ lbase D PC L /\ (forall k, k < length L -> lforked D cf L k) /\ represents D id up n L 0 [].
Proof.
  unfold ldfa_plain in HT. unfold root_closure in HT. rewrite Hroot in HT. destruct (root_loop D cf id i up (ctrs n) 1 []) as [cl| |] eqn:Er; try discriminate.
  destruct (l_fork D fuel cf [mkL cl []] 0) as [L| |] eqn:Ef; try discriminate. injection HT as <-. exists L. split; [reflexivity|].
  pose proof (root_loop_spec D cf id i up _ _ _ _ Er) as RS.
  assert (C0 : asc (map key []) /\ chain_ok (tag_of D) []) by (split; [constructor|intros e He; destruct He]).
  assert (RI := root_loop_inv D cf id i up n Hroot _ _ _ _ (fun t h => h) Er C0).
  assert (G0 : lgood D cf PC [mkL cl []]).
  { split.
    - split; [cbn; constructor; [intros []|constructor]|]. intros s [<-|[]]. cbn [llab]. destruct RI as [R1 R2]. split; [exact R1|]. split; [exact R2|].
      intros e He. apply (in_map key) in He. apply RS in He as [[]|(_ & j & t & H1 & H2 & _)]. cbn [key snd] in H2. assert (j < length (ctrs n)) by (apply nth_error_Some; congruence). lia.
    - intros k Hk. left. cbn in Hk. destruct k as [|k]; [reflexivity|lia]. }
  destruct (proj1 (l_fork_good D cf PC fuel) _ _ _ G0 (le_n 1) Ef) as ([HB _] & HX & _ & F0 & FN).
  split; [exact HB|]. split.
  - intros k Hk. cbn [length] in FN. destruct k as [|k]; [exact F0|]. apply FN. lia.
  - pose proof (lext_length _ _ HX) as LL. cbn in LL. split; [lia|]. rewrite (lext_label _ _ 0 HX) by (cbn; lia). cbn [nth llab].
    intros k. rewrite RS. unfold conf. split.
    + intros [[]|(H1 & j & t & H2 & H3 & H4)]. split; [exact H1|]. exists j, t. auto.
    + intros (H1 & j & t & H2 & H3 & H4). right. split; [exact H1|]. exists j, t. auto.
Qed.
Lemma sorted_first L j c : lbase D PC L -> j < length L -> lforked D cf L j -> first_lab (sort_ltrs (ltrs_at L j)) c = first_lab (ltrs_at L j) c.
Proof.
  intros [ND HB] Hj (items & Hd & T1 & T2 & T3).
  pose proof (first_lab_pairs (sort_ltrs (ltrs_at L j)) c) as F1. pose proof (first_lab_pairs (ltrs_at L j) c) as F2.
  destruct (first_lab (sort_ltrs (ltrs_at L j)) c) as [d1|], (first_lab (ltrs_at L j) c) as [d2|]; try reflexivity.
  - destruct F1 as (r1 & P1 & R1), F2 as (r2 & P2 & R2). apply (proj1 (pairs_sort _ _ _)) in P1. destruct (T2 _ _ P1) as (s1 & S1 & O1), (T2 _ _ P2) as (s2 & S2 & O2).
    apply departure_set_inv in Hd as (ds & -> & _ & _). destruct (items_disjoint ds _ _ _ _ S1 S2) as [[-> ->]|[X|X]]; [|exfalso; clear - X R1 R2; lia|exfalso; clear - X R1 R2; lia]. f_equal. exact (dest_fun D cf PC L _ _ _ ND O1 O2).
  - destruct F1 as (r1 & P1 & R1). apply (proj1 (pairs_sort _ _ _)) in P1. destruct (F2 _ _ P1 R1).
  - destruct F2 as (r2 & P2 & R2). apply (proj2 (pairs_sort (ltrs_at L j) _ _)) in P2. destruct (F1 _ _ P2 R2).
Qed.

Definition only (k : nat) (v : list N) : Prop := br k v /\ forall k', br k' v -> k' = k.
Definition none (v : list N) : Prop := forall k, ~ br k v.
Definition several (v : list N) : Prop := exists k k', k <> k' /\ br k v /\ br k' v.

Lemma go_sound w k : ldfa_go T 0 w = LExit k -> exists m, 0 < m <= length w /\ br k (firstn m w).
Proof.
  destruct plain_inv as (L & -> & HB & HF & HR).
  assert (G : forall w j v, covers D id up n L j v -> ldfa_go (map (fun s => sort_ltrs (ltrs s)) L) j w = LExit k -> exists m, 0 < m <= length w /\ br k (v ++ firstn m w)).
  { clear w. induction w as [|c w IH]; intros j v HC H; cbn [ldfa_go] in H; [discriminate|]. pose proof (proj1 HC) as Hj.
    rewrite (nth_map_lt _ L lnil [] j Hj) in H. fold (ltrs_at L j) in H. rewrite (sorted_first L j c HB Hj (HF j Hj)) in H.
    pose proof (step_sound D cf PC id i up n Hroot L HB HF j v c HC) as S. destruct (first_lab (ltrs_at L j) c) as [d|]; [|discriminate].
    destruct (0 <=? d)%Z.
    - destruct (IH _ _ S H) as (m & M & H2). exists (Datatypes.S m). cbn [length firstn]. split; [lia|]. rewrite <- app_assoc in H2. exact H2.
    - injection H as <-. exists 1. cbn [length firstn]. split; [lia|exact S]. }
  apply (G w 0 []). split; [apply HR|]. intros x. apply HR.
Qed.
Lemma go_exact w : no_preference D -> match ldfa_go T 0 w with
  | LExit k => exists m, 0 < m <= length w /\ only k (firstn m w) /\ forall m', 0 < m' < m -> several (firstn m' w)
  | LReject => exists m, 0 < m <= length w /\ none (firstn m w) /\ forall m', 0 < m' < m -> several (firstn m' w)
  | LMore => forall m', 0 < m' <= length w -> several (firstn m' w)
  end.
Proof.
  intros HP. destruct plain_inv as (L & -> & HB & HF & HR).
  assert (G : forall w j v, represents D id up n L j v -> match ldfa_go (map (fun s => sort_ltrs (ltrs s)) L) j w with
    | LExit k => exists m, 0 < m <= length w /\ only k (v ++ firstn m w) /\ forall m', 0 < m' < m -> several (v ++ firstn m' w)
    | LReject => exists m, 0 < m <= length w /\ none (v ++ firstn m w) /\ forall m', 0 < m' < m -> several (v ++ firstn m' w)
    | LMore => forall m', 0 < m' <= length w -> several (v ++ firstn m' w)
    end).
  { clear w. induction w as [|c w IH]; intros j v HC; cbn [ldfa_go].
    { cbn [length]. intros m' M. lia. }
    pose proof (proj1 HC) as Hj.
    rewrite (nth_map_lt _ L lnil [] j Hj). fold (ltrs_at L j). rewrite (sorted_first L j c HB Hj (HF j Hj)).
    pose proof (step_exact D cf PC id i up n Hroot L HB HF j v c HP HC) as S. destruct (first_lab (ltrs_at L j) c) as [d|].
    - destruct (0 <=? d)%Z.
      + destruct S as [S1 S2]. specialize (IH _ _ S1).
        assert (QX : forall k, (forall m', 0 < m' < k -> several ((v ++ [c]) ++ firstn m' w)) -> forall m', 0 < m' < Datatypes.S k -> several (v ++ firstn m' (c :: w))).
        { intros k Hk [|[|m']] M; [lia|exact S2|]. specialize (Hk (Datatypes.S m') ltac:(lia)). rewrite <- app_assoc in Hk. exact Hk. }
        destruct (ldfa_go _ (Z.to_nat d) w) as [k| |].
        * destruct IH as (m & M & H2 & H3). exists (Datatypes.S m). cbn [length]. split; [lia|]. split; [rewrite <- app_assoc in H2; exact H2|]. apply QX, H3.
        * destruct IH as (m & M & H2 & H3). exists (Datatypes.S m). cbn [length]. split; [lia|]. split; [rewrite <- app_assoc in H2; exact H2|]. apply QX, H3.
        * intros m' M. apply (QX (Datatypes.S (length w))); [intros; apply IH; lia|cbn [length] in M; lia].
      + exists 1. cbn [length]. split; [lia|]. split; [exact S|lia].
    - exists 1. cbn [length]. split; [lia|]. split; [exact S|lia]. }
  exact (G w 0 [] HR).
Qed.

(** The table is fit for the code generator. *)
Hypothesis HB : forall p nd t, node_at D p = Some nd -> In t (ctrs nd) -> proper (clab t).
Lemma nins_in x y l : In y (nins x l) -> y = x \/ In y l.
Proof. induction l as [|z l IH]; cbn [nins]; [intros [->|[]]; auto|]. destruct (x <? z)%N; [intros [->|H]; auto|]. destruct (x =? z)%N; [auto|]. intros [->|H]; [right; left; reflexivity|]. destruct (IH H); [auto|right; right; assumption]. Qed.
Lemma borders_from (ds : list (cclass * celem)) b : In b (dep_borders ds) -> exists d r, In d ds /\ In r (fst d) /\ (b = rs r \/ b = re r).
Proof.
  unfold dep_borders.
  assert (G1 : forall cc l, In b (fold_left (fun s r => nins (re r) (nins (rs r) s)) cc l) -> In b l \/ exists r, In r cc /\ (b = rs r \/ b = re r)).
  { induction cc as [|r cc IH]; intros l H; cbn [fold_left] in H; [auto|]. destruct (IH _ H) as [H1|(r' & H1 & H2)]; [|right; exists r'; cbn; auto].
    apply nins_in in H1 as [H1|H1]; [right; exists r; cbn; auto|]. apply nins_in in H1 as [H1|H1]; [right; exists r; cbn; auto|auto]. }
  assert (G2 : forall ds l, In b (fold_left (fun s (d : cclass * celem) => fold_left (fun s r => nins (re r) (nins (rs r) s)) (fst d) s) ds l) -> In b l \/ exists d r, In d ds /\ In r (fst d) /\ (b = rs r \/ b = re r)).
  { clear ds. induction ds as [|d ds IH]; intros l H; cbn [fold_left] in H; [auto|]. destruct (IH _ H) as [H1|(d' & r & H1 & H2)]; [|right; exists d', r; cbn; auto].
    apply G1 in H1 as [H1|(r & H1 & H2)]; [auto|right; exists d, r; cbn; auto]. }
  intros H. destruct (G2 _ _ H) as [[]|H1]. exact H1.
Qed.
Lemma plain_codable : lcodable T (length (ctrs n)).
Proof.
  destruct plain_inv as (L & -> & HBL & HF & HR). split.
  - destruct HR as [HR _]. destruct L; [cbn in HR; lia|discriminate].
  - intros q cc d H. destruct (Nat.lt_ge_cases q (length L)) as [Q|Q].
    2:{ rewrite nth_overflow in H by (rewrite map_length; exact Q). destruct H. }
    rewrite (nth_map_lt _ L lnil [] q Q) in H. apply (proj1 (sort_ltrs_in _ _)) in H. fold (ltrs_at L q) in H.
    destruct (HF q Q) as (items & Hd & T1 & T2 & T3).
    assert (IO : items_ok' D PC items) by (destruct (proj2 HBL _ (nth_In L lnil Q)) as (_ & C1 & C2); eapply departure_items_ok; [exact C1|exact C2|exact Hd]).
    split.
    + intros r Hr. destruct (T2 r d (ex_intro _ cc (conj H Hr))) as (s & S1 & _). split; [apply (proj1 IO r s S1)|].
      unfold departure_set in Hd. destruct (sfold _ _ []) as [ds| |] eqn:E; try discriminate. injection Hd as <-.
      assert (HL : forall x, In x ds -> proper (fst x)).
      { eapply (sfold_inv (fun ds => forall x, In x ds -> proper (fst x))); [exact E|intros x Hx; destruct Hx|]. intros e b1 b2 _ H1 Hs.
        cbn beta in Hs, H1 |- *. exact (proj2 (dep_labels D proper HB cf) _ _ _ _ _ _ Hs H1). }
      apply dep_items_in in S1 as (pre & post & E1 & _); [|rewrite dep_borders_eq; apply borders_spec].
      assert (BI : In (re r) (dep_borders ds)) by (rewrite E1; apply in_or_app; right; right; left; reflexivity).
      apply borders_from in BI as (x & r' & X1 & X2 & X3). specialize (HL x X1 r' X2). destruct X3 as [X3|X3]; rewrite X3; lia.
    + destruct cc as [|r cc]; [destruct (proj1 (proj2 T1 _ _ H) eq_refl)|]. destruct (T2 r d (ex_intro _ (r :: cc) (conj H (or_introl eq_refl)))) as (s & S1 & S2).
      destruct (proj1 IO r s S1) as (_ & NE & _ & HC). destruct S2 as [[S2 ->]|(S2 & ec & j & _ & -> & S3)].
      * replace (0 <=? - closure_color 0 s)%Z with false by lia.
        pose proof (color_spec s (fun e h => proj1 (HC e h)) NE) as CS. destruct (closure_color 0 s) as [|k|k] eqn:EC; try lia.
        destruct s as [|e s]; [congruence|]. specialize (CS e (or_introl eq_refl)). specialize (HC e (or_introl eq_refl)). lia.
      * replace (0 <=? Z.of_nat j)%Z with true by lia. rewrite map_length, Nat2Z.id. assert (j < length (map (fun s => map key (llab s)) L)) by (apply nth_error_Some; congruence). rewrite map_length in H0. exact H0.
Qed.
End Main.

(** Minimisation keeps the table fit. *)
Lemma l_minimize_codable L m : lcodable L m -> lcodable (l_minimize L) m.
Proof.
  intros [NE HC]. unfold l_minimize. destruct (l_scan L (seq 0 (length L)) [] []) as [reps remap] eqn:EM.
  destruct (l_scan_spec L (seq 0 (length L)) [] [] [] reps remap) as ((P1 & P2 & P3) & _).
  { cbn. apply seq_NoDup. } { split; [cbn; tauto|]. split; [constructor|intros ? ? []]. } { exact EM. }
  cbn [app] in P1.
  assert (NDf : NoDup (map fst remap)) by (clear - P2; induction reps as [|x reps IH]; [exact P2|]; cbn in P2; inversion P2; subst; auto).
  assert (RR : forall a b, In (a, b) remap -> ~ In a reps /\ In b reps).
  { intros a b Hab. split; [|apply (P3 a b Hab)]. intros Ha. clear - P2 Ha Hab. induction reps as [|x reps IH]; [destruct Ha|].
    cbn in P2. inversion P2 as [|? ? N1 N2]; subst. destruct Ha as [->|Ha]; [|auto]. apply N1. apply in_or_app. right. apply in_map_iff. exists (a, b). auto. }
  pose proof (l_redirect_all reps remap L RR NDf) as RD. cbn zeta in RD. set (L2 := fold_left _ _ _) in *.
  split.
  - unfold l_filter. destruct reps as [|x reps]; [|discriminate]. intros _. destruct L as [|s L]; [congruence|]. assert (In 0 (seq 0 (length (s :: L)))) by (left; reflexivity).
    apply P1 in H as [[]|H]. apply in_map_iff in H as ([a b] & _ & H). destruct (proj2 (RR _ _ H)).
  - intros q cc d H. unfold l_filter in H. destruct (Nat.lt_ge_cases q (length reps)) as [Q|Q].
    2:{ rewrite nth_overflow in H by (rewrite map_length; exact Q). destruct H. }
    rewrite (nth_map_lt _ reps 0 [] q Q) in H. apply in_map_iff in H as ([c x] & E & H). apply filter_In in H as [H F]. cbn [fst snd] in *.
    rewrite (proj2 (RD _)) in H. apply in_map_iff in H as ([c' x'] & E' & H). injection E' as <- <-. cbn [fst snd] in *. specialize (HC _ _ _ H). destruct HC as [HC1 HC2].
    unfold zassoc in *. destruct (x' <? 0)%Z eqn:Ex.
    + rewrite Ex in E. injection E as <- <-. split; [exact HC1|]. destruct (0 <=? x')%Z eqn:E0; [lia|exact HC2].
    + replace (Z.of_nat (assoc remap (Z.to_nat x')) <? 0)%Z with false in * by lia. injection E as <- <-. split; [exact HC1|]. cbn [orb] in F. rewrite Nat2Z.id in *.
      apply existsb_exists in F as (y & Y1 & Y2). apply Nat.eqb_eq in Y2. subst y. replace (0 <=? _)%Z with true by lia. rewrite Nat2Z.id. unfold l_filter. rewrite map_length. apply index_of_nth, Y1.
Qed.
Lemma codable_range L m : lcodable L m -> 0 < length L /\ l_in_range L.
Proof.
  intros [NE HC]. split; [destruct L; [congruence|cbn; lia]|]. intros i cc d H. destruct (HC _ _ _ H) as [_ H1]. destruct (0 <=? d)%Z eqn:E; lia.
Qed.

Section Build.
Variable D : list (list N * cmach).
Variables (fuel cf : nat) (id : list N) (i : nat) (up : path) (n : cnode) (T : ldfa).
Hypothesis Hroot : node_at D ((id, i) :: up) = Some n.
Hypothesis HT : ldfa_build D fuel cf ((id, i) :: up) = SOk T.
Hypothesis HB : forall p nd t, node_at D p = Some nd -> In t (ctrs nd) -> proper (clab t).
Lemma build_inv : exists T0, ldfa_plain D fuel cf ((id, i) :: up) = SOk T0 /\ T = l_minimize T0 /\ (forall w, ldfa_go T 0 w = ldfa_go T0 0 w).
Proof.
  unfold ldfa_build in HT. destruct (ldfa_plain D fuel cf ((id, i) :: up)) as [T0| |] eqn:E; try discriminate. injection HT as <-. exists T0. split; [reflexivity|]. split; [reflexivity|].
  intros w. destruct (codable_range _ _ (plain_codable D fuel cf id i up n T0 Hroot E HB)). apply l_minimize_go; assumption.
Qed.
Theorem build_codable : lcodable T (length (ctrs n)).
Proof. destruct build_inv as (T0 & E & -> & _). apply l_minimize_codable. eapply plain_codable; eassumption. Qed.
Theorem build_sound w k : ldfa_go T 0 w = LExit k -> exists m, 0 < m <= length w /\ branch D ((id, i) :: up) k (firstn m w).
Proof. destruct build_inv as (T0 & E & _ & G). rewrite G. eapply go_sound; eassumption. Qed.
Theorem build_exact w : no_preference D -> match ldfa_go T 0 w with
  | LExit k => exists m, 0 < m <= length w /\ only D id i up k (firstn m w) /\ forall m', 0 < m' < m -> several D id i up (firstn m' w)
  | LReject => exists m, 0 < m <= length w /\ none D id i up (firstn m w) /\ forall m', 0 < m' < m -> several D id i up (firstn m' w)
  | LMore => forall m', 0 < m' <= length w -> several D id i up (firstn m' w)
  end.
Proof. destruct build_inv as (T0 & E & _ & G). rewrite G. eapply go_exact; eassumption. Qed.
End Build.
