(** * C39: the order of configurations *)
From Coq Require Import List NArith ZArith Arith Bool Lia ZifyBool ZifyN ZifyNat.
From Verif Require Import CharClass NFA DFA ATN Grammar GrammarProofs Lookahead LookOrder.
Import ListNotations.
Local Open Scope nat_scope.

(** What std::set asks of its comparison: a strict weak order. *)
Definition strict_weak_order {A} (lt : A -> A -> bool) : Prop :=
  (forall a, lt a a = false) /\ (forall a b, lt a b = true -> lt b a = false) /\ (forall a b c, lt a b = true -> lt b c = true -> lt a c = true) /\
  (forall a b c, lt a b = false -> lt b a = false -> lt b c = false -> lt c b = false -> lt a c = false /\ lt c a = false).
(** The comparison of configurations is one, and two configurations are equivalent only if they are at the same place
    and belong to the same way. *)
Theorem C39_strict_weak_order : strict_weak_order elem_lt /\
  (forall a b, elem_lt a b = false -> elem_lt b a = false -> epath a = epath b /\ ecol a = ecol b) /\
  (forall a b, elem_eqb a b = true <-> epath a = epath b /\ ecol a = ecol b).
Proof.
  pose proof key_total as [K1 K2 K3].
  assert (EQ : forall a b, elem_lt a b = false -> elem_lt b a = false -> key a = key b).
  { intros a b. rewrite !elem_lt_key, (K2 (key a) (key b)). destruct (key_cmp (key a) (key b)) eqn:E; cbn [CompOpp]; try discriminate. intros _ _. apply K1. exact E. }
  assert (IR : forall a b, key a = key b -> elem_lt a b = false) by (intros a b E; rewrite elem_lt_key, E, (proj2 (K1 _ _) eq_refl); reflexivity).
  split; [split; [|split; [|split]]|split].
  - intros a. apply IR. reflexivity.
  - intros a b. rewrite !elem_lt_key, (K2 (key a) (key b)). destruct (key_cmp (key a) (key b)); cbn; congruence.
  - intros a b c. rewrite !elem_lt_key. destruct (key_cmp (key a) (key b)) eqn:E1; try discriminate. destruct (key_cmp (key b) (key c)) eqn:E2; try discriminate. rewrite (K3 _ _ _ E1 E2). reflexivity.
  - intros a b c H1 H2 H3 H4. pose proof (EQ _ _ H1 H2) as E1. pose proof (EQ _ _ H3 H4) as E2. split; apply IR; congruence.
  - intros a b H1 H2. pose proof (EQ _ _ H1 H2) as E. injection E as E1 E2. auto.
  - intros a b. rewrite elem_eqb_key. unfold key. split; [intros E; injection E; auto|intros [-> ->]; reflexivity].
Qed.
Print Assumptions C39_strict_weak_order.
(** The set that results from putting in the configurations of a list, one after the other: in order, without repetitions, every
    place and way of the list is there and no others; every element is one that has been put in. *)
Theorem C39_set_partial : forall l : list celem, let s := fold_left (fun s e => cl_ins e s) l [] in
  (forall p c, (exists e, In e s /\ epath e = p /\ ecol e = c) <-> exists e, In e l /\ epath e = p /\ ecol e = c) /\
  (forall e, In e s -> In e l) /\ NoDup (map (fun e => (epath e, ecol e)) s) /\
  (forall i j a b, i < j -> nth_error s i = Some a -> nth_error s j = Some b -> elem_lt a b = true).
Proof.
  intros l s. pose proof key_total as [K1 K2 K3].
  assert (G : forall l s0, asc (map key s0) -> let s := fold_left (fun s e => cl_ins e s) l s0 in
     asc (map key s) /\ (forall k, In k (map key s) <-> In k (map key l) \/ In k (map key s0)) /\ forall e, In e s -> In e l \/ In e s0).
  { clear l s. induction l as [|x l IH]; intros s0 H0; cbn [fold_left]; [split; [exact H0|]; split; [cbn; tauto|auto]|].
    destruct (IH (cl_ins x s0) (cl_ins_asc x s0 H0)) as (I1 & I2 & I3). split; [exact I1|]. split.
    - intros k. rewrite I2, cl_ins_keys. cbn [map In]. intuition.
    - intros e He. destruct (I3 e He) as [H|H]; [left; right; exact H|]. apply cl_ins_in in H as [->|H]; [left; left; reflexivity|right; exact H]. }
  destruct (G l [] asc_nil) as (I1 & I2 & I3). fold s in I1, I2, I3.
  split; [|split; [|split]].
  - intros p c. assert (E : forall t : list celem, (exists e, In e t /\ epath e = p /\ ecol e = c) <-> In (p, c) (map key t)).
    { intros t. rewrite in_map_iff. split; intros (e & H); exists e; unfold key in *; [destruct H as (H1 & <- & <-); auto|destruct H as [H1 H2]; injection H1 as <- <-; auto]. }
    rewrite !E, I2. cbn. tauto.
  - intros e He. destruct (I3 e He) as [H|[]]. exact H.
  - change (map (fun e => (epath e, ecol e)) s) with (map key s). clear - I1 K1. induction I1 as [|x l0 H _ IH]; constructor; [|exact IH]. intros K. specialize (H x K). rewrite (proj2 (K1 x x) eq_refl) in H. discriminate.
  - clear - I1. revert I1. generalize s. clear s. induction s as [|x s IH]; intros HA i j a b L E1 E2; [destruct i; discriminate|]. cbn [map] in HA. inversion HA as [|? ? H1 H2]; subst. destruct j as [|j]; [lia|]. destruct i as [|i]; [|apply (IH H2 i j); [lia|exact E1|exact E2]].
    injection E1 as <-. cbn [nth_error] in E2. apply nth_error_In in E2. rewrite elem_lt_key, (H1 (key b) (in_map key _ _ E2)). reflexivity.
Qed.
Print Assumptions C39_set_partial.
Example C39_hyp : let e n := mkE [([65%N], n)] 1 [] in fold_left (fun s e => cl_ins e s) [e 3; e 1; e 2; e 1] [] = [e 1; e 2; e 3].
Proof. reflexivity. Qed.
(** But the configurations also carry the preferences taken on the way, and those are dropped: of two configurations at one place, the first one
    put in stays, so the set depends on the order. *)
Theorem C39_preference_lost_refuted : exists a b, eprio a <> eprio b /\ cl_ins b (cl_ins a []) = [a] /\ cl_ins a (cl_ins b []) = [b].
Proof. exists (mkE [([65%N], 1)] 1 [([65%N], 0, 0)]), (mkE [([65%N], 1)] 1 [([65%N], 0, 1)]). split; [discriminate|]. split; reflexivity. Qed.
Print Assumptions C39_preference_lost_refuted.
(** Preferences: a is better than b exactly if b is worse than a, and never both. *)
Theorem C39_preference_converse : forall a b, superior a b = inferior b a /\ (superior a b = true -> inferior a b = false) /\ superior a a = false.
Proof.
  assert (E : forall a b, prio_cmp b a = CompOpp (prio_cmp a b)).
  { induction a as [|[[i n] p] a IH]; intros [|[[j m] q] b]; try reflexivity. cbn [prio_cmp]. assert (E1 : eqname j i && (m =? n) = eqname i j && (n =? m)).
    { rewrite (Nat.eqb_sym m n). f_equal. destruct (eqname j i) eqn:E, (eqname i j) eqn:E'; try reflexivity; [apply eqname_spec in E as ->|apply eqname_spec in E' as ->]; rewrite (proj2 (eqname_spec _ _) eq_refl) in *; congruence. }
    rewrite E1. destruct (eqname i j && (n =? m)); [|apply IH]. rewrite (Nat.compare_antisym p q). destruct (Nat.compare p q); cbn; [apply IH|reflexivity|reflexivity]. }
  intros a b. unfold superior, inferior. rewrite (E a b). split; [destruct (prio_cmp a b); reflexivity|]. split; [destruct (prio_cmp a b); congruence|].
  pose proof (E a a) as EA. destruct (prio_cmp a a); [reflexivity|discriminate|reflexivity].
Qed.
Print Assumptions C39_preference_converse.
(** They are no order, though: positions at which two chains are at different nodes are skipped, so there are three chains each better than the next, in a circle.
    Which of three such configurations are kept depends on the order in which they come. *)
Theorem C39_preference_circle_refuted : exists a b c : celem,
  superior (eprio a) (eprio b) = true /\ superior (eprio b) (eprio c) = true /\ superior (eprio c) (eprio a) = true /\
  closure_add (closure_add (closure_add [] a) b) c = [c] /\ closure_add (closure_add (closure_add [] b) c) a = [a] /\ epath a <> epath c.
Proof.
  exists (mkE [([65%N], 1)] 1 [([88%N], 0, 0); ([87%N], 0, 0); ([90%N], 0, 1)]), (mkE [([65%N], 2)] 2 [([88%N], 0, 1); ([89%N], 0, 0); ([87%N], 1, 0)]), (mkE [([65%N], 3)] 3 [([87%N], 2, 0); ([89%N], 0, 1); ([90%N], 0, 0)]).
  repeat split; discriminate.
Qed.
Print Assumptions C39_preference_circle_refuted.
