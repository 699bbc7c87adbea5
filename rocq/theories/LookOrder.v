(** The orders on configurations, and sorted sets of configurations. *)
From Coq Require Import List NArith ZArith Arith Bool Lia ZifyBool ZifyN ZifyNat.
From Verif Require Import CharClass NFA DFA ATN Grammar GrammarProofs Lookahead.
Import ListNotations.
Local Open Scope nat_scope.

(** A three-way comparison that is a total order. *)
Record total_cmp {A} (c : A -> A -> comparison) : Prop := {
  tc_eq : forall a b, c a b = Eq <-> a = b;
  tc_sym : forall a b, c b a = CompOpp (c a b);
  tc_trans : forall x y z, c x y = Lt -> c y z = Lt -> c x z = Lt }.
Lemma N_total : total_cmp N.compare.
Proof. split; [apply N.compare_eq_iff|intros; apply N.compare_antisym|]. intros a b c H K. exact (N.lt_trans _ _ _ H K). Qed.
Lemma nat_total : total_cmp Nat.compare.
Proof. split; [apply Nat.compare_eq_iff|intros; apply Nat.compare_antisym|]. intros a b c H K. apply Nat.compare_lt_iff in H. apply Nat.compare_lt_iff in K. apply Nat.compare_lt_iff. lia. Qed.
Lemma lex_total {A} (c : A -> A -> comparison) : total_cmp c -> total_cmp (lex c).
Proof.
  intros [E1 E2 E3]. split.
  - induction a as [|x a IH]; intros [|y b]; cbn [lex]; try (split; congruence).
    destruct (c x y) eqn:K; [|split; [discriminate|]|split; [discriminate|]].
    + apply E1 in K as ->. rewrite IH. split; [intros ->; reflexivity|intros H; injection H; auto].
    + intros H; injection H as -> ->. rewrite (proj2 (E1 y y) eq_refl) in K. discriminate.
    + intros H; injection H as -> ->. rewrite (proj2 (E1 y y) eq_refl) in K. discriminate.
  - induction a as [|x a IH]; intros [|y b]; cbn [lex]; try reflexivity. rewrite (E2 x y). destruct (c x y); cbn [CompOpp]; [apply IH|reflexivity|reflexivity].
  - intros a b d. revert b d. induction a as [|x a IH]; intros [|y b] [|z d]; cbn [lex]; try congruence.
    destruct (c x y) eqn:K1; [|..|discriminate].
    + apply E1 in K1 as ->. destruct (c y z) eqn:K2; [|reflexivity|discriminate]. apply IH.
    + intros _. destruct (c y z) eqn:K2; [|..|discriminate].
      * apply E1 in K2 as ->. rewrite K1. reflexivity.
      * intros _. rewrite (E3 _ _ _ K1 K2). reflexivity.
Qed.
Lemma name_total : total_cmp name_cmp. Proof. apply lex_total, N_total. Qed.
Lemma pair_total {A B} (c : A -> A -> comparison) (d : B -> B -> comparison) : total_cmp c -> total_cmp d ->
  total_cmp (fun x y : A * B => match c (fst x) (fst y) with Eq => d (snd x) (snd y) | r => r end).
Proof.
  intros [A1 A2 A3] [B1 B2 B3]. split.
  - intros [a b] [a' b']. cbn. destruct (c a a') eqn:K.
    + apply A1 in K as ->. rewrite B1. split; congruence.
    + split; [discriminate|]. intros H; injection H as -> ->. rewrite (proj2 (A1 a' a') eq_refl) in K. discriminate.
    + split; [discriminate|]. intros H; injection H as -> ->. rewrite (proj2 (A1 a' a') eq_refl) in K. discriminate.
  - intros [a b] [a' b']. cbn. rewrite (A2 a a'). destruct (c a a'); cbn; auto.
  - intros [a b] [a' b'] [a'' b'']. cbn. destruct (c a a') eqn:K1; [|..|discriminate].
    + apply A1 in K1 as ->. destruct (c a' a'') eqn:K2; [|reflexivity|discriminate]. apply B3.
    + intros _. destruct (c a' a'') eqn:K2; [|..|discriminate].
      * apply A1 in K2 as ->. rewrite K1. reflexivity.
      * intros _. rewrite (A3 _ _ _ K1 K2). reflexivity.
Qed.
Lemma step_total : total_cmp step_cmp.
Proof. exact (pair_total _ _ name_total nat_total). Qed.
Lemma map_total {A B} (f : A -> B) (c : B -> B -> comparison) : (forall a b, f a = f b -> a = b) -> total_cmp c -> total_cmp (fun a b => c (f a) (f b)).
Proof. intros HI [E1 E2 E3]. split; [|auto|eauto]. intros a b. rewrite E1. split; [apply HI|congruence]. Qed.
Lemma path_total : total_cmp path_cmp.
Proof.
  assert (T := pair_total _ _ nat_total (lex_total _ step_total)).
  exact (map_total (fun p : path => (length p, rev p)) _ ltac:(intros a b H; injection H as _ H; rewrite <- (rev_involutive a), H; apply rev_involutive) T).
Qed.
(** Path and colour. *)
Definition key (e : celem) : path * nat := (epath e, ecol e).
Definition key_cmp (a b : path * nat) : comparison := match path_cmp (fst a) (fst b) with Eq => Nat.compare (snd a) (snd b) | r => r end.
Lemma key_total : total_cmp key_cmp. Proof. exact (pair_total _ _ path_total nat_total). Qed.
Lemma elem_lt_key a b : elem_lt a b = match key_cmp (key a) (key b) with Lt => true | _ => false end.
Proof. unfold elem_lt, key_cmp, key. cbn. destruct (path_cmp (epath a) (epath b)); try reflexivity. destruct (Nat.compare_spec (ecol a) (ecol b)) as [H|H|H]; [apply Nat.ltb_ge; lia|apply Nat.ltb_lt; lia|apply Nat.ltb_ge; lia]. Qed.
Lemma elem_eqb_key a b : elem_eqb a b = true <-> key a = key b.
Proof.
  rewrite <- (tc_eq _ key_total). unfold elem_eqb, key_cmp, key. cbn. destruct (path_cmp (epath a) (epath b)); try (split; discriminate).
  destruct (Nat.compare_spec (ecol a) (ecol b)); split; try discriminate; try reflexivity; lia.
Qed.
Lemma cl_eqb_key a : forall b, cl_eqb a b = true <-> map key a = map key b.
Proof.
  induction a as [|x a IH]; intros [|y b]; cbn [cl_eqb map]; try (split; discriminate || reflexivity).
  rewrite andb_true_iff, elem_eqb_key, IH. split; [intros [-> ->]; reflexivity|]. intros H. injection H as H1 H2 H3. unfold key. rewrite H1, H2. auto.
Qed.

(** Ascending lists of configurations. *)
Inductive asc : list (path * nat) -> Prop :=
| asc_nil : asc []
| asc_cons x l : (forall y, In y l -> key_cmp x y = Lt) -> asc l -> asc (x :: l).
Lemma asc_ext a b : asc a -> asc b -> (forall x, In x a <-> In x b) -> a = b.
Proof.
  intros Ha. revert b. induction Ha as [|x a Hx Ha IH]; intros b Hb HE.
  - destruct b as [|y b]; [reflexivity|]. exfalso. apply (HE y). left. reflexivity.
  - assert (IR : forall z, key_cmp z z <> Lt) by (intros z; rewrite (proj2 (tc_eq _ key_total z z) eq_refl); discriminate).
    inversion Hb as [|y b' Hy Hb']; subst; [exfalso; apply (HE x); left; reflexivity|].
    assert (x = y).
    { assert (I1 : In x (y :: b')) by (apply HE; left; reflexivity). assert (I2 : In y (x :: a)) by (apply HE; left; reflexivity).
      destruct I1 as [E|I1]; [congruence|]. destruct I2 as [E|I2]; [congruence|]. apply Hx in I2. apply Hy in I1. destruct (IR x). exact (tc_trans _ key_total _ _ _ I2 I1). }
    subst y. f_equal. apply IH; [exact Hb'|]. intros z. split; intros Hz.
    + assert (I1 : In z (x :: b')) by (apply HE; right; exact Hz). destruct I1 as [E|]; [|assumption]. subst z. apply Hx in Hz. destruct (IR _ Hz).
    + assert (I1 : In z (x :: a)) by (apply HE; right; exact Hz). destruct I1 as [E|]; [|assumption]. subst z. apply Hy in Hz. destruct (IR _ Hz).
Qed.
Lemma cl_ins_keys e s k : In k (map key (cl_ins e s)) <-> k = key e \/ In k (map key s).
Proof.
  induction s as [|x s IH]; cbn [cl_ins map In]; [firstorder congruence|].
  destruct (elem_lt e x) eqn:E1; [cbn [map In]; firstorder congruence|]. destruct (elem_lt x e) eqn:E2.
  - cbn [map In]. rewrite IH. tauto.
  - assert (key e = key x).
    { rewrite elem_lt_key in E1, E2. rewrite (tc_sym _ key_total (key e) (key x)) in E2. destruct (key_cmp (key e) (key x)) eqn:K; try discriminate. apply (tc_eq _ key_total), K. }
    cbn [map In]. rewrite H. firstorder congruence.
Qed.
Lemma cl_ins_in e s x : In x (cl_ins e s) -> x = e \/ In x s.
Proof.
  induction s as [|y s IH]; cbn [cl_ins In]; [firstorder congruence|].
  destruct (elem_lt e y); [cbn [In]; firstorder congruence|]. destruct (elem_lt y e); cbn [In]; firstorder.
Qed.
Lemma cl_ins_ne e s : cl_ins e s <> [].
Proof. destruct s; cbn [cl_ins]; [discriminate|]. destruct (elem_lt _ _); [discriminate|]. destruct (elem_lt _ _); discriminate. Qed.
Lemma cl_ins_asc e s : asc (map key s) -> asc (map key (cl_ins e s)).
Proof.
  induction s as [|x s IH]; cbn [cl_ins map]; intros H; [constructor; [intros ? []|constructor]|].
  inversion H as [|? ? Hx Hs]; subst. destruct (elem_lt e x) eqn:E1; [|destruct (elem_lt x e) eqn:E2].
  - rewrite elem_lt_key in E1. destruct (key_cmp (key e) (key x)) eqn:K; try discriminate. cbn [map].
    constructor; [|exact H]. intros y [<-|Hy]; [exact K|]. apply (tc_trans _ key_total _ _ _ K). apply Hx, Hy.
  - cbn [map]. constructor; [|apply IH, Hs]. intros y Hy. apply cl_ins_keys in Hy as [->|Hy]; [|apply Hx, Hy].
    rewrite elem_lt_key in E2. destruct (key_cmp (key x) (key e)); congruence.
  - exact H.
Qed.
Lemma filter_asc f s : asc (map key s) -> asc (map key (filter f s)).
Proof.
  induction s as [|x s IH]; cbn [filter map]; intros H; [constructor|]. inversion H as [|? ? Hx Hs]; subst. destruct (f x); cbn [map]; [|auto].
  constructor; [|auto]. intros y Hy. apply Hx. apply in_map_iff in Hy as (z & <- & Hz). apply filter_In in Hz as [Hz _]. apply in_map, Hz.
Qed.
