From Coq Require Import List Arith Bool Lia Wf_nat.
From Verif Require Import Protocol ProtocolInv ProtocolLive PyChannel.
Import ListNotations.

Section X.
Context {P R Vs : Type}.
Variables n W K : nat.
Variable page : nat -> P.
Variable red : P -> R.
Variable val : R -> Vs.
Hypothesis Kpos : 1 <= K.
Notation state := (state P R).
Notation xstate := (xstate P R Vs).
Notation stOf s i := (st (banks s i)).
Notation numOf s i := (num (banks s i)).
Notation Inv := (Inv n W K page red).
Notation step := (step n W K page red).
Notation xstep := (xstep n W K page red val).

(** Bank [b] carries a reduced page whose values have not been taken. *)
Definition has (s : state) (b : nat) : Prop :=
  (exists w, w < W /\ p2 s w = Rel2 b) \/ stOf s b = S2U \/ p3 s = Merge3 b.
Definition none (x : xstate) (b : nat) : Prop := pipe x b = [] /\ forall w, buf x w b = [].
Definition one (x : xstate) (b : nat) (v : Vs) : Prop :=
  (pipe x b = [v] /\ forall w, buf x w b = []) \/
  (exists w, buf x w b = [v] /\ pipe x b = [] /\ forall w', w' <> w -> buf x w' b = []).
Record CInv (x : xstate) : Prop := mkC {
  c_inv : Inv (base x);
  c_has : forall b, b < n -> has (base x) b -> one x b (val (red (page (numOf (base x) b))));
  c_not : forall b, (b < n -> ~ has (base x) b) -> none x b;
  c_got : got x = map val (merged (base x)) }.

Lemma cinit : CInv (xinit (Vs:=Vs)).
Proof.
  constructor; cbn; auto.
  - apply inv_init; exact Kpos.
  - intros b _ [(w & _ & H)|[H|H]]; discriminate.
  - split; auto.
Qed.

(** A step of the protocol that does not touch the channels. *)
Lemma quiet x s' : CInv x -> Inv s' -> merged s' = merged (base x) ->
  (forall b, b < n -> (has s' b <-> has (base x) b) /\ (has s' b -> numOf s' b = numOf (base x) b)) ->
  CInv (mkX s' (buf x) (pipe x) (got x)).
Proof.
  intros [C1 C2 C3 C4] I' M H. constructor; cbn; auto.
  - intros b Hb Hh. destruct (H b Hb) as [H1 H2]. rewrite (H2 Hh). apply C2; [exact Hb|]. apply H1; exact Hh.
  - intros b Hh. apply C3. intros Hb. destruct (H b Hb) as [H1 _]. intros Q. apply (Hh Hb). apply H1; exact Q.
  - rewrite M. exact C4.
Qed.

Ltac bk j i := destruct (Nat.eq_dec j i) as [->|?]; [rewrite ?upd_eq in *|rewrite ?upd_ne in * by assumption].

Lemma step1_quiet sp s : Inv s -> merged (step T1 sp s) = merged s /\
  forall b, b < n -> (has (step T1 sp s) b <-> has s b) /\ (has (step T1 sp s) b -> numOf (step T1 sp s) b = numOf s b).
Proof.
  intros HI. pose proof (i1 _ _ _ _ _ _ HI) as J1. unfold inv1 in J1.
  assert (NH : forall b, b < n -> stOf s b = Free \/ stOf s b = S1L -> ~ has s b).
  { intros b Hb E [(w & Hw & H)|[H|H]].
    - pose proof (i2 _ _ _ _ _ _ HI w Hw) as J. rewrite H in J. destruct J as (_ & J & _). destruct E; congruence.
    - destruct E; congruence.
    - pose proof (i3 _ _ _ _ _ _ HI) as J. unfold inv3 in J. rewrite H in J. destruct J as (_ & J & _). destruct E; congruence. }
  assert (TR : forall bs sm q c i, (forall j, j <> i -> bs j = banks s j) -> stOf s i = Free \/ stOf s i = S1L ->
    st (bs i) <> S2U -> let s' := set1 s bs sm q c in forall b, b < n -> (has s' b <-> has s b) /\ (has s' b -> numOf s' b = numOf s b)).
  { intros bs sm q c i Hj Hi Hn s' b Hb. destruct (Nat.eq_dec b i) as [->|Nb].
    - assert (N1 := NH i Hb Hi). assert (N2 : ~ has s' i).
      { intros [(w & Hw & H)|[H|H]]; cbn in H.
        - apply N1. left. eauto.
        - contradiction.
        - apply N1. right. right. exact H. }
      split; [tauto|]. intros H. contradiction.
    - unfold has, s'. cbn. rewrite (Hj b Nb). split; [reflexivity|auto]. }
  assert (TR0 : forall sm q c, let s' := set1 s (banks s) sm q c in forall b, b < n -> (has s' b <-> has s b) /\ (has s' b -> numOf s' b = numOf s b)).
  { intros sm q c s' b Hb. unfold has, s'. cbn. split; [reflexivity|auto]. }
  cbn [Protocol.step]. unfold step1. destruct (p1 s) as [i|i|b|b|b|b| |i c|i|i|] eqn:E1.
  - destruct (Nat.ltb_spec i n) as [Hi|Hi]; (split; [reflexivity|]); [|apply TR0]. apply (TR _ _ _ _ i).
    + intros j Hj. unfold set_st. apply upd_ne; exact Hj.
    + left. apply J1; exact Hi.
    + unfold set_st. rewrite upd_eq. cbn. discriminate.
  - destruct (Nat.ltb_spec i n) as [Hi|Hi]; [|split; [reflexivity|apply TR0]].
    destruct (bst_eqb (st (banks s i)) Free && negb sp) eqn:EF; (split; [reflexivity|]); [|apply TR0].
    apply andb_true_iff in EF. destruct EF as [EF _]. apply bst_eqb_true in EF. apply (TR _ _ _ _ i).
    + intros j Hj. unfold set_st. apply upd_ne; exact Hj.
    + left. exact EF.
    + unfold set_st. rewrite upd_eq. cbn. discriminate.
  - split; [reflexivity|]. apply (TR _ _ _ _ b).
    + intros j Hj. unfold set_data. apply upd_ne; exact Hj.
    + right. tauto.
    + unfold set_data. rewrite upd_eq. cbn. destruct J1 as (_ & J1 & _). rewrite J1. discriminate.
  - split; [reflexivity|]. apply (TR _ _ _ _ b).
    + intros j Hj. unfold set_data. apply upd_ne; exact Hj.
    + right. tauto.
    + unfold set_data. rewrite upd_eq. cbn. destruct J1 as (_ & J1 & _). rewrite J1. discriminate.
  - split; [reflexivity|]. apply (TR _ _ _ _ b).
    + intros j Hj. unfold set_num. apply upd_ne; exact Hj.
    + right. tauto.
    + unfold set_num. rewrite upd_eq. cbn. destruct J1 as (_ & J1 & _). rewrite J1. discriminate.
  - split; [reflexivity|]. apply (TR _ _ _ _ b).
    + intros j Hj. unfold set_st. apply upd_ne; exact Hj.
    + right. tauto.
    + unfold set_st. rewrite upd_eq. cbn. discriminate.
  - split; [reflexivity|apply TR0].
  - destruct (i <? n); (split; [reflexivity|apply TR0]).
  - destruct (Nat.ltb_spec i n) as [Hi|Hi]; (split; [reflexivity|]); [|apply TR0]. apply (TR _ _ _ _ i).
    + intros j Hj. unfold set_st. apply upd_ne; exact Hj.
    + left. apply J1; [lia|exact Hi].
    + unfold set_st. rewrite upd_eq. cbn. discriminate.
  - split; [reflexivity|apply TR0].
  - split; [reflexivity|]. intros b Hb. split; [reflexivity|auto].
Qed.

Lemma step2_quiet w sp s : Inv s -> w < W -> (forall b r, p2 s w <> Write2 b r) -> merged (step (T2 w) sp s) = merged s /\
  forall b, b < n -> (has (step (T2 w) sp s) b <-> has s b) /\ (has (step (T2 w) sp s) b -> numOf (step (T2 w) sp s) b = numOf s b).
Proof.
  intros HI Hw NW. pose proof (i2 _ _ _ _ _ _ HI w Hw) as J2. cbn [Protocol.step]. replace (w <? W) with true by (symmetry; apply Nat.ltb_lt; exact Hw).
  assert (TR0 : forall sm q pr, (forall b, q <> Rel2 b) -> (forall b, p2 s w <> Rel2 b) ->
    let s' := set2 s w (banks s) sm q pr in forall b, b < n -> (has s' b <-> has s b) /\ (has s' b -> numOf s' b = numOf s b)).
  { intros sm q pr Hq Hp s' b Hb. split; [|auto]. unfold has, s'. cbn. split; (intros [(v & Hv & H)|H]; [left; exists v; split; [exact Hv|]|right; exact H]).
    - destruct (Nat.eq_dec v w) as [->|Nv]; [rewrite upd_eq in H; destruct (Hq _ H)|rewrite upd_ne in H by exact Nv; exact H].
    - destruct (Nat.eq_dec v w) as [->|Nv]; [destruct (Hp _ H)|rewrite upd_ne by exact Nv; exact H]. }
  unfold step2. destruct (p2 s w) as [|i|b|b r|b| |] eqn:E2.
  - destruct (sem s); (split; [reflexivity|]); [intros b Hb; split; [reflexivity|auto]|apply TR0; intros; congruence].
  - destruct (Nat.ltb_spec i n) as [Hi|Hi]; [|split; [reflexivity|apply TR0; intros; congruence]].
    destruct (bst_eqb (st (banks s i)) S1U && negb sp) eqn:EF; [|destruct (bst_eqb (st (banks s i)) Done); (split; [reflexivity|apply TR0; intros; congruence])].
    apply andb_true_iff in EF. destruct EF as [EF _]. apply bst_eqb_true in EF. split; [reflexivity|]. intros b Hb. split.
    + unfold has. cbn. destruct (Nat.eq_dec b i) as [->|Nb].
      * unfold set_st. rewrite upd_eq. cbn. split; intros [(v & Hv & H)|[H|H]]; try discriminate; try congruence.
        -- left. exists v. split; [exact Hv|]. destruct (Nat.eq_dec v w) as [->|Nv]; [rewrite upd_eq in H; discriminate|rewrite upd_ne in H by exact Nv; exact H].
        -- auto.
        -- left. exists v. split; [exact Hv|]. destruct (Nat.eq_dec v w) as [->|Nv]; [congruence|rewrite upd_ne by exact Nv; exact H].
        -- auto.
      * unfold set_st. rewrite upd_ne by exact Nb. split; intros [(v & Hv & H)|H]; [left|right; exact H|left|right; exact H]; exists v; (split; [exact Hv|]).
        -- destruct (Nat.eq_dec v w) as [->|Nv]; [rewrite upd_eq in H; discriminate|rewrite upd_ne in H by exact Nv; exact H].
        -- destruct (Nat.eq_dec v w) as [->|Nv]; [congruence|rewrite upd_ne by exact Nv; exact H].
    + intros _. cbn. unfold set_st. destruct (Nat.eq_dec b i) as [->|Nb]; [rewrite upd_eq; reflexivity|rewrite upd_ne by exact Nb; reflexivity].
  - destruct (data (banks s b)); (split; [reflexivity|apply TR0; intros; congruence]).
  - exfalso. eapply NW; reflexivity.
  - split; [reflexivity|]. destruct J2 as (Hbn & Jst & _). intros c Hc. split.
    + unfold has. cbn. destruct (Nat.eq_dec c b) as [->|Nb].
      * unfold set_st. rewrite upd_eq. cbn. split; [intros _; left; eauto|intros _; right; left; reflexivity].
      * unfold set_st. rewrite upd_ne by exact Nb. split; intros [(v & Hv & H)|H]; [left|right; exact H|left|right; exact H]; exists v; (split; [exact Hv|]).
        -- destruct (Nat.eq_dec v w) as [->|Nv]; [rewrite upd_eq in H; discriminate|rewrite upd_ne in H by exact Nv; exact H].
        -- destruct (Nat.eq_dec v w) as [->|Nv]; [congruence|rewrite upd_ne by exact Nv; exact H].
    + intros _. cbn. unfold set_st. destruct (Nat.eq_dec c b) as [->|Nb]; [rewrite upd_eq; reflexivity|rewrite upd_ne by exact Nb; reflexivity].
  - split; [reflexivity|]. intros b Hb. split; [reflexivity|auto].
  - split; [reflexivity|]. intros b Hb. split; [reflexivity|auto].
Qed.

Lemma step3_quiet sp s : Inv s -> (forall b, p3 s <> Merge3 b) -> merged (step T3 sp s) = merged s /\
  forall b, b < n -> (has (step T3 sp s) b <-> has s b) /\ (has (step T3 sp s) b -> numOf (step T3 sp s) b = numOf s b).
Proof.
  intros HI NM. pose proof (i3 _ _ _ _ _ _ HI) as J3. unfold inv3 in J3. cbn [Protocol.step].
  assert (TR0 : forall q c, (forall b, q <> Merge3 b) ->
    let s' := set3 s (banks s) q c (merged s) in forall b, b < n -> (has s' b <-> has s b) /\ (has s' b -> numOf s' b = numOf s b)).
  { intros q c Hq s' b Hb. split; [|auto]. unfold has, s'. cbn. split; (intros [H|[H|H]]; [left; exact H|right; left; exact H|]); [destruct (Hq _ H)|destruct (NM _ H)]. }
  unfold step3. destruct (p3 s) as [i|i|i|i|b|b| |] eqn:E3.
  - destruct (i <? n); [destruct (bst_eqb (st (banks s i)) S2U)|]; (split; [reflexivity|apply TR0; intros; congruence]).
  - destruct (bst_eqb (st (banks s i)) Done); (split; [reflexivity|apply TR0; intros; congruence]).
  - destruct (num (banks s i) =? cnt3 s); (split; [reflexivity|apply TR0; intros; congruence]).
  - split; [reflexivity|]. destruct J3 as (Hi & Hst & _). intros b Hb. split.
    + unfold has. cbn. destruct (Nat.eq_dec b i) as [->|Nb].
      * split; [intros _; right; left; exact Hst|intros _; right; right; reflexivity].
      * unfold set_st. rewrite upd_ne by exact Nb. split; (intros [H|[H|H]]; [left; exact H|right; left; exact H|]); [injection H as H; congruence|congruence].
    + intros _. cbn. unfold set_st. destruct (Nat.eq_dec b i) as [->|Nb]; [rewrite upd_eq; reflexivity|rewrite upd_ne by exact Nb; reflexivity].
  - exfalso. eapply NM; reflexivity.
  - split; [reflexivity|]. destruct J3 as (Hi & Hst). intros c Hc. split.
    + unfold has. cbn. destruct (Nat.eq_dec c b) as [->|Nb].
      * unfold set_st. rewrite upd_eq. cbn. split; (intros [H|[H|H]]; [left; exact H| |]); try discriminate; congruence.
      * unfold set_st. rewrite upd_ne by exact Nb. split; (intros [H|[H|H]]; [left; exact H|right; left; exact H|]); congruence.
    + intros _. cbn. unfold set_st. destruct (Nat.eq_dec c b) as [->|Nb]; [rewrite upd_eq; reflexivity|rewrite upd_ne by exact Nb; reflexivity].
  - split; [reflexivity|]. intros b Hb. split; [reflexivity|auto].
  - split; [reflexivity|]. intros b Hb. split; [reflexivity|auto].
Qed.

Lemma upd2_eq {A} (f : nat -> nat -> A) i j x : upd2 f i j x i j = x.
Proof. unfold upd2. rewrite !Nat.eqb_refl. reflexivity. Qed.
Lemma upd2_ne {A} (f : nat -> nat -> A) i j x i' j' : i' <> i \/ j' <> j -> upd2 f i j x i' j' = f i' j'.
Proof. intros H. unfold upd2. destruct (Nat.eqb_spec i' i), (Nat.eqb_spec j' j); cbn; auto. destruct H; contradiction. Qed.

Lemma write_put w b r sp x : CInv x -> w < W -> p2 (base x) w = Write2 b r ->
  CInv (mkX (step (T2 w) sp (base x)) (upd2 (buf x) w b (buf x w b ++ [val r])) (pipe x) (got x)).
Proof.
  intros [HI C2 C3 C4] Hw E2. pose proof (i2 _ _ _ _ _ _ HI w Hw) as J2. rewrite E2 in J2. destruct J2 as (Hb & Hst & Hr & _).
  assert (NH : ~ has (base x) b).
  { intros [(v & Hv & H)|[H|H]].
    - assert (v = w) as -> by (apply (i2d _ _ _ _ _ _ HI v w b Hv Hw); [right; right; exact H|right; left; eauto]). congruence.
    - congruence.
    - pose proof (i3 _ _ _ _ _ _ HI) as J. unfold inv3 in J. rewrite H in J. destruct J as (_ & J & _). congruence. }
  assert (I' : Inv (step (T2 w) sp (base x))) by (apply step_inv; assumption).
  destruct (C3 b ltac:(intros _; exact NH)) as [Pb Bb].
  assert (E : step (T2 w) sp (base x) = set2 (base x) w (set_data (banks (base x)) b (Red r)) (sem (base x)) (Rel2 b) (processed (base x))).
  { cbn [Protocol.step]. replace (w <? W) with true by (symmetry; apply Nat.ltb_lt; exact Hw). unfold step2. rewrite E2. reflexivity. }
  assert (HH : forall c, c <> b -> (has (step (T2 w) sp (base x)) c <-> has (base x) c)).
  { intros c Nc. rewrite E. unfold has. cbn. unfold set_data. rewrite upd_ne by exact Nc. split; intros [(v & Hv & H)|H]; [left|right; exact H|left|right; exact H]; exists v; (split; [exact Hv|]).
    - destruct (Nat.eq_dec v w) as [->|Nv]; [rewrite upd_eq in H; congruence|rewrite upd_ne in H by exact Nv; exact H].
    - destruct (Nat.eq_dec v w) as [->|Nv]; [congruence|rewrite upd_ne by exact Nv; exact H]. }
  assert (NU : forall c, numOf (step (T2 w) sp (base x)) c = numOf (base x) c).
  { intros c. rewrite E. cbn. unfold set_data. destruct (Nat.eq_dec c b) as [->|Nc]; [rewrite upd_eq; reflexivity|rewrite upd_ne by exact Nc; reflexivity]. }
  constructor; cbn [base buf pipe got].
  - exact I'.
  - intros c Hc Hh. rewrite NU. destruct (Nat.eq_dec c b) as [->|Nc].
    + right. exists w. cbn [buf pipe]. rewrite upd2_eq, Bb, <- Hr. split; [reflexivity|]. split; [exact Pb|]. intros w' Nw. rewrite upd2_ne by auto. apply Bb.
    + destruct (C2 c Hc (proj1 (HH c Nc) Hh)) as [[O1 O2]|(v & O1 & O2 & O3)].
      * left. cbn [buf pipe]. split; [exact O1|]. intros w'. rewrite upd2_ne by auto. apply O2.
      * right. exists v. cbn [buf pipe]. rewrite upd2_ne by auto. split; [exact O1|]. split; [exact O2|]. intros w' Nw. rewrite upd2_ne by auto. apply O3; exact Nw.
  - intros c Hh. destruct (Nat.eq_dec c b) as [->|Nc].
    + exfalso. apply (Hh Hb). left. exists w. split; [exact Hw|]. rewrite E. cbn. apply upd_eq.
    + destruct (C3 c) as [O1 O2]; [intros Hc Q; apply (Hh Hc); apply (HH c Nc); exact Q|]. split; cbn [buf pipe]; [exact O1|]. intros w'. rewrite upd2_ne by auto. apply O2.
  - rewrite E. cbn. exact C4.
Qed.

Lemma merge_get b v r sp x : CInv x -> p3 (base x) = Merge3 b -> pipe x b = v :: r ->
  CInv (mkX (step T3 sp (base x)) (buf x) (upd (pipe x) b r) (v :: got x)).
Proof.
  intros [HI C2 C3 C4] E3 EP. pose proof (i3 _ _ _ _ _ _ HI) as J3. unfold inv3 in J3. rewrite E3 in J3. destruct J3 as (Hb & Hst & Hd & _).
  assert (I' : Inv (step T3 sp (base x))) by (apply step_inv; assumption).
  assert (E : step T3 sp (base x) = set3 (base x) (banks (base x)) (Rel3 b) (cnt3 (base x)) (red (page (numOf (base x) b)) :: merged (base x))).
  { cbn [Protocol.step]. unfold step3. rewrite E3, Hd. reflexivity. }
  destruct (C2 b Hb ltac:(right; right; exact E3)) as [[O1 O2]|(w & _ & O2 & _)]; [|congruence].
  rewrite EP in O1. injection O1 as Ev Er. subst r v.
  assert (HH : forall c, c <> b -> (has (step T3 sp (base x)) c <-> has (base x) c)).
  { intros c Nc. rewrite E. unfold has. cbn. split; (intros [H|[H|H]]; [left; exact H|right; left; exact H|]); congruence. }
  constructor; cbn [base buf pipe got].
  - exact I'.
  - intros c Hc Hh. rewrite E. cbn [banks set3]. destruct (Nat.eq_dec c b) as [->|Nc].
    + exfalso. rewrite E in Hh. destruct Hh as [(w & Hw & H)|[H|H]]; cbn in H; try congruence.
      pose proof (i2 _ _ _ _ _ _ HI w Hw) as J. rewrite H in J. destruct J as (_ & J & _). congruence.
    + destruct (C2 c Hc (proj1 (HH c Nc) Hh)) as [[Q1 Q2]|(w & Q1 & Q2 & Q3)].
      * left. cbn [buf pipe]. rewrite upd_ne by exact Nc. auto.
      * right. exists w. cbn [buf pipe]. rewrite upd_ne by exact Nc. auto.
  - intros c Hh. destruct (Nat.eq_dec c b) as [->|Nc].
    + split; cbn [buf pipe]; [apply upd_eq|exact O2].
    + destruct (C3 c) as [Q1 Q2]; [intros Hc Q; apply (Hh Hc); apply (HH c Nc); exact Q|]. split; cbn [buf pipe]; [rewrite upd_ne by exact Nc; exact Q1|exact Q2].
  - rewrite E. cbn. rewrite C4. reflexivity.
Qed.

Lemma flush_inv w b v r x : CInv x -> buf x w b = v :: r ->
  CInv (mkX (base x) (upd2 (buf x) w b r) (upd (pipe x) b (pipe x b ++ [v])) (got x)).
Proof.
  intros [HI C2 C3 C4] EB. constructor; cbn [base buf pipe got]; auto.
  - intros c Hc Hh. specialize (C2 c Hc Hh). destruct (Nat.eq_dec c b) as [->|Nc].
    + destruct C2 as [[_ O2]|(u & O1 & O2 & O3)]; [rewrite O2 in EB; discriminate|].
      destruct (Nat.eq_dec w u) as [->|Nw]; [|rewrite (O3 w Nw) in EB; discriminate]. rewrite O1 in EB. injection EB as <- <-.
      left. cbn [buf pipe]. rewrite upd_eq, O2. split; [reflexivity|]. intros w'. destruct (Nat.eq_dec w' u) as [->|N']; [apply upd2_eq|rewrite upd2_ne by auto; apply O3; exact N'].
    + destruct C2 as [[O1 O2]|(u & O1 & O2 & O3)].
      * left. cbn [buf pipe]. rewrite upd_ne by exact Nc. split; [exact O1|]. intros w'. rewrite upd2_ne by auto. apply O2.
      * right. exists u. cbn [buf pipe]. rewrite upd_ne, upd2_ne by auto. split; [exact O1|]. split; [exact O2|]. intros w' N'. rewrite upd2_ne by auto. apply O3; exact N'.
  - intros c Hh. destruct (C3 c Hh) as [O1 O2]. destruct (Nat.eq_dec c b) as [->|Nc]; [rewrite O2 in EB; discriminate|].
    split; cbn [buf pipe]; [rewrite upd_ne by exact Nc; exact O1|]. intros w'. rewrite upd2_ne by auto. apply O2.
Qed.

Theorem xstep_inv t sp x : CInv x -> CInv (xstep t sp x).
Proof.
  intros HC. pose proof (c_inv x HC) as HI. destruct t as [[|w|]|w b]; cbn [PyChannel.xstep].
  - destruct (step1_quiet sp _ HI). apply quiet; auto. apply step_inv; assumption.
  - destruct (Nat.lt_ge_cases w W) as [Hw|Hw].
    + destruct (p2 (base x) w) as [|i|b|b r|b| |] eqn:E2.
      4: { replace (w <? W) with true by (symmetry; apply Nat.ltb_lt; exact Hw). apply write_put; assumption. }
      all: (destruct (step2_quiet w sp _ HI Hw ltac:(intros; congruence)); apply quiet; auto; apply step_inv; assumption).
    + replace (w <? W) with false by (symmetry; apply Nat.ltb_ge; exact Hw).
      assert (E : step (T2 w) sp (base x) = base x) by (cbn [Protocol.step]; replace (w <? W) with false by (symmetry; apply Nat.ltb_ge; exact Hw); reflexivity).
      assert (Ex : mkX (base x) (buf x) (pipe x) (got x) = x) by (destruct x; reflexivity).
      destruct (p2 (base x) w); rewrite ?E, ?Ex; exact HC.
  - destruct (p3 (base x)) as [i|i|i|i|b|b| |] eqn:E3.
    5: { destruct (pipe x b) as [|v r] eqn:EP; [exact HC|]. apply merge_get; assumption. }
    all: (destruct (step3_quiet sp _ HI ltac:(intros; congruence)); apply quiet; auto; apply step_inv; assumption).
  - destruct (buf x w b) as [|v r] eqn:EB; [exact HC|]. apply flush_inv; assumption.
Qed.
Theorem xreachable_inv x : xreachable n W K page red val x -> CInv x.
Proof.
  intros [sched ->]. assert (H : forall x0, CInv x0 -> CInv (xrun n W K page red val sched x0)).
  { induction sched as [|l sched IH]; intros x0 H0; [exact H0|]. cbn. apply IH. apply xstep_inv. exact H0. }
  apply H. apply cinit.
Qed.
(** The protocol part of a run is a run of the protocol. *)
Lemma xstep_base t sp x : base (xstep t sp x) = base x \/ exists t', base (xstep t sp x) = step t' sp (base x).
Proof.
  destruct t as [[|w|]|w b]; cbn [PyChannel.xstep].
  - right; exists T1; reflexivity.
  - destruct (p2 (base x) w) as [|i|b|b r|b| |]; try (right; exists (T2 w); reflexivity). destruct (w <? W) eqn:Hw; [|left; reflexivity].
    right; exists (T2 w). reflexivity.
  - destruct (p3 (base x)) as [i|i|i|i|b|b| |]; try (right; exists T3; reflexivity). destruct (pipe x b); [left; reflexivity|right; exists T3; reflexivity].
  - destruct (buf x w b); left; reflexivity.
Qed.
Theorem xreachable_base x : xreachable n W K page red val x -> reachable n W K page red (base x).
Proof.
  intros [sched ->]. assert (H : forall x0, reachable n W K page red (base x0) -> reachable n W K page red (base (xrun n W K page red val sched x0))).
  { induction sched as [|l sched IH]; intros x0 H0; [exact H0|]. cbn. apply IH.
    destruct (xstep_base (fst l) (snd l) x0) as [E|(t' & E)]; rewrite E; [exact H0|]. destruct H0 as [sc ->]. exists (sc ++ [(t', snd l)]). unfold run. rewrite fold_left_app. reflexivity. }
  apply H. exists []. reflexivity.
Qed.

(** ** Termination *)
Hypothesis Wpos : 1 <= W.
Hypothesis Wn : W <= n.
Notation M := (M n W K).
Notation helps := (helps n W).
Notation idle := (idle n W K).
Variable sched : nat -> xthread.
Hypothesis fair : forall t, (match t with T2 w => w < W | _ => True end) -> forall i, exists j, i <= j /\ sched j = XT t.
Hypothesis fairF : forall w b, w < W -> b < n -> forall i, exists j, i <= j /\ sched j = Flush w b.
Fixpoint xtrace (x0 : xstate) (i : nat) : xstate :=
  match i with 0 => x0 | S k => xstep (sched k) false (xtrace x0 k) end.
Lemma xtrace_inv x0 i : CInv x0 -> CInv (xtrace x0 i).
Proof. intros H. induction i; [exact H|]. cbn [xtrace]. apply xstep_inv; assumption. Qed.

Definition ready (t : thread) (x : xstate) : Prop :=
  match t with T3 => forall b, p3 (base x) = Merge3 b -> pipe x b <> [] | _ => True end.
Lemma ready_base t x : (match t with T2 w => w < W | _ => True end) -> ready t x -> base (xstep (XT t) false x) = step t false (base x).
Proof.
  intros Ht Hr. destruct t as [|w|]; cbn [PyChannel.xstep].
  - reflexivity.
  - destruct (p2 (base x) w) as [|i|b|b r|b| |]; try reflexivity. replace (w <? W) with true by (symmetry; apply Nat.ltb_lt; exact Ht). reflexivity.
  - cbn [ready] in Hr. destruct (p3 (base x)) as [i|i|i|i|b|b| |]; try reflexivity. specialize (Hr b eq_refl). destruct (pipe x b); [contradiction|reflexivity].
Qed.
Lemma pipe_grows t sp x b : t <> XT T3 -> pipe x b <> [] -> pipe (xstep t sp x) b <> [].
Proof.
  intros Nt H. destruct t as [[|w|]|w c]; cbn [PyChannel.xstep].
  - exact H.
  - destruct (p2 (base x) w); try exact H. destruct (w <? W); exact H.
  - congruence.
  - destruct (buf x w c) as [|v r]; [exact H|]. cbn [pipe]. destruct (Nat.eq_dec b c) as [->|Nb]; [rewrite upd_eq; destruct (pipe x c); discriminate|rewrite upd_ne by exact Nb; exact H].
Qed.
(** Any step: the measure falls, or only the mover's scan position changed. *)
Lemma xprogress l x : CInv x -> M (base (xstep l false x)) < M (base x) \/
  base (xstep l false x) = base x \/ exists t, l = XT t /\ idle t (base x) (base (xstep l false x)).
Proof.
  intros HC. pose proof (c_inv x HC) as HI. destruct l as [t|w b].
  - assert (X : base (xstep (XT t) false x) = base x \/ base (xstep (XT t) false x) = step t false (base x)).
    { destruct t as [|w|]; cbn [PyChannel.xstep]; auto.
      - destruct (p2 (base x) w) as [|i|b|b r|b| |]; auto. destruct (w <? W); auto.
      - destruct (p3 (base x)) as [i|i|i|i|b|b| |]; auto. destruct (pipe x b); auto. }
    destruct X as [X|X]; [auto|]. rewrite X. destruct (progress n W K page red Kpos t false _ HI) as [L|ID]; [auto|]. right. right. eauto.
  - right. left. cbn [PyChannel.xstep]. destruct (buf x w b); reflexivity.
Qed.
Lemma xM_le l x : CInv x -> M (base (xstep l false x)) <= M (base x).
Proof. intros HC. destruct (xprogress l x HC) as [L|[E|(t & _ & ID)]]; [lia|rewrite E; lia|rewrite (idM _ _ _ _ _ _ ID); lia]. Qed.

Lemma xwait x0 t d : forall i r, CInv x0 -> (match t with T2 w => w < W | _ => True end) -> sched (i + d) = XT t ->
  ready t (xtrace x0 i) -> helps t r (base (xtrace x0 i)) ->
  exists k, i <= k /\ (M (base (xtrace x0 k)) < M (base (xtrace x0 i)) \/
    (M (base (xtrace x0 k)) = M (base (xtrace x0 i)) /\ (t = T3 -> forall b, p3 (base (xtrace x0 i)) <> Merge3 b) /\ exists r', r' < r /\ helps t r' (base (xtrace x0 k)))).
Proof.
  assert (HERE : forall i r, CInv x0 -> (match t with T2 w => w < W | _ => True end) -> sched i = XT t ->
    ready t (xtrace x0 i) -> helps t r (base (xtrace x0 i)) ->
    exists k, i <= k /\ (M (base (xtrace x0 k)) < M (base (xtrace x0 i)) \/
      (M (base (xtrace x0 k)) = M (base (xtrace x0 i)) /\ (t = T3 -> forall b, p3 (base (xtrace x0 i)) <> Merge3 b) /\ exists r', r' < r /\ helps t r' (base (xtrace x0 k))))).
  { intros i r H0 Ht Hs Hr Hh. exists (S i). split; [lia|]. cbn [xtrace]. rewrite Hs, (ready_base t _ Ht Hr).
    pose proof (c_inv _ (xtrace_inv x0 i H0)) as HI. destruct (progress n W K page red Kpos t false _ HI) as [L|ID]; [auto|].
    destruct (helps_step n W K page red Kpos t r _ HI Hh) as [L|L]; [auto|]. right. split; [apply (idM _ _ _ _ _ _ ID)|]. split; [|exact L].
    intros -> b E3. pose proof (i3 _ _ _ _ _ _ HI) as J3. unfold inv3 in J3. rewrite E3 in J3. destruct J3 as (_ & _ & Jd & _).
    pose proof (idM _ _ _ _ _ _ ID) as X. cbn [Protocol.step] in X. unfold step3 in X. rewrite E3, Jd in X. unfold ProtocolLive.M, set3 in X. cbn [p1 cnt1 sem p2 cnt3 p3] in X. rewrite E3 in X. unfold wt3 in X. lia. }
  induction d as [|d IH]; intros i r H0 Ht Hs Hr Hh.
  - rewrite Nat.add_0_r in Hs. apply HERE; assumption.
  - pose proof (xtrace_inv x0 i H0) as HC.
    assert (DEC : sched i = XT t \/ sched i <> XT t).
    { destruct (sched i) as [t'|w b]; [|right; discriminate]. destruct (thread_eq_dec t' t) as [->|N]; [left; reflexivity|right; congruence]. }
    destruct DEC as [E|E]; [apply HERE; assumption|].
    assert (R' : forall s', p3 s' = p3 (base (xtrace x0 i)) -> base (xtrace x0 (S i)) = s' -> ready t (xtrace x0 (S i))).
    { intros s' E3 Es. destruct t; cbn [ready]; auto. intros b Hb. cbn [xtrace]. apply pipe_grows; [exact E|]. apply Hr. congruence. }
    destruct (xprogress (sched i) _ HC) as [L|[EQ|(t' & Et & ID)]]; [exists (S i); split; [lia|]; left; exact L| |].
    + destruct (IH (S i) r H0 Ht) as (k & Hk & X).
      * replace (S i + d) with (i + S d) by lia. exact Hs.
      * apply (R' (base (xtrace x0 i))); [reflexivity|]. cbn [xtrace]. exact EQ.
      * cbn [xtrace]. rewrite EQ. exact Hh.
      * exists k. split; [lia|]. cbn [xtrace] in X. rewrite EQ in X. exact X.
    + assert (Nt : t <> t') by congruence. destruct (IH (S i) r H0 Ht) as (k & Hk & X).
      * replace (S i + d) with (i + S d) by lia. exact Hs.
      * destruct t; cbn [ready]; auto. intros b Hb. cbn [xtrace] in *. apply pipe_grows; [exact E|]. apply Hr. rewrite <- Hb. symmetry. apply (id3 _ _ _ _ _ _ ID). congruence.
      * cbn [xtrace]. eapply helps_frozen; [exact Nt|exact ID|exact Hh].
      * exists k. split; [lia|]. cbn [xtrace] in X. rewrite (idM _ _ _ _ _ _ ID) in X. destruct X as [X|(X1 & X2 & X3)]; [left; exact X|]. right. split; [exact X1|]. split; [|exact X3].
        intros T b. rewrite <- (id3 _ _ _ _ _ _ ID) by congruence. apply X2; exact T.
Qed.

(** The feeder thread delivers. *)
Lemma xdeliver x0 w b d : forall i, CInv x0 -> p3 (base (xtrace x0 i)) = Merge3 b -> buf (xtrace x0 i) w b <> [] -> sched (i + d) = Flush w b ->
  exists k, i <= k /\ (M (base (xtrace x0 k)) < M (base (xtrace x0 i)) \/
    (M (base (xtrace x0 k)) = M (base (xtrace x0 i)) /\ p3 (base (xtrace x0 k)) = Merge3 b /\ pipe (xtrace x0 k) b <> [])).
Proof.
  induction d as [|d IH]; intros i H0 E3 EB Hs.
  - rewrite Nat.add_0_r in Hs. exists (S i). split; [lia|]. right. cbn [xtrace]. rewrite Hs. cbn [PyChannel.xstep].
    destruct (buf (xtrace x0 i) w b) as [|v r]; [contradiction|]. cbn [base pipe]. split; [reflexivity|]. split; [exact E3|]. rewrite upd_eq. destruct (pipe (xtrace x0 i) b); discriminate.
  - pose proof (xtrace_inv x0 i H0) as HC.
    destruct (xprogress (sched i) _ HC) as [L|X]; [exists (S i); split; [lia|]; left; exact L|].
    assert (E3' : M (base (xtrace x0 (S i))) = M (base (xtrace x0 i)) /\ p3 (base (xtrace x0 (S i))) = Merge3 b).
    { cbn [xtrace]. destruct X as [X|(t & Et & ID)]; [rewrite X; auto|]. split; [apply (idM _ _ _ _ _ _ ID)|].
      destruct (thread_eq_dec t T3) as [->|N]; [|rewrite (id3 _ _ _ _ _ _ ID) by exact N; exact E3].
      rewrite Et in *. cbn [PyChannel.xstep] in *. rewrite E3 in *. destruct (pipe (xtrace x0 i) b) as [|v r]; [exact E3|]. exfalso. cbn [base] in ID.
      pose proof (i3 _ _ _ _ _ _ (c_inv _ HC)) as J3. unfold inv3 in J3. rewrite E3 in J3. destruct J3 as (_ & _ & Jd & _).
      pose proof (idM _ _ _ _ _ _ ID) as Q. cbn [Protocol.step] in Q. unfold step3 in Q. rewrite E3, Jd in Q. unfold ProtocolLive.M, set3 in Q. cbn [p1 cnt1 sem p2 cnt3 p3] in Q. rewrite E3 in Q. unfold wt3 in Q. lia. }
    destruct E3' as [EM E3'].
    assert (XB : buf (xtrace x0 (S i)) w b <> [] \/ pipe (xtrace x0 (S i)) b <> []).
    { cbn [xtrace]. destruct (sched i) as [[|v|]|v c]; cbn [PyChannel.xstep].
      - left; exact EB.
      - left. destruct (p2 (base (xtrace x0 i)) v); try exact EB. destruct (v <? W); [|exact EB]. cbn [buf]. unfold upd2. destruct ((w =? v) && (b =? b0)); [|exact EB]. destruct (buf (xtrace x0 i) v b0); discriminate.
      - left. destruct (p3 (base (xtrace x0 i))); try exact EB. destruct (pipe (xtrace x0 i) b0); exact EB.
      - destruct (buf (xtrace x0 i) v c) as [|u r] eqn:EV; [left; exact EB|]. cbn [buf pipe]. destruct (Nat.eq_dec b c) as [->|Nb].
        + right. rewrite upd_eq. destruct (pipe (xtrace x0 i) c); discriminate.
        + left. rewrite upd2_ne by auto. exact EB. }
    destruct XB as [XB|XB]; [|exists (S i); split; [lia|right; auto]].
    destruct (IH (S i) H0 E3' XB) as (k & Hk & Y); [replace (S i + d) with (i + S d) by lia; exact Hs|].
    exists k. split; [lia|]. rewrite EM in Y. exact Y.
Qed.
Lemma buf_dom x0 i w b : (forall w b, W <= w -> buf x0 w b = []) -> W <= w -> buf (xtrace x0 i) w b = [].
Proof.
  intros H0 Hw. induction i as [|i IH]; [apply H0; exact Hw|]. cbn [xtrace]. destruct (sched i) as [[|v|]|v c]; cbn [PyChannel.xstep].
  - exact IH.
  - destruct (p2 (base (xtrace x0 i)) v); try exact IH. destruct (Nat.ltb_spec v W); [|exact IH]. cbn [buf]. rewrite upd2_ne by lia. exact IH.
  - destruct (p3 (base (xtrace x0 i))); try exact IH. destruct (pipe (xtrace x0 i) b0); exact IH.
  - destruct (buf (xtrace x0 i) v c) as [|u r] eqn:EV; [exact IH|]. cbn [buf]. unfold upd2. destruct (Nat.eqb_spec w v) as [->|]; cbn [andb]; [|exact IH].
    destruct (Nat.eqb_spec b c) as [->|]; [congruence|exact IH].
Qed.

Lemma xhelped x0 t r : forall i, CInv x0 -> (forall w b, W <= w -> buf x0 w b = []) -> helps t r (base (xtrace x0 i)) ->
  exists k, i <= k /\ M (base (xtrace x0 k)) < M (base (xtrace x0 i)).
Proof.
  intros i H0 HD. assert (Ht : helps t r (base (xtrace x0 i)) -> match t with T2 w => w < W | _ => True end) by (intros Hh; destruct t; auto; exact (proj1 Hh)).
  revert i Ht. induction r as [r IH] using (well_founded_induction lt_wf). intros i Ht Hh. specialize (Ht Hh).
  (* stage 3 waiting for its values: first get them delivered *)
  assert (G : exists i', i <= i' /\ (M (base (xtrace x0 i')) < M (base (xtrace x0 i)) \/
     (M (base (xtrace x0 i')) = M (base (xtrace x0 i)) /\ ready t (xtrace x0 i') /\ helps t r (base (xtrace x0 i'))))).
  { pose proof (xtrace_inv x0 i H0) as HC. destruct t as [|w|]; try (exists i; split; [lia|]; right; split; [reflexivity|]; split; [exact I|exact Hh]; fail).
    destruct (p3 (base (xtrace x0 i))) as [j|j|j|j|b|b| |] eqn:E3; try (exists i; split; [lia|]; right; split; [reflexivity|]; split; [intros ? ?; congruence|exact Hh]; fail).
    destruct (pipe (xtrace x0 i) b) as [|v l] eqn:EP.
    2: { exists i; split; [lia|]; right; split; [reflexivity|]; split; [|exact Hh]. intros c Hc. rewrite E3 in Hc. injection Hc as <-. rewrite EP. discriminate. }
    pose proof (i3 _ _ _ _ _ _ (c_inv _ HC)) as J3. unfold inv3 in J3. rewrite E3 in J3. destruct J3 as (Hb & _).
    destruct (c_has _ HC b Hb ltac:(right; right; exact E3)) as [[O1 _]|(w & O1 & _)]; [congruence|].
    assert (Hw : w < W). { destruct (Nat.lt_ge_cases w W) as [|Hw]; [assumption|]. rewrite (buf_dom x0 i w b HD Hw) in O1. discriminate. }
    destruct (fairF w b Hw Hb i) as (j & Hj & Hs). destruct (xdeliver x0 w b (j - i) i H0 E3) as (k & Hk & X); [rewrite O1; discriminate|replace (i + (j - i)) with j by lia; exact Hs|].
    exists k. split; [lia|]. destruct X as [X|(X1 & X2 & X3)]; [left; exact X|right]. split; [exact X1|]. split; [intros c Hc; rewrite X2 in Hc; injection Hc as <-; exact X3|].
    cbn [ProtocolLive.helps] in *. rewrite E3 in Hh. rewrite X2. exact Hh. }
  destruct G as (i' & Hi' & [L|(EM & Hr & Hh')]); [exists i'; auto|].
  destruct (fair t Ht i') as (j & Hj & Hs).
  destruct (xwait x0 t (j - i') i' r H0 Ht) as (k & Hk & X); [replace (i' + (j - i')) with j by lia; exact Hs|exact Hr|exact Hh'|].
  destruct X as [L|(E & _ & r' & Hr' & Hh2)]; [exists k; split; lia|].
  destruct (IH r' Hr' k) as (k' & Hk' & L); [intros _; exact Ht|exact Hh2|]. exists k'. split; lia.
Qed.
Theorem xterminates x0 : CInv x0 -> (forall w b, W <= w -> buf x0 w b = []) -> exists N, final W (base (xtrace x0 N)).
Proof.
  intros H0 HD. assert (X : forall m i, M (base (xtrace x0 i)) <= m -> exists N, final W (base (xtrace x0 N))).
  { induction m as [|m IH]; intros i Hm; (destruct (final_dec W K Kpos (base (xtrace x0 i))) as [F|F]; [eauto|]);
      destruct (helper_exists n W K page red Kpos Wpos Wn _ (c_inv _ (xtrace_inv x0 i H0)) F) as (t & r & Hh);
      destruct (xhelped x0 t r i H0 HD Hh) as (k & _ & L); [lia|]. apply (IH k). lia. }
  apply (X (M (base (xtrace x0 0))) 0). lia.
Qed.
End X.
