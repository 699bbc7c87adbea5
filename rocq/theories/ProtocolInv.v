From Coq Require Import List Arith Bool Lia.
From Verif Require Import Protocol.
Import ListNotations.

Lemma bst_eqb_true a b : bst_eqb a b = true <-> a = b.
Proof. destruct a, b; cbn; split; congruence. Qed.
Lemma bst_eqb_false a b : bst_eqb a b = false <-> a <> b.
Proof. destruct a, b; cbn; split; congruence. Qed.

Lemma upd_eq {A} (f : nat -> A) i x : upd f i x i = x.
Proof. unfold upd. rewrite Nat.eqb_refl. reflexivity. Qed.
Lemma upd_ne {A} (f : nat -> A) i x j : j <> i -> upd f i x j = f j.
Proof. unfold upd. intros H. apply Nat.eqb_neq in H. rewrite H. reflexivity. Qed.

(** counting *)
Definition count (f : nat -> bool) (n : nat) : nat := length (filter f (seq 0 n)).
Lemma count_S f n : count f (S n) = count f n + (if f n then 1 else 0).
Proof.
  unfold count. rewrite seq_S, filter_app, app_length. cbn. destruct (f n); reflexivity.
Qed.
Lemma count_ext f g n : (forall i, i < n -> f i = g i) -> count f n = count g n.
Proof.
  induction n as [|n IH]; intros H; [reflexivity|]. rewrite !count_S, IH, (H n) by (intros; try apply H; lia). reflexivity.
Qed.
Lemma count_upd f g n i : i < n -> (forall j, j <> i -> f j = g j) ->
  count f n + (if g i then 1 else 0) = count g n + (if f i then 1 else 0).
Proof.
  induction n as [|n IH]; intros Hi H; [lia|]. rewrite !count_S.
  destruct (Nat.eq_dec i n) as [->|Hn].
  - rewrite (count_ext f g n) by (intros; apply H; lia). lia.
  - rewrite (H n) by lia. specialize (IH ltac:(lia) H). lia.
Qed.
Lemma count_zero f n : count f n = 0 <-> forall i, i < n -> f i = false.
Proof.
  induction n as [|n IH]; [split; [intros; lia|reflexivity]|]. rewrite count_S. split.
  - intros H i Hi. destruct (f n) eqn:E; [lia|]. destruct (Nat.eq_dec i n) as [->|]; [exact E|]. apply IH; lia.
  - intros H. rewrite (H n) by lia. rewrite (proj2 IH); [lia|]. intros; apply H; lia.
Qed.
Lemma count_pos f n : 0 < count f n -> exists i, i < n /\ f i = true.
Proof.
  induction n as [|n IH]; [cbn; lia|]. rewrite count_S. intros H. destruct (f n) eqn:E; [exists n; auto|].
  destruct IH as (i & Hi & E'); [lia|]. exists i; auto.
Qed.
Lemma count_le f n : count f n <= n.
Proof. induction n as [|n IH]; [cbn; lia|]. rewrite count_S. destruct (f n); lia. Qed.

Section I.
Context {P R : Type}.
Variables n W K : nat.
Variable page : nat -> P.
Variable red : P -> R.
Hypothesis Kpos : 1 <= K.

Notation state := (state P R).
Notation stOf s i := (st (banks s i)).
Notation numOf s i := (num (banks s i)).
Notation dataOf s i := (data (banks s i)).
Definition procd (s : state) (k : nat) : Prop := In k (map fst (processed s)).
Definition isS1U (s : state) (i : nat) : bool := bst_eqb (stOf s i) S1U.
Definition isScan (p : nat -> pc2 (R:=R)) (w : nat) : bool := match p w with Scan _ => true | _ => false end.
Definition isEnd2 (p : nat -> pc2 (R:=R)) (w : nat) : bool := match p w with End2 => true | _ => false end.
(** a page in flight between stage 1 and stage 3 *)
Definition pend (s : state) (i : nat) : Prop :=
  stOf s i = S1U \/ stOf s i = S2L \/ stOf s i = S2U \/ p1 s = RelSt i.

Definition inv1 (s : state) : Prop :=
  match p1 s with
  | Reset i => i <= n /\ cnt1 s = 0 /\ (forall j, j < n -> stOf s j = Free)
  | Acq i => cnt1 s < K
  | Fill b => b < n /\ stOf s b = S1L /\ cnt1 s < K
  | Fill2 b => b < n /\ stOf s b = S1L /\ cnt1 s < K
  | RelNum b => b < n /\ stOf s b = S1L /\ cnt1 s < K /\ dataOf s b = Raw (page (cnt1 s))
  | RelSt b => b < n /\ stOf s b = S1L /\ cnt1 s <= K /\ S (numOf s b) = cnt1 s /\
               dataOf s b = Raw (page (numOf s b)) /\ cnt3 s <= numOf s b /\ ~ procd s (numOf s b)
  | Post => cnt1 s <= K
  | ExScan i c => cnt1 s = K /\ (c = 0 -> forall j, j < i -> j < n -> stOf s j = Free)
  | ExSt i => cnt1 s = K /\ i <= n /\ (forall j, j < i -> stOf s j = Done) /\ (forall j, i <= j -> j < n -> stOf s j = Free)
  | ExPost i => cnt1 s = K /\ i < n /\ (forall j, j <= i -> stOf s j = Done) /\ (forall j, i < j -> j < n -> stOf s j = Free)
  | End1 => cnt1 s = K /\ (forall j, j < n -> stOf s j = Done)
  end.
Definition exiting (s : state) : Prop :=
  match p1 s with ExSt _ | ExPost _ | End1 => True | _ => False end.
Definition inv2 (s : state) : Prop := forall w, w < W ->
  match p2 s w with
  | Read2 b => b < n /\ stOf s b = S2L /\ dataOf s b = Raw (page (numOf s b)) /\ ~ procd s (numOf s b)
  | Write2 b r => b < n /\ stOf s b = S2L /\ r = red (page (numOf s b)) /\ procd s (numOf s b)
  | Rel2 b => b < n /\ stOf s b = S2L /\ dataOf s b = Red (red (page (numOf s b))) /\ procd s (numOf s b)
  | Err2 => False
  | _ => True
  end.
Definition own2 (s : state) (w b : nat) : Prop :=
  p2 s w = Read2 b \/ (exists r, p2 s w = Write2 b r) \/ p2 s w = Rel2 b.
Definition inv2d (s : state) : Prop :=
  forall w w' b, w < W -> w' < W -> own2 s w b -> own2 s w' b -> w = w'.
Definition inv3 (s : state) : Prop :=
  match p3 s with
  | ScanD3 i => i < n
  | Num3 i => i < n /\ stOf s i = S2U
  | Lock3 i => i < n /\ stOf s i = S2U /\ numOf s i = cnt3 s
  | Merge3 b => b < n /\ stOf s b = S3L /\ dataOf s b = Red (red (page (numOf s b))) /\ S (numOf s b) = cnt3 s
  | Rel3 b => b < n /\ stOf s b = S3L
  | End3 => exiting s
  | Err3 => False
  | _ => True
  end.
Definition mcount (s : state) : nat := match p3 s with Merge3 _ => pred (cnt3 s) | _ => cnt3 s end.
Definition invB (s : state) : Prop := forall i, i < n ->
  match stOf s i with
  | Free => True
  | S1L => owns W T1 i s
  | S1U => dataOf s i = Raw (page (numOf s i)) /\ cnt3 s <= numOf s i < cnt1 s /\ ~ procd s (numOf s i)
  | S2L => (exists w, w < W /\ own2 s w i) /\ cnt3 s <= numOf s i < cnt1 s
  | S2U => dataOf s i = Red (red (page (numOf s i))) /\ cnt3 s <= numOf s i < cnt1 s /\ procd s (numOf s i)
  | S3L => owns W T3 i s
  | Done => exiting s
  end.
Record Inv (s : state) : Prop := mkInv {
  i1 : inv1 s; i2 : inv2 s; i2d : inv2d s; i3 : inv3 s; iB : invB s;
  iE : forall k, cnt3 s <= k < cnt1 s -> exists i, i < n /\ pend s i /\ numOf s i = k;
  iD : forall i j, i < n -> j < n -> pend s i -> pend s j -> numOf s i = numOf s j -> i = j;
  iF : merged s = rev (map (fun k => red (page k)) (seq 0 (mcount s)));
  iC : cnt3 s <= cnt1 s <= K;
  iG1 : NoDup (map fst (processed s));
  iG2 : forall k p, In (k, p) (processed s) -> p = page k /\ k < cnt1 s;
  iG3 : forall k, k < cnt1 s -> procd s k \/
     exists i, i < n /\ numOf s i = k /\ (stOf s i = S1U \/ p1 s = RelSt i \/ exists w, w < W /\ p2 s w = Read2 i);
  iJ : sem s + count (isScan (p2 s)) W + count (isEnd2 (p2 s)) W +
       (match p1 s with Post => 1 | _ => 0 end) =
       match p1 s with ExSt i | ExPost i => i | End1 => n | _ => count (isS1U s) n end;
  iJ2 : count (isEnd2 (p2 s)) W > 0 -> exiting s }.

Lemma inv_init : Inv (init (P:=P) (R:=R)).
Proof.
  assert (HC : count (isScan (fun _ : nat => Wait)) W = 0 /\ count (isEnd2 (fun _ : nat => Wait)) W = 0)
    by (split; apply count_zero; reflexivity).
  destruct HC as [C1 C2].
  constructor; unfold inv1, inv2, inv2d, inv3, invB, own2, pend, procd; cbn; try (intros; lia); auto.
  - split; [lia|auto].
  - intros w w' b _ _ H. destruct H as [H|[[r H]|H]]; discriminate.
  - intros i j _ _ H. destruct H as [H|[H|[H|H]]]; discriminate.
  - constructor.
  - rewrite C1, C2. symmetry. apply count_zero. reflexivity.
Qed.

Ltac ud := unfold set_st, set_num, set_data, upd in *; cbn [st num data] in *;
  repeat match goal with
  | |- context[?a =? ?b] => destruct (Nat.eqb_spec a b); subst; cbn [st num data] in *
  | H : context[?a =? ?b] |- _ => destruct (Nat.eqb_spec a b); subst; cbn [st num data] in *
  end.
Ltac unf := unfold inv1, inv2, inv2d, inv3, invB, own2, pend, procd, exiting, mcount, isS1U, owns in *;
  cbn [banks sem p1 cnt1 p2 p3 cnt3 processed merged] in *.

(** The invariant depends on the banks only pointwise. *)
Lemma Inv_ext s bs : (forall j, bs j = banks s j) -> Inv s ->
  Inv (mkSt bs (sem s) (p1 s) (cnt1 s) (p2 s) (p3 s) (cnt3 s) (processed s) (merged s)).
Proof.
  intros EB [J1 J2 J2d J3 JB JE JD JF JC JG1 JG2 JG3 JJ JJ2].
  constructor; unf; auto.
  - destruct (p1 s); rewrite ?EB; auto; intuition (rewrite ?EB; auto).
  - intros w Hw. specialize (J2 w Hw). destruct (p2 s w); rewrite ?EB; auto.
  - destruct (p3 s); rewrite ?EB; auto.
  - intros i Hi. specialize (JB i Hi). rewrite EB. exact JB.
  - intros k Hk. destruct (JE k Hk) as (i & A & B & C). exists i. rewrite EB. auto.
  - intros i j Hi Hj. rewrite !EB. apply JD; assumption.
  - intros k Hk. destruct (JG3 k Hk) as [A|(i & A & B & C)]; [left; exact A|right]. exists i. rewrite EB. auto.
  - rewrite (count_ext (fun i => bst_eqb (st (bs i)) S1U) (fun i => bst_eqb (st (banks s i)) S1U)); [exact JJ|].
    intros; rewrite EB; reflexivity.
Qed.

Definition sem_eq (s : state) : Prop :=
  sem s + count (isScan (p2 s)) W + count (isEnd2 (p2 s)) W + (match p1 s with Post => 1 | _ => 0 end) =
  match p1 s with ExSt i | ExPost i => i | End1 => n | _ => count (isS1U s) n end.
Definition nonown1 (p : pc1) : Prop :=
  match p with Fill _ | Fill2 _ | RelNum _ | RelSt _ => False | _ => True end.

(** Stage 1 moves without owning a bank before or after. *)
Lemma frame1 s q sm : Inv s -> nonown1 (p1 s) -> nonown1 q ->
  let s' := mkSt (banks s) sm q (cnt1 s) (p2 s) (p3 s) (cnt3 s) (processed s) (merged s) in
  inv1 s' -> sem_eq s' -> (exiting s -> exiting s') -> Inv s'.
Proof.
  intros [J1 J2 J2d J3 JB JE JD JF JC JG1 JG2 JG3 JJ JJ2] N1 N2 s' H1 H2 H3.
  assert (Q1 : forall b, p1 s <> RelSt b) by (intros b E; rewrite E in N1; exact N1).
  assert (Q2 : forall b, q <> RelSt b) by (intros b E; rewrite E in N2; exact N2).
  constructor; auto; subst s'.
  - unfold inv3 in *. cbn [p3]. destruct (p3 s); auto.
  - intros i Hi. specialize (JB i Hi). cbn [banks]. destruct (st (banks s i)) eqn:E; auto.
    + cbn [owns p1] in *. destruct JB as [JB|[JB|[JB|JB]]]; rewrite JB in N1; destruct N1.
  - cbn [cnt3 cnt1 banks]. intros k Hk. destruct (JE k Hk) as (i & A & B & C). exists i. split; [exact A|split; [|exact C]].
    unfold pend in *. cbn [banks p1]. destruct B as [B|[B|[B|B]]]; auto. exfalso; eapply Q1; eauto.
  - cbn [banks]. intros i j Hi Hj Hp Hq. apply JD; auto; unfold pend in *; cbn [banks p1] in *;
      [destruct Hp as [B|[B|[B|B]]]|destruct Hq as [B|[B|[B|B]]]]; auto; exfalso; eapply Q2; eauto.
  - cbn [cnt1 banks p1 p2]. intros k Hk. destruct (JG3 k Hk) as [A|(i & A & B & C)]; [left; exact A|right].
    exists i. split; [exact A|split; [exact B|]]. destruct C as [C|[C|C]]; auto. exfalso; eapply Q1; eauto.
Qed.

Definition nonown2 (p : pc2 (R:=R)) : Prop := match p with Wait | Scan _ | End2 => True | _ => False end.
Lemma frame2 s w q sm : Inv s -> w < W -> nonown2 (p2 s w) -> nonown2 q ->
  let s' := mkSt (banks s) sm (p1 s) (cnt1 s) (upd (p2 s) w q) (p3 s) (cnt3 s) (processed s) (merged s) in
  sem_eq s' -> (count (isEnd2 (upd (p2 s) w q)) W > 0 -> exiting s) -> Inv s'.
Proof.
  intros [J1 J2 J2d J3 JB JE JD JF JC JG1 JG2 JG3 JJ JJ2] Hw N1 N2 s' H1 H2.
  assert (O1 : forall v b, own2 s' v b -> own2 s v b).
  { intros v b H. unfold own2, s' in *. cbn [p2] in H. unfold upd in H. destruct (Nat.eqb_spec v w); [|exact H].
    destruct H as [H|[[r H]|H]]; rewrite H in N2; destruct N2. }
  assert (O2 : forall v b, own2 s v b -> own2 s' v b).
  { intros v b H. unfold own2, s' in *. cbn [p2]. unfold upd. destruct (Nat.eqb_spec v w); [|exact H].
    subst. destruct H as [H|[[r H]|H]]; rewrite H in N1; destruct N1. }
  constructor; auto.
  - intros v Hv. specialize (J2 v Hv). unfold s'. cbn [p2 banks]. unfold upd.
    destruct (Nat.eqb_spec v w); [subst; destruct q; try exact I; destruct N2|exact J2].
  - intros v v' b Hv Hv' A B. eapply J2d; eauto.
  - intros i Hi. specialize (JB i Hi). unfold s' in *. cbn [banks]. destruct (st (banks s i)) eqn:E; auto.
    destruct JB as [(v & Hv & A) B]. split; [exists v; auto|exact B].
  - intros k Hk. destruct (JG3 k Hk) as [A|(i & A & B & C)]; [left; exact A|right].
    exists i. split; [exact A|split; [exact B|]]. destruct C as [C|[C|(v & Hv & C)]]; auto.
    right; right. exists v. split; [exact Hv|]. unfold s'. cbn [p2]. unfold upd. destruct (Nat.eqb_spec v w); [|exact C].
    subst. rewrite C in N1. destruct N1.
Qed.

Definition nonown3 (p : pc3) : Prop := match p with Merge3 _ | Rel3 _ => False | _ => True end.
Lemma frame3 s q : Inv s -> nonown3 (p3 s) -> nonown3 q ->
  let s' := mkSt (banks s) (sem s) (p1 s) (cnt1 s) (p2 s) q (cnt3 s) (processed s) (merged s) in
  inv3 s' -> Inv s'.
Proof.
  intros [J1 J2 J2d J3 JB JE JD JF JC JG1 JG2 JG3 JJ JJ2] N1 N2 s' H1.
  constructor; auto.
  - intros i Hi. specialize (JB i Hi). unfold s' in *. cbn [banks]. destruct (st (banks s i)) eqn:E; auto.
    cbn [owns] in JB. destruct JB as [JB|JB]; rewrite JB in N1; destruct N1.
  - unfold s'. cbn [merged]. rewrite JF. unfold mcount. cbn [p3 cnt3].
    destruct (p3 s); try destruct N1; destruct q; try destruct N2; reflexivity.
Qed.

Lemma upd_S1U (s : state) bs i : i < n -> (forall j, j <> i -> bs j = banks s j) ->
  count (fun j => bst_eqb (st (bs j)) S1U) n + (if bst_eqb (st (banks s i)) S1U then 1 else 0) =
  count (isS1U s) n + (if bst_eqb (st (bs i)) S1U then 1 else 0).
Proof. intros Hi H. apply (count_upd (fun j => bst_eqb (st (bs j)) S1U) (isS1U s)); [exact Hi|]. intros j Hj. unfold isS1U. rewrite H by exact Hj. reflexivity. Qed.

(** Stage 1 changes bank b, which it owns afterwards and which was free or its own before,
    and the counter possibly moves by one because the bank gets its number. *)
Lemma own1_change s b nb q c : Inv s -> b < n ->
  (stOf s b = Free /\ nonown1 (p1 s) \/ stOf s b = S1L /\ owns W T1 b s) ->
  ~ exiting s -> p1 s <> Post -> p1 s <> RelSt b -> st nb = S1L ->
  (q = Fill b \/ q = Fill2 b \/ q = RelNum b) /\ c = cnt1 s \/
  (q = RelSt b /\ c = S (cnt1 s) /\ num nb = cnt1 s) ->
  let s' := mkSt (upd (banks s) b nb) (sem s) q c (p2 s) (p3 s) (cnt3 s) (processed s) (merged s) in
  inv1 s' -> Inv s'.
Proof.
  intros [J1 J2 J2d J3 JB JE JD JF JC JG1 JG2 JG3 JJ JJ2] Hb HO NX NP NR NS HQ s' H1.
  assert (SB : forall j, st (banks s j) <> Free -> st (banks s j) <> S1L -> j <> b).
  { intros j A B ->. destruct HO as [[HO _]|[HO _]]; congruence. }
  assert (P1b : forall j, p1 s <> RelSt j).
  { intros j E. destruct HO as [[_ HO]|[_ HO]].
    - rewrite E in HO. exact HO.
    - cbn [owns] in HO. rewrite E in HO. destruct HO as [HO|[HO|[HO|HO]]]; try discriminate. congruence. }
  assert (C : cnt1 s <= c) by (destruct HQ as [[_ ->]|(_ & -> & _)]; lia).
  assert (CK : c <= K).
  { unfold inv1, s' in H1. cbn [p1 cnt1] in H1. destruct HQ as [[[->|[->| ->]] ->]|(-> & -> & _)]; lia. }
  assert (PB : forall j, pend s j -> j <> b).
  { intros j [A|[A|[A|A]]]; try solve [apply SB; congruence]; exfalso; eapply P1b; eauto. }
  assert (PS : forall j, pend s j -> pend s' j).
  { intros j Hj. pose proof (PB j Hj) as N. unfold pend, s' in *. cbn [banks p1]. rewrite upd_ne by exact N.
    destruct Hj as [A|[A|[A|A]]]; auto. exfalso; eapply P1b; eauto. }
  assert (PR : forall j, pend s' j -> pend s j \/ (j = b /\ q = RelSt b /\ c = S (cnt1 s) /\ num nb = cnt1 s)).
  { intros j Hj. unfold pend, s' in *. cbn [banks p1] in Hj. destruct (Nat.eq_dec j b) as [->|N].
    - rewrite upd_eq, NS in Hj. destruct Hj as [A|[A|[A|A]]]; try discriminate.
      destruct HQ as [[[Q|[Q|Q]] _]|HQ]; try congruence. right. tauto.
    - rewrite upd_ne in Hj by exact N. destruct Hj as [A|[A|[A|A]]]; auto.
      destruct HQ as [[[Q|[Q|Q]] _]|[Q _]]; congruence. }
  assert (SE : forall j, j <> b -> banks s' j = banks s j) by (intros; unfold s'; cbn [banks]; apply upd_ne; assumption).
  assert (PN : forall j, j < n -> pend s j -> num (banks s j) < cnt1 s).
  { intros j Hj Hp. specialize (JB j Hj). destruct Hp as [A|[A|[A|A]]]; try solve [rewrite A in JB; intuition lia]; exfalso; eapply P1b; eauto. }
  assert (NX' : ~ exiting s').
  { unfold exiting, s'. cbn [p1]. destruct HQ as [[[->|[->| ->]] _]|[-> _]]; auto. }
  assert (NE : q <> Post) by (destruct HQ as [[[->|[->| ->]] _]|[-> _]]; discriminate).
  constructor; auto.
  - intros w Hw. specialize (J2 w Hw). change (p2 s' w) with (p2 s w). unfold procd in *. change (processed s') with (processed s).
    destruct (p2 s w) as [| |b'|b' r|b'| |]; auto; (rewrite SE; [exact J2|apply SB; destruct J2 as (_ & J2 & _); congruence]).
  - unfold inv3 in *. change (p3 s') with (p3 s). change (cnt3 s') with (cnt3 s).
    destruct (p3 s) as [| |i|i|b'|b'| |]; auto; try (rewrite SE; [exact J3|apply SB; intuition congruence]).
    contradiction.
  - intros j Hj. specialize (JB j Hj). unfold procd in *. change (processed s') with (processed s). change (cnt3 s') with (cnt3 s).
    change (cnt1 s') with c. destruct (Nat.eq_dec j b) as [->|N].
    + unfold s' at 1. cbn [banks]. rewrite upd_eq, NS. cbn [owns]. unfold s'. cbn [p1]. intuition.
    + rewrite SE by exact N. destruct (st (banks s j)) eqn:E; auto.
      * exfalso. destruct HO as [[_ HO]|[_ HO]].
        -- cbn [owns] in JB. destruct JB as [A|[A|[A|A]]]; rewrite A in HO; exact HO.
        -- cbn [owns] in JB, HO. destruct JB as [A|[A|[A|A]]]; rewrite A in HO; intuition congruence.
      * intuition lia.
      * intuition lia.
      * intuition lia.
      * contradiction.
  - change (cnt3 s') with (cnt3 s). change (cnt1 s') with c. intros k Hk.
    destruct (Nat.lt_ge_cases k (cnt1 s)) as [L|L].
    + destruct (JE k) as (i & A & B & D); [lia|]. exists i. split; [exact A|]. split; [auto|]. rewrite SE by auto. exact D.
    + destruct HQ as [[_ ->]|(Q1 & -> & Q3)]; [lia|]. exists b. split; [exact Hb|].
      unfold pend, s'. cbn [banks p1]. rewrite upd_eq. split; [auto|lia].
  - intros i j Hi Hj Pi Pj E.
    destruct (PR i Pi) as [Ai|(-> & _ & _ & Ni)], (PR j Pj) as [Aj|(-> & _ & _ & Nj)]; auto.
    + rewrite !SE in E by auto. apply JD; auto.
    + exfalso. rewrite SE in E by auto. unfold s' in E. cbn [banks] in E. rewrite upd_eq in E. specialize (PN i Hi Ai). lia.
    + exfalso. rewrite (SE j) in E by auto. unfold s' in E. cbn [banks] in E. rewrite upd_eq in E. specialize (PN j Hj Aj). lia.
  - change (cnt3 s') with (cnt3 s). change (cnt1 s') with c. lia.
  - change (cnt1 s') with c. intros k p Hp. specialize (JG2 k p Hp). intuition lia.
  - change (cnt1 s') with c. intros k Hk. unfold procd in *. change (processed s') with (processed s).
    destruct (Nat.lt_ge_cases k (cnt1 s)) as [L|L].
    + destruct (JG3 k L) as [A|(i & A & B & D)]; [auto|]. right. exists i.
      assert (N : i <> b).
      { destruct D as [D|[D|(w & Hw & D)]]; [apply SB; congruence|exfalso; eapply P1b; eauto|].
        specialize (J2 w Hw). rewrite D in J2. apply SB; intuition congruence. }
      rewrite SE by exact N. split; [exact A|]. split; [exact B|]. destruct D as [D|[D|D]]; auto. exfalso; eapply P1b; eauto.
    + destruct HQ as [[_ ->]|(Q1 & -> & Q3)]; [lia|]. right. exists b. split; [exact Hb|].
      unfold s'. cbn [banks p1]. rewrite upd_eq. split; [lia|auto].
  - pose proof (upd_S1U s (upd (banks s) b nb) b Hb (fun j N => upd_ne _ _ _ _ N)) as U. rewrite upd_eq, NS in U.
    assert (U' : count (isS1U s') n = count (isS1U s) n).
    { destruct HO as [[HO _]|[HO _]]; rewrite HO in U; cbn [bst_eqb] in U; unfold isS1U, s' in *; cbn [banks]; lia. }
    rewrite U'. unfold exiting in NX. unfold s'. cbn [sem p2 p1].
    destruct (p1 s); try (exfalso; apply NX; exact I); try (exfalso; apply NP; reflexivity);
    destruct HQ as [[[->|[->| ->]] _]|[-> _]]; exact JJ.
  - intros A. exfalso. apply NX. apply JJ2. exact A.
Qed.

Lemma step1_inv sp s : Inv s -> Inv (step1 n K page sp s).
Proof.
  intros HI; pose proof HI as [J1 J2 J2d J3 JB JE JD JF JC JG1 JG2 JG3 JJ JJ2].
  unfold step1, set1. cbn zeta. destruct (p1 s) as [i|i|b|b|b|b| |i c|i|i|] eqn:E1.
  - (* Reset *)
    unfold inv1 in J1; rewrite E1 in J1. destruct J1 as (J1c & J1a & J1b).
    destruct (i <? n) eqn:Hi.
    + apply Nat.ltb_lt in Hi.
      apply (Inv_ext (mkSt (banks s) (sem s) (Reset (S i)) (cnt1 s) (p2 s) (p3 s) (cnt3 s) (processed s) (merged s)) (set_st (banks s) i Free)).
      * intros j. cbn. ud; auto. rewrite <- (J1b i Hi). destruct (banks s i); reflexivity.
      * apply frame1; [exact HI|rewrite E1; exact I|exact I| | | ].
        -- unfold inv1. cbn. auto.
        -- unfold sem_eq. cbn. try rewrite E1 in JJ. exact JJ.
        -- unfold exiting. rewrite E1. auto.
    + apply frame1; [exact HI|rewrite E1; exact I|exact I| | | ].
      * unfold inv1. cbn. lia.
      * unfold sem_eq. cbn. try rewrite E1 in JJ. exact JJ.
      * unfold exiting. rewrite E1. auto.
  - (* Acq *)
    unfold inv1 in J1; rewrite E1 in J1.
    assert (F : forall x, Inv (mkSt (banks s) (sem s) (Acq x) (cnt1 s) (p2 s) (p3 s) (cnt3 s) (processed s) (merged s))).
    { intros x. apply frame1; [exact HI|rewrite E1; exact I|exact I| | | ].
      * exact J1.
      * unfold sem_eq. cbn. try rewrite E1 in JJ. exact JJ.
      * unfold exiting. rewrite E1. auto. }
    destruct (i <? n) eqn:Hi; [|apply F]. apply Nat.ltb_lt in Hi.
    destruct (bst_eqb (st (banks s i)) Free && negb sp) eqn:Hc; [|apply F].
    apply andb_true_iff in Hc as [Hc _]. apply bst_eqb_true in Hc.
    apply own1_change; auto; try (unfold exiting; rewrite E1; tauto || discriminate).
    + left. rewrite E1. split; [exact Hc|exact I].
    + unfold inv1. cbn. rewrite upd_eq. auto.
  - unfold inv1 in J1; rewrite E1 in J1.
    apply own1_change; auto; try (unfold exiting; rewrite E1; tauto || discriminate).
    + tauto.
    + right. cbn. rewrite E1. intuition.
    + cbn. tauto.
    + unfold inv1. cbn. rewrite upd_eq. cbn. intuition.
  - unfold inv1 in J1; rewrite E1 in J1.
    apply own1_change; auto; try (unfold exiting; rewrite E1; tauto || discriminate).
    + tauto.
    + right. cbn. rewrite E1. intuition.
    + cbn. tauto.
    + unfold inv1. cbn. rewrite upd_eq. cbn. intuition.
  - unfold inv1 in J1; rewrite E1 in J1.
    apply own1_change; auto; try (unfold exiting; rewrite E1; tauto || discriminate).
    + tauto.
    + right. cbn. rewrite E1. intuition.
    + cbn. tauto.
    + unfold inv1. cbn. rewrite upd_eq. cbn. destruct J1 as (A & B & C & D).
      repeat split; auto; try lia. intros Hp. unfold procd in Hp. cbn in Hp. apply in_map_iff in Hp as ([k p] & Ek & Hp).
      cbn in Ek. subst k. apply JG2 in Hp. lia.
  - (* RelSt *)
    unfold inv1 in J1; rewrite E1 in J1. destruct J1 as (A & B & C & D & E & F & G).
    set (s' := mkSt _ _ _ _ _ _ _ _ _).
    assert (SE : forall j, j <> b -> banks s' j = banks s j) by (intros; unfold s'; cbn [banks]; apply upd_ne; assumption).
    assert (Sb : banks s' b = mkB S1U (num (banks s b)) (data (banks s b))) by (unfold s'; cbn; apply upd_eq).
    assert (PS : forall j, pend s' j <-> pend s j).
    { intros j. unfold pend. change (p1 s') with Post. rewrite E1. destruct (Nat.eq_dec j b) as [->|N].
      - rewrite Sb. cbn [st]. intuition.
      - rewrite SE by exact N. intuition congruence. }
    assert (NE : forall j, num (banks s' j) = num (banks s j)).
    { intros j. destruct (Nat.eq_dec j b) as [->|N]; [rewrite Sb; reflexivity|rewrite SE by exact N; reflexivity]. }
    constructor; auto.
    + intros w Hw. specialize (J2 w Hw). change (p2 s' w) with (p2 s w). unfold procd in *. change (processed s') with (processed s).
      destruct (p2 s w) as [| |b'|b' r|b'| |]; auto; (rewrite SE; [exact J2|intros ->; destruct J2 as (_ & J2 & _); congruence]).
    + unfold inv3 in *. change (p3 s') with (p3 s). change (cnt3 s') with (cnt3 s).
      destruct (p3 s) as [| |i|i|b'|b'| |]; auto; try (rewrite SE; [exact J3|intros ->; intuition congruence]).
      unfold exiting in J3. rewrite E1 in J3. contradiction.
    + intros j Hj. specialize (JB j Hj). unfold procd in *. change (processed s') with (processed s). change (cnt3 s') with (cnt3 s).
      change (cnt1 s') with (cnt1 s). destruct (Nat.eq_dec j b) as [->|N].
      * rewrite Sb. cbn [st num data]. split; [exact E|]. split; [lia|exact G].
      * rewrite SE by exact N. destruct (st (banks s j)) eqn:Ej; auto.
        -- exfalso. cbn [owns] in JB. rewrite E1 in JB. intuition congruence.
        -- unfold exiting in JB. rewrite E1 in JB. contradiction.
    + intros k Hk. destruct (JE k Hk) as (i & X & Y & Z). exists i. rewrite NE. split; [exact X|]. split; [apply PS; exact Y|exact Z].
    + intros i j Hi Hj Pi Pj Eq. rewrite !NE in Eq. apply JD; auto; apply PS; assumption.
    + intros k Hk. destruct (JG3 k Hk) as [X|(i & X & Y & Z)]; [auto|right]. exists i. rewrite NE. split; [exact X|split; [exact Y|]].
      destruct Z as [Z|[Z|Z]]; auto.
      * left. destruct (Nat.eq_dec i b) as [->|N]; [congruence|rewrite SE by exact N; exact Z].
      * left. try rewrite E1 in Z. injection Z as <-. rewrite Sb. reflexivity.
    + pose proof (upd_S1U s (banks s') b A SE) as U. rewrite Sb, B in U. cbn [st bst_eqb] in U.
      try rewrite E1 in JJ. unfold s' at 1 2 3 4 5. cbn [sem p2 p1]. unfold isS1U in *. lia.
    + intros X. exfalso. specialize (JJ2 X). unfold exiting in JJ2. rewrite E1 in JJ2. exact JJ2.
  - (* Post *)
    unfold inv1 in J1; rewrite E1 in J1.
    destruct (cnt1 s <? K) eqn:HK.
    + apply Nat.ltb_lt in HK. apply frame1; [exact HI|rewrite E1; exact I|exact I| | | ].
      * exact HK.
      * unfold sem_eq. cbn. try rewrite E1 in JJ. unfold isS1U in *. cbn. lia.
      * unfold exiting. rewrite E1. auto.
    + apply Nat.ltb_ge in HK. apply frame1; [exact HI|rewrite E1; exact I|exact I| | | ].
      * unfold inv1. cbn. split; [lia|]. intros; lia.
      * unfold sem_eq. cbn. try rewrite E1 in JJ. unfold isS1U in *. cbn. lia.
      * unfold exiting. rewrite E1. auto.
  - (* ExScan *)
    unfold inv1 in J1; rewrite E1 in J1. destruct J1 as [A B].
    destruct (i <? n) eqn:Hi.
    + apply Nat.ltb_lt in Hi. apply frame1; [exact HI|rewrite E1; exact I|exact I| | | ].
      * unfold inv1. cbn. split; [exact A|]. intros Hc j Hj Hn.
        destruct (bst_eqb (st (banks s i)) Free) eqn:Ef; [|discriminate]. apply bst_eqb_true in Ef.
        destruct (Nat.eq_dec j i) as [->|N]; [exact Ef|]. apply B; auto; lia.
      * unfold sem_eq. cbn. try rewrite E1 in JJ. exact JJ.
      * unfold exiting. rewrite E1. auto.
    + apply Nat.ltb_ge in Hi. destruct (Nat.eqb_spec c 0) as [->|Hc].
      * assert (AF : forall j, j < n -> st (banks s j) = Free) by (intros; apply B; auto; lia).
        apply frame1; [exact HI|rewrite E1; exact I|exact I| | | ].
        -- unfold inv1. cbn. split; [exact A|]. split; [lia|]. split; [intros; lia|]. intros; apply AF; assumption.
        -- unfold sem_eq. cbn. try rewrite E1 in JJ.
           assert (Z : count (isS1U s) n = 0) by (apply count_zero; intros j Hj; unfold isS1U; rewrite AF by exact Hj; reflexivity).
           lia.
        -- unfold exiting. cbn. auto.
      * apply frame1; [exact HI|rewrite E1; exact I|exact I| | | ].
        -- unfold inv1. cbn. split; [exact A|]. intros; lia.
        -- unfold sem_eq. cbn. try rewrite E1 in JJ. exact JJ.
        -- unfold exiting. rewrite E1. auto.
  - (* ExSt *)
    unfold inv1 in J1; rewrite E1 in J1. destruct J1 as (A & B & C & D).
    destruct (i <? n) eqn:Hi.
    + apply Nat.ltb_lt in Hi. set (s' := mkSt _ _ _ _ _ _ _ _ _).
      assert (SE : forall j, j <> i -> banks s' j = banks s j) by (intros; unfold s'; cbn [banks]; apply upd_ne; assumption).
      assert (Sb : banks s' i = mkB Done (num (banks s i)) (data (banks s i))) by (unfold s'; cbn; apply upd_eq).
      assert (FD : forall j, j < n -> st (banks s j) = Free \/ st (banks s j) = Done).
      { intros j Hj. destruct (Nat.lt_ge_cases j i); auto. }
      assert (NPe : forall j, j < n -> ~ pend s j).
      { intros j Hj Hp. unfold pend in Hp. rewrite E1 in Hp. destruct (FD j Hj) as [X|X]; rewrite X in Hp; intuition congruence. }
      assert (CC : cnt3 s = cnt1 s).
      { destruct (Nat.eq_dec (cnt3 s) (cnt1 s)) as [|N]; [assumption|].
        destruct (JE (cnt3 s)) as (j & Hj & Pj & _); [lia|]. exfalso; eapply NPe; eauto. }
      assert (X' : exiting s') by exact I.
      constructor; auto.
      * change (cnt1 s = K /\ i < n /\ (forall j, j <= i -> st (banks s' j) = Done) /\
          (forall j, i < j -> j < n -> st (banks s' j) = Free)).
        split; [exact A|split; [exact Hi|]]. split; [intros j Hj|intros j Hj Hj'].
        -- destruct (Nat.eq_dec j i) as [->|N]; [rewrite Sb; reflexivity|rewrite SE by exact N; apply C; lia].
        -- rewrite SE by lia. apply D; lia.
      * intros w Hw. specialize (J2 w Hw). change (p2 s' w) with (p2 s w). unfold procd in *. change (processed s') with (processed s).
        destruct (p2 s w) as [| |b'|b' r|b'| |]; auto; exfalso; destruct J2 as (Hb & J2 & _); destruct (FD b' Hb); congruence.
      * unfold inv3 in *. change (p3 s') with (p3 s). change (cnt3 s') with (cnt3 s).
        destruct (p3 s) as [| |x|x|b'|b'| |]; auto; exfalso; destruct J3 as (Hb & J3); [destruct (FD x Hb)|destruct (FD x Hb)|destruct (FD b' Hb)|destruct (FD b' Hb)]; intuition congruence.
      * intros j Hj. destruct (Nat.eq_dec j i) as [->|N].
        -- rewrite Sb. cbn [st]. exact I.
        -- rewrite SE by exact N. destruct (FD j Hj) as [Z|Z]; rewrite Z; exact I.
      * intros k Hk. change (cnt3 s') with (cnt3 s) in Hk. change (cnt1 s') with (cnt1 s) in Hk. lia.
      * intros x y Hx Hy Px Py _. exfalso.
        unfold pend in Px. change (p1 s') with (ExPost i) in Px.
        destruct (Nat.eq_dec x i) as [->|N].
        -- rewrite Sb in Px. cbn [st] in Px. intuition congruence.
        -- rewrite SE in Px by exact N. destruct (FD x Hx) as [Z|Z]; rewrite Z in Px; intuition congruence.
      * intros k Hk. destruct (JG3 k Hk) as [X|(x & X & Y & Z)]; [auto|exfalso].
        destruct Z as [Z|[Z|(w & Hw & Z)]].
        -- destruct (FD x X); congruence.
        -- congruence.
        -- specialize (J2 w Hw). rewrite Z in J2. destruct (FD x X); intuition congruence.
    + apply Nat.ltb_ge in Hi. assert (i = n) by lia. apply frame1; [exact HI|rewrite E1; exact I|exact I| | | ].
      * unfold inv1. cbn. split; [exact A|intros; apply C; lia].
      * unfold sem_eq. cbn. lia.
      * unfold exiting. cbn. auto.
  - (* ExPost *)
    unfold inv1 in J1; rewrite E1 in J1. destruct J1 as (A & B & C & D).
    apply frame1; [exact HI|rewrite E1; exact I|exact I| | | ].
    + unfold inv1. cbn. split; [exact A|]. split; [lia|]. split; intros; [apply C|apply D]; lia.
    + unfold sem_eq. cbn. try rewrite E1 in JJ. lia.
    + unfold exiting. cbn. auto.
  - destruct s; exact HI.
Qed.

Lemma exiting_states s i : Inv s -> exiting s -> i < n -> stOf s i = Free \/ stOf s i = Done.
Proof.
  intros HI HX Hi. pose proof (i1 s HI) as J1. unfold inv1, exiting in *.
  destruct (p1 s) as [x|x|x|x|x|x| |x c|x|x|]; try contradiction.
  - destruct J1 as (_ & A & B & C). destruct (Nat.lt_ge_cases i x); auto.
  - destruct J1 as (_ & A & B & C). destruct (Nat.le_gt_cases i x); auto.
  - destruct J1 as (_ & A). auto.
Qed.

Lemma scan_upd (p : nat -> pc2 (R:=R)) w q : w < W ->
  count (isScan (upd p w q)) W + (match p w with Scan _ => 1 | _ => 0 end) =
  count (isScan p) W + (match q with Scan _ => 1 | _ => 0 end).
Proof.
  intros Hw. pose proof (count_upd (isScan (upd p w q)) (isScan p) W w Hw) as U.
  assert (forall j, j <> w -> isScan (upd p w q) j = isScan p j) as HH by (intros j Hj; unfold isScan; rewrite upd_ne by exact Hj; reflexivity).
  specialize (U HH). change (isScan p w) with (match p w with Scan _ => true | _ => false end) in U.
  assert (E : isScan (upd p w q) w = match q with Scan _ => true | _ => false end) by (unfold isScan; rewrite upd_eq; reflexivity). rewrite E in U. destruct (p w), q; lia.
Qed.
Lemma end_upd (p : nat -> pc2 (R:=R)) w q : w < W ->
  count (isEnd2 (upd p w q)) W + (match p w with End2 => 1 | _ => 0 end) =
  count (isEnd2 p) W + (match q with End2 => 1 | _ => 0 end).
Proof.
  intros Hw. pose proof (count_upd (isEnd2 (upd p w q)) (isEnd2 p) W w Hw) as U.
  assert (forall j, j <> w -> isEnd2 (upd p w q) j = isEnd2 p j) as HH by (intros j Hj; unfold isEnd2; rewrite upd_ne by exact Hj; reflexivity).
  specialize (U HH). change (isEnd2 p w) with (match p w with End2 => true | _ => false end) in U.
  assert (E : isEnd2 (upd p w q) w = match q with End2 => true | _ => false end) by (unfold isEnd2; rewrite upd_eq; reflexivity). rewrite E in U. destruct (p w), q; lia.
Qed.

Lemma own2_change s w b nb q pr : Inv s -> w < W -> b < n ->
  let m := numOf s b in
  (stOf s b = S1U /\ (exists i, p2 s w = Scan i) \/ stOf s b = S2L /\ own2 s w b) ->
  num nb = m ->
  (st nb = S2L /\ (q = Read2 b \/ (exists r, q = Write2 b r) \/ q = Rel2 b) \/
   st nb = S2U /\ q = Wait /\ data nb = Red (red (page m)) /\ In m (map fst pr)) ->
  (st nb = S2L -> match q with
   | Read2 _ => data nb = Raw (page m) /\ ~ In m (map fst pr)
   | Write2 _ r => r = red (page m) /\ In m (map fst pr)
   | Rel2 _ => data nb = Red (red (page m)) /\ In m (map fst pr)
   | _ => False end) ->
  (pr = processed s \/ pr = (m, page m) :: processed s /\ ~ procd s m) ->
  (In m (map fst pr) \/ q = Read2 b) ->
  Inv (mkSt (upd (banks s) b nb) (sem s) (p1 s) (cnt1 s) (upd (p2 s) w q) (p3 s) (cnt3 s) pr (merged s)).
Proof.
  intros HI Hw Hb m HO HN HQ HC HP HG.
  pose proof HI as [J1 J2 J2d J3 JB JE JD JF JC JG1 JG2 JG3 JJ JJ2].
  set (s' := mkSt _ _ _ _ _ _ _ _ _).
  assert (SO : stOf s b = S1U \/ stOf s b = S2L) by tauto.
  assert (NX : ~ exiting s).
  { intros X. destruct (exiting_states s b HI X Hb); destruct SO; congruence. }
  assert (SE : forall j, j <> b -> banks s' j = banks s j) by (intros; unfold s'; cbn [banks]; apply upd_ne; assumption).
  assert (Sb : banks s' b = nb) by (unfold s'; cbn; apply upd_eq).
  assert (PE : forall v, v <> w -> p2 s' v = p2 s v) by (intros; unfold s'; cbn [p2]; apply upd_ne; assumption).
  assert (Pw : p2 s' w = q) by (unfold s'; cbn; apply upd_eq).
  assert (NE : forall j, numOf s' j = numOf s j).
  { intros j. destruct (Nat.eq_dec j b) as [->|N]; [rewrite Sb; exact HN|rewrite SE by exact N; reflexivity]. }
  assert (Pb : pend s b) by (unfold pend; tauto).
  assert (SNB : st nb = S2L \/ st nb = S2U) by tauto.
  assert (PS : forall j, pend s' j <-> pend s j).
  { intros j. destruct (Nat.eq_dec j b) as [->|N].
    - split; intros _; [exact Pb|]. unfold pend. rewrite Sb. tauto.
    - unfold pend. rewrite SE by exact N. reflexivity. }
  assert (PO : forall k, In k (map fst pr) <-> procd s k \/ (k = m /\ pr <> processed s)).
  { intros k. destruct HP as [->|[-> _]]; unfold procd; cbn; [tauto|].
    split; [intros [<-|A]; [right; split; [reflexivity|]|auto]|intros [A|[-> _]]; auto].
    intros E. apply (f_equal (@length _)) in E. cbn in E. lia. }
  assert (PM : forall j, j < n -> pend s j -> j <> b -> numOf s j <> m).
  { intros j Hj Pj N E. apply N. apply JD; auto. }
  assert (MR : cnt3 s <= m < cnt1 s).
  { specialize (JB b Hb). destruct SO as [E|E]; rewrite E in JB; tauto. }
  constructor; auto.
  - (* inv1 *)
    unfold inv1 in *. change (p1 s') with (p1 s). change (cnt1 s') with (cnt1 s). change (cnt3 s') with (cnt3 s).
    unfold exiting in NX. destruct (p1 s) as [x|x|x|x|x|x| |x c|x|x|] eqn:E1; auto; try (exfalso; apply NX; exact I).
    + destruct J1 as (_ & A & B). exfalso. specialize (B b Hb). destruct SO; congruence.
    + rewrite SE; [exact J1|intros ->; destruct SO; intuition congruence].
    + rewrite SE; [exact J1|intros ->; destruct SO; intuition congruence].
    + rewrite SE; [exact J1|intros ->; destruct SO; intuition congruence].
    + assert (N : x <> b) by (intros ->; destruct SO; intuition congruence).
      rewrite SE by exact N. destruct J1 as (A & B & C & D & E & F & G). repeat (split; [assumption|]).
      intros X. unfold procd in X. change (processed s') with pr in X. apply PO in X as [X|[X _]]; [contradiction|].
      apply (PM x A); auto. unfold pend. rewrite E1. auto.
    + destruct J1 as [A B]. split; [exact A|]. intros Hc j Hj Hn. specialize (B Hc j Hj Hn).
      rewrite SE; [exact B|intros ->; destruct SO; congruence].
  - (* inv2 *)
    intros v Hv. unfold procd. change (processed s') with pr. destruct (Nat.eq_dec v w) as [->|N].
    + rewrite Pw. destruct HQ as [[Q1 Q2]|(Q1 & -> & _)]; [|exact I]. specialize (HC Q1).
      destruct Q2 as [->|[[r ->]| ->]]; rewrite Sb, HN; fold m; tauto.
    + rewrite PE by exact N. specialize (J2 v Hv).
      assert (NB : forall x, own2 s v x -> x < n -> stOf s x = S2L -> x <> b /\ numOf s x <> m).
      { intros x Ox Hx Sx. assert (x <> b).
        { intros ->. destruct HO as [[A _]|[_ A]]; [congruence|]. apply N. eapply J2d; eauto. }
        split; [assumption|]. apply PM; auto. unfold pend; auto. }
      unfold own2 in NB. destruct (p2 s v) as [| |x|x r|x| |]; auto.
      * destruct J2 as (A & B & C & D). destruct (NB x) as [X Y]; auto. rewrite SE by exact X.
        repeat (split; [assumption|]). intros Z. apply PO in Z as [Z|[Z _]]; contradiction.
      * destruct J2 as (A & B & C & D). destruct (NB x) as [X Y]; eauto. rewrite SE by exact X.
        repeat (split; [assumption|]). apply PO; auto.
      * destruct J2 as (A & B & C & D). destruct (NB x) as [X Y]; auto. rewrite SE by exact X.
        repeat (split; [assumption|]). apply PO; auto.
  - (* inv2d *)
    assert (O : forall v x, own2 s' v x -> (v <> w /\ own2 s v x) \/ (v = w /\ x = b)).
    { intros v x Hx. unfold own2 in *. destruct (Nat.eq_dec v w) as [->|N]; [right|left; rewrite PE in Hx by exact N; auto].
      rewrite Pw in Hx. split; [reflexivity|].
      destruct HQ as [[_ [->|[[r ->]| ->]]]|(_ & -> & _)]; destruct Hx as [Hx|[[r' Hx]|Hx]]; congruence. }
    assert (O' : forall v, v < W -> v <> w -> ~ own2 s v b).
    { intros v Hv N A. destruct HO as [[B _]|[_ B]].
      - specialize (J2 v Hv). destruct A as [A|[[r A]|A]]; rewrite A in J2; intuition congruence.
      - apply N. eapply J2d; eauto. }
    intros v v' x Hv Hv' A B. destruct (O v x A) as [[N A']|[E1 E2]], (O v' x B) as [[N' B']|[E3 E4]].
    + eapply J2d; eauto.
    + exfalso. rewrite E4 in A'. exact (O' v Hv N A').
    + exfalso. rewrite E2 in B'. exact (O' v' Hv' N' B').
    + congruence.
  - (* inv3 *)
    unfold inv3 in *. change (p3 s') with (p3 s). change (cnt3 s') with (cnt3 s).
    destruct (p3 s) as [| |x|x|x|x| |]; auto; try (rewrite SE; [exact J3|intros ->; destruct SO; intuition congruence]).
  - (* invB *)
    intros j Hj. unfold procd. change (processed s') with pr. change (cnt3 s') with (cnt3 s). change (cnt1 s') with (cnt1 s).
    destruct (Nat.eq_dec j b) as [->|N].
    + rewrite Sb, HN. fold m. destruct HQ as [[Q1 Q2]|(Q1 & -> & Q2 & Q3)]; rewrite Q1.
      * split; [|exact MR]. exists w. split; [exact Hw|]. unfold own2. rewrite Pw. exact Q2.
      * auto.
    + rewrite SE by exact N. specialize (JB j Hj). destruct (st (banks s j)) eqn:Ej; auto.
      * destruct JB as (A & B & C). split; [exact A|]. split; [exact B|]. intros X.
        apply PO in X as [X|[X _]]; [contradiction|]. apply (PM j Hj); auto. unfold pend; auto.
      * destruct JB as [(v & Hv & A) B]. split; [|exact B]. exists v. split; [exact Hv|].
        assert (v <> w).
        { intros ->. destruct HO as [[_ [i E]]|[_ E]].
          - unfold own2 in A. rewrite E in A. destruct A as [A|[[r A]|A]]; discriminate.
          - apply N. destruct A as [A|[[r A]|A]], E as [E|[[r' E]|E]]; congruence. }
        unfold own2. rewrite PE by assumption. exact A.
      * destruct JB as (A & B & C). split; [exact A|]. split; [exact B|]. apply PO; auto.
  - intros k Hk. destruct (JE k Hk) as (i & A & B & C). exists i. rewrite NE. split; [exact A|]. split; [apply PS; exact B|exact C].
  - intros i j Hi Hj Pi Pj E. rewrite !NE in E. apply JD; auto; apply PS; assumption.
  - change (processed s') with pr. destruct HP as [->|[-> X]]; [exact JG1|]. cbn. constructor; assumption.
  - change (processed s') with pr. change (cnt1 s') with (cnt1 s). intros k p X.
    destruct HP as [->|[-> _]]; [apply JG2; exact X|]. destruct X as [X|X]; [|apply JG2; exact X].
    injection X as <- <-. split; [reflexivity|apply MR].
  - change (cnt1 s') with (cnt1 s). intros k Hk. unfold procd. change (processed s') with pr. change (p1 s') with (p1 s).
    destruct (Nat.eq_dec k m) as [->|Nk].
    + destruct HG as [X|X]; [auto|]. right. exists b. rewrite NE. split; [exact Hb|]. split; [reflexivity|].
      right. right. exists w. rewrite Pw. auto.
    + destruct (JG3 k Hk) as [A|(i & A & B & C)]; [left; apply PO; auto|right].
      assert (N : i <> b) by (intros ->; apply Nk; auto).
      exists i. rewrite NE. split; [exact A|]. split; [exact B|]. rewrite SE by exact N.
      destruct C as [C|[C|(v & Hv & C)]]; auto. right. right. exists v. split; [exact Hv|].
      assert (v <> w).
      { intros ->. destruct HO as [[_ [x E]]|[_ E]]; [congruence|].
        destruct E as [E|[[r' E]|E]]; congruence. }
      rewrite PE by assumption. exact C.
  - pose proof (upd_S1U s (banks s') b Hb SE) as U. rewrite Sb in U.
    pose proof (scan_upd (p2 s) w q Hw) as V. pose proof (end_upd (p2 s) w q Hw) as Z.
    unfold exiting in NX. change (sem s') with (sem s). change (p2 s') with (upd (p2 s) w q). change (p1 s') with (p1 s).
    assert (QE : match q with End2 => 1 | _ => 0 end = 0) by (destruct HQ as [[_ [->|[[r ->]| ->]]]|(_ & -> & _)]; reflexivity).
    assert (QS : match q with Scan _ => 1 | _ => 0 end = 0) by (destruct HQ as [[_ [->|[[r ->]| ->]]]|(_ & -> & _)]; reflexivity).
    assert (NS : bst_eqb (st nb) S1U = false) by (destruct SNB as [->| ->]; reflexivity).
    assert (WE : match p2 s w with End2 => 1 | _ => 0 end = 0).
    { destruct HO as [[_ [i ->]]|[_ [->|[[r ->]| ->]]]]; reflexivity. }
    rewrite QE, WE in Z. rewrite QS in V. rewrite NS in U.
    assert (U' : count (isS1U s) n + match p2 s w with Scan _ => 0 | _ => 1 end = S (count (isS1U s') n)).
    { unfold isS1U at 2. destruct HO as [[E [i ->]]|[E [->|[[r ->]| ->]]]]; rewrite E in U; cbn [bst_eqb] in U; lia. }
    destruct (p1 s); try (exfalso; apply NX; exact I); destruct (p2 s w); lia.
  - intros X. exfalso. apply NX. apply JJ2.
    pose proof (end_upd (p2 s) w q Hw) as Z. change (p2 s') with (upd (p2 s) w q) in X.
    assert (QE : match q with End2 => 1 | _ => 0 end = 0) by (destruct HQ as [[_ [->|[[r ->]| ->]]]|(_ & -> & _)]; reflexivity).
    lia.
Qed.

Lemma step2_inv w sp s : Inv s -> w < W -> Inv (step2 n red w sp s).
Proof.
  intros HI Hw; pose proof HI as [J1 J2 J2d J3 JB JE JD JF JC JG1 JG2 JG3 JJ JJ2].
  unfold step2, set2. cbn zeta. pose proof (J2 w Hw) as J2w.
  pose proof (scan_upd (p2 s) w) as SU. pose proof (end_upd (p2 s) w) as EU.
  destruct (p2 s w) as [|i|b|b r|b| |] eqn:E2.
  - destruct (sem s) as [|k] eqn:Es; [exact HI|].
    apply frame2; auto; try (rewrite E2; exact I); try exact I.
    + specialize (SU (Scan 0) Hw). specialize (EU (Scan 0) Hw). cbn in SU, EU. unfold sem_eq. cbn [sem p2 p1].
      destruct (p1 s); unfold isS1U in *; cbn [banks]; lia.
    + intros X. apply JJ2. specialize (EU (Scan 0) Hw). cbn in EU. lia.
  - assert (F : forall x, Inv (mkSt (banks s) (sem s) (p1 s) (cnt1 s) (upd (p2 s) w (Scan x)) (p3 s) (cnt3 s) (processed s) (merged s))).
    { intros x. specialize (SU (Scan x) Hw). specialize (EU (Scan x) Hw). cbn in SU, EU.
      apply frame2; auto; try (rewrite E2; exact I); try exact I.
      - unfold sem_eq. cbn [sem p2 p1]. destruct (p1 s); unfold isS1U in *; cbn [banks]; lia.
      - intros X. apply JJ2. lia. }
    destruct (i <? n) eqn:Hi; [|apply F]. apply Nat.ltb_lt in Hi.
    destruct (bst_eqb (st (banks s i)) S1U && negb sp) eqn:Hc.
    + apply andb_true_iff in Hc as [Hc _]. apply bst_eqb_true in Hc.
      pose proof (JB i Hi) as JBi. rewrite Hc in JBi. destruct JBi as (A & B & C).
      apply own2_change; [exact HI|exact Hw|exact Hi| | | | | | ].
      * left. eauto.
      * reflexivity.
      * left. cbn. auto.
      * intros _. cbn. auto.
      * auto.
      * auto.
    + destruct (bst_eqb (st (banks s i)) Done) eqn:Hd; [|apply F]. apply bst_eqb_true in Hd.
      pose proof (JB i Hi) as JBi. rewrite Hd in JBi.
      specialize (SU End2 Hw). specialize (EU End2 Hw). cbn in SU, EU.
      apply frame2; auto; try (rewrite E2; exact I); try exact I.
      unfold sem_eq. cbn [sem p2 p1]. unfold exiting in JBi. destruct (p1 s); unfold isS1U in *; cbn [banks]; lia.
  - destruct J2w as (A & B & C & D). rewrite C.
    assert (Inv (mkSt (upd (banks s) b (banks s b)) (sem s) (p1 s) (cnt1 s) (upd (p2 s) w (Write2 b (red (page (num (banks s b)))))) (p3 s) (cnt3 s)
       ((num (banks s b), page (num (banks s b))) :: processed s) (merged s))) as X.
    { apply own2_change; [exact HI|exact Hw|exact A| | | | | | ].
      - right. split; [exact B|]. left. exact E2.
      - reflexivity.
      - left. split; [exact B|]. right; left; eauto.
      - intros _. cbn. auto.
      - auto.
      - left. cbn. auto. }
    eapply (Inv_ext _ (banks s)) in X; [exact X|]. intros j. cbn. unfold upd. destruct (Nat.eqb_spec j b); congruence.
  - destruct J2w as (A & B & C & D).
    apply own2_change; [exact HI|exact Hw|exact A| | | | | | ].
    + right. split; [exact B|]. right; left. eauto.
    + reflexivity.
    + left. cbn. auto.
    + intros _. cbn. split; [congruence|exact D].
    + auto.
    + left. exact D.
  - destruct J2w as (A & B & C & D).
    apply own2_change; [exact HI|exact Hw|exact A| | | | | | ].
    + right. split; [exact B|]. right; right. exact E2.
    + reflexivity.
    + right. cbn. auto.
    + cbn. discriminate.
    + auto.
    + left. exact D.
  - exact HI.
  - exact HI.
Qed.

Lemma step3_inv s : Inv s -> Inv (step3 n s).
Proof.
  intros HI; pose proof HI as [J1 J2 J2d J3 JB JE JD JF JC JG1 JG2 JG3 JJ JJ2].
  unfold step3, set3. cbn zeta. pose proof J3 as J3'. unfold inv3 in J3.
  destruct (p3 s) as [i|i|i|i|b|b| |] eqn:E3.
  - assert (F : forall x, Inv (mkSt (banks s) (sem s) (p1 s) (cnt1 s) (p2 s) (Scan3 x) (cnt3 s) (processed s) (merged s))).
    { intros x. apply frame3; [exact HI|rewrite E3; exact I|exact I|exact I]. }
    destruct (i <? n) eqn:Hi; [|apply F]. apply Nat.ltb_lt in Hi.
    destruct (bst_eqb (st (banks s i)) S2U) eqn:Hc.
    + apply bst_eqb_true in Hc. apply frame3; [exact HI|rewrite E3; exact I|exact I|]. unfold inv3. cbn. auto.
    + apply frame3; [exact HI|rewrite E3; exact I|exact I|exact Hi].
  - destruct (bst_eqb (st (banks s i)) Done) eqn:Hc.
    + apply bst_eqb_true in Hc. specialize (JB i J3). rewrite Hc in JB.
      apply frame3; [exact HI|rewrite E3; exact I|exact I|exact JB].
    + apply frame3; [exact HI|rewrite E3; exact I|exact I|exact I].
  - destruct (Nat.eqb_spec (num (banks s i)) (cnt3 s)) as [E|E].
    + apply frame3; [exact HI|rewrite E3; exact I|exact I|]. unfold inv3. cbn. tauto.
    + apply frame3; [exact HI|rewrite E3; exact I|exact I|exact I].
  - (* Lock3 *)
    destruct J3 as (A & B & C). pose proof (JB i A) as JBi. rewrite B in JBi. destruct JBi as (D & E & F).
    assert (NX : ~ exiting s) by (intros X; destruct (exiting_states s i HI X A); congruence).
    set (s' := mkSt _ _ _ _ _ _ _ _ _).
    assert (SE : forall j, j <> i -> banks s' j = banks s j) by (intros; unfold s'; cbn [banks]; apply upd_ne; assumption).
    assert (Sb : banks s' i = mkB S3L (num (banks s i)) (data (banks s i))) by (unfold s'; cbn; apply upd_eq).
    assert (Pi : pend s i) by (unfold pend; auto).
    assert (PM : forall j, j < n -> pend s j -> j <> i -> S (cnt3 s) <= numOf s j).
    { intros j Hj Pj N. assert (numOf s j <> numOf s i) by (intros X; apply N; apply JD; auto).
      assert (cnt3 s <= numOf s j); [|lia]. destruct Pj as [X|[X|[X|X]]].
      - specialize (JB j Hj). rewrite X in JB. lia.
      - specialize (JB j Hj). rewrite X in JB. lia.
      - specialize (JB j Hj). rewrite X in JB. lia.
      - unfold inv1 in J1. rewrite X in J1. lia. }
    assert (PS : forall j, j < n -> (pend s' j <-> pend s j /\ j <> i)).
    { intros j Hj. unfold pend. change (p1 s') with (p1 s). destruct (Nat.eq_dec j i) as [->|N].
      - rewrite Sb. cbn [st]. split; [|tauto]. intros [X|[X|[X|X]]]; try discriminate.
        exfalso. unfold inv1 in J1. rewrite X in J1. intuition congruence.
      - rewrite SE by exact N. tauto. }
    constructor; auto.
    + unfold inv1 in *. change (p1 s') with (p1 s). change (cnt1 s') with (cnt1 s). change (cnt3 s') with (S (cnt3 s)).
      unfold exiting in NX. destruct (p1 s) as [x|x|x|x|x|x| |x c|x|x|] eqn:E1; auto; try (exfalso; apply NX; exact I).
      * destruct J1 as (_ & X & Y). exfalso. specialize (Y i A). congruence.
      * rewrite SE; [exact J1|intros ->; intuition congruence].
      * rewrite SE; [exact J1|intros ->; intuition congruence].
      * rewrite SE; [exact J1|intros ->; intuition congruence].
      * assert (N : x <> i) by (intros ->; intuition congruence).
        rewrite SE by exact N. destruct J1 as (X1 & X2 & X3 & X4 & X5 & X6 & X7). repeat (split; [assumption|]).
        split; [|exact X7]. apply PM; auto. unfold pend. rewrite E1; auto.
      * destruct J1 as [X Y]. split; [exact X|]. intros Hc j Hj Hn. specialize (Y Hc j Hj Hn).
        rewrite SE; [exact Y|intros ->; congruence].
    + intros w Hw. specialize (J2 w Hw). change (p2 s' w) with (p2 s w). unfold procd in *. change (processed s') with (processed s).
      destruct (p2 s w) as [| |b'|b' r|b'| |]; auto; (rewrite SE; [exact J2|intros ->; destruct J2 as (_ & J2 & _); congruence]).
    + unfold inv3. change (p3 s') with (Merge3 i). change (cnt3 s') with (S (cnt3 s)). cbn iota beta. rewrite Sb. cbn [st num data]. auto.
    + intros j Hj. pose proof (JB j Hj) as JBj. unfold procd in *. change (processed s') with (processed s). change (cnt3 s') with (S (cnt3 s)).
      change (cnt1 s') with (cnt1 s). destruct (Nat.eq_dec j i) as [->|N].
      * rewrite Sb. cbn [st]. left. reflexivity.
      * rewrite SE by exact N. destruct (st (banks s j)) eqn:Ej; auto.
        -- destruct JBj as (X & Y & Z). split; [exact X|]. split; [|exact Z]. split; [apply PM; auto; unfold pend; auto|lia].
        -- destruct JBj as (X & Y). split; [exact X|]. split; [apply PM; auto; unfold pend; auto|lia].
        -- destruct JBj as (X & Y & Z). split; [exact X|]. split; [|exact Z]. split; [apply PM; auto; unfold pend; auto|lia].
        -- cbn [owns] in JBj. rewrite E3 in JBj. destruct JBj; discriminate.
    + change (cnt3 s') with (S (cnt3 s)). change (cnt1 s') with (cnt1 s). intros k Hk.
      destruct (JE k) as (j & X & Y & Z); [lia|]. assert (N : j <> i) by (intros ->; lia).
      exists j. split; [exact X|]. split; [apply PS; auto|]. rewrite SE by exact N. exact Z.
    + intros x y Hx Hy Px Py Eq. apply PS in Px as [Px Nx]; [|exact Hx]. apply PS in Py as [Py Ny]; [|exact Hy].
      rewrite !SE in Eq by assumption. apply JD; auto.
    + change (merged s') with (merged s). rewrite JF. unfold mcount. rewrite E3. reflexivity.
    + change (cnt3 s') with (S (cnt3 s)). change (cnt1 s') with (cnt1 s). lia.
    + change (cnt1 s') with (cnt1 s). intros k Hk. destruct (JG3 k Hk) as [X|(j & X & Y & Z)]; [auto|right].
      assert (N : j <> i).
      { intros ->. destruct Z as [Z|[Z|(w & Hw & Z)]]; [congruence| |].
        - unfold inv1 in J1. rewrite Z in J1. intuition congruence.
        - specialize (J2 w Hw). rewrite Z in J2. intuition congruence. }
      exists j. rewrite SE by exact N. auto.
    + pose proof (upd_S1U s (banks s') i A SE) as U. rewrite Sb, B in U. cbn [st bst_eqb] in U.
      change (sem s') with (sem s). change (p2 s') with (p2 s). change (p1 s') with (p1 s).
      assert (U' : count (isS1U s') n = count (isS1U s) n) by (unfold isS1U at 1; lia). rewrite U'. exact JJ.
  - (* Merge3 *)
    destruct J3 as (A & B & C & D). rewrite C.
    constructor; auto.
    + unfold inv3. cbn. auto.
    + intros j Hj. pose proof (JB j Hj) as JBj. cbn [banks]. destruct (st (banks s j)) eqn:Ej; auto.
      cbn [owns p3] in *. rewrite E3 in JBj. destruct JBj as [X|X]; [injection X as ->|discriminate]. auto.
    + cbn [merged]. rewrite JF. unfold mcount. rewrite E3. cbn [p3 cnt3]. rewrite <- D. cbn [pred].
      rewrite seq_S, map_app, rev_app_distr. reflexivity.
  - (* Rel3 *)
    destruct J3 as (A & B).
    assert (NX : ~ exiting s) by (intros X; destruct (exiting_states s b HI X A); congruence).
    set (s' := mkSt _ _ _ _ _ _ _ _ _).
    assert (SE : forall j, j <> b -> banks s' j = banks s j) by (intros; unfold s'; cbn [banks]; apply upd_ne; assumption).
    assert (Sb : banks s' b = mkB Free (num (banks s b)) (data (banks s b))) by (unfold s'; cbn; apply upd_eq).
    assert (PS : forall j, pend s' j <-> pend s j).
    { intros j. unfold pend. change (p1 s') with (p1 s). destruct (Nat.eq_dec j b) as [->|N].
      - rewrite Sb, B. cbn [st]. intuition discriminate.
      - rewrite SE by exact N. tauto. }
    assert (NE : forall j, numOf s' j = numOf s j).
    { intros j. destruct (Nat.eq_dec j b) as [->|N]; [rewrite Sb; reflexivity|rewrite SE by exact N; reflexivity]. }
    constructor; auto.
    + unfold inv1 in *. change (p1 s') with (p1 s). change (cnt1 s') with (cnt1 s). change (cnt3 s') with (cnt3 s).
      unfold exiting in NX. destruct (p1 s) as [x|x|x|x|x|x| |x c|x|x|] eqn:E1; auto; try (exfalso; apply NX; exact I).
      * destruct J1 as (_ & X & Y). exfalso. specialize (Y b A). congruence.
      * rewrite SE; [exact J1|intros ->; intuition congruence].
      * rewrite SE; [exact J1|intros ->; intuition congruence].
      * rewrite SE; [exact J1|intros ->; intuition congruence].
      * rewrite SE; [exact J1|intros ->; intuition congruence].
      * destruct J1 as [X Y]. split; [exact X|]. intros Hc j Hj Hn. specialize (Y Hc j Hj Hn).
        rewrite SE; [exact Y|intros ->; congruence].
    + intros w Hw. specialize (J2 w Hw). change (p2 s' w) with (p2 s w). unfold procd in *. change (processed s') with (processed s).
      destruct (p2 s w) as [| |b'|b' r|b'| |]; auto; (rewrite SE; [exact J2|intros ->; destruct J2 as (_ & J2 & _); congruence]).
    + exact I.
    + intros j Hj. pose proof (JB j Hj) as JBj. unfold procd in *. change (processed s') with (processed s). change (cnt3 s') with (cnt3 s).
      change (cnt1 s') with (cnt1 s). destruct (Nat.eq_dec j b) as [->|N].
      * rewrite Sb. cbn [st]. exact I.
      * rewrite SE by exact N. destruct (st (banks s j)) eqn:Ej; auto.
        cbn [owns] in JBj. rewrite E3 in JBj. destruct JBj as [X|X]; [discriminate|congruence].
    + intros k Hk. destruct (JE k Hk) as (j & X & Y & Z). exists j. rewrite NE. split; [exact X|]. split; [apply PS; exact Y|exact Z].
    + intros x y Hx Hy Px Py Eq. rewrite !NE in Eq. apply JD; auto; apply PS; assumption.
    + change (merged s') with (merged s). rewrite JF. unfold mcount. rewrite E3. reflexivity.
    + intros k Hk. destruct (JG3 k Hk) as [X|(j & X & Y & Z)]; [auto|right]. exists j. rewrite NE.
      split; [exact X|]. split; [exact Y|]. change (p1 s') with (p1 s). change (p2 s') with (p2 s).
      destruct Z as [Z|[Z|Z]]; auto. left. rewrite SE; [exact Z|intros ->; congruence].
    + pose proof (upd_S1U s (banks s') b A SE) as U. rewrite Sb, B in U. cbn [st bst_eqb] in U.
      change (sem s') with (sem s). change (p2 s') with (p2 s). change (p1 s') with (p1 s).
      assert (U' : count (isS1U s') n = count (isS1U s) n) by (unfold isS1U at 1; lia). rewrite U'. exact JJ.
  - exact HI.
  - exact HI.
Qed.

Theorem step_inv t sp s : Inv s -> Inv (step n W K page red t sp s).
Proof.
  intros HI. destruct t as [|w|]; cbn [step].
  - apply step1_inv; exact HI.
  - destruct (w <? W) eqn:Hw; [|exact HI]. apply step2_inv; [exact HI|apply Nat.ltb_lt; exact Hw].
  - apply step3_inv; exact HI.
Qed.
Theorem reachable_inv s : reachable n W K page red s -> Inv s.
Proof.
  intros [sched ->]. assert (H : forall s0, Inv s0 -> Inv (run n W K page red sched s0)).
  { induction sched as [|l sched IH]; intros s0 H0; [exact H0|]. cbn. apply IH. apply step_inv. exact H0. }
  apply H. apply inv_init.
Qed.

(** ** Consequences *)
Lemma owns_state s t b : Inv s -> owns W t b s ->
  b < n /\ stOf s b = match t with T1 => S1L | T2 _ => S2L | T3 => S3L end.
Proof.
  intros [J1 J2 J2d J3 JB JE JD JF JC JG1 JG2 JG3 JJ JJ2]. destruct t as [|w|]; cbn [owns].
  - intros [E|[E|[E|E]]]; unfold inv1 in J1; rewrite E in J1; intuition.
  - intros [Hw H]. specialize (J2 w Hw). destruct H as [E|[[r E]|E]]; rewrite E in J2; intuition.
  - intros [E|E]; unfold inv3 in J3; rewrite E in J3; intuition.
Qed.
Theorem owner_unique s t t' b : Inv s -> owns W t b s -> owns W t' b s -> t = t'.
Proof.
  intros HI H H'. destruct (owns_state s t b HI H) as [_ E]. destruct (owns_state s t' b HI H') as [_ E'].
  rewrite E in E'. destruct t as [|w|], t' as [|w'|]; try discriminate; try reflexivity.
  cbn [owns] in *. destruct H as [Hw H], H' as [Hw' H']. f_equal. eapply (i2d s HI); eauto.
Qed.
Theorem no_error s : Inv s -> p3 s <> Err3 /\ forall w, w < W -> p2 s w <> Err2.
Proof.
  intros HI. split.
  - intros E. pose proof (i3 s HI) as J. unfold inv3 in J. rewrite E in J. exact J.
  - intros w Hw E. pose proof (i2 s HI w Hw) as J. rewrite E in J. exact J.
Qed.
Lemma exiting_cnt s : Inv s -> exiting s -> cnt3 s = K /\ cnt1 s = K.
Proof.
  intros HI HX. assert (cnt1 s = K).
  { pose proof (i1 s HI) as J1. unfold inv1, exiting in *. destruct (p1 s); try contradiction; tauto. }
  split; [|assumption]. pose proof (iC s HI). destruct (Nat.eq_dec (cnt3 s) K) as [|N]; [assumption|].
  destruct (iE s HI (cnt3 s)) as (i & Hi & Hp & _); [lia|].
  destruct (exiting_states s i HI HX Hi) as [E|E]; unfold pend in Hp; rewrite E in Hp;
    (destruct Hp as [X|[X|[X|X]]]; try discriminate; unfold exiting in HX; rewrite X in HX; destruct HX).
Qed.
Theorem end3_complete s : Inv s -> p3 s = End3 ->
  merged s = rev (map (fun k => red (page k)) (seq 0 K)) /\
  (forall i, i < n -> stOf s i = Free \/ stOf s i = Done).
Proof.
  intros HI E. pose proof (i3 s HI) as J. unfold inv3 in J. rewrite E in J.
  destruct (exiting_cnt s HI J) as [A B]. split; [|intros; apply exiting_states; auto].
  rewrite (iF s HI). unfold mcount. rewrite E, A. reflexivity.
Qed.
Lemma NoDup_pairs (l : list (nat * P)) : NoDup (map fst l) -> NoDup l.
Proof. apply NoDup_map_inv. Qed.
End I.
