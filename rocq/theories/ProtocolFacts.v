From Coq Require Import List Arith Bool Lia Permutation NArith ZArith.
From Verif Require Import Protocol ProtocolInv ProtocolLive.
Import ListNotations.

Section F.
Context {P R : Type}.
Variables n W K : nat.
Variable page : nat -> P.
Variable red : P -> R.
Hypothesis Kpos : 1 <= K.
Notation state := (state P R).
Notation Inv := (Inv n W K page red).
Notation step := (step n W K page red).

Lemma access_owner t sp (s : state) b : Inv s ->
  num (banks (step t sp s) b) <> num (banks s b) \/ data (banks (step t sp s) b) <> data (banks s b) ->
  owns W t b s.
Proof.
  intros HI H.
  assert (U : forall f i (x : bank P R), num x = num (f i) -> data x = data (f i) ->
     num (upd f i x b) <> num (f b) \/ data (upd f i x b) <> data (f b) -> False).
  { intros f i x A B. unfold upd. destruct (Nat.eqb_spec b i) as [->|]; intuition. }
  destruct t as [|w|]; cbn [Protocol.step owns] in *.
  - unfold step1, set1 in H. cbn zeta in H. destruct (p1 s) as [i|i|x|x|x|x| |i c|i|i|] eqn:E1;
      repeat match type of H with context[if ?c then _ else _] => destruct c end; cbn [banks] in H;
      try (exfalso; eapply U; [| |exact H]; reflexivity); try (exfalso; intuition congruence);
      unfold set_data, set_num, upd in H; destruct (Nat.eqb_spec b x) as [->|]; try (exfalso; intuition congruence); auto.
  - destruct (w <? W) eqn:Hw; [|exfalso; intuition congruence]. apply Nat.ltb_lt in Hw. split; [exact Hw|].
    unfold step2, set2 in H. cbn zeta in H. destruct (p2 s w) as [|i|x|x r|x| |] eqn:E2;
      repeat match type of H with context[if ?c then _ else _] => destruct c end.
    + destruct (sem s); cbn [banks] in H; exfalso; intuition congruence.
    + cbn [banks] in H. exfalso; eapply U; [| |exact H]; reflexivity.
    + cbn [banks] in H. exfalso; intuition congruence.
    + cbn [banks] in H. exfalso; intuition congruence.
    + cbn [banks] in H. exfalso; intuition congruence.
    + destruct (data (banks s x)); cbn [banks] in H; exfalso; intuition congruence.
    + cbn [banks] in H. unfold set_data, upd in H. destruct (Nat.eqb_spec b x) as [->|]; [eauto|exfalso; intuition congruence].
    + cbn [banks] in H. exfalso; eapply U; [| |exact H]; reflexivity.
    + exfalso; intuition congruence.
    + exfalso; intuition congruence.
  - exfalso. unfold step3, set3 in H. cbn zeta in H. destruct (p3 s) as [i|i|i|i|x|x| |];
      repeat match type of H with context[if ?c then _ else _] => destruct c end;
      try (destruct (data (banks s x))); cbn [banks] in H;
      try (eapply U; [| |exact H]; reflexivity); intuition congruence.
Qed.

Lemma merged_processed s k : Inv s -> k < cnt3 s -> procd s k.
Proof.
  intros HI Hk. pose proof HI as [J1 J2 J2d J3 JB JE JD JF JC JG1 JG2 JG3 JJ JJ2].
  destruct (JG3 k) as [A|(i & Hi & Ni & Z)]; [lia|exact A|]. exfalso.
  pose proof (JB i Hi) as JBi. destruct Z as [Z|[Z|(w & Hw & Z)]].
  - rewrite Z in JBi. lia.
  - unfold inv1 in J1. rewrite Z in J1. lia.
  - specialize (J2 w Hw). rewrite Z in J2. destruct J2 as (_ & E & _). rewrite E in JBi. lia.
Qed.

Lemma processed_perm s : Inv s -> cnt3 s = K ->
  Permutation (processed s) (map (fun k => (k, page k)) (seq 0 K)).
Proof.
  intros HI E. apply NoDup_Permutation.
  - apply NoDup_pairs. apply (iG1 _ _ _ _ _ _ HI).
  - apply NoDup_pairs. rewrite map_map. cbn [fst]. rewrite map_id. apply seq_NoDup.
  - intros [k p]. split.
    + intros H. pose proof (iG2 _ _ _ _ _ _ HI k p H) as [-> Hk]. pose proof (iC _ _ _ _ _ _ HI).
      apply in_map_iff. exists k. split; [reflexivity|]. apply in_seq. lia.
    + intros H. apply in_map_iff in H as (k' & Eq & Hk). injection Eq as -> <-. apply in_seq in Hk.
      assert (procd s k) as Q by (apply merged_processed; [exact HI|lia]).
      apply in_map_iff in Q as ([k'' p] & Ek & Hin). cbn in Ek. subst k''.
      pose proof (iG2 _ _ _ _ _ _ HI k p Hin) as [-> _]. exact Hin.
Qed.

Lemma sem_bound s : Inv s -> sem s <= n.
Proof.
  intros HI. pose proof (iJ _ _ _ _ _ _ HI) as J. pose proof (count_le (isS1U s) n).
  pose proof (i1 _ _ _ _ _ _ HI) as J1. unfold inv1 in J1. destruct (p1 s); lia.
Qed.

Lemma final_stable t sp s : final W s -> step t sp s = s.
Proof.
  intros (A & B & C). destruct t as [|w|]; cbn [Protocol.step].
  - unfold step1. rewrite A. reflexivity.
  - destruct (w <? W) eqn:Hw; [|reflexivity]. apply Nat.ltb_lt in Hw. unfold step2. rewrite (B w Hw). reflexivity.
  - unfold step3. rewrite C. reflexivity.
Qed.

Lemma zero_banks_stuck sched : n = 0 ->
  let s := run n W K page red sched init in (p1 s = Reset 0 \/ p1 s = Acq 0).
Proof.
  intros -> . cbn zeta. unfold run.
  assert (H : forall s : state, p1 s = Reset 0 \/ p1 s = Acq 0 ->
    p1 (fold_left (fun s l => Protocol.step 0 W K page red (fst l) (snd l) s) sched s) = Reset 0 \/
    p1 (fold_left (fun s l => Protocol.step 0 W K page red (fst l) (snd l) s) sched s) = Acq 0).
  { induction sched as [|[t sp] l IH]; intros s H; [exact H|]. cbn [fold_left]. apply IH. cbn [fst snd].
    destruct t as [|w|]; cbn [Protocol.step].
    - unfold step1. destruct H as [-> | ->]; cbn; auto.
    - destruct (w <? W); [|exact H]. unfold step2, set2. destruct (p2 s w); cbn; auto.
      + destruct (sem s); auto.
      + destruct (data (banks s b)); auto.
    - unfold step3, set3. destruct (p3 s); cbn; auto.
      + destruct (bst_eqb _ _); auto.
      + destruct (_ =? _); auto.
      + destruct (data _); auto. }
  apply H. left. reflexivity.
Qed.
End F.
