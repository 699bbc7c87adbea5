(** * Model of a parse without workers: Stage1Runner alone, with its options is_dry and
    is_result_captured (src/core/Stage1Runner.hpp).  One transition = one access to the banks or
    the semaphore; nobody else has the banks.  The parse asks for K pages in all (none if the
    parser writes no output, DryParserEM64T::operator(), CodeGenEM64T.hpp:104-109). *)
From Coq Require Import List Arith Bool Lia NArith.
From Verif Require Import Protocol.
Import ListNotations.
Local Open Scope nat_scope.

Section D.
Context {A : Type}.
Variables (dry cap : bool) (n K : nat) (pages : nat -> A).
(** Whether the compare-exchange number k (counted from the start) fails without cause. *)
Variable sp : nat -> bool.

Record dstate := mkD {
  dst : nat -> bst; dnum : nat -> nat; dmem : nat -> option A;
  dsem : nat; dpc : pc1; dcnt : nat; dtries : nat;
  dchunks : list A }.                          (* result_chunks_, newest first *)
Definition dgo (s : dstate) (p : pc1) : dstate := mkD (dst s) (dnum s) (dmem s) (dsem s) p (dcnt s) (dtries s) (dchunks s).
(** Stage1Runner.hpp: thread_runner_impl 23-33, acquire_bank 34-46, release_bank 47-65 (the copy
    51-53, the number 56, the state 57-61), reset_banks 66-72, signal_exit 73-89.  As [step1] in
    Protocol.v; [RelNum] here also makes the copy. *)
Definition dstep (s : dstate) : dstate :=
  match dpc s with
  | Reset i => if i <? n then mkD (upd (dst s) i Free) (dnum s) (dmem s) (dsem s) (Reset (S i)) (dcnt s) (dtries s) (dchunks s)
               else dgo s (if 0 <? K then Acq 0 else ExScan 0 0)
  | Acq i => if i <? n then
               if bst_eqb (dst s i) Free && negb (sp (dtries s))
               then mkD (upd (dst s) i S1L) (dnum s) (dmem s) (dsem s) (Fill i) (dcnt s) (S (dtries s)) (dchunks s)
               else mkD (dst s) (dnum s) (dmem s) (dsem s) (Acq (S i)) (dcnt s) (S (dtries s)) (dchunks s)
             else dgo s (Acq 0)
  | Fill b => mkD (dst s) (dnum s) (upd (dmem s) b None) (dsem s) (Fill2 b) (dcnt s) (dtries s) (dchunks s)
  | Fill2 b => mkD (dst s) (dnum s) (upd (dmem s) b (Some (pages (dcnt s)))) (dsem s) (RelNum b) (dcnt s) (dtries s) (dchunks s)
  | RelNum b => mkD (dst s) (upd (dnum s) b (dcnt s)) (dmem s) (dsem s) (RelSt b) (S (dcnt s)) (dtries s)
                  (if cap then match dmem s b with Some x => x :: dchunks s | None => dchunks s end else dchunks s)
  | RelSt b => mkD (upd (dst s) b (if dry then Free else S1U)) (dnum s) (dmem s) (dsem s) Post (dcnt s) (dtries s) (dchunks s)
  | Post => mkD (dst s) (dnum s) (dmem s) (S (dsem s)) (if dcnt s <? K then Acq 0 else ExScan 0 0) (dcnt s) (dtries s) (dchunks s)
  | ExScan i c => if i <? n then dgo s (ExScan (S i) (if bst_eqb (dst s i) Free then c else S c))
                  else dgo s (if c =? 0 then ExSt 0 else ExScan 0 0)
  | ExSt i => if i <? n then mkD (upd (dst s) i Done) (dnum s) (dmem s) (dsem s) (ExPost i) (dcnt s) (dtries s) (dchunks s)
              else dgo s End1
  | ExPost i => mkD (dst s) (dnum s) (dmem s) (S (dsem s)) (ExSt (S i)) (dcnt s) (dtries s) (dchunks s)
  | End1 => s
  end.
Fixpoint drun (k : nat) (s : dstate) : dstate := match k with O => s | S k' => drun k' (dstep s) end.
(** After the constructor: m_counter = 0, no chunk; banks and memory as they come. *)
Definition dinit (st0 : nat -> bst) (num0 : nat -> nat) (mem0 : nat -> option A) (sem0 : nat) : dstate := mkD st0 num0 mem0 sem0 (Reset 0) 0 0 [].

(** ** Proofs *)
Lemma drun_add j k s : drun (j + k) s = drun k (drun j s).
Proof. revert s. induction j as [|j IH]; intros s; [reflexivity|]. cbn. apply IH. Qed.
Definition reaches (s s' : dstate) : Prop := exists k, drun k s = s'.
Lemma reaches_trans a b c : reaches a b -> reaches b c -> reaches a c.
Proof. intros [j <-] [k <-]. exists (j + k). apply drun_add. Qed.
Lemma reaches_step s s' : reaches (dstep s) s' -> reaches s s'.
Proof. intros [k <-]. exists (S k). reflexivity. Qed.
Lemma reaches_refl s : reaches s s. Proof. exists 0. reflexivity. Qed.

Definition all_free (s : dstate) : Prop := forall i, i < n -> dst s i = Free.
Lemma reset_run s i : dpc s = Reset i -> i <= n -> (forall j, j < i -> dst s j = Free) ->
  exists s', reaches s s' /\ all_free s' /\ dpc s' = (if 0 <? K then Acq 0 else ExScan 0 0) /\ dsem s' = dsem s /\ dcnt s' = dcnt s /\ dchunks s' = dchunks s.
Proof.
  remember (n - i) as d eqn:ED. revert s i ED. induction d as [|d IH]; intros s i ED HP HI HF.
  - assert (i = n) by lia. subst i. exists (dstep s). split; [exists 1; reflexivity|]. unfold dstep. rewrite HP. replace (n <? n) with false by (symmetry; apply Nat.ltb_ge; lia). cbn. repeat split; auto.
  - assert (E : dstep s = mkD (upd (dst s) i Free) (dnum s) (dmem s) (dsem s) (Reset (S i)) (dcnt s) (dtries s) (dchunks s)).
    { unfold dstep. rewrite HP. replace (i <? n) with true by (symmetry; apply Nat.ltb_lt; lia). reflexivity. }
    destruct (IH (dstep s) (S i)) as (s' & R & H); [lia|rewrite E; reflexivity|lia| |].
    + intros j Hj. rewrite E. cbn. unfold upd. destruct (j =? i) eqn:EJ; [reflexivity|]. apply HF. apply Nat.eqb_neq in EJ. lia.
    + exists s'. split; [apply reaches_step; exact R|]. rewrite E in H. exact H.
Qed.
Lemma scan_run : forall d s i, dpc s = ExScan i 0 -> i + d = n -> all_free s ->
  exists s', reaches s s' /\ dpc s' = ExSt 0 /\ dsem s' = dsem s /\ dcnt s' = dcnt s /\ dchunks s' = dchunks s.
Proof.
  induction d as [|d IH]; intros s i HP HI HF.
  - exists (dgo s (ExSt 0)). split; [|auto]. apply reaches_step. unfold dstep. rewrite HP. replace (i <? n) with false by (symmetry; apply Nat.ltb_ge; lia). apply reaches_refl.
  - assert (E : dstep s = dgo s (ExScan (S i) 0)). { unfold dstep. rewrite HP. rewrite (HF i) by lia. replace (i <? n) with true by (symmetry; apply Nat.ltb_lt; lia). reflexivity. }
    destruct (IH (dgo s (ExScan (S i) 0)) (S i) eq_refl ltac:(lia) HF) as (s' & R & H). exists s'. split; [apply reaches_step; rewrite E; exact R|exact H].
Qed.
Lemma done_run : forall d s i, dpc s = ExSt i -> i + d = n -> (forall j, j < i -> dst s j = Done) ->
  exists s', reaches s s' /\ dpc s' = End1 /\ (forall j, j < n -> dst s' j = Done) /\ dsem s' = dsem s + d /\ dcnt s' = dcnt s /\ dchunks s' = dchunks s.
Proof.
  induction d as [|d IH]; intros s i HP HI HF.
  - exists (dgo s End1). split; [apply reaches_step; unfold dstep; rewrite HP; replace (i <? n) with false by (symmetry; apply Nat.ltb_ge; lia); apply reaches_refl|].
    cbn. split; [reflexivity|]. split; [intros j Hj; apply HF; lia|]. split; [lia|]. auto.
  - set (s1 := mkD (upd (dst s) i Done) (dnum s) (dmem s) (S (dsem s)) (ExSt (S i)) (dcnt s) (dtries s) (dchunks s)).
    assert (R : reaches s s1). { exists 2. cbn. unfold dstep at 2. rewrite HP. replace (i <? n) with true by (symmetry; apply Nat.ltb_lt; lia). reflexivity. }
    destruct (IH s1 (S i) eq_refl ltac:(lia)) as (s' & R' & H1 & H2 & H3 & H4 & H5).
    + intros j Hj. cbn. unfold upd. destruct (j =? i) eqn:EJ; [reflexivity|]. apply HF. apply Nat.eqb_neq in EJ. lia.
    + exists s'. split; [eapply reaches_trans; eauto|]. split; [exact H1|]. split; [exact H2|]. split; [cbn in H3; lia|]. auto.
Qed.
(** Taking a page, filling it, giving it back. *)
Hypothesis Hn : 1 <= n.
Hypothesis fair : forall k, exists j, k <= j /\ sp j = false.
Lemma acq_run : forall d s i, dpc s = Acq i -> (exists j, dtries s + d = j /\ sp j = false /\ forall k, dtries s <= k < j -> sp k = true) -> all_free s ->
  exists s' b, reaches s s' /\ b < n /\ dpc s' = Fill b /\ dst s' = upd (dst s) b S1L /\ dnum s' = dnum s /\ dmem s' = dmem s /\ dsem s' = dsem s /\ dcnt s' = dcnt s /\ dchunks s' = dchunks s.
Proof.
  induction d as [|d IH]; intros s i HP HJ HF.
  - destruct HJ as (j & EJ & SJ & _). rewrite Nat.add_0_r in EJ. subst j.
    assert (Q : forall s i, dpc s = Acq i -> i < n -> all_free s -> sp (dtries s) = false ->
      dstep s = mkD (upd (dst s) i S1L) (dnum s) (dmem s) (dsem s) (Fill i) (dcnt s) (S (dtries s)) (dchunks s)).
    { intros t k E1 E2 E3 E4. unfold dstep. rewrite E1, E4, (E3 k E2). replace (k <? n) with true by (symmetry; apply Nat.ltb_lt; lia). reflexivity. }
    destruct (Nat.lt_ge_cases i n) as [L|L].
    + exists (dstep s), i. split; [exists 1; reflexivity|]. rewrite (Q s i HP L HF SJ). cbn. auto 10.
    + assert (E : dstep s = dgo s (Acq 0)). { unfold dstep. rewrite HP. replace (i <? n) with false by (symmetry; apply Nat.ltb_ge; lia). reflexivity. }
      exists (dstep (dgo s (Acq 0))), 0. split; [exists 2; cbn; rewrite E; reflexivity|]. rewrite (Q (dgo s (Acq 0)) 0 eq_refl ltac:(lia) HF SJ). cbn. auto 10.
  - destruct HJ as (j & EJ & SJ & MJ). assert (ST : sp (dtries s) = true) by (apply MJ; lia).
    assert (Q : forall t k, dpc t = Acq k -> k < n -> dtries t = dtries s -> dstep t = mkD (dst t) (dnum t) (dmem t) (dsem t) (Acq (S k)) (dcnt t) (S (dtries t)) (dchunks t)).
    { intros t k E1 E2 E4. unfold dstep. rewrite E1, E4, ST. replace (k <? n) with true by (symmetry; apply Nat.ltb_lt; lia). rewrite andb_false_r. reflexivity. }
    destruct (Nat.lt_ge_cases i n) as [L|L].
    + destruct (IH (dstep s) (S i)) as (s' & b & R & H).
      * rewrite (Q s i HP L eq_refl). reflexivity.
      * rewrite (Q s i HP L eq_refl). cbn. exists j. split; [lia|]. split; [exact SJ|]. intros k Hk. apply MJ. lia.
      * rewrite (Q s i HP L eq_refl). exact HF.
      * exists s', b. split; [apply reaches_step; exact R|]. rewrite (Q s i HP L eq_refl) in H. exact H.
    + assert (E : dstep s = dgo s (Acq 0)). { unfold dstep. rewrite HP. replace (i <? n) with false by (symmetry; apply Nat.ltb_ge; lia). reflexivity. }
      pose proof (Q (dgo s (Acq 0)) 0 eq_refl ltac:(lia) eq_refl) as E2.
      destruct (IH (dstep (dgo s (Acq 0))) 1) as (s' & b & R & H).
      * rewrite E2. reflexivity.
      * rewrite E2. cbn. exists j. split; [lia|]. split; [exact SJ|]. intros k Hk. apply MJ. lia.
      * rewrite E2. exact HF.
      * exists s', b. split; [apply reaches_step; rewrite E; apply reaches_step; exact R|]. rewrite E2 in H. exact H.
Qed.
Lemma first_false k : exists d, sp (k + d) = false /\ forall i, k <= i < k + d -> sp i = true.
Proof.
  destruct (fair k) as (j & L & E). remember (j - k) as m eqn:EM. revert k L EM. induction m as [|m IH]; intros k L EM.
  - exists 0. replace (k + 0) with j by lia. split; [exact E|]. intros; lia.
  - destruct (sp k) eqn:EK; [|exists 0; rewrite Nat.add_0_r; split; [exact EK|intros; lia]].
    destruct (IH (S k)) as (d & D1 & D2); [lia|lia|]. exists (S d). replace (k + S d) with (S k + d) by lia. split; [exact D1|].
    intros i Hi. destruct (Nat.eq_dec i k) as [->|NE]; [exact EK|]. apply D2. lia.
Qed.
Hypothesis HD : dry = true.
Lemma page_run s i : dpc s = Acq i -> all_free s ->
  exists s', reaches s s' /\ all_free s' /\ dpc s' = (if S (dcnt s) <? K then Acq 0 else ExScan 0 0) /\ dsem s' = S (dsem s) /\ dcnt s' = S (dcnt s) /\ dchunks s' = (if cap then pages (dcnt s) :: dchunks s else dchunks s).
Proof.
  intros HP HF. destruct (first_false (dtries s)) as (d & D1 & D2).
  destruct (acq_run d s i HP ltac:(eauto) HF) as (s1 & b & R1 & Hb & P1 & E1 & E2 & E3 & E4 & E5 & E6).
  exists (drun 5 s1). split; [eapply reaches_trans; [exact R1|exists 5; reflexivity]|].
  destruct s1 as [st1 num1 mem1 sem1 pc1 cnt1 tr1 ch1]. cbn [dst dnum dmem dsem dpc dcnt dtries dchunks] in *. subst pc1 st1 num1 mem1 sem1 cnt1 ch1.
  cbn. rewrite HD. assert (U : forall (f : nat -> option A) x, upd f b x b = x) by (intros f x; unfold upd; rewrite Nat.eqb_refl; reflexivity). rewrite !U.
  split; [|repeat split; auto]. intros j Hj. cbn. unfold upd. destruct (j =? b) eqn:EJ; [reflexivity|]. apply HF, Hj.
Qed.
Lemma pages_run : forall d s i, dpc s = Acq i -> all_free s -> dcnt s + S d = K ->
  exists s', reaches s s' /\ all_free s' /\ dpc s' = ExScan 0 0 /\ dsem s' = dsem s + S d /\ dcnt s' = K /\ dchunks s' = (if cap then rev (map pages (seq (dcnt s) (S d))) ++ dchunks s else dchunks s).
Proof.
  induction d as [|d IH]; intros s i HP HF HC; destruct (page_run s i HP HF) as (s1 & R1 & F1 & P1 & S1 & C1 & H1).
  - exists s1. split; [exact R1|]. split; [exact F1|]. rewrite P1. replace (S (dcnt s) <? K) with false by (symmetry; apply Nat.ltb_ge; lia). split; [reflexivity|]. split; [lia|]. split; [lia|]. rewrite H1. destruct cap; reflexivity.
  - replace (S (dcnt s) <? K) with true in P1 by (symmetry; apply Nat.ltb_lt; lia).
    destruct (IH s1 0 P1 F1 ltac:(lia)) as (s2 & R2 & F2 & P2 & S2 & C2 & H2). exists s2. split; [eapply reaches_trans; eauto|]. split; [exact F2|]. split; [exact P2|]. split; [lia|]. split; [exact C2|].
    rewrite H2, H1, C1. destruct cap; [|reflexivity]. cbn [seq map rev]. rewrite <- !app_assoc. reflexivity.
Qed.
Theorem dry_ends st0 num0 mem0 sem0 : exists k, let s := drun k (dinit st0 num0 mem0 sem0) in
  dpc s = End1 /\ (forall j, j < n -> dst s j = Done) /\ dcnt s = K /\ dsem s = sem0 + K + n /\ rev (dchunks s) = (if cap then map pages (seq 0 K) else []).
Proof.
  destruct (reset_run (dinit st0 num0 mem0 sem0) 0 eq_refl ltac:(lia) ltac:(intros; lia)) as (s1 & R1 & F1 & P1 & S1 & C1 & H1). cbn [dinit dsem dcnt dchunks] in *.
  assert (G : exists s2, reaches s1 s2 /\ all_free s2 /\ dpc s2 = ExScan 0 0 /\ dsem s2 = sem0 + K /\ dcnt s2 = K /\ rev (dchunks s2) = (if cap then map pages (seq 0 K) else [])).
  { destruct K as [|d] eqn:EK.
    - exists s1. split; [apply reaches_refl|]. split; [exact F1|]. split; [exact P1|]. split; [lia|]. split; [exact C1|]. rewrite H1. destruct cap; reflexivity.
    - cbn [Nat.ltb Nat.leb] in P1. rewrite <- EK in *. destruct (pages_run d s1 0 P1 F1 ltac:(lia)) as (s2 & R2 & F2 & P2 & S2 & C2 & H2). exists s2. split; [exact R2|]. split; [exact F2|]. split; [exact P2|]. split; [lia|]. split; [exact C2|].
      rewrite H2, H1, C1, EK. destruct cap; [|reflexivity]. rewrite app_nil_r, rev_involutive. reflexivity. }
  destruct G as (s2 & R2 & F2 & P2 & S2 & C2 & H2). destruct (scan_run n s2 0 P2 eq_refl F2) as (s3 & R3 & P3 & S3 & C3 & H3).
  destruct (done_run n s3 0 P3 eq_refl ltac:(intros; lia)) as (s4 & R4 & P4 & D4 & S4 & C4 & H4).
  destruct (reaches_trans _ _ _ R1 (reaches_trans _ _ _ R2 (reaches_trans _ _ _ R3 R4))) as [k E]. exists k. cbn zeta. rewrite E. split; [exact P4|]. split; [exact D4|]. split; [lia|]. split; [lia|]. congruence.
Qed.
End D.

(** Without is_dry and without workers the call never ends. *)
Section Stuck.
Context {A : Type}.
Variables (cap : bool) (n K : nat) (pages : nat -> A) (sp : nat -> bool).
Hypothesis HK : 1 <= K.
Definition waiting (s : dstate (A:=A)) : Prop := exists b, b < n /\ dst s b = S1U.
Definition stuck_inv (s : dstate (A:=A)) : Prop :=
  match dpc s with
  | Reset _ => dcnt s = 0
  | Acq _ => dcnt s = 0 \/ waiting s
  | Fill b | Fill2 b | RelNum b => b < n /\ (dcnt s = 0 \/ waiting s)
  | RelSt b => b < n
  | Post => waiting s
  | ExScan i c => exists b, b < n /\ dst s b = S1U /\ (b < i -> 0 < c)
  | ExSt _ | ExPost _ | End1 => False
  end.
Lemma stuck_step s : stuck_inv s -> stuck_inv (dstep false cap n K pages sp s).
Proof.
  intros H. unfold stuck_inv in H. unfold dstep. destruct (dpc s) as [i|i|b|b|b|b| |i c|i|i|] eqn:EP; try contradiction.
  - destruct (i <? n) eqn:L; [exact H|]. replace (0 <? K) with true by (symmetry; apply Nat.ltb_lt; lia). left. exact H.
  - destruct (i <? n) eqn:L; [|exact H]. destruct (bst_eqb (dst s i) Free && negb (sp (dtries s))) eqn:E; [|exact H].
    apply andb_prop in E as [E _]. apply Nat.ltb_lt in L. split; [exact L|]. destruct H as [H|(b & Hb & Hw)]; [left; exact H|right]. exists b. split; [exact Hb|]. cbn. unfold upd.
    destruct (b =? i) eqn:EB; [|exact Hw]. apply Nat.eqb_eq in EB. subst b. rewrite Hw in E. discriminate.
  - exact H.
  - exact H.
  - exact (proj1 H).
  - exists b. split; [exact H|]. cbn. unfold upd. rewrite Nat.eqb_refl. reflexivity.
  - destruct H as (b & Hb & Hw). destruct (dcnt s <? K); [right; exists b; auto|]. exists b. split; [exact Hb|]. split; [exact Hw|lia].
  - destruct H as (b & Hb & Hw & Hc). destruct (i <? n) eqn:L.
    + exists b. split; [exact Hb|]. split; [exact Hw|]. intros Hi. destruct (Nat.eq_dec b i) as [->|NE]; [rewrite Hw; cbn; lia|]. specialize (Hc ltac:(lia)). destruct (bst_eqb (dst s i) Free); lia.
    + apply Nat.ltb_ge in L. specialize (Hc ltac:(lia)). replace (c =? 0) with false by (symmetry; apply Nat.eqb_neq; lia). exists b. split; [exact Hb|]. split; [exact Hw|lia].
Qed.
Theorem never_ends st0 num0 mem0 sem0 k : dpc (drun false cap n K pages sp k (dinit st0 num0 mem0 sem0)) <> End1.
Proof.
  assert (G : forall k s, stuck_inv s -> stuck_inv (drun false cap n K pages sp k s)) by (clear k; induction k as [|k IH]; intros s H; [exact H|]; cbn; apply IH, stuck_step, H).
  specialize (G k (dinit st0 num0 mem0 sem0) eq_refl). intros E. unfold stuck_inv in G. rewrite E in G. exact G.
Qed.
End Stuck.
