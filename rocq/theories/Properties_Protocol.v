(** * Properties C22-C25: the bank protocol under every schedule *)
From Coq Require Import List Arith Bool Lia Permutation NArith ZArith.
From Verif Require Import Marker Reduction TreeSpec Writer Protocol ProtocolInv ProtocolLive ProtocolFacts PipelineProofs.
Import ListNotations.
Local Open Scope nat_scope.

(** C22: in every reachable state a bank has at most one owner, and the owner's stage is
    the one the bank's state word says. *)
Theorem C22_exclusive_ownership : forall (P R : Type) n W K (page : nat -> P) (red : P -> R) s t t' b,
  1 <= K -> reachable n W K page red s ->
  owns W t b s -> owns W t' b s -> t = t'.
Proof.
  intros P R n W K page red s t t' b HK HR. apply (owner_unique n W K page red).
  apply reachable_inv; assumption.
Qed.
Print Assumptions C22_exclusive_ownership.
Theorem C22_owner_state : forall (P R : Type) n W K (page : nat -> P) (red : P -> R) s t b,
  1 <= K -> reachable n W K page red s -> owns W t b s ->
  b < n /\ st (banks s b) = match t with T1 => S1L | T2 _ => S2L | T3 => S3L end.
Proof.
  intros P R n W K page red s t b HK HR. apply (owns_state n W K page red). apply reachable_inv; assumption.
Qed.
Print Assumptions C22_owner_state.
(** Whoever changes a bank's contents or number owns it at that moment ... *)
Theorem C22_only_owner_writes : forall (P R : Type) n W K (page : nat -> P) (red : P -> R) s t sp b,
  1 <= K -> reachable n W K page red s ->
  num (banks (step n W K page red t sp s) b) <> num (banks s b) \/
  data (banks (step n W K page red t sp s) b) <> data (banks s b) ->
  owns W t b s.
Proof.
  intros P R n W K page red s t sp b HK HR. apply access_owner. apply reachable_inv; assumption.
Qed.
Print Assumptions C22_only_owner_writes.
(** ... the merger inspects the number of a bank, and locks it, only while the bank is in
    state Stage2_Unlocked, i.e. has no owner ... *)
Theorem C22_merger_inspects_unowned : forall (P R : Type) n W K (page : nat -> P) (red : P -> R) s i,
  1 <= K -> reachable n W K page red s -> p3 s = Num3 i \/ p3 s = Lock3 i ->
  st (banks s i) = S2U /\ forall t, ~ owns W t i s.
Proof.
  intros P R n W K page red s i HK HR H3. assert (HI := reachable_inv n W K page red HK s HR).
  assert (E : st (banks s i) = S2U).
  { pose proof (i3 _ _ _ _ _ _ HI) as J. unfold inv3 in J. destruct H3 as [E|E]; rewrite E in J; tauto. }
  split; [exact E|]. intros t O. destruct (owns_state n W K page red s t i HI O) as [_ X]. rewrite E in X. destruct t; discriminate.
Qed.
Print Assumptions C22_merger_inspects_unowned.
(** ... and no stage ever finds in a bank anything but what the previous stage put there. *)
Theorem C22_no_garbage_read : forall (P R : Type) n W K (page : nat -> P) (red : P -> R) s,
  1 <= K -> reachable n W K page red s ->
  p3 s <> Err3 /\ forall w, w < W -> p2 s w <> Err2.
Proof.
  intros P R n W K page red s HK HR. apply (no_error n W K page red). apply reachable_inv; assumption.
Qed.
Print Assumptions C22_no_garbage_read.

(** C23: at any moment the merger has merged exactly the reductions of pages 0..m-1 in
    order; every one of them was reduced by stage 2; stage 2 has reduced no page twice. *)
Theorem C23_in_order : forall (P R : Type) n W K (page : nat -> P) (red : P -> R) s,
  1 <= K -> reachable n W K page red s ->
  exists m, m <= K /\ rev (merged s) = map (fun k => red (page k)) (seq 0 m) /\
    (forall k, k < m -> In (k, page k) (processed s)) /\
    NoDup (map fst (processed s)) /\
    (forall k p, In (k, p) (processed s) -> p = page k /\ k < K).
Proof.
  intros P R n W K page red s HK HR. assert (HI := reachable_inv n W K page red HK s HR).
  pose proof (iC _ _ _ _ _ _ HI) as JC.
  exists (mcount s). repeat split.
  - unfold mcount. destruct (p3 s); lia.
  - rewrite (iF _ _ _ _ _ _ HI), rev_involutive. reflexivity.
  - intros k Hk. assert (Q : procd s k).
    { apply (merged_processed n W K page red HK); [exact HI|]. unfold mcount in Hk. destruct (p3 s); lia. }
    apply in_map_iff in Q as ([k' p] & E & Hin). cbn in E. subst k'.
    pose proof (iG2 _ _ _ _ _ _ HI k p Hin) as [-> _]. exact Hin.
  - apply (iG1 _ _ _ _ _ _ HI).
  - apply (iG2 _ _ _ _ _ _ HI) in H. tauto.
  - apply (iG2 _ _ _ _ _ _ HI) in H. lia.
Qed.
Print Assumptions C23_in_order.
(** When the merger returns, it has merged every page, each reduced exactly once. *)
Theorem C23_complete : forall (P R : Type) n W K (page : nat -> P) (red : P -> R) s,
  1 <= K -> reachable n W K page red s -> p3 s = End3 ->
  rev (merged s) = map (fun k => red (page k)) (seq 0 K) /\
  Permutation (processed s) (map (fun k => (k, page k)) (seq 0 K)).
Proof.
  intros P R n W K page red s HK HR E. assert (HI := reachable_inv n W K page red HK s HR).
  destruct (end3_complete n W K page red HK s HI E) as [EM _]. split; [rewrite EM; apply rev_involutive|].
  apply processed_perm with (n := n) (W := W) (red := red); [exact HK|exact HI|].
  pose proof (i3 _ _ _ _ _ _ HI) as J. unfold inv3 in J. rewrite E in J. apply (exiting_cnt n W K page red HK s HI J).
Qed.
Print Assumptions C23_complete.

(** C24: with at least one worker and at least as many banks as workers (Context::parse
    uses twice as many), every fair schedule (each thread is scheduled again and again,
    compare-exchange does not fail spuriously, as on x86) drives the pipeline to the state
    in which everybody has returned, and there it stays. *)
Theorem C24_terminates : forall (P R : Type) n W K (page : nat -> P) (red : P -> R) (sched : nat -> thread),
  1 <= K -> 1 <= W -> W <= n ->
  (forall t, match t with T2 w => w < W | _ => True end -> forall i, exists j, i <= j /\ sched j = t) ->
  exists N, forall M, N <= M -> final W (trace n W K page red sched init M).
Proof.
  intros P R n W K page red sched HK HW Hn Hf.
  destruct (terminates n W K page red HK HW Hn sched Hf init (inv_init n W K page red HK)) as [N HF].
  exists N. intros M HM. induction HM as [|M HM IH]; [exact HF|].
  cbn [trace]. rewrite final_stable; exact IH.
Qed.
Print Assumptions C24_terminates.
(** Whatever has happened before (including spurious failures), termination is still
    reached from there. *)
Theorem C24_terminates_from_reachable : forall (P R : Type) n W K (page : nat -> P) (red : P -> R) (sched : nat -> thread) s,
  1 <= K -> 1 <= W -> W <= n -> reachable n W K page red s ->
  (forall t, match t with T2 w => w < W | _ => True end -> forall i, exists j, i <= j /\ sched j = t) ->
  exists N, final W (trace n W K page red sched s N).
Proof.
  intros P R n W K page red sched s HK HW Hn HR Hf.
  apply (terminates n W K page red HK HW Hn sched Hf s). apply reachable_inv; assumption.
Qed.
Print Assumptions C24_terminates_from_reachable.
(** The semaphore never exceeds the bank number (its maximum in the Windows build). *)
Theorem C24_semaphore_bounded : forall (P R : Type) n W K (page : nat -> P) (red : P -> R) s,
  1 <= K -> reachable n W K page red s -> sem s <= n.
Proof.
  intros P R n W K page red s HK HR. apply (sem_bound n W K page red HK). apply reachable_inv; assumption.
Qed.
Print Assumptions C24_semaphore_bounded.
(** A round-robin schedule is fair; e.g. two workers, three banks. *)
Example C24_hyp : forall t, match t with T2 w => w < 2 | _ => True end ->
  forall i, exists j, i <= j /\ (fun k => match k mod 4 with 0 => T1 | 1 => T2 0 | 2 => T2 1 | _ => T3 end) j = t.
Proof.
  assert (H : forall r i, r < 4 -> exists j, i <= j /\ j mod 4 = r).
  { intros r i Hr. exists (r + i * 4). split; [lia|]. rewrite Nat.mod_add by lia. apply Nat.mod_small. exact Hr. }
  intros [|[|[|w]]|] Hw i; try lia.
  - destruct (H 0 i) as (j & Hj & E); [lia|]. exists j. rewrite E. auto.
  - destruct (H 1 i) as (j & Hj & E); [lia|]. exists j. rewrite E. auto.
  - destruct (H 2 i) as (j & Hj & E); [lia|]. exists j. rewrite E. auto.
  - destruct (H 3 i) as (j & Hj & E); [lia|]. exists j. rewrite E. auto.
Qed.
Example C22_C23_hyp :
  let sched := flat_map (fun _ => [(T1, false); (T2 0, false); (T2 1, false); (T3, false)]) (seq 0 60) in
  let s := run 3 2 4 (fun k => k) (fun p => 10 * p) sched init in
  rev (merged s) = [0; 10; 20; 30] /\ p1 s = End1 /\ p3 s = End3.
Proof. vm_compute. repeat split; reflexivity. Qed.
(** More workers than banks: a run that everybody has finished except one worker, which
    waits for ever on the semaphore. *)
Theorem C24_too_many_workers_refuted : exists (n W K : nat) (page : nat -> nat) (red : nat -> nat) s,
  n < W /\ 1 <= n /\ reachable n W K page red s /\ ~ final W s /\
  forall t sp, step n W K page red t sp s = s.
Proof.
  set (sched := repeat (T1, false) 8 ++ repeat (T2 0, false) 5 ++ repeat (T3, false) 5 ++
                repeat (T1, false) 6 ++ repeat (T2 0, false) 2 ++ repeat (T3, false) 3).
  exists 1, 2, 1, (fun k => k), (fun p => p), (run 1 2 1 (fun k => k) (fun p => p) sched init).
  split; [lia|]. split; [lia|]. split; [exists sched; reflexivity|].
  assert (E1 : p1 (run 1 2 1 (fun k => k) (fun p => p) sched init) = End1) by (vm_compute; reflexivity).
  assert (E2 : p2 (run 1 2 1 (fun k => k) (fun p => p) sched init) 0 = End2) by (vm_compute; reflexivity).
  assert (E2' : p2 (run 1 2 1 (fun k => k) (fun p => p) sched init) 1 = Wait) by (vm_compute; reflexivity).
  assert (E3 : p3 (run 1 2 1 (fun k => k) (fun p => p) sched init) = End3) by (vm_compute; reflexivity).
  assert (Es : sem (run 1 2 1 (fun k => k) (fun p => p) sched init) = 0) by (vm_compute; reflexivity).
  revert E1 E2 E2' E3 Es. generalize (run 1 2 1 (fun k : nat => k) (fun p : nat => p) sched init). intros s E1 E2 E2' E3 Es.
  split.
  - intros (_ & H & _). specialize (H 1 ltac:(lia)). congruence.
  - intros [|[|[|w]]|] sp; cbn [step].
    + unfold step1. rewrite E1. reflexivity.
    + change (0 <? 2) with true. unfold step2. rewrite E2. reflexivity.
    + change (1 <? 2) with true. unfold step2. rewrite E2', Es. reflexivity.
    + reflexivity.
    + unfold step3. rewrite E3. reflexivity.
Qed.
Print Assumptions C24_too_many_workers_refuted.
(** Context::parse with worker_num = 0 (no banks) never returns. *)
Theorem C24_zero_workers_refuted : forall (P R : Type) K (page : nat -> P) (red : P -> R) s,
  reachable 0 0 K page red s -> ~ final 0 s.
Proof.
  intros P R K page red s [sched ->] (H & _).
  destruct (zero_banks_stuck 0 0 K page red sched eq_refl) as [E|E]; cbn zeta in E; congruence.
Qed.
Print Assumptions C24_zero_workers_refuted.

(** C25: for every tree, page size, number of workers and banks (1 <= workers <= banks),
    stale memory and fair schedule, the run finishes, every page is reduced exactly once,
    and stage 3's value and the multiset of all callback invocations are those of the
    sequential evaluation (under the C20 assumption on back() of an empty vector). *)
Theorem C25_any_schedule_partial : forall f t B stale n W (sched : nat -> thread),
  tree_ok t -> 1 <= B -> (forall k, length (stale k) = B) -> 1 <= W -> W <= n ->
  (forall th, match th with T2 w => w < W | _ => True end -> forall i, exists j, i <= j /\ sched j = th) ->
  exists banks, write_accept B B stale (stream t) = Ok banks /\
  exists N chunks,
    let s := trace n W (length banks) (fun k => nth k banks []) (reduce_bank f (Some 0%Z)) sched init N in
    final W s /\
    rev (merged s) = map Ok chunks /\
    Permutation (map snd (processed s)) banks /\
    exists s3, stage3 f (Some 0%Z) chunks = Ok (eval f t, s3) /\
      Permutation (concat (map (fun c => rev (log c)) chunks) ++ rev (log s3)) (calls f t).
Proof. exact pipeline. Qed.
Print Assumptions C25_any_schedule_partial.
Example C25_hyp : tree_ok (Node 1 0 9 [Node 2 0 3 []; Node 2 4 9 []]) /\
  write_accept 4 4 (fun _ => [7;7;7;7]%N) (stream (Node 1 0 9 [Node 2 0 3 []; Node 2 4 9 []])) =
  Ok [firstn 4 (stream (Node 1 0 9 [Node 2 0 3 []; Node 2 4 9 []])); skipn 4 (stream (Node 1 0 9 [Node 2 0 3 []; Node 2 4 9 []])) ++ [0;0]%N].
Proof. split; [repeat split; vm_compute; congruence|vm_compute; reflexivity]. Qed.
