(** * C44: histories of parse calls *)
From Coq Require Import List NArith Arith Bool Lia.
From Verif Require Import Resources.
Import ListNotations.
Local Open Scope nat_scope.

Lemma new2s_ok lim w : forall s m q, shm s = Some m -> sema s = Some q -> fds s + w < lim ->
  exists l s', new2s lim true w s = (l, s') /\ length l = w /\ Forall (eq (mkR true (Some m) (Some q))) l /\ shm s' = Some m /\ sema s' = Some q /\ fds s' = fds s + w /\ next s' = next s.
Proof.
  induction w as [|w IH]; intros s m q H1 H2 HL.
  - exists [], s. repeat split; auto.
  - cbn [new2s]. unfold new2, acquire_memory, open_input. rewrite (proj2 (Nat.ltb_lt (fds s) lim)) by lia. rewrite H1. cbn [andb].
    unfold open_semaphore. cbn [fds sema]. rewrite (proj2 (Nat.ltb_lt (S (fds s)) lim)) by lia.
    destruct (IH (mkOs (Some m) (sema s) (next s) (S (fds s))) m q) as (l & s' & E & L & F & A & B & C & D); [reflexivity|exact H2|cbn; lia|].
    rewrite E. eexists _, _. split; [reflexivity|]. cbn [length]. split; [lia|]. split; [constructor; [rewrite H2; reflexivity|exact F]|].
    cbn in C, D. repeat split; auto. lia.
Qed.
(** One parse with w workers, when no names are taken and enough descriptors are left: well equipped with new objects, no names
    left behind - and w+1 descriptors fewer. *)
Lemma parse_ok lim w s : shm s = None -> sema s = None -> fds s + w < lim ->
  exists r1 r2 r3 s', parse lim true w s = (r1, r2, r3, s') /\ length r2 = w /\ equipped (next s) r1 r2 r3 /\ shm s' = None /\ sema s' = None /\ fds s' = fds s + w + 1.
Proof.
  intros H1 H2 HL. unfold parse, new1, acquire_memory, open_input. rewrite (proj2 (Nat.ltb_lt (fds s) lim)) by lia. rewrite H1. cbn [andb].
  unfold create_semaphore. cbn [fds sema next]. rewrite (proj2 (Nat.ltb_lt (fds s) lim)) by lia. rewrite H2. cbn [shm].
  destruct (new2s_ok lim w (mkOs (Some (next s)) (Some (S (next s))) (S (S (next s))) (fds s)) (next s) (S (next s)) eq_refl eq_refl) as (l & s' & E & L & F & A & B & C & D); [cbn; lia|].
  rewrite E. unfold new3, acquire_memory, open_input. cbn in C. rewrite (proj2 (Nat.ltb_lt (fds s') lim)) by lia. rewrite A. cbn [andb].
  eexists _, _, _, _. split; [reflexivity|]. split; [exact L|]. split.
  - exists (next s), (S (next s)). repeat split; auto.
  - cbn [destroy1 shm sema fds]. repeat split. lia.
Qed.
(** C44, sequential parses of one process: as long as the descriptors last, each of them is as well equipped as the first. *)
Theorem C44_sequential_partial : forall lim w k s, shm s = None -> sema s = None -> fds s + k * (w + 1) <= lim ->
  forall j, j < k -> exists r1 r2 r3 s', parse lim true w (parses lim true j w s) = (r1, r2, r3, s') /\ length r2 = w /\
    equipped (next (parses lim true j w s)) r1 r2 r3 /\ shm s' = None /\ sema s' = None.
Proof.
  intros lim w k s H1 H2 HL. assert (X : forall j, j <= k -> shm (parses lim true j w s) = None /\ sema (parses lim true j w s) = None /\ fds (parses lim true j w s) = fds s + j * (w + 1)).
  { induction j as [|j IH]; intros Hj; [cbn; auto|]. destruct IH as (A & B & C); [lia|]. cbn [parses].
    destruct (parse_ok lim w _ A B) as (r1 & r2 & r3 & s' & E & _ & _ & P & Q & R); [nia|]. rewrite E. cbn [snd]. repeat split; auto. lia. }
  intros j Hj. destruct (X j) as (A & B & C); [lia|]. destruct (parse_ok lim w _ A B) as (r1 & r2 & r3 & s' & E & L & EQ & P & Q & R); [nia|].
  exists r1, r2, r3, s'. auto.
Qed.
Print Assumptions C44_sequential_partial.
(** Well equipped means that no thread works on MAP_FAILED or SEM_FAILED. *)
Theorem C44_equipped_works : forall old r1 r2 r3, equipped old r1 r2 r3 ->
  broken r1 true = false /\ Forall (fun r => broken r true = false) r2 /\ broken r3 false = false.
Proof.
  intros old r1 r2 r3 (m & q & _ & _ & -> & F & I3 & M3). split; [reflexivity|]. split.
  - eapply Forall_impl; [|exact F]. intros r <-. reflexivity.
  - unfold broken. rewrite I3, M3. reflexivity.
Qed.
Print Assumptions C44_equipped_works.
Example C44_sequential_hyp : (* 1024 descriptors, 8 workers, three standard streams *)
  let s := mkOs None None 0 3 in shm s = None /\ sema s = None /\ fds s + 113 * (8 + 1) <= 1024 /\
  parse 1024 true 2 s = (mkR true (Some 0) (Some 1), [mkR true (Some 0) (Some 1); mkR true (Some 0) (Some 1)], mkR true (Some 0) None, mkOs None None 2 6).
Proof. cbn zeta. split; [reflexivity|]. split; [reflexivity|]. split; [cbn; lia|vm_compute; reflexivity]. Qed.
(** Refuted in general: every parse keeps w+1 descriptors for ever, so whatever the limit, after finitely many successful parses
    of a readable file the next one is broken. *)
Theorem C44_descriptor_leak_refuted : forall lim w s, shm s = None -> sema s = None ->
  exists k, k <= lim /\ (forall j, j < k -> exists r1 r2 r3 s', parse lim true w (parses lim true j w s) = (r1, r2, r3, s') /\ equipped (next (parses lim true j w s)) r1 r2 r3) /\
    exists r1 r2 r3 s', parse lim true w (parses lim true k w s) = (r1, r2, r3, s') /\ ~ equipped (next (parses lim true k w s)) r1 r2 r3.
Proof.
  intros lim w. 
  assert (BAD : forall s, shm s = None -> sema s = None -> lim <= fds s + w -> exists r1 r2 r3 s', parse lim true w s = (r1, r2, r3, s') /\ ~ equipped (next s) r1 r2 r3).
  { intros s H1 H2 HL. destruct (parse lim true w s) as [[[r1 r2] r3] s'] eqn:E. exists r1, r2, r3, s'. split; [reflexivity|]. intros (m & q & _ & _ & E1 & F2 & I3 & M3).
    unfold parse, new1 in E. unfold acquire_memory in E at 1. unfold open_input in E at 1. destruct (Nat.ltb_spec (fds s) lim) as [HF|HF].
    2: { cbn [andb] in E. destruct (create_semaphore lim s), (new2s lim true w o0), (new3 lim true o1). injection E as <- _ _ _. discriminate. }
    rewrite H1 in E. cbn [andb] in E. unfold create_semaphore in E. cbn [fds sema next] in E. rewrite (proj2 (Nat.ltb_lt (fds s) lim)) in E by lia. rewrite H2 in E. cbn [shm] in E.
    set (s0 := mkOs (Some (next s)) (Some (S (next s))) (S (S (next s))) (fds s)) in E.
    destruct (new2s lim true w s0) as [l s1] eqn:E2. destruct (new3 lim true s1) as [x s2] eqn:E3. injection E as <- <- <- _.
    injection E1 as <- <-.
    assert (G : forall v s0 l s1, new2s lim true v s0 = (l, s1) -> Forall (eq (mkR true (Some (next s)) (Some (S (next s))))) l -> shm s0 <> None -> (v = 0 \/ fds s1 = fds s0 + v) /\ fds s0 + v <= fds s1 /\ (v = 0 \/ fds s0 + v < lim)).
    { clear. induction v as [|v IH]; intros s0 l s1 E F N; cbn [new2s] in E; [injection E as <- <-; lia|].
      unfold new2, acquire_memory, open_input, open_semaphore in E. destruct (Nat.ltb_spec (fds s0) lim) as [HF|HF].
      - destruct (shm s0) as [o|] eqn:ES; [|congruence]. cbn [fds sema andb] in E.
        destruct (new2s lim true v _) as [l' s'] eqn:E'. injection E as <- <-. inversion F as [|? ? F1 F2]; subst.
        destruct (IH _ _ _ E' F2) as (A & B & C); [cbn; discriminate|]. cbn [fds] in *. destruct (Nat.ltb_spec (S (fds s0)) lim) as [HG|HG]; [|discriminate].
        destruct v; [cbn in E'; injection E' as <- <-; cbn; lia|]. lia.
      - destruct (new2s lim true v s0) as [l' s'] eqn:E'. injection E as <- <-. inversion F as [|? ? F1 F2]; subst. discriminate. }
    destruct (G w s0 l s1 E2 F2) as (A & B & C); [discriminate|]. unfold new3, open_input in E3. subst s0. cbn [fds] in A, B, C.
    destruct (acquire_memory lim false s1). injection E3 as <- _. cbn [r_input] in I3. rewrite andb_true_r in I3. apply Nat.ltb_lt in I3. lia. }
  intros s H1 H2. remember (lim - fds s) as d eqn:Ed. revert s H1 H2 Ed. induction d as [d IH] using (well_founded_induction lt_wf). intros s H1 H2 Ed.
  destruct (Nat.lt_ge_cases (fds s + w) lim) as [HL|HL].
  - destruct (parse_ok lim w s H1 H2 HL) as (r1 & r2 & r3 & s' & E & _ & EQ & P & Q & R).
    destruct (IH (lim - fds s')) with (s := s') as (k & Hk & OKS & BADS); [lia|exact P|exact Q|reflexivity|].
    assert (PS : forall j, parses lim true (S j) w s = parses lim true j w s').
    { induction j as [|j IHj]; [cbn; rewrite E; reflexivity|]. change (parses lim true (S (S j)) w s) with (snd (parse lim true w (parses lim true (S j) w s))). rewrite IHj. reflexivity. }
    exists (S k). split; [|split].
    + clear - Hk R HL E P Q BADS OKS PS BAD. destruct (Nat.le_gt_cases (S k) lim) as [|C]; [assumption|exfalso].
      assert (k = lim) by lia. subst k.
      (* lim parses in a row would need lim descriptors *)
      assert (Y : forall j, j <= lim -> fds (parses lim true j w s') = fds s' + j * (w + 1) /\ shm (parses lim true j w s') = None /\ sema (parses lim true j w s') = None).
      { induction j as [|j IHj]; intros Hj; [cbn; auto|]. destruct IHj as (F & N1 & N2); [lia|]. destruct (Nat.lt_ge_cases (fds (parses lim true j w s') + w) lim) as [HG|HG].
        - destruct (parse_ok lim w _ N1 N2 HG) as (a & b & c & d' & E' & _ & _ & P' & Q' & R'). cbn [parses]. rewrite E'. cbn [snd]. repeat split; auto. lia.
        - exfalso. destruct (OKS j) as (a & b & c & d' & E' & EQ'); [lia|]. destruct (BAD _ N1 N2 HG) as (a' & b' & c' & d'' & E'' & NE). rewrite E' in E''. injection E'' as <- <- <- _. contradiction. }
      destruct lim as [|l]; [lia|]. destruct (Y l) as (F & N1 & N2); [lia|]. destruct (OKS l) as (a & b & c & d' & E' & EQ'); [lia|].
      destruct (BAD _ N1 N2) as (a' & b' & c' & d'' & E'' & NE); [nia|]. rewrite E' in E''. injection E'' as <- <- <- _. contradiction.
    + intros j Hj. destruct j as [|j]; [exists r1, r2, r3, s'; cbn; auto|]. rewrite PS. apply OKS. lia.
    + rewrite PS. exact BADS.
  - exists 0. split; [lia|]. split; [intros j Hj; lia|]. cbn. apply BAD; assumption.
Qed.
Print Assumptions C44_descriptor_leak_refuted.
(** Any parse that begins while the names of another one exist - a second thread of the process, or a crashed process that had the
    same id - has no semaphore: stage 1 will post to SEM_FAILED. *)
Theorem C44_names_taken_refuted : forall lim readable w s q, sema s = Some q ->
  forall r1 r2 r3 s', parse lim readable w s = (r1, r2, r3, s') -> r_sem r1 = None /\ ~ equipped (next s) r1 r2 r3 /\
  (* and it removes the names of the other one *)
  shm s' = None /\ sema s' = None.
Proof.
  intros lim rd w s q HQ r1 r2 r3 s' E. unfold parse, new1 in E. destruct (acquire_memory lim true s) as [m s1] eqn:EM.
  assert (SQ : sema s1 = Some q).
  { unfold acquire_memory in EM. destruct (fds s <? lim); [|injection EM as _ <-; exact HQ]. destruct (shm s); injection EM as _ <-; exact HQ. }
  unfold create_semaphore in E. rewrite SQ in E.
  assert (EZ : (if fds s1 <? lim then (@None nat, s1) else (@None nat, s1)) = (None, s1)) by (destruct (fds s1 <? lim); reflexivity).
  rewrite EZ in E. destruct (new2s lim rd w s1) as [l s2]. destruct (new3 lim rd s2) as [x s3]. injection E as <- <- <- <-.
  split; [reflexivity|]. split; [|split; reflexivity]. intros (m' & q' & _ & _ & E1 & _). discriminate.
Qed.
Print Assumptions C44_names_taken_refuted.

(** Python: one parse after start is well equipped: the master's runner and every worker process have the same, new, objects ... *)
Theorem C44_python_first_partial : forall lim s, shm s = None -> sema s = None -> fds s < lim ->
  let '(r1, s') := py_parse lim true None s in
  (forall fd, S fd < lim -> equipped (next s) r1 [py_worker lim true fd s'] (py_worker lim true fd s')) /\
  shm (py_stop (Some r1) s') = None /\ sema (py_stop (Some r1) s') = None.
Proof.
  intros lim s H1 H2 HL. unfold py_parse, new1, acquire_memory, open_input, create_semaphore. rewrite H1. rewrite (proj2 (Nat.ltb_lt _ _) HL). cbn [fds sema shm next andb]. rewrite H2, (proj2 (Nat.ltb_lt _ _) HL).
  split; [|split; reflexivity]. intros fd HF. exists (next s), (S (next s)). unfold py_worker, new2, acquire_memory, open_input, open_semaphore. cbn [fds shm sema next].
  rewrite (proj2 (Nat.ltb_lt fd lim)) by lia. cbn [fst andb fds sema]. rewrite (proj2 (Nat.ltb_lt (S fd) lim)) by lia. repeat split; auto.
Qed.
Print Assumptions C44_python_first_partial.
(** ... but a second parse of the same context (without stop and start in between) never is: the new stage 1 runner has no
    semaphore, and the names are gone before the workers can open them. *)
Theorem C44_python_second_refuted : forall lim s r1 s1, sema s = None -> shm s = None -> fds s < lim ->
  py_parse lim true None s = (r1, s1) ->
  let '(r, s2) := py_parse lim true (Some r1) s1 in
  r_sem r = None /\ forall fd, broken (py_worker lim true fd s2) true = true.
Proof.
  intros lim s r1 s1 H1 H2 HL E. unfold py_parse, new1, acquire_memory, open_input, create_semaphore in E. rewrite H2 in E. rewrite (proj2 (Nat.ltb_lt _ _) HL) in E. cbn [fds sema shm next andb] in E. rewrite H1 in E.
  rewrite (proj2 (Nat.ltb_lt _ _) HL) in E. injection E as <- <-. unfold py_parse, new1, acquire_memory, open_input, create_semaphore. cbn [fds sema shm next]. rewrite (proj2 (Nat.ltb_lt _ _) HL). cbn [fds sema shm next andb].
  rewrite (proj2 (Nat.ltb_lt _ _) HL). split; [reflexivity|]. intros fd. unfold py_worker, new2, acquire_memory, open_input, open_semaphore. cbn [fds shm sema next destroy1].
  destruct (fd <? lim); cbn [fst broken r_input r_mem r_sem andb orb negb]; reflexivity.
Qed.
Print Assumptions C44_python_second_refuted.
