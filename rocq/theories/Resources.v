(** * Model of what a parse takes from the operating system and gives back
    (src/core/BaseRunner.hpp:121-166 and 240-316, Stage1Runner.hpp:92-100, Stage2RunnerNonRecursive.hpp:207-217,
    Stage3RunnerNonRecursive.hpp:166-174, Context.hpp:90-126, src/python/centaurus/context.py:11-27).

    Both names (shared memory, semaphore) depend on nothing but the process id, so one entry for each is all of the name space
    that matters.  Every new object gets a new number: a new shared memory is zero, a new semaphore has value 0.
    Simplifications: Linux branch; calls fail only for the reasons below (no memory or permission failures); the run of the threads
    itself is the subject of Protocol.v. *)
From Coq Require Import List Arith Bool.
Import ListNotations.

(** Name of the shared memory and of the semaphore: the object it stands for, if any; number of the next new object; open file
    descriptors of the process. *)
Record os := mkOs { shm : option nat; sema : option nat; next : nat; fds : nat }.
(** What a runner holds: mapping of the input (true: mapped), of the shared memory, semaphore; None is MAP_FAILED and SEM_FAILED. *)
Record runner := mkR { r_input : bool; r_mem : option nat; r_sem : option nat }.

Section R.
Variable lim : nat.              (* the limit of open descriptors (RLIMIT_NOFILE) *)
Variable readable : bool.        (* the input file can be opened and has at least one byte *)

(** BaseRunner ctor (146-152): open, fstat, mmap, close; nothing is checked. *)
Definition open_input (s : os) : bool := (fds s <? lim) && readable.
(** acquire_memory (252-257): shm_open, with O_CREAT only when allocating, two mmaps; the descriptor is closed only when allocating. *)
Definition acquire_memory (alloc : bool) (s : os) : option nat * os :=
  if fds s <? lim then
    match shm s with
    | Some o => (Some o, mkOs (shm s) (sema s) (next s) (if alloc then fds s else S (fds s)))
    | None => if alloc then (Some (next s), mkOs (Some (next s)) (sema s) (S (next s)) (fds s)) else (None, s)
    end
  else (None, s).
(** create_semaphore (280): O_CREAT | O_EXCL. *)
Definition create_semaphore (s : os) : option nat * os :=
  if fds s <? lim then
    match sema s with
    | Some _ => (None, s)
    | None => (Some (next s), mkOs (shm s) (Some (next s)) (S (next s)) (fds s))
    end
  else (None, s).
(** open_semaphore (288). *)
Definition open_semaphore (s : os) : option nat := if fds s <? lim then sema s else None.
(** close_semaphore(true), release_memory(true) of ~Stage1Runner: both names are removed, whoever made them. *)
Definition destroy1 (s : os) : os := mkOs None None (next s) (fds s).

Definition new1 (s : os) : runner * os :=
  let i := open_input s in let '(m, s1) := acquire_memory true s in let '(q, s2) := create_semaphore s1 in (mkR i m q, s2).
Definition new2 (s : os) : runner * os :=
  let i := open_input s in let '(m, s1) := acquire_memory false s in (mkR i m (open_semaphore s1), s1).
Definition new3 (s : os) : runner * os :=
  let i := open_input s in let '(m, s1) := acquire_memory false s in (mkR i m None, s1).
Fixpoint new2s (w : nat) (s : os) : list runner * os :=
  match w with O => ([], s) | S k => let '(r, s1) := new2 s in let '(l, s2) := new2s k s1 in (r :: l, s2) end.

(** A parse is well equipped: every runner has the input and one and the same shared memory, stage 1 and all of stage 2 one and
    the same semaphore, and both objects are new.  Otherwise some thread works on MAP_FAILED, SEM_FAILED, or on the state another
    parse left behind. *)
Definition equipped (old : nat) (r1 : runner) (r2 : list runner) (r3 : runner) : Prop :=
  exists m q, old <= m /\ old <= q /\ r1 = mkR true (Some m) (Some q) /\ Forall (eq (mkR true (Some m) (Some q))) r2 /\
    r_input r3 = true /\ r_mem r3 = Some m.
(** A runner that would touch MAP_FAILED or SEM_FAILED. *)
Definition broken (r : runner) (needs_sem : bool) : bool :=
  negb (r_input r) || match r_mem r with None => true | _ => false end || needs_sem && match r_sem r with None => true | _ => false end.

(** Context::parse (Context.hpp:90-126): the runners, and the state after all of them have been deleted (deleting a stage 2 or
    stage 3 runner unmaps and closes the semaphore, which changes nothing here). *)
Definition parse (w : nat) (s : os) : (runner * list runner * runner) * os :=
  let '(r1, s1) := new1 s in let '(r2, s2) := new2s w s1 in let '(r3, s3) := new3 s2 in (r1, r2, r3, destroy1 s3).
(** The state after k parses one after the other. *)
Fixpoint parses (k w : nat) (s : os) : os := match k with O => s | S j => snd (parse w (parses j w s)) end.

(** Python: Stage1Worker keeps its runner in [self.runner] (context.py:17-19, 24-27).  The master's parse creates the new runner
    before the old one is dropped; the workers, in processes of their own with descriptor tables of their own, then open the names. *)
Definition py_parse (old : option runner) (s : os) : runner * os :=
  let '(r, s1) := new1 s in (r, match old with Some _ => destroy1 s1 | None => s1 end).
Definition py_stop (old : option runner) (s : os) : os := match old with Some _ => destroy1 s | None => s end.
(** A worker process opens what the master's names stand for; [fd]: its own open descriptors. *)
Definition py_worker (fd : nat) (s : os) : runner := fst (new2 (mkOs (shm s) (sema s) (next s) fd)).
End R.
