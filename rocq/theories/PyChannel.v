(** * Model of the hand-over of Python values: the bank protocol together with the channels
    (src/python/centaurus/context.py:96, listener.py:71-81 and 108-113, src/core/Stage2RunnerNonRecursive.hpp:198-204,
    Stage3RunnerNonRecursive.hpp:135-155).

    One multiprocessing.Queue per bank slot.  put() hands the list to the queue's feeder thread in the worker's process, which
    writes it to the pipe at some later time (the [Flush] steps); get() blocks until the pipe holds something.  The put is part
    of the step that leaves the image in the bank (the bank is owned by the worker at that time), the get of the step that takes it. *)
From Coq Require Import List Arith Bool Lia.
From Verif Require Import Protocol ProtocolInv ProtocolLive.
Import ListNotations.

Section X.
Context {P R Vs : Type}.
Variables n W K : nat.
Variable page : nat -> P.
Variable red : P -> R.
Variable val : R -> Vs.         (* the values the adapter holds when the bank has been reduced *)
Notation state := (state P R).

(** [buf w b]: what worker w has put on the queue of slot b and the feeder thread has not written yet; [pipe b]: the pipe of that
    queue; [got]: history of what stage 3 received, newest first. *)
Record xstate := mkX { base : state; buf : nat -> nat -> list Vs; pipe : nat -> list Vs; got : list Vs }.
Inductive xthread := XT (t : thread) | Flush (w b : nat).
Definition upd2 {A} (f : nat -> nat -> A) (i j : nat) (x : A) : nat -> nat -> A :=
  fun i' j' => if (i' =? i) && (j' =? j) then x else f i' j'.
Definition xstep (t : xthread) (sp : bool) (x : xstate) : xstate :=
  let s := base x in
  match t with
  | XT T3 => match p3 s with
             | Merge3 b => match pipe x b with
                           | [] => x                                     (* channels[index].get() blocks *)
                           | v :: r => mkX (step n W K page red T3 sp s) (buf x) (upd (pipe x) b r) (v :: got x)
                           end
             | _ => mkX (step n W K page red T3 sp s) (buf x) (pipe x) (got x)
             end
  | XT (T2 w) => match p2 s w with
                 | Write2 b r => if w <? W
                                 then mkX (step n W K page red (T2 w) sp s) (upd2 (buf x) w b (buf x w b ++ [val r])) (pipe x) (got x)
                                 else x
                 | _ => mkX (step n W K page red (T2 w) sp s) (buf x) (pipe x) (got x)
                 end
  | XT T1 => mkX (step n W K page red T1 sp s) (buf x) (pipe x) (got x)
  | Flush w b => match buf x w b with
                 | [] => x
                 | v :: r => mkX s (upd2 (buf x) w b r) (upd (pipe x) b (pipe x b ++ [v])) (got x)
                 end
  end.
Definition xinit : xstate := mkX init (fun _ _ => []) (fun _ => []) [].
Definition xrun (sched : list (xthread * bool)) (x : xstate) : xstate := fold_left (fun x l => xstep (fst l) (snd l) x) sched x.
Definition xreachable (x : xstate) : Prop := exists sched, x = xrun sched xinit.
End X.
Arguments xstate : clear implicits.
