(** * What an NFA accepts (specification side): paths in the transition graph. *)
From Coq Require Import List NArith.
From Verif Require Import CharClass NFA.
Import ListNotations.
Open Scope N_scope.

(** There is a transition from q to d labelled lab. *)
Definition edge (A : nfa) (q : nat) (lab : cclass) (d : nat) : Prop :=
  exists t, In t (nth q A []) /\ tlab t = lab /\ tdest t = d.
(** [path E q w q']: w can be read going from q to q'. *)
Inductive path (E : nat -> cclass -> nat -> Prop) : nat -> list N -> nat -> Prop :=
| p_nil q : path E q [] q
| p_eps q d w q' : E q [] d -> path E d w q' -> path E q w q'
| p_chr q lab ch d w q' : E q lab d -> includes lab ch = true -> path E d w q' -> path E q (ch :: w) q'.
(** The start state is 0 and the accepting state is the last one. *)
Definition accepts (A : nfa) (w : list N) : Prop := path (edge A) 0 w (length A - 1).
