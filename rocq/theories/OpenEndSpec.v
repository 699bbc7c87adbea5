(** * Specification: rules that end in an open repetition
    On rule networks; no automata.  Z are places of rule r behind which nothing can be read any more (so r is not referenced
    by another rule with something behind it).  They are entered from a place with several ways on only, as the end of a
    rule  X ... Y*  is: behind every Y there may be another one. *)
From Coq Require Import List NArith.
From Verif Require Import ATN Grammar TreeSpec LookGrammarSpec.
Import ListNotations.
Local Open Scope nat_scope.

Definition silent (nets : list (list N * (N * atn))) (r : list N) (i : nat) : Prop := forall v y, texts nets (Before [(r, i)]) v y -> v = [].
Definition open_end (nets : list (list N * (N * atn))) (r : list N) : Prop := exists Z : nat -> Prop,
  ~ Z 0 /\ (forall i, Z i -> silent nets r i) /\
  (forall i n, node_of nets [(r, i)] = Some n -> atrs n = [] -> Z i) /\
  (forall i n d t, node_of nets [(r, i)] = Some n -> atrs n = [(d, t)] -> Z d -> Z i).
