(** * Specification: parse trees and their sequential bottom-up evaluation. *)
From Coq Require Import List NArith.
From Verif Require Import Reduction Marker.
Import ListNotations.

(** A node: rule id, start offset, end offset, children in document order. *)
Inductive tree := Node (id s e : N) (children : list tree).

Section Eval.
Variable f : N -> N -> N -> list N -> N.   (* the callback *)

(** Value of a node: the callback applied to the children's non-zero values. *)
Fixpoint eval (t : tree) : N :=
  match t with
  | Node id s e ch => f id s e (filter (fun v => negb (N.eqb v 0)) (map eval ch))
  end.
(** The callback invocations of the sequential evaluation, in its order. *)
Fixpoint calls (t : tree) : list call :=
  match t with
  | Node id s e ch =>
    concat (map calls ch) ++ [mkCall id s e (filter (fun v => negb (N.eqb v 0)) (map eval ch))]
  end.
End Eval.

(** The marker stream of a tree: start word, children, end word. *)
Fixpoint stream (t : tree) : list N :=
  match t with
  | Node id s e ch => start_word id s :: concat (map stream ch) ++ [end_word id e]
  end.

(** Ids fit 15 bits and are not zero, offsets fit 48 bits. *)
Fixpoint tree_ok (t : tree) : Prop :=
  match t with
  | Node id s e ch =>
    (1 <= id < 2 ^ 15)%N /\ (s < 2 ^ 48)%N /\ (e < 2 ^ 48)%N /\
    fold_right (fun c P => tree_ok c /\ P) True ch
  end.

(** [Interleave a b c]: c consists of the elements of a and of b, each in order. *)
Inductive Interleave {A} : list A -> list A -> list A -> Prop :=
| il_nil : Interleave [] [] []
| il_left x a b c : Interleave a b c -> Interleave (x :: a) b (x :: c)
| il_right x a b c : Interleave a b c -> Interleave a (x :: b) (x :: c).
