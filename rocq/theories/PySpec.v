(** * Specification of the Python mode: the sequential evaluation with Python handlers *)
From Coq Require Import List NArith.
From Verif Require Import TreeSpec PyReduction.
Import ListNotations.

Section Eval.
Context {V : Type}.
Variable h : N -> N -> N -> list V -> option V.   (* the handlers; None: no value *)
(** The values among the results, in order. *)
Fixpoint somes {A} (l : list (option A)) : list A :=
  match l with [] => [] | Some v :: r => v :: somes r | None :: r => somes r end.
(** The value of a node: its rule's handler applied to the values of its children. *)
Fixpoint py_eval (t : tree) : option V :=
  match t with Node id s e ch => h id s e (somes (map py_eval ch)) end.
(** The handler invocations of the sequential evaluation, in its order. *)
Fixpoint py_calls (t : tree) : list (pcall V) :=
  match t with Node id s e ch => concat (map py_calls ch) ++ [mkPCall id s e (somes (map py_eval ch))] end.
End Eval.

(** The number of nodes on the longest way from the root of a tree to a leaf. *)
Fixpoint depth (t : tree) : nat :=
  match t with Node _ _ _ ch => S (fold_right (fun c m => Nat.max (depth c) m) 0 ch) end.
