(** * Specification: how a place of a grammar is written.
    A place is a rule and the number of one of its nodes; a path is a list of places, the outermost first. *)
From Coq Require Import List NArith.
From Verif Require Import GrammarSpec.
Import ListNotations.
Open Scope N_scope.

Notation place := (list N * N)%type.
(** The number a word of decimal digits stands for. *)
Definition decimal (w : list N) : N := fold_left (fun v c => 10 * v + (c - 48)) w 0.
Definition numeral (w : list N) (n : N) : Prop := w <> [] /\ (forall c, In c w -> 48 <= c <= 57) /\ decimal w = n.
(** Name.number *)
Definition w_place (x : place) (t : list N) : Prop := exists w, is_name (fst x) /\ numeral w (snd x) /\ t = fst x ++ 46 :: w.
(** Name.number/Name.number/... *)
Inductive w_path : list place -> list N -> Prop :=
| wp_leaf x t : w_place x t -> w_path [x] t
| wp_step x p t r : w_place x t -> w_path p r -> w_path (x :: p) (t ++ 47 :: r).
