(** * Specification: rules that can match the empty text, left recursion, repetition of something
    empty.  Independent of networks and code. *)
From Coq Require Import List NArith Relations.
From Verif Require Import RegexSpec GrammarSpec TreeSpec ParseSpec.
Import ListNotations.

Section Empty.
Variable rules : list N -> option (N * gsel).    (* number and body of the rule with this name *)
Variable matches : pat -> list N -> Prop.        (* the texts a pattern stands for *)

(** A sequence of references, literals and patterns that can match the empty text. *)
Definition can_be_empty (v : list term) : Prop := exists ch, matched rules matches [] v 0 0 ch.
(** The body of rule a can start with rule b, nothing having been read before. *)
Definition starts_with (a b : list N) : Prop :=
  exists id e v v', rules a = Some (id, e) /\ gselL term (fun x => [x]) e (v ++ TRule b :: v') /\ can_be_empty v.
(** No rule can start with itself, directly or through other rules. *)
Definition no_left_recursion : Prop := forall a, ~ clos_trans _ starts_with a a.

(** The body of rule a can end with rule b, nothing being read after it. *)
Definition ends_with (a b : list N) : Prop :=
  exists id e v v', rules a = Some (id, e) /\ gselL term (fun x => [x]) e (v ++ TRule b :: v') /\ can_be_empty v'.
(** No rule can end with itself, directly or through other rules. *)
Definition no_right_recursion : Prop := forall a, ~ clos_trans _ ends_with a a.

(** Nothing under a star or a plus can be empty. *)
Definition atom_can_be_empty (a : gatom) : Prop := exists v, gatomL term (fun x => [x]) a v /\ can_be_empty v.
Fixpoint reps_atom (a : gatom) : Prop := match a with GTerm _ => True | GGroup e => reps_sel e end
with reps_seq (s : gseq) : Prop :=
  match s with
  | GNil => True
  | GCons a q s => reps_atom a /\ (q = GStar \/ q = GPlus -> ~ atom_can_be_empty a) /\ reps_seq s
  end
with reps_sel (e : gsel) : Prop :=
  match e with
  | GFirst s => reps_seq s
  | GAlt e _ s => reps_sel e /\ reps_seq s
  end.
Definition no_empty_repetition : Prop := forall name id e, rules name = Some (id, e) -> reps_sel e.
End Empty.
