(** * Specification: places of a grammar at which looking ahead cannot go on.
    On the rule networks and the texts of LookGrammarSpec only. *)
From Coq Require Import List NArith Arith.
From Verif Require Import RegexSpec GrammarSpec ParseSpec NFA ATN ATNLive Grammar LookGrammarSpec.
Import ListNotations.
Local Open Scope nat_scope.

Section Places.
Variable nets : list (list N * (N * atn)).
(** Before a reference that is pending already: the rule is about to be entered at the same place a second time, inside itself. *)
Definition recurs (x : spos) : Prop :=
  match x with
  | Before (y :: up) => exists n r, node_of nets (y :: up) = Some n /\ nt n = NInv r /\ In y up
  | _ => False
  end.
(** One can go on and come back to the very same place, without reading anything. *)
Definition comes_back (x : spos) : Prop := exists z, tmove nets x [] z /\ texts nets z [] x.
(** No end to looking ahead from here. *)
Definition no_way (x : spos) : Prop := recurs x \/ comes_back x.
(** At node i of rule r: having read a text that does not yet tell its alternatives apart (at first: nothing), one of them can be at such a place. *)
Definition unbounded (r : list N) (i : nat) : Prop :=
  exists w n k d t y, (w = [] \/ two_alts nets r i w) /\ node_of nets [(r, i)] = Some n /\ nth_error (atrs n) k = Some (d, t) /\
    texts nets (Before [(r, d)]) w y /\ no_way y.
End Places.

(** Tokens one can see: a literal or a pattern that stands for a text of nothing but white space stands for the empty text.
    Patterns as in C07: the automaton is exact. *)
Definition tokens_visible (ds : list (list N * gsel)) : Prop := forall name b, In (name, b) ds ->
  (forall s, In (TLit s) (gsel_terms b) -> spaces (lit_bytes s) -> s = []) /\
  (forall p, In (TPat p) (gsel_terms b) -> pat_safe p /\ forall w, patL p w -> spaces w -> w = []).
