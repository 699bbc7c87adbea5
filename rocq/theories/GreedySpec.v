(** * Specification: greedy derivations
    The derivations of ParseSpec in which every pattern and every stretch of white space before a literal or pattern is as long
    as it can be.  Nothing here depends on networks or on code. *)
From Coq Require Import List NArith Arith.
From Verif Require Import CharClass NFA ATN RegexSpec GrammarSpec TreeSpec ParseSpec LookGrammarSpec.
Import ListNotations.
Local Open Scope nat_scope.

Section Greedy.
Variable rules : list N -> option (N * gsel).
Variable matches : pat -> list N -> Prop.
Variable u : list N.
(** The white space from p to b, and the text of pattern x from b to m, cannot be longer. *)
Definition all_spaces (p b : nat) : Prop := span u p b /\ spaces (slice u p b) /\ forall b', b < b' -> span u p b' -> ~ spaces (slice u p b').
Definition longest_match (x : pat) (b m : nat) : Prop := span u b m /\ matches x (slice u b m) /\ forall m', m < m' -> span u b m' -> ~ matches x (slice u b m').
Inductive greedy : list N -> nat -> nat -> tree -> Prop :=
| greedy_rule name id e w p q ch : rules name = Some (id, e) -> gselL term (fun x => [x]) e w -> gmatched w p q ch ->
    greedy name p q (Node id (N.of_nat p) (N.of_nat q) ch)
with gmatched : list term -> nat -> nat -> list tree -> Prop :=
| gmatched_end p : p <= length u -> gmatched [] p p []
| gmatched_rule name w p m q t ch : greedy name p m t -> gmatched w m q ch -> gmatched (TRule name :: w) p q (t :: ch)
| gmatched_lit s w p b m q ch : all_spaces p b -> span u b m -> slice u b m = lit_bytes s -> gmatched w m q ch -> gmatched (TLit s :: w) p q ch
| gmatched_pat x w p b m q ch : all_spaces p b -> longest_match x b m -> gmatched w m q ch -> gmatched (TPat x :: w) p q ch.
End Greedy.
Scheme greedy_mut := Induction for greedy Sort Prop
  with gmatched_mut := Induction for gmatched Sort Prop.
Combined Scheme greedy_ind2 from greedy_mut, gmatched_mut.

(** Two conditions on a grammar, on its rule networks.  The first visible character decides: what two ways on from a node can both begin with is white space. *)
Definition first_visible_decides (nets : list (list N * (N * atn))) : Prop :=
  forall name id M i w, In (name, (id, M)) nets -> i < length M -> 2 <= length (atrs (nth i M blank)) -> two_alts nets name i w -> spaces w.
(** At a node with several ways on, something visible is still to come before the root rule can end. *)
Definition visible_to_end (nets : list (list N * (N * atn))) (root : list N) : Prop :=
  forall name id M i d t j n v, In (name, (id, M)) nets -> i < length M -> 2 <= length (atrs (nth i M blank)) -> In (d, t) (atrs (nth i M blank)) ->
    node_of nets [(root, j)] = Some n -> atrs n = [] -> texts nets (Before [(name, d)]) v (After [(root, j)]) -> ~ spaces v.
