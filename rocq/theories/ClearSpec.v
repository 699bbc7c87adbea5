(** * Specification: clear parses
    A parse of a text in which every step is forced: patterns and white space take as much as they can, and where there are
    several ways on, the text ahead belongs to one of them only.  On rule networks; no automata. *)
From Coq Require Import List NArith Arith.
From Verif Require Import CharClass NFA NFASem ATN Grammar TreeSpec ParseSpec LookGrammarSpec.
Import ListNotations.
Local Open Scope nat_scope.

Section Clear.
Variable nets : list (list N * (N * atn)).
Variable u : list N.
(** [clear_from r i p q ch]: from (before) node i of rule r at position p to the end of the rule at position q, with subtrees ch. *)
Inductive clear_from : list N -> nat -> nat -> nat -> list tree -> Prop :=
| cf_node r i n p m q ch1 ch2 : node_of nets [(r, i)] = Some n -> clear_symbol (nt n) p m ch1 -> clear_on r i (atrs n) m q ch2 -> clear_from r i p q (ch1 ++ ch2)
with clear_symbol : nty -> nat -> nat -> list tree -> Prop :=
| cs_blank p : p <= length u -> clear_symbol NBlank p p []
| cs_lit s p m : span u p m -> slice u p m = s -> clear_symbol (NLit s) p m []
| cs_reg A p m : span u p m -> accepts A (slice u p m) -> (forall m', m < m' -> span u p m' -> ~ accepts A (slice u p m')) -> clear_symbol (NReg A) p m []
| cs_ws p m : span u p m -> spaces (slice u p m) -> (forall m', m < m' -> span u p m' -> ~ spaces (slice u p m')) -> clear_symbol NWs p m []
| cs_rule r id M p m ch : lookup nets r = Some (id, M) -> clear_from r 0 p m ch -> clear_symbol (NInv r) p m [Node id (N.of_nat p) (N.of_nat m) ch]
with clear_on : list N -> nat -> list (nat * nat) -> nat -> nat -> list tree -> Prop :=
| co_end r i p : clear_on r i [] p p []
| co_one r i d t p q ch : clear_from r d p q ch -> clear_on r i [(d, t)] p q ch
| co_many r i ts k d t p m q ch : 2 <= length ts -> nth_error ts k = Some (d, t) -> p < m <= length u -> only_alt nets r i k (slice u p m) ->
    clear_from r d p q ch -> clear_on r i ts p q ch.
End Clear.
