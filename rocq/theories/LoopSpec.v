(** * Specification: walks on which every step is forced
    The places are (rule, node of its network, position in the text).  On rule networks; no automata, no code. *)
From Coq Require Import List NArith Arith Relations.
From Verif Require Import CharClass NFA NFASem ATN Grammar TreeSpec ParseSpec LookGrammarSpec ClearSpec.
Import ListNotations.
Local Open Scope nat_scope.

Section Loop.
Variables (nets : list (list N * (N * atn))) (u : list N).
(** From before a node: into the rule the node refers to; or, its symbol having a clear parse from p to m, to the only node that follows,
    or to that one of several to which alone some of the text behind m belongs. *)
Inductive forced : list N * nat * nat -> list N * nat * nat -> Prop :=
| fo_call r i n p r' : node_of nets [(r, i)] = Some n -> nt n = NInv r' -> lookup nets r' <> None -> forced (r, i, p) (r', 0, p)
| fo_one r i n p m ch d t : node_of nets [(r, i)] = Some n -> clear_symbol nets u (nt n) p m ch -> atrs n = [(d, t)] -> forced (r, i, p) (r, d, m)
| fo_many r i n p m ch k d t y : node_of nets [(r, i)] = Some n -> clear_symbol nets u (nt n) p m ch -> 2 <= length (atrs n) -> nth_error (atrs n) k = Some (d, t) ->
    m < y <= length u -> only_alt nets r i k (slice u m y) -> forced (r, i, p) (r, d, m).
(** A place to which forced steps lead from the beginning of the root rule, and from there back to it. *)
Definition goes_round (root : list N) : Prop := exists x, clos_refl_trans _ forced (root, 0, 0) x /\ clos_trans _ forced x x.
End Loop.
