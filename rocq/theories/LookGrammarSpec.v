(** * Specification: the texts that can follow a place of a grammar.
    On rule networks only: no composite network, no automata. *)
From Coq Require Import List NArith Arith.
From Verif Require Import CharClass NFA NFASem ATN Grammar ParseSpec.
Import ListNotations.
Local Open Scope nat_scope.

Section Texts.
(** The rules: name, (number, network). *)
Variable nets : list (list N * (N * atn)).
(** A place: a rule and a node of its network, with the places of the pending references to rules,
    innermost first. *)
Notation place := (list (list N * nat)).
Definition node_of (p : place) : option anode :=
  match p with
  | [] => None
  | (r, i) :: _ => match lookup nets r with Some (_, M) => nth_error M i | None => None end
  end.
(** The texts of a symbol. *)
Definition spells (n : nty) (v : list N) : Prop :=
  match n with
  | NBlank => v = []
  | NLit s => v = lit_bytes s
  | NReg A => accepts A v
  | NWs => spaces v
  | NInv _ => False
  end.
Inductive spos := Before (p : place) | After (p : place).
Inductive tmove : spos -> list N -> spos -> Prop :=
| tm_text p n v : node_of p = Some n -> spells (nt n) v -> tmove (Before p) v (After p)
| tm_enter p n r : node_of p = Some n -> nt n = NInv r -> tmove (Before p) [] (Before ((r, 0) :: p))
| tm_next r i up n d t : node_of ((r, i) :: up) = Some n -> In (d, t) (atrs n) -> tmove (After ((r, i) :: up)) [] (Before ((r, d) :: up))
| tm_leave x y up n : node_of (x :: y :: up) = Some n -> atrs n = [] -> tmove (After (x :: y :: up)) [] (After (y :: up))
(** At the end of the rule we started in: behind any reference to it. *)
| tm_out r i n s j n' : node_of [(r, i)] = Some n -> atrs n = [] -> node_of [(s, j)] = Some n' -> nt n' = NInv r ->
    tmove (After [(r, i)]) [] (After [(s, j)]).
Inductive texts : spos -> list N -> spos -> Prop :=
| tx_refl x : texts x [] x
| tx_step x v y w z : tmove x v y -> texts y w z -> texts x (v ++ w) z.
(** Some text that can be found from x on begins with w. *)
Definition can_begin (x : spos) (w : list N) : Prop := exists v y, texts x (w ++ v) y.
(** w is the beginning of a text that can be found behind node i of rule r, taking its edge number k (from 0). *)
Definition alternative (r : list N) (i k : nat) (w : list N) : Prop :=
  exists n d t, node_of [(r, i)] = Some n /\ nth_error (atrs n) k = Some (d, t) /\ can_begin (Before [(r, d)]) w.
(** Text v is the beginning of a text of alternative k, and of no other; of none; of more than one. *)
Definition only_alt (r : list N) (i k : nat) (v : list N) : Prop := forall k', alternative r i k' v <-> k' = k.
Definition no_alt (r : list N) (i : nat) (v : list N) : Prop := forall k, ~ alternative r i k v.
Definition two_alts (r : list N) (i : nat) (v : list N) : Prop := exists k k', k <> k' /\ alternative r i k v /\ alternative r i k' v.
End Texts.
