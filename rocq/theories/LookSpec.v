(** * Specification: what a composite network can read.
    A pushdown reading of the network, without closures, colours or automata. *)
From Coq Require Import List NArith Arith.
From Verif Require Import CharClass Lookahead.
Import ListNotations.
Local Open Scope nat_scope.

Section Read.
Variable D : list (list N * cmach).
(** A stack of (machine, node), innermost first.  [At p]: the innermost node has just been
    reached; [Past p]: it is behind us (for an invocation: the invoked machine has finished). *)
Inductive pos := At (p : path) | Past (p : path).
(** One move, and the characters it reads. *)
Inductive move : pos -> list N -> pos -> Prop :=
| mv_here p n : node_at D p = Some n -> csub n = [] -> move (At p) [] (Past p)
| mv_call p n : node_at D p = Some n -> csub n <> [] -> move (At p) [] (At ((csub n, 0) :: p))
| mv_eps id i up n t : node_at D ((id, i) :: up) = Some n -> In t (ctrs n) -> clab t = [] ->
    move (Past ((id, i) :: up)) [] (At ((id, cdest t) :: up))
| mv_char id i up n t c : node_at D ((id, i) :: up) = Some n -> In t (ctrs n) -> includes (clab t) c = true ->
    move (Past ((id, i) :: up)) [c] (At ((id, cdest t) :: up))
| mv_ret x y up n : node_at D (x :: y :: up) = Some n -> ctrs n = [] ->
    move (Past (x :: y :: up)) [] (Past (y :: up))
(** At the end of the machine the reading started in: any place that invokes it. *)
| mv_out id i n s : node_at D [(id, i)] = Some n -> ctrs n = [] -> In s (sites D id) ->
    move (Past [(id, i)]) [] (Past [s]).
Inductive runs : pos -> list N -> pos -> Prop :=
| runs_refl x : runs x [] x
| runs_step x w y v z : move x w y -> runs y v z -> runs x (w ++ v) z.
(** The text w can be read from x. *)
Definition can_read (x : pos) (w : list N) : Prop := exists y, runs x w y.
(** The text w can be read after taking transition number k (counted from 0) of the innermost node of p. *)
Definition branch (p : path) (k : nat) (w : list N) : Prop :=
  match p with
  | [] => False
  | (id, i) :: up => exists n t, node_at D p = Some n /\ nth_error (ctrs n) k = Some t /\ can_read (At ((id, cdest t) :: up)) w
  end.
End Read.
