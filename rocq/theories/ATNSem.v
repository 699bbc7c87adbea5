(** Paths through transition networks and the sequences of symbols they read. *)
From Coq Require Import List NArith Arith Bool Lia.
From Verif Require Import NFA ATN.
Import ListNotations.
Local Open Scope nat_scope.

Definition tonode (M : atn) (i : nat) : anode := nth i M blank.
Definition dests (M : atn) (i : nat) : list nat := map fst (atrs (tonode M i)).
(** What visiting a node contributes. *)
Definition reads (n : nty) : list nty := match n with NBlank => [] | _ => [n] end.
Definition rd (M : atn) (i : nat) : list nty := reads (nt (tonode M i)).
(** [apath M p w q]: starting behind node p, following transitions, having visited nodes that
    contribute w, the last of them being q (or none, p = q). *)
Inductive apath (M : atn) : nat -> list nty -> nat -> Prop :=
| ap_nil p : apath M p [] p
| ap_step p q w r : In q (dests M p) -> apath M q w r -> apath M p (rd M q ++ w) r.
(** From the first node to the last. *)
Definition atn_accepts (M : atn) (w : list nty) : Prop := apath M 0 w (length M - 1).
