(** * Specification: what is skipped as blank in a grammar file, for every text (CR and NUL characters included) *)
From Coq Require Import List NArith.
From Verif Require Import StreamSpec.
Import ListNotations.
Open Scope N_scope.

(** A text is seen as its units (StreamSpec.units): a CR LF pair is one unit. *)
Definition space_unit (u : list N) : Prop := u = [13; 10] \/ exists c, u = [c] /\ (c = 32 \/ (9 <= c /\ c <= 13)).
(** Somewhere in the units stand a star and, behind it, a slash. *)
Definition star_slash (us : list (list N)) : Prop := exists x y, us = x ++ [42] :: [47] :: y.
(** [ublank1 t r]: the units [t] start with one blank and [r] is what follows.  A line comment ends behind the first unit that is a lone LF or a NUL --
    a CR LF pair does not end it -- or at the end of the text; a block comment at the first star-slash, with no NUL before. *)
Inductive ublank1 : list (list N) -> list (list N) -> Prop :=
| ub_space u r : space_unit u -> ublank1 (u :: r) r
| ub_line body u r : ~ In [10] body -> ~ In [0] body -> u = [10] \/ u = [0] -> ublank1 ([47] :: [47] :: body ++ u :: r) r
| ub_line_end body : ~ In [10] body -> ~ In [0] body -> ublank1 ([47] :: [47] :: body) []
| ub_block body r : ~ In [0] body -> ~ star_slash (body ++ [[42]]) -> ublank1 ([47] :: [42] :: body ++ [42] :: [47] :: r) r.
Inductive ublanks : list (list N) -> list (list N) -> Prop :=
| ubs_refl t : ublanks t t
| ubs_step t u r : ublank1 t u -> ublanks u r -> ublanks t r.
