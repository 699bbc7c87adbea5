(** * Specification vocabulary for texts: blanks, line ends, identifiers. *)
From Coq Require Import List NArith Bool.
Import ListNotations.
Open Scope N_scope.

(** [p] occurs somewhere in [l]. *)
Definition occurs (p l : list N) : Prop := exists x y, l = x ++ p ++ y.

(** [blank1 t r]: text [t] starts with one blank -- a white space character, a line comment
    (up to and including its line feed, or up to the end of the text), or a block comment up to
    the first star-slash -- and [r] is what follows it. *)
Inductive blank1 : list N -> list N -> Prop :=
| b_space c r : c = 32 \/ (9 <= c /\ c <= 13) -> blank1 (c :: r) r
| b_line body r : ~ In 10 body -> blank1 (47 :: 47 :: body ++ 10 :: r) r
| b_line_end body : ~ In 10 body -> blank1 (47 :: 47 :: body) []
| b_block body r : ~ occurs [42; 47] (body ++ [42]) -> blank1 (47 :: 42 :: body ++ 42 :: 47 :: r) r.
Inductive blanks : list N -> list N -> Prop :=
| bs_refl t : blanks t t
| bs_step t u r : blank1 t u -> blanks u r -> blanks t r.

(** The units a text consists of: a CR LF pair is one, everything else single. *)
Fixpoint units (t : list N) : list (list N) :=
  match t with
  | [] => []
  | c :: t' => match c, t' with
               | 13, 10 :: t'' => [13; 10] :: units t''
               | _, _ => [c] :: units t'
               end
  end.
(** The units that end a line: LF, CR LF, NEL, line and paragraph separator. *)
Definition ends_line (u : list N) : Prop :=
  u = [10] \/ u = [13; 10] \/ u = [133] \/ u = [8232] \/ u = [8233].

Definition letter (c : N) : Prop := (65 <= c /\ c <= 90) \/ (97 <= c /\ c <= 122).
Definition digit (c : N) : Prop := 48 <= c /\ c <= 57.
