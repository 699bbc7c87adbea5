(** * Specification vocabulary for character classes: sets of characters. *)
From Coq Require Import List NArith.
From Verif Require Import CharClass.
Import ListNotations.
Open Scope N_scope.

(** The set of characters a list of half-open ranges stands for. *)
Definition Den (c : cclass) (ch : N) : Prop :=
  exists r, In r c /\ rs r <= ch /\ ch < re r.

(** Ranges are proper intervals (possibly empty), not inverted. *)
Definition Proper (c : cclass) : Prop := forall r, In r c -> rs r <= re r.

(** Ascending, non-empty, pairwise disjoint ranges, all at or above [lo]
    (neighbours may touch). *)
Fixpoint SortedFrom (lo : N) (c : cclass) : Prop :=
  match c with
  | [] => True
  | r :: c' => lo <= rs r /\ rs r < re r /\ SortedFrom (re r) c'
  end.
Definition Sorted (c : cclass) : Prop := SortedFrom 0 c.

(** Same, and neighbours do not even touch: the canonical form of a set. *)
Fixpoint Separated (c : cclass) : Prop :=
  match c with
  | [] => True
  | r :: c' => rs r < re r /\ match c' with [] => True | r' :: _ => re r < rs r' end /\ Separated c'
  end.

(** All ranges end at or below [hi]. *)
Definition Below (hi : N) (c : cclass) : Prop := forall r, In r c -> re r <= hi.

(** Items of a bracket expression: a single character or a range a-b. *)
Inductive item := Single (c : N) | Span (a b : N).
Definition item_den (i : item) (ch : N) : Prop :=
  match i with Single c => ch = c | Span a b => a <= ch /\ ch <= b end.
(** Characters expressible in a one-byte class: 1..254, and a <= b. *)
Definition item_ok (i : item) : Prop :=
  match i with Single c => 1 <= c < 255 | Span a b => 1 <= a /\ a <= b /\ b < 255 end.

(** How one character is written inside brackets. *)
Definition write_char (c : N) : list N :=
  if c =? 9 then [92; 116] else if c =? 10 then [92; 110] else if c =? 13 then [92; 114]
  else if orb (orb (c =? 92) (c =? 45)) (orb (c =? 91) (c =? 93)) then [92; c]
  else [c].
Definition write_item (i : item) : list N :=
  match i with Single c => write_char c | Span a b => write_char a ++ [45] ++ write_char b end.
Definition write_items (l : list item) : list N := concat (map write_item l).
(** Smallest and one-past-largest character of an item. *)
Definition item_lo (i : item) := match i with Single c => c | Span a _ => a end.
Definition item_hi (i : item) := match i with Single c => c + 1 | Span _ b => b + 1 end.
(** Two items are apart: at least one character lies strictly between them. *)
Definition apart (i j : item) : Prop := item_hi i < item_lo j \/ item_hi j < item_lo i.
(** The text starts a plain (not negated) bracket expression. *)
Definition no_caret (l : list item) : Prop := match l with [] => True | i :: _ => item_lo i <> 94 end.
(** All items pairwise apart, in any order. *)
Fixpoint AllApart (l : list item) : Prop :=
  match l with [] => True | i :: l' => Forall (apart i) l' /\ AllApart l' end.
(** Items listed by ascending first character (they may overlap or nest). *)
Fixpoint Ascending (l : list item) : Prop :=
  match l with [] => True | i :: l' => match l' with [] => True | j :: _ => item_lo i <= item_lo j end /\ Ascending l' end.
(** An item bridges those before it: it touches one that ends before, and one that begins behind, a character none of them contains. *)
Definition bridges (before : list item) (j : item) : Prop := exists i i' g,
  In i before /\ In i' before /\ item_lo j <= item_hi i /\ item_hi i <= g /\ g < item_lo i' /\ item_lo i' <= item_hi j /\
  ~ exists k, In k before /\ item_den k g.
Definition NoBridge (l : list item) : Prop := forall l1 j l2, l = l1 ++ j :: l2 -> ~ bridges l1 j.

(** Every way of writing one character inside brackets: itself, or a backslash and itself, t, r or n in either case. *)
Inductive char_text : N -> list N -> Prop :=
| ct_plain c : ~ In c [0; 45; 92; 93; 65535] -> char_text c [c]
| ct_self c : In c [45; 91; 92; 93] -> char_text c [92; c]
| ct_tab e : In e [116; 84] -> char_text 9 [92; e]
| ct_cr e : In e [114; 82] -> char_text 13 [92; e]
| ct_lf e : In e [110; 78] -> char_text 10 [92; e].
Inductive item_text : item -> list N -> Prop :=
| it_single c t : char_text c t -> item_text (Single c) t
| it_span a b t u : char_text a t -> char_text b u -> item_text (Span a b) (t ++ 45 :: u).
Inductive items_text : list item -> list N -> Prop :=
| its_nil : items_text [] []
| its_cons i l t u : item_text i t -> items_text l u -> items_text (i :: l) (t ++ u).
