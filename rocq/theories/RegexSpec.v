(** * Specification vocabulary for patterns: syntax trees, how they are written, and the
    regular language they denote.  Independent of the automata. *)
From Coq Require Import List NArith Bool.
From Verif Require Import CharClassSpec.
Import ListNotations.
Open Scope N_scope.

(** ** Syntax *)
(** One-character matchers: a character, the dot, a bracket expression, a negated one. *)
Inductive atom := AChar (c : N) | ADot | ASet (l : list item) | ANot (l : list item).
Definition atom_den (a : atom) (ch : N) : Prop :=
  match a with
  | AChar c => ch = c
  | ADot => ch < 255
  | ASet l => exists i, In i l /\ item_den i ch
  | ANot l => 1 <= ch /\ ch < 255 /\ ~ exists i, In i l /\ item_den i ch
  end.
(** Characters 1..254; brackets are not empty; no item of a negated bracket bridges
    those before it (see C06; true when they are apart or in ascending order). *)
Definition atom_ok (a : atom) : Prop :=
  match a with
  | AChar c => 1 <= c < 255
  | ADot => True
  | ASet l => Forall item_ok l /\ no_caret l /\ l <> []
  | ANot l => Forall item_ok l /\ NoBridge l /\ exists ch, atom_den (ANot l) ch
  end.
(** Quantifiers; every way of writing them is listed in [q_texts] below. *)
Inductive quant := QOne | QPlus (long : bool) | QStar (long : bool) | QOpt.
(** A pattern is a sequence of selections; a selection is one or more quantified units
    separated by bars (the bar binds tighter than juxtaposition); a unit is an atom or a
    parenthesised pattern. *)
Inductive unit_ := UAtom (a : atom) | UGroup (p : pat)
with sel := SOne (u : unit_) (q : quant) | SAlt (s : sel) (u : unit_) (q : quant)
with pat := PNil | PSnoc (p : pat) (s : sel).

Scheme unit_mut := Induction for unit_ Sort Prop
  with sel_mut := Induction for sel Sort Prop
  with pat_mut := Induction for pat Sort Prop.
Combined Scheme regex_ind from unit_mut, sel_mut, pat_mut.

(** ** Writing *)
Definition is_meta (c : N) : bool :=   (* characters that must be escaped, and can be *)
  existsb (N.eqb c) [91; 93; 43; 42; 123; 125; 63; 92; 124; 40; 41; 46].
Definition q_texts (q : quant) : list (list N) :=
  match q with
  | QOne => [[]]
  | QPlus false => [[43]; [43; 63]; [43; 42]]
  | QPlus true => [[43; 43]]
  | QStar false => [[42]; [42; 63]; [42; 42]]
  | QStar true => [[42; 43]]
  | QOpt => [[63]; [63; 63]; [63; 42]]
  end.
(** [w_atom a t]: the text [t] writes [a].  ('/' ends a pattern and cannot be escaped: it can
    only be written inside brackets.) *)
Inductive w_atom : atom -> list N -> Prop :=
| wa_plain c : is_meta c = false -> c <> 47 -> w_atom (AChar c) [c]
| wa_esc c : is_meta c = true -> w_atom (AChar c) [92; c]
| wa_dot : w_atom ADot [46]
| wa_set l w : items_text l w -> w_atom (ASet l) (91 :: w ++ [93])
| wa_not l w : items_text l w -> w_atom (ANot l) (91 :: 94 :: w ++ [93]).
Inductive w_unit : unit_ -> list N -> Prop :=
| wu_atom a t : w_atom a t -> w_unit (UAtom a) t
| wu_group p t : w_pat p t -> w_unit (UGroup p) (40 :: t ++ [41])
with w_sel : sel -> list N -> Prop :=
| ws_one u q t x : w_unit u t -> In x (q_texts q) -> w_sel (SOne u q) (t ++ x)
| ws_alt s u q t0 t x : w_sel s t0 -> w_unit u t -> In x (q_texts q) -> w_sel (SAlt s u q) (t0 ++ 124 :: t ++ x)
with w_pat : pat -> list N -> Prop :=
| wp_nil : w_pat PNil []
| wp_snoc p s t x : w_pat p t -> w_sel s x -> w_pat (PSnoc p s) (t ++ x).

(** ** Language *)
Inductive Star (L : list N -> Prop) : list N -> Prop :=
| star_nil : Star L []
| star_app u v : L u -> Star L v -> Star L (u ++ v).
Definition Plus (L : list N -> Prop) (w : list N) : Prop := exists u v, w = u ++ v /\ L u /\ Star L v.
Definition quantL (q : quant) (L : list N -> Prop) : list N -> Prop :=
  match q with
  | QOne => L
  | QPlus _ => Plus L
  | QStar _ => Star L
  | QOpt => fun w => w = [] \/ L w
  end.
Fixpoint unitL (u : unit_) (w : list N) : Prop :=
  match u with
  | UAtom a => exists ch, w = [ch] /\ atom_den a ch
  | UGroup p => patL p w
  end
with selL (s : sel) (w : list N) : Prop :=
  match s with
  | SOne u q => quantL q (unitL u) w
  | SAlt s u q => selL s w \/ quantL q (unitL u) w
  end
with patL (p : pat) (w : list N) : Prop :=
  match p with
  | PNil => w = []
  | PSnoc p s => exists u v, w = u ++ v /\ patL p u /\ selL s v
  end.

(** All atoms of the pattern are well formed. *)
Fixpoint unit_ok (u : unit_) : Prop :=
  match u with UAtom a => atom_ok a | UGroup p => pat_ok p end
with sel_ok (s : sel) : Prop :=
  match s with SOne u _ => unit_ok u | SAlt s u _ => sel_ok s /\ unit_ok u end
with pat_ok (p : pat) : Prop :=
  match p with PNil => True | PSnoc p s => pat_ok p /\ sel_ok s end.

(** ** The restriction under which the automaton is exact: no question mark directly after a
    group that ends in a '+' item, unless that item is all there is in the group. *)
Fixpoint ends_plus_unit (u : unit_) : bool :=
  match u with UAtom _ => false | UGroup p => ends_plus_pat p end
with ends_plus_sel (s : sel) : bool :=
  match s with
  | SOne u QOne => ends_plus_unit u
  | SOne u (QPlus _) => true
  | SOne u (QStar _) => false
  | SOne u QOpt => ends_plus_unit u
  | SAlt _ _ _ => false
  end
with ends_plus_pat (p : pat) : bool :=
  match p with PNil => false | PSnoc _ s => ends_plus_sel s end.
(** The group consists of one '+' item whose own unit does not end in '+': e.g. ([0-9]+). *)
Definition just_plus (u : unit_) : bool :=
  match u with
  | UGroup (PSnoc PNil (SOne v (QPlus _))) => negb (ends_plus_unit v)
  | _ => false
  end.
Fixpoint unit_safe (u : unit_) : Prop :=
  match u with UAtom _ => True | UGroup p => pat_safe p end
with sel_safe (s : sel) : Prop :=
  match s with
  | SOne u q => unit_safe u /\ (q = QOpt -> ends_plus_unit u = false \/ just_plus u = true)
  | SAlt s u q => sel_safe s /\ unit_safe u /\ (q = QOpt -> ends_plus_unit u = false \/ just_plus u = true)
  end
with pat_safe (p : pat) : Prop :=
  match p with PNil => True | PSnoc p s => pat_safe p /\ sel_safe s end.

(** ** Empty loops *)
(** No '*' or '+' stands behind a unit that matches the empty text. *)
Definition loops (q : quant) : bool := match q with QPlus _ | QStar _ => true | _ => false end.
Fixpoint unit_nl (u : unit_) : Prop :=
  match u with UAtom _ => True | UGroup p => pat_nl p end
with sel_nl (s : sel) : Prop :=
  match s with
  | SOne u q => unit_nl u /\ (loops q = true -> ~ unitL u [])
  | SAlt s u q => sel_nl s /\ unit_nl u /\ (loops q = true -> ~ unitL u [])
  end
with pat_nl (p : pat) : Prop :=
  match p with PNil => True | PSnoc p s => pat_nl p /\ sel_nl s end.
