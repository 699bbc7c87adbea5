(** * Specification: the language a pattern has in Centaurus, for every pattern.
    It is the ordinary language (RegexSpec.patL) but for the question mark: the optional unit may be left out only by going to
    its end, where a repetition (+) that ends the unit can still go on.  So (ab+)? also matches b, bb, ... *)
From Coq Require Import List NArith.
From Verif Require Import RegexSpec.
Import ListNotations.

(** From the language [L] of a unit and the words [M] that may be read on at its end:
    the language of the quantified unit, and the words that may be read on at the end of that. *)
Definition q_lang (q : quant) (L M : list N -> Prop) : list N -> Prop :=
  match q with QOne => L | QPlus _ => Plus L | QStar _ => Star L | QOpt => fun w => L w \/ M w end.
Definition q_more (q : quant) (L M : list N -> Prop) : list N -> Prop :=
  match q with
  | QOne => M | QOpt => M
  | QPlus _ => fun w => exists u v, w = u ++ v /\ M u /\ Star L v
  | QStar _ => fun w => w = []
  end.
Fixpoint unit_lang (u : unit_) : list N -> Prop :=
  match u with UAtom a => fun w => exists ch, w = [ch] /\ atom_den a ch | UGroup p => pat_lang p end
with unit_more (u : unit_) : list N -> Prop :=
  match u with UAtom a => fun w => w = [] | UGroup p => pat_more p end
with sel_lang (s : sel) : list N -> Prop :=
  match s with SOne u q => q_lang q (unit_lang u) (unit_more u) | SAlt s u q => fun w => sel_lang s w \/ q_lang q (unit_lang u) (unit_more u) w end
with sel_more (s : sel) : list N -> Prop :=
  match s with SOne u q => q_more q (unit_lang u) (unit_more u) | SAlt _ _ _ => fun w => w = [] end
with pat_lang (p : pat) : list N -> Prop :=
  match p with PNil => fun w => w = [] | PSnoc p s => fun w => exists u v, w = u ++ v /\ pat_lang p u /\ sel_lang s v end
with pat_more (p : pat) : list N -> Prop :=
  match p with PNil => fun w => w = [] | PSnoc p s => sel_more s end.
