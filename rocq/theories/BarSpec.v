(** * Specification vocabulary for C31: the priorities a rule body declares with |>, and those that
    remain after optimisation.  On EBNF expressions only, independent of the networks. *)
From Coq Require Import List Arith Bool.
From Verif Require Import GrammarSpec.
Import ListNotations.

(** ** Declared priorities *)
(** The alternatives of a selection are numbered from 0; every |> starts the next priority. *)
Fixpoint level (e : gsel) : nat :=
  match e with GFirst _ => 0 | GAlt e up _ => if up then S (level e) else level e end.
(** The positive priorities of the alternatives of one selection. *)
Fixpoint own (e : gsel) : list nat :=
  match e with
  | GFirst _ => []
  | GAlt e' up _ => own e' ++ (let k := if up then S (level e') else level e' in if k =? 0 then [] else [k])
  end.
(** ... of a whole rule body, with all its groups. *)
Fixpoint atom_written (a : gatom) : list nat :=
  match a with GTerm _ => [] | GGroup e => own e ++ sel_written e end
with seq_written (s : gseq) : list nat :=
  match s with GNil => [] | GCons a _ s => atom_written a ++ seq_written s end
with sel_written (e : gsel) : list nat :=
  match e with GFirst s => seq_written s | GAlt e _ s => sel_written e ++ seq_written s end.
Definition body_written (e : gsel) : list nat := atom_written (GGroup e).

(** ** Remaining priorities *)
(** Between its atoms a sequence has points (before the first, after each).  Optimisation melts a
    point into the one before it, unless several ways lead to the point, or the one before it has
    itself melted.  [d]: the point before an atom has melted; [rep]: the atom is repeated.  The
    entrance of a group melts into the point before it iff the group is not repeated and that
    point has not melted; the entrances of the alternatives then stay, with their priorities.
    If the entrance of the group stays, those of its alternatives melt, and their priorities are
    lost.  The functions *_end: does the point after it melt? *)
Definition repeats (q : gquant) : bool := match q with GStar | GPlus => true | _ => false end.
Definition entrance_melts (d rep : bool) : bool := negb rep && negb d.
Definition quant_end (q : gquant) (r : bool) : bool := match q with GOne => r | GPlus => negb r | _ => false end.
Fixpoint atom_end (d rep : bool) (a : gatom) : bool :=
  match a with GTerm _ => false | GGroup e => sel_end (negb (entrance_melts d rep)) e end
with seq_end (d : bool) (s : gseq) : bool :=
  match s with GNil => d | GCons a q s => seq_end (quant_end q (atom_end d (repeats q) a)) s end
with sel_end (h : bool) (e : gsel) : bool :=
  match e with GFirst s => negb (seq_end h s) | GAlt _ _ _ => false end.
Fixpoint atom_kept (d rep : bool) (a : gatom) : list nat :=
  match a with
  | GTerm _ => []
  | GGroup e => (if entrance_melts d rep then own e else []) ++ sel_kept (negb (entrance_melts d rep)) e
  end
with seq_kept (d : bool) (s : gseq) : list nat :=
  match s with GNil => [] | GCons a q s => atom_kept d (repeats q) a ++ seq_kept (quant_end q (atom_end d (repeats q) a)) s end
with sel_kept (h : bool) (e : gsel) : list nat :=
  match e with GFirst s => seq_kept h s | GAlt e _ s => sel_kept h e ++ seq_kept h s end.
(** A rule body is a group at the start. *)
Definition body_kept (e : gsel) : list nat := atom_kept false false (GGroup e).
