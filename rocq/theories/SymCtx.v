(** * Model of SymbolContext (src/core/Context.hpp): what a callback reads *)
From Coq Require Import List NArith ZArith.
Import ListNotations.

(** Conversion of a long to int (Context.hpp:46-49 returns symbol.end - symbol.start as int):
    modulo 2^32, as gcc does. *)
Definition to_int (z : Z) : Z := ((z + 2 ^ 31) mod 2 ^ 32 - 2 ^ 31)%Z.
(** SymbolContext::len: Context.hpp:46-49. *)
Definition sym_len (start stop : N) : Z := to_int (Z.of_N stop - Z.of_N start).
(** SymbolContext::start, end: Context.hpp:38-45. *)
Definition sym_start (window start : N) : N := (window + start)%N.
Definition sym_end (window stop : N) : N := (window + stop)%N.
(** k bytes of memory. *)
Fixpoint bytes (mem : N -> option N) (a : N) (k : nat) : option (list N) :=
  match k with
  | O => Some []
  | S k' => match mem a, bytes mem (a + 1) k' with Some c, Some l => Some (c :: l) | _, _ => None end
  end.
(** SymbolContext::read: Context.hpp:33-37.  basic_string(p, n) takes a size_t: a negative length
    becomes larger than max_size and the constructor throws length_error. *)
Inductive read_result := ReadOk (t : list N) | ReadThrows | ReadFault.
Definition sym_read (mem : N -> option N) (window start stop : N) : read_result :=
  let n := sym_len start stop in
  if (n <? 0)%Z then ReadThrows
  else match bytes mem (sym_start window start) (Z.to_nat n) with Some t => ReadOk t | None => ReadFault end.
(** SymbolContext::count, value: Context.hpp:50-58: 1-based; None: outside the array. *)
Definition sym_count (values : list N) : nat := length values.
Definition sym_value (values : list N) (i : Z) : option N := if (1 <=? i)%Z then nth_error values (Z.to_nat (i - 1)) else None.
