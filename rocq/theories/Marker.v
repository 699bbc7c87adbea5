(** * Model of CST markers: 64-bit words written by the generated parser and
    read back by the reduction stages. *)
From Coq Require Import List NArith Bool.
Import ListNotations.
Open Scope N_scope.

(** uint64_t wrap-around. *)
Definition u64 (x : N) : N := x mod 2 ^ 64.

(** ParserEM64T::emit_machine, start marker: CodeGenEM64T.cpp:336-341
    (mov/sub give the offset, [id | 1<<15] shifted left by 48, or-ed in). *)
Definition start_word (id off : N) : N :=
  N.lor (u64 off) (u64 (N.shiftl (N.lor id (2 ^ 15)) 48)).
(** ParserEM64T::emit_machine, end marker: CodeGenEM64T.cpp:381-386. *)
Definition end_word (id off : N) : N :=
  N.lor (u64 off) (u64 (N.shiftl id 48)).

(** CSTMarker::get_machine_id: BaseRunner.hpp:21-24. *)
Definition get_machine_id (w : N) : N := N.land (N.shiftr w 48) (2 ^ 15 - 1).
(** CSTMarker::get_sign_bit: BaseRunner.hpp:25-28. *)
Definition get_sign_bit (w : N) : bool := negb (N.land w (2 ^ 63) =? 0).
(** CSTMarker::is_start_marker: BaseRunner.hpp:29-32. *)
Definition is_start_marker (w : N) : bool := get_sign_bit w && negb (get_machine_id w =? 0).
(** CSTMarker::is_end_marker: BaseRunner.hpp:33-36. *)
Definition is_end_marker (w : N) : bool := negb (get_sign_bit w) && negb (get_machine_id w =? 0).
(** CSTMarker::is_sv_marker: BaseRunner.hpp:37-40. *)
Definition is_sv_marker (w : N) : bool := get_sign_bit w && (get_machine_id w =? 0).
(** CSTMarker::get_offset: BaseRunner.hpp:41-44. *)
Definition get_offset (w : N) : N := N.land w (2 ^ 48 - 1).
