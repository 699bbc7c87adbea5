(** * Model of how the input file becomes the text (src/core/BaseRunner.hpp:145-152, get_input 184-187; Linux branch)

    open, fstat, mmap(NULL, st_size, PROT_READ, MAP_SHARED, fd, 0), close; no result is checked, and nothing is put
    behind the file.  What mmap does is stated here and trusted: whole pages of 4096 bytes are mapped, the bytes of the last page
    behind the end of the file read as zero (POSIX mmap, linux mmap(2)), and a length of 0 is refused with EINVAL.
    Not modelled: a file that changes while it is mapped. *)
From Coq Require Import List NArith Arith Bool.
From Verif Require Import X86 CodeGenSimd.
Import ListNotations.
Local Open Scope nat_scope.

Definition page_size : nat := 4096.
(** Zero bytes behind a file of n bytes. *)
Definition fill (n : nat) : nat := (page_size - n mod page_size) mod page_size.
(** The bytes at m_input_window; None: MAP_FAILED. *)
Definition input_window (file : list N) : option (list N) :=
  match file with [] => None | _ => Some (file ++ repeat 0%N (fill (length file))) end.

(** The memory of a parse of this file, mapped at a: at least the window is there. *)
Definition holds (e : env) (a : N) (file : list N) : Prop :=
  exists w, input_window file = Some w /\ (0 < a)%N /\ text_at (mem e) a w.
(** Nothing else is: the page behind the window is not mapped (mmap places mappings at its own discretion, and
    other mappings may follow; this is the case the program cannot exclude). *)
Definition holds_only (e : env) (a : N) (file : list N) : Prop :=
  holds e a file /\ forall x, (a + N.of_nat (length file + fill (length file)) <= x)%N -> mem e x = None.
