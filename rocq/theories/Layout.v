(** * Shared-memory layout (src/core/BaseRunner.hpp) and include paths (src/core/Grammar.cpp) *)
From Coq Require Import List NArith Bool.
Import ListNotations.
Open Scope N_scope.

(** ALIGN_NEXT: BaseRunner.hpp:9 (unbounded integers; the C++ sizes are size_t). *)
Definition align_next (x a : N) : N := (x + a - 1) / a * a.
(** IPC_PAGESIZE: BaseRunner.hpp:12. *)
Definition ipc_page : N := 8 * 1024 * 1024.
(** sizeof(WindowBankEntry): BaseRunner.hpp:100-104 (int + atomic enum). *)
Definition entry_size : N := 8.
(** get_main_window_size: BaseRunner.hpp:168-171. *)
Definition main_window_size (bank_size bank_num : N) : N := align_next bank_size ipc_page * bank_num.
(** get_sub_window_size: BaseRunner.hpp:172-175. *)
Definition sub_window_size (bank_num : N) : N := align_next (entry_size * bank_num) ipc_page.
(** get_window_size: BaseRunner.hpp:176-179; the size the object is truncated to, 249. *)
Definition window_size (bank_size bank_num : N) : N := main_window_size bank_size bank_num + sub_window_size bank_num.
(** Byte offsets within the shared object: the sub window is mapped at offset 0 and the main
    window at offset get_sub_window_size() (BaseRunner.hpp:250-251); entry i of the bank table
    is the i-th WindowBankEntry; bank i starts at m_main_window + m_bank_size * i
    (Stage1Runner.hpp:42, Stage2RunnerNonRecursive.hpp:189, Stage3RunnerNonRecursive.hpp:147). *)
Definition entry_at (i : N) : N := entry_size * i.
Definition bank_at (bank_size bank_num i : N) : N := sub_window_size bank_num + bank_size * i.

(** std::string::find_last_of('/') on a byte string; npos = 2^64 - 1. *)
Definition npos : N := 2 ^ 64 - 1.
Fixpoint find_last_from (p : list N) (i : N) (last : N) : N :=
  match p with
  | [] => last
  | c :: t => find_last_from t (i + 1) (if c =? 47 then i else last)
  end.
Definition find_last_slash (p : list N) : N := find_last_from p 0 npos.
(** make_include_path: Grammar.cpp:7-22; size_t arithmetic wraps modulo 2^64. *)
Definition make_include_path (base dest : list N) : list N :=
  let p := find_last_slash base in
  if p =? N.of_nat (length base) then dest
  else match dest with
       | c :: _ => if c =? 47 then dest else firstn (N.to_nat ((p + 1) mod 2 ^ 64)) base ++ dest
       | [] => firstn (N.to_nat ((p + 1) mod 2 ^ 64)) base ++ dest
       end.
