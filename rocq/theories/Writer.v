(** * Model of the marker writer: how the generated parser fills banks.

    [B] is AST_BUF_SIZE/8, the number of words after which the generated code
    asks for a new page (CodeGenEM64T.hpp:75, CodeGenEM64T.cpp:102,343,388,427,454);
    [M] is m_bank_size/8, the number of words the bank really has and that
    stage 2 scans (Stage2RunnerNonRecursive.hpp:147).  Context::parse passes 8 MiB for both. *)
From Coq Require Import List NArith Arith Bool.
From Verif Require Import Reduction.
Import ListNotations.

Section W.
Variables B M : nat.
(** Old contents of the page returned by the k-th request (the shared memory is
    recycled, Stage1Runner.hpp:34-46; nothing clears it). *)
Variable stale : nat -> list N.

(** Writer state: released banks (newest first), current page, next word index. *)
Record wstate := mkW { released : list (list N); page : list N; pos : nat }.

(** Store a word at an index of a page (movnti [OUTPUT_REG], CodeGenEM64T.cpp:341,386). *)
Definition store (p : list N) (i : nat) (w : N) : list N := firstn i p ++ w :: skipn (S i) p.

(** feed_callback on the first page: CodeGenEM64T.hpp:87-91, Stage1Runner.hpp:107-111. *)
Definition winit : wstate := mkW [] (stale 0) 0.

(** request_page = release_bank; acquire_bank: CodeGenEM64T.cpp:409-462,466-471, Stage1Runner.hpp:107-111. *)
Definition request_page (s : wstate) : wstate :=
  mkW (page s :: released s) (stale (S (length (released s)))) 0.

(** Write one marker and request a page when the bound is reached:
    CodeGenEM64T.cpp:341-344,386-389.  Writing past the bank is UB. *)
Definition put (s : wstate) (w : N) : outc wstate :=
  if (pos s <? M)%nat then
    let s' := mkW (released s) (store (page s) (pos s) w) (S (pos s)) in
    Ok (if (pos s' =? B)%nat then request_page s' else s')
  else UB.

Fixpoint puts (s : wstate) (ws : list N) : outc wstate :=
  match ws with
  | [] => Ok s
  | w :: r => obind (put s w) (fun s' => puts s' r)
  end.

(** The land-fill loop (do ... while OUTPUT != BOUND): CodeGenEM64T.cpp:121-128;
    [n] bounds the number of iterations, running out of it = the loop has left the page. *)
Fixpoint landfill (n : nat) (s : wstate) : outc wstate :=
  match n with
  | O => UB
  | S n' =>
    if (pos s <? M)%nat then
      let s' := mkW (released s) (store (page s) (pos s) 0%N) (S (pos s)) in
      if (pos s' =? B)%nat then Ok s' else landfill n' s'
    else UB
  end.

(** A complete accepted parse: markers, land-fill, final release_bank
    (Stage1Runner.hpp:29-31).  Banks in production order. *)
Definition write_accept (ws : list N) : outc (list (list N)) :=
  obind (puts winit ws) (fun s =>
  obind (landfill (S B) s) (fun s' => Ok (rev (page s' :: released s')))).

(** A rejected parse: the reject path jumps to the epilogue, skipping the
    land-fill (CodeGenEM64T.cpp:121-131,143), then release_bank as always. *)
Definition write_reject (ws : list N) : outc (list (list N)) :=
  obind (puts winit ws) (fun s => Ok (rev (page s :: released s))).
End W.
