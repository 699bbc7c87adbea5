(** * Model of the reduction in the Python (separate process) build
    (src/core/Stage2RunnerNonRecursive.hpp and Stage3RunnerNonRecursive.hpp with PYCENTAURUS defined,
    src/python/centaurus/listener.py).

    The values live on the Python side; the C++ side keeps only how many there are.  Simplifications: a Python
    handler is a function of what the adapter shows it (rule, span, values); an exception in a handler or in the
    adapter (the process exits) and undefined behaviour of the C++ side are both [UB]; counters are unbounded. *)
From Coq Require Import List NArith ZArith Bool.
From Verif Require Import Marker Reduction.
Import ListNotations.

(** One invocation of a handler: symbol (listener.py:32-35) and the values it can iterate over (49-54). *)
Record pcall (V : Type) := mkPCall { pc_id : N; pc_start : N; pc_end : N; pc_args : list V }.
Arguments mkPCall {V}. Arguments pc_id {V}. Arguments pc_start {V}. Arguments pc_end {V}. Arguments pc_args {V}.

(** What listener.py's __getitem__ (51-52) returns for an index: Python counts a negative position of a list from its end.
    [vs] is self.values, first element first. *)
Definition py_nth {A} (vs : list A) (i : Z) : option A :=
  if (0 <=? i)%Z then nth_error vs (Z.to_nat i)
  else if (0 <=? Z.of_nat (length vs) + i)%Z then nth_error vs (Z.to_nat (Z.of_nat (length vs) + i)) else None.
Definition getitem {A} (vs : list A) (argc : nat) (index : Z) : option A :=
  py_nth vs (Z.of_nat (length vs) - Z.of_nat argc + index).

Section Py.
Context {V : Type}.
(** The handlers: rule id, start, end, values; None is Python's None (listener.py:32-41). *)
Variable h : N -> N -> N -> list V -> option V.
(** As in Reduction.v: what back() of an empty vector reads. *)
Variable eb : option Z.

(** C++ side: starts, ends, values.front() (the counter), tags; Python side: self.values, self.valueiters; history of
    handler invocations.  Vectors and lists used as stacks have their LAST element first; valueiters (a deque of
    iterators, each the list of what it has still to deliver) is in order. *)
Record pst := mkP { q_starts : list N; q_ends : list N; q_count : N; q_tags : list Z;
                    q_vals : list V; q_iters : list (list V); q_log : list (pcall V) }.
(** Stage2RunnerNonRecursive.hpp:144-146 (values.emplace_back(0)); listener.py:78-81. *)
Definition p_empty : pst := mkP [] [] 0 [] [] [] [].

(** push_start_marker, push_end_marker: Stage2RunnerNonRecursive.hpp:45-54. *)
Definition p_push_start (m : N) (s : pst) : pst :=
  mkP (m :: q_starts s) (q_ends s) (q_count s) (START_MARKER :: q_tags s) (q_vals s) (q_iters s) (q_log s).
Definition p_push_end (m : N) (s : pst) : pst :=
  mkP (q_starts s) (m :: q_ends s) (q_count s) (END_MARKER :: q_tags s) (q_vals s) (q_iters s) (q_log s).
(** push_value: Stage2RunnerNonRecursive.hpp:55-68; [v] is what the listener returned (0 or 1). *)
Definition p_push_value (v : N) (s : pst) : outc pst :=
  if (v =? 0)%N then Ok s
  else obind (bump_tag eb VALUE (q_tags s)) (fun ts =>
       Ok (mkP (q_starts s) (q_ends s) (q_count s + 1) ts (q_vals s) (q_iters s) (q_log s))).

(** invoke_hander: listener.py:32-41.  Fewer values than argc cannot be served. *)
Definition p_invoke (id st en : N) (argc : nat) (s : pst) : outc (N * pst) :=
  if (length (q_vals s) <? argc)%nat then UB
  else
    let args := rev (firstn argc (q_vals s)) in
    let rest := skipn argc (q_vals s) in
    let lg := mkPCall id st en args :: q_log s in
    match h id st en args with
    | None => Ok (0%N, mkP (q_starts s) (q_ends s) (q_count s) (q_tags s) rest (q_iters s) lg)
    | Some v => Ok (1%N, mkP (q_starts s) (q_ends s) (q_count s) (q_tags s) (v :: rest) (q_iters s) lg)
    end.
(** The loop of Stage3ListenerAdapter.reduction_callback: listener.py:93-101.  An iterator that delivered its last value
    just when the count became 0 stays in the deque and is removed the next time. *)
Fixpoint pull (n : nat) (iters : list (list V)) (vals : list V) : outc (list (list V) * list V) :=
  match n with
  | O => Ok (iters, vals)
  | _ => match iters with
         | [] => UB                                          (* IndexError *)
         | it :: r => if (n <=? length it)%nat then Ok (skipn n it :: r, rev (firstn n it) ++ vals)
                      else pull (n - length it) r (rev it ++ vals)
         end
  end.
(** Stage2ListenerAdapter.reduction_callback (listener.py:63-69; the counter is ignored) and
    Stage3ListenerAdapter.reduction_callback (91-106); [three]: which of the two. *)
Definition p_callback (three : bool) (id st en : N) (argc : nat) (s : pst) : outc (N * pst) :=
  if three then
    obind (pull (N.to_nat (q_count s)) (q_iters s) (q_vals s)) (fun '(its, vs) =>
    p_invoke id st en argc (mkP (q_starts s) (q_ends s) (q_count s) (q_tags s) vs its (q_log s)))
  else p_invoke id st en argc s.

(** reduce_by_end_marker: Stage2RunnerNonRecursive.hpp:69-97. *)
Definition p_reduce (three : bool) (m : N) (s : pst) : outc pst :=
  match q_starts s, q_tags s with
  | st :: starts', t :: tags' =>
    let argc := if (t <? 1)%Z then O else Z.to_nat t in
    let tags1 := if (t <? 1)%Z then q_tags s else tags' in
    obind (p_callback three (get_machine_id m) (get_offset st) (get_offset m) argc s) (fun '(v, s1) =>
    match tags1 with
    | [] => UB
    | _ :: tags2 =>
      obind (p_push_value v (mkP starts' (q_ends s1) (q_count s1) tags2 (q_vals s1) (q_iters s1) (q_log s1)))
        (fun s2 => Ok (mkP (q_starts s2) (q_ends s2) 0 (q_tags s2) (q_vals s2) (q_iters s2) (q_log s2)))
    end)
  | _, _ => UB
  end.

(** The loop of reduce_bank: Stage2RunnerNonRecursive.hpp:147-159. *)
Definition p_word (w : N) (s : pst) : outc pst :=
  if is_start_marker w then Ok (p_push_start w s)
  else match q_starts s with [] => Ok (p_push_end w s) | _ => p_reduce false w s end.
Fixpoint p_words (ws : list N) (s : pst) : outc pst :=
  match ws with [] => Ok s | w :: r => obind (p_word w s) (p_words r) end.

(** ** Writing the stacks into the bank and reading them back *)
(** int <-> four bytes of a word (little endian, low half first). *)
Definition u32 (z : Z) : N := Z.to_N (z mod 2 ^ 32).
Definition i32 (n : N) : Z := if (n <? 2 ^ 31)%N then Z.of_N n else (Z.of_N n - 2 ^ 32)%Z.
(** memcpy of the tags over the words [old]: an odd last tag leaves the upper half of its word as it was. *)
Fixpoint pack (ts : list Z) (old : list N) : list N :=
  match ts with
  | [] => []
  | [a] => [(u32 a + 2 ^ 32 * ((hd 0 old / 2 ^ 32) mod 2 ^ 32))%N]
  | a :: b :: r => (u32 a + 2 ^ 32 * u32 b)%N :: pack r (tl old)
  end.
(** Reading the tags: the first n ints of the words. *)
Fixpoint unpack (n : nat) (ws : list N) : outc (list Z) :=
  match n, ws with
  | O, _ => Ok []
  | S _, [] => UB
  | S O, w :: _ => Ok [i32 (w mod 2 ^ 32)%N]
  | S (S m), w :: r => obind (unpack m r) (fun l => Ok (i32 (w mod 2 ^ 32)%N :: i32 ((w / 2 ^ 32) mod 2 ^ 32)%N :: l))
  end.
(** The words written: Stage2RunnerNonRecursive.hpp:161-172. *)
Definition head_words (s : pst) : list N :=
  [N.of_nat (length (q_starts s))] ++ rev (q_starts s) ++ [N.of_nat (length (q_ends s))] ++ rev (q_ends s) ++
  [1%N; q_count s] ++ [N.of_nat (length (q_tags s))].
Definition tag_words (s : pst) (bank : list N) : list N := pack (rev (q_tags s)) (skipn (length (head_words s)) bank).
(** How many words that takes. *)
Definition needed (s : pst) : nat := length (q_starts s) + length (q_ends s) + 5 + Nat.div2 (S (length (q_tags s))).
(** reduce_bank: Stage2RunnerNonRecursive.hpp:134-177.  The bank as it is left, and the values that go into the channel
    (first element first; listener.py:71-77).  Writing behind the end of the bank (into the next one, or out of the
    window; the assert in line 173 is compiled out) is [UB]. *)
Definition p_bank (bank : list N) : outc (list N * list V * list (pcall V)) :=
  obind (p_words (bank_content bank) p_empty) (fun s =>
    if (length bank <? needed s)%nat then UB
    else Ok (head_words s ++ tag_words s bank ++ skipn (needed s) bank, rev (q_vals s), rev (q_log s))).

(** *** Stage 3 *)
Definition take (n : nat) (ws : list N) : outc (list N * list N) :=
  if (length ws <? n)%nat then UB else Ok (firstn n ws, skipn n ws).
Definition word (ws : list N) : outc (N * list N) := match ws with [] => UB | w :: r => Ok (w, r) end.
(** Stage3RunnerNonRecursive.hpp:34-46 and 64-72: starts, ends, values, tags, each preceded by its number. *)
Definition read_bank (bank : list N) : outc (list N * list N * list N * list Z) :=
  obind (word bank) (fun '(n1, r1) => obind (take (N.to_nat n1) r1) (fun '(ss, r2) =>
  obind (word r2) (fun '(n2, r3) => obind (take (N.to_nat n2) r3) (fun '(es, r4) =>
  obind (word r4) (fun '(n3, r5) => obind (take (N.to_nat n3) r5) (fun '(vs, r6) =>
  obind (word r6) (fun '(n4, r7) => obind (unpack (N.to_nat n4) r7) (fun ts => Ok (ss, es, vs, ts))))))))).
(** append_value: Stage3RunnerNonRecursive.hpp:118-133. *)
Definition p_append (n : Z) (s : pst) : outc pst :=
  obind (bump_tag eb n (q_tags s)) (fun ts =>
  Ok (mkP (q_starts s) (q_ends s) (q_count s + Z.to_N n) ts (q_vals s) (q_iters s) (q_log s))).
(** The loop over the tags of a chunk: Stage3RunnerNonRecursive.hpp:79-96. *)
Fixpoint p_merge (ts : list Z) (ss es : list N) (s : pst) : outc pst :=
  match ts with
  | [] => Ok s
  | t :: ts' =>
    if (t =? START_MARKER)%Z then
      match ss with m :: ss' => p_merge ts' ss' es (p_push_start m s) | [] => UB end
    else if (t =? END_MARKER)%Z then
      match es with m :: es' => obind (p_reduce true m s) (p_merge ts' ss es') | [] => UB end
    else obind (p_append t s) (p_merge ts' ss es)
  end.
(** One chunk: transfer_callback (listener.py:108-113) on acquiring, then the tags. *)
Definition p_chunk (s : pst) (c : list N * list V) : outc pst :=
  obind (read_bank (fst c)) (fun '(ss, es, _, ts) =>
  p_merge ts ss es (mkP (q_starts s) (q_ends s) (q_count s) (q_tags s) (q_vals s) (q_iters s ++ [snd c]) (q_log s))).
Fixpoint p_chunks (s : pst) (cs : list (list N * list V)) : outc pst :=
  match cs with [] => Ok s | c :: r => obind (p_chunk s c) (fun s' => p_chunks s' r) end.
(** Stage3Runner::reduce (Stage3RunnerNonRecursive.hpp:31-117) with the adapter, and what Stage3Worker.parse_impl hands
    out (context.py:74-82): the first value, or None. *)
Definition p_stage3 (cs : list (list N * list V)) : outc (option V * pst) :=
  match cs with
  | [] => UB
  | (b, vs) :: r =>
    obind (read_bank b) (fun '(ss, es, vals, ts) =>
    match vals with
    | [] => UB
    | c :: _ => obind (p_chunks (mkP (rev ss) (rev es) c (rev ts) (rev vs) [] []) r)
                  (fun s => Ok (hd_error (rev (q_vals s)), s))
    end)
  end.

Fixpoint p_banks (bs : list (list N)) : outc (list (list N * list V * list (pcall V))) :=
  match bs with
  | [] => Ok []
  | b :: r => obind (p_bank b) (fun x => obind (p_banks r) (fun l => Ok (x :: l)))
  end.
(** The whole reduction: result, calls of stage 2 bank by bank, calls of stage 3. *)
Definition p_reduction (bs : list (list N)) : outc (option V * list (list (pcall V)) * list (pcall V)) :=
  obind (p_banks bs) (fun cs =>
  obind (p_stage3 (map fst cs)) (fun '(v, s) => Ok (v, map snd cs, rev (q_log s)))).
End Py.
Arguments pst : clear implicits.
