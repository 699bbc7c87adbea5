(** * Model of the non-recursive reduction runners
    (src/core/Stage2RunnerNonRecursive.hpp, Stage3RunnerNonRecursive.hpp), C++
    build (PYCENTAURUS undefined). *)
From Coq Require Import List NArith ZArith Bool.
From Verif Require Import Marker.
Import ListNotations.

(** Outcome of C++ code: normal, or undefined behaviour reached. *)
Inductive outc (A : Type) := Ok (a : A) | UB.
Arguments Ok {A} _. Arguments UB {A}.
Definition obind {A B} (x : outc A) (k : A -> outc B) : outc B :=
  match x with Ok a => k a | UB => UB end.

(** One callback invocation: SymbolEntry (id, start, end) and the value array;
    ReductionListener, BaseRunner.hpp:83. *)
Record call := mkCall { c_id : N; c_start : N; c_end : N; c_args : list N }.

(** The four vectors of a reduction stack (Stage2RunnerNonRecursive.hpp:136-143).
    Each list holds the vector's elements LAST element first, so push_back is
    cons and back() is the head.  [log] records the callback invocations, last first. *)
Record stacks := mkS { starts : list N; ends : list N; values : list N; tags : list Z; log : list call }.
Definition empty_stacks : stacks := mkS [] [] [] [] [].

(** StackEntryTag: Stage2RunnerNonRecursive.hpp:18-22. *)
Definition START_MARKER : Z := (-1)%Z.
Definition END_MARKER : Z := 0%Z.
Definition VALUE : Z := 1%Z.
(** isValueTag: Stage2RunnerNonRecursive.hpp:24-27. *)
Definition isValueTag (t : Z) : bool := (VALUE <=? t)%Z.

Section Reduce.
(** The user callback, as a function of what it can observe: rule id, start and
    end offset and child values; the returned long is the new value. *)
Variable f : N -> N -> N -> list N -> N.
(** What evaluating [tags.back()] on an EMPTY vector does, Stage2RunnerNonRecursive.hpp:58:
    formally undefined behaviour ([None]); on common implementations it reads the
    word before the buffer ([Some z]). *)
Variable eb : option Z.

(** push_start_marker: Stage2RunnerNonRecursive.hpp:45-49. *)
Definition push_start_marker (m : N) (s : stacks) : stacks :=
  mkS (m :: starts s) (ends s) (values s) (START_MARKER :: tags s) (log s).
(** push_end_marker: Stage2RunnerNonRecursive.hpp:50-54. *)
Definition push_end_marker (m : N) (s : stacks) : stacks :=
  mkS (starts s) (m :: ends s) (values s) (END_MARKER :: tags s) (log s).

(** The tag update shared by push_value (n = 1), Stage2RunnerNonRecursive.hpp:58-62, and
    append_value, Stage3RunnerNonRecursive.hpp:121-125.  If back() of an empty
    vector happens to read as a value tag, the write to it is out of bounds. *)
Definition bump_tag (n : Z) (ts : list Z) : outc (list Z) :=
  match ts with
  | t :: r => if isValueTag t then Ok ((t + n)%Z :: r) else Ok (n :: ts)
  | [] => match eb with
          | Some z => if isValueTag z then UB else Ok [n]
          | None => UB
          end
  end.
(** push_value: Stage2RunnerNonRecursive.hpp:55-68. *)
Definition push_value (v : N) (s : stacks) : outc stacks :=
  if (v =? 0)%N then Ok s
  else obind (bump_tag VALUE (tags s)) (fun ts => Ok (mkS (starts s) (ends s) (v :: values s) ts (log s))).

(** reduce_by_end_marker: Stage2RunnerNonRecursive.hpp:69-97 (asserts are off in
    release builds and are not modelled as checks). *)
Definition reduce_by_end_marker (m : N) (s : stacks) : outc stacks :=
  match starts s, tags s with
  | st :: starts', t :: tags' =>
    let value_count := if (t <? 1)%Z then O else Z.to_nat t in
    let tags1 := if (t <? 1)%Z then tags s else tags' in
    if (length (values s) <? value_count)%nat then UB
    else
      let args := rev (firstn value_count (values s)) in
      let values' := skipn value_count (values s) in
      let c := mkCall (get_machine_id m) (get_offset st) (get_offset m) args in
      let new_val := f (get_machine_id m) (get_offset st) (get_offset m) args in
      match tags1 with
      | [] => UB                                            (* pop_back on empty *)
      | _ :: tags2 => push_value new_val (mkS starts' (ends s) values' tags2 (c :: log s))
      end
  | _, _ => UB                                              (* back() on empty *)
  end.

(** Body of the loop of reduce_bank: Stage2RunnerNonRecursive.hpp:149-158. *)
Definition reduce_word (w : N) (s : stacks) : outc stacks :=
  if is_start_marker w then Ok (push_start_marker w s)
  else match starts s with
       | [] => Ok (push_end_marker w s)
       | _ => reduce_by_end_marker w s
       end.

(** The words of a bank before the zero terminator (or all of them):
    Stage2RunnerNonRecursive.hpp:147-148. *)
Fixpoint bank_content (bank : list N) : list N :=
  match bank with
  | [] => []
  | w :: b => if (w =? 0)%N then [] else w :: bank_content b
  end.

Fixpoint reduce_words (ws : list N) (s : stacks) : outc stacks :=
  match ws with
  | [] => Ok s
  | w :: ws' => obind (reduce_word w s) (reduce_words ws')
  end.
(** reduce_bank: Stage2RunnerNonRecursive.hpp:134-177. *)
Definition reduce_bank (bank : list N) : outc stacks := reduce_words (bank_content bank) empty_stacks.

(** append_value: Stage3RunnerNonRecursive.hpp:118-133; [vs] are the n values read. *)
Definition append_value (vs : list N) (n : Z) (s : stacks) : outc stacks :=
  obind (bump_tag n (tags s)) (fun ts => Ok (mkS (starts s) (ends s) (rev vs ++ values s) ts (log s))).

(** The inner loop of Stage3Runner::reduce over one chunk:
    Stage3RunnerNonRecursive.hpp:79-96.  [ts], [ss], [es], [vs] are the remaining
    tags/starts/ends/values of the next chunk, FIRST element first; dereferencing
    an exhausted iterator is UB. *)
Fixpoint merge_tags (ts : list Z) (ss es vs : list N) (s : stacks) : outc stacks :=
  match ts with
  | [] => Ok s
  | t :: ts' =>
    if (t =? START_MARKER)%Z then
      match ss with
      | m :: ss' => merge_tags ts' ss' es vs (push_start_marker m s)
      | [] => UB
      end
    else if (t =? END_MARKER)%Z then
      match es with
      | m :: es' => obind (reduce_by_end_marker m s) (merge_tags ts' ss es' vs)
      | [] => UB
      end
    else
      let n := Z.to_nat t in
      if (length vs <? n)%nat then UB
      else obind (append_value (firstn n vs) t s) (merge_tags ts' ss es (skipn n vs))
  end.
(** One iteration of the while loop: Stage3RunnerNonRecursive.hpp:62-106. *)
Definition merge_chunk (s next : stacks) : outc stacks :=
  merge_tags (rev (tags next)) (rev (starts next)) (rev (ends next)) (rev (values next)) s.
Fixpoint merge_chunks (s : stacks) (nexts : list stacks) : outc stacks :=
  match nexts with
  | [] => Ok s
  | n :: r => obind (merge_chunk s n) (fun s' => merge_chunks s' r)
  end.
(** Stage3Runner::reduce: Stage3RunnerNonRecursive.hpp:31-117, given the chunks in
    order; the base chunk's own log belongs to stage 2 and is cleared. *)
Definition stage3 (chunks : list stacks) : outc (N * stacks) :=
  match chunks with
  | [] => UB                                       (* first acquire_bank returned nullptr *)
  | base :: r =>
    obind (merge_chunks (mkS (starts base) (ends base) (values base) (tags base) []) r)
      (fun s => Ok (match rev (values s) with [] => 0%N | v :: _ => v end, s))
  end.

Fixpoint reduce_banks (banks : list (list N)) : outc (list stacks) :=
  match banks with
  | [] => Ok []
  | b :: r => obind (reduce_bank b) (fun s => obind (reduce_banks r) (fun l => Ok (s :: l)))
  end.

(** The whole reduction of the banks in order (stage 2 on each, then stage 3):
    result value, and the calls made by stage 2 per bank and by stage 3. *)
Definition reduction (banks : list (list N)) : outc (N * list (list call) * list call) :=
  obind (reduce_banks banks) (fun chunks =>
  obind (stage3 chunks) (fun '(v, s) =>
  Ok (v, map (fun c => rev (log c)) chunks, rev (log s)))).
End Reduce.
