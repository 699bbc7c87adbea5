(** * Model of character classes (src/core/CharClass.hpp, src/core/CharClass.cpp)

    Characters are [N]; the instantiation modelled is [CharClass<char>] which,
    with the -funsigned-char flag of CMakeLists.txt, ranges over 0..255 with
    [numeric_limits<char>::max() = 255].  Arithmetic on ranges never leaves
    0..255 except in the narrowing of wide characters, modelled by [narrow]. *)
From Coq Require Import List NArith Bool.
Import ListNotations.
Open Scope N_scope.

(** A half-open range, class Range<TCHAR>: CharClass.hpp:24-97. *)
Record range := mkR { rs : N; re : N }.

(** numeric_limits<TCHAR>::max() for TCHAR=char under -funsigned-char
    (CMakeLists.txt; used in CharClass.hpp:159,187). *)
Definition char_max : N := 255.

(** Conversion wchar_t -> char (value modulo 256): wide_to_target
    (CharClass.hpp:38-41) and the implicit conversion in CharClass.cpp:88,100,108. *)
Definition narrow (c : N) : N := c mod 256.

(** Range::operator< : CharClass.hpp:49-52. *)
Definition r_lt (a b : range) : bool := re a <=? rs b.
(** Range::operator> : CharClass.hpp:53-56. *)
Definition r_gt (a b : range) : bool := re b <=? rs a.
(** Range::operator== : CharClass.hpp:57-60. *)
Definition r_eqb (a b : range) : bool := (rs a =? rs b) && (re a =? re b).
(** Range::overlaps (true also for ranges that only touch): CharClass.hpp:61-64. *)
Definition r_overlaps (a b : range) : bool := (rs a <=? re b) && (rs b <=? re a).
(** Range::includes(Range): CharClass.hpp:65-68. *)
Definition r_includes (a b : range) : bool := (rs a <=? rs b) && (re b <=? re a).
(** Range::merge: CharClass.hpp:69-72. *)
Definition r_merge (a b : range) : range := mkR (N.min (rs a) (rs b)) (N.max (re a) (re b)).
(** Range::intersect: CharClass.hpp:73-76. *)
Definition r_intersect (a b : range) : range := mkR (N.max (rs a) (rs b)) (N.min (re a) (re b)).

(** class CharClass<TCHAR>, its vector of ranges: CharClass.hpp:106-108. *)
Definition cclass := list range.

(** CharClass(wchar_t ch): CharClass.hpp:121-124. *)
Definition cc_single (ch : N) : cclass := [mkR (narrow ch) (narrow (ch + 1))].
(** CharClass(wchar_t start, wchar_t end): CharClass.hpp:132-135. *)
Definition cc_range (s e : N) : cclass := [mkR (narrow s) (narrow e)].
(** CharClass(initializer_list<wchar_t>), note: unsorted: CharClass.hpp:125-131. *)
Definition cc_list (l : list N) : cclass := map (fun c => mkR (narrow c) (narrow (c + 1))) l.
(** CharClass::make_star: CharClass.hpp:157-160. *)
Definition make_star : cclass := cc_range 0 char_max.
(** CharClass::is_epsilon: CharClass.hpp:161-164. *)
Definition is_epsilon (c : cclass) : bool := match c with [] => true | _ => false end.

(** CharClass::includes(TCHAR): CharClass.hpp:259-266. *)
Definition includes (c : cclass) (ch : N) : bool :=
  existsb (fun r => (rs r <=? ch) && (ch <? re r)) c.

(** CharClass::includes(Range): CharClass.hpp:251-258. *)
Definition includes_range (c : cclass) (r : range) : bool :=
  existsb (fun mr => r_includes mr r) c.

(** CharClass::operator==: CharClass.hpp:223-226. *)
Fixpoint cc_eqb (a b : cclass) : bool :=
  match a, b with
  | [], [] => true
  | x :: a', y :: b' => r_eqb x y && cc_eqb a' b'
  | _, _ => false
  end.

(** The loop of CharClass::operator~: CharClass.hpp:181-188. *)
Fixpoint compl_loop (last_end : N) (l : cclass) : cclass :=
  match l with
  | [] => if last_end <? char_max then [mkR last_end char_max] else []
  | r :: l' => mkR last_end (rs r) :: compl_loop (re r) l'
  end.

(** CharClass::operator~: CharClass.hpp:165-191. *)
Definition compl (c : cclass) : cclass :=
  match c with
  | r :: l' => if rs r =? 1 then compl_loop (re r) l' else compl_loop 1 c
  | [] => compl_loop 1 []
  end.

(** Second loop of operator|(Range) and the final copy: CharClass.hpp:203-211. *)
Fixpoint add_merge (l : cclass) (r : range) : cclass :=
  match l with
  | i :: l' => if r_overlaps i r then add_merge l' (r_merge r i) else r :: l
  | [] => [r]
  end.

(** CharClass::operator|(Range) / operator|=(Range): CharClass.hpp:192-217. *)
Fixpoint add_range (l : cclass) (r : range) : cclass :=
  match l with
  | i :: l' => if r_overlaps i r then add_merge l r else i :: add_range l' r
  | [] => [r]
  end.

(** State of the two-iterator loops below: the pair (ri, i) is kept as the
    current (possibly modified) range [ri] and the list [li] that starts with
    the *original* element the iterator points to; [li = []] means i == cend. *)
Definition next_r (l : cclass) (old : range) : range :=
  match l with [] => old | r :: _ => r end.

(** CharClass::operator|(CharClass): CharClass.cpp:123-170.  Fuelled by the
    number of iterations; [None] = out of fuel (never for the fuel used). *)
Fixpoint union_loop (fuel : nat) (ri : range) (li : cclass) (rj : range) (lj : cclass)
  : option cclass :=
  match li, lj with
  | [], _ => Some lj
  | _, [] => Some li
  | _ :: li', _ :: lj' =>
    match fuel with
    | O => None
    | S f =>
      if r_lt ri rj then
        option_map (cons ri) (union_loop f (next_r li' ri) li' rj lj)
      else if r_gt ri rj then
        option_map (cons rj) (union_loop f ri li (next_r lj' rj) lj')
      else if re ri <? re rj then
        union_loop f (next_r li' ri) li' (r_merge rj ri) lj
      else
        union_loop f (r_merge ri rj) li (next_r lj' rj) lj'
    end
  end.

(** CharClass::operator|(CharClass): CharClass.cpp:123-170. *)
Definition union (a b : cclass) : option cclass :=
  union_loop (length a + length b) (next_r a (mkR 0 0)) a (next_r b (mkR 0 0)) b.

(** CharClass::operator&: CharClass.cpp:173-215 (here the current ranges are
    never modified, so the iterators are the list heads). *)
Fixpoint inter_loop (fuel : nat) (a b : cclass) : option cclass :=
  match a, b with
  | [], _ => Some []
  | _, [] => Some []
  | ri :: a', rj :: b' =>
    match fuel with
    | O => None
    | S f =>
      if r_lt ri rj then inter_loop f a' b
      else if r_gt ri rj then inter_loop f a b'
      else option_map (cons (r_intersect ri rj))
             (if re ri <? re rj then inter_loop f a' b else inter_loop f a b')
    end
  end.
Definition inter (a b : cclass) : option cclass := inter_loop (length a + length b) a b.

(** CharClass::overlaps: CharClass.hpp:267-288. *)
Fixpoint overlaps_loop (fuel : nat) (a b : cclass) : option bool :=
  match a, b with
  | [], _ => Some false
  | _, [] => Some false
  | ri :: a', rj :: b' =>
    match fuel with
    | O => None
    | S f =>
      if r_lt ri rj then overlaps_loop f a' b
      else if r_lt rj ri then overlaps_loop f a b'
      else Some true
    end
  end.
Definition overlaps (a b : cclass) : option bool := overlaps_loop (length a + length b) a b.

(** CharClass::append: CharClass.hpp:289-306. *)
Definition append (l : cclass) (r : range) : cclass :=
  match rev l with
  | [] => [r]
  | b :: before => if re b =? rs r then rev before ++ [mkR (rs b) (re r)] else l ++ [r]
  end.

(** CharClass::diff_and_int: CharClass.hpp:310-406.  The first element of each
    list is the current (possibly truncated) [ri]/[rj]: unlike operator|, the
    tail copies at 388-399 use [ri]/[rj], not the original element. *)
Fixpoint dai_loop (fuel : nat) (a b : cclass) (r0 r1 r2 : cclass)
  : option (cclass * cclass * cclass) :=
  match a, b with
  | [], _ => Some (r0, fold_left append b r1, r2)
  | _, [] => Some (fold_left append a r0, r1, r2)
  | ri :: a', rj :: b' =>
    match fuel with
    | O => None
    | S f =>
      if r_lt ri rj then dai_loop f a' b (append r0 ri) r1 r2
      else if r_gt ri rj then dai_loop f a b' r0 (append r1 rj) r2
      else if rs ri <? rs rj then
        dai_loop f (mkR (rs rj) (re ri) :: a') b (append r0 (mkR (rs ri) (rs rj))) r1 r2
      else if rs rj <? rs ri then
        dai_loop f a (mkR (rs ri) (re rj) :: b') r0 (append r1 (mkR (rs rj) (rs ri))) r2
      else if re rj <? re ri then
        dai_loop f (mkR (re rj) (re ri) :: a') b' r0 r1 (append r2 (mkR (rs rj) (re rj)))
      else if re ri <? re rj then
        dai_loop f a' (mkR (re ri) (re rj) :: b') r0 r1 (append r2 (mkR (rs ri) (re ri)))
      else dai_loop f a' b' r0 r1 (append r2 (mkR (rs ri) (re rj)))
    end
  end.
Definition diff_and_int (a b : cclass) : option (cclass * cclass * cclass) :=
  dai_loop (2 * (length a + length b)) a b [] [] [].

(** std::sort(m_ranges.begin(), m_ranges.end()) with Range::operator<,
    CharClass.cpp:115.  Modelled as libstdc++'s insertion sort (used for at
    most 16 elements); when the ranges are pairwise comparable -- the only case
    in which the theorems use more than "it permutes" -- every sorting
    algorithm gives this result. *)
Fixpoint ins_back (p : cclass) (r : range) : cclass :=   (* p = sorted prefix, last element first *)
  match p with
  | [] => [r]
  | x :: p' => if r_lt r x then x :: ins_back p' r else r :: p
  end.
Definition insert_r (l : cclass) (r : range) : cclass :=
  match l with
  | [] => [r]
  | x :: _ => if r_lt r x then r :: l else rev (ins_back (rev l) r)
  end.
Definition sort_ranges (l : cclass) : cclass := fold_left insert_r l [].

(** ** CharClass::parse, CharClass.cpp:12-121. *)

(** Outcome of a parser: value and rest of the text, or the exception thrown. *)
Inductive pres (A : Type) := POk (a : A) (rest : list N) | PThrow.
Arguments POk {A} _ _. Arguments PThrow {A}.

(** The three states of the range automaton: CharClass.cpp:26-31. *)
Inductive ccst := CStart | CRange (start : N) | CEnd (start : N).

(** Escapes: CharClass.cpp:39-72. *)
Definition cc_escape (ch : N) : option N :=
  if (ch =? 92) || (ch =? 45) || (ch =? 91) || (ch =? 93) then Some ch
  else if (ch =? 116) || (ch =? 84) then Some 9
  else if (ch =? 114) || (ch =? 82) then Some 13
  else if (ch =? 110) || (ch =? 78) then Some 10
  else None.

(** The narrowing Range<TCHAR>(start, end) of CharClass.cpp:88,100,108. *)
Definition wr (s e : N) : range := mkR (narrow s) (narrow e).

(** One pass of the switch in CharClass.cpp:73-104; None = throw. *)
Definition cc_step (st : ccst) (cc : cclass) (escaped : bool) (ch : N) : option (ccst * cclass) :=
  let dash := negb escaped && (ch =? 45) in
  match st with
  | CStart => if dash then None else Some (CRange ch, cc)
  | CRange s => if dash then Some (CEnd s, cc) else Some (CRange ch, add_range cc (wr s (s + 1)))
  | CEnd s => if dash then None else Some (CStart, add_range cc (wr s (ch + 1)))
  end.

(** The loop CharClass.cpp:32-105; [text] is what stream.get() will deliver
    (end of text = get() returning '\0'), CR/LF folding being done by Stream. *)
Fixpoint cc_loop (text : list N) (st : ccst) (cc : cclass) : pres (ccst * cclass) :=
  match text with
  | [] => PThrow
  | ch :: t =>
    if ch =? 93 then POk (st, cc) t
    else if (ch =? 0) || (ch =? 65535) then PThrow
    else if ch =? 92 then
      match t with
      | [] => PThrow
      | e :: t' =>
        match cc_escape e with
        | None => PThrow
        | Some ch' => match cc_step st cc true ch' with
                      | None => PThrow
                      | Some (st', cc') => cc_loop t' st' cc'
                      end
        end
      end
    else match cc_step st cc false ch with
         | None => PThrow
         | Some (st', cc') => cc_loop t st' cc'
         end
  end.

(** CharClass.cpp:106-120. *)
Definition cc_finish (st : ccst) (cc : cclass) (invert : bool) : option cclass :=
  match st with
  | CEnd _ => None
  | _ =>
    let cc := match st with CRange s => add_range cc (wr s (s + 1)) | _ => cc end in
    let cc := sort_ranges cc in
    Some (if invert then compl cc else cc)
  end.

(** CharClass::parse: CharClass.cpp:12-121 (called after the opening bracket). *)
Definition cc_parse (text : list N) : pres cclass :=
  let '(invert, body) := match text with
                         | 94 :: t => (true, t)
                         | _ => (false, text)
                         end in
  match cc_loop body CStart [] with
  | PThrow => PThrow
  | POk (st, cc) rest => match cc_finish st cc invert with
                         | None => PThrow
                         | Some c => POk c rest
                         end
  end.
