(** * Model of the character stream (src/core/Stream.hpp) and of identifiers
    (src/core/Identifier.hpp)

    Characters are code points [N].  [iswspace], [iswalpha], [iswalnum] are those of the
    "C" locale (the library never calls setlocale).  The error position fields are kept
    because the line number is observable in exception messages. *)
From Coq Require Import List NArith Bool.
Import ListNotations.
Open Scope N_scope.

(** class Stream: Stream.hpp:31-50; [rest] is the text from m_cur on. *)
Record stream := mkS { rest : list N; line : nat; pos : nat; nlf : bool }.
(** Constructor: Stream.hpp:39-48. *)
Definition open_text (s : list N) : stream := mkS s 1 0 false.

(** The characters that set m_newline_flag: Stream.hpp:103. *)
Definition is_newline (c : N) : bool := (c =? 10) || (c =? 133) || (c =? 8232) || (c =? 8233).

(** Stream::get: Stream.hpp:75-109. *)
Definition get (s : stream) : N * stream :=
  match rest s with
  | [] => (0, s)
  | c :: t =>
    let '(ln, ps) := if nlf s then (S (line s), 0%nat) else (line s, S (pos s)) in
    if c =? 13 then
      match t with
      | [] => (10, mkS [] ln ps false)
      | d :: t' => if d =? 10 then (13, mkS t' ln (S ps) true) else (13, mkS t ln ps false)
      end
    else (c, mkS t ln ps (is_newline c))
  end.
(** Stream::peek(): Stream.hpp:110-115. *)
Definition peek (s : stream) : N := match rest s with [] => 0 | c :: _ => c end.
(** Stream::peek(2): Stream.hpp:116-124.  At the last character the code dereferences
    m_str.end(), which for the wstring implementation in use is the terminating L'\0'. *)
Definition peek2 (s : stream) : N := match rest s with _ :: c :: _ => c | _ => 0 end.
(** Stream::discard(): Stream.hpp:125-128. *)
Definition discard (s : stream) : stream := snd (get s).

(** Outcome: value, exception, or (never, see StreamProofs) loop budget exhausted. *)
Inductive sres (A : Type) := SOk (a : A) | SThrow | SFuel.
Arguments SOk {A} _. Arguments SThrow {A}. Arguments SFuel {A}.

(** Stream::skip_multiline_comment: Stream.hpp:52-68. *)
Fixpoint skip_block (fuel : nat) (s : stream) : sres stream :=
  match fuel with
  | O => SFuel
  | S f =>
    let '(c, s1) := get s in
    if c =? 0 then SThrow
    else if (c =? 42) && (peek s1 =? 47) then SOk (discard s1)
    else skip_block f s1
  end.
(** Stream::skip_oneline_comment: Stream.hpp:69-73. *)
Fixpoint skip_line (fuel : nat) (s : stream) : sres stream :=
  match fuel with
  | O => SFuel
  | S f => let '(c, s1) := get s in if (c =? 0) || (c =? 10) then SOk s1 else skip_line f s1
  end.
(** std::iswspace in the C locale. *)
Definition isspace (c : N) : bool := (c =? 32) || ((9 <=? c) && (c <=? 13)).
(** Stream::skip_whitespace: Stream.hpp:134-171 (the returned character is [peek] of the
    resulting stream). *)
Fixpoint skip_whitespace_f (fuel : nat) (s : stream) : sres stream :=
  match fuel with
  | O => SFuel
  | S f =>
    let c := peek s in
    if isspace c then skip_whitespace_f f (discard s)
    else if c =? 47 then
      let d := peek2 s in
      if d =? 42 then
        match skip_block (S (length (rest s))) (discard (discard s)) with
        | SOk s' => skip_whitespace_f f s'
        | r => r
        end
      else if d =? 47 then
        match skip_line (S (length (rest s))) (discard (discard s)) with
        | SOk s' => skip_whitespace_f f s'
        | r => r
        end
      else SOk s
    else SOk s
  end.
Definition skip_whitespace (s : stream) : sres stream := skip_whitespace_f (S (length (rest s))) s.

(** std::iswalpha / iswalnum in the C locale. *)
Definition isalpha (c : N) : bool := ((65 <=? c) && (c <=? 90)) || ((97 <=? c) && (c <=? 122)).
Definition isdigit (c : N) : bool := (48 <=? c) && (c <=? 57).
(** Identifier::is_symbol_leader / is_symbol_char: Identifier.hpp:16-23. *)
Definition is_leader (c : N) : bool := (c =? 95) || isalpha c.
Definition is_symchar (c : N) : bool := (c =? 95) || isalpha c || isdigit c.
(** The loop of Identifier::parse: Identifier.hpp:34-38; [acc]: characters between the
    sentry and m_cur, newest first. *)
Fixpoint ident_loop (fuel : nat) (s : stream) (acc : list N) : sres (list N * stream) :=
  match fuel with
  | O => SFuel
  | S f => if is_symchar (peek s) then ident_loop f (discard s) (peek s :: acc) else SOk (rev acc, s)
  end.
(** Identifier::parse: Identifier.hpp:24-41.  [cut] (Stream.hpp:181-184) takes the raw text
    between the two positions, which is [acc] because symbol characters are never CR. *)
Definition ident_parse (s : stream) : sres (list N * stream) :=
  let '(c, s1) := get s in
  if is_leader c then ident_loop (S (length (rest s1))) s1 [c] else SThrow.

(** The characters successive get() calls deliver: CR LF is delivered as one CR, a CR at
    the very end as LF (Stream.hpp:94-101). *)
Fixpoint deliver (t : list N) : list N :=
  match t with
  | [] => []
  | c :: t' => if c =? 13 then
                 match t' with
                 | [] => [10]
                 | d :: t'' => if d =? 10 then 13 :: deliver t'' else 13 :: deliver t'
                 end
               else c :: deliver t'
  end.

(** The same functions over the delivered characters, used by the parsers of patterns and
    grammars (justified by StreamProofs.v: get_deliver, skip_deliver, ident_deliver). *)
Fixpoint lskip_block (l : list N) : option (list N) :=      (* None: end of text, thrown *)
  match l with
  | [] => None
  | c :: t => if c =? 0 then None
              else if c =? 42 then match t with
                                   | 47 :: t' => Some t'
                                   | _ => lskip_block t
                                   end
              else lskip_block t
  end.
Fixpoint lskip_line (l : list N) : list N :=
  match l with
  | [] => []
  | c :: t => if (c =? 0) || (c =? 10) then t else lskip_line t
  end.
Fixpoint lskip (fuel : nat) (l : list N) : sres (list N) :=
  match fuel with
  | O => SFuel
  | S f =>
    match l with
    | c :: t =>
      if isspace c then lskip f t
      else if c =? 47 then
        match t with
        | d :: t' => if d =? 42 then match lskip_block t' with Some r => lskip f r | None => SThrow end
                     else if d =? 47 then lskip f (lskip_line t')
                     else SOk l
        | [] => SOk l
        end
      else SOk l
    | [] => SOk l
    end
  end.
Definition lskip_ws (l : list N) : sres (list N) := lskip (S (length l)) l.
Fixpoint lident_loop (l : list N) : list N * list N :=
  match l with
  | c :: t => if is_symchar c then let '(a, r) := lident_loop t in (c :: a, r) else ([], l)
  | [] => ([], [])
  end.
Definition lident (l : list N) : sres (list N * list N) :=
  match l with
  | c :: t => if is_leader c then let '(a, r) := lident_loop t in SOk (c :: a, r) else SThrow
  | [] => SThrow
  end.
