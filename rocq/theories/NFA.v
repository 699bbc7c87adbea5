(** * Model of pattern parsing and NFA construction (src/core/NFA.hpp) *)
From Coq Require Import List NArith Bool.
From Verif Require Import CharClass Stream.
Import ListNotations.
Open Scope N_scope.

(** class NFATransition: NFA.hpp:21-84.  The tag field is never given a value other than 0
    by the code modelled here and is left out. *)
Record ntr := mkT { tlab : cclass; tdest : nat; tlong : bool }.
(** NFABaseState: its vector of transitions (NFA.hpp:88-92; the label field is unused in NFAs). *)
Notation nstate := (list ntr).
(** NFABase::m_states: NFA.hpp:226-230. *)
Notation nfa := (list nstate).

Definition teps (t : ntr) : bool := is_epsilon (tlab t).
(** m_label |= cc: NFA.hpp:52-55 ([union] never fails, see NFAProofs.union_total). *)
Definition cc_or (a b : cclass) : cclass := match union a b with Some c => c | None => [] end.

(** The merging loop of add_transition(cc, dest, long): NFA.hpp:124-132. *)
Fixpoint merge_tr (st : nstate) (cc : cclass) (dest : nat) (long : bool) : option nstate :=
  match st with
  | [] => None
  | t :: st' => if (Nat.eqb (tdest t) dest && negb (teps t))%bool
                then Some (mkT (cc_or (tlab t) cc) (tdest t) (tlong t || long) :: st')
                else option_map (cons t) (merge_tr st' cc dest long)
  end.
(** NFABaseState::add_transition(cc, dest, long): NFA.hpp:120-135. *)
Definition add_tr (cc : cclass) (dest : nat) (long : bool) (st : nstate) : nstate :=
  if is_epsilon cc then st ++ [mkT cc dest long]
  else match merge_tr st cc dest long with
       | Some st' => st'
       | None => st ++ [mkT cc dest long]
       end.
(** NFATransition::offset / NFABaseState::offset: NFA.hpp:56-59, 136-146. *)
Definition shift_tr (k : nat) (t : ntr) : ntr := mkT (tlab t) (tdest t + k) (tlong t).
Definition shift (k : nat) (st : nstate) : nstate := map (shift_tr k) st.

Fixpoint upd_nth {A} (l : list A) (i : nat) (f : A -> A) : list A :=
  match l, i with
  | [], _ => []
  | x :: l', O => f x :: l'
  | x :: l', S i' => x :: upd_nth l' i' f
  end.

(** The default constructor: NFA.hpp:616-620 (state 0 with an epsilon transition to state 1). *)
Definition nfa_base : nfa := [[mkT [] 1 false]; []].
(** NFA::add_state: NFA.hpp:695-699. *)
Definition add_state (A : nfa) (cc : cclass) : nfa :=
  upd_nth A (length A - 1) (add_tr cc (length A) false) ++ [[]].
(** NFA::add_transition_to (from the final state): NFA.hpp:703-706. *)
Definition add_to (A : nfa) (cc : cclass) (dest : nat) (long : bool) : nfa :=
  upd_nth A (length A - 1) (add_tr cc dest long).
(** NFA::add_transition_from (to the final state): NFA.hpp:710-713. *)
Definition add_from (A : nfa) (cc : cclass) (src : nat) : nfa :=
  upd_nth A src (add_tr cc (length A - 1) false).
(** NFA::concat: NFA.hpp:408-420 (rebase_transitions NFA.hpp:147-153 appends without merging). *)
Definition concat (A B : nfa) : nfa :=
  let n := length A in
  upd_nth (A ++ map (shift (n - 1)) (tl B)) (n - 1) (fun st => st ++ shift (n - 1) (hd [] B)).
(** NFA::select: NFA.hpp:424-443. *)
Definition select (A B : nfa) : nfa :=
  let n := length A in
  let A1 := upd_nth A 0 (add_tr [] n false) in
  let A2 := A1 ++ map (shift (n - 1)) (tl B) in
  let A3 := upd_nth A2 0 (fun st => st ++ shift (n - 1) (hd [] B)) in
  let A4 := add_state A3 [] in
  add_from A4 [] (n - 1).

(** The quantifier suffix of parse_unit: NFA.hpp:489-583.  Result: the new NFA and the text
    after the suffix. *)
Definition parse_suffix (A : nfa) (t : list N) : nfa * list N :=
  let star (long : bool) A := add_from (add_state (add_to A [] 1 long) []) [] 1 in
  match t with
  | 43 :: t1 =>                                              (* + *)
    match t1 with
    | 43 :: t2 => (add_to A [] 1 true, t2)                   (* ++ *)
    | 63 :: t2 => (add_to A [] 1 false, t2)                  (* +? *)
    | 42 :: t2 => (add_to A [] 1 false, t2)                  (* +* *)
    | _ => (add_to A [] 1 false, t1)
    end
  | 42 :: t1 =>
    match t1 with
    | 43 :: t2 => (star true A, t2)
    | 63 :: t2 => (star false A, t2)
    | 42 :: t2 => (star false A, t2)
    | _ => (star false A, t1)
    end
  | 63 :: t1 =>
    match t1 with
    | 63 :: t2 => (add_from A [] 1, t2)
    | 42 :: t2 => (add_from A [] 1, t2)
    | _ => (add_from A [] 1, t1)
    end
  | _ => (A, t)
  end.

(** stream.get() on the delivered characters (Stream.v): 0 at the end of the text. *)
Definition lget (t : list N) : N * list N := match t with [] => (0, []) | c :: r => (c, r) end.
Definition lpeek (t : list N) : N := match t with [] => 0 | c :: _ => c end.
(** The characters that may follow a backslash: NFA.hpp:460-472. *)
Definition nfa_escapable (c : N) : bool :=
  existsb (N.eqb c) [91; 93; 43; 42; 123; 125; 63; 92; 124; 40; 41; 46].

(** NFA::parse (NFA.hpp:444-452), parse_selection with its loop (586-607) and parse_unit
    (453-585).  Fuelled mutual recursion; SFuel never happens with the fuel used by
    [nfa_parse] (NFAParse.nfa_parse_total). *)
Fixpoint parse_pat (fuel : nat) (A : nfa) (t : list N) : sres (nfa * list N) :=
  match fuel with
  | O => SFuel
  | S f =>
    let '(ch, t1) := lget t in
    if (ch =? 41) || (ch =? 47) || (ch =? 0) then SOk (A, t1)
    else match parse_unit f nfa_base ch t1 with
         | SOk (B, t2) =>
           match parse_alts f B t2 with
           | SOk (B', t3) => parse_pat f (concat A B') t3
           | e => e
           end
         | e => e
         end
  end
with parse_alts (fuel : nat) (A : nfa) (t : list N) : sres (nfa * list N) :=
  match fuel with
  | O => SFuel
  | S f =>
    if lpeek t =? 124 then
      let '(ch, t1) := lget (tl t) in
      match parse_unit f nfa_base ch t1 with
      | SOk (B, t2) => parse_alts f (select A B) t2
      | e => e
      end
    else SOk (A, t)
  end
with parse_unit (fuel : nat) (A : nfa) (ch : N) (t : list N) : sres (nfa * list N) :=
  match fuel with
  | O => SFuel
  | S f =>
    match (if ch =? 92 then
             let '(c, t1) := lget t in
             if nfa_escapable c then SOk (add_state A (cc_single c), t1) else SThrow
           else if ch =? 91 then
             match cc_parse t with
             | POk cc t1 => SOk (add_state A cc, t1)
             | PThrow => SThrow
             end
           else if ch =? 46 then SOk (add_state A make_star, t)
           else if ch =? 40 then
             match parse_pat f nfa_base t with
             | SOk (B, t1) => SOk (concat A B, t1)
             | e => e
             end
           else SOk (add_state A (cc_single ch), t)) with
    | SOk (A1, t1) => SOk (parse_suffix A1 t1)
    | e => e
    end
  end.
(** ATNNode::parse for a regular terminal (ATN.cpp:31-36): the node's NFA is a default
    constructed one and parse is called after the opening slash; also NFA(Stream&),
    NFA.hpp:608-614. *)
Definition nfa_parse (t : list N) : sres (nfa * list N) := parse_pat (4 * length t + 4) nfa_base t.

(** NFA::run: NFA.hpp:668-691.  None = the recursion does not end within [fuel] calls;
    [seq.(size)] is the terminating 0, reading further is undefined behaviour (RunUB). *)
Inductive runres := RunTrue | RunFalse | RunUB | RunFuel.
Fixpoint nfa_run (fuel : nat) (A : nfa) (seq : list N) (index pos : nat) : runres :=
  match fuel with
  | O => RunFuel
  | S f =>
    if (Nat.eqb index (length A - 1) && Nat.eqb (length seq) pos)%bool then RunTrue
    else
      (fix try (l : nstate) : runres :=
         match l with
         | [] => RunFalse
         | t :: l' =>
           if teps t then
             match nfa_run f A seq (tdest t) pos with RunFalse => try l' | r => r end
           else if (Nat.ltb (length seq) pos) then RunUB
           else if includes (tlab t) (nth pos seq 0) then
             match nfa_run f A seq (tdest t) (S pos) with RunFalse => try l' | r => r end
           else try l'
         end) (nth index A [])
  end.
