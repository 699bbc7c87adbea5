(** * Model of the subset construction and of minimisation (src/core/DFA.hpp, NFA.hpp) *)
From Coq Require Import List NArith Arith Bool.
From Verif Require Import CharClass NFA.
Import ListNotations.
Open Scope nat_scope.

(** std::set<int> as a strictly ascending list; insert. *)
Fixpoint sins (x : nat) (s : list nat) : list nat :=
  match s with
  | [] => [x]
  | y :: s' => if x <? y then x :: s else if x =? y then s else y :: sins x s'
  end.
(** std::set<int> of borders (character codes). *)
Fixpoint nins (x : N) (s : list N) : list N :=
  match s with
  | [] => [x]
  | y :: s' => if (x <? y)%N then x :: s else if (x =? y)%N then s else y :: nins x s'
  end.
(** std::equal on two index sequences of the same size. *)
Fixpoint list_eqb (a b : list nat) : bool :=
  match a, b with
  | [], [] => true
  | x :: a', y :: b' => (x =? y) && list_eqb a' b'
  | _, _ => false
  end.

(** NFA::epsilon_closure_sub: NFA.hpp:627-641 with epsilon_transitions NFA.hpp:154-171.  There is
    no check for states already visited: [fuel] bounds the depth of the recursion, None means
    it is exceeded.  Second component: the long flag. *)
Fixpoint eclose_sub (fuel : nat) (A : nfa) (cl : list nat) (q : nat) : option (list nat * bool) :=
  match fuel with
  | O => None
  | S f =>
    let st := nth q A [] in
    (fix go (l : list ntr) (cl : list nat) (lg : bool) : option (list nat * bool) :=
       match l with
       | [] => Some (cl, lg)
       | t :: l' =>
         if teps t then
           match eclose_sub f A cl (tdest t) with
           | Some (cl', lg') => go l' cl' (lg || lg')
           | None => None
           end
         else go l' cl lg
       end) st (sins q cl) (existsb tlong st)
  end.
(** NFA::epsilon_closure(set, long_flag): NFA.hpp:653-663. *)
Fixpoint eclose_set (fuel : nat) (A : nfa) (qs : list nat) (cl : list nat) (lg : bool) : option (list nat * bool) :=
  match qs with
  | [] => Some (cl, lg)
  | q :: qs' => match eclose_sub fuel A cl q with
                | Some (cl', lg') => eclose_set fuel A qs' cl' (lg || lg')
                | None => None
                end
  end.

(** NFADepartureSetFactory::build_departure_set: NFA.hpp:354-394.
    Borders of all (non-epsilon) transitions, ... *)
Definition borders (ts : list ntr) : list N :=
  fold_left (fun s t => fold_left (fun s r => nins (re r) (nins (rs r) s)) (tlab t) s) ts [].
(** ... NFADepartureSet::add (NFA.hpp:323-334), ... *)
Fixpoint dep_add (items : list (cclass * list nat)) (r : range) (cl : list nat) : list (cclass * list nat) :=
  match items with
  | [] => [([r], cl)]
  | (cc, s) :: items' => if list_eqb cl s then (add_range cc r, s) :: items' else (cc, s) :: dep_add items' r cl
  end.
(** ... the destinations of the transitions whose label includes the whole atomic range ... *)
Definition dep_closure (ts : list ntr) (r : range) : list nat :=
  fold_left (fun s t => if includes_range (tlab t) r then sins (tdest t) s else s) ts [].
(** ... for each pair of consecutive borders. *)
Fixpoint dep_loop (ts : list ntr) (bs : list N) (items : list (cclass * list nat)) : list (cclass * list nat) :=
  match bs with
  | a :: bs' =>
    match bs' with
    | [] => items
    | b :: _ =>
      let cl := dep_closure ts (mkR a b) in
      dep_loop ts bs' (match cl with [] => items | _ => dep_add items (mkR a b) cl end)
    end
  | [] => items
  end.
Definition departures (ts : list ntr) : list (cclass * list nat) :=
  let ts := filter (fun t => negb (teps t)) ts in dep_loop ts (borders ts) [].

(** DFAState: DFA.hpp:14-56 (label, transitions, long flag, accept flag). *)
Record dstate := mkD { dlab : list nat; dtrs : list ntr; dlong : bool; dacc : bool }.
Notation dfa := (list dstate).
Definition dnil : dstate := mkD [] [] false false.

(** DFA::add_state: DFA.hpp:64-76. *)
Fixpoint find_label (D : dfa) (l : list nat) (i : nat) : option nat :=
  match D with
  | [] => None
  | s :: D' => if list_eqb l (dlab s) then Some i else find_label D' l (S i)
  end.
Definition set_long (lg : bool) (s : dstate) : dstate := mkD (dlab s) (dtrs s) (dlong s || lg) (dacc s).
Definition dfa_add_state (D : dfa) (l : list nat) (lg : bool) : dfa * nat :=
  match find_label D l 0 with
  | Some i => (upd_nth D i (set_long lg), i)
  | None => (D ++ [mkD l [] lg false], length D)
  end.
Definition dfa_add_tr (cc : cclass) (dest : nat) (s : dstate) : dstate :=
  mkD (dlab s) (add_tr cc dest false (dtrs s)) (dlong s) (dacc s).
(** The loop over the departure set in fork_states: DFA.hpp:91-101. *)
Fixpoint fork_items (fuel : nat) (A : nfa) (D : dfa) (index : nat) (items : list (cclass * list nat)) : option dfa :=
  match items with
  | [] => Some D
  | (cc, s) :: items' =>
    match eclose_set fuel A s [] false with
    | None => None
    | Some (ec, lg) =>
      let '(D1, j) := dfa_add_state D ec lg in
      fork_items fuel A (upd_nth D1 index (dfa_add_tr cc j)) index items'
    end
  end.
(** All transitions of the NFA states in a label: DFA.hpp:79-87. *)
Definition label_trs (A : nfa) (l : list nat) : list ntr := flat_map (fun q => nth q A []) l.
(** DFA::fork_states: DFA.hpp:77-107; [fork_loop] is the loop 103-106, whose bound
    m_states.size() is re-evaluated at every iteration.  [ef] is the depth allowed to
    epsilon_closure_sub. *)
Fixpoint fork_states (fuel ef : nat) (A : nfa) (D : dfa) (index : nat) : option dfa :=
  match fuel with
  | O => None
  | S f =>
    match fork_items ef A D index (departures (label_trs A (dlab (nth index D dnil)))) with
    | None => None
    | Some D1 => fork_loop f ef A D1 (length D)
    end
  end
with fork_loop (fuel ef : nat) (A : nfa) (D : dfa) (i : nat) : option dfa :=
  match fuel with
  | O => None
  | S f =>
    if i <? length D then
      match fork_states f ef A D i with
      | None => None
      | Some D1 => fork_loop f ef A D1 (S i)
      end
    else Some D
  end.

(** std::sort of the transitions by destination (DFA.hpp:131, NFA.hpp:66-69, 219-222).
    Destinations of one state are pairwise distinct (DFAProofs), so the order is determined. *)
Fixpoint ins_tr (t : ntr) (l : list ntr) : list ntr :=
  match l with
  | [] => [t]
  | u :: l' => if tdest t <? tdest u then t :: l else u :: ins_tr t l'
  end.
Definition sort_trs (l : list ntr) : list ntr := fold_right ins_tr [] l.
(** IndexVector::includes: Util.hpp:198-201. *)
Definition finish_state (final : nat) (s : dstate) : dstate :=
  mkD (dlab s) (sort_trs (dtrs s)) (dlong s) (dacc s || existsb (Nat.eqb final) (dlab s)).

(** The constructor DFA(nfa, false): DFA.hpp:109-133. *)
Definition dfa_plain (fuel ef : nat) (A : nfa) : option dfa :=
  match eclose_sub ef A [] 0 with
  | None => None
  | Some (ec, lg) =>
    match fork_states fuel ef A [mkD ec [] lg false] 0 with
    | None => None
    | Some D => Some (map (finish_state (length A - 1)) D)
    end
  end.

(** ** Minimisation *)
(** NFATransition::operator== (destination and label) and NFABaseState::operator==:
    NFA.hpp:70-73, 206-210.  The accept flag is not compared. *)
Definition tr_eqb (a b : ntr) : bool := (tdest a =? tdest b) && cc_eqb (tlab a) (tlab b).
Fixpoint trs_eqb (a b : list ntr) : bool :=
  match a, b with
  | [], [] => true
  | x :: a', y :: b' => tr_eqb x y && trs_eqb a' b'
  | _, _ => false
  end.
(** equiv_map.find: DFA.hpp:272.  The map holds the earlier states that were not merged, which
    are pairwise different, so the lookup is the first one that compares equal (equal states
    have equal hashes: NFA.hpp:74-78, 211-219). *)
Fixpoint find_equiv (D : dfa) (reps : list nat) (s : dstate) : option nat :=
  match reps with
  | [] => None
  | r :: reps' => if trs_eqb (dtrs (nth r D dnil)) (dtrs s) then Some r else find_equiv D reps' s
  end.
(** First loop of minimize: DFA.hpp:270-284.  Result: the states (long flags updated), the
    representatives in ascending order, and remap (index -> representative) as a list. *)
Fixpoint min_scan (D : dfa) (todo : list nat) (reps : list nat) (remap : list (nat * nat)) : dfa * list nat * list (nat * nat) :=
  match todo with
  | [] => (D, reps, remap)
  | i :: todo' =>
    let s := nth i D dnil in
    match find_equiv D reps s with
    | Some r => min_scan (upd_nth D r (set_long (dlong s))) todo' reps (remap ++ [(i, r)])
    | None => min_scan D todo' (reps ++ [i]) remap
    end
  end.
(** redirect_transitions: DFA.hpp:248-260. *)
Definition redirect (from to : nat) (D : dfa) : dfa :=
  map (fun s => mkD (dlab s) (map (fun t => if tdest t =? from then mkT (tlab t) to (tlong t) else t) (dtrs s)) (dlong s) (dacc s)) D.
(** filter_nodes: DFA.hpp:211-247: keep the representatives, drop transitions to removed states,
    renumber. *)
Fixpoint index_of (x : nat) (l : list nat) : nat :=
  match l with [] => 0 | y :: l' => if x =? y then 0 else S (index_of x l') end.
Definition filter_nodes (keep : list nat) (D : dfa) : dfa :=
  map (fun i => let s := nth i D dnil in
     mkD (dlab s)
         (map (fun t => mkT (tlab t) (index_of (tdest t) keep) (tlong t)) (filter (fun t => existsb (Nat.eqb (tdest t)) keep) (dtrs s)))
         (dlong s) (dacc s)) keep.
(** DFA::minimize: DFA.hpp:261-294. *)
Definition minimize (D : dfa) : dfa :=
  let '(D1, reps, remap) := min_scan D (seq 0 (length D)) [] [] in
  filter_nodes reps (fold_left (fun D p => redirect (fst p) (snd p) D) remap D1).

(** The constructor with the default optimize_flag: DFA.hpp:109-137. *)
Definition dfa_build (fuel ef : nat) (A : nfa) : option dfa := option_map minimize (dfa_plain fuel ef A).

(** DFA::run: DFA.hpp:176-195. *)
Fixpoint first_tr (l : list ntr) (ch : N) : option nat :=
  match l with
  | [] => None
  | t :: l' => if includes (tlab t) ch then Some (tdest t) else first_tr l' ch
  end.
Fixpoint dfa_run (D : dfa) (index : nat) (w : list N) : bool :=
  match w with
  | [] => dacc (nth index D dnil)
  | ch :: w' => match first_tr (dtrs (nth index D dnil)) ch with
                | Some d => dfa_run D d w'
                | None => false
                end
  end.
