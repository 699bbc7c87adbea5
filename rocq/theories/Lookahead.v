(** * Model of the composite network and of the decision automata
    (src/core/CompositeATN.hpp, src/core/CompositeATN.cpp, src/core/LookaheadDFA.hpp, src/core/Util.hpp) *)
From Coq Require Import List NArith ZArith Arith Bool.
From Verif Require Import CharClass Stream NFA DFA ATN Grammar CodeGen.
Import ListNotations.
Local Open Scope nat_scope.

(** ** The composite network *)
(** CATNTransition = NFATransition: label, destination, tag: NFA.hpp:14-58, CompositeATN.hpp:12. *)
Record ctr := mkCT { clab : cclass; cdest : nat; ctag : nat }.
(** CATNNode: transitions, m_submachine (empty: terminal), m_source (None: -1): CompositeATN.hpp:13-86. *)
Record cnode := mkCN { ctrs : list ctr; csub : list N; csrc : option nat }.
Notation cmach := (list cnode).
Definition cblank : cnode := mkCN [] [] None.
(** CATNNode::add_transition: CompositeATN.hpp:31-34. *)
Definition add_ctr (cc : cclass) (dest tag : nat) (n : cnode) : cnode := mkCN (ctrs n ++ [mkCT cc dest tag]) (csub n) (csrc n).
(** CATNNode::set_source: CompositeATN.hpp:59-62. *)
Definition set_source (s : nat) (n : cnode) : cnode := mkCN (ctrs n) (csub n) (Some s).
(** The transition from [origin] (None: -1) to the next new node, in both add_node: CompositeATN.hpp:93-106. *)
Definition c_link (Q : cmach) (cc : cclass) (origin : option nat) (tag : nat) : cmach :=
  match origin with Some o => upd_nth Q o (add_ctr cc (length Q) tag) | None => Q end.
Definition c_add (Q : cmach) (cc : cclass) (origin : option nat) (tag : nat) (n : cnode) : cmach := c_link Q cc origin tag ++ [n].
(** The class of white space, in the order written: CompositeATN.hpp:159. *)
Definition ws_class : cclass := cc_list [32; 9; 13; 10]%N.
(** import_literal_terminal: CompositeATN.hpp:113-121.  The characters are stored as bytes. *)
Fixpoint import_lit (Q : cmach) (s : list N) (origin : option nat) (tag : nat) : cmach * option nat :=
  match s with
  | [] => (Q, origin)
  | ch :: s' => import_lit (c_add Q (cc_range (narrow ch) (narrow ch + 1)) origin tag cblank) s' (Some (length Q)) 0
  end.
(** import_transitions (CompositeATN.hpp:35-41): NFATransition::offset drops the tag (NFA.hpp:59-62). *)
Definition import_state (off : nat) (st : nstate) : cnode := mkCN (map (fun t => mkCT (tlab t) (tdest t + off) 0) st) [] None.
(** import_regular_terminal: CompositeATN.hpp:122-133. *)
Definition import_reg (Q : cmach) (A : nfa) (origin : option nat) (tag : nat) : cmach * option nat :=
  (c_link Q [] origin tag ++ map (import_state (length Q)) A, Some (length Q + length A - 1)).
(** The switch of import_atn_node (CompositeATN.hpp:144-161) with import_whitespace (107-112),
    import_nonterminal (134-137). *)
Definition import_sym (Q : cmach) (n : nty) (origin : option nat) (tag : nat) : cmach * option nat :=
  match n with
  | NBlank => (c_add Q [] origin tag cblank, Some (length Q))
  | NLit s => import_lit Q s origin tag
  | NReg A => import_reg Q A origin tag
  | NInv id => (c_add Q [] origin tag (mkCN [] id None), Some (length Q))
  | NWs => (c_add Q [] origin tag (mkCN [mkCT ws_class (length Q) 0] [] None), Some (length Q))
  end.
Definition c_upd (Q : cmach) (o : option nat) (f : cnode -> cnode) : cmach := match o with Some o => upd_nth Q o f | None => Q end.
(** import_atn_node: CompositeATN.hpp:138-172.  State: the nodes made so far and node_map.
    [fuel] bounds the depth of the recursion; the number of nodes is enough (every call fills an
    entry of node_map). *)
Fixpoint import_node (fuel : nat) (M : atn) (index : nat) (origin : option nat) (tag : nat) (st : cmach * list (option nat)) : option (cmach * list (option nat)) :=
  match fuel with
  | O => None
  | S f =>
    let '(Q, map0) := st in
    let n := nth index M blank in
    let '(Q1, o) := import_sym Q (nt n) origin tag in
    (fix go (ts : list (nat * nat)) (st : cmach * list (option nat)) : option (cmach * list (option nat)) :=
       match ts with
       | [] => Some st
       | (d, tg) :: ts' =>
         match nth d (snd st) None with
         | None => match import_node f M d o tg st with Some st' => go ts' st' | None => None end
         | Some j => go ts' (c_upd (fst st) o (add_ctr [] j tg), snd st)
         end
       end) (atrs n) (c_upd Q1 o (set_source index), upd_nth map0 index (fun _ => Some (length Q)))
  end.
(** CATNMachine(atn): CompositeATN.hpp:174-179. *)
Definition import_atn (M : atn) : option cmach := option_map fst (import_node (length M) M 0 None 0 ([], repeat None (length M))).
(** convert_atn_index: CompositeATN.hpp:191-198 (None: -1). *)
Fixpoint convert_index (Q : cmach) (index i : nat) : option nat :=
  match Q with
  | [] => None
  | n :: Q' => match csrc n with
               | Some s => if s =? index then Some i else convert_index Q' index (S i)
               | None => convert_index Q' index (S i)
               end
  end.

(** ** Configurations *)
(** ATNPath (Util.hpp:28-158): a non-empty stack of (machine, node), here with the leaf FIRST. *)
Notation path := (list (list N * nat)).
(** PriorityChain: a sequence of (machine, node, tag): Util.hpp:203-291. *)
Notation chain := (list (list N * nat * nat)).
(** CATNClosureElement: path, colour, priority: CompositeATN.hpp:216-252. *)
Record celem := mkE { epath : path; ecol : nat; eprio : chain }.

(** Lexicographic comparison; basic_string::compare on identifiers. *)
Fixpoint lex {A} (c : A -> A -> comparison) (a b : list A) : comparison :=
  match a, b with
  | [], [] => Eq
  | [], _ => Lt
  | _, [] => Gt
  | x :: a', y :: b' => match c x y with Eq => lex c a' b' | r => r end
  end.
Definition name_cmp : list N -> list N -> comparison := lex N.compare.
Definition step_cmp (a b : list N * nat) : comparison :=
  match name_cmp (fst a) (fst b) with Eq => Nat.compare (snd a) (snd b) | r => r end.
(** ATNPath::compare: Util.hpp:123-146: depth first, then from the root (our end) to the leaf. *)
Definition path_cmp (p q : path) : comparison :=
  match Nat.compare (length p) (length q) with Eq => lex step_cmp (rev p) (rev q) | r => r end.
(** CATNClosureElement::operator< and operator==: CompositeATN.hpp:240-251.  The priority takes no part. *)
Definition elem_lt (a b : celem) : bool :=
  match path_cmp (epath a) (epath b) with Lt => true | Gt => false | Eq => ecol a <? ecol b end.
Definition elem_eqb (a b : celem) : bool :=
  match path_cmp (epath a) (epath b) with Eq => ecol a =? ecol b | _ => false end.
(** PriorityChain::compare (Util.hpp:247-259) with PriorityChainElement::operator<, > (224-237). *)
Fixpoint prio_cmp (a b : chain) : comparison :=
  match a, b with
  | (i, n, p) :: a', (j, m, q) :: b' =>
    if eqname i j && (n =? m) then
      match Nat.compare p q with Eq => prio_cmp a' b' | r => r end
    else prio_cmp a' b'
  | _, _ => Eq
  end.
(** is_superior_to, is_inferior_to: Util.hpp:283-290. *)
Definition superior (a b : chain) : bool := match prio_cmp a b with Lt => true | _ => false end.
Definition inferior (a b : chain) : bool := match prio_cmp a b with Gt => true | _ => false end.

(** CATNClosure = std::set<CATNClosureElement> (CompositeATN.hpp:255) as a list in ascending
    order; emplace does nothing if an equivalent element is there. *)
Notation closure := (list celem).
Fixpoint cl_ins (e : celem) (s : closure) : closure :=
  match s with
  | [] => [e]
  | x :: s' => if elem_lt e x then e :: s else if elem_lt x e then x :: cl_ins e s' else s
  end.
(** operator== of two sets. *)
Fixpoint cl_eqb (a b : closure) : bool :=
  match a, b with
  | [], [] => true
  | x :: a', y :: b' => elem_eqb x y && cl_eqb a' b'
  | _, _ => false
  end.

(** Loops that stop at the first exception. *)
Fixpoint sfold {A B} (f : B -> A -> sres B) (l : list A) (b : B) : sres B :=
  match l with
  | [] => SOk b
  | x :: l' => match f b x with SOk b' => sfold f l' b' | SThrow => SThrow | SFuel => SFuel end
  end.

Section Composite.
(** m_dict, in the order of the map's iteration: CompositeATN.hpp:460, 475-482. *)
Variable D : list (list N * cmach).
Definition mach (id : list N) : option cmach := option_map snd (find (fun p => eqname (fst p) id) D).
(** get_node: CompositeATN.hpp:492-495; both accesses are at(), which throws (None). *)
Definition node_at (p : path) : option cnode :=
  match p with
  | [] => None
  | (id, i) :: _ => match mach id with Some Q => nth_error Q i | None => None end
  end.
(** The nodes that invoke a machine, in the order of the loops at CompositeATN.cpp:11-18, 110-114. *)
Definition sites (id : list N) : list (list N * nat) :=
  flat_map (fun p => map (fun i => (fst p, i)) (filter (fun i => eqname (csub (nth i (snd p) cblank)) id) (seq 0 (length (snd p))))) D.
(** ATNPath::count: Util.hpp:64-67. *)
Definition pcount (p : path) (x : list N * nat) : nat := length (filter (fun y => eqname (fst y) (fst x) && (snd y =? snd x)) p).

(** build_wildcard_closure (CompositeATN.cpp:6-30), build_closure_exclusive (32-85),
    build_closure_inclusive (87-106).  There is no check for configurations visited before:
    [fuel] bounds the depth of the recursion. *)
Fixpoint cl_wild (fuel : nat) (cl : closure) (id : list N) (col : nat) (stack : path) (pr : chain) : sres closure :=
  match fuel with
  | O => SFuel
  | S f => sfold (fun cl s => if 2 <=? pcount stack s then SThrow else cl_excl f cl [s] col (s :: stack) pr) (sites id) cl
  end
with cl_excl (fuel : nat) (cl : closure) (p : path) (col : nat) (stack : path) (pr : chain) : sres closure :=
  match fuel with
  | O => SFuel
  | S f =>
    match p, node_at p with
    | (id, i) :: up, Some n =>
      match ctrs n with
      | [] => match up with [] => cl_wild f cl id col stack pr | _ => cl_excl f cl up col stack pr end
      | ts =>
        sfold (fun cl t =>
          if is_epsilon (clab t) then
            let q := (id, cdest t) :: up in
            let pr' := pr ++ [(id, i, ctag t)] in
            match node_at q with
            | None => SThrow
            | Some m =>
              match csub m with
              | [] => cl_excl f (cl_ins (mkE q col pr') cl) q col stack pr'
              | sub => if 2 <=? pcount q (id, cdest t) then SThrow else cl_incl f cl ((sub, 0) :: q) col stack pr'
              end
            end
          else SOk cl) ts cl
      end
    | _, _ => SThrow
    end
  end
with cl_incl (fuel : nat) (cl : closure) (p : path) (col : nat) (stack : path) (pr : chain) : sres closure :=
  match fuel with
  | O => SFuel
  | S f =>
    match p, node_at p with
    | x :: _, Some n =>
      match csub n with
      | [] => cl_excl f (cl_ins (mkE p col pr) cl) p col stack pr
      | sub => if 2 <=? pcount p x then SThrow else cl_incl f cl ((sub, 0) :: p) col stack pr
      end
    | _, _ => SThrow
    end
  end.

(** build_closure(closure): CompositeATN.hpp:510-522. *)
Definition build_closure (fuel : nat) (s : closure) : sres closure :=
  sfold (fun cl e => cl_incl fuel cl (epath e) (ecol e) [] (eprio e)) s [].
(** build_root_closure: CompositeATN.hpp:536-555; colours count from 1. *)
Fixpoint root_loop (fuel : nat) (id : list N) (i : nat) (up : path) (ts : list ctr) (col : nat) (cl : closure) : sres closure :=
  match ts with
  | [] => SOk cl
  | t :: ts' => match cl_incl fuel cl ((id, cdest t) :: up) col [] [(id, i, ctag t)] with
                | SOk cl' => root_loop fuel id i up ts' (S col) cl'
                | SThrow => SThrow | SFuel => SFuel
                end
  end.
Definition root_closure (fuel : nat) (p : path) : sres closure :=
  match p, node_at p with
  | (id, i) :: up, Some n => root_loop fuel id i up (ctrs n) 1 []
  | _, _ => SThrow
  end.

(** ** Departures *)
(** CATNDeparture: CompositeATN.hpp:317-345: label and the configuration behind it. *)
Notation departure := (cclass * celem)%type.
(** build_wildcard_departure_set (CompositeATN.cpp:107-128), build_departure_set_r (129-157). *)
Fixpoint dep_wild (fuel : nat) (ds : list departure) (id : list N) (col : nat) (pr : chain) (stack : path) : sres (list departure) :=
  match fuel with
  | O => SFuel
  | S f => sfold (fun ds s => if 2 <=? pcount stack s then SThrow else dep_from f ds [s] col pr (s :: stack)) (sites id) ds
  end
with dep_from (fuel : nat) (ds : list departure) (p : path) (col : nat) (pr : chain) (stack : path) : sres (list departure) :=
  match fuel with
  | O => SFuel
  | S f =>
    match p, node_at p with
    | (id, i) :: up, Some n =>
      match ctrs n with
      | [] => match up with [] => dep_wild f ds id col pr stack | _ => dep_from f ds up col pr stack end
      | ts => SOk (ds ++ map (fun t => (clab t, mkE ((id, cdest t) :: up) col pr)) (filter (fun t => negb (is_epsilon (clab t))) ts))
      end
    | _, _ => SThrow
    end
  end.
(** CATNDepartureSetFactory::closure_add: CompositeATN.hpp:375-398. *)
Definition closure_add (cl : closure) (e : celem) : closure :=
  if existsb (fun x => inferior (eprio e) (eprio x)) cl then cl
  else cl_ins e (filter (fun x => negb (superior (eprio e) (eprio x))) cl).
(** CATNDepartureSetFactory::build_departure_set: CompositeATN.hpp:399-452: one closure for each
    range between two consecutive borders; empty ones are dropped. *)
Definition dep_borders (ds : list departure) : list N :=
  fold_left (fun s d => fold_left (fun s r => nins (re r) (nins (rs r) s)) (fst d) s) ds [].
Definition dep_at (ds : list departure) (r : range) : closure :=
  fold_left (fun cl d => if includes_range (fst d) r then closure_add cl (snd d) else cl) ds [].
Fixpoint dep_items (ds : list departure) (bs : list N) : list (range * closure) :=
  match bs with
  | a :: bs' =>
    match bs' with
    | [] => []
    | b :: _ => match dep_at ds (mkR a b) with
                | [] => dep_items ds bs'
                | cl => (mkR a b, cl) :: dep_items ds bs'
                end
    end
  | [] => []
  end.
(** CompositeATN::build_departure_set: CompositeATN.hpp:559-571. *)
Definition departure_set (fuel : nat) (cl : closure) : sres (list (range * closure)) :=
  match sfold (fun ds e => dep_from fuel ds (epath e) (ecol e) (eprio e) []) cl [] with
  | SOk ds => SOk (dep_items ds (dep_borders ds))
  | SThrow => SThrow | SFuel => SFuel
  end.

(** ** The automaton *)
(** LDFAState: label and transitions (destination below 0: colour, negated): LookaheadDFA.hpp:35-98. *)
Record lstate_ := mkL { llab : closure; ltrs : list (cclass * Z) }.
Definition lnil : lstate_ := mkL [] [].
(** NFABaseState::add_transition (NFA.hpp:113-130) with a non-empty label. *)
Fixpoint merge_ltr (ts : list (cclass * Z)) (cc : cclass) (d : Z) : option (list (cclass * Z)) :=
  match ts with
  | [] => None
  | (c, x) :: ts' => if (x =? d)%Z && negb (is_epsilon c) then Some ((cc_or c cc, x) :: ts')
                     else option_map (cons (c, x)) (merge_ltr ts' cc d)
  end.
Definition add_ltr (cc : cclass) (d : Z) (s : lstate_) : lstate_ :=
  mkL (llab s) (match merge_ltr (ltrs s) cc d with Some ts => ts | None => ltrs s ++ [(cc, d)] end).
(** get_closure_color: LookaheadDFA.hpp:110-126 (-1: several colours; 0: none). *)
Fixpoint closure_color (c : nat) (cl : closure) : Z :=
  match cl with
  | [] => Z.of_nat c
  | e :: cl' => if c =? 0 then closure_color (ecol e) cl'
                else if negb (c =? ecol e) && negb (ecol e =? 0) then (-1)%Z else closure_color c cl'
  end.
(** add_state: LookaheadDFA.hpp:127-138. *)
Fixpoint find_closure (L : list lstate_) (cl : closure) (i : nat) : option nat :=
  match L with
  | [] => None
  | s :: L' => if cl_eqb cl (llab s) then Some i else find_closure L' cl (S i)
  end.
Definition l_add_state (L : list lstate_) (cl : closure) : list lstate_ * nat :=
  match find_closure L cl 0 with
  | Some i => (L, i)
  | None => (L ++ [mkL cl []], length L)
  end.
(** The loop over the departure set: LookaheadDFA.hpp:166-182.  [cf] is the depth allowed to the closures. *)
Fixpoint l_items (cf : nat) (L : list lstate_) (index : nat) (items : list (range * closure)) : sres (list lstate_) :=
  match items with
  | [] => SOk L
  | (r, s) :: items' =>
    let c := closure_color 0 s in
    if (0 <? c)%Z then l_items cf (upd_nth L index (add_ltr [r] (- c))) index items'
    else match build_closure cf s with
         | SOk ec => let '(L1, j) := l_add_state L ec in l_items cf (upd_nth L1 index (add_ltr [r] (Z.of_nat j))) index items'
         | SThrow => SThrow | SFuel => SFuel
         end
  end.
(** fork_closures: LookaheadDFA.hpp:142-189; [l_loop] is the loop 185-188. *)
Fixpoint l_fork (fuel cf : nat) (L : list lstate_) (index : nat) : sres (list lstate_) :=
  match fuel with
  | O => SFuel
  | S f =>
    match departure_set cf (llab (nth index L lnil)) with
    | SOk items =>
      match l_items cf L index items with
      | SOk L1 => l_loop f cf L1 (length L)
      | SThrow => SThrow | SFuel => SFuel
      end
    | SThrow => SThrow | SFuel => SFuel
    end
  end
with l_loop (fuel cf : nat) (L : list lstate_) (i : nat) : sres (list lstate_) :=
  match fuel with
  | O => SFuel
  | S f =>
    if i <? length L then
      match l_fork f cf L i with
      | SOk L1 => l_loop f cf L1 (S i)
      | SThrow => SThrow | SFuel => SFuel
      end
    else SOk L
  end.
(** state.sort(): LookaheadDFA.hpp:197-198 (destinations are pairwise different). *)
Fixpoint ins_ltr (t : cclass * Z) (l : list (cclass * Z)) : list (cclass * Z) :=
  match l with
  | [] => [t]
  | x :: l' => if (snd t <? snd x)%Z then t :: l else x :: ins_ltr t l'
  end.
Definition sort_ltrs (l : list (cclass * Z)) : list (cclass * Z) := fold_right ins_ltr [] l.
(** The constructor up to line 198, optimize_flag = false.  The result: the transition table. *)
Definition ldfa_plain (fuel cf : nat) (p : path) : sres ldfa :=
  match root_closure cf p with
  | SOk cl => match l_fork fuel cf [mkL cl []] 0 with
              | SOk L => SOk (map (fun s => sort_ltrs (ltrs s)) L)
              | SThrow => SThrow | SFuel => SFuel
              end
  | SThrow => SThrow | SFuel => SFuel
  end.
End Composite.

(** ** Minimisation: LookaheadDFA.hpp:297-382.  States are compared by their transitions (NFA.hpp:206-210). *)
Fixpoint ltrs_eqb (a b : list (cclass * Z)) : bool :=
  match a, b with
  | [], [] => true
  | (c, x) :: a', (d, y) :: b' => (x =? y)%Z && cc_eqb c d && ltrs_eqb a' b'
  | _, _ => false
  end.
Fixpoint l_equiv (L : ldfa) (reps : list nat) (s : list (cclass * Z)) : option nat :=
  match reps with
  | [] => None
  | r :: reps' => if ltrs_eqb (nth r L []) s then Some r else l_equiv L reps' s
  end.
Fixpoint l_scan (L : ldfa) (todo : list nat) (reps : list nat) (remap : list (nat * nat)) : list nat * list (nat * nat) :=
  match todo with
  | [] => (reps, remap)
  | i :: todo' =>
    match l_equiv L reps (nth i L []) with
    | Some r => l_scan L todo' reps (remap ++ [(i, r)])
    | None => l_scan L todo' (reps ++ [i]) remap
    end
  end.
(** redirect_transitions: LookaheadDFA.hpp:340-352. *)
Definition l_redirect (from to : nat) (L : ldfa) : ldfa :=
  map (map (fun t : cclass * Z => if (snd t =? Z.of_nat from)%Z then (fst t, Z.of_nat to) else t)) L.
(** filter_nodes: LookaheadDFA.hpp:297-339. *)
Definition l_filter (keep : list nat) (L : ldfa) : ldfa :=
  map (fun i => map (fun t : cclass * Z => if (snd t <? 0)%Z then t else (fst t, Z.of_nat (index_of (Z.to_nat (snd t)) keep)))
                    (filter (fun t : cclass * Z => (snd t <? 0)%Z || existsb (Nat.eqb (Z.to_nat (snd t))) keep) (nth i L []))) keep.
(** minimize: LookaheadDFA.hpp:353-382. *)
Definition l_minimize (L : ldfa) : ldfa :=
  let '(reps, remap) := l_scan L (seq 0 (length L)) [] [] in
  l_filter reps (fold_left (fun L p => l_redirect (fst p) (snd p) L) remap L).
(** LookaheadDFA(catn, origin): LookaheadDFA.hpp:191-202. *)
Definition ldfa_build (D : list (list N * cmach)) (fuel cf : nat) (p : path) : sres ldfa :=
  match ldfa_plain D fuel cf p with SOk L => SOk (l_minimize L) | SThrow => SThrow | SFuel => SFuel end.

(** CompositeATN(grammar): CompositeATN.hpp:475-482, on networks (name, (id, ATN)). *)
Fixpoint composite (nets : list (list N * (N * atn))) : option (list (list N * cmach)) :=
  match nets with
  | [] => Some []
  | (name, (_, M)) :: nets' =>
    match import_atn M, composite nets' with
    | Some Q, Some D => Some ((name, Q) :: D)
    | _, _ => None
    end
  end.
(** The automaton built for node [i] of the machine [id]: convert_atn_path (CompositeATN.hpp:504-509)
    and the constructor, CodeGenEM64T.cpp:405.  An index of -1 makes at() throw. *)
Definition decision (D : list (list N * cmach)) (fuel cf : nat) (id : list N) (i : nat) : sres ldfa :=
  match mach D id with
  | Some Q => match convert_index Q i 0 with
              | Some j => ldfa_build D fuel cf [(id, j)]
              | None => SThrow
              end
  | None => SThrow
  end.
