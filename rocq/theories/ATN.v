(** * Model of rule bodies: transition networks and their construction (src/core/ATN.hpp, ATN.cpp)

    Characters are those delivered by the stream (Stream.v: deliver); TCHAR = char. *)
From Coq Require Import List NArith Bool Arith.
From Verif Require Import CharClass Stream NFA.
Import ListNotations.
Open Scope nat_scope.

(** ATNNodeType with the payload of the node: ATN.hpp:71-93.  m_localid is left out: only the
    Chaser reads it. *)
Inductive nty := NBlank | NInv (id : list N) | NLit (s : list N) | NReg (A : nfa) | NWs.
(** ATNTransition: destination and tag (the priority), ATN.hpp:18-58; all of type Epsilon.
    ATNNode: ATN.hpp:84-110. *)
Record anode := mkA { nt : nty; atrs : list (nat * nat) }.
(** ATNMachine::m_nodes: ATN.hpp:246. *)
Notation atn := (list anode).
Definition blank : anode := mkA NBlank [].

(** ATNNode::add_transition(dest, priority): ATN.hpp:135-138. *)
Definition add_atr (dest tag : nat) (n : anode) : anode := mkA (nt n) (atrs n ++ [(dest, tag)]).
(** ATNMachine::add_node: ATN.hpp:255-260 (returns the index of the new node, length M). *)
Definition add_node (M : atn) (from tag : nat) : atn := upd_nth M from (add_atr (length M) tag) ++ [blank].
(** m_nodes.back().add_transition(m_nodes.size()); m_nodes.push_back(node): ATN.cpp:97-102. *)
Definition push_node (M : atn) (n : nty) : atn := upd_nth M (length M - 1) (add_atr (length M) 0) ++ [mkA n []].

Definition lskip1 (t : list N) : sres (list N) := lskip_ws t.

(** ATNNode::parse_literal: ATN.cpp:5-20; [leader] has been read. *)
Fixpoint lit_loop (leader : N) (t : list N) (acc : list N) : sres (list N * list N) :=
  match t with
  | [] => SThrow
  | c :: t' => if (c =? leader)%N then SOk (rev acc, t')
               else if (c =? 0)%N then SThrow
               else lit_loop leader t' (narrow c :: acc)
  end.
(** The digits of a local id: ATN.cpp:57-62 (its value is not modelled). *)
Fixpoint digits_loop (t : list N) : list N :=
  match t with
  | c :: t' => if isdigit c then digits_loop t' else t
  | [] => []
  end.
(** The optional local id: ATN.cpp:48-75. *)
Definition parse_localid (t : list N) : sres (list N) :=
  match lskip1 t with
  | SOk t1 =>
    if (lpeek t1 =? 123)%N then
      match lskip1 (tl t1) with
      | SOk t2 =>
        if (lpeek t2 =? 125)%N then SThrow
        else match lskip1 (digits_loop t2) with
             | SOk t3 => if (lpeek t3 =? 125)%N then lskip1 (tl t3) else SThrow
             | e => e
             end
      | e => e
      end
    else SOk t1
  | e => e
  end.
(** ATNNode::parse: ATN.cpp:22-75. *)
Definition parse_node (t : list N) : sres (nty * list N) :=
  let finish (r : sres (nty * list N)) : sres (nty * list N) :=
    match r with
    | SOk (n, t1) => match parse_localid t1 with SOk t2 => SOk (n, t2) | SThrow => SThrow | SFuel => SFuel end
    | e => e
    end in
  let ch := lpeek t in
  if is_leader ch then
    finish (match lident t with SOk (s, t1) => SOk (NInv s, t1) | SThrow => SThrow | SFuel => SFuel end)
  else if (ch =? 47)%N then
    finish (match nfa_parse (tl t) with SOk (A, t1) => SOk (NReg A, t1) | SThrow => SThrow | SFuel => SFuel end)
  else if ((ch =? 39) || (ch =? 34))%N then
    finish (match lit_loop ch (tl t) [] with SOk (s, t1) => SOk (NLit s, t1) | SThrow => SThrow | SFuel => SFuel end)
  else SThrow.
(** The quantifier of parse_atom: ATN.cpp:105-128. *)
Definition parse_quant (M : atn) (origin anchor : nat) (t : list N) : atn * list N :=
  let ch := lpeek t in
  if (ch =? 42)%N then
    let M1 := add_node M (length M - 1) 0 in                                    (* X *)
    let M2 := upd_nth M1 (length M1 - 1) (add_atr anchor 0) in
    let M3 := add_node M2 (length M2 - 1) 0 in                                  (* Y *)
    (upd_nth M3 origin (add_atr (length M3 - 1) 0), tl t)
  else if (ch =? 43)%N then
    let M1 := add_node M (length M - 1) 0 in
    (upd_nth M1 (length M1 - 1) (add_atr anchor 0), tl t)
  else if (ch =? 63)%N then
    let M1 := add_node M (length M - 1) 0 in
    (upd_nth M1 origin (add_atr (length M1 - 1) 0), tl t)
  else (M, t).
(** The final node of a selection: ATN.cpp:168-175. *)
Definition join (M : atn) (terminals : list nat) : atn :=
  fold_left (fun M from => upd_nth M from (add_atr (length M - 1) 0)) terminals (M ++ [blank]).

(** ATNMachine::parse_atom (ATN.cpp:77-129), parse_selection (131-177; [parse_alts] is its loop
    with the priority and the terminal states), parse_sequence (179-190).  [ws]: m_globalid > 0. *)
Fixpoint parse_atom (fuel : nat) (ws : bool) (M : atn) (t : list N) : sres (atn * list N) :=
  match fuel with
  | O => SFuel
  | S f =>
    let origin := length M - 1 in
    let anchor := length M in
    match lskip1 t with
    | SOk t1 =>
      match (if (lpeek t1 =? 40)%N then
               match parse_sel f ws M (tl t1) with
               | SOk (M1, t2) =>
                 match lskip1 t2 with
                 | SOk t3 => if (lpeek t3 =? 41)%N then SOk (M1, tl t3) else SThrow
                 | SThrow => SThrow | SFuel => SFuel
                 end
               | e => e
               end
             else
               match parse_node t1 with
               | SOk (n, t2) =>
                 SOk (match n with
                      | NLit _ | NReg _ => if ws then push_node (push_node M NWs) n else push_node M n
                      | _ => push_node M n
                      end, t2)
               | SThrow => SThrow | SFuel => SFuel
               end) with
      | SOk (M1, t2) =>
        match lskip1 t2 with
        | SOk t3 => SOk (parse_quant M1 origin anchor t3)
        | SThrow => SThrow | SFuel => SFuel
        end
      | e => e
      end
    | SThrow => SThrow | SFuel => SFuel
    end
  end
with parse_sel (fuel : nat) (ws : bool) (M : atn) (t : list N) : sres (atn * list N) :=
  match fuel with
  | O => SFuel
  | S f => let M1 := add_node M (length M - 1) 0 in parse_galts f ws M1 (length M1 - 1) 0 [] t
  end
with parse_galts (fuel : nat) (ws : bool) (M : atn) (origin prio : nat) (terms : list nat) (t : list N) : sres (atn * list N) :=
  match fuel with
  | O => SFuel
  | S f =>
    match parse_seq f ws (add_node M origin prio) t with
    | SOk (M1, t1) =>
      let terms := terms ++ [length M1 - 1] in
      match lskip1 t1 with
      | SOk t2 =>
        let ch := lpeek t2 in
        if ((ch =? 59) || (ch =? 41))%N then SOk (join M1 terms, t2)
        else if (ch =? 124)%N then
          if (lpeek (tl t2) =? 62)%N then parse_galts f ws M1 origin (S prio) terms (tl (tl t2))
          else parse_galts f ws M1 origin prio terms (tl t2)
        else SThrow
      | SThrow => SThrow | SFuel => SFuel
      end
    | e => e
    end
  end
with parse_seq (fuel : nat) (ws : bool) (M : atn) (t : list N) : sres (atn * list N) :=
  match fuel with
  | O => SFuel
  | S f =>
    match lskip1 t with
    | SOk t1 =>
      let ch := lpeek t1 in
      if ((ch =? 124) || (ch =? 41) || (ch =? 59))%N then SOk (M, t1)
      else match parse_atom f ws M t1 with
           | SOk (M1, t2) => parse_seq f ws M1 t2
           | e => e
           end
    | SThrow => SThrow | SFuel => SFuel
    end
  end.
(** ATNMachine::parse: ATN.cpp:192-208.  SFuel never happens (ATNParse.atn_parse_total). *)
Definition atn_parse (ws : bool) (t : list N) : sres (atn * list N) :=
  match lskip1 t with
  | SOk t1 =>
    if (lpeek t1 =? 58)%N then
      match parse_sel (4 * length t1 + 4) ws [blank] (tl t1) with
      | SOk (M, t2) =>
        match lskip1 t2 with
        | SOk t3 => if (lpeek t3 =? 59)%N then SOk (M, tl t3) else SThrow
        | SThrow => SThrow | SFuel => SFuel
        end
      | e => e
      end
    else SThrow
  | SThrow => SThrow | SFuel => SFuel
  end.

(** ** Optimisation *)
(** count_incoming_edges: ATN.hpp:305-322: the sources of the edges to [index], one entry per edge. *)
Definition incoming (M : atn) (index : nat) : list nat :=
  flat_map (fun i => map (fun _ => i) (filter (fun t => fst t =? index) (atrs (nth i M blank)))) (seq 0 (length M)).
(** One iteration of the loop of drop_passthrough_nodes: ATN.hpp:367-386.  None: [origin] is the
    node itself, whose vector is extended while it is iterated over (undefined behaviour). *)
Definition drop_step (s : option (atn * list bool)) (i : nat) : option (atn * list bool) :=
  match s with
  | None => None
  | Some (M, mask) =>
    match nt (nth i M blank), incoming M i with
    | NBlank, [w] =>
      if w =? i then None
      else Some (upd_nth M w (fun n => mkA (nt n) (atrs n ++ atrs (nth i M blank))), upd_nth mask i (fun _ => false))
    | _, _ => Some (M, mask)
    end
  end.
(** filter_nodes: ATN.hpp:323-362. *)
Fixpoint new_index (mask : list bool) (i : nat) : nat :=   (* number of kept nodes before i *)
  match mask, i with
  | b :: mask', S i' => (if b then 1 else 0) + new_index mask' i'
  | _, _ => 0
  end.
Definition filter_atn (M : atn) (mask : list bool) : atn :=
  flat_map (fun i => if nth i mask false then
     [mkA (nt (nth i M blank)) (map (fun t => (new_index mask (fst t), snd t)) (filter (fun t => nth (fst t) mask false) (atrs (nth i M blank))))]
   else []) (seq 0 (length M)).
(** drop_passthrough_nodes: ATN.hpp:363-389. *)
Definition drop_passthrough (M : atn) : option atn :=
  match fold_left drop_step (seq 1 (length M - 2)) (Some (M, repeat true (length M))) with
  | Some (M', mask) => Some (filter_atn M' mask)
  | None => None
  end.
