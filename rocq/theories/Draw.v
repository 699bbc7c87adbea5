(** * Model of the Graphviz output (src/core/NFA.hpp, DFA.hpp, LookaheadDFA.hpp, CompositeATN.hpp, CharClass.cpp, Util.cpp).
    The text that goes to the stream, for Grammar<char>, the only kind the tool makes (main.cpp:188, 225, 232).  std::endl is a
    line feed. *)
From Coq Require Import List NArith Arith ZArith Bool String Ascii.
From Verif Require Import CharClass NFA DFA ATN CodeGen Lookahead Tool.
Import ListNotations.
Local Open Scope nat_scope.
Local Open Scope list_scope.

(** Wide string literals; @ stands for the quotation mark, | for the end of the line. *)
Definition txt (s : string) : list N :=
  map (fun a => let c := N_of_ascii a in if (c =? 64)%N then 34%N else if (c =? 124)%N then 10%N else c) (list_ascii_of_string s).
(** swprintf %0X: CharClass.cpp:222, for values below 256 (char is unsigned, -funsigned-char). *)
Definition hexd (d : N) : N := (if d <? 10 then 48 + d else 55 + d)%N.
Definition hex (c : N) : list N := if (c <? 16)%N then [hexd c] else [hexd (c / 16)%N; hexd (c mod 16)%N].
(** printc: CharClass.cpp:217-237; isgraph in the C locale. *)
Definition isgraph (c : N) : bool := ((33 <=? c) && (c <=? 126))%N.
Definition printc (c : N) : list N :=
  if isgraph c then (if c =? 34 then [92; 34] else if c =? 92 then [92; 92] else [c])%N
  else (92 :: 92 :: 120 :: hex c)%N.
(** operator<<(wostream, CharClass): CharClass.cpp:268-302; (TCHAR)(end - 1) on 8 bits. *)
Definition class_text (cc : cclass) : list N :=
  match cc with
  | [] => []
  | _ => 91%N :: flat_map (fun r => if (re r =? rs r + 1)%N then printc (rs r)
                                    else printc (rs r) ++ 45%N :: printc ((re r + 255) mod 256)%N) cc ++ [93%N]
  end.
(** std::wostream << int, for indices. *)
Definition num (i : nat) : list N := digits (N.of_nat i).
(** operator<<(wostream, IndexVector): Util.cpp:20-31.  The empty vector (size() - 1 wraps around) is undefined behaviour, see
    [drawable]; here it gives brackets with nothing in them. *)
Fixpoint index_text' (v : list nat) : list N :=
  match v with [] => [] | [x] => num x | x :: v' => num x ++ 44%N :: index_text' v' end.
Definition index_text (v : list nat) : list N := 91%N :: index_text' v ++ [93%N].

(** The head of every drawing: NFA.hpp:262-266, DFA.hpp:154-158, LookaheadDFA.hpp:268-272; CompositeATN.hpp:201-205 has no
    style in the second line. *)
Definition head_text (name : list N) (filled : bool) : list N :=
  txt "digraph " ++ name ++ txt " {|rankdir=@LR@;|" ++
  (if filled then txt "graph [ charset=@UTF-8@, style=@filled@ ];|" else txt "graph [ charset=@UTF-8@ ];|") ++
  txt "node [ style=@solid,filled@ ];|edge [ style=@solid@ ];|".
(** for (i = from; i < size; i++) f(i, element) *)
Fixpoint each {A} (f : nat -> A -> list N) (i : nat) (l : list A) : list N :=
  match l with [] => [] | x :: l' => f i x ++ each f (S i) l' end.

(** NFABaseState::print: NFA.hpp:180-195. *)
Definition nfa_arrow (i : nat) (t : ntr) : list N :=
  txt "S" ++ num i ++ txt " -> S" ++ num (tdest t) ++ txt " [ label=@" ++ class_text (tlab t) ++
  (if tlong t then txt "@, penwidth=3, arrowsize=3 ];|" else txt "@ ];|").
(** A line of the states of NFABase::print: NFA.hpp:270-272, LookaheadDFA.hpp:285-287. *)
Definition state_line (i : nat) : list N := txt "S" ++ num i ++ txt " [ label=@" ++ num i ++ txt "@, shape=circle ];|".
(** NFABase::print: NFA.hpp:260-281. *)
Definition nfa_dot (name : list N) (A : nfa) : list N :=
  head_text name true ++ each (fun i _ => state_line i) 0 A ++ each (fun i st => flat_map (nfa_arrow i) st) 0 A ++ txt "}|".

(** DFAState::print: DFA.hpp:31-39. *)
Definition dfa_arrow (i : nat) (t : ntr) : list N :=
  txt "S" ++ num i ++ txt " -> S" ++ num (tdest t) ++ txt " [ label=@" ++ class_text (tlab t) ++ txt "@ ];|".
(** DFA::print: DFA.hpp:152-184, with print_state 185-188. *)
Definition dfa_line (i : nat) (s : dstate) : list N :=
  txt "S" ++ num i ++ txt " [ label=@" ++ index_text (dlab s) ++
  (if dacc s then txt "@, shape=doublecircle" else txt "@, shape=circle") ++ (if dlong s then txt ", penwidth=2 ];|" else txt " ];|").
Definition dfa_dot (name : list N) (X : dfa) : list N :=
  head_text name true ++ txt "SS [ style=@invisible@ ];|" ++ each dfa_line 0 X ++ txt "SS -> S0;|" ++
  each (fun i s => flat_map (dfa_arrow i) (dtrs s)) 0 X ++ txt "}|".

(** LookaheadDFA::get_color_num: LookaheadDFA.hpp:222-237. *)
Definition color_num (T : ldfa) : nat :=
  fold_left (fun m st => fold_left (fun m (t : cclass * Z) => if (snd t <? 0)%Z then Nat.max m (Z.to_nat (- snd t)) else m) st m) T 0.
(** LDFAState::print: LookaheadDFA.hpp:44-61. *)
Definition ldfa_arrow (i : nat) (t : cclass * Z) : list N :=
  txt "S" ++ num i ++ txt " -> " ++
  (if (snd t <? 0)%Z then txt "A" ++ num (Z.to_nat (- snd t)) else txt "S" ++ num (Z.to_nat (snd t))) ++
  txt " [ label=@" ++ class_text (fst t) ++ txt "@ ];|".
(** LookaheadDFA::print: LookaheadDFA.hpp:266-296. *)
Definition color_line (i : nat) : list N := txt "A" ++ num i ++ txt " [ label=@" ++ num i ++ txt "@, shape=doublecircle ];|".
Definition ldfa_dot (name : list N) (T : ldfa) : list N :=
  head_text name true ++ flat_map color_line (seq 1 (color_num T)) ++ each (fun i _ => state_line i) 0 T ++
  each (fun i st => flat_map (ldfa_arrow i) st) 0 T ++ txt "}|".

(** CATNNode::print: CompositeATN.hpp:68-85; m_submachine is printed if it is not empty. *)
Definition catn_node (i : nat) (n : cnode) : list N :=
  txt "N" ++ num i ++ txt " [ label=@" ++ (match csub n with [] => num i | w => w end) ++ txt "@ ];|" ++
  flat_map (fun t => txt "N" ++ num i ++ txt " -> N" ++ num (cdest t) ++ txt " [ label=@" ++ num (ctag t) ++ txt ":[" ++
                     class_text (clab t) ++ txt "]" ++ txt "@ ];|") (ctrs n).
(** CATNMachine::print: CompositeATN.hpp:199-213. *)
Definition catn_dot (name : list N) (Q : cmach) : list N := head_text name false ++ each catn_node 0 Q ++ txt "}|".
