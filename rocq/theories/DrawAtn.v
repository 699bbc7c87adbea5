(** * Model of generate-atn (src/core/ATN.hpp ATNPrinter, ATNNode::print; NFA.hpp print_subgraph; Grammar.hpp print) *)
From Coq Require Import List NArith ZArith Arith Bool String.
From Verif Require Import CharClass NFA ATN Grammar Tool Draw.
Import ListNotations.
Local Open Scope nat_scope.
Local Open Scope list_scope.

(** NFABaseState::print_subgraph: NFA.hpp:196-210. *)
Definition sub_arrow (prefix : list N) (i : nat) (t : ntr) : list N :=
  prefix ++ txt "_S" ++ num i ++ txt " -> " ++ prefix ++ txt "_S" ++ num (tdest t) ++ txt " [ label=@" ++ class_text (tlab t) ++
  (if tlong t then txt "@, penwidth=3, arrowsize=3 ];|" else txt "@ ];|").
(** NFABase::print_subgraph: NFA.hpp:282-297. *)
Definition nfa_sub (index : nat) (prefix : list N) (A : nfa) : list N :=
  txt "subgraph cluster_" ++ prefix ++ txt " {|" ++ txt "label=@[" ++ num index ++ txt "]@|" ++
  each (fun i _ => prefix ++ txt "_S" ++ num i ++ txt " [ label=@" ++ num i ++ txt "@, shape=circle ];|") 0 A ++
  each (fun i st => flat_map (sub_arrow prefix i) st) 0 A ++ txt "}|".
(** ATNNode::print: ATN.hpp:171-191. *)
Definition node_line (prefix lab : list N) (index : nat) : list N :=
  prefix ++ txt " [ label=@" ++ lab ++ txt "@, xlabel=@[" ++ num index ++ txt "]@ ];|".
Definition node_print (index : nat) (prefix : list N) (n : nty) : list N :=
  match n with
  | NBlank => node_line prefix [] index
  | NInv r => node_line prefix r index
  | NLit _ => node_line prefix (txt "\@\@") index
  | NReg A => nfa_sub index prefix A
  | NWs => node_line prefix (txt "[ ]") index
  end.
(** ATNNode::get_entry_exit_wide: ATN.hpp:160-170, NFA.hpp:298-305. *)
Definition node_ends (prefix : list N) (n : nty) : list N * list N :=
  match n with
  | NReg A => (prefix ++ txt "_S0", prefix ++ txt "_S" ++ num (List.length A - 1))
  | _ => (prefix, prefix)
  end.
Definition node_name (prefix : list N) (i : nat) : list N := prefix ++ txt "_N" ++ num i.

Section Nets.
Variable nets : list (list N * (N * atn)).
Notation ends := (list N * list N)%type.
(** One turn of the first loop of print_atn: ATN.hpp:464-486.  [expand]: the call of print_atn, if the stack is not as deep as
    allowed; the result: the text, entry and exit, the counter. *)
Definition p_node (expand : option (list (list N) -> nat -> list N -> nat -> option (list N * ends * nat)))
    (stack : list (list N)) (prefix : list N) (i : nat) (n : nty) (cnt : nat) : option (list N * ends * nat) :=
  let plain := Some (node_print i (node_name prefix i) n, node_ends (node_name prefix i) n, cnt) in
  match n with
  | NInv r => match expand with
              | Some f => if existsb (eqname r) stack then plain else f (r :: stack) i r cnt
              | None => plain
              end
  | _ => plain
  end.
Fixpoint p_nodes (expand : option (list (list N) -> nat -> list N -> nat -> option (list N * ends * nat)))
    (stack : list (list N)) (prefix : list N) (i : nat) (M : atn) (cnt : nat) : option (list N * list ends * nat) :=
  match M with
  | [] => Some ([], [], cnt)
  | n :: M' =>
    match p_node expand stack prefix i (nt n) cnt with
    | Some (t, e, c) => match p_nodes expand stack prefix (S i) M' c with
                        | Some (t', es, c') => Some (t ++ t', e :: es, c')
                        | None => None
                        end
    | None => None
    end
  end.
(** The second loop: ATN.hpp:488-500; nothing is printed for a transition itself (ATN.hpp:61-68). *)
Definition p_arrow (es : list ends) (i : nat) (t : nat * nat) : list N :=
  snd (nth i es ([], [])) ++ txt " -> " ++ fst (nth (fst t) es ([], [])) ++ txt " [ label=@" ++ txt "@ ];|".
(** print_atn: ATN.hpp:452-509.  [d]: the depth allowed less the size of the stack; None: m_networks.at throws. *)
Fixpoint p_atn (d : nat) (stack : list (list N)) (index : nat) (key : list N) (cnt : nat) : option (list N * ends * nat) :=
  match lookup nets key with
  | None => None
  | Some (_, M) =>
    let prefix := key ++ num cnt in
    match p_nodes (match d with O => None | S d' => Some (p_atn d') end) stack prefix 0 M (S cnt) with
    | None => None
    | Some (t, es, c) =>
      Some (txt "subgraph cluster_" ++ prefix ++ txt " {|" ++ t ++ each (fun i n => flat_map (p_arrow es i) (atrs n)) 0 M ++
            txt "label = @[" ++ num index ++ txt "]" ++ key ++ txt "@;|" ++ txt "}|",
            (node_name prefix 0, node_name prefix (List.length M - 1)), c)
    end
  end.
(** Grammar::print: Grammar.hpp:80-94, with print_grammar 95-102 and main.cpp:193-195. *)
Definition atn_dot (d : nat) (key : list N) : option (list N) :=
  match p_atn d [] 0 key 0 with
  | Some (t, _, _) => Some (head_text key false ++ t ++ txt "}|")
  | None => None
  end.
End Nets.
(** Grammar::optimize: Grammar.hpp:176-182.  None: undefined behaviour (ATN.v: drop_step). *)
Fixpoint optimise (nets : list (list N * (N * atn))) : option (list (list N * (N * atn))) :=
  match nets with
  | [] => Some []
  | (k, (id, M)) :: r => match drop_passthrough M, optimise r with Some M', Some r' => Some ((k, (id, M')) :: r') | _, _ => None end
  end.
(** m_stack.size() < (size_t)m_maxdepth: a negative depth is a very large one. *)
Definition depth_of (maxdepth : Z) : nat := Z.to_nat (maxdepth mod 2 ^ 64).
(** generate-atn: main.cpp:193-195, Grammar::print_grammar: Grammar.hpp:94-102; [opt]: --optimize. *)
Definition generate_atn (opt : bool) (maxdepth : Z) (nets : list (list N * (N * atn))) (root : list N) : shown (list N) :=
  match (if opt then optimise nets else Some nets) with
  | None => Undefined
  | Some ns => match atn_dot ns (depth_of maxdepth) root with Some t => Shown t | None => Refused end
  end.
