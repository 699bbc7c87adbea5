(** * Model of the generated parser (src/core/CodeGenEM64T.cpp, ParserEM64T; TCHAR = char, Linux) *)
From Coq Require Import List NArith ZArith Bool Arith.
From Verif Require Import CharClass NFA DFA ATN Grammar X86 CodeGen.
Import ListNotations.
Local Open Scope N_scope.

(** What the code generator works on: the networks of the grammar (in the order of the map's
    iteration), the DFA compiled from each pattern (C08, C09), the decision automaton of each node
    with several successors (machine and node number), the contents of uninitialised constant
    bytes, AST_BUF_SIZE (CodeGenEM64T.hpp:75). *)
Record compiled := mkC {
  c_nets : list (list N * (N * atn));
  c_dfa : nfa -> dfa;
  c_look : nat -> nat -> ldfa;
  c_junk : nat -> nat -> N -> N;
  c_buf : N }.

(** Labels: statelabels, machine_map, requestpage labels, landfilllabel, finishlabel. *)
Definition lnode (m i : nat) : label := [11; m; i]%nat.
Definition lmach (m : nat) : label := [12; m; 0]%nat.
Definition lreq1 (m : nat) : label := [13; m; 0]%nat.
Definition lreq2 (m : nat) : label := [14; m; 0]%nat.
Definition lland : label := [15]%nat.
Definition lfin : label := [16]%nat.
Fixpoint net_index (nets : list (list N * (N * atn))) (name : list N) : option nat :=
  match nets with
  | [] => None
  | p :: nets' => if eqname (fst p) name then Some O else option_map S (net_index nets' name)
  end.
(** machine_map[id]: operator[] makes an unbound label for an unknown name. *)
Definition lcall (nets : list (list N * (N * atn))) (name : list N) : label :=
  match net_index nets name with Some m => lmach m | None => [17]%nat end.

Section Emit.
Variable C : compiled.
(** A marker and the page check: CodeGenEM64T.cpp:336-344, 381-389. *)
Definition emit_marker (v : N) (req : label) : code :=
  [IMov MARKER INPUT; ISub MARKER INBASE; IMovI IDREG v; IShl IDREG 48; IOr MARKER IDREG;
   IStore OUTPUT MARKER; IAddI OUTPUT 8; ICmp OUTPUT BOUND; IJcc JE req].
(** CodeGenEM64T.cpp:353-371. *)
Definition emit_sym (m i : nat) (n : nty) : code :=
  match n with
  | NBlank => []
  | NLit s => emit_match rej0 (c_junk C m i) s
  | NInv id => [ICall (lcall (c_nets C) id)]
  | NReg A => emit_dfa [8; m; i]%nat rej0 (c_dfa C A)
  | NWs => emit_skip [10; m; i]%nat
  end.
(** CodeGenEM64T.cpp:373-409. *)
Definition emit_next (m : nat) (id : N) (i : nat) (ts : list (nat * nat)) : code :=
  match ts with
  | [] => emit_marker id (lreq2 m) ++ [IRet]
  | [t] => [IJmp (lnode m (fst t))]
  | _ => emit_ldfa [9; m; i]%nat rej0 (map (fun t => lnode m (fst t)) ts) (c_look C m i)
  end.
Definition emit_node (m : nat) (id : N) (i : nat) (n : anode) : code := emit_sym m i (nt n) ++ emit_next m id i (atrs n).
Fixpoint emit_nodes (m : nat) (id : N) (i : nat) (M : atn) : code :=
  match M with
  | [] => []
  | n :: M' => IBind (lnode m i) :: emit_node m id i n ++ emit_nodes m id (S i) M'
  end.
(** The page request: CodeGenEM64T.cpp:413-436, 440-463.  PATTERN_REG is saved in xmm15, which
    request_page may change: like xmm0 and xmm2 in X86.v it is lost, and reloaded before it is used. *)
Definition emit_request : code :=
  [IPush INPUT; IPush INBASE; IPush CONTEXT; IPushSP; ILoadS RDI 1; IFence; ICallReq;
   IMov OUTPUT RAX; IMov BOUND OUTPUT; IAddI BOUND (c_buf C); IPopSP; IPop CONTEXT; IPop INBASE; IPop INPUT].
(** ParserEM64T::emit_machine: CodeGenEM64T.cpp:315-464. *)
Definition emit_machine (m : nat) (net : N * atn) : code :=
  emit_marker (N.lor (fst net) (2 ^ 15)) (lreq1 m) ++ emit_nodes m (fst net) 0 (snd net) ++
  (IBind (lreq1 m) :: emit_request ++ [IJmp (lnode m 0)]) ++ (IBind (lreq2 m) :: emit_request ++ [IRet]).
Fixpoint emit_machines (m : nat) (nets : list (list N * (N * atn))) : code :=
  match nets with
  | [] => []
  | p :: nets' => IBind (lmach m) :: emit_machine m (snd p) ++ emit_machines (S m) nets'
  end.
(** ParserEM64T::init: CodeGenEM64T.cpp:84-150.  The arguments are at rsp+32, +24, +16
    (CodeGenCommonEM64T.hpp:84-86).  The load of the skip filter into PATTERN_REG is left out:
    every use of PATTERN_REG is preceded by its own load. *)
Definition parser_head (root : list N) : code :=
  [ILoadS CONTEXT 4; ILoadS INPUT 3; ILoadS OUTPUT 2; IMov BOUND OUTPUT; IAddI BOUND (c_buf C); IMov INBASE INPUT;
   ICall (lcall (c_nets C) root);
   IXor MARKER MARKER; IBind lland; IStore OUTPUT MARKER; IAddI OUTPUT 8; ICmp OUTPUT BOUND; IJcc JNE lland; IFence; IJmp lfin].
Definition parser_code (root : list N) : code :=
  prolog ++ parser_head root ++ emit_machines 0 (c_nets C) ++ [IBind lfin] ++ epilog [] rej0.
End Emit.
