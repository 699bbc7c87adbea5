(** * Model of the code emitters of src/core/CodeGenEM64T.cpp (TCHAR = char, Linux).

    [as.newLabel()] is modelled by structured names: the emitters get a prefix [p] that no other
    emitter of the same program uses. *)
From Coq Require Import List NArith ZArith Bool Arith.
From Verif Require Import CharClass NFA DFA X86.
Import ListNotations.
Open Scope N_scope.

(** CodeGenCommonEM64T.hpp:43-70. *)
Notation INPUT := RSI. Notation BACKUP := RBX. Notation PEEK := RBX. Notation CHAR := RAX. Notation CHAR2 := RCX.
Notation INDEX := RCX. Notation OUTPUT := RDI. Notation BOUND := RDX. Notation INBASE := RBP. Notation MARKER := RAX.
Notation IDREG := RBX. Notation CONTEXT := R8.

(** CharClass::operator[]: CharClass.hpp:468-473, an index past the end gives an empty range.
    pack_charclass: CodeGenUtilsEM64T.hpp:9-28. *)
Definition pack_slot (cc : cclass) (i : nat) : list N :=
  match nth_error cc i with
  | None => [255; 0]
  | Some r => if rs r =? re r then [255; 0] else [rs r; sub64 (re r) 1 mod 256]
  end.
Definition pack_charclass (cc : cclass) : list N := flat_map (pack_slot cc) (seq 0 8).

(** The test of one range and the jump taken when it holds: CodeGenEM64T.cpp:661-675, 751-783. *)
Definition emit_range (r : range) (l : label) : code :=
  if rs r + 1 =? re r
  then [ICmpI CHAR (rs r); IJcc JE l]
  else [ISubI CHAR (rs r); ICmpI CHAR (sub64 (re r) (rs r)); IJcc JB l; IMov CHAR CHAR2].
Definition emit_ranges (cc : cclass) (l : label) : code := flat_map (fun r => emit_range r l) cc.

(** Labels of a DFA routine: statelabels, the loop labels of a state, finishlabel. *)
Definition lstate (p : label) (i : nat) : label := O :: i :: p.
Definition lloop (p : label) (i j : nat) : label := 1%nat :: i :: j :: p.
Definition lfinish (p : label) : label := 2%nat :: p.

(** The vectorised loop: CodeGenEM64T.cpp:592-604. *)
Definition emit_loop (cc : cclass) (l : label) : code :=
  [IPat (pack_charclass cc); IBind l; ILoadX INPUT; IPcmpP 20; IAdd INPUT INDEX; ICmpI INDEX 15; IJcc JG l].
(** The loop over the transitions: CodeGenEM64T.cpp:587-611.  Emitted loops, transitions left. *)
Fixpoint emit_loops (p : label) (index : nat) (long : bool) (j : nat) (ts : list ntr) : code * list ntr :=
  match ts with
  | [] => ([], [])
  | t :: ts' =>
    let '(c, rest) := emit_loops p index long (S j) ts' in
    if (tdest t =? index)%nat && long then (emit_loop (tlab t) (lloop p index j) ++ c, rest) else (c, t :: rest)
  end.
(** DFARoutineEM64T::emit_state: CodeGenEM64T.cpp:583-680. *)
Definition emit_state (p : label) (index : nat) (s : dstate) : code :=
  let '(loops, ts) := emit_loops p index (dlong s) 0 (dtrs s) in
  loops ++ (if dacc s then [IMov BACKUP INPUT] else []) ++
  match ts with
  | [] => [IJmp (lfinish p)]
  | _ =>
    [ILoadB CHAR INPUT; IMov CHAR2 CHAR; IInc INPUT] ++
    match ts with
    | [t] =>
      match tlab t with
      | [r] => (if rs r + 1 =? re r then [ICmpI CHAR (rs r); IJcc JNE (lfinish p)]
                else [ISubI CHAR (rs r); ICmpI CHAR (sub64 (re r) (rs r)); IJcc JNB (lfinish p)]) ++ [IJmp (lstate p (tdest t))]
      | _ => flat_map (fun t => emit_ranges (tlab t) (lstate p (tdest t))) ts ++ [IJmp (lfinish p)]
      end
    | _ => flat_map (fun t => emit_ranges (tlab t) (lstate p (tdest t))) ts ++ [IJmp (lfinish p)]
    end
  end.
Fixpoint emit_states (p : label) (i : nat) (D : dfa) : code :=
  match D with
  | [] => []
  | s :: D' => IBind (lstate p i) :: emit_state p i s ++ emit_states p (S i) D'
  end.
(** DFARoutineEM64T::emit: CodeGenEM64T.cpp:556-580. *)
Definition emit_dfa (p rej : label) (D : dfa) : code :=
  [IMovI BACKUP 0; IJmp (lstate p 0)] ++ emit_states p 0 D ++
  [IBind (lfinish p); IMov INPUT BACKUP; ICmpI INPUT 0; IJcc JE rej].

(** A lookahead DFA: per state, transitions with a label and a destination; a negative
    destination -k-1 is the exit number k (LookaheadDFA.hpp:13-62, CodeGenEM64T.cpp:755-762). *)
Notation ldfa := (list (list (cclass * Z))).
Definition ldest (p : label) (exits : list label) (d : Z) : label :=
  if (0 <=? d)%Z then lstate p (Z.to_nat d) else nth (Z.to_nat (- d - 1)) exits [].
(** LDFARoutineEM64T::emit_state: CodeGenEM64T.cpp:736-786. *)
Definition emit_lstate (p rej : label) (exits : list label) (ts : list (cclass * Z)) : code :=
  [ILoadB CHAR PEEK; IMov CHAR2 CHAR; IInc PEEK] ++
  flat_map (fun t => emit_ranges (fst t) (ldest p exits (snd t))) ts ++ [IJmp rej].
Fixpoint emit_lstates (p rej : label) (exits : list label) (i : nat) (L : ldfa) : code :=
  match L with
  | [] => []
  | s :: L' => IBind (lstate p i) :: emit_lstate p rej exits s ++ emit_lstates p rej exits (S i) L'
  end.
(** LDFARoutineEM64T::emit: CodeGenEM64T.cpp:718-733. *)
Definition emit_ldfa (p rej : label) (exits : list label) (L : ldfa) : code :=
  IMov PEEK INPUT :: emit_lstates p rej exits 0 L.

(** MatchRoutineEM64T::emit: CodeGenEM64T.cpp:814-858.  Bytes of the constant behind the literal
    are never initialised: [junk]. *)
Definition emit_byte (rej : label) (c : N) : code := [ILoadB CHAR INPUT; IInc INPUT; ICmpI CHAR c; IJcc JNE rej].
Definition emit_chunk (rej : label) (junk : N -> N) (s : list N) : code :=
  let l1 := N.of_nat (length s) in
  [ILoadX INPUT; IPcmpC (s ++ map (fun i => junk (N.of_nat i)) (seq (length s) (16 - length s))) 24; ICmpI INDEX l1; IJcc JB rej; IAddI INPUT l1].
Fixpoint emit_chunks (n : nat) (rej : label) (junk : N -> N) (s : list N) : code :=
  match n with
  | O => []
  | S k => match s with
           | [] => []
           | _ => emit_chunk rej junk (firstn 16 s) ++ emit_chunks k rej junk (skipn 16 s)
           end
  end.
Definition emit_match (rej : label) (junk : N -> N) (s : list N) : code :=
  if (length s <? 8)%nat then flat_map (emit_byte rej) s else emit_chunks (length s) rej junk s.

(** SkipRoutineEM64T::emit: CodeGenEM64T.cpp:860-898. *)
Definition emit_skip (p : label) : code :=
  [IBind p; ILoadB CHAR INPUT; IInc INPUT;
   ICmpI CHAR 32; IJcc JE p; ICmpI CHAR 9; IJcc JE p; ICmpI CHAR 10; IJcc JE p; ICmpI CHAR 13; IJcc JE p;
   IDec INPUT].

(** emit_parser_prolog / emit_parser_epilog: CodeGenUtilsEM64T.hpp:98-139. *)
Definition prolog : code :=
  [IPushSP; IPush R8; IPush RBP; IPush RDI; IPush RSI; IPush RDX; IPush RCX; IPush RBX; ISaveSP].
Definition epilog (p rej : label) : code :=
  [IMov RAX INPUT; IJmp (3%nat :: p); IBind rej; IMovI RAX 0; IRestSP; IBind (3%nat :: p);
   IPop RBX; IPop RCX; IPop RDX; IPop RSI; IPop RDI; IPop RBP; IPop R8; IPopSP; IRet].

(** The stand-alone routines: DFARoutineEM64T (CodeGenEM64T.cpp:525-553), MatchRoutineEM64T
    (789-811), SkipRoutineEM64T (901-926); argument 1 is at [rsp+32] (CodeGenCommonEM64T.hpp:84). *)
Definition rej0 : label := [4%nat].
Definition dfa_routine (D : dfa) : code := prolog ++ [ILoadS INPUT 4] ++ emit_dfa [] rej0 D ++ epilog [] rej0.
Definition match_routine (junk : N -> N) (s : list N) : code := prolog ++ [ILoadS INPUT 4] ++ emit_match rej0 junk s ++ epilog [] rej0.
Definition skip_routine : code := prolog ++ [ILoadS INPUT 4] ++ emit_skip [5%nat] ++ epilog [] rej0.
(** LDFARoutineEM64T: CodeGenEM64T.cpp:683-716: returns the exit number + 1. *)
Definition ldfa_exit (i : nat) : label := [6%nat; i].
Definition ldfa_routine (n : nat) (L : ldfa) : code :=
  prolog ++ [ILoadS INPUT 4] ++ emit_ldfa [] rej0 (map ldfa_exit (seq 0 n)) L ++ [IJmp rej0] ++
  flat_map (fun i => [IBind (ldfa_exit i); IMovI INPUT (N.of_nat i + 1); IJmp [7%nat]]) (seq 0 n) ++ [IBind [7%nat]] ++ epilog [] rej0.
