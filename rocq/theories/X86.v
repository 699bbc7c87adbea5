(** * The machine the generated code runs on.

    A model of the few x86-64 instructions CodeGenEM64T.cpp emits.  Not taken from /repo: it
    states what the processor (Intel SDM vol. 2) and asmjit's labels do, and is part of the trusted base.

    - a program is a list of instructions, labels are bound by [IBind]; the program counter is the
      part of the program still to be executed;
    - registers hold 64-bit values; r9, which only ever holds a saved stack pointer
      (CodeGenCommonEM64T.hpp:56), is the field [sav];
    - the stack is a list of slots (value, return address or saved stack pointer);
    - input memory is read-only and partial: reading a byte that is not mapped is a [Fault];
    - the output page is that of Writer.v; storing outside of it is a [Fault];
    - condition codes are kept only after a compare; a conditional jump after anything else is a [Fault]. *)
From Coq Require Import List NArith ZArith Bool.
From Verif Require Import Writer.
Import ListNotations.
Open Scope N_scope.

Definition w64 (x : N) : N := x mod 2 ^ 64.
Definition sub64 (a b : N) : N := (a + 2 ^ 64 - b) mod 2 ^ 64.
Definition s64 (x : N) : Z := if x <? 2 ^ 63 then Z.of_N x else (Z.of_N x - 2 ^ 64)%Z.

(** Register names with their roles in CodeGenCommonEM64T.hpp:43-70 (Linux column). *)
Inductive reg := RAX | RBX | RCX | RDX | RSI | RDI | RBP | R8.
Definition reg_eqb (a b : reg) : bool :=
  match a, b with
  | RAX, RAX | RBX, RBX | RCX, RCX | RDX, RDX | RSI, RSI | RDI, RDI | RBP, RBP | R8, R8 => true
  | _, _ => false
  end.
Definition label := list nat.
Fixpoint label_eqb (a b : label) : bool :=
  match a, b with
  | [], [] => true
  | x :: a', y :: b' => Nat.eqb x y && label_eqb a' b'
  | _, _ => false
  end.
Inductive cond := JE | JNE | JB | JNB | JG.

Inductive instr :=
| IBind (l : label)
| IJmp (l : label) | IJcc (c : cond) (l : label)
| IMov (d s : reg) | IMovI (d : reg) (v : N)
| ILoadB (d b : reg)                        (* movzx d, byte ptr [b] *)
| IInc (r : reg) | IDec (r : reg)
| IAdd (d s : reg) | IAddI (d : reg) (v : N) | ISub (d s : reg) | ISubI (d : reg) (v : N)
| IOr (d s : reg) | IXor (d s : reg) | IShl (d : reg) (k : N)
| ICmp (a b : reg) | ICmpI (a : reg) (v : N)
| ILoadX (b : reg)                          (* movdqu xmm0, [b] *)
| IPat (p : list N)                         (* movdqa xmm2, constant *)
| IPcmpP (imm : N)                          (* pcmpistri xmm2, xmm0, imm *)
| IPcmpC (p : list N) (imm : N)             (* pcmpistri xmm0, constant, imm *)
| IStore (b s : reg)                        (* movnti [b], s *)
| ICall (l : label) | IRet
| IPush (r : reg) | IPop (r : reg) | IPushSP | IPopSP   (* the latter two: push/pop r9 *)
| ILoadS (d : reg) (k : nat)                (* mov d, [rsp + 8*k] *)
| ISaveSP | IRestSP                         (* mov r9, rsp / mov rsp, r9 *)
| ICallReq                                  (* call request_page *)
| IPushI (v : N)                            (* push immediate *)
| ICallBack (nonterminal : bool)            (* call of one of a chaser's two callbacks: only linked in Chaser.v *)
| IFence.
Notation code := (list instr).

Inductive slot := SVal (v : N) | SRet (c : code) | SSav (s : list slot).

Record st := mkS {
  pc : code;
  rg : reg -> N;
  fl : option (N * N);        (* operands of the last compare *)
  xl : list N; xp : list N;   (* xmm0, xmm2 *)
  stk : list slot;
  sav : list slot;            (* r9 *)
  out : wstate;               (* pages, Writer.v *)
  obase : N;                  (* address of the current page *)
}.
(** What is outside the generated code. *)
Record env := mkE {
  mem : N -> option N;           (* input memory *)
  ctx : N;                       (* the listener object request_page must be called with *)
  page_words : nat;              (* words in a page *)
  stale : nat -> list N;         (* old contents of the pages handed out *)
  page_addr : nat -> N;          (* their addresses *)
  clob : nat -> reg -> N;        (* what the k-th call leaves in the caller-saved registers *)
}.
Inductive res := Next (s : st) | Stop (s : st) | Fault.

Definition setr (r : reg) (v : N) (f : reg -> N) : reg -> N := fun x => if reg_eqb r x then v else f x.

Fixpoint find_lab (P : code) (l : label) : option code :=
  match P with
  | [] => None
  | i :: P' => match i with
               | IBind l' => if label_eqb l l' then Some P' else find_lab P' l
               | _ => find_lab P' l
               end
  end.

Fixpoint load (m : N -> option N) (a : N) (n : nat) : option (list N) :=
  match n with
  | O => Some []
  | S k => match m a, load m (w64 (a + 1)) k with
           | Some b, Some l => Some (b :: l)
           | _, _ => None
           end
  end.

(** pcmpistri.  Number of valid bytes: those before the first zero byte. *)
Fixpoint slen (l : list N) : nat :=
  match l with
  | [] => O
  | x :: l' => if x =? 0 then O else S (slen l')
  end.
Fixpoint in_pairs (a : list N) (x : N) : bool :=
  match a with
  | lo :: hi :: a' => ((lo <=? x) && (x <=? hi)) || in_pairs a' x
  | _ => false
  end.
(** imm 0x14: unsigned bytes, ranges, negative polarity, least significant index. *)
Fixpoint idx_ranges (a : list N) (b : list N) : nat :=
  match b with
  | [] => O
  | x :: b' => if negb (x =? 0) && in_pairs a x then S (idx_ranges a b') else O
  end.
(** imm 0x18: unsigned bytes, equal each, negative polarity, least significant index. [va], [vb]: still valid. *)
Fixpoint idx_each (va vb : bool) (a b : list N) : nat :=
  match a, b with
  | x :: a', y :: b' =>
    let va := va && negb (x =? 0) in let vb := vb && negb (y =? 0) in
    if (if va then vb && (x =? y) else negb vb) then S (idx_each va vb a' b') else O
  | _, _ => O
  end.
Definition pcmpistri (a b : list N) (imm : N) : option N :=
  if imm =? 20 then Some (N.of_nat (idx_ranges (firstn (slen a) a) b))
  else if imm =? 24 then Some (N.of_nat (idx_each true true a b))
  else None.

Definition eval_cond (c : cond) (f : N * N) : bool :=
  let '(a, b) := f in
  match c with
  | JE => a =? b | JNE => negb (a =? b) | JB => a <? b | JNB => negb (a <? b) | JG => (s64 b <? s64 a)%Z
  end.

Section Step.
Variables (P : code) (e : env).
Definition set_reg (s : st) (k : code) (r : reg) (v : N) (f : option (N * N)) : st :=
  mkS k (setr r v (rg s)) f (xl s) (xp s) (stk s) (sav s) (out s) (obase s).
Definition goto (s : st) (k : code) : st := mkS k (rg s) (fl s) (xl s) (xp s) (stk s) (sav s) (out s) (obase s).
Definition jump (s : st) (l : label) : res := match find_lab P l with Some k => Next (goto s k) | None => Fault end.
Definition set_fl (s : st) (k : code) (f : N * N) : st := mkS k (rg s) (Some f) (xl s) (xp s) (stk s) (sav s) (out s) (obase s).
Definition set_stk (s : st) (k : code) (l : list slot) : st := mkS k (rg s) (fl s) (xl s) (xp s) l (sav s) (out s) (obase s).
Definition set_xl (s : st) (k : code) (l : list N) : st := mkS k (rg s) (fl s) l (xp s) (stk s) (sav s) (out s) (obase s).

Definition step (s : st) : res :=
  match pc s with
  | [] => Stop s
  | i :: k =>
    let r := rg s in
    match i with
    | IBind _ => Next (goto s k)
    | IJmp l => jump s l
    | IJcc c l => match fl s with
                  | Some f => if eval_cond c f then jump s l else Next (goto s k)
                  | None => Fault
                  end
    | IMov d x => Next (set_reg s k d (r x) (fl s))
    | IMovI d v => Next (set_reg s k d v (fl s))
    | ILoadB d b => match mem e (r b) with Some v => Next (set_reg s k d v (fl s)) | None => Fault end
    | IInc d => Next (set_reg s k d (w64 (r d + 1)) None)
    | IDec d => Next (set_reg s k d (sub64 (r d) 1) None)
    | IAdd d x => Next (set_reg s k d (w64 (r d + r x)) None)
    | IAddI d v => Next (set_reg s k d (w64 (r d + v)) None)
    | ISub d x => Next (set_reg s k d (sub64 (r d) (r x)) None)
    | ISubI d v => Next (set_reg s k d (sub64 (r d) v) None)
    | IOr d x => Next (set_reg s k d (N.lor (r d) (r x)) None)
    | IXor d x => Next (set_reg s k d (N.lxor (r d) (r x)) None)
    | IShl d v => Next (set_reg s k d (w64 (N.shiftl (r d) v)) None)
    | ICmp a b => Next (set_fl s k (r a, r b))
    | ICmpI a v => Next (set_fl s k (r a, v))
    | ILoadX b => match load (mem e) (r b) 16 with Some l => Next (set_xl s k l) | None => Fault end
    | IPat p => Next (mkS k r (fl s) (xl s) p (stk s) (sav s) (out s) (obase s))
    | IPcmpP imm => match pcmpistri (xp s) (xl s) imm with Some v => Next (set_reg s k RCX v None) | None => Fault end
    | IPcmpC p imm => match pcmpistri (xl s) p imm with Some v => Next (set_reg s k RCX v None) | None => Fault end
    | IStore b x =>
      let o := sub64 (r b) (obase s) in
      let i := N.to_nat (o / 8) in
      if (o mod 8 =? 0) && Nat.ltb i (page_words e)
      then Next (mkS k r (fl s) (xl s) (xp s) (stk s) (sav s) (mkW (released (out s)) (store (page (out s)) i (r x)) (S i)) (obase s))
      else Fault
    | ICall l => jump (set_stk s k (SRet k :: stk s)) l
    | IRet => match stk s with
              | SRet k' :: q => Next (set_stk s k' q)
              | _ => Fault
              end
    | IPush x => Next (set_stk s k (SVal (r x) :: stk s))
    | IPop x => match stk s with
                | SVal v :: q => Next (set_reg (set_stk s k q) k x v (fl s))
                | _ => Fault
                end
    | IPushSP => Next (set_stk s k (SSav (sav s) :: stk s))
    | IPopSP => match stk s with
                | SSav v :: q => Next (mkS k r (fl s) (xl s) (xp s) q v (out s) (obase s))
                | _ => Fault
                end
    | ILoadS d i => match nth_error (stk s) i with
                    | Some (SVal v) => Next (set_reg s k d v (fl s))
                    | _ => Fault
                    end
    | ISaveSP => Next (mkS k r (fl s) (xl s) (xp s) (stk s) (stk s) (out s) (obase s))
    | IRestSP => Next (mkS k r (fl s) (xl s) (xp s) (sav s) (sav s) (out s) (obase s))
    | ICallReq =>
      (* ParserEM64T::request_page = BaseListener::feed_callback: releases the page and returns the
         address of the next one; rbx, rbp and the stack survive, every other register may change *)
      if r RDI =? ctx e then
        let n := S (length (released (out s))) in
        let g := clob e n in
        Next (mkS k (fun x => match x with RBX => r RBX | RBP => r RBP | RAX => page_addr e n | _ => g x end)
                None [] [] (stk s) [] (request_page (stale e) (out s)) (page_addr e n))
      else Fault
    | IPushI v => Next (set_stk s k (SVal v :: stk s))
    | ICallBack _ => Fault
    | IFence => Next (goto s k)
    end
  end.

Inductive star : st -> st -> Prop :=
| star_refl s : star s s
| star_step s s1 s2 : step s = Next s1 -> star s1 s2 -> star s s2.
End Step.

(** Running with a step bound, for examples. *)
Fixpoint run (P : code) (e : env) (n : nat) (s : st) : option res :=
  match n with
  | O => None
  | S k => match step P e s with Next s' => run P e k s' | r => Some r end
  end.
