(** One lemma per instruction, on states in constructor form. *)
From Coq Require Import List NArith ZArith Bool.
From Verif Require Import Writer X86.
Import ListNotations.
Open Scope N_scope.
Section S.
Variables (P : code) (e : env).
Variables (k : code) (r : reg -> N) (f : option (N * N)) (x p : list N) (q v : list slot) (o : wstate) (b : N).
Notation ST K R F X := (mkS K R F X p q v o b).
Lemma st_bind l : step P e (ST (IBind l :: k) r f x) = Next (ST k r f x). Proof. reflexivity. Qed.
Lemma st_fence : step P e (ST (IFence :: k) r f x) = Next (ST k r f x). Proof. reflexivity. Qed.
Lemma st_jmp l k' : find_lab P l = Some k' -> step P e (ST (IJmp l :: k) r f x) = Next (ST k' r f x).
Proof. intros H. cbn. unfold jump. rewrite H. reflexivity. Qed.
Lemma st_jcc_t c l k' g : eval_cond c g = true -> find_lab P l = Some k' -> step P e (ST (IJcc c l :: k) r (Some g) x) = Next (ST k' r (Some g) x).
Proof. intros H1 H2. cbn. rewrite H1. unfold jump. rewrite H2. reflexivity. Qed.
Lemma st_jcc_f c l g : eval_cond c g = false -> step P e (ST (IJcc c l :: k) r (Some g) x) = Next (ST k r (Some g) x).
Proof. intros H1. cbn. rewrite H1. reflexivity. Qed.
Lemma st_mov d s : step P e (ST (IMov d s :: k) r f x) = Next (ST k (setr d (r s) r) f x). Proof. reflexivity. Qed.
Lemma st_movi d c : step P e (ST (IMovI d c :: k) r f x) = Next (ST k (setr d c r) f x). Proof. reflexivity. Qed.
Lemma st_loadb d s c : mem e (r s) = Some c -> step P e (ST (ILoadB d s :: k) r f x) = Next (ST k (setr d c r) f x).
Proof. intros H. cbn. rewrite H. reflexivity. Qed.
Lemma st_inc d : step P e (ST (IInc d :: k) r f x) = Next (ST k (setr d (w64 (r d + 1)) r) None x). Proof. reflexivity. Qed.
Lemma st_dec d : step P e (ST (IDec d :: k) r f x) = Next (ST k (setr d (sub64 (r d) 1) r) None x). Proof. reflexivity. Qed.
Lemma st_add d s : step P e (ST (IAdd d s :: k) r f x) = Next (ST k (setr d (w64 (r d + r s)) r) None x). Proof. reflexivity. Qed.
Lemma st_addi d c : step P e (ST (IAddI d c :: k) r f x) = Next (ST k (setr d (w64 (r d + c)) r) None x). Proof. reflexivity. Qed.
Lemma st_sub d s : step P e (ST (ISub d s :: k) r f x) = Next (ST k (setr d (sub64 (r d) (r s)) r) None x). Proof. reflexivity. Qed.
Lemma st_subi d c : step P e (ST (ISubI d c :: k) r f x) = Next (ST k (setr d (sub64 (r d) c) r) None x). Proof. reflexivity. Qed.
Lemma st_or d s : step P e (ST (IOr d s :: k) r f x) = Next (ST k (setr d (N.lor (r d) (r s)) r) None x). Proof. reflexivity. Qed.
Lemma st_xor d s : step P e (ST (IXor d s :: k) r f x) = Next (ST k (setr d (N.lxor (r d) (r s)) r) None x). Proof. reflexivity. Qed.
Lemma st_shl d c : step P e (ST (IShl d c :: k) r f x) = Next (ST k (setr d (w64 (N.shiftl (r d) c)) r) None x). Proof. reflexivity. Qed.
Lemma st_cmp d s : step P e (ST (ICmp d s :: k) r f x) = Next (ST k r (Some (r d, r s)) x). Proof. reflexivity. Qed.
Lemma st_cmpi d c : step P e (ST (ICmpI d c :: k) r f x) = Next (ST k r (Some (r d, c)) x). Proof. reflexivity. Qed.
Lemma st_loadx d l : load (mem e) (r d) 16 = Some l -> step P e (ST (ILoadX d :: k) r f x) = Next (ST k r f l).
Proof. intros H. cbn [step pc rg]. rewrite H. reflexivity. Qed.
Lemma st_pat l : step P e (ST (IPat l :: k) r f x) = Next (mkS k r f x l q v o b). Proof. reflexivity. Qed.
Lemma st_pcmpp i c : pcmpistri p x i = Some c -> step P e (ST (IPcmpP i :: k) r f x) = Next (ST k (setr RCX c r) None x).
Proof. intros H. cbn [step pc rg xl xp]. rewrite H. reflexivity. Qed.
Lemma st_pcmpc l i c : pcmpistri x l i = Some c -> step P e (ST (IPcmpC l i :: k) r f x) = Next (ST k (setr RCX c r) None x).
Proof. intros H. cbn [step pc rg xl xp]. rewrite H. reflexivity. Qed.
Lemma st_call l k' : find_lab P l = Some k' -> step P e (ST (ICall l :: k) r f x) = Next (mkS k' r f x p (SRet k :: q) v o b).
Proof. intros H. cbn. unfold jump. rewrite H. reflexivity. Qed.
Lemma st_ret k' s : step P e (mkS (IRet :: k) r f x p (SRet k' :: s) v o b) = Next (mkS k' r f x p s v o b). Proof. reflexivity. Qed.
Lemma st_push d : step P e (ST (IPush d :: k) r f x) = Next (mkS k r f x p (SVal (r d) :: q) v o b). Proof. reflexivity. Qed.
Lemma st_pushi c : step P e (ST (IPushI c :: k) r f x) = Next (mkS k r f x p (SVal c :: q) v o b). Proof. reflexivity. Qed.
Lemma st_pop d c s : step P e (mkS (IPop d :: k) r f x p (SVal c :: s) v o b) = Next (mkS k (setr d c r) f x p s v o b). Proof. reflexivity. Qed.
Lemma st_pushsp : step P e (ST (IPushSP :: k) r f x) = Next (mkS k r f x p (SSav v :: q) v o b). Proof. reflexivity. Qed.
Lemma st_popsp w s : step P e (mkS (IPopSP :: k) r f x p (SSav w :: s) v o b) = Next (mkS k r f x p s w o b). Proof. reflexivity. Qed.
Lemma st_loads d i c : nth_error q i = Some (SVal c) -> step P e (ST (ILoadS d i :: k) r f x) = Next (ST k (setr d c r) f x).
Proof. intros H. cbn [step pc stk]. rewrite H. reflexivity. Qed.
Lemma st_savesp : step P e (ST (ISaveSP :: k) r f x) = Next (mkS k r f x p q q o b). Proof. reflexivity. Qed.
Lemma st_restsp : step P e (ST (IRestSP :: k) r f x) = Next (mkS k r f x p v v o b). Proof. reflexivity. Qed.
End S.
(** Execute one instruction that has no side condition, or only conditions solved by [t]. *)
Ltac x1 t := eapply star_step;
  [first [apply st_bind | apply st_fence | apply st_mov | apply st_movi | apply st_inc | apply st_dec | apply st_add | apply st_addi | apply st_sub | apply st_subi
   | apply st_or | apply st_xor | apply st_shl | apply st_cmp | apply st_cmpi | apply st_pat | apply st_ret | apply st_push | apply st_pushi | apply st_pop | apply st_pushsp | apply st_popsp
   | apply st_savesp | apply st_restsp
   | eapply st_loadb; t | eapply st_loadx; t | eapply st_pcmpp; t | eapply st_pcmpc; t | eapply st_loads; t | eapply st_call; t | eapply st_jmp; t] | ].
