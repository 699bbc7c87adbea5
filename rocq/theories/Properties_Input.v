(** * C45: the text that is parsed is the contents of the file *)
From Coq Require Import List NArith ZArith Arith Bool Lia ZifyBool ZifyN ZifyNat Permutation.
From Verif Require Import CharClass CharClassSpec Stream NFA NFASem NFABuild NFAParse DFA DFAProofs DFAMin RegexSpec GrammarSpec Marker Reduction ReductionProofs TreeSpec ParseSpec Writer WriterProofs X86 CodeGen CodeGenProofs CodeGenSimd CodeGenDfa CodeGenMisc CodeGenRoutine ATN ATNSem ATNBuild ATNOpt ATNLive Grammar GrammarProofs ParserGen ParserRun ParserSim ParserTree ParserTop ParserTerm SymCtx Properties_CodeGen Properties_Parser Properties_ParserCases InputMap.
Import ListNotations.
Local Open Scope nat_scope.

Lemma fill_spec n : n mod page_size <> 0 -> fill n = S (4095 - n mod page_size).
Proof.
  intros H. unfold fill. pose proof (Nat.mod_upper_bound n page_size ltac:(discriminate)) as B. rewrite Nat.mod_small; unfold page_size in *; lia.
Qed.
Lemma fill_zero n : n mod page_size = 0 -> fill n = 0.
Proof. intros H. unfold fill. rewrite H, Nat.sub_0_r. apply Nat.mod_same. discriminate. Qed.
Lemma window_eq file w : input_window file = Some w -> w = file ++ repeat 0%N (fill (length file)).
Proof. unfold input_window. destruct file; congruence. Qed.
(** The bytes behind the first NUL of a mapped file without NULs. *)
Definition behind (n : nat) : nat := 4095 - n mod page_size.
Lemma holds_text e a file : holds e a file -> length file mod page_size <> 0 -> text_at (mem e) a (file ++ 0%N :: repeat 0%N (behind (length file))).
Proof.
  intros (w & E & _ & T) H. rewrite (window_eq _ _ E), (fill_spec _ H) in T. exact T.
Qed.

(** ** What holds *)
(** The surroundings of a parse of a file: a generated parser set to the page size B, pages of B words below 2^64. *)
Record file_env (C : compiled) (e : env) (a : N) (file : list N) (B : nat) : Prop := {
  fe_holds : holds e a file;
  fe_page : 1 <= B;
  fe_words : page_words e = B;
  fe_buf : c_buf C = (8 * N.of_nat B)%N;
  fe_fit : forall k, (page_addr e k + 8 * N.of_nat B < 2 ^ 64)%N;
  fe_stale : forall k, length (stale e k) = B }.
Lemma file_parser C e a file B u pad : file_env C e a file B -> gen_ok C (length pad) -> (forall c, In c u -> c <> 0%N) ->
  text_at (mem e) a (u ++ 0%N :: pad) -> parser_env C e a u pad B.
Proof. intros [(w & _ & A & _) H1 H2 H3 H4 H5] G NZ T. split; assumption. Qed.
Lemma gen_more C n m : gen_ok C n -> n <= m -> gen_ok C m.
Proof.
  intros [H1 H2 H3 H4 H5] L. split; [exact H1|exact H2| | |exact H5].
  - intros name id M nd s X1 X2 X3. destruct (H3 name id M nd s X1 X2 X3) as [A1 A2]. split; [exact A1|lia].
  - intros name id M nd A X1 X2 X3. destruct (H4 name id M nd A X1 X2 X3) as [A1 A2]. split; [exact A1|]. intros Q. specialize (A2 Q). lia.
Qed.
Lemma file_parser_env C e a file B : file_env C e a file B -> gen_ok C (behind (length file)) -> length file mod page_size <> 0 -> (forall c, In c file -> c <> 0%N) ->
  parser_env C e a file (repeat 0%N (behind (length file))) B.
Proof. intros HE G H NZ. apply (file_parser C e a file B); [exact HE|rewrite repeat_length; exact G|exact NZ|]. apply holds_text; [exact (fe_holds _ _ _ _ _ HE)|exact H]. Qed.

(** C45.  A file without NUL bytes whose size is not a multiple of 4096 and whose last page has room for the 15 bytes vector
    instructions may read too far (or a grammar without literals of 8 and more characters and without possessive loops):
    the parser never faults, and what it accepts is a derivation of a prefix of the file. *)
Theorem C45_file_partial : forall rules matches C root e a file B,
  file_env C e a file B -> (forall c, In c file -> c <> 0%N) -> length file mod 4096 <> 0 ->
  (length file mod 4096 <= 4080 /\ gen_ok C 15 \/ gen_ok C 0) ->
  linked C -> nets_of rules C -> pats_sound rules matches C -> numbers_fit rules -> (N.of_nat (length file) < 2 ^ 48)%N -> rules root <> None ->
  (forall r x p sv q s, call_regs e a r -> star (parser_code C root) e (start_state C root e r x p sv q) s -> pc s = [] \/ exists s', X86.step (parser_code C root) e s = Next s') /\
  (forall v bs, returned C root e a v bs -> v <> 0%N ->
   exists n t, v = (a + N.of_nat n)%N /\ n <= length file /\ derives rules matches file root 0 n t /\ List.concat (map bank_content bs) = stream t).
Proof.
  intros rules matches C root e a file B HE NZ HM HG HL HN HP HF HU HR.
  assert (G : gen_ok C (behind (length file))). { unfold behind, page_size. destruct HG as [[L G]|G]; apply (gen_more _ _ _ G); [|lia]. change 4096 with page_size in *. unfold page_size in *. lia. }
  pose proof (file_parser_env C e a file B HE G HM NZ) as PE. split.
  - intros r x p sv q s HC HS. refine (C18_no_fault C root e a _ _ B r x p sv q s PE HL _ HC HS).
    destruct (net_index (c_nets C) root) as [m|] eqn:E; [eauto|]. apply (proj1 HN) in E. contradiction.
  - intros v bs HV N0. destruct (C18_marker_stream rules matches C root e a _ _ B v bs PE HL HN HP HF HU HR HV N0) as (n & t & A1 & A2 & A3 & A4 & _). exists n, t. auto.
Qed.
Print Assumptions C45_file_partial.

(** ** NUL bytes *)
(** A file u NUL x: the parser sees u only; whatever x is, the outcome is that of any other file u NUL x'. *)
Theorem C45_nul_refuted : forall C root e e' a file file' u x x' B v bs,
  file = u ++ 0%N :: x -> file' = u ++ 0%N :: x' -> (forall c, In c u -> c <> 0%N) ->
  file_env C e a file B -> file_env C e' a file' B -> stale e = stale e' ->
  gen_ok C (length x + fill (length file)) -> gen_ok C (length x' + fill (length file')) -> linked C -> (exists m, net_index (c_nets C) root = Some m) ->
  (returned C root e a v bs <-> returned C root e' a v bs).
Proof.
  intros C root e e' a file file' u x x' B v bs E E' NZ HE HE' HS G G' HL [m HM].
  assert (P : forall file x e, file = u ++ 0%N :: x -> file_env C e a file B -> gen_ok C (length x + fill (length file)) -> parser_env C e a u (x ++ repeat 0%N (fill (length file))) B).
  { clear - NZ. intros file x e E HE G. apply (file_parser C e a file B); [exact HE|rewrite app_length, repeat_length; exact G|exact NZ|].
    destruct (fe_holds _ _ _ _ _ HE) as (w & W & _ & T). rewrite (window_eq _ _ W) in T. rewrite E in T at 1. rewrite <- app_assoc in T. exact T. }
  rewrite (returned_iff C root e a _ _ B m (P _ _ _ E HE G) HM HL), (returned_iff C root e' a _ _ B m (P _ _ _ E' HE' G') HM HL), HS. reflexivity.
Qed.
Print Assumptions C45_nul_refuted.

(** ** Sizes that are multiples of 4096 *)
(** A program that returns with less memory mapped does the same with more. *)
Record less_mem (e e' : env) : Prop := {
  lm_mem : forall x c, mem e x = Some c -> mem e' x = Some c;
  lm_ctx : ctx e = ctx e'; lm_words : page_words e = page_words e'; lm_stale : stale e = stale e'; lm_addr : page_addr e = page_addr e'; lm_clob : clob e = clob e' }.
Lemma load_mono e e' : less_mem e e' -> forall n a l, load (mem e) a n = Some l -> load (mem e') a n = Some l.
Proof.
  intros HL. induction n as [|n IH]; intros a l; cbn [load]; [auto|]. destruct (mem e a) as [b|] eqn:E; [|discriminate]. rewrite (lm_mem _ _ HL _ _ E).
  destruct (load (mem e) (w64 (a + 1)) n) as [l0|] eqn:E2; [|discriminate]. rewrite (IH _ _ E2). auto.
Qed.
Lemma step_mono P e e' s : less_mem e e' -> X86.step P e s = Fault \/ X86.step P e s = X86.step P e' s.
Proof.
  intros HL. unfold X86.step. destruct (pc s) as [|i k]; [right; reflexivity|]. destruct i; try (right; reflexivity).
  - destruct (mem e (rg s b)) eqn:E; [|left; reflexivity]. right. rewrite (lm_mem _ _ HL _ _ E). reflexivity.
  - destruct (load (mem e) (rg s b) 16) eqn:E; [|left; reflexivity]. right. rewrite (load_mono _ _ HL _ _ _ E). reflexivity.
  - right. rewrite (lm_words _ _ HL). reflexivity.
  - right. rewrite (lm_ctx _ _ HL), (lm_clob _ _ HL), (lm_addr _ _ HL), (lm_stale _ _ HL). reflexivity.
Qed.
Lemma star_mono P e e' s s' : less_mem e e' -> star P e' s s' -> star P e s s' \/ exists s1, star P e s s1 /\ X86.step P e s1 = Fault.
Proof.
  intros HL. induction 1 as [s|s s1 s2 H _ IH]; [left; constructor|]. destruct (step_mono P e e' s HL) as [F|F]; [right; exists s; split; [constructor|exact F]|].
  rewrite <- F in H. destruct IH as [IH|(s3 & A1 & A2)]; [left; econstructor; eassumption|right; exists s3; split; [econstructor; eassumption|exact A2]].
Qed.
Lemma star_up P e e' s s' : less_mem e e' -> star P e s s' -> star P e' s s'.
Proof.
  intros HL. induction 1 as [s|s s1 s2 H _ IH]; [constructor|]. destruct (step_mono P e e' s HL) as [F|F]; [congruence|]. rewrite F in H. econstructor; eassumption.
Qed.
(** If two texts that begin with u have different results, a parse that finds no more than u in memory faults. *)
Lemma fault_if_differs : forall C root e e1 e2 a u1 u2 pad1 pad2 B v1 bs1 v2 bs2 r x p sv q,
  less_mem e e1 -> parser_env C e1 a u1 pad1 B -> returned C root e1 a v1 bs1 ->
  less_mem e e2 -> parser_env C e2 a u2 pad2 B -> returned C root e2 a v2 bs2 ->
  v1 <> v2 -> linked C -> (exists m, net_index (c_nets C) root = Some m) -> call_regs e a r ->
  exists s, star (parser_code C root) e (start_state C root e r x p sv q) s /\ X86.step (parser_code C root) e s = Fault.
Proof.
  intros C root e e1 e2 a u1 u2 pad1 pad2 B v1 bs1 v2 bs2 r x p sv q L1 E1 R1 L2 E2 R2 NE LK [m HR] HC.
  assert (K : forall e' u' pad' v' bs', less_mem e e' -> parser_env C e' a u' pad' B -> returned C root e' a v' bs' ->
     exists s, star (parser_code C root) e' (start_state C root e r x p sv q) s /\ pc s = [] /\ rg s RAX = v').
  { intros e' u' pad' v' bs' L E R. apply (returned_iff C root e' a u' pad' B m E HR LK) in R as [f R].
    assert (ST : start_state C root e r x p sv q = start_state C root e' r x p sv q). { unfold start_state. rewrite (lm_stale _ _ L), (lm_addr _ _ L). reflexivity. }
    rewrite ST. destruct HC as (C1 & C2 & C3). rewrite (lm_ctx _ _ L) in C1. rewrite (lm_addr _ _ L) in C3.
    pose proof (parser_run C root e' a u' pad' B (pe_gen _ _ _ _ _ _ E) (pe_text _ _ _ _ _ _ E) (pe_addr _ _ _ _ _ _ E) (pe_nul _ _ _ _ _ _ E) (pe_page _ _ _ _ _ _ E) (pe_words _ _ _ _ _ _ E) (pe_buf _ _ _ _ _ _ E) (pe_fit _ _ _ _ _ _ E) r x p sv q m HR C1 C2 C3 f) as RUN.
    destruct (run_machine C u' f m 0); try contradiction; destruct R as [-> _]; destruct RUN as (s' & S' & PC' & RA' & _); exists s'; auto. }
  destruct (K _ _ _ _ _ L1 E1 R1) as (s1 & S1 & P1 & V1). destruct (K _ _ _ _ _ L2 E2 R2) as (s2 & S2 & P2 & V2).
  destruct (star_mono _ _ _ _ _ L1 S1) as [T1|T1]; [|exact T1]. destruct (star_mono _ _ _ _ _ L2 S2) as [T2|T2]; [|exact T2].
  exfalso. apply NE. rewrite <- V1, <- V2. rewrite (final_eq _ _ _ _ _ T1 T2 P1 P2). reflexivity.
Qed.

(** More bytes behind a mapping that ends at b. *)
Definition with_tail (e : env) (b : N) (w : list N) : env :=
  mkE (fun x => if (b <=? x)%N then nth_error w (N.to_nat (x - b)) else mem e x) (ctx e) (page_words e) (stale e) (page_addr e) (clob e).
Lemma tail_less e b w : (forall x, (b <= x)%N -> mem e x = None) -> less_mem e (with_tail e b w).
Proof.
  intros H. split; try reflexivity. intros x c E. cbn. destruct (N.leb_spec b x) as [L|L]; [|exact E]. rewrite (H x L) in E. discriminate.
Qed.
Lemma tail_text e a u w : text_at (mem e) a u -> (forall c, In c w -> (c < 256)%N) -> (a + N.of_nat (length u + length w) < 2 ^ 64)%N ->
  text_at (mem (with_tail e (a + N.of_nat (length u)) w)) a (u ++ w).
Proof.
  intros (T1 & T2 & T3) H1 H2. split; [|split; [|rewrite app_length; exact H2]].
  - intros i c Hi. cbn. destruct (Nat.lt_ge_cases i (length u)) as [L|L].
    + rewrite nth_error_app1 in Hi by exact L. replace (a + N.of_nat (length u) <=? a + N.of_nat i)%N with false by lia. exact (T1 i c Hi).
    + rewrite nth_error_app2 in Hi by exact L. replace (a + N.of_nat (length u) <=? a + N.of_nat i)%N with true by lia.
      replace (N.to_nat (a + N.of_nat i - (a + N.of_nat (length u)))) with (i - length u) by lia. exact Hi.
  - intros c Hc. apply in_app_or in Hc as [Hc|Hc]; auto.
Qed.

(** The grammar  S : /a*/ ;  *)
Definition as_pat : pat := PSnoc PNil (SOne (UAtom (AChar 97)) (QStar false)).
Definition as_body : gsel := GFirst (GCons (GTerm (TPat as_pat)) GOne GNil).
Definition as_rules := rules_of [([83%N], as_body)].
Definition as_net : atn := Eval vm_compute in build_body true as_body.
Definition as_dfa : dfa := Eval vm_compute in match dfa_build 10 10 (build_pat as_pat) with Some D => D | None => [] end.
Definition as_C : compiled := mkC [([83%N], (1%N, as_net))] (fun _ => as_dfa) (fun _ _ => []) (fun _ _ _ => 0%N) 64.
Lemma as_gen npad : gen_ok as_C npad.
Proof.
  assert (NETS : forall name id M, In (name, (id, M)) (c_nets as_C) -> M = as_net) by (intros name id M [H|[]]; congruence).
  split.
  - intros name id M H. rewrite (NETS _ _ _ H). discriminate.
  - intros name id M n t H Hn Ht. rewrite (NETS _ _ _ H) in *. assert (F : forallb (fun n => forallb (fun t => fst t <? length as_net) (atrs n)) as_net = true) by reflexivity.
    rewrite forallb_forall in F. specialize (F n Hn). rewrite forallb_forall in F. specialize (F t Ht). lia.
  - intros name id M n s H Hn E. rewrite (NETS _ _ _ H) in *. assert (F : forallb (fun n => match nt n with NLit s => false | _ => true end) as_net = true) by reflexivity.
    rewrite forallb_forall in F. specialize (F n Hn). rewrite E in F. discriminate.
  - intros name id M n A H Hn E. split.
    + split; [discriminate| |].
      * intros q t. destruct q as [|[|[|q]]]; cbn; try tauto; intros [<-|[]]; cbn; (split; [lia|]; split; [|reflexivity]; intros r [<-|[]]; cbn; lia).
      * intros q. destruct q as [|[|[|q]]]; discriminate.
    + intros [q [E2 _]]. destruct q as [|[|[|q]]]; discriminate.
  - intros m name id M i H Hi Hl. destruct m as [|m]; [|destruct m; discriminate]. injection H as <- <- <-. cbn [as_net length] in Hi.
    do 10 (destruct i as [|i]; [cbn in Hl; lia|]); lia.
Qed.
Lemma as_linked : linked as_C.
Proof.
  split.
  - intros name id M n x [H|[]] Hn E. injection H as <- <- <-. assert (F : forallb (fun n => match nt n with NInv s => false | _ => true end) as_net = true) by reflexivity.
    rewrite forallb_forall in F. specialize (F n Hn). rewrite E in F. discriminate.
  - intros m i q cc d. destruct q as [|q]; cbn; tauto.
Qed.
Lemma as_longest n : longest as_dfa 0 (repeat 97%N n) = Some n.
Proof.
  induction n as [|n IH]; [reflexivity|]. change (match option_map S (longest as_dfa 0 (repeat 97%N n)) with Some m => Some m | None => Some 0 end = Some (S n)). rewrite IH. reflexivity.
Qed.
Lemma as_runs n : dfa_run as_dfa 0 (repeat 97%N n) = true.
Proof. induction n as [|n IH]; [reflexivity|]. exact IH. Qed.
Lemma as_ws n : ws_len (repeat 97%N n) = 0.
Proof. destruct n; reflexivity. Qed.
Lemma as_exact : pattern_exact as_C as_pat.
Proof.
  split; [vm_compute; intuition discriminate|]. split; [vm_compute; tauto|]. exists 10, 10. eexists. split; [vm_compute; reflexivity|]. split; [vm_compute; reflexivity|].
  intros i j Hi Hj. cbn [length] in *. destruct i as [|[|i]], j as [|[|j]]; try lia; vm_compute; (reflexivity || discriminate).
Qed.
Lemma as_text n : derives as_rules patL (repeat 97%N n) [83%N] 0 n (Node 1 0 (N.of_nat n) []).
Proof.
  apply (derives_rule as_rules patL _ [83%N] 1 as_body [TPat as_pat] 0 n []); [reflexivity| |].
  - cbn. exists [TPat as_pat], []. auto.
  - assert (L : length (repeat 97%N n) = n) by apply repeat_length.
    apply (matched_pat _ _ _ as_pat [] 0 0 n n []).
    + unfold span. lia.
    + intros c [].
    + unfold span. lia.
    + unfold slice. cbn [skipn]. rewrite Nat.sub_0_r, firstn_all2 by lia. apply (pattern_exact_lang as_C as_pat as_exact). apply as_runs.
    + constructor. lia.
Qed.
Lemma as_run n : run_machine as_C (repeat 97%N n) 10 0 0 = POk n [start_word 1 0; end_word 1 (N.of_nat n)].
Proof.
  pose proof (as_longest n) as HL. pose proof (as_ws n) as HW. set (u := repeat 97%N n) in *. clearbody u.
  unfold run_machine. cbn -[longest as_dfa ws_len start_word end_word N.of_nat]. rewrite HW. cbn -[longest as_dfa ws_len start_word end_word N.of_nat].
  change (skipn 0 u) with u. rewrite HL. cbn. reflexivity.
Qed.
Lemma as_env e a n w : text_at (mem e) a (repeat 97%N n ++ [0%N]) -> (0 < a)%N -> page_words e = 8 -> (forall k, (page_addr e k + 64 < 2 ^ 64)%N) -> (forall k, length (stale e k) = 8) -> w = [] ->
  parser_env as_C e a (repeat 97%N n) w 8.
Proof.
  intros H1 H2 H3 H4 H5 ->. split; [apply as_gen|exact H1|exact H2| |lia|exact H3|reflexivity|exact H4|exact H5]. intros c Hc. apply repeat_spec in Hc. subst c. discriminate.
Qed.
(** C45, refuted: a file of k * 4096 letters a is a text of this grammar, but there is nothing behind it in memory: wherever
    nothing follows the mapping, every parse of it faults. *)
Theorem C45_page_multiple_refuted : forall k e a r x p sv q, let file := repeat 97%N (4096 * k) in
  holds_only e a file -> (a + N.of_nat (4096 * k) + 2 < 2 ^ 64)%N ->
  page_words e = 8 -> (forall j, (page_addr e j + 64 < 2 ^ 64)%N) -> (forall j, length (stale e j) = 8) -> call_regs e a r ->
  derives as_rules patL file [83%N] 0 (length file) (Node 1 0 (N.of_nat (length file)) []) /\
  exists s, star (parser_code as_C [83%N]) e (start_state as_C [83%N] e r x p sv q) s /\ X86.step (parser_code as_C [83%N]) e s = Fault.
Proof.
  intros k e a r x p sv q file HO HA HW HP HS HC. assert (LF : length file = 4096 * k) by (unfold file; apply repeat_length).
  assert (FZ : fill (length file) = 0). { apply fill_zero. rewrite LF. unfold page_size. rewrite Nat.mul_comm. apply Nat.mod_mul. discriminate. }
  split; [rewrite LF; apply as_text|]. destruct HO as [(w & EW & A0 & T) NO]. rewrite (window_eq _ _ EW), FZ in T. cbn [repeat] in T. rewrite app_nil_r in T. rewrite FZ, Nat.add_0_r in NO. clear EW.
  change (2 ^ 64)%N with 18446744073709551616%N in HA.
  assert (E1 : parser_env as_C (with_tail e (a + N.of_nat (length file)) [0%N]) a (repeat 97%N (4096 * k)) [] 8).
  { apply as_env; auto. fold file. apply tail_text; [exact T|intros c [<-|[]]; reflexivity|]. rewrite LF. change (2 ^ 64)%N with 18446744073709551616%N. revert HA. generalize (4096 * k). cbn [length repeat app]. intros z HA. lia. }
  assert (E2 : parser_env as_C (with_tail e (a + N.of_nat (length file)) [97%N; 0%N]) a (repeat 97%N (4096 * k + 1)) [] 8).
  { apply as_env; auto. rewrite repeat_app. fold file. rewrite <- app_assoc. apply tail_text; [exact T|intros c [<-|[<-|[]]]; reflexivity|]. rewrite LF. change (2 ^ 64)%N with 18446744073709551616%N. revert HA. generalize (4096 * k). cbn [length repeat app]. intros z HA. lia. }
  assert (RT : forall e' n, parser_env as_C e' a (repeat 97%N n) [] 8 -> exists bs, returned as_C [83%N] e' a (a + N.of_nat n) bs).
  { intros e' n PE. destruct (write_accept_correct 8 (stale e') (pe_page _ _ _ _ _ _ PE) (pe_stale _ _ _ _ _ _ PE) [start_word 1 0; end_word 1 (N.of_nat n)]) as (bs & E & _).
    { intros z [<-|[<-|[]]]; [discriminate|]. unfold end_word. intros Z. apply N.lor_eq_0_iff in Z as [_ Z]. discriminate. }
    exists bs. apply (returned_iff as_C [83%N] e' a _ _ 8 0 PE eq_refl as_linked). exists 10. rewrite as_run. auto. }
  destruct (RT _ _ E1) as [b1 R1]. destruct (RT _ _ E2) as [b2 R2].
  apply (fault_if_differs as_C [83%N] e _ _ a _ _ _ _ 8 (a + N.of_nat (4096 * k)) b1 (a + N.of_nat (4096 * k + 1)) b2 r x p sv q (tail_less e _ [0%N] NO) E1 R1 (tail_less e _ [97%N; 0%N] NO) E2 R2); [|exact as_linked|exists 0; reflexivity|exact HC].
  generalize (4096 * k). intros z. lia.
Qed.
Print Assumptions C45_page_multiple_refuted.
Example C45_page_multiple_hyp : exists e r, let file := repeat 97%N (4096 * 1) in
  holds_only e 1048576 file /\ page_words e = 8 /\ (forall j, (page_addr e j + 64 < 2 ^ 64)%N) /\ (forall j, length (stale e j) = 8) /\ call_regs e 1048576 r.
Proof.
  exists (mkE (mem (only 1048576 (repeat 97%N (4096 * 1)))) 5 8 zeros (fun k => (4096 + 64 * (N.of_nat k mod 4))%N) (fun _ _ => 77%N)), (fun i => match i with RDI => 5 | RSI => 1048576 | RDX => 4096 | _ => 7 end%N).
  cbn zeta. split; [|split; [reflexivity|split; [|split; [reflexivity|repeat split]]]].
  - split.
    + exists (repeat 97%N (4096 * 1)). split; [|split; [reflexivity|]].
      * unfold input_window. replace (fill (length (repeat 97%N (4096 * 1)))) with 0 by (vm_compute; reflexivity). rewrite app_nil_r. reflexivity.
      * apply only_text; [intros c Hc; apply repeat_spec in Hc; subst c; reflexivity|]. rewrite repeat_length. vm_compute. reflexivity.
    + replace (fill (length (repeat 97%N (4096 * 1)))) with 0 by (vm_compute; reflexivity). rewrite repeat_length, Nat.add_0_r. intros x H. cbn [mem only].
      destruct (N.leb_spec 1048576 x) as [L|L]; [|reflexivity]. apply nth_error_None. rewrite repeat_length. lia.
  - intros j. pose proof (N.mod_lt (N.of_nat j) 4 ltac:(lia)). change (2 ^ 64)%N with 18446744073709551616%N. cbn [page_addr]. lia.
Qed.

(** ** Sizes close below a multiple of 4096 *)
(** The grammar  S : 'function' ;  and a file of 4087 spaces and the word function: 4095 bytes, one zero behind it. *)
Definition fn_word : list N := [102; 117; 110; 99; 116; 105; 111; 110]%N.
Definition fn_body : gsel := GFirst (GCons (GTerm (TLit fn_word)) GOne GNil).
Definition fn_net : atn := Eval vm_compute in build_body true fn_body.
Definition fn_C : compiled := mkC [([83%N], (1%N, fn_net))] (fun _ => []) (fun _ _ => []) (fun _ _ _ => 0%N) 64.
Definition fn_file (n : nat) : list N := repeat 32%N n ++ fn_word.
Definition fn_e (n : nat) : env := mkE (mem (only 1048576 (match input_window (fn_file n) with Some w => w | None => [] end))) 5 8 zeros (fun k => (4096 + 64 * (N.of_nat k mod 4))%N) (fun _ _ => 77%N).
Definition fn_r : reg -> N := fun i => match i with RDI => 5 | RSI => 1048576 | RDX => 4096 | _ => 7 end%N.
Definition fn_outcome (n : nat) : option (option N) :=
  match run (parser_code fn_C [83%N]) (fn_e n) (100 * 1000) (start_state fn_C [83%N] (fn_e n) fn_r [] [] [] []) with
  | Some (Stop s) => Some (Some (rg s RAX)) | Some Fault => Some None | _ => None end.
Lemma fn_text n : derives (rules_of [([83%N], fn_body)]) patL (fn_file n) [83%N] 0 (n + 8) (Node 1 0 (N.of_nat (n + 8)) []).
Proof.
  apply (derives_rule _ _ _ [83%N] 1 fn_body [TLit fn_word] 0 (n + 8) []); [reflexivity|cbn; exists [TLit fn_word], []; auto|].
  assert (L : length (fn_file n) = n + 8) by (unfold fn_file; rewrite app_length, repeat_length; reflexivity).
  apply (matched_lit _ _ _ fn_word [] 0 n (n + 8) (n + 8) []).
  - unfold span. lia.
  - unfold slice, fn_file. cbn [skipn]. rewrite Nat.sub_0_r. rewrite firstn_app, repeat_length, Nat.sub_diag. cbn [firstn]. rewrite app_nil_r, firstn_all2 by (rewrite repeat_length; lia).
    intros c Hc. apply repeat_spec in Hc. subst c. auto.
  - unfold span. lia.
  - unfold slice, fn_file. rewrite skipn_app, repeat_length, Nat.sub_diag. rewrite skipn_all2 by (rewrite repeat_length; lia). replace (n + 8 - n) with 8 by lia. reflexivity.
  - constructor. lia.
Qed.
(** Both files are texts of the grammar; the shorter one is accepted, the longer one kills the process. *)
Theorem C45_short_tail_refuted :
  derives (rules_of [([83%N], fn_body)]) patL (fn_file 4087) [83%N] 0 4095 (Node 1 0 4095 []) /\ holds_only (fn_e 4087) 1048576 (fn_file 4087) /\ length (fn_file 4087) mod 4096 = 4095 /\
  fn_outcome 4087 = Some None /\ fn_outcome 4000 = Some (Some (1048576 + 4008)%N).
Proof.
  split; [exact (fn_text 4087)|]. split; [|split; [vm_compute; reflexivity|split; vm_compute; reflexivity]].
  split.
  - exists (fn_file 4087 ++ [0%N]). split; [vm_compute; reflexivity|]. split; [reflexivity|]. unfold fn_e. cbn [mem].
    replace (match input_window (fn_file 4087) with Some w => w | None => [] end) with (fn_file 4087 ++ [0%N]) by (vm_compute; reflexivity).
    apply only_text; [|vm_compute; reflexivity]. intros c Hc. assert (F : forallb (fun c => (c <? 256)%N) (fn_file 4087 ++ [0%N]) = true) by (vm_compute; reflexivity).
    rewrite forallb_forall in F. specialize (F c Hc). lia.
  - intros x H. unfold fn_e. cbn [mem only]. destruct (N.leb_spec 1048576 x) as [L|L]; [|reflexivity]. apply nth_error_None.
    replace (length (match input_window (fn_file 4087) with Some w => w | None => [] end)) with 4096 by (vm_compute; reflexivity).
    replace (length (fn_file 4087) + fill (length (fn_file 4087))) with 4096 in H by (vm_compute; reflexivity). lia.
Qed.
Print Assumptions C45_short_tail_refuted.

(** ** Empty and missing files *)
(** Nothing can be mapped for an empty file; m_input_window is MAP_FAILED, which the parser dereferences. *)
Theorem C45_empty_refuted : input_window [] = None /\ forall file, file <> [] -> exists w, input_window file = Some w /\ firstn (length file) w = file /\ length w mod 4096 = 0 /\ length w < length file + 4096.
Proof.
  split; [reflexivity|]. intros file H. exists (file ++ repeat 0%N (fill (length file))). split; [destruct file; [contradiction|reflexivity]|].
  split; [rewrite firstn_app, Nat.sub_diag, firstn_all; apply app_nil_r|]. rewrite app_length, repeat_length.
  pose proof (Nat.mod_upper_bound (length file) 4096 ltac:(discriminate)) as B1. pose proof (Nat.div_mod (length file) 4096 ltac:(discriminate)) as B2. unfold fill, page_size in *.
  destruct (Nat.eq_dec (length file mod 4096) 0) as [Z|Z].
  - rewrite Z, Nat.sub_0_r, Nat.mod_same, Nat.add_0_r by discriminate. rewrite Z. split; [reflexivity|]. lia.
  - rewrite (Nat.mod_small (4096 - length file mod 4096)) by lia. split; [|lia].
    replace (length file + (4096 - length file mod 4096)) with (0 + (S (length file / 4096)) * 4096) by lia. rewrite Nat.mod_add by discriminate. reflexivity.
Qed.
Print Assumptions C45_empty_refuted.
