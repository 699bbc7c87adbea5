(** * C46, C47: parsing without output, and without workers *)
From Coq Require Import List NArith ZArith Arith Bool Lia ZifyBool ZifyN ZifyNat.
From Verif Require Import CharClass NFA DFA RegexSpec GrammarSpec Marker Reduction ReductionProofs TreeSpec ParseSpec Writer WriterProofs X86 CodeGen CodeGenProofs CodeGenSimd CodeGenDfa CodeGenMisc CodeGenRoutine ATN Grammar ParserGen ParserRun ParserSim ParserTree ParserTop Properties_Parser Properties_ParserCases Protocol DryParser DryRun.
Import ListNotations.
Local Open Scope nat_scope.

(** The two parsers are made from the same grammar: same networks, same pattern and decision
    automata.  (What is in uninitialised constant bytes and the page size may differ.) *)
Definition same_grammar (C Cd : compiled) : Prop := c_nets Cd = c_nets C /\ c_dfa Cd = c_dfa C /\ c_look Cd = c_look C.
(** A call of the parser without output that has returned v: o is the output memory. *)
Definition dry_returned (C : compiled) (root : list N) (e : env) (a v : N) : Prop :=
  exists r x p sv q o b s, r RDI = a /\ star (dry_code C root) e (dry_start C root r x p sv q o b) s /\ pc s = [] /\ rg s RAX = v.

Lemma same_run C Cd u : same_grammar C Cd -> forall f m n, run_machine Cd u f m n = run_machine C u f m n.
Proof. destruct C as [c1 c2 c3 c4 c5], Cd as [d1 d2 d3 d4 d5]. unfold same_grammar. cbn. intros (-> & -> & ->) f m n. reflexivity. Qed.
Lemma same_gen C Cd k : same_grammar C Cd -> gen_ok C k -> gen_ok Cd k.
Proof. destruct C as [c1 c2 c3 c4 c5], Cd as [d1 d2 d3 d4 d5]. unfold same_grammar. cbn. intros (-> & -> & ->) [H1 H2 H3 H4 H5]. split; assumption. Qed.

Section Same.
Variables (C Cd : compiled) (root : list N) (e : env) (a : N) (u pad : list N) (B : nat).
Hypothesis HE : parser_env C e a u pad B.
Hypothesis HK : linked C.
Hypothesis HR : exists m, net_index (c_nets C) root = Some m.
Hypothesis HS : same_grammar C Cd.
Lemma dry_all r x p sv q o b : r RDI = a -> exists m, net_index (c_nets C) root = Some m /\ forall f, match run_machine C u f m 0 with
  | POk n _ => exists s, star (dry_code Cd root) e (dry_start Cd root r x p sv q o b) s /\ pc s = [] /\ rg s RAX = (a + N.of_nat n)%N /\ out s = o /\
                  (forall i, i <> RAX -> rg s i = r i) /\ stk s = q /\ sav s = sv /\ n <= length u
  | PRej _ => exists s, star (dry_code Cd root) e (dry_start Cd root r x p sv q o b) s /\ pc s = [] /\ rg s RAX = 0%N /\ out s = o /\
                  (forall i, i <> RAX -> rg s i = r i) /\ stk s = q /\ sav s = sv
  | PFuel => exists N s, f <= N /\ steps (dry_code Cd root) e N (dry_start Cd root r x p sv q o b) s
  | PWild => True
  end.
Proof.
  intros R1. destruct HR as [m HM]. exists m. split; [exact HM|]. intros f. destruct HE as [H1 H2 H3 H4 H5 H6 H7 H8 H9].
  assert (HM' : net_index (c_nets Cd) root = Some m) by (rewrite (proj1 HS); exact HM).
  pose proof (dry_run Cd root e a u pad (same_gen _ _ _ HS H1) H2 H3 H4 r x p sv q o b m HM' R1 f) as RUN. rewrite (same_run _ _ _ HS) in RUN. exact RUN.
Qed.
End Same.

(** C46.  Every call of the parser without output returns exactly when the ordinary parser returns
    on this input, with the same answer: the address behind the matched text, or NULL. *)
Theorem C46_same_answer : forall C Cd root e a u pad B v,
  parser_env C e a u pad B -> linked C -> (exists m, net_index (c_nets C) root = Some m) -> same_grammar C Cd ->
  dry_returned Cd root e a v <-> exists bs, returned C root e a v bs.
Proof.
  intros C Cd root e a u pad B v HE HK HR HS. split.
  - intros (r & x & p & sv & q & o & b & s & R1 & S0 & PC & RA). destruct (star_steps _ _ _ _ S0) as [n SN].
    destruct (dry_all C Cd root e a u pad B HE HR HS r x p sv q o b R1) as (m & HM & RUN). specialize (RUN (S n)).
    pose proof (machine_no_wild C root e a u pad B m HE HM HK (S n)) as NW.
    destruct HE as [H1 H2 H3 H4 H5 H6 H7 H8 H9]. pose (r' := fun x => match x with RDI => ctx e | RSI => a | RDX => page_addr e 0 | _ => 0%N end).
    pose proof (parser_run C root e a u pad B H1 H2 H3 H4 H5 H6 H7 H8 r' [] [] [] [] m HM eq_refl eq_refl eq_refl (S n)) as RUN'.
    destruct (run_machine C u (S n) m 0) as [n1 ws|ws| |] eqn:ER; [| |congruence|].
    + destruct RUN as (s' & S' & PC' & RA' & _). pose proof (final_eq _ _ _ _ _ S0 S' PC PC') as <-. destruct RUN' as (s1 & S1 & PC1 & RA1 & _). exists (ParserSim.banks s1), r', [], [], [], [], s1. split; [repeat split|]. split; [exact S1|]. split; [exact PC1|]. split; [congruence|reflexivity].
    + destruct RUN as (s' & S' & PC' & RA' & _). pose proof (final_eq _ _ _ _ _ S0 S' PC PC') as <-. destruct RUN' as (s1 & S1 & PC1 & RA1 & _). exists (ParserSim.banks s1), r', [], [], [], [], s1. split; [repeat split|]. split; [exact S1|]. split; [exact PC1|]. split; [congruence|reflexivity].
    + destruct RUN as (N0 & s' & L & S'). pose proof (final_only _ _ _ _ _ _ _ SN PC S'). lia.
  - intros [bs HB]. pose (r := fun x => match x with RDI => a | _ => 0%N end).
    destruct (dry_all C Cd root e a u pad B HE HR HS r [] [] [] [] (winit (stale e)) 0%N eq_refl) as (m & HM & RUN).
    apply (returned_iff C root e a u pad B m HE HM HK) in HB as [f HB]. specialize (RUN f).
    destruct (run_machine C u f m 0) as [n1 ws|ws| |]; try contradiction; destruct RUN as (s' & S' & PC' & RA' & _); destruct HB as [-> _]; exists r, [], [], [], [], (winit (stale e)), 0%N, s'; auto.
Qed.
Print Assumptions C46_same_answer.
(** It stores nothing and asks for no page, whatever it returns; registers and stack are as the caller left them. *)
Theorem C46_no_output : forall C Cd root e a u pad B r x p sv q o b s,
  parser_env C e a u pad B -> linked C -> (exists m, net_index (c_nets C) root = Some m) -> same_grammar C Cd ->
  r RDI = a -> star (dry_code Cd root) e (dry_start Cd root r x p sv q o b) s -> pc s = [] ->
  out s = o /\ (forall i, i <> RAX -> rg s i = r i) /\ stk s = q /\ sav s = sv.
Proof.
  intros C Cd root e a u pad B r x p sv q o b s HE HK HR HS R1 S0 PC. destruct (star_steps _ _ _ _ S0) as [n SN].
  destruct (dry_all C Cd root e a u pad B HE HR HS r x p sv q o b R1) as (m & HM & RUN). specialize (RUN (S n)).
  pose proof (machine_no_wild C root e a u pad B m HE HM HK (S n)) as NW.
  destruct (run_machine C u (S n) m 0) as [n1 ws|ws| |] eqn:ER; [| |congruence|].
  - destruct RUN as (s' & S' & PC' & RA' & O & K1 & K2 & K3 & _). pose proof (final_eq _ _ _ _ _ S0 S' PC PC') as <-. auto.
  - destruct RUN as (s' & S' & PC' & RA' & O & K1 & K2 & K3). pose proof (final_eq _ _ _ _ _ S0 S' PC PC') as <-. auto.
  - destruct RUN as (N0 & s' & L & S'). pose proof (final_only _ _ _ _ _ _ _ SN PC S'). lia.
Qed.
Print Assumptions C46_no_output.
(** It never leaves the code, its stack or mapped memory. *)
Theorem C46_no_fault : forall C Cd root e a u pad B r x p sv q o b s,
  parser_env C e a u pad B -> linked C -> (exists m, net_index (c_nets C) root = Some m) -> same_grammar C Cd ->
  r RDI = a -> star (dry_code Cd root) e (dry_start Cd root r x p sv q o b) s -> pc s = [] \/ exists s', X86.step (dry_code Cd root) e s = Next s'.
Proof.
  intros C Cd root e a u pad B r x p sv q o b s HE HK HR HS R1 S0. destruct (star_steps _ _ _ _ S0) as [n SN].
  destruct (dry_all C Cd root e a u pad B HE HR HS r x p sv q o b R1) as (m & HM & RUN). specialize (RUN (S n)).
  pose proof (machine_no_wild C root e a u pad B m HE HM HK (S n)) as NW.
  assert (FIN : forall s', star (dry_code Cd root) e (dry_start Cd root r x p sv q o b) s' -> pc s' = [] -> pc s = [] \/ exists s1, X86.step (dry_code Cd root) e s = Next s1).
  { intros s' S' PC'. destruct (star_det _ _ _ _ S' _ _ SN PC') as (k & K & _). inversion K as [|k' y0 y1 y2 E _]; subst; [left; exact PC'|right; eauto]. }
  destruct (run_machine C u (S n) m 0) as [n1 ws|ws| |]; [| |congruence|].
  - destruct RUN as (s' & S' & PC' & _). exact (FIN s' S' PC').
  - destruct RUN as (s' & S' & PC' & _). exact (FIN s' S' PC').
  - destruct RUN as (N0 & s' & L & S'). destruct (steps_split _ _ _ _ _ S' n ltac:(lia)) as (d & D1 & D2). pose proof (steps_det _ _ _ _ _ SN _ D1) as <-.
    right. destruct (N0 - n) as [|j] eqn:EJ; [lia|]. inversion D2 as [|j' y0 y1 y2 ES _]; subst. eauto.
Qed.
Print Assumptions C46_no_fault.
(** What it accepts is in the language. *)
Theorem C46_accepts_derived : forall rules matches C Cd root e a u pad B v,
  parser_env C e a u pad B -> linked C -> nets_of rules C -> pats_sound rules matches C -> numbers_fit rules -> (N.of_nat (length u) < 2 ^ 48)%N ->
  rules root <> None -> same_grammar C Cd -> dry_returned Cd root e a v -> v <> 0%N ->
  exists n t, v = (a + N.of_nat n)%N /\ n <= length u /\ derives rules matches u root 0 n t.
Proof.
  intros rules matches C Cd root e a u pad B v HE HK HN HP HF HU HR HS HV NZ.
  assert (HM : exists m, net_index (c_nets C) root = Some m) by (destruct (net_index (c_nets C) root) as [m|] eqn:EM; [eauto|apply (proj1 HN) in EM; contradiction]).
  apply (C46_same_answer C Cd root e a u pad B v HE HK HM HS) in HV as [bs HV].
  destruct (C18_marker_stream rules matches C root e a u pad B v bs HE HK HN HP HF HU HR HV NZ) as (n & t & H1 & H2 & H3 & _). exists n, t. auto.
Qed.
Print Assumptions C46_accepts_derived.
(** S : 'a' S | /b/ ;  on aab: accepted; on aac: rejected. *)
Example C46_hyp : same_grammar ab_C (mkC (c_nets ab_C) (c_dfa ab_C) (c_look ab_C) (fun _ _ _ => 9%N) 0) /\
  dry_returned (mkC (c_nets ab_C) (c_dfa ab_C) (c_look ab_C) (fun _ _ _ => 9%N) 0) [83%N] (at1000 (aab ++ [0%N]) zeros) 1000 1003 /\
  dry_returned ab_C [83%N] (at1000 ([97; 97; 99] ++ [0])%N zeros) 1000 0.
Proof.
  assert (SG : same_grammar ab_C (mkC (c_nets ab_C) (c_dfa ab_C) (c_look ab_C) (fun _ _ _ => 9%N) 0)) by (repeat split).
  split; [exact SG|]. split.
  - destruct C18_hyp as (HE & HK & _ & _ & _ & _ & HB & _). apply (C46_same_answer _ _ [83%N] _ _ _ _ _ _ HE HK ltac:(exists 0; reflexivity) SG). eauto.
  - assert (HE : parser_env ab_C (at1000 ([97; 97; 99] ++ [0])%N zeros) 1000 [97; 97; 99]%N [] 8) by (apply ab_env; [intros c Hc; cbn in Hc; lia|intros c Hc; cbn in Hc; lia|reflexivity|reflexivity]).
    apply (C46_same_answer ab_C ab_C [83%N] _ _ _ _ _ _ HE ab_linked ltac:(exists 0; reflexivity) ltac:(repeat split)). eexists. apply (returned_iff ab_C [83%N] _ _ _ _ _ 0 HE eq_refl ab_linked). exists 40. vm_compute. split; reflexivity.
Qed.

(** ** C47: Stage1Runner alone *)
(** With is_dry: whatever the number of banks, what they hold, and however compare-exchanges fail
    (not always): start() .. wait() ends, and the captured chunks are the pages in order. *)
Theorem C47_dry_ends : forall (A : Type) (cap : bool) (n : nat) (bs : list A) (d : A) (sp : nat -> bool) st0 num0 mem0 sem0,
  1 <= n -> (forall k, exists j, k <= j /\ sp j = false) ->
  exists k, let s := drun true cap n (length bs) (fun i => nth i bs d) sp k (dinit st0 num0 mem0 sem0) in
    dpc s = End1 /\ (forall j, j < n -> dst s j = Done) /\ rev (dchunks s) = (if cap then bs else []).
Proof.
  intros A cap n bs d sp st0 num0 mem0 sem0 Hn HF. destruct (dry_ends true cap n (length bs) (fun i => nth i bs d) sp Hn HF eq_refl st0 num0 mem0 sem0) as (k & H1 & H2 & _ & _ & H3).
  exists k. cbn zeta. split; [exact H1|]. split; [exact H2|]. rewrite H3. destruct cap; [|reflexivity]. apply PipelineProofs.map_nth_seq.
Qed.
Print Assumptions C47_dry_ends.
(** So for every accepted input the captured chunks hold exactly the markers of its derivation:
    each chunk up to its first zero word, one after the other (as benchmarks/cpp/dry.cpp:36-41 prints them). *)
Theorem C47_captured_markers : forall rules matches C root e a u pad B v bs n sp st0 num0 mem0 sem0,
  parser_env C e a u pad B -> linked C -> nets_of rules C -> pats_sound rules matches C -> numbers_fit rules -> (N.of_nat (length u) < 2 ^ 48)%N ->
  rules root <> None -> returned C root e a v bs -> v <> 0%N -> 1 <= n -> (forall k, exists j, k <= j /\ sp j = false) ->
  exists k l t, let s := drun true true n (length bs) (fun i => nth i bs []) sp k (dinit st0 num0 mem0 sem0) in
    dpc s = End1 /\ v = (a + N.of_nat l)%N /\ derives rules matches u root 0 l t /\ List.concat (map bank_content (rev (dchunks s))) = stream t.
Proof.
  intros rules matches C root e a u pad B v bs n sp st0 num0 mem0 sem0 HE HK HN HP HF HU HR HV NZ Hn Hsp.
  destruct (C18_marker_stream rules matches C root e a u pad B v bs HE HK HN HP HF HU HR HV NZ) as (l & t & H1 & H2 & H3 & H4 & _).
  destruct (C47_dry_ends _ true n bs [] sp st0 num0 mem0 sem0 Hn Hsp) as (k & K1 & _ & K2). exists k, l, t. cbn zeta. split; [exact K1|]. split; [exact H1|]. split; [exact H3|]. rewrite K2. exact H4.
Qed.
Print Assumptions C47_captured_markers.
(** A parser without output needs no workers, is_dry or not: it fills no page. *)
Theorem C47_no_pages : forall (A : Type) (cap : bool) (n : nat) (d : A) (sp : nat -> bool) st0 num0 mem0 sem0,
  exists k, let s := drun false cap n 0 (fun _ => d) sp k (dinit st0 num0 mem0 sem0) in dpc s = End1 /\ dchunks s = [].
Proof.
  intros A cap n d sp st0 num0 mem0 sem0.
  destruct (reset_run false cap n 0 (fun _ => d) sp (dinit st0 num0 mem0 sem0) 0 eq_refl ltac:(lia) ltac:(intros; lia)) as (s1 & R1 & F1 & P1 & S1 & C1 & H1).
  destruct (scan_run false cap n 0 (fun _ => d) sp n s1 0 P1 eq_refl F1) as (s3 & R3 & P3 & S3 & C3 & H3).
  destruct (done_run false cap n 0 (fun _ => d) sp n s3 0 P3 eq_refl ltac:(intros; lia)) as (s4 & R4 & P4 & D4 & S4 & C4 & H4).
  destruct (reaches_trans _ _ _ _ _ _ _ _ _ R1 (reaches_trans _ _ _ _ _ _ _ _ _ R3 R4)) as [k E]. exists k. cbn zeta. rewrite E. split; [exact P4|]. cbn in H1. congruence.
Qed.
Print Assumptions C47_no_pages.
(** Without is_dry an ordinary parser (at least one page) and no workers: the call never ends
    (tests/CodeGenTest.cpp:170-198 runs it so). *)
Theorem C47_without_workers_refuted : forall (A : Type) (cap : bool) (n K : nat) (pages : nat -> A) (sp : nat -> bool) st0 num0 mem0 sem0 k,
  1 <= K -> dpc (drun false cap n K pages sp k (dinit st0 num0 mem0 sem0)) <> End1.
Proof. intros A cap n K pages sp st0 num0 mem0 sem0 k HK. apply never_ends. exact HK. Qed.
Print Assumptions C47_without_workers_refuted.
Example C47_hyp : exists k, let s := drun true true 2 3 (fun i => nth i [10; 20; 30] 0) (fun j => j mod 2 =? 0) k (dinit (fun _ => S3L) (fun _ => 7) (fun _ => None) 5) in
  dpc s = End1 /\ rev (dchunks s) = [10; 20; 30].
Proof. exists 40. vm_compute. split; reflexivity. Qed.
