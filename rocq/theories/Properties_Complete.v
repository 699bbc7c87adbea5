(** * Texts with only one way through them are accepted *)
From Coq Require Import List NArith ZArith Arith Bool Lia ZifyBool ZifyN ZifyNat Permutation.
From Verif Require Import CharClass CharClassSpec Stream NFA NFASem NFAProofs NFABuild NFAParse DFA DFAProofs DFAMin RegexSpec GrammarSpec Marker TreeSpec ParseSpec Reduction ReductionProofs Writer WriterProofs X86 X86Step CodeGen CodeGenProofs CodeGenSimd CodeGenDfa CodeGenPlain CodeGenMisc CodeGenRoutine ATN ATNSem ATNBuild ATNOpt ATNLive Grammar GrammarProofs Properties_CodeGen Properties_Grammar ParserGen ParserRun ParserSim ParserTree ParserTop ParserTerm Properties_Parser
  Lookahead LookSpec LookImport LookRead LookSim LookGrammar LookWf LookFit LookNul Properties_Look Properties_Compile LookGrammarSpec ClearSpec ParserComplete.
Import ListNotations.
Local Open Scope nat_scope.

Lemma compiled_facts fs file ds g C e a u pad B : grammar_ok fs file ds g C -> no_preferences ds -> call_env C ds e a u pad B ->
  (forall name id M n A t, In (name, (id, M)) (c_nets C) -> In n M -> nt n = NReg A -> (dfa_run (c_dfa C A) 0 t = true <-> accepts A t)) /\
  (forall m name id M i k w v, nth_error (c_nets C) m = Some (name, (id, M)) -> i < length M -> 2 <= length (atrs (nth i M blank)) -> 0 < length w -> only_alt (c_nets C) name i k w -> ldfa_go (c_look C m i) 0 (w ++ v) = LExit k) /\
  (forall k i, 2 <= length (atrs (ParserRun.node_of C k i)) -> lcodable (c_look C k i) (length (atrs (ParserRun.node_of C k i)))) /\
  (forall m name id M i k w, nth_error (c_nets C) m = Some (name, (id, M)) -> i < length M -> 2 <= length (atrs (nth i M blank)) -> ldfa_go (c_look C m i) 0 w = LExit k ->
    exists n, 0 < n <= length w /\ only_alt (c_nets C) name i k (firstn n w)) /\
  (forall name id M, In (name, (id, M)) (c_nets C) -> wf_net M).
Proof.
  intros HG HL HE. destruct (grammar_env _ _ _ _ _ _ _ _ _ _ HG HE) as [PE LI].
  destruct HG as [HF HP HN HPX ((D & HD & HT) & HT2) HCL]. destruct (file_nets _ _ _ _ _ HF) as (ND & NETS & RT).
  assert (HLC : forall k i, 2 <= length (atrs (ParserRun.node_of C k i)) -> lcodable (c_look C k i) (length (atrs (ParserRun.node_of C k i)))).
  { intros k i H2. destruct (Nat.lt_ge_cases k (length (c_nets C))) as [L|L].
    - pose proof (nth_error_nth' (c_nets C) ([], (0%N, [])) L) as E. unfold ParserRun.node_of, net_of in *. destruct (nth k (c_nets C) ([], (0%N, []))) as [name [id' M']]. cbn [snd] in *.
      destruct (Nat.lt_ge_cases i (length M')) as [Hi|Hi]; [exact (ok_look _ _ (pe_gen _ _ _ _ _ _ PE) k name id' M' i E Hi H2)|]. rewrite nth_overflow in H2 by exact Hi. cbn in H2. lia.
    - unfold ParserRun.node_of, net_of in H2. rewrite (nth_overflow (c_nets C)) in H2 by exact L. cbn in H2. destruct i; cbn in H2; lia. }
  assert (HA : forall name id M n A t, In (name, (id, M)) (c_nets C) -> In n M -> nt n = NReg A -> (dfa_run (c_dfa C A) 0 t = true <-> accepts A t)).
  { intros name id' M' n' A t' H Hn E. destruct (In_nth M' n' blank Hn) as (i & Hi & EI). destruct (file_net _ _ _ _ _ HF _ _ _ H) as (b & Ib & NF & _). rewrite <- EI in E. revert E. pattern (nt (nth i M' blank)).
    apply (net_nodes b M' _ NF); [discriminate|discriminate| |exact Hi]. intros [y|y|p] Hy E; cbn in E; try discriminate. injection E as <-. pose proof (HPX _ _ _ Ib Hy) as PX. rewrite (pattern_exact_lang C p PX t').
    destruct PX as (P1 & P2 & _). destruct (proj2 (proj2 build_spec) p P1) as (_ & HAC & _). rewrite HAC. split; [apply (proj2 (proj2 NFABuild.complete))|apply (proj2 (proj2 NFABuild.sound) p P2)]. }
  assert (HLK : forall m name id M i k w v, nth_error (c_nets C) m = Some (name, (id, M)) -> i < length M -> 2 <= length (atrs (nth i M blank)) -> 0 < length w -> only_alt (c_nets C) name i k w -> ldfa_go (c_look C m i) 0 (w ++ v) = LExit k).
  { intros m' name id' M' i k w v H Hi H2 HW HO. destruct (HT m' i) as [E|(name' & id0 & M0 & fuel & cf & E & HB)]; [destruct (HT2 _ _ _ _ _ H Hi H2 E)|]. rewrite H in E. injection E as <- <- <-. apply nth_error_In in H.
    exact (C32_chooses_partial fs file ds g C D name id' M' i fuel cf (c_look C m' i) HF HP HL HD H Hi H2 (HCL _ _ _ _ H (nth_In _ _ Hi) H2) HB w k HW HO v). }
  split; [exact HA|]. split; [exact HLK|]. split; [exact HLC|]. split.
  - intros m' name id' M' i k w H Hi H2 G. destruct (HT m' i) as [E|(name' & id0 & M0 & fuel & cf & E & HB)]; [destruct (HT2 _ _ _ _ _ H Hi H2 E)|]. rewrite H in E. injection E as <- <- <-. apply nth_error_In in H.
    destruct (C32_decision_partial fs file ds g C D name id' M' i fuel cf (c_look C m' i) HF HP HL HD H Hi H2 (HCL _ _ _ _ H (nth_In _ _ Hi) H2) HB) as [_ K]. specialize (K w). rewrite G in K. destruct K as (n & K1 & K2 & _). eauto.
  - intros name id0 M0 H. destruct (proj2 NETS _ _ _ H) as (x & _ & X). exact (net_for_wf _ _ X).
Qed.
(** C15, for whole pages: different trees have different markers. *)
Theorem C15_trees : forall t t', tree_ok t -> tree_ok t' -> stream t = stream t' -> t = t'.
Proof. exact stream_inj. Qed.
Print Assumptions C15_trees.
(** C42.  If there is a clear parse of the first n characters of u from the root rule, with subtrees ch (every pattern and every stretch of
    white space as long as it can be; at every decision some of the text that follows, in u, belongs to one way only), then the
    generated code returns the address n characters into u, and the pages contain the markers of that
    parse.  Missing: texts that have a derivation but no clear parse (some are rejected: [C42_*_refuted]). *)
Theorem C42_clear_texts_partial : forall fs file ds g C e a u pad B n ch id M,
  grammar_ok fs file ds g C -> no_preferences ds -> call_env C ds e a u pad B ->
  lookup (c_nets C) (hd [] (map fst ds)) = Some (id, M) -> clear_from (c_nets C) u (hd [] (map fst ds)) 0 0 n ch ->
  let t := Node id 0 (N.of_nat n) ch in
  derives (rules_of ds) patL u (hd [] (map fst ds)) 0 n t /\
  exists bs, returned C (g_root g) e a (a + N.of_nat n) bs /\ List.concat (map bank_content bs) = stream t.
Proof.
  intros fs file ds g C e a u pad B n ch id M HG HL HE HR HC t. pose proof HG as HG0. destruct (grammar_env _ _ _ _ _ _ _ _ _ _ HG HE) as [PE LI].
  destruct HG as [HF HP HN HPX ((D & HD & HT) & HT2) HCL]. destruct (file_nets _ _ _ _ _ HF) as (ND & NETS & RT).
  destruct (net_index (c_nets C) (hd [] (map fst ds))) as [m|] eqn:EM; [|apply net_index_none in EM; congruence].
  destruct (compiled_facts fs file ds g C e a u pad B HG0 HL HE) as (HA & HLK & HLC & _ & _).
  destruct (proj1 (clear_run C u HA HLK HLC) _ _ _ _ _ HC m EM) as [f RUN].
  pose proof (index_of C (hd [] (map fst ds))) as IX. rewrite EM in IX. destruct IX as (id' & M' & E1 & E2 & E3). rewrite HR in E2. injection E2 as <- <-.
  assert (RM : run_machine C u f m 0 = POk n (stream t)) by (unfold run_machine; rewrite RUN, E3; reflexivity).
  assert (WF : forall name id M, In (name, (id, M)) (c_nets C) -> wf_net M) by (intros name id0 M0 H; destruct (proj2 NETS _ _ _ H) as (x & _ & X); exact (net_for_wf _ _ X)).
  destruct (machine_tree C u WF (fun k i _ => HLC k i) f (hd [] (map fst ds)) m 0 n (stream t) EM ltac:(lia) RM) as (t' & DT & ET & LT).
  assert (PS : pats_sound (rules_of ds) patL C).
  { intros name id0 b p t0 EB I1 EA. apply (pattern_exact_lang C p); [|exact EA]. refine (HPX name b p _ I1). apply (rules_from_in ds 1 name id0 b EB). }
  apply (derives_lift (rules_of ds) patL C u NETS PS) in DT.
  assert (NFT : numbers_fit (rules_of ds)).
  { intros name id0 b EB. destruct (rules_from_in ds 1 name id0 b EB) as [_ I2]. destruct HF as (_ & _ & HLN & _). change (2 ^ 15)%N with 32768%N in *. lia. }
  pose proof (derives_ok (rules_of ds) patL u (ce_len _ _ _ _ _ _ _ HE) NFT _ _ _ _ DT) as OK.
  assert (TT : t' = t).
  { apply stream_inj; [exact OK| |symmetry; exact ET]. destruct HE as [_ _ _ HU _ _ _ _ _ _ _].
    assert (HI : forall r id M, lookup (c_nets C) r = Some (id, M) -> (1 <= id < 2 ^ 15)%N).
    { intros r id0 M0 E. apply lookup_in in E. destruct (file_net _ _ _ _ _ HF _ _ _ E) as (b & _ & _ & EB). exact (NFT _ _ _ EB). }
    destruct (proj1 (clear_ok (c_nets C) u HI HU) _ _ _ _ _ HC ltac:(lia)) as [Q1 Q2]. split; [exact (HI _ _ _ HR)|]. change (2 ^ 48)%N with 281474976710656%N in *. split; [lia|]. split; [lia|exact Q2]. }
  subst t'. split; [exact DT|]. destruct (write_accept_correct B (stale e) (pe_page _ _ _ _ _ _ PE) (pe_stale _ _ _ _ _ _ PE) (stream t) (stream_nonzero t OK)) as (bs & EW & EW2 & _).
  exists bs. split; [|exact EW2]. rewrite RT. apply (returned_iff C (hd [] (map fst ds)) e a u pad B m PE EM LI). exists f. rewrite RM. auto.
Qed.
Print Assumptions C42_clear_texts_partial.
(** Conversely: whenever the generated code accepts, the parse it has found is a clear one.  So the texts with a clear parse are
    exactly the texts that are accepted. *)
Theorem C42_accepted_clear_partial : forall fs file ds g C e a u pad B v bs,
  grammar_ok fs file ds g C -> no_preferences ds -> call_env C ds e a u pad B -> returned C (g_root g) e a v bs -> v <> 0%N ->
  exists n id M ch, v = (a + N.of_nat n)%N /\ lookup (c_nets C) (hd [] (map fst ds)) = Some (id, M) /\ clear_from (c_nets C) u (hd [] (map fst ds)) 0 0 n ch /\
    List.concat (map bank_content bs) = stream (Node id 0 (N.of_nat n) ch).
Proof.
  intros fs file ds g C e a u pad B v bs HG HL HE HV NZ. destruct (grammar_env _ _ _ _ _ _ _ _ _ _ HG HE) as [PE LI]. pose proof (go_file _ _ _ _ _ HG) as HF.
  destruct (file_nets _ _ _ _ _ HF) as (ND & NETS & RT). rewrite RT in HV.
  assert (RD : In (hd [] (map fst ds)) (map fst ds)) by (destruct HF as (_ & _ & HLN & _); destruct ds; [cbn in HLN; lia|left; reflexivity]).
  destruct (net_index (c_nets C) (hd [] (map fst ds))) as [m|] eqn:EM.
  2: { apply net_index_none in EM. destruct (lookup_some (c_nets C) _ (file_names _ _ _ _ _ HF _ RD)) as [x' E']. congruence. }
  destruct (compiled_facts fs file ds g C e a u pad B HG HL HE) as (HA & HLK & HLC & HLD & WF).
  apply (returned_iff C (hd [] (map fst ds)) e a u pad B m PE EM LI) in HV as [f HV].
  destruct (run_machine C u f m 0) as [n ws|ws| |] eqn:ER; try contradiction; [|destruct HV; contradiction]. destruct HV as [-> HV].
  unfold run_machine in ER. destruct (run_node C u f m 0 0) as [n' ws'|ws'| |] eqn:RN; cbn [pre] in ER; try discriminate. injection ER as -> <-.
  destruct (index_in C _ m EM) as (id & M & E1 & E2 & E3). destruct (WF _ _ _ (nth_error_In _ _ E1)) as [W1 _ _ _].
  destruct (run_clear C u WF HA (li_nul _ LI) HLC HLD f _ m 0 0 n ws' EM ltac:(rewrite E3; cbn [snd]; lia) ltac:(lia) RN) as (ch & K1 & K2).
  exists n, id, M, ch. split; [reflexivity|]. split; [exact E2|]. split; [exact K1|]. rewrite E3 in K2, HV. cbn [fst] in K2, HV.
  assert (NFT : numbers_fit (rules_of ds)).
  { intros name id0 b EB. destruct (rules_from_in ds 1 name id0 b EB) as [_ I2]. destruct HF as (_ & _ & HLN & _). change (2 ^ 15)%N with 32768%N in *. lia. }
  assert (HI : forall r id M, lookup (c_nets C) r = Some (id, M) -> (1 <= id < 2 ^ 15)%N).
  { intros r id0 M0 E. apply lookup_in in E. destruct (file_net _ _ _ _ _ HF _ _ _ E) as (b & _ & _ & EB). exact (NFT _ _ _ EB). }
  destruct (proj1 (clear_ok (c_nets C) u HI (ce_len _ _ _ _ _ _ _ HE)) _ _ _ _ _ K1 ltac:(lia)) as [Q1 Q2]. pose proof (ce_len _ _ _ _ _ _ _ HE) as HU.
  assert (OK : tree_ok (Node id 0 (N.of_nat n) ch)) by (split; [exact (HI _ _ _ E2)|]; change (2 ^ 48)%N with 281474976710656%N in *; split; [lia|]; split; [lia|exact Q2]).
  destruct (write_accept_correct B (stale e) (pe_page _ _ _ _ _ _ PE) (pe_stale _ _ _ _ _ _ PE) _ (stream_nonzero _ OK)) as (bs' & EW & EW2 & _). cbn [stream] in EW, EW2. rewrite K2 in HV. cbn [app] in HV. rewrite EW in HV. injection HV as <-. exact EW2.
Qed.
Print Assumptions C42_accepted_clear_partial.
