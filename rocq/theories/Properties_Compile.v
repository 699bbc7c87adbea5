(** * From the text of a grammar to the generated parser, with the tables the program itself builds *)
From Coq Require Import List NArith ZArith Arith Bool Lia ZifyBool ZifyN ZifyNat Permutation.
From Verif Require Import CharClass CharClassSpec Stream NFA NFASem NFAProofs NFABuild NFAParse DFA DFAProofs DFAMin RegexSpec GrammarSpec Marker TreeSpec ParseSpec Reduction ReductionProofs Writer WriterProofs X86 X86Step CodeGen CodeGenProofs CodeGenSimd CodeGenDfa CodeGenPlain CodeGenMisc CodeGenRoutine ATN ATNSem ATNBuild ATNOpt ATNLive Grammar GrammarProofs Properties_CodeGen Properties_Grammar ParserGen ParserRun ParserSim ParserTree ParserTop Properties_Parser
  Lookahead LookSpec LookImport LookGrammarSpec LookRead LookSim LookGrammar LookWf LookFit LookNul Properties_Look.
Import ListNotations.
Local Open Scope nat_scope.

(** The decision tables of C are the ones the program builds: an automaton (LookaheadDFA) for every node with two
    ways or more; nothing elsewhere.
    src/core/CodeGenEM64T.cpp:387-420. *)
Definition tables_built (C : compiled) : Prop :=
  (exists D, composite (c_nets C) = Some D /\
    forall m i, c_look C m i = [] \/ exists name id M fuel cf, nth_error (c_nets C) m = Some (name, (id, M)) /\ decision D fuel cf name i = SOk (c_look C m i)) /\
  (forall m name id M i, nth_error (c_nets C) m = Some (name, (id, M)) -> i < length M -> 2 <= length (atrs (nth i M blank)) -> c_look C m i <> []).
(** No decision stands directly behind a pattern that ends in a '+'. *)
Definition decisions_clear (C : compiled) : Prop := forall name id M n, In (name, (id, M)) (c_nets C) -> In n M -> 2 <= length (atrs n) -> not_after_plus n.
(** A pattern the code generator can deal with: no possessive quantifiers; or at most one loop with at most eight ranges
    per state (C12), with room behind the text for the 16 byte loads. *)
Definition pat_codes (C : compiled) (p : pat) (pad : list N) : Prop := pat_short p \/ codable (c_dfa C (build_pat p)) /\ 15 <= length pad.
Definition pats_code (C : compiled) (ds : list (list N * gsel)) (pad : list N) : Prop := forall name b p, In (name, b) ds -> In (TPat p) (gsel_terms b) -> pat_codes C p pad.
(** Room behind the text for the 16 byte loads of long literals. *)
Definition room (ds : list (list N * gsel)) (pad : list N) : Prop := forall name b s, In (name, b) ds -> In (TLit s) (gsel_terms b) -> 8 <= length s -> 15 <= length pad.

Lemma compiled_fits fs file ds g C pad : compiled_from fs file ds g C -> rules_plain ds -> nul_free ds -> (forall name b p, In (name, b) ds -> In (TPat p) (gsel_terms b) -> pattern_exact C p) -> pats_code C ds pad -> tables_built C -> decisions_clear C -> room ds pad ->
  gen_ok C (length pad) /\ linked C.
Proof.
  intros HF HP HN HA HS ((D & HD & HL) & HL2) HC HR.
  assert (WF : forall name id M, In (name, (id, M)) (c_nets C) -> wf_net M) by (intros name id M H; destruct (file_net _ _ _ _ _ HF _ _ _ H) as (b & _ & NF & _); exact (net_for_wf _ _ NF)).
  split; [split|split].
  - intros name id M H. destruct (WF _ _ _ H) as [L _ _ _]. destruct M; [cbn in L; lia|discriminate].
  - intros name id M n [d l] H Hn Ht. destruct (In_nth M n blank Hn) as (i & Hi & E). cbn [fst]. apply (wn_closed _ (WF _ _ _ H) i). apply in_dests. exists l. unfold tonode. rewrite E. exact Ht.
  - intros name id M n s H Hn E. destruct (In_nth M n blank Hn) as (i & Hi & EI). destruct (file_net _ _ _ _ _ HF _ _ _ H) as (b & Ib & NF & _). rewrite <- EI in E. revert E. pattern (nt (nth i M blank)).
    apply (net_nodes b M _ NF); [discriminate|discriminate| |exact Hi]. intros [y|y|p] Hy E; cbn in E; try discriminate. injection E as <-. split; [|rewrite map_length; exact (HR _ _ _ Ib Hy)].
    intros c Hc. apply in_map_iff in Hc as (z & <- & Hz). pose proof (proj2 (HP _ _ _ Ib Hy) z Hz). unfold narrow. rewrite N.mod_small; lia.
  - intros name id M n A H Hn E. destruct (In_nth M n blank Hn) as (i & Hi & EI). destruct (file_net _ _ _ _ _ HF _ _ _ H) as (b & Ib & NF & _). rewrite <- EI in E. revert E. pattern (nt (nth i M blank)).
    apply (net_nodes b M _ NF); [discriminate|discriminate| |exact Hi]. intros [y|y|p] Hy E; cbn in E; try discriminate. injection E as <-. destruct (HS _ _ _ Ib Hy) as [SH|[CO PD]]; [|auto]. destruct (HA _ _ _ Ib Hy) as (_ & _ & fuel & ef & X0 & _ & EB & _).
    assert (Hp : pat_ok p) by exact (HP _ _ _ Ib Hy). unfold dfa_build in EB. destruct (dfa_plain fuel ef (build_pat p)) as [X|] eqn:EX; [|discriminate]. injection EB as <-.
    assert (NL : nolongD X) by (eapply plain_nolong; [exact EX|apply pat_no_long; [exact Hp|exact SH]]).
    assert (CD : codable X) by (eapply plain_codable; [exact EX|apply pat_text; [exact Hp|exact (HN _ _ _ Ib Hy)]|apply nolong_fits; exact NL]).
    destruct (minimize_codable X CD NL) as [CM NM]. split; [exact CM|]. intros (q & Q & _). rewrite nolong_no_loop in Q by exact NM. discriminate.
  - intros m name id M i H Hi H2. destruct (HL m i) as [E|(name' & id' & M' & fuel & cf & E & HT)]; [destruct (HL2 _ _ _ _ _ H Hi H2 E)|].
    rewrite H in E. injection E as <- <- <-. apply nth_error_In in H. destruct (C32_preferences_partial fs file ds g C D name id M i fuel cf (c_look C m i) HF HP HD H Hi H2 (HC _ _ _ _ H (nth_In _ _ Hi) H2) HT) as [K _]. exact K.
  - intros name id M n x H1 H2 H3. destruct (net_index (c_nets C) x) as [m|] eqn:EX; [eauto|]. exfalso. destruct (file_net _ _ _ _ _ HF _ _ _ H1) as (b & Ib & NF & RU).
    assert (KD : kinds (fun k => forall y, k = NInv y -> In y (map fst ds)) M).
    { apply (net_for_kinds _ b M NF); [discriminate|discriminate|]. intros y Hy z Ez. destruct y as [i|s|p]; cbn in Ez; try discriminate. injection Ez as ->. destruct HF as (_ & RD & _). exact (RD _ _ _ _ RU Hy). }
    apply net_index_none in EX. destruct (lookup_some (c_nets C) x (file_names _ _ _ _ _ HF x (KD n H2 x H3))) as [p' E']. congruence.
  - intros m i. destruct (HL m i) as [->|(name & id & M & fuel & cf & E & HT)]; [intros q cc d Hin; destruct q; destruct Hin|]. exact (file_nul fs file ds g C D fuel cf name i _ HF HP HN HD HT).
Qed.
(** The conditions on a grammar and its patterns. *)
Record grammar_ok (fs : list N -> list N) (file : list N) (ds : list (list N * gsel)) (g : gstate) (C : compiled) : Prop := {
  go_file : compiled_from fs file ds g C;
  go_plain : rules_plain ds;
  go_nul : nul_free ds;
  go_pats : forall name b p, In (name, b) ds -> In (TPat p) (gsel_terms b) -> pattern_exact C p;
  go_tables : tables_built C;
  go_clear : decisions_clear C }.
(** The surroundings of a call: the text u at address a, followed by a NUL and pad; pages of B words. *)
Record call_env (C : compiled) (ds : list (list N * gsel)) (e : env) (a : N) (u pad : list N) (B : nat) : Prop := {
  ce_text : text_at (mem e) a (u ++ 0%N :: pad);
  ce_addr : (0 < a)%N;
  ce_nul : forall c, In c u -> c <> 0%N;
  ce_len : (N.of_nat (length u) < 2 ^ 48)%N;
  ce_room : room ds pad;
  ce_pats : pats_code C ds pad;
  ce_page : 1 <= B;
  ce_words : page_words e = B;
  ce_buf : c_buf C = (8 * N.of_nat B)%N;
  ce_fit : forall k, (page_addr e k + 8 * N.of_nat B < 2 ^ 64)%N;
  ce_stale : forall k, length (stale e k) = B }.
Lemma grammar_env fs file ds g C e a u pad B : grammar_ok fs file ds g C -> call_env C ds e a u pad B -> parser_env C e a u pad B /\ linked C.
Proof.
  intros [G1 G2 G3 G4 G6 G7] [C1 C2 C3 C4 C5 C6 C7 C8 C9 C10 C11]. destruct (compiled_fits fs file ds g C pad G1 G2 G3 G4 C6 G6 G7 C5) as [F1 F2]. split; [|exact F2]. split; assumption.
Qed.
(** C18 for the program as a whole: a grammar file is read, networks are built and optimised, automata for patterns and
    decisions are constructed, code is generated, and called on the text u.  If it returns an address, it is the
    address n characters into u, those n characters derive from the first rule of the file with a tree
    t, and the pages contain exactly the markers of t. *)
Theorem C18_compiled_file : forall fs file ds g C e a u pad B v bs,
  grammar_ok fs file ds g C -> call_env C ds e a u pad B -> returned C (g_root g) e a v bs -> v <> 0%N ->
  exists n t, v = (a + N.of_nat n)%N /\ derives (rules_of ds) patL u (hd [] (map fst ds)) 0 n t /\ List.concat (map bank_content bs) = stream t.
Proof.
  intros fs file ds g C e a u pad B v bs HG HE HV NZ. destruct (grammar_env _ _ _ _ _ _ _ _ _ _ HG HE) as [PE LI]. pose proof (go_pats _ _ _ _ _ HG) as GP.
  destruct HG as [(H1 & H2 & H3 & H4 & H5) _ _ _ _ _]. destruct HE as [_ _ _ HU _ _ _ _ _ _ _].
  exact (C18_grammar_file fs file ds g C e a u pad B v bs H1 H2 H3 H4 H5 GP (li_nul _ LI) PE HU HV NZ).
Qed.
Print Assumptions C18_compiled_file.
(** Whatever the text: the generated code never leaves itself, its pages or the text. *)
Theorem C18_compiled_no_fault : forall fs file ds g C e a u pad B r x p sv q s,
  grammar_ok fs file ds g C -> call_env C ds e a u pad B -> call_regs e a r ->
  star (parser_code C (g_root g)) e (start_state C (g_root g) e r x p sv q) s -> pc s = [] \/ exists s', X86.step (parser_code C (g_root g)) e s = Next s'.
Proof.
  intros fs file ds g C e a u pad B r x p sv q s HG HE HC HS. destruct (grammar_env _ _ _ _ _ _ _ _ _ _ HG HE) as [PE LI].
  apply (C18_no_fault C (g_root g) e a u pad B r x p sv q s PE LI); [|exact HC|exact HS].
  destruct (net_index (c_nets C) (g_root g)) as [m|] eqn:EX; [eauto|]. exfalso. pose proof (go_file _ _ _ _ _ HG) as HF. destruct (file_nets _ _ _ _ _ HF) as (_ & _ & RT).
  apply net_index_none in EX. rewrite RT in EX. destruct (lookup_some (c_nets C) (hd [] (map fst ds))) as [p' E'].
  - apply (file_names _ _ _ _ _ HF). destruct HF as (_ & _ & HL & _). destruct ds; [cbn in HL; lia|left; reflexivity].
  - congruence.
Qed.
Print Assumptions C18_compiled_no_fault.
