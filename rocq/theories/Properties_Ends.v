(** * Parsing ends (C41), stated on grammars *)
From Coq Require Import String Ascii.
From Coq Require Import List NArith ZArith Arith Bool Lia Relations ZifyBool ZifyN ZifyNat Permutation.
From Verif Require Import CharClass Stream NFA NFABuild DFA DFAMin RegexSpec GrammarSpec Marker TreeSpec ParseSpec EmptySpec Reduction Writer X86 CodeGen CodeGenDfa CodeGenMisc CodeGenRoutine ATN ATNSem ATNBuild ATNLive ATNLoop Grammar GrammarProofs Properties_CodeGen Properties_Grammar ParserGen ParserRun ParserSim ParserTree ParserTop ParserTerm ParserGround Properties_Parser Properties_ParserCases
  Lookahead LookSpec LookGrammarSpec Properties_Look Properties_Compile GrammarCheck CompileCheck Properties_CompileCases EmptyCheck.
Import ListNotations.
Local Open Scope nat_scope.

(** C41, for rules: if no rule can start with itself without reading anything, and nothing under a star or a plus can
    be empty, the generated parser returns, whatever the text u is. *)
Theorem C41_rules_partial : forall rules matches C root e a u pad B,
  parser_env C e a u pad B -> linked C -> nets_of rules C -> pats_sound rules matches C -> rules root <> None ->
  no_left_recursion rules matches -> no_empty_repetition rules matches ->
  exists v bs, returned C root e a v bs.
Proof.
  intros rules matches C root e a u pad B HE HL HN HP HR H1 H2. apply (C41_terminates_partial C root e a u pad B HE HL).
  - destruct (net_index (c_nets C) root) as [m|] eqn:E; [eauto|]. destruct (HR (proj1 HN root E)).
  - exact (grounded rules matches C HN HP H1 H2).
Qed.
Print Assumptions C41_rules_partial.

(** C41, from the text of the grammar file: the file is read, networks are built and optimised, automata for patterns
    and decisions are constructed, code is generated: its call on any text returns. *)
Theorem C41_compiled_file_partial : forall fs file ds g C e a u pad B,
  grammar_ok fs file ds g C -> call_env C ds e a u pad B ->
  no_left_recursion (rules_of ds) patL -> no_empty_repetition (rules_of ds) patL ->
  exists v bs, returned C (g_root g) e a v bs.
Proof.
  intros fs file ds g C e a u pad B HG HE H1 H2. destruct (grammar_env _ _ _ _ _ _ _ _ _ _ HG HE) as [PE LI]. pose proof (go_file _ _ _ _ _ HG) as HF. destruct (file_nets _ _ _ _ _ HF) as (_ & NT & RT).
  apply (C41_rules_partial (rules_of ds) patL C (g_root g) e a u pad B PE LI NT); [| |exact H1|exact H2].
  - intros name id b p t EB I1 EA. apply (pattern_exact_lang C p); [|exact EA]. refine (go_pats _ _ _ _ _ HG name b p _ I1). apply (rules_from_in ds 1 name id b EB).
  - rewrite RT. destruct HF as (_ & _ & HL & _). destruct ds as [|[n b] ds]; [cbn in HL; lia|]. cbn [map hd fst rules_of rules_from]. unfold rules_of. cbn [rules_from]. destruct (list_eq_dec N.eq_dec n n); [discriminate|congruence].
Qed.
Print Assumptions C41_compiled_file_partial.

(** grammars/json.cgr of the repository meets the hypotheses, for every text of bytes 1 to 255 (with fifteen readable
    bytes behind its NUL, at address 1000, pages of 64 words). *)
Local Open Scope string_scope.
Definition json_order : list (list N) := map str ["Number"; "String"; "List"; "Dict"; "False"; "True"; "Null"; "DictEntry"; "Object"].
Local Close Scope string_scope.
Lemma json_ends : no_left_recursion (rules_of json_ds) patL /\ no_empty_repetition (rules_of json_ds) patL.
Proof.
  apply (ends_ok [] json_order json_ds); [intros name id e R; apply (rules_from_in _ _ _ _ _ R)|vm_compute; reflexivity].
Qed.
Example C41_ends_hyp : forall u, (forall c, In c u -> (0 < c < 256)%N) -> (N.of_nat (length u) < 2 ^ 47)%N ->
  let env := X86.mkE (mem (only 1000 (u ++ 0%N :: json_pad))) 5 64 json_old (fun k => 4096%N) (fun _ _ => 77%N) in
  grammar_ok (fun _ => json_text) [] json_ds json_g json_C /\ call_env json_C json_ds env 1000 u json_pad 64 /\
  (exists v bs, returned json_C (g_root json_g) env 1000 v bs).
Proof.
  intros u HU HL env. assert (CE : call_env json_C json_ds env 1000 u json_pad 64).
  { destruct json_read as [mid E]. apply (check_env 100 64 json_title json_text json_ds json_g mid json_looks json_checked u json_pad json_old); [lia|reflexivity|cbn; lia| | | |reflexivity].
    - intros c Hc. apply in_app_or in Hc as [Hc|[<-|Hc]]; [specialize (HU c Hc); lia|lia|]. apply repeat_spec in Hc. subst c. lia.
    - intros c Hc. specialize (HU c Hc). lia.
    - rewrite app_length. cbn [length json_pad repeat]. change (2 ^ 47)%N with 140737488355328%N in HL. change (2 ^ 48)%N with 281474976710656%N. lia. }
  split; [exact json_ok|]. split; [exact CE|]. destruct json_ends as [E1 E2]. exact (C41_compiled_file_partial _ _ _ _ _ _ _ _ _ _ json_ok CE E1 E2).
Qed.
(** The rule  S : S 'a'  can start with itself. *)
Example C41_left_recursion_case : ~ no_left_recursion (rules_of [([83%N], lr_body)]) patL.
Proof.
  intros H. apply (H [83%N]). apply t_step. exists 1%N, lr_body, [], [TLit [97%N]]. split; [reflexivity|]. split.
  - cbn. exists [TRule [83%N]], [TLit [97%N]]. split; [reflexivity|]. split; [reflexivity|]. exists [TLit [97%N]], []. repeat split.
  - exists []. constructor. cbn. lia.
Qed.
