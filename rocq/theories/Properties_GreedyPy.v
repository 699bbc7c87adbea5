(** * C28: from the rules of a grammar and a text to the result in Python *)
From Coq Require Import String Ascii.
From Coq Require Import List NArith ZArith Arith Bool Lia Relations ZifyBool ZifyN ZifyNat Permutation.
From Verif Require Import CharClass CharClassSpec Stream StreamSpec NFA NFASem NFAProofs NFABuild NFAParse DFA DFAProofs DFAMin RegexSpec GrammarSpec Marker TreeSpec ParseSpec EmptySpec Reduction ReductionProofs Protocol ProtocolInv ProtocolLive PipelineProofs Writer WriterProofs X86 X86Step CodeGen CodeGenProofs CodeGenSimd CodeGenDfa CodeGenPlain CodeGenMisc CodeGenRoutine ATN ATNSem ATNBuild ATNOpt ATNLive Grammar GrammarProofs Properties_CodeGen Properties_Grammar ParserGen ParserRun ParserSim ParserTree ParserTop ParserTerm Properties_Parser Properties_ParserCases
  Lookahead LookSpec LookImport LookRead LookSim LookGrammar LookWf LookFit LookNul LookFuel Properties_Look Properties_Compile LookGrammarSpec ClearSpec ParserComplete Properties_Complete GrammarCheck CompileCheck Properties_CompileCases Properties_CompleteCases EmptyCheck Properties_Ends LoopSpec Properties_Loop StuckSpec RejectBanks StuckProofs Properties_Reject Properties_Tables GreedySpec GreedyNet GreedyProofs Properties_Greedy Properties_GreedyRun PyReduction PySpec PyProofs PyMain PyChannel PyChannelProofs Properties_Python.
Import ListNotations.
Local Open Scope nat_scope.

(** C28 for grammars as in C42_first_character_partial: a text that begins with n characters that have a greedy derivation, with tree t, is accepted after these n characters;
    if a page holds at least 4 * depth t + 6 words then, in any schedule in which every thread and feeder keeps moving, the Python parse ends with the
    value of t under the handler h, having called h exactly for the nodes of t. *)
Theorem C28_first_character_partial : forall fs file ds g C e a u pad B n t,
  grammar_ok fs file ds g C -> no_preferences ds -> call_env C ds e a u pad B ->
  first_visible_decides (c_nets C) -> visible_to_end (c_nets C) (hd [] (map fst ds)) -> greedy (rules_of ds) patL u (hd [] (map fst ds)) 0 n t ->
  exists bs, returned C (g_root g) e a (a + N.of_nat n) bs /\
  forall (V : Type) (h : N -> N -> N -> list V -> option V) z nb W (sched : nat -> xthread),
  (z < 1)%Z -> 4 * depth t + 6 <= B -> (Z.of_nat B < 2 ^ 31)%Z -> 1 <= W -> W <= nb ->
  (forall th, match th with T2 w => w < W | _ => True end -> forall i, exists j, i <= j /\ sched j = XT th) ->
  (forall w b, w < W -> b < nb -> forall i, exists j, i <= j /\ sched j = Flush w b) ->
  exists N cs,
    let x := xtrace nb W (length bs) (fun k => nth k bs []) (p_bank h (Some z)) chan sched xinit N in
    final W (base x) /\ rev (merged (base x)) = map Ok cs /\ Permutation (map snd (processed (base x))) bs /\
    (forall b, pipe x b = [] /\ forall w, buf x w b = []) /\
    exists s, p_stage3 h (Some z) (combine (map (fun c => fst (fst c)) cs) (rev (got x))) = Ok (py_eval h t, s) /\
      Permutation (List.concat (map snd cs) ++ rev (q_log s)) (py_calls h t).
Proof.
  intros fs file ds g C e a u pad B n t HG HL HE HF HX H. destruct (C42_first_character_partial _ _ _ _ _ _ _ _ _ _ HG HL HE HF HX n t H) as [(bs & R & S) _]. exists bs. split; [exact R|]. intros V h z nb W sched Hz HD H31 W1 W2 FAIR FAIR2.
  destruct (grammar_env _ _ _ _ _ _ _ _ _ _ HG HE) as [PE LI]. pose proof (pe_addr _ _ _ _ _ _ PE) as A0.
  assert (OK : tree_ok t).
  { apply (proj1 (greedy_derives (rules_of ds) patL u)) in H. refine (derives_ok (rules_of ds) patL u (ce_len _ _ _ _ _ _ _ HE) _ _ _ _ _ H).
    intros name id0 b EB. destruct (rules_from_in ds 1 name id0 b EB) as [_ I2]. destruct (go_file _ _ _ _ _ HG) as (_ & _ & HLN & _). change (2 ^ 15)%N with 32768%N in *. lia. }
  pose proof (greedy_pages _ _ _ _ _ _ _ _ _ _ _ _ t HG HE R ltac:(lia) OK S) as E.
  destruct (C28_end_to_end_partial V h z B (stale e) t nb W sched Hz OK HD H31 (pe_stale _ _ _ _ _ _ PE) W1 W2 FAIR FAIR2) as (bs' & N & cs & E' & P).
  rewrite E in E'. injection E' as <-. exists N, cs. exact P.
Qed.
Print Assumptions C28_first_character_partial.
(** grammars/json.cgr, for every text, handler, number of workers and pages, and schedule. *)
Theorem C28_json_grammar_partial : forall e a u pad B n t, call_env json_C json_ds e a u pad B -> greedy (rules_of json_ds) patL u (str "Object"%string) 0 n t ->
  exists bs, returned json_C (g_root json_g) e a (a + N.of_nat n) bs /\
  forall (V : Type) (h : N -> N -> N -> list V -> option V) z nb W (sched : nat -> xthread),
  (z < 1)%Z -> 4 * depth t + 6 <= B -> (Z.of_nat B < 2 ^ 31)%Z -> 1 <= W -> W <= nb ->
  (forall th, match th with T2 w => w < W | _ => True end -> forall i, exists j, i <= j /\ sched j = XT th) ->
  (forall w b, w < W -> b < nb -> forall i, exists j, i <= j /\ sched j = Flush w b) ->
  exists N cs,
    let x := xtrace nb W (length bs) (fun k => nth k bs []) (p_bank h (Some z)) chan sched xinit N in
    final W (base x) /\ rev (merged (base x)) = map Ok cs /\ Permutation (map snd (processed (base x))) bs /\
    (forall b, pipe x b = [] /\ forall w, buf x w b = []) /\
    exists s, p_stage3 h (Some z) (combine (map (fun c => fst (fst c)) cs) (rev (got x))) = Ok (py_eval h t, s) /\
      Permutation (List.concat (map snd cs) ++ rev (q_log s)) (py_calls h t).
Proof.
  intros e a u pad B n t HE H. destruct json_decides as [H1 H2]. exact (C28_first_character_partial _ _ _ _ _ _ _ _ _ _ n t json_ok json_plain HE H1 H2 H).
Qed.
Print Assumptions C28_json_grammar_partial.
(** The hypotheses are met. *)
Example C28_greedy_hyp : exists B u pad, call_env json_C json_ds json_env 1000 u pad B /\ greedy (rules_of json_ds) patL u (str "Object"%string) 0 22 json_tree /\ (Z.of_nat B < 2 ^ 31)%Z /\ 4 * depth json_tree + 6 <= B.
Proof.
  destruct C42_greedy_hyp as (H1 & H2 & _). do 3 eexists. split; [exact H1|]. split; [exact H2|]. split; [reflexivity|]. vm_compute. lia.
Qed.
