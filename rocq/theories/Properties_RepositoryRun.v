(** * C25 for grammar files, and for the grammars of the repository *)
From Coq Require Import String Ascii.
From Coq Require Import List NArith ZArith Arith Bool Lia Relations ZifyBool ZifyN ZifyNat Permutation.
From Verif Require Import CharClass CharClassSpec Stream StreamSpec NFA NFASem NFAProofs NFABuild NFAParse DFA DFAProofs DFAMin RegexSpec GrammarSpec Marker TreeSpec ParseSpec EmptySpec Reduction ReductionProofs Protocol ProtocolInv ProtocolLive PipelineProofs Writer WriterProofs X86 X86Step CodeGen CodeGenProofs CodeGenSimd CodeGenDfa CodeGenPlain CodeGenMisc CodeGenRoutine ATN ATNSem ATNBuild ATNOpt ATNLive Grammar GrammarProofs Properties_CodeGen Properties_Grammar ParserGen ParserRun ParserSim ParserTree ParserTop ParserTerm Properties_Parser Properties_ParserCases
  Lookahead LookSpec LookImport LookRead LookSim LookGrammar LookWf LookFit LookNul LookFuel Properties_Look Properties_Compile LookGrammarSpec ClearSpec ParserComplete Properties_Complete GrammarCheck CompileCheck Properties_CompileCases Properties_Parser OpenEndSpec Properties_OpenEnd Properties_Repository Properties_CompleteCases EmptyCheck Properties_Ends LoopSpec Properties_Loop StuckSpec RejectBanks StuckProofs Properties_Reject Properties_Tables GreedySpec GreedyNet GreedyProofs Properties_Greedy.
Import ListNotations.
Local Open Scope nat_scope.

(** Whatever text a compiled grammar file's parser accepts: the text's beginning is derived, with a tree t; any number of workers and
    pages, under any schedule in which every thread keeps getting its turn, ends with the value of t under the callback f, having
    called f exactly for the nodes of t. *)
Theorem C25_compiled_file_partial : forall fs file ds g C e a u pad B v bs,
  grammar_ok fs file ds g C -> call_env C ds e a u pad B -> returned C (g_root g) e a v bs -> v <> 0%N ->
  exists n t, v = (a + N.of_nat n)%N /\ derives (rules_of ds) patL u (hd [] (map fst ds)) 0 n t /\
  forall f banks_num W (sched : nat -> thread), 1 <= W -> W <= banks_num ->
  (forall th, match th with T2 w => w < W | _ => True end -> forall i, exists j, i <= j /\ sched j = th) ->
  exists N chunks,
    let s := trace banks_num W (length bs) (fun k => nth k bs []) (reduce_bank f (Some 0%Z)) sched init N in
    final W s /\ rev (merged s) = map Ok chunks /\ Permutation (map snd (processed s)) bs /\
    exists s3, stage3 f (Some 0%Z) chunks = Ok (eval f t, s3) /\
      Permutation (List.concat (map (fun c => rev (log c)) chunks) ++ rev (log s3)) (calls f t).
Proof.
  intros fs file ds g C e a u pad B v bs HG HE HV NZ. destruct (grammar_env _ _ _ _ _ _ _ _ _ _ HG HE) as [PE LI]. destruct HG as [HF HP HN HPX _ _]. destruct (file_nets _ _ _ _ _ HF) as (ND & NETS & RT). rewrite RT in HV.
  apply (C25_end_to_end_partial (rules_of ds) patL C _ e a u pad B v bs PE LI NETS); [| |exact (ce_len _ _ _ _ _ _ _ HE)| |exact HV|exact NZ].
  - intros name id0 b p t0 EB I1 EA. apply (pattern_exact_lang C p); [|exact EA]. refine (HPX name b p _ I1). apply (rules_from_in ds 1 name id0 b EB).
  - intros name id0 b EB. destruct (rules_from_in ds 1 name id0 b EB) as [_ I2]. destruct HF as (_ & _ & HLN & _). change (2 ^ 15)%N with 32768%N in *. lia.
  - destruct HF as (_ & _ & HLN & _). destruct ds as [|[n0 b0] ds0]; [cbn in HLN; lia|]. unfold rules_of. cbn. destruct (list_eq_dec N.eq_dec n0 n0); congruence.
Qed.
Print Assumptions C25_compiled_file_partial.
(** json.cgr, xml.cgr, dblp.cgr, dblp_schema.cgr, citylots.cgr: on every text, the parser returns, and what it accepts is reduced to the
    value of a tree of the text, for every callback, number of workers and pages, and schedule. *)
Theorem C25_repository : forall file ds,
  In (file, ds) [(str "json.cgr", json_ds); (str "xml.cgr", xml_ds); (str "dblp.cgr", dblp_ds); (str "dblp_schema.cgr", dblp_schema_ds); (str "citylots.cgr", citylots_ds)]%string ->
  exists g C, grammar_ok repo_fs file ds g C /\
  (forall u, (forall c, In c u -> (0 < c < 256)%N) -> (N.of_nat (length u) < 2 ^ 47)%N -> exists e a pad B, call_env C ds e a u pad B) /\
  forall e a u pad B, call_env C ds e a u pad B -> exists v bs, returned C (g_root g) e a v bs /\
  (v <> 0%N -> exists n t, v = (a + N.of_nat n)%N /\ derives (rules_of ds) patL u (hd [] (map fst ds)) 0 n t /\
  forall f banks_num W (sched : nat -> thread), 1 <= W -> W <= banks_num ->
  (forall th, match th with T2 w => w < W | _ => True end -> forall i, exists j, i <= j /\ sched j = th) ->
  exists N chunks,
    let s := trace banks_num W (length bs) (fun k => nth k bs []) (reduce_bank f (Some 0%Z)) sched init N in
    final W s /\ rev (merged s) = map Ok chunks /\ Permutation (map snd (processed s)) bs /\
    exists s3, stage3 f (Some 0%Z) chunks = Ok (eval f t, s3) /\
      Permutation (List.concat (map (fun c => rev (log c)) chunks) ++ rev (log s3)) (calls f t)).
Proof.
  intros file ds H. destruct (C18_repository file ds H) as (g & C & G & _ & HC & HR). exists g, C. split; [exact G|]. split; [exact HC|].
  intros e a u pad B CE. destruct (HR e a u pad B CE) as (v & bs & R & _). exists v, bs. split; [exact R|]. intros NZ. exact (C25_compiled_file_partial _ _ _ _ _ _ _ _ _ _ _ _ G CE R NZ).
Qed.
Print Assumptions C25_repository.
