(** * C25: from the rules of a grammar and a text to the result *)
From Coq Require Import String Ascii.
From Coq Require Import List NArith ZArith Arith Bool Lia Relations ZifyBool ZifyN ZifyNat Permutation.
From Verif Require Import CharClass CharClassSpec Stream StreamSpec NFA NFASem NFAProofs NFABuild NFAParse DFA DFAProofs DFAMin RegexSpec GrammarSpec Marker TreeSpec ParseSpec EmptySpec Reduction ReductionProofs Protocol ProtocolInv ProtocolLive PipelineProofs Writer WriterProofs X86 X86Step CodeGen CodeGenProofs CodeGenSimd CodeGenDfa CodeGenPlain CodeGenMisc CodeGenRoutine ATN ATNSem ATNBuild ATNOpt ATNLive Grammar GrammarProofs Properties_CodeGen Properties_Grammar ParserGen ParserRun ParserSim ParserTree ParserTop ParserTerm Properties_Parser Properties_ParserCases
  Lookahead LookSpec LookImport LookRead LookSim LookGrammar LookWf LookFit LookNul LookFuel Properties_Look Properties_Compile LookGrammarSpec ClearSpec ParserComplete Properties_Complete GrammarCheck CompileCheck Properties_CompileCases Properties_CompleteCases EmptyCheck Properties_Ends LoopSpec Properties_Loop StuckSpec RejectBanks StuckProofs Properties_Reject Properties_Tables GreedySpec GreedyNet GreedyProofs Properties_Greedy.
Import ListNotations.
Local Open Scope nat_scope.

(** If the generated code returns with pages that hold the markers of a good tree, they are the pages of WriterProofs. *)
Lemma greedy_pages fs file ds g C e a u pad B v bs t : grammar_ok fs file ds g C -> call_env C ds e a u pad B -> returned C (g_root g) e a v bs -> v <> 0%N -> tree_ok t -> List.concat (map bank_content bs) = stream t ->
  write_accept B B (stale e) (stream t) = Ok bs.
Proof.
  intros HG HE HV NZ OK S. destruct (grammar_env _ _ _ _ _ _ _ _ _ _ HG HE) as [PE LI]. destruct HG as [HF HP HN HPX _ _]. destruct (file_nets _ _ _ _ _ HF) as (ND & NETS & RT). rewrite RT in HV.
  assert (PS : pats_sound (rules_of ds) patL C).
  { intros name id0 b p t0 EB I1 EA. apply (pattern_exact_lang C p); [|exact EA]. refine (HPX name b p _ I1). apply (rules_from_in ds 1 name id0 b EB). }
  assert (NFT : numbers_fit (rules_of ds)).
  { intros name id0 b EB. destruct (rules_from_in ds 1 name id0 b EB) as [_ I2]. destruct HF as (_ & _ & HLN & _). change (2 ^ 15)%N with 32768%N in *. lia. }
  assert (R0 : rules_of ds (hd [] (map fst ds)) <> None). { destruct HF as (_ & _ & HLN & _). destruct ds as [|[n0 b0] ds0]; [cbn in HLN; lia|]. unfold rules_of. cbn. destruct (list_eq_dec N.eq_dec n0 n0); congruence. }
  destruct (accepted_tree (rules_of ds) patL C _ e a u pad B v bs PE LI NETS PS NFT (ce_len _ _ _ _ _ _ _ HE) R0 HV NZ) as (n0 & t0 & _ & _ & _ & S0 & W & _ & OK0).
  rewrite S in S0. apply (C15_trees t t0 OK OK0) in S0. subst t0. exact W.
Qed.
(** C25 for grammars as in C42_first_character_partial: a text that begins with n characters that have a greedy derivation, with tree t, is accepted after these n characters, and
    any number of workers and pages, under any schedule in which every thread keeps getting its turn, ends with the value of t under the callback f,
    having called f exactly for the nodes of t. *)
Theorem C25_first_character_partial : forall fs file ds g C e a u pad B n t,
  grammar_ok fs file ds g C -> no_preferences ds -> call_env C ds e a u pad B ->
  first_visible_decides (c_nets C) -> visible_to_end (c_nets C) (hd [] (map fst ds)) -> greedy (rules_of ds) patL u (hd [] (map fst ds)) 0 n t ->
  exists bs, returned C (g_root g) e a (a + N.of_nat n) bs /\
  forall f banks_num W (sched : nat -> thread), 1 <= W -> W <= banks_num ->
  (forall th, match th with T2 w => w < W | _ => True end -> forall i, exists j, i <= j /\ sched j = th) ->
  exists N chunks,
    let s := trace banks_num W (length bs) (fun k => nth k bs []) (reduce_bank f (Some 0%Z)) sched init N in
    final W s /\ rev (merged s) = map Ok chunks /\ Permutation (map snd (processed s)) bs /\
    exists s3, stage3 f (Some 0%Z) chunks = Ok (eval f t, s3) /\
      Permutation (List.concat (map (fun c => rev (log c)) chunks) ++ rev (log s3)) (calls f t).
Proof.
  intros fs file ds g C e a u pad B n t HG HL HE HF HX H. destruct (C42_first_character_partial _ _ _ _ _ _ _ _ _ _ HG HL HE HF HX n t H) as [(bs & R & S) _]. exists bs. split; [exact R|]. intros f nb W sched W1 W2 FAIR.
  destruct (grammar_env _ _ _ _ _ _ _ _ _ _ HG HE) as [PE LI]. pose proof (pe_addr _ _ _ _ _ _ PE) as A0.
  assert (OK : tree_ok t).
  { apply (proj1 (greedy_derives (rules_of ds) patL u)) in H. refine (derives_ok (rules_of ds) patL u (ce_len _ _ _ _ _ _ _ HE) _ _ _ _ _ H).
    intros name id0 b EB. destruct (rules_from_in ds 1 name id0 b EB) as [_ I2]. destruct (go_file _ _ _ _ _ HG) as (_ & _ & HLN & _). change (2 ^ 15)%N with 32768%N in *. lia. }
  pose proof (greedy_pages _ _ _ _ _ _ _ _ _ _ _ _ t HG HE R ltac:(lia) OK S) as E. destruct (pipeline f t B (stale e) nb W sched OK (pe_page _ _ _ _ _ _ PE) (pe_stale _ _ _ _ _ _ PE) W1 W2 FAIR) as (bs' & E' & P).
  rewrite E in E'. injection E' as <-. exact P.
Qed.
Print Assumptions C25_first_character_partial.
(** grammars/json.cgr, for every text, callback, number of workers and pages, and schedule. *)
Theorem C25_json_grammar_partial : forall e a u pad B n t, call_env json_C json_ds e a u pad B -> greedy (rules_of json_ds) patL u (str "Object"%string) 0 n t ->
  exists bs, returned json_C (g_root json_g) e a (a + N.of_nat n) bs /\
  forall f banks_num W (sched : nat -> thread), 1 <= W -> W <= banks_num ->
  (forall th, match th with T2 w => w < W | _ => True end -> forall i, exists j, i <= j /\ sched j = th) ->
  exists N chunks,
    let s := trace banks_num W (length bs) (fun k => nth k bs []) (reduce_bank f (Some 0%Z)) sched init N in
    final W s /\ rev (merged s) = map Ok chunks /\ Permutation (map snd (processed s)) bs /\
    exists s3, stage3 f (Some 0%Z) chunks = Ok (eval f t, s3) /\
      Permutation (List.concat (map (fun c => rev (log c)) chunks) ++ rev (log s3)) (calls f t).
Proof.
  intros e a u pad B n t HE H. destruct json_decides as [H1 H2]. exact (C25_first_character_partial _ _ _ _ _ _ _ _ _ _ n t json_ok json_plain HE H1 H2 H).
Qed.
Print Assumptions C25_json_grammar_partial.
(** The hypotheses are met. *)
Example C25_greedy_hyp : exists bs, returned json_C (g_root json_g) json_env 1000 1022 bs /\ forall f, (forall id s e vs, f id s e vs <> 0%N) -> eval f json_tree <> 0%N.
Proof.
  destruct C42_greedy_hyp as (H1 & H2 & _). destruct (C25_json_grammar_partial _ _ _ _ _ _ _ H1 H2) as (bs & R & _). exists bs. split; [exact R|]. intros f NZ. cbn [eval json_tree]. apply NZ.
Qed.
