(** * Verifying the grammars of the repository (C50) *)
From Coq Require Import String Ascii.
From Coq Require Import List NArith ZArith Arith Bool Lia ZifyBool ZifyN ZifyNat Permutation.
From Verif Require Import CharClass CharClassSpec Stream StreamSpec NFA NFASem NFAProofs NFABuild NFAParse DFA DFAProofs DFAMin RegexSpec GrammarSpec Marker TreeSpec ParseSpec Reduction ReductionProofs Writer WriterProofs X86 X86Step CodeGen CodeGenProofs CodeGenSimd CodeGenDfa CodeGenPlain CodeGenMisc CodeGenRoutine ATN ATNSem ATNBuild ATNOpt ATNLive Grammar GrammarProofs Properties_CodeGen Properties_Grammar ParserGen ParserRun ParserSim ParserTree ParserTop Properties_Parser Properties_ParserCases
  EmptySpec EmptyCheck ParserComplete Lookahead LookSpec LookImport LookRead LookSim LookGrammar LookWf LookFit LookNul LookFuel Properties_Look Properties_Compile Properties_Ends LookGrammarSpec ClearSpec Properties_Complete GrammarCheck CompileCheck Properties_CompileCases Properties_CompleteCases Verify Properties_Verify Properties_Repository OpenEndSpec Properties_OpenEnd ATNParse.
Import ListNotations.
Local Open Scope nat_scope.

(** Verification says yes to json.cgr, xml.cgr, dblp.cgr, dblp_schema.cgr and citylots.cgr -- also to xml.cgr, whose parser rejects
    every text (C42_xml_refuted) -- and no to calc.cgr. *)
Theorem C50_repository :
  (forall file, In file (map str ["json.cgr"; "xml.cgr"; "dblp.cgr"; "dblp_schema.cgr"; "citylots.cgr"]%string) ->
    exists g, Properties_Grammar.reads repo_fs file g /\ forall k, 100 <= k -> verify k (g_nets g) = SOk true) /\
  (exists g, Properties_Grammar.reads (fun _ => calc_text) [] g /\ forall k, 100 <= k -> verify k (g_nets g) = SOk false).
Proof.
  split.
  - intros file [<-|[<-|[<-|[<-|[<-|[]]]]]].
    + exists json_g. assert (V : verify 100 (g_nets json_g) = SOk true) by (vm_compute; reflexivity). split; [exists 100; eexists; vm_compute; reflexivity|].
      intros k Hk. rewrite <- V. apply (verify_more 100 k); [exact Hk|rewrite V; discriminate].
    + exists xml_g. assert (V : verify 100 (g_nets xml_g) = SOk true) by (vm_compute; reflexivity). split; [exists 100; eexists; vm_compute; reflexivity|].
      intros k Hk. rewrite <- V. apply (verify_more 100 k); [exact Hk|rewrite V; discriminate].
    + exists dblp_g. assert (V : verify 100 (g_nets dblp_g) = SOk true) by (vm_compute; reflexivity). split; [exists 100; eexists; vm_compute; reflexivity|].
      intros k Hk. rewrite <- V. apply (verify_more 100 k); [exact Hk|rewrite V; discriminate].
    + exists dblp_schema_g. assert (V : verify 100 (g_nets dblp_schema_g) = SOk true) by (vm_compute; reflexivity). split; [exists 100; eexists; vm_compute; reflexivity|].
      intros k Hk. rewrite <- V. apply (verify_more 100 k); [exact Hk|rewrite V; discriminate].
    + exists citylots_g. assert (V : verify 100 (g_nets citylots_g) = SOk true) by (vm_compute; reflexivity). split; [exists 100; eexists; vm_compute; reflexivity|].
      intros k Hk. rewrite <- V. apply (verify_more 100 k); [exact Hk|rewrite V; discriminate].
  - exists calc_g. assert (V : verify 100 (g_nets calc_g) = SOk false) by (vm_compute; reflexivity). split; [exists 100; eexists; vm_compute; reflexivity|].
    intros k Hk. rewrite <- V. apply (verify_more 100 k); [exact Hk|rewrite V; discriminate].
Qed.
Print Assumptions C50_repository.
