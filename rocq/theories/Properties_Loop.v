(** * C41: exactly when parsing ends *)
From Coq Require Import String Ascii.
From Coq Require Import List NArith ZArith Arith Bool Lia Relations ZifyBool ZifyN ZifyNat Permutation.
From Verif Require Import CharClass CharClassSpec Stream StreamSpec NFA NFASem NFAProofs NFABuild NFAParse DFA DFAProofs DFAMin RegexSpec GrammarSpec Marker TreeSpec ParseSpec Reduction ReductionProofs Writer WriterProofs X86 X86Step CodeGen CodeGenProofs CodeGenSimd CodeGenDfa CodeGenPlain CodeGenMisc CodeGenRoutine ATN ATNSem ATNBuild ATNOpt ATNLive Grammar GrammarProofs Properties_CodeGen Properties_Grammar ParserGen ParserRun ParserSim ParserTree ParserTop ParserTerm Properties_Parser Properties_ParserCases
  Lookahead LookSpec LookImport LookRead LookSim LookGrammar LookWf LookFit LookNul LookFuel Properties_Look Properties_Compile LookGrammarSpec ClearSpec ParserComplete Properties_Complete GrammarCheck CompileCheck Properties_CompileCases Properties_CompleteCases LoopSpec LoopProofs.
Import ListNotations.
Local Open Scope nat_scope.

(** For a grammar file as in C42, and any text: the call of the generated code returns if and only if no walk of forced steps, from the beginning
    of the root rule at position 0, comes back to a place it has been at. *)
Theorem C41_exactly_when : forall fs file ds g C e a u pad B, grammar_ok fs file ds g C -> no_preferences ds -> call_env C ds e a u pad B ->
  ((exists v bs, returned C (g_root g) e a v bs) <-> ~ goes_round (c_nets C) u (hd [] (map fst ds))).
Proof.
  intros fs file ds g C e a u pad B HG HL HE. destruct (grammar_env _ _ _ _ _ _ _ _ _ _ HG HE) as [PE LI]. pose proof (go_file _ _ _ _ _ HG) as HF.
  destruct (file_nets _ _ _ _ _ HF) as (ND & NETS & RT). rewrite RT.
  assert (RD : In (hd [] (map fst ds)) (map fst ds)) by (destruct HF as (_ & _ & HLN & _); destruct ds; [cbn in HLN; lia|left; reflexivity]).
  destruct (net_index (c_nets C) (hd [] (map fst ds))) as [m|] eqn:EM.
  2: { apply net_index_none in EM. destruct (lookup_some (c_nets C) _ (file_names _ _ _ _ _ HF _ RD)) as [x' E']. congruence. }
  destruct (compiled_facts fs file ds g C e a u pad B HG HL HE) as (HA & HLK & HLC & HLD & WF).
  rewrite <- (loop_iff C u WF HA HLK HLC (li_nul _ LI) HLD _ m EM). split.
  - intros (v & bs & H). apply (returned_iff C _ e a u pad B m PE EM LI) in H as [f H]. exists f. intros E. unfold run_machine in H. rewrite E in H. exact H.
  - intros [f Hf]. pose proof (machine_no_wild C _ e a u pad B m PE EM LI f) as NW.
    pose proof (parser_run C (hd [] (map fst ds)) e a u pad B (pe_gen _ _ _ _ _ _ PE) (pe_text _ _ _ _ _ _ PE) (pe_addr _ _ _ _ _ _ PE) (pe_nul _ _ _ _ _ _ PE) (pe_page _ _ _ _ _ _ PE) (pe_words _ _ _ _ _ _ PE) (pe_buf _ _ _ _ _ _ PE) (pe_fit _ _ _ _ _ _ PE)) as RUN.
    specialize (RUN (fun x => match x with RDI => ctx e | RSI => a | RDX => page_addr e 0 | _ => 0%N end) [] [] [] [] m EM eq_refl eq_refl eq_refl f).
    destruct (run_machine C u f m 0) as [n ws|ws| |] eqn:E; [| |congruence|].
    + destruct RUN as (s' & S' & PC' & RA' & W & _). exists (a + N.of_nat n)%N, (banks s'), (fun x => match x with RDI => ctx e | RSI => a | RDX => page_addr e 0 | _ => 0%N end), [], [], [], [], s'. repeat split; assumption.
    + destruct RUN as (s' & S' & PC' & RA' & W & _). exists 0%N, (banks s'), (fun x => match x with RDI => ctx e | RSI => a | RDX => page_addr e 0 | _ => 0%N end), [], [], [], [], s'. repeat split; assumption.
    + exfalso. revert E Hf. unfold run_machine. destruct (run_node C u f m 0 0); cbn [ParserRun.pre]; intros; congruence.
Qed.
Print Assumptions C41_exactly_when.

(** ** S : 'a' S | 'b' T ;  T : T 'c' ; *)
Local Open Scope string_scope.
Definition ro_text : list N := (str "S : 'a' S | 'b' T; T : T 'c';").
Definition ro_title : option (list N) := None.
Definition ro_ds : list (list N * gsel) :=
  [(str "S", GAlt (GFirst (GCons (GTerm (TLit (str "a"))) GOne (GCons (GTerm (TRule (str "S"))) GOne GNil))) false (GCons (GTerm (TLit (str "b"))) GOne (GCons (GTerm (TRule (str "T"))) GOne GNil)));
   (str "T", GFirst (GCons (GTerm (TRule (str "T"))) GOne (GCons (GTerm (TLit (str "c"))) GOne GNil)))].
Local Close Scope string_scope.
Definition ro_g : gstate := Eval vm_compute in match read_grammar 100 (fun _ => ro_text) [] with SOk (_, g) => g | _ => empty_grammar end.
Definition ro_looks : list (list ldfa) := Eval vm_compute in g_looks ro_g 100.
Definition ro_C : compiled := g_compiled ro_g 100 64 ro_looks.
Lemma ro_read : exists mid, read_grammar 100 (fun _ => ro_text) [] = SOk (mid, ro_g).
Proof. eexists. vm_compute. reflexivity. Qed.
Lemma ro_checked : grammar_check 100 ro_title ro_text ro_ds ro_g ro_looks = true.
Proof. vm_compute. reflexivity. Qed.
Lemma ro_ok : grammar_ok (fun _ => ro_text) [] ro_ds ro_g ro_C.
Proof. destruct ro_read as [mid E]. apply (grammar_check_ok 100 64 ro_title ro_text (fun _ => ro_text) [] ro_ds ro_g mid ro_looks); [vm_compute; reflexivity|exact E|vm_compute; reflexivity|exact ro_checked]. Qed.
Lemma ro_plain : no_preferences ro_ds.
Proof. intros name b H. cbn in H. repeat (destruct H as [H|H]; [injection H as <- <-; cbn; tauto|]). destruct H. Qed.
Definition ro_env (u : list N) : env := X86.mkE (mem (only 1000 (u ++ 0%N :: json_pad))) 5 64 json_old (fun k => 4096%N) (fun _ _ => 77%N).
Lemma ro_call c : (0 < c < 256)%N -> call_env ro_C ro_ds (ro_env [c]) 1000 [c] json_pad 64.
Proof.
  intros H. destruct ro_read as [mid E]. apply (check_env 100 64 ro_title ro_text ro_ds ro_g mid ro_looks ro_checked [c] json_pad json_old); [lia|reflexivity|cbn; lia| | |reflexivity|reflexivity].
  - intros x [<-|Hx]; [lia|]. assert (F : forallb (fun c => (c <? 256)%N) (0%N :: json_pad) = true) by (vm_compute; reflexivity). rewrite forallb_forall in F. specialize (F x Hx). lia.
  - intros x [<-|[]]; lia.
Qed.
(** Whether the rules  S : 'a' S | 'b' T  and  T : T 'c'  are parsed to an end depends on the text: on the text a the call returns, and no walk goes round; on the text b the walk goes round in T, and the
    call does not return. *)
Example C41_exactly_cases :
  ((exists v bs, returned ro_C (g_root ro_g) (ro_env [97%N]) 1000 v bs) /\ ~ goes_round (c_nets ro_C) [97%N] (hd [] (map fst ro_ds))) /\
  ((forall v bs, ~ returned ro_C (g_root ro_g) (ro_env [98%N]) 1000 v bs) /\ goes_round (c_nets ro_C) [98%N] (hd [] (map fst ro_ds))).
Proof.
  pose proof (ro_call 97%N ltac:(lia)) as CA. pose proof (ro_call 98%N ltac:(lia)) as CB. split.
  - assert (R : exists v bs, returned ro_C (g_root ro_g) (ro_env [97%N]) 1000 v bs).
    { destruct (grammar_env _ _ _ _ _ _ _ _ _ _ ro_ok CA) as [PE LI]. eexists. eexists. apply (returned_iff ro_C (g_root ro_g) (ro_env [97%N]) 1000 [97%N] json_pad 64 0 PE eq_refl LI). exists 100. vm_compute. split; reflexivity. }
    split; [exact R|]. exact (proj1 (C41_exactly_when _ _ _ _ _ _ _ _ _ _ ro_ok ro_plain CA) R).
  - assert (G : goes_round (c_nets ro_C) [98%N] (hd [] (map fst ro_ds))).
    { destruct (compiled_facts _ _ _ _ _ _ _ _ _ _ ro_ok ro_plain CB) as (_ & _ & _ & HLD & _).
      destruct (HLD 0 (str "S"%string) 1%N (snd (snd (nth 0 (g_nets ro_g) ([], (0%N, []))))) 1 1 [98%N] eq_refl ltac:(cbn; lia) ltac:(cbn; lia) eq_refl) as (n & N1 & N2). assert (n = 1) as -> by (cbn in N1; lia).
      assert (WS : forall p, p <= 1 -> clear_symbol (c_nets ro_C) [98%N] NWs p p []).
      { intros p Hp. constructor; [split; cbn; lia|unfold slice; rewrite Nat.sub_diag; intros x []|]. intros m' Hm [_ H] K. cbn [Datatypes.length] in H. assert (p = 0) as -> by lia. assert (m' = 1) as -> by lia. specialize (K 98%N (or_introl eq_refl)). lia. }
      pose (x := (str "T"%string, 0, 1)). assert (RT : clos_refl_trans _ (forced (c_nets ro_C) [98%N]) (str "S"%string, 0, 0) x).
      { apply rt_trans with (str "S"%string, 1, 0); [apply rt_step; eapply fo_one; [reflexivity|constructor; cbn; lia|reflexivity]|].
        apply rt_trans with (str "S"%string, 6, 0); [apply rt_step; eapply (fo_many _ _ _ _ _ _ _ _ 1 6 0 1); [reflexivity|constructor; cbn; lia|cbn; lia|reflexivity|cbn; lia|exact N2]|].
        apply rt_trans with (str "S"%string, 7, 0); [apply rt_step; eapply fo_one; [reflexivity|constructor; cbn; lia|reflexivity]|].
        apply rt_trans with (str "S"%string, 8, 0); [apply rt_step; eapply fo_one; [reflexivity|apply WS; lia|reflexivity]|].
        apply rt_trans with (str "S"%string, 9, 1); [apply rt_step; eapply fo_one; [reflexivity|constructor; [split; cbn; lia|reflexivity]|reflexivity]|].
        apply rt_step. eapply fo_call; [reflexivity|reflexivity|discriminate]. }
      exists x. split; [exact RT|]. unfold x.
      apply t_trans with (str "T"%string, 1, 1); [apply t_step; eapply fo_one; [reflexivity|constructor; cbn; lia|reflexivity]|].
      apply t_trans with (str "T"%string, 2, 1); [apply t_step; eapply fo_one; [reflexivity|constructor; cbn; lia|reflexivity]|].
      apply t_trans with (str "T"%string, 3, 1); [apply t_step; eapply fo_one; [reflexivity|constructor; cbn; lia|reflexivity]|].
      apply t_step. eapply fo_call; [reflexivity|reflexivity|discriminate]. }
    split; [|exact G]. intros v bs R. apply (proj1 (C41_exactly_when _ _ _ _ _ _ _ _ _ _ ro_ok ro_plain CB)); [eauto|exact G].
Qed.
