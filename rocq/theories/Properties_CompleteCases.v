(** * Grammar files for which the hypotheses of Properties_Complete hold, and for which properties fail *)
From Coq Require Import String Ascii.
From Coq Require Import List NArith ZArith Arith Bool Lia ZifyBool ZifyN ZifyNat Permutation.
From Verif Require Import CharClass CharClassSpec Stream StreamSpec NFA NFASem NFAProofs NFABuild NFAParse DFA DFAProofs DFAMin RegexSpec GrammarSpec Marker TreeSpec ParseSpec Reduction ReductionProofs Writer WriterProofs X86 X86Step CodeGen CodeGenProofs CodeGenSimd CodeGenDfa CodeGenPlain CodeGenMisc CodeGenRoutine ATN ATNSem ATNBuild ATNOpt ATNLive Grammar GrammarProofs Properties_CodeGen Properties_Grammar ParserGen ParserRun ParserSim ParserTree ParserTop Properties_Parser Properties_ParserCases
  Lookahead LookSpec LookImport LookRead LookSim LookGrammar LookWf LookFit LookNul LookFuel Properties_Look Properties_Compile LookGrammarSpec ClearSpec Properties_Complete GrammarCheck CompileCheck Properties_CompileCases.
Import ListNotations.
Local Open Scope nat_scope.

(** C42: the text of C18_compiled_hyp has a clear parse, with the thirteen nodes. *)
Example C42_hyp : grammar_ok (fun _ => json_text) [] json_ds json_g json_C /\ no_preferences json_ds /\ call_env json_C json_ds json_env 1000 json_in json_pad 64 /\
  exists ch, clear_from (c_nets json_C) json_in (hd [] (map fst json_ds)) 0 0 22 ch /\ Node 1 0 22 ch = json_tree.
Proof.
  assert (NP : no_preferences json_ds). { intros name b H. cbn in H. repeat (destruct H as [H|H]; [injection H as <- <-; cbn; tauto|]). destruct H. }
  split; [exact json_ok|]. split; [exact NP|]. split; [exact json_call|]. destruct C18_compiled_hyp as (_ & _ & R & E).
  destruct (C42_accepted_clear_partial _ _ _ _ _ _ _ _ _ _ _ _ json_ok NP json_call R ltac:(discriminate)) as (n & id & M & ch & V & K & CF & S).
  assert (n = 22) as -> by lia. assert (id = 1%N) as -> by (vm_compute in K; injection K as <- _; reflexivity). exists ch. split; [exact CF|]. cbn [map List.concat] in S. rewrite app_nil_r, E in S.
  destruct (C42_clear_texts_partial _ _ _ _ _ _ _ _ _ _ _ _ _ _ json_ok NP json_call K CF) as [DT _]. symmetry. apply C15_trees; [repeat split; vm_compute; try reflexivity; discriminate| |exact S].
  eapply derives_ok; [|  |exact DT]; [reflexivity|]. intros name id e EB. destruct (rules_from_in _ _ _ _ _ EB) as [_ I2]. cbn in I2. change (2 ^ 15)%N with 32768%N. lia.
Qed.
(** ** S : 'a'* ; *)
Local Open Scope string_scope.
Definition st_text : list N := (str "S : 'a'* ;").
Definition st_title : option (list N) := None.
Definition st_ds : list (list N * gsel) :=
  [((str "S"), GFirst (GCons (GTerm (TLit (str "a"))) GStar (GNil)))].
Local Close Scope string_scope.
Definition st_g : gstate := Eval vm_compute in match read_grammar 100 (fun _ => st_text) [] with SOk (_, g) => g | _ => empty_grammar end.
Definition st_looks : list (list ldfa) := Eval vm_compute in g_looks st_g 100.
Definition st_C : compiled := g_compiled st_g 100 64 st_looks.
Lemma st_read : exists mid, read_grammar 100 (fun _ => st_text) [] = SOk (mid, st_g).
Proof. eexists. vm_compute. reflexivity. Qed.
Lemma st_checked : grammar_check 100 st_title st_text st_ds st_g st_looks = true.
Proof. vm_compute. reflexivity. Qed.
Lemma st_ok : grammar_ok (fun _ => st_text) [] st_ds st_g st_C.
Proof. destruct st_read as [mid E]. apply (grammar_check_ok 100 64 st_title st_text (fun _ => st_text) [] st_ds st_g mid st_looks); [vm_compute; reflexivity|exact E|vm_compute; reflexivity|exact st_checked]. Qed.
Lemma st_plain : no_preferences st_ds.
Proof. intros name b H. cbn in H. repeat (destruct H as [H|H]; [injection H as <- <-; cbn; tauto|]). destruct H. Qed.
Definition st_in : list N := str "a"%string.
Definition st_env : env := X86.mkE (mem (only 1000 (st_in ++ 0%N :: json_pad))) 5 64 json_old (fun k => 4096%N) (fun _ _ => 77%N).
Lemma st_call : call_env st_C st_ds st_env 1000 st_in json_pad 64.
Proof.
  destruct st_read as [mid E]. apply (check_env 100 64 st_title st_text st_ds st_g mid st_looks st_checked st_in json_pad json_old); [lia|reflexivity|cbn; lia| | |reflexivity|reflexivity].
  - intros c Hc. assert (F : forallb (fun c => (c <? 256)%N) (st_in ++ 0%N :: json_pad) = true) by (vm_compute; reflexivity). rewrite forallb_forall in F. specialize (F c Hc). lia.
  - intros c Hc. assert (F : forallb (fun c => negb (c =? 0)%N) st_in = true) by (vm_compute; reflexivity). rewrite forallb_forall in F. specialize (F c Hc). lia.
Qed.
(** C42 is false without the conditions: the text a is one of 'a'*, and the parser rejects it, because nothing behind the a says that the repetition has ended. *)
Theorem C42_end_of_text_refuted : exists fs file ds g C e a u pad B bs t,
  deliver (fs file) = str "S : 'a'* ;"%string /\ u = str "a"%string /\ grammar_ok fs file ds g C /\ no_preferences ds /\ call_env C ds e a u pad B /\
  derives (rules_of ds) patL u (hd [] (map fst ds)) 0 (length u) t /\ returned C (g_root g) e a 0 bs.
Proof.
  exists (fun _ => st_text), [], st_ds, st_g, st_C, st_env, 1000%N, st_in, json_pad, 64. eexists. exists (Node 1 0 1 []).
  split; [vm_compute; reflexivity|]. split; [reflexivity|]. split; [exact st_ok|]. split; [exact st_plain|]. split; [exact st_call|]. split.
  - apply (derives_rule _ _ _ (str "S"%string) 1 (snd (hd ([], GFirst GNil) st_ds)) [TLit (str "a"%string)] 0 1 []); [reflexivity| |].
    + cbn. exists [TLit (str "a"%string)], []. split; [reflexivity|]. split; [|reflexivity]. apply (gs_app _ _ [TLit (str "a"%string)] []); [reflexivity|constructor].
    + apply (matched_lit _ _ _ _ _ 0 0 1); [split; cbn; lia|intros c []|split; cbn; lia|reflexivity|constructor; cbn; lia].
  - destruct (grammar_env _ _ _ _ _ _ _ _ _ _ st_ok st_call) as [PE LI]. apply (returned_iff st_C (g_root st_g) st_env 1000 st_in json_pad 64 0 PE eq_refl LI). exists 100. vm_compute. split; reflexivity.
Qed.
Print Assumptions C42_end_of_text_refuted.
(** ** S : /a+/ 'b'? ; *)
Local Open Scope string_scope.
Definition pl_text : list N := (str "S : /a+/ 'b'? ;").
Definition pl_title : option (list N) := None.
Definition pl_ds : list (list N * gsel) :=
  [((str "S"), GFirst (GCons (GTerm (TPat (PSnoc (PNil) (SOne (UAtom (AChar 97)) (QPlus false))))) GOne (GCons (GTerm (TLit (str "b"))) GOpt (GNil))))].
Local Close Scope string_scope.
Definition pl_g : gstate := Eval vm_compute in match read_grammar 100 (fun _ => pl_text) [] with SOk (_, g) => g | _ => empty_grammar end.
Definition pl_looks : list (list ldfa) := Eval vm_compute in g_looks pl_g 100.
Definition pl_C : compiled := g_compiled pl_g 100 64 pl_looks.
Lemma pl_read : exists mid, read_grammar 100 (fun _ => pl_text) [] = SOk (mid, pl_g).
Proof. eexists. vm_compute. reflexivity. Qed.
Lemma pl_from : compiled_from (fun _ => pl_text) [] pl_ds pl_g pl_C.
Proof.
  destruct pl_read as [mid ER]. split; [unfold declares; apply (check_file_spec _ _ _ pl_title); vm_compute; reflexivity|]. split.
  - intros name ri e x Hd Hx. apply rules_from_in in Hd as [Hd _]. assert (F : forallb (fun d => forallb (fun x => match x with TRule s => existsb (eqname s) (map fst pl_ds) | _ => true end) (gsel_terms (snd d))) pl_ds = true) by (vm_compute; reflexivity).
    rewrite forallb_forall in F. specialize (F _ Hd). cbn [snd] in F. rewrite forallb_forall in F. specialize (F _ Hx). cbv beta iota in F. apply existsb_exists in F as (y & Hy & E). apply eqname_spec in E as ->. exact Hy.
  - split; [cbn; lia|]. split; [exists 100, mid; exact ER|]. exists (g_nets pl_g). split; [apply Permutation_refl|left; reflexivity].
Qed.
Lemma pl_simple : rules_plain pl_ds.
Proof.
  intros name b x Hd Hx. assert (F : forallb (fun d => forallb (fun x => match x with TRule _ => true | TLit s => negb (List.length s =? 0) && forallb (fun c => (1 <=? c)%N && (c <? 255)%N) s | TPat p => pat_fine p end) (gsel_terms (snd d))) pl_ds = true) by (vm_compute; reflexivity).
  rewrite forallb_forall in F. specialize (F _ Hd). cbn [snd] in F. rewrite forallb_forall in F. specialize (F _ Hx). destruct x as [s|s|p]; [exact I| |apply (proj2 (proj2 fine_spec) p F)].
  apply andb_true_iff in F as [A1 A2]. split; [intros ->; discriminate|]. rewrite forallb_forall in A2. intros c Hc. specialize (A2 c Hc). lia.
Qed.
Lemma pl_plain : no_preferences pl_ds.
Proof. intros name b H. cbn in H. repeat (destruct H as [H|H]; [injection H as <- <-; cbn; tauto|]). destruct H. Qed.
Definition pl_M : atn := Eval vm_compute in snd (snd (nth 0 (g_nets pl_g) ([], (0%N, [])))).
Definition pl_T : ldfa := Eval vm_compute in nth 4 (nth 0 pl_looks []) [].
(** C32 is false directly behind a pattern that ends in a +: the third way found is the pattern itself, and it shifts the numbers.  On b, which only the first way
    (to 'b') can begin with, the table answers: the second. *)
Theorem C32_after_plus_refuted : exists fs file ds g C D name id M i fuel T,
  deliver (fs file) = str "S : /a+/ 'b'? ;"%string /\ compiled_from fs file ds g C /\ rules_plain ds /\ no_preferences ds /\ composite (c_nets C) = Some D /\
  In (name, (id, M)) (c_nets C) /\ i < List.length M /\ 2 <= List.length (atrs (nth i M blank)) /\ decision D fuel fuel name i = SOk T /\
  only_alt (c_nets C) name i 0 (str "b"%string) /\ ldfa_go T 0 (str "b"%string) = LExit 1.
Proof.
  exists (fun _ => pl_text), [], pl_ds, pl_g, pl_C, (g_comp pl_g), (str "S"%string), 1%N, pl_M, 4, 100, pl_T.
  split; [vm_compute; reflexivity|]. split; [exact pl_from|]. split; [exact pl_simple|]. split; [exact pl_plain|]. split; [vm_compute; reflexivity|]. split; [left; reflexivity|].
  split; [cbn; lia|]. split; [cbn; lia|]. split; [vm_compute; reflexivity|]. split; [|reflexivity].
  assert (ND : forall i n, LookGrammarSpec.node_of (c_nets pl_C) [(str "S"%string, i)] = Some n -> nth_error pl_M i = Some n) by (intros i n H; exact H).
  assert (NI : forall s j n, LookGrammarSpec.node_of (c_nets pl_C) [(s, j)] = Some n -> nt n <> NInv (str "S"%string)).
  { intros s j n H E. unfold LookGrammarSpec.node_of in H. destruct (lookup (c_nets pl_C) s) as [[id M]|] eqn:EL; [|discriminate]. unfold lookup in EL. cbn [c_nets pl_C g_compiled g_nets pl_g find fst] in EL. destruct (eqname _ s); [|discriminate]. injection EL as <- <-.
    do 9 (destruct j as [|j]; [injection H as <-; discriminate|]). destruct j; discriminate. }
  assert (E8 : forall w y, texts (c_nets pl_C) (Before [(str "S"%string, 8)]) w y -> w = []).
  { intros w y H. inversion H as [|x v y0 w0 z M1 T1]; subst; [reflexivity|]. inversion M1 as [p n v0 N1 S1|p n r N1 S1| | |]; subst; apply ND in N1; injection N1 as <-; [|discriminate]. cbn in S1. subst v.
    inversion T1 as [|x v y1 w1 z1 M2 T2]; subst; [reflexivity|]. inversion M2 as [| |r i up n d t N2 I2|x0 y2 up n N2|r i n s j n' N2 A2 N3 A3]; subst.
    - apply ND in N2. injection N2 as <-. destruct I2.
    - destruct (NI _ _ _ N3 A3). }
  assert (E7 : forall w y, texts (c_nets pl_C) (Before [(str "S"%string, 7)]) w y -> w = []).
  { intros w y H. inversion H as [|x v y0 w0 z M1 T1]; subst; [reflexivity|]. inversion M1 as [p n v0 N1 S1|p n r N1 S1| | |]; subst; apply ND in N1; injection N1 as <-; [|discriminate]. cbn in S1. subst v.
    inversion T1 as [|x v y1 w1 z1 M2 T2]; subst; [reflexivity|]. inversion M2 as [| |r i up n d t N2 I2|x0 y2 up n N2|r i n s j n' N2 A2 N3 A3]; subst.
    - apply ND in N2. injection N2 as <-. destruct I2 as [I2|[]]. injection I2 as <- <-. exact (E8 _ _ T2).
    - destruct (NI _ _ _ N3 A3). }
  intros k. split.
  - intros (n & d & t & H1 & H2 & v & y & H3). apply ND in H1. injection H1 as <-. destruct k as [|[|k]]; [reflexivity| |destruct k; discriminate]. injection H2 as <- <-. apply E7 in H3. discriminate.
  - intros ->. exists (nth 4 pl_M blank), 5, 0. split; [reflexivity|]. split; [reflexivity|]. exists [], (After [(str "S"%string, 6)]).
    apply (tx_step _ _ [] (After [(str "S"%string, 5)]) (str "b"%string)); [eapply tm_text; [reflexivity|intros c []]|].
    apply (tx_step _ _ [] (Before [(str "S"%string, 6)]) (str "b"%string)); [eapply tm_next; [reflexivity|left; reflexivity]|].
    apply (tx_step _ _ (str "b"%string) (After [(str "S"%string, 6)]) []); [eapply tm_text; [reflexivity|reflexivity]|constructor].
Qed.
Print Assumptions C32_after_plus_refuted.
(** ** S : /a+/ 'b'? 'c' ; *)
Local Open Scope string_scope.
Definition pc_text : list N := (str "S : /a+/ 'b'? 'c' ;").
Definition pc_title : option (list N) := None.
Definition pc_ds : list (list N * gsel) :=
  [((str "S"), GFirst (GCons (GTerm (TPat (PSnoc (PNil) (SOne (UAtom (AChar 97)) (QPlus false))))) GOne (GCons (GTerm (TLit (str "b"))) GOpt (GCons (GTerm (TLit (str "c"))) GOne (GNil)))))].
Local Close Scope string_scope.
Definition pc_g : gstate := Eval vm_compute in match read_grammar 100 (fun _ => pc_text) [] with SOk (_, g) => g | _ => empty_grammar end.
Definition pc_looks : list (list ldfa) := Eval vm_compute in g_looks pc_g 100.
Definition pc_C : compiled := g_compiled pc_g 100 64 pc_looks.
Lemma pc_read : exists mid, read_grammar 100 (fun _ => pc_text) [] = SOk (mid, pc_g).
Proof. eexists. vm_compute. reflexivity. Qed.
Lemma pc_from : compiled_from (fun _ => pc_text) [] pc_ds pc_g pc_C.
Proof.
  destruct pc_read as [mid ER]. split; [unfold declares; apply (check_file_spec _ _ _ pc_title); vm_compute; reflexivity|]. split.
  - intros name ri e x Hd Hx. apply rules_from_in in Hd as [Hd _]. assert (F : forallb (fun d => forallb (fun x => match x with TRule s => existsb (eqname s) (map fst pc_ds) | _ => true end) (gsel_terms (snd d))) pc_ds = true) by (vm_compute; reflexivity).
    rewrite forallb_forall in F. specialize (F _ Hd). cbn [snd] in F. rewrite forallb_forall in F. specialize (F _ Hx). cbv beta iota in F. apply existsb_exists in F as (y & Hy & E). apply eqname_spec in E as ->. exact Hy.
  - split; [cbn; lia|]. split; [exists 100, mid; exact ER|]. exists (g_nets pc_g). split; [apply Permutation_refl|left; reflexivity].
Qed.
Lemma pc_simple : rules_plain pc_ds.
Proof.
  intros name b x Hd Hx. assert (F : forallb (fun d => forallb (fun x => match x with TRule _ => true | TLit s => negb (List.length s =? 0) && forallb (fun c => (1 <=? c)%N && (c <? 255)%N) s | TPat p => pat_fine p end) (gsel_terms (snd d))) pc_ds = true) by (vm_compute; reflexivity).
  rewrite forallb_forall in F. specialize (F _ Hd). cbn [snd] in F. rewrite forallb_forall in F. specialize (F _ Hx). destruct x as [s|s|p]; [exact I| |apply (proj2 (proj2 fine_spec) p F)].
  apply andb_true_iff in F as [A1 A2]. split; [intros ->; discriminate|]. rewrite forallb_forall in A2. intros c Hc. specialize (A2 c Hc). lia.
Qed.
Lemma pc_plain : no_preferences pc_ds.
Proof. intros name b H. cbn in H. repeat (destruct H as [H|H]; [injection H as <- <-; cbn; tauto|]). destruct H. Qed.
Definition pc_M : atn := Eval vm_compute in snd (snd (nth 0 (g_nets pc_g) ([], (0%N, [])))).
Definition pc_T : ldfa := Eval vm_compute in nth 4 (nth 0 pc_looks []) [].
(** And when both ways go on, the table has an answer that is not the number of a way: the code generator takes the label of
    that number from an array with one label for each way (CodeGenEM64T.cpp:398-405). *)
Theorem C32_no_such_way_refuted : exists fs file ds g C D name id M i fuel T k,
  deliver (fs file) = str "S : /a+/ 'b'? 'c' ;"%string /\ compiled_from fs file ds g C /\ rules_plain ds /\ no_preferences ds /\ composite (c_nets C) = Some D /\
  In (name, (id, M)) (c_nets C) /\ i < List.length M /\ List.length (atrs (nth i M blank)) = 2 /\ decision D fuel fuel name i = SOk T /\
  ldfa_go T 0 (str "c"%string) = LExit k /\ 2 <= k.
Proof.
  exists (fun _ => pc_text), [], pc_ds, pc_g, pc_C, (g_comp pc_g), (str "S"%string), 1%N, pc_M, 4, 100, pc_T, 2.
  split; [vm_compute; reflexivity|]. split; [exact pc_from|]. split; [exact pc_simple|]. split; [exact pc_plain|]. split; [vm_compute; reflexivity|]. split; [left; reflexivity|].
  split; [cbn; lia|]. split; [reflexivity|]. split; [vm_compute; reflexivity|]. split; [reflexivity|lia].
Qed.
Print Assumptions C32_no_such_way_refuted.
(** ** grammar CALC; *)
Local Open Scope string_scope.
Definition calc_text : list N := (str "grammar CALC;

INPUT : EXPR '=' ;
EXPR : TERM ('+' EXPR)? ;
TERM : FACT ('*' TERM)? ;
FACT : /[0-9]+/ | '(' EXPR ')' ;").
Definition calc_title : option (list N) := Some (str "CALC").
Definition calc_ds : list (list N * gsel) :=
  [((str "INPUT"), GFirst (GCons (GTerm (TRule (str "EXPR"))) GOne (GCons (GTerm (TLit (str "="))) GOne (GNil))));
   ((str "EXPR"), GFirst (GCons (GTerm (TRule (str "TERM"))) GOne (GCons (GGroup (GFirst (GCons (GTerm (TLit (str "+"))) GOne (GCons (GTerm (TRule (str "EXPR"))) GOne (GNil))))) GOpt (GNil))));
   ((str "TERM"), GFirst (GCons (GTerm (TRule (str "FACT"))) GOne (GCons (GGroup (GFirst (GCons (GTerm (TLit (str "*"))) GOne (GCons (GTerm (TRule (str "TERM"))) GOne (GNil))))) GOpt (GNil))));
   ((str "FACT"), GAlt (GFirst (GCons (GTerm (TPat (PSnoc (PNil) (SOne (UAtom (ASet [Span 48 57])) (QPlus false))))) GOne (GNil))) false (GCons (GTerm (TLit (str "("))) GOne (GCons (GTerm (TRule (str "EXPR"))) GOne (GCons (GTerm (TLit (str ")"))) GOne (GNil)))))].
Local Close Scope string_scope.
Definition calc_g : gstate := Eval vm_compute in match read_grammar 100 (fun _ => calc_text) [] with SOk (_, g) => g | _ => empty_grammar end.
Definition calc_looks : list (list ldfa) := Eval vm_compute in g_looks calc_g 100.
Definition calc_C : compiled := g_compiled calc_g 100 64 calc_looks.
Lemma calc_read : exists mid, read_grammar 100 (fun _ => calc_text) [] = SOk (mid, calc_g).
Proof. eexists. vm_compute. reflexivity. Qed.
Lemma calc_from : compiled_from (fun _ => calc_text) [] calc_ds calc_g calc_C.
Proof.
  destruct calc_read as [mid ER]. split; [unfold declares; apply (check_file_spec _ _ _ calc_title); vm_compute; reflexivity|]. split.
  - intros name ri e x Hd Hx. apply rules_from_in in Hd as [Hd _]. assert (F : forallb (fun d => forallb (fun x => match x with TRule s => existsb (eqname s) (map fst calc_ds) | _ => true end) (gsel_terms (snd d))) calc_ds = true) by (vm_compute; reflexivity).
    rewrite forallb_forall in F. specialize (F _ Hd). cbn [snd] in F. rewrite forallb_forall in F. specialize (F _ Hx). cbv beta iota in F. apply existsb_exists in F as (y & Hy & E). apply eqname_spec in E as ->. exact Hy.
  - split; [cbn; lia|]. split; [exists 100, mid; exact ER|]. exists (g_nets calc_g). split; [apply Permutation_refl|left; reflexivity].
Qed.
Lemma calc_simple : rules_plain calc_ds.
Proof.
  intros name b x Hd Hx. assert (F : forallb (fun d => forallb (fun x => match x with TRule _ => true | TLit s => negb (List.length s =? 0) && forallb (fun c => (1 <=? c)%N && (c <? 255)%N) s | TPat p => pat_fine p end) (gsel_terms (snd d))) calc_ds = true) by (vm_compute; reflexivity).
  rewrite forallb_forall in F. specialize (F _ Hd). cbn [snd] in F. rewrite forallb_forall in F. specialize (F _ Hx). destruct x as [s|s|p]; [exact I| |apply (proj2 (proj2 fine_spec) p F)].
  apply andb_true_iff in F as [A1 A2]. split; [intros ->; discriminate|]. rewrite forallb_forall in A2. intros c Hc. specialize (A2 c Hc). lia.
Qed.
Lemma calc_plain : no_preferences calc_ds.
Proof. intros name b H. cbn in H. repeat (destruct H as [H|H]; [injection H as <- <-; cbn; tauto|]). destruct H. Qed.
(** ** S : ('a'* )* ; *)
Local Open Scope string_scope.
Definition ss_text : list N := (str "S : ('a'*)* ;").
Definition ss_title : option (list N) := None.
Definition ss_ds : list (list N * gsel) :=
  [((str "S"), GFirst (GCons (GGroup (GFirst (GCons (GTerm (TLit (str "a"))) GStar (GNil)))) GStar (GNil)))].
Local Close Scope string_scope.
Definition ss_g : gstate := Eval vm_compute in match read_grammar 100 (fun _ => ss_text) [] with SOk (_, g) => g | _ => empty_grammar end.
Definition ss_looks : list (list ldfa) := Eval vm_compute in g_looks ss_g 100.
Definition ss_C : compiled := g_compiled ss_g 100 64 ss_looks.
Lemma ss_read : exists mid, read_grammar 100 (fun _ => ss_text) [] = SOk (mid, ss_g).
Proof. eexists. vm_compute. reflexivity. Qed.
Lemma ss_from : compiled_from (fun _ => ss_text) [] ss_ds ss_g ss_C.
Proof.
  destruct ss_read as [mid ER]. split; [unfold declares; apply (check_file_spec _ _ _ ss_title); vm_compute; reflexivity|]. split.
  - intros name ri e x Hd Hx. apply rules_from_in in Hd as [Hd _]. assert (F : forallb (fun d => forallb (fun x => match x with TRule s => existsb (eqname s) (map fst ss_ds) | _ => true end) (gsel_terms (snd d))) ss_ds = true) by (vm_compute; reflexivity).
    rewrite forallb_forall in F. specialize (F _ Hd). cbn [snd] in F. rewrite forallb_forall in F. specialize (F _ Hx). cbv beta iota in F. apply existsb_exists in F as (y & Hy & E). apply eqname_spec in E as ->. exact Hy.
  - split; [cbn; lia|]. split; [exists 100, mid; exact ER|]. exists (g_nets ss_g). split; [apply Permutation_refl|left; reflexivity].
Qed.
Lemma ss_simple : rules_plain ss_ds.
Proof.
  intros name b x Hd Hx. assert (F : forallb (fun d => forallb (fun x => match x with TRule _ => true | TLit s => negb (List.length s =? 0) && forallb (fun c => (1 <=? c)%N && (c <? 255)%N) s | TPat p => pat_fine p end) (gsel_terms (snd d))) ss_ds = true) by (vm_compute; reflexivity).
  rewrite forallb_forall in F. specialize (F _ Hd). cbn [snd] in F. rewrite forallb_forall in F. specialize (F _ Hx). destruct x as [s|s|p]; [exact I| |apply (proj2 (proj2 fine_spec) p F)].
  apply andb_true_iff in F as [A1 A2]. split; [intros ->; discriminate|]. rewrite forallb_forall in A2. intros c Hc. specialize (A2 c Hc). lia.
Qed.
Lemma ss_plain : no_preferences ss_ds.
Proof. intros name b H. cbn in H. repeat (destruct H as [H|H]; [injection H as <- <-; cbn; tauto|]). destruct H. Qed.
(** ** Grammars without tables *)
Fixpoint ins_all {A} (x : A) (l : list A) : list (list A) := match l with [] => [[x]] | y :: l' => (x :: l) :: map (cons y) (ins_all x l') end.
Fixpoint perms {A} (l : list A) : list (list A) := match l with [] => [[]] | x :: l' => flat_map (ins_all x) (perms l') end.
Lemma ins_all_in {A} (x : A) b : forall a, In (a ++ x :: b) (ins_all x (a ++ b)).
Proof. induction a as [|y a IH]; [destruct b; left; reflexivity|]. right. apply in_map_iff. exists (a ++ x :: b). split; [reflexivity|exact IH]. Qed.
Lemma perms_in {A} (l : list A) : forall L, Permutation L l -> In L (perms l).
Proof.
  induction l as [|x l IH]; intros L H; [apply Permutation_sym, Permutation_nil in H as ->; left; reflexivity|]. destruct (Permutation_vs_cons_inv H) as (a & b & ->). cbn [perms]. apply in_flat_map. exists (a ++ b). split; [|apply ins_all_in].
  apply IH. apply Permutation_cons_inv with x. eapply Permutation_trans; [|exact H]. apply Permutation_middle.
Qed.
Definition opt1 (p : list N * (N * atn)) : list N * (N * atn) := (fst p, (fst (snd p), match drop_passthrough (snd (snd p)) with Some M => M | None => [] end)).
Lemma loaded_forms g C : loaded g C -> exists L, In L (perms (g_nets g)) /\ (c_nets C = L \/ c_nets C = map opt1 L).
Proof.
  intros (L & P & H). exists L. split; [apply perms_in; exact P|]. destruct H as [H|H]; [left; exact H|right]. clear P. induction H as [|x y l l' (H1 & H2 & H3) _ IH]; [reflexivity|]. cbn [map]. rewrite IH. f_equal.
  destruct x as [a [b c]], y as [a' [b' c']]. unfold opt1. cbn in *. subst. rewrite H3. reflexivity.
Qed.
(** The tables of all decisions of the networks. *)
Definition no_table (nets : list (list N * (N * atn))) (name : list N) (i : nat) : Prop :=
  exists D id M, composite nets = Some D /\ In (name, (id, M)) nets /\ i < List.length M /\ 2 <= List.length (atrs (nth i M blank)) /\ forall fuel cf T, decision D fuel cf name i <> SOk T.
Definition throws (nets : list (list N * (N * atn))) (name : list N) (i : nat) : bool :=
  match composite nets, find (fun p => eqname (fst p) name) nets with
  | Some D, Some (_, (_, M)) => (i <? List.length M) && (2 <=? List.length (atrs (nth i M blank))) && match decision D 100 100 name i with SThrow => true | _ => false end
  | _, _ => false
  end.
Lemma throws_spec nets name i : throws nets name i = true -> no_table nets name i.
Proof.
  unfold throws. destruct (composite nets) as [D|] eqn:ED; [|discriminate]. destruct (find _ nets) as [[x [id M]]|] eqn:EF; [|discriminate]. intros H. apply andb_true_iff in H as [H H3]. apply andb_true_iff in H as [H1 H2].
  apply find_some in EF as [F1 F2]. cbn in F2. apply eqname_spec in F2 as ->. exists D, id, M. split; [exact ED|]. split; [exact F1|]. split; [lia|]. split; [lia|]. apply (decision_throws D 100 100). destruct (decision D 100 100 name i); [discriminate|reflexivity|discriminate].
Qed.
(** C43 is false: grammars/calc.cgr of the repository has no left recursion, and nothing in it is ambiguous; but a decision of it has no table, whatever the order of the
    rules and whether or not the networks are optimised: looking past the end of EXPR leads to the end of EXPR again, and the construction gives up. *)
Theorem C43_calc_refuted : exists fs file ds g, deliver (fs file) = calc_text /\ declares fs file ds /\ Properties_Grammar.reads fs file g /\
  forall C, loaded g C -> exists i, no_table (c_nets C) (str "EXPR"%string) i.
Proof.
  exists (fun _ => calc_text), [], calc_ds, calc_g. split; [vm_compute; reflexivity|]. destruct calc_from as (H1 & _ & _ & H4 & _). split; [exact H1|]. split; [exact H4|]. intros C HC. destruct (loaded_forms _ _ HC) as (L & HL & H).
  assert (F : forallb (fun L => existsb (throws L (str "EXPR"%string)) (seq 0 10) && existsb (throws (map opt1 L) (str "EXPR"%string)) (seq 0 10)) (perms (g_nets calc_g)) = true) by (vm_compute; reflexivity).
  rewrite forallb_forall in F. specialize (F L HL). apply andb_true_iff in F as [F1 F2]. apply existsb_exists in F1 as (i1 & _ & F1), F2 as (i2 & _ & F2).
  destruct H as [-> | ->]; [exists i1|exists i2]; apply throws_spec; assumption.
Qed.
Print Assumptions C43_calc_refuted.
Definition ss_D1 : list (list N * cmach) := Eval vm_compute in g_comp ss_g.
Definition ss_Q1 : cmach := Eval vm_compute in snd (nth 0 ss_D1 ([], [])).
Definition ss_M2 : atn := Eval vm_compute in snd (snd (nth 0 (map opt1 (g_nets ss_g)) ([], (0%N, [])))).
Definition ss_D2 : list (list N * cmach) := Eval vm_compute in match composite (map opt1 (g_nets ss_g)) with Some D => D | None => [] end.
Definition ss_Q2 : cmach := Eval vm_compute in snd (nth 0 ss_D2 ([], [])).
(** And when what is repeated can be empty, the construction does not even end. *)
Theorem C43_empty_repetition_refuted : exists fs file ds g, deliver (fs file) = str "S : ('a'*)* ;"%string /\ declares fs file ds /\ Properties_Grammar.reads fs file g /\
  forall C, loaded g C -> exists i, no_table (c_nets C) (str "S"%string) i.
Proof.
  exists (fun _ => ss_text), [], ss_ds, ss_g. split; [vm_compute; reflexivity|]. destruct ss_from as (H1 & _ & _ & H4 & _). split; [exact H1|]. split; [exact H4|]. intros C HC. destruct (loaded_forms _ _ HC) as (L & HL & H).
  cbn in HL. destruct HL as [<-|[]]. assert (ROOT : forall nets id M D Q i j k d t ts (X : nat -> Prop), nets = [(str "S"%string, (id, M))] -> composite nets = Some D -> mach D (str "S"%string) = Some Q -> convert_index Q i 0 = Some j -> i < List.length M -> 2 <= List.length (atrs (nth i M blank)) ->
    ctrs (nth j Q cblank) = t :: ts -> cdest t = d -> j < List.length Q -> nth_error Q d = Some k -> csub k = [] -> (forall i, X i -> exists j, eps_edge Q i j /\ X j) -> X d -> no_table nets (str "S"%string) i).
  { intros nets id M D Q i j k d t ts X -> HD HM HI Hi H2 HT HC' HJ HK HS HX Hd. exists D, id, M. split; [exact HD|]. split; [left; reflexivity|]. split; [exact Hi|]. split; [exact H2|]. intros fuel cf T E. unfold decision in E. rewrite HM, HI in E. unfold ldfa_build, ldfa_plain in E.
    destruct (root_closure D cf [(str "S"%string, j)]) as [r| |] eqn:R; [|discriminate|discriminate]. unfold root_closure, node_at in R. rewrite HM, (nth_error_nth' Q cblank HJ) in R. rewrite HT in R. cbn [root_loop] in R.
    destruct (cl_incl D cf [] [(str "S"%string, cdest t)] 1 [] [(str "S"%string, j, ctag t)]) as [r1| |] eqn:R1; [|discriminate|discriminate]. destruct cf as [|cf]; [discriminate|]. cbn [cl_incl] in R1. unfold node_at in R1. rewrite HM, HC', HK, HS in R1.
    exact (circle_diverges D (str "S"%string) Q X HM HX _ _ _ _ _ _ _ _ Hd R1). }
  assert (EE : forall (Q : cmach) i j, match nth_error Q i, nth_error Q j with Some n, Some m => existsb (fun t => is_epsilon (clab t) && (cdest t =? j)) (ctrs n) && match csub m with [] => true | _ => false end | _, _ => false end = true -> eps_edge Q i j).
  { intros Q i j E. destruct (nth_error Q i) as [n|] eqn:E1; [|discriminate]. destruct (nth_error Q j) as [m|] eqn:E2; [|discriminate]. apply andb_true_iff in E as [A1 A2]. apply existsb_exists in A1 as (t & T1 & T2). apply andb_true_iff in T2 as [T2 T3].
    exists n, t, m. split; [exact E1|]. split; [exact T1|]. split; [exact T2|]. split; [lia|]. split; [exact E2|]. destruct (csub m); [reflexivity|discriminate]. }
  destruct H as [-> | ->].
  - exists 2. apply (ROOT _ _ _ ss_D1 ss_Q1 2 2 (nth 3 ss_Q1 cblank) 3 (nth 0 (ctrs (nth 2 ss_Q1 cblank)) (mkCT [] 0 0)) (tl (ctrs (nth 2 ss_Q1 cblank))) (fun i => In i [3; 4; 8; 9; 10]) eq_refl);
      [vm_compute; reflexivity|reflexivity|reflexivity|cbn; lia|cbn; lia|reflexivity|reflexivity|cbn; lia|reflexivity|reflexivity| |left; reflexivity].
    intros i [<-|[<-|[<-|[<-|[<-|[]]]]]]; [exists 4|exists 8|exists 9|exists 10|exists 3]; (split; [apply EE; reflexivity|cbn; tauto]).
  - exists 1. apply (ROOT _ 1%N ss_M2 ss_D2 ss_Q2 1 1 (nth 2 ss_Q2 cblank) 2 (nth 0 (ctrs (nth 1 ss_Q2 cblank)) (mkCT [] 0 0)) (tl (ctrs (nth 1 ss_Q2 cblank))) (fun i => In i [2; 5; 6]));
      [vm_compute; reflexivity|vm_compute; reflexivity|reflexivity|reflexivity|cbn; lia|cbn; lia|reflexivity|reflexivity|cbn; lia|reflexivity|reflexivity| |left; reflexivity].
    intros i [<-|[<-|[<-|[]]]]; [exists 5|exists 6|exists 2]; (split; [apply EE; reflexivity|cbn; tauto]).
Qed.
Print Assumptions C43_empty_repetition_refuted.
