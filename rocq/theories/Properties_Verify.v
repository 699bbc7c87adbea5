(** * C50: what Grammar::verify (the tool's verify-grammar) decides *)
From Coq Require Import String Ascii.
From Coq Require Import List NArith ZArith Arith Bool Lia ZifyBool ZifyN ZifyNat Permutation.
From Verif Require Import CharClass Stream NFA NFABuild DFA DFAMin DFATerm DFAPattern RegexSpec GrammarSpec Marker TreeSpec ParseSpec EmptySpec CodeGen CodeGenMisc ATN ATNSem ATNBuild Grammar GrammarProofs Properties_Grammar ParserGen ATNLive ParserTree ParserTop Properties_Parser
  Lookahead LookSpec LookGrammarSpec LookImport LookRead LookFuel LookEnds LookEmpty Properties_Look Properties_Compile GrammarCheck CompileCheck Properties_CompileCases EmptyCheck Properties_Ends Properties_CompleteCases Properties_Decide Verify.
Import ListNotations.
Local Open Scope nat_scope.

(** The networks of the program belong to the grammar the file declares; as [compiled_from], but rules may refer to rules
    that are not declared. *)
Definition read_from (fs : list N -> list N) (file : list N) (ds : list (list N * gsel)) (g : gstate) (C : compiled) : Prop :=
  declares fs file ds /\ (1 <= N.of_nat (List.length ds) < 2 ^ 15)%N /\ Properties_Grammar.reads fs file g /\ loaded g C.
(** Node i of the rule asks for a decision: there are two ways on or more. *)
Definition decision_point (nets : list (list N * (N * atn))) (name : list N) (i : nat) : Prop :=
  exists id M, In (name, (id, M)) nets /\ i < List.length M /\ 2 <= List.length (atrs (nth i M blank)).
(** Every decision has a table. *)
Definition all_tables (nets : list (list N * (N * atn))) : Prop :=
  exists D, composite nets = Some D /\ forall name i, decision_point nets name i -> exists f cf T, decision D f cf name i = SOk T.

Lemma from_read fs file ds g C : compiled_from fs file ds g C <-> read_from fs file ds g C /\ refs_declared ds.
Proof. unfold compiled_from, read_from. tauto. Qed.
Lemma read_nets fs file ds g C : read_from fs file ds g C -> NoDup (map fst (c_nets C)) /\ nets_of (rules_of ds) C.
Proof.
  intros (HD & HL & HR & HC). change (2 ^ 15)%N with 32768%N in HL. destruct (declared_nets fs file ds g HD ltac:(lia) HR) as (ND & LK & RT).
  split; [exact (loaded_names g C HC ND)|exact (loaded_nets (rules_of ds) g C ND HC LK)].
Qed.
(** Every term of a rule stands in the network of the rule. *)
Lemma quant_in {A} q (L : list A -> Prop) w : L w -> gquantL A q L w.
Proof. intros H. destruct q; cbn; [exact H| |exists w, []|auto]. - rewrite <- (app_nil_r w). constructor; [exact H|constructor]. - split; [symmetry; apply app_nil_r|]. split; [exact H|constructor]. Qed.
Lemma some_word :
  (forall a, exists w, gatomL nty (term_word true) a w) /\ (forall s, exists w, gseqL nty (term_word true) s w) /\ (forall e, exists w, gselL nty (term_word true) e w).
Proof.
  apply g_ind; cbn [gatomL gseqL gselL].
  - eauto.
  - auto.
  - eauto.
  - intros a [u Hu] q s [v Hv]. exists (u ++ v), u, v. split; [reflexivity|]. split; [apply quant_in; exact Hu|exact Hv].
  - auto.
  - intros e [w Hw] up s _. eauto.
Qed.
Lemma term_occurs x :
  (forall a, In x (gatom_terms a) -> exists w, gatomL nty (term_word true) a w /\ In (term_nty x) w) /\
  (forall s, In x (gseq_terms s) -> exists w, gseqL nty (term_word true) s w /\ In (term_nty x) w) /\
  (forall e, In x (gsel_terms e) -> exists w, gselL nty (term_word true) e w /\ In (term_nty x) w).
Proof.
  apply g_ind; cbn [gatom_terms gseq_terms gsel_terms gatomL gseqL gselL].
  - intros y [->|[]]. exists (term_word true x). split; [reflexivity|]. destruct x; cbn; auto.
  - auto.
  - intros [].
  - intros a IHa q s IHs H. apply in_app_or in H as [H|H].
    + destruct (IHa H) as (u & Hu & I). destruct (proj1 (proj2 some_word) s) as [v Hv]. exists (u ++ v). split; [exists u, v; split; [reflexivity|split; [apply quant_in; exact Hu|exact Hv]]|apply in_or_app; auto].
    + destruct (IHs H) as (v & Hv & I). destruct (proj1 some_word a) as [u Hu]. exists (u ++ v). split; [exists u, v; split; [reflexivity|split; [apply quant_in; exact Hu|exact Hv]]|apply in_or_app; auto].
  - auto.
  - intros e IHe up s IHs H. apply in_app_or in H as [H|H]; [destruct (IHe H) as (w & A & B)|destruct (IHs H) as (w & A & B)]; exists w; auto.
Qed.
Lemma path_nodes M p w q : apath M p w q -> (forall i d, In d (dests M i) -> d < List.length M) -> forall x, In x w -> exists n, In n M /\ nt n = x.
Proof.
  intros H HC. induction H as [p|p q w r Hq _ IH]; intros x Hx; [destruct Hx|]. apply in_app_or in Hx as [Hx|Hx]; [|auto].
  exists (nth q M blank). split; [apply nth_In; exact (HC _ _ Hq)|]. unfold rd, tonode, ATNSem.reads in Hx. destruct (nt (nth q M blank)); cbn in Hx; [destruct Hx| | | |]; (destruct Hx as [Hx|[]]; exact Hx).
Qed.
Lemma term_in_net e M x : net_for e M -> In x (gsel_terms e) -> exists n, In n M /\ nt n = term_nty x.
Proof.
  intros HN HX. destruct (proj2 (proj2 (term_occurs x)) e HX) as (w & A & B). apply (net_for_language e M HN) in A. apply (path_nodes _ _ _ _ A); [|exact B].
  intros i d Hd. exact (wn_closed _ (net_for_wf _ _ HN) i d Hd).
Qed.
Lemma refs_iff fs file ds g C : read_from fs file ds g C -> forallb (fun p => invocations_ok (c_nets C) (snd (snd p))) (c_nets C) = true <-> refs_declared ds.
Proof.
  intros HF. destruct (read_nets _ _ _ _ _ HF) as (ND & [N1 N2]). rewrite forallb_forall.
  assert (NM : forall x, In x (map fst ds) <-> lookup (c_nets C) x <> None).
  { intros x. split.
    - intros H E. destruct (first_nth ds x H) as (j & b & A1 & A2). apply net_index_none in E. apply N1 in E. unfold rules_of in E. rewrite (rules_from_some ds 1 j x b A1 A2) in E. discriminate.
    - intros H. destruct (lookup (c_nets C) x) as [[id M]|] eqn:E; [|congruence]. apply lookup_in in E. destruct (N2 _ _ _ E) as (e & R & _). apply rules_from_in in R as [R _]. apply (in_map fst) in R. exact R. }
  split.
  - intros H name id e x R HX. destruct (net_index (c_nets C) name) as [m|] eqn:E; [|apply N1 in E; congruence].
    destruct (net_index_nth _ _ _ E) as ([id' M] & E1 & _). apply nth_error_In in E1. destruct (N2 _ _ _ E1) as (e' & R' & NF). assert (e' = e) as -> by congruence.
    destruct (term_in_net e M (TRule x) NF HX) as (n & I1 & I2). specialize (H _ E1). cbn in H. unfold invocations_ok in H. rewrite forallb_forall in H. specialize (H n I1). rewrite I2 in H. cbn in H.
    apply NM. destruct (lookup (c_nets C) x); congruence.
  - intros H [name [id M]] I1. cbn [snd]. unfold invocations_ok. rewrite forallb_forall. intros n Hn. destruct (nt n) as [|x|s|A|] eqn:E; try reflexivity. destruct (N2 _ _ _ I1) as (e & R & NF).
    assert (K : kinds (fun k => forall y, k = NInv y -> In y (map fst ds)) M).
    { apply (net_for_kinds _ e M NF); [discriminate|discriminate|]. intros [y|y|p] Hy z Ez; cbn in Ez; try discriminate. injection Ez as ->. exact (H _ _ _ _ R Hy). }
    specialize (K n Hn x E). apply NM in K. destruct (lookup (c_nets C) x); [reflexivity|congruence].
Qed.

(** ** The answers *)
(** C50, yes: every reference names a declared rule, and at every decision the construction of the table succeeds (the same table with any
    more steps, and not an empty one). *)
Theorem C50_yes : forall fs file ds g C k, read_from fs file ds g C -> verify k (c_nets C) = SOk true ->
  refs_declared ds /\ exists D, composite (c_nets C) = Some D /\
    forall name i, decision_point (c_nets C) name i -> exists T, T <> [] /\ forall f cf, k <= f -> k <= cf -> decision D f cf name i = SOk T.
Proof.
  intros fs file ds g C k HF H. unfold verify in H. destruct (forallb _ _) eqn:ER; [|discriminate]. split; [apply (refs_iff _ _ _ _ _ HF); exact ER|].
  destruct (composite (c_nets C)) as [D|] eqn:ED; [|discriminate]. exists D. split; [reflexivity|]. intros name i (id & M & A & B). destruct (proj1 (check_nets_true D k (c_nets C)) H name id M i A B) as [T E].
  exists T. split; [exact (decision_ne D _ _ _ _ _ E)|]. intros f cf Hf Hcf. rewrite <- E. apply (decision_more D k f k cf name i Hf Hcf). rewrite E. discriminate.
Qed.
Print Assumptions C50_yes.
(** C50, no: a reference names no declared rule, or at some decision the construction of the table throws, whatever the number of steps allowed from k on. *)
Theorem C50_no : forall fs file ds g C k, read_from fs file ds g C -> verify k (c_nets C) = SOk false ->
  ~ refs_declared ds \/ exists D name i, composite (c_nets C) = Some D /\ decision_point (c_nets C) name i /\ forall f cf, k <= f -> k <= cf -> decision D f cf name i = SThrow.
Proof.
  intros fs file ds g C k HF H. unfold verify in H. destruct (forallb _ _) eqn:ER.
  - right. destruct (composite (c_nets C)) as [D|] eqn:ED; [|discriminate]. destruct (check_nets_false D k _ H) as (name & id & M & i & A & B & E). exists D, name, i. split; [reflexivity|]. split; [exists id, M; auto|].
    intros f cf Hf Hcf. rewrite <- E. apply (decision_more D k f k cf name i Hf Hcf). rewrite E. discriminate.
  - left. intros R. apply (refs_iff _ _ _ _ _ HF) in R. congruence.
Qed.
Print Assumptions C50_no.
(** C50: the answer is yes exactly for the grammars with declared references and a table at every decision; verification has one
    answer at most, it throws nothing, and more steps do not change it. *)
Theorem C50_decides : forall fs file ds g C, read_from fs file ds g C -> rules_plain ds ->
  ((exists k, verify k (c_nets C) = SOk true) <-> refs_declared ds /\ all_tables (c_nets C)) /\
  (forall k k', k <= k' -> verify k (c_nets C) <> SFuel -> verify k' (c_nets C) = verify k (c_nets C)) /\
  (forall k, verify k (c_nets C) <> SThrow).
Proof.
  intros fs file ds g C HF HP. split; [|split].
  - split.
    + intros [k H]. destruct (C50_yes _ _ _ _ _ _ HF H) as (R & D & HD & HT). split; [exact R|]. exists D. split; [exact HD|]. intros name i K. destruct (HT _ _ K) as (T & _ & E). exists k, k, T. apply E; lia.
    + intros (R & D & HD & HT).
      set (l := flat_map (fun p => map (fun i => (fst p, i)) (filter (fun i => 1 <? List.length (atrs (nth i (snd (snd p)) blank))) (seq 0 (List.length (snd (snd p)))))) (c_nets C)).
      assert (IN : forall name i, In (name, i) l <-> decision_point (c_nets C) name i).
      { intros name i. unfold l. rewrite in_flat_map. split.
        - intros ([n0 [id M]] & I1 & I2). cbn [fst snd] in I2. apply in_map_iff in I2 as (i' & Q & I2). injection Q as <- <-. apply filter_In in I2 as [I2 I3]. apply in_seq in I2. exists id, M. split; [exact I1|]. split; [lia|apply Nat.ltb_lt in I3; lia].
        - intros (id & M & I1 & I2 & I3). exists (name, (id, M)). split; [exact I1|]. cbn [fst snd]. apply in_map. apply filter_In. split; [apply in_seq; lia|apply Nat.ltb_lt; lia]. }
      destruct (uniform (fun k x => exists T, decision D k k (fst x) (snd x) = SOk T)) with (l := l) as [k K].
      * intros f f' x Hf [T E]. exists T. rewrite <- E. apply (decision_more D f f' f f' _ _ Hf Hf). rewrite E. discriminate.
      * intros [name i] Hx. apply IN in Hx. destruct (HT _ _ Hx) as (f & cf & T & E). exists (max f cf), T. cbn [fst snd]. rewrite <- E. apply (decision_more D f (max f cf) cf (max f cf)); [lia|lia|]. rewrite E. discriminate.
      * exists k. unfold verify. rewrite (proj2 (refs_iff _ _ _ _ _ HF) R), HD. apply check_nets_true. intros name id M i A B. exact (K (name, i) (proj2 (IN name i) (ex_intro _ id (ex_intro _ M (conj A B))))).
  - intros k k' Hk H. exact (verify_more k k' (c_nets C) Hk H).
  - intros k. unfold verify. destruct (forallb _ _); [|discriminate]. destruct (composite (c_nets C)); [apply check_nets_throw|discriminate].
Qed.
Print Assumptions C50_decides.
(** C50: verification ends: for every file whose rules and patterns have nothing under a star or a plus that can be empty. *)
Theorem C50_ends : forall fs file ds g C, read_from fs file ds g C -> rules_plain ds -> no_empty_repetition (rules_of ds) patL -> patterns_no_empty_repetition ds ->
  exists k b, forall k', k <= k' -> verify k' (c_nets C) = SOk b.
Proof.
  intros fs file ds g C HF HP H1 H2.
  assert (K : exists k, verify k (c_nets C) <> SFuel).
  { destruct (forallb (fun p => invocations_ok (c_nets C) (snd (snd p))) (c_nets C)) eqn:ER; [|exists 0; unfold verify; rewrite ER; discriminate].
    assert (CF : compiled_from fs file ds g C) by (apply from_read; split; [exact HF|apply (refs_iff _ _ _ _ _ HF); exact ER]). destruct (file_composite _ _ _ _ _ CF HP) as [D HD].
    destruct (C43_ends_partial _ _ _ _ _ D CF HP HD H1 H2) as (k & K). exists k. unfold verify. rewrite ER, HD. apply check_nets_done. intros name id M i _ _. exact (proj1 (K name i)). }
  destruct K as [k K]. destruct (C50_decides _ _ _ _ _ HF HP) as (_ & M & NT). destruct (verify k (c_nets C)) as [b| |] eqn:E; [|destruct (NT k E)|destruct (K eq_refl)].
  exists k, b. intros k' Hk. rewrite <- E. apply M; [exact Hk|]. rewrite E. discriminate.
Qed.
Print Assumptions C50_ends.

(** ** The code generator *)
(** C50: if verification says yes, and no pattern repeats something that can be empty, the code generator builds all its tables; the
    program has them. *)
Theorem C50_verified_generates : forall fs file ds g C k, read_from fs file ds g C -> rules_plain ds -> patterns_no_empty_repetition ds -> verify k (c_nets C) = SOk true ->
  exists k' X, generate k' (c_nets C) = SOk X /\ forall junk buf, tables_built (program k' (c_nets C) X junk buf) /\
    forall name b p, In (name, b) ds -> In (TPat p) (gsel_terms b) -> dfa_build k' k' (build_pat p) = Some (c_dfa (program k' (c_nets C) X junk buf) (build_pat p)).
Proof.
  intros fs file ds g C k HF HP HN HV. destruct (C50_yes _ _ _ _ _ _ HF HV) as (R & D & HD & HT). destruct (read_nets _ _ _ _ _ HF) as (_ & [N1 N2]).
  set (pats := flat_map (fun d => flat_map (fun x => match x with TPat p => [p] | _ => [] end) (gsel_terms (snd d))) ds).
  assert (IP : forall name b p, In (name, b) ds -> In (TPat p) (gsel_terms b) -> In p pats).
  { intros name b p A B. apply in_flat_map. exists (name, b). split; [exact A|]. apply in_flat_map. exists (TPat p). split; [exact B|left; reflexivity]. }
  destruct (uniform (fun k p => exists X, dfa_build k k (build_pat p) = Some X)) with (l := pats) as [k1 K1].
  { intros f f' p Hf [X E]. exists X. exact (dfa_build_mono f f' _ _ Hf E). }
  { intros p Hp. apply in_flat_map in Hp as ([name b] & A & B). cbn [snd] in B. apply in_flat_map in B as ([y|y|q] & B & Q); [destruct Q|destruct Q|]. destruct Q as [->|[]].
    destruct (build_terminates p (HP _ _ _ A B) (HN _ _ _ A B)) as [ef0 E]. destruct (E ef0 (le_n _)) as (f0 & X & F). exists (max ef0 f0). destruct (E (max ef0 f0) ltac:(lia)) as (f1 & X1 & F1).
    exists (minimize X). apply (dfa_build_mono (max ef0 f0) (max ef0 f0) _ _ (le_n _)). unfold dfa_build. specialize (F (max ef0 f0) ltac:(lia)).
    assert (Q : dfa_plain (max ef0 f0) (max ef0 f0) (build_pat p) = Some X).
    { unfold dfa_plain in F |- *. destruct (eclose_sub ef0 (build_pat p) [] 0) as [[ec lg]|] eqn:EC; [|discriminate]. rewrite (eclose_mono ef0 (max ef0 f0) _ _ _ _ ltac:(lia) EC).
      destruct (fork_states (max ef0 f0) ef0 (build_pat p) _ 0) as [X0|] eqn:EF; [|discriminate]. rewrite (proj1 (fork_ef_mono ef0 (max ef0 f0) (build_pat p) ltac:(lia) _) _ _ _ EF). exact F. }
    rewrite Q. reflexivity. }
  set (k' := max k k1).
  assert (KP : forall name b p, In (name, b) ds -> In (TPat p) (gsel_terms b) -> exists X, dfa_build k' k' (build_pat p) = Some X).
  { intros name b p A B. destruct (K1 p (IP _ _ _ A B)) as [X E]. exists X. apply (dfa_build_mono k1 k'); [lia|exact E]. }
  assert (GN : forall name id M i, In (name, (id, M)) (c_nets C) -> i < List.length M -> exists T, gen_node D k' name i (nth i M blank) = SOk T).
  { intros name id M i A Hi. assert (GL : exists T, gen_look D k' name i (nth i M blank) = SOk T).
    { unfold gen_look. destruct (1 <? List.length (atrs (nth i M blank))) eqn:E; [|eauto]. apply Nat.ltb_lt in E. destruct (HT name i) as (T & _ & ET); [exists id, M; auto|]. exists T. apply ET; lia. }
    unfold gen_node. destruct (nt (nth i M blank)) as [|x|s|B|] eqn:EN; try exact GL. destruct (N2 _ _ _ A) as (b & RU & NF). apply rules_from_in in RU as [RU _].
    assert (KB : kinds (fun n => forall B, n = NReg B -> exists X, dfa_build k' k' B = Some X) M).
    { apply (net_for_kinds _ b M NF); [discriminate|discriminate|]. intros [y|y|p] Hy B' E; cbn in E; try discriminate. injection E as <-. exact (KP _ _ _ RU Hy). }
    destruct (KB _ (nth_In M blank Hi) B EN) as [X ->]. exact GL. }
  destruct (proj2 (gen_nets_ok D k' (c_nets C)) GN) as [X EX]. exists k', X. split; [unfold generate; rewrite HD; exact EX|]. intros junk buf. apply gen_nets_spec in EX as [LX EX]. split.
  - assert (LK : forall m name id M i, nth_error (c_nets C) m = Some (name, (id, M)) -> i < List.length M -> gen_look D k' name i (nth i M blank) = SOk (nth i (nth m X []) [])).
    { intros m name id M i Hm Hi. specialize (EX _ _ _ _ Hm). apply gen_nodes_spec in EX as [_ EX]. specialize (EX i Hi). cbn [plus] in EX. unfold gen_node in EX. destruct (nt (nth i M blank)) as [|x|s|B|]; try exact EX. destruct (dfa_build k' k' B); [exact EX|discriminate]. }
    split.
    + exists D. split; [exact HD|]. intros m i. cbn [program c_look c_nets]. destruct (nth_error (c_nets C) m) as [[name [id M]]|] eqn:Em.
      * destruct (Nat.lt_ge_cases i (List.length M)) as [Hi|Hi].
        -- specialize (LK _ _ _ _ i Em Hi). unfold gen_look in LK. destruct (1 <? List.length (atrs (nth i M blank))); [|left; injection LK as <-; reflexivity]. right. exists name, id, M, k', k'. auto.
        -- left. specialize (EX _ _ _ _ Em). apply gen_nodes_spec in EX as [L _]. apply nth_overflow. lia.
      * left. apply nth_error_None in Em. rewrite (nth_overflow X) by lia. destruct i; reflexivity.
    + intros m name id M i Hm Hi H2. cbn [program c_look c_nets] in *. specialize (LK _ _ _ _ i Hm Hi). unfold gen_look in LK. replace (1 <? List.length (atrs (nth i M blank))) with true in LK by (symmetry; apply Nat.ltb_lt; lia).
      exact (decision_ne D _ _ _ _ _ LK).
  - intros name b p RU Hp. destruct (KP _ _ _ RU Hp) as [X0 E]. cbn [program c_dfa]. rewrite E. reflexivity.
Qed.
Print Assumptions C50_verified_generates.
(** ... and if it builds them, and the references are declared, then verification says yes; so after a no the generator never gets that far. *)
Theorem C50_generated_verifies : forall fs file ds g C k X, read_from fs file ds g C -> refs_declared ds -> generate k (c_nets C) = SOk X -> verify k (c_nets C) = SOk true.
Proof.
  intros fs file ds g C k X HF R H. unfold generate in H. unfold verify. rewrite (proj2 (refs_iff _ _ _ _ _ HF) R). destruct (composite (c_nets C)) as [D|]; [|discriminate].
  apply check_nets_true. intros name id M i A [B1 B2]. destruct (proj1 (gen_nets_ok D k (c_nets C)) (ex_intro _ X H) name id M i A B1) as [T E].
  assert (L : gen_look D k name i (nth i M blank) = SOk T) by (unfold gen_node in E; destruct (nt (nth i M blank)) as [|x|s|B|]; try exact E; destruct (dfa_build k k B); [exact E|discriminate]).
  unfold gen_look in L. replace (1 <? List.length (atrs (nth i M blank))) with true in L by (symmetry; apply Nat.ltb_lt; lia). eauto.
Qed.
Print Assumptions C50_generated_verifies.
Theorem C50_rejected : forall fs file ds g C k k' X, read_from fs file ds g C -> refs_declared ds -> verify k (c_nets C) = SOk false -> generate k' (c_nets C) <> SOk X.
Proof.
  intros fs file ds g C k k' X HF R H E. pose proof (C50_generated_verifies _ _ _ _ _ _ _ HF R E) as V.
  assert (A : verify (max k k') (c_nets C) = SOk false) by (rewrite <- H; apply (verify_more k (max k k')); [lia|rewrite H; discriminate]).
  assert (B : verify (max k k') (c_nets C) = SOk true) by (rewrite <- V; apply (verify_more k' (max k k')); [lia|rewrite V; discriminate]). congruence.
Qed.
Print Assumptions C50_rejected.
(** C50: a parser that works: if moreover the patterns are safe and not spoilt by the minimisation (C09), and no decision stands directly behind a
    pattern that ends in a '+', a yes means that the program has everything C18 and C41 ask for. *)
Definition patterns_keep (ds : list (list N * gsel)) : Prop := forall name b p, In (name, b) ds -> In (TPat p) (gsel_terms b) -> pat_safe p /\ pat_nl p /\
  forall f ef D, dfa_plain f ef (build_pat p) = Some D -> forall i j, i < List.length D -> j < List.length D -> trs_eqb (dtrs (nth i D dnil)) (dtrs (nth j D dnil)) = true -> dacc (nth i D dnil) = dacc (nth j D dnil).
Theorem C50_verified_parser : forall fs file ds g C k, read_from fs file ds g C -> rules_plain ds -> nul_free ds -> patterns_keep ds -> decisions_clear C -> verify k (c_nets C) = SOk true ->
  exists k' X, generate k' (c_nets C) = SOk X /\ forall junk buf, grammar_ok fs file ds g (program k' (c_nets C) X junk buf).
Proof.
  intros fs file ds g C k HF HP HN HK HC HV. destruct (C50_verified_generates _ _ _ _ _ _ HF HP (fun name b p A B => proj1 (proj2 (HK name b p A B))) HV) as (k' & X & E & G). exists k', X. split; [exact E|]. intros junk buf. destruct (G junk buf) as [G1 G2].
  destruct (C50_yes _ _ _ _ _ _ HF HV) as (R & _). split; [|exact HP|exact HN| |exact G1|exact HC].
  - destruct HF as (F1 & F2 & F3 & F4). split; [exact F1|]. split; [exact R|]. split; [exact F2|]. split; [exact F3|exact F4].
  - intros name b p A B. destruct (HK _ _ _ A B) as (K1 & _ & K3). split; [exact (HP _ _ _ A B)|]. split; [exact K1|]. specialize (G2 _ _ _ A B). exists k', k'. generalize G2. unfold dfa_build. destruct (dfa_plain k' k' (build_pat p)) as [D|] eqn:ED; [|discriminate].
    intros Q. exists D. split; [reflexivity|]. split; [exact Q|]. exact (K3 _ _ _ ED).
Qed.
Print Assumptions C50_verified_parser.

(** ** Cases *)
Lemma dfa_keep p : pat_ok p -> forall f0 X, dfa_plain f0 f0 (build_pat p) = Some X -> mergeb X = true ->
  forall f ef D, dfa_plain f ef (build_pat p) = Some D -> forall i j, i < List.length D -> j < List.length D -> trs_eqb (dtrs (nth i D dnil)) (dtrs (nth j D dnil)) = true -> dacc (nth i D dnil) = dacc (nth j D dnil).
Proof.
  intros Hp f0 X HX HM f ef D HD.
  assert (X = D) as <-.
  { set (m := max f0 (max f ef)). assert (U : forall a b Y, a <= m -> b <= m -> dfa_plain a b (build_pat p) = Some Y -> dfa_plain m m (build_pat p) = Some Y).
    { intros a b Y Ha Hb E. unfold dfa_plain in E |- *. destruct (eclose_sub b (build_pat p) [] 0) as [[ec lg]|] eqn:EC; [|discriminate]. rewrite (eclose_mono b m _ _ _ _ Hb EC).
      destruct (fork_states a b (build_pat p) _ 0) as [X0|] eqn:EF; [|discriminate]. apply (proj1 (fork_ef_mono b m (build_pat p) Hb _)) in EF. apply (proj1 (fork_mono m (build_pat p) a) m) in EF; [|exact Ha]. rewrite EF. exact E. }
    apply (U f0 f0) in HX; [|unfold m; lia|unfold m; lia]. apply (U f ef) in HD; [congruence|unfold m; lia|unfold m; lia]. }
  intros i j Hi Hj E. unfold mergeb in HM. rewrite forallb_forall in HM. specialize (HM i (proj2 (in_seq _ _ _) (conj (Nat.le_0_l i) Hi))). rewrite forallb_forall in HM.
  specialize (HM j (proj2 (in_seq _ _ _) (conj (Nat.le_0_l j) Hj))). rewrite E in HM. cbn in HM. apply Bool.eqb_prop. exact HM.
Qed.
(** grammars/json.cgr: yes. *)
Example C50_hyp : read_from (fun _ => json_text) [] json_ds json_g json_C /\ rules_plain json_ds /\ nul_free json_ds /\ patterns_keep json_ds /\ decisions_clear json_C /\
  no_empty_repetition (rules_of json_ds) patL /\ patterns_no_empty_repetition json_ds /\ verify 100 (c_nets json_C) = SOk true /\ exists X, generate 100 (c_nets json_C) = SOk X.
Proof.
  pose proof json_ok as [G1 G2 G3 G4 G5 G6]. split; [apply from_read; exact G1|]. split; [exact G2|]. split; [exact G3|].
  assert (PN : patterns_no_empty_repetition json_ds) by (apply pats_check_ok; vm_compute; reflexivity). split.
  { intros name b p A B. destruct (G4 _ _ _ A B) as (P1 & P2 & _). split; [exact P2|]. split; [exact (PN _ _ _ A B)|].
    assert (F : forallb (fun d => forallb (fun x => match x with TPat p => match dfa_plain 100 100 (build_pat p) with Some X => mergeb X | None => false end | _ => true end) (gsel_terms (snd d))) json_ds = true) by (vm_compute; reflexivity).
    rewrite forallb_forall in F. specialize (F _ A). cbn [snd] in F. rewrite forallb_forall in F. specialize (F _ B). cbv beta iota in F.
    destruct (dfa_plain 100 100 (build_pat p)) as [X|] eqn:EX; [|discriminate]. exact (dfa_keep p P1 100 X EX F). }
  split; [exact G6|]. split; [exact (proj2 json_ends)|]. split; [exact PN|]. split; [vm_compute; reflexivity|]. eexists. vm_compute. reflexivity.
Qed.
(** grammars/calc.cgr: no (C43_calc_refuted). *)
Example C50_calc : read_from (fun _ => calc_text) [] calc_ds calc_g calc_C /\ rules_plain calc_ds /\ refs_declared calc_ds /\ verify 100 (c_nets calc_C) = SOk false.
Proof. destruct (proj1 (from_read _ _ _ _ _) calc_from) as [A B]. split; [exact A|]. split; [exact calc_simple|]. split; [exact B|]. vm_compute. reflexivity. Qed.
(** S : T ; - a rule that is not declared - and S : /(a* )*/ ; *)
Local Open Scope string_scope.
Definition ud_text : list N := (str "S : T ;").
Definition ud_ds : list (list N * gsel) := [((str "S"), GFirst (GCons (GTerm (TRule (str "T"))) GOne GNil))].
Definition dv_text : list N := (str "S : /(a*)*/ ;").
Definition dv_pat : pat := PSnoc PNil (SOne (UGroup (PSnoc PNil (SOne (UAtom (AChar 97)) (QStar false)))) (QStar false)).
Definition dv_ds : list (list N * gsel) := [((str "S"), GFirst (GCons (GTerm (TPat dv_pat)) GOne GNil))].
Local Close Scope string_scope.
Definition ud_g : gstate := Eval vm_compute in match read_grammar 100 (fun _ => ud_text) [] with SOk (_, g) => g | _ => empty_grammar end.
Definition dv_g : gstate := Eval vm_compute in match read_grammar 100 (fun _ => dv_text) [] with SOk (_, g) => g | _ => empty_grammar end.
Example C50_undeclared : declares (fun _ => ud_text) [] ud_ds /\ Properties_Grammar.reads (fun _ => ud_text) [] ud_g /\ ~ refs_declared ud_ds /\ forall C k, loaded ud_g C -> verify k (c_nets C) = SOk false.
Proof.
  split; [unfold declares; apply (check_file_spec _ _ _ None); vm_compute; reflexivity|]. split; [eexists 100, _; vm_compute; reflexivity|]. split.
  - intros H. specialize (H (str "S"%string) 1%N _ (str "T"%string) eq_refl (or_introl eq_refl)). destruct H as [H|[]]. discriminate.
  - intros C k HC. destruct (loaded_forms _ _ HC) as (L & HL & H). cbn in HL. destruct HL as [<-|[]]. destruct H as [-> | ->]; vm_compute; reflexivity.
Qed.
(** C50 cannot be strengthened to all patterns: this grammar passes verification at once, and the construction of its parser never ends. *)
Theorem C50_pattern_loop_refuted : exists fs file ds g, deliver (fs file) = str "S : /(a*)*/ ;"%string /\ declares fs file ds /\ Properties_Grammar.reads fs file g /\
  forall C, loaded g C -> verify 0 (c_nets C) = SOk true /\ forall k, generate k (c_nets C) = SFuel.
Proof.
  exists (fun _ => dv_text), [], dv_ds, dv_g. split; [vm_compute; reflexivity|]. split; [unfold declares; apply (check_file_spec _ _ _ None); vm_compute; reflexivity|]. split; [eexists 100, _; vm_compute; reflexivity|].
  assert (P : forall k, dfa_build k k (build_pat dv_pat) = None).
  { intros k. unfold dfa_build. rewrite build_diverges; [reflexivity|cbn; lia|]. intros (_ & _ & H). apply H; [reflexivity|]. exists [], []. split; [reflexivity|]. split; [reflexivity|]. constructor. }
  assert (Q : forall name id M k j, composite [(name, (id, M))] <> None -> nt (nth j M blank) = NReg (build_pat dv_pat) -> forallb (fun n => match nt n with NReg _ => false | _ => List.length (atrs n) <? 2 end) (firstn j M) = true -> generate k [(name, (id, M))] = SFuel).
  { intros name id M k j HD EN F. unfold generate. destruct (composite [(name, (id, M))]) as [D|]; [|congruence]. cbn [gen_nets]. clear HD.
    assert (G : forall i, gen_nodes D k name i M = SFuel).
    { revert j EN F. induction M as [|m M IH]; intros j EN F i; [destruct j; discriminate|]. cbn [gen_nodes]. destruct j as [|j].
      - cbn [nth] in EN. unfold gen_node. rewrite EN, P. reflexivity.
      - cbn [nth firstn forallb] in EN, F. apply andb_true_iff in F as [F1 F2]. rewrite (IH j EN F2). assert (L : gen_node D k name i m = SOk []).
        { unfold gen_node, gen_look. destruct (nt m); try discriminate; replace (1 <? List.length (atrs m)) with false by (symmetry; apply Nat.ltb_ge; apply Nat.ltb_lt in F1; lia); reflexivity. }
        rewrite L. reflexivity. }
    rewrite G. reflexivity. }
  intros C HC. destruct (loaded_forms _ _ HC) as (L & HL & H). cbn in HL. destruct HL as [<-|[]].
  destruct H as [-> | ->]; (split; [vm_compute; reflexivity|]); intros k.
  - apply (Q _ _ _ k 4); [vm_compute; discriminate|vm_compute; reflexivity|vm_compute; reflexivity].
  - apply (Q _ _ _ k 3); [vm_compute; discriminate|vm_compute; reflexivity|vm_compute; reflexivity].
Qed.
Print Assumptions C50_pattern_loop_refuted.
