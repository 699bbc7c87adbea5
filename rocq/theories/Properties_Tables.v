(** * Exactly which decisions have a table (C43) *)
From Coq Require Import String Ascii.
From Coq Require Import List NArith ZArith Arith Bool Lia ZifyBool ZifyN ZifyNat Permutation Relations.
From Verif Require Import CharClass Stream NFA NFASem NFABuild DFA DFAMin DFADep DFAProofs DFATerm DFAPattern RegexSpec GrammarSpec Marker TreeSpec ParseSpec EmptySpec CodeGen CodeGenMisc ATN ATNSem ATNBuild Grammar GrammarProofs Properties_Grammar ParserGen ATNLive ParserTree ParserTop Properties_Parser
  Lookahead LookSpec LookGrammarSpec TableSpec LookRead LookFuel LookEnds LookEmpty LookGrammar LookUnbounded LookBounded BoundedCheck Properties_Look Properties_Compile GrammarCheck CompileCheck Properties_CompileCases EmptyCheck Properties_Ends Properties_CompleteCases Properties_Decide.
Import ListNotations.
Local Open Scope nat_scope.

Lemma file_acyc fs file ds g C r i A : compiled_from fs file ds g C -> rules_plain ds -> patterns_no_empty_repetition ds ->
  known (c_nets C) r -> i < List.length (net (c_nets C) r) -> sym (c_nets C) r i = NReg A -> acyc A.
Proof.
  intros HF HP H2. apply (reg_acyc (c_nets C) (file_lookable _ _ _ _ _ HF HP) (rules_of ds)).
  intros r0 gn M I. destruct (file_net _ _ _ _ _ HF _ _ _ I) as (b & Ib & NF & R). exists b. split; [exact R|]. split; [exact NF|]. intros p Hp. split; [exact (HP _ _ _ Ib Hp)|exact (H2 _ _ _ Ib Hp)].
Qed.

(** C43, at every decision point (a node with two or more ways on, not right behind a pattern ending in a plus) of every grammar file without
    preferences and without empty repetitions within patterns: the construction of its table succeeds (some number of steps is enough)
    exactly if nowhere, having read nothing or a text that two of the ways have in common, one can be
    - before a reference to a rule that is pending already at this very place, or
    - at a place from which one can come back to it without reading anything. *)
Theorem C43_table_partial : forall fs file ds g C D name id M i,
  compiled_from fs file ds g C -> rules_plain ds -> composite (c_nets C) = Some D -> no_preferences ds -> patterns_no_empty_repetition ds ->
  In (name, (id, M)) (c_nets C) -> i < List.length M -> 2 <= List.length (atrs (nth i M blank)) -> not_after_plus (nth i M blank) ->
  ((exists k T, decision D k k name i = SOk T) <-> ~ unbounded (c_nets C) name i).
Proof.
  intros fs file ds g C D name id M i HF HP HD NP PN HM Hi H2 HA. pose proof (file_lookable _ _ _ _ _ HF HP) as LK. destruct (file_at _ _ _ _ _ HF name id M i HM Hi) as [K EM].
  pose proof (file_closed _ _ _ _ _ HF HP name id M i HM Hi H2 HA) as HC. rewrite <- EM in Hi, HC, H2. split.
  - intros (k & T & E). exact (table_bounded (c_nets C) D LK HD name i K Hi HC H2 k k T (file_levels _ _ _ _ _ HF NP) E).
  - exact (table_exists (c_nets C) D LK HD (fun r j A => file_acyc _ _ _ _ _ r j A HF HP PN) name i K Hi HC H2).
Qed.
Print Assumptions C43_table_partial.
(** With preferences, and whatever the patterns, one half remains: where looking ahead is bounded, the table exists. *)
Theorem C43_bounded_partial : forall fs file ds g C D name id M i,
  compiled_from fs file ds g C -> rules_plain ds -> composite (c_nets C) = Some D -> patterns_no_empty_repetition ds ->
  In (name, (id, M)) (c_nets C) -> i < List.length M -> 2 <= List.length (atrs (nth i M blank)) -> not_after_plus (nth i M blank) ->
  ~ unbounded (c_nets C) name i -> exists k T, decision D k k name i = SOk T.
Proof.
  intros fs file ds g C D name id M i HF HP HD PN HM Hi H2 HA. pose proof (file_lookable _ _ _ _ _ HF HP) as LK. destruct (file_at _ _ _ _ _ HF name id M i HM Hi) as [K EM].
  pose proof (file_closed _ _ _ _ _ HF HP name id M i HM Hi H2 HA) as HC. rewrite <- EM in Hi, HC, H2.
  exact (table_exists (c_nets C) D LK HD (fun r j A => file_acyc _ _ _ _ _ r j A HF HP PN) name i K Hi HC H2).
Qed.
Print Assumptions C43_bounded_partial.

(** C43, from what is written in the file: no rule can begin with itself or end with itself, nothing under a star or a plus can be empty, and literals and patterns
    are visible (none stands for white space only).  Then every decision point whose ways have at most white space in common - the first visible character decides - has a table. *)
Theorem C43_first_character_partial : forall fs file ds g C D name id M i,
  compiled_from fs file ds g C -> rules_plain ds -> composite (c_nets C) = Some D ->
  no_left_recursion (rules_of ds) patL -> no_right_recursion (rules_of ds) patL -> no_empty_repetition (rules_of ds) patL -> patterns_no_empty_repetition ds -> tokens_visible ds ->
  In (name, (id, M)) (c_nets C) -> i < List.length M -> 2 <= List.length (atrs (nth i M blank)) -> not_after_plus (nth i M blank) ->
  (forall w, two_alts (c_nets C) name i w -> spaces w) ->
  exists k T, decision D k k name i = SOk T.
Proof.
  intros fs file ds g C D name id M i HF HP HD LR RR ER PN TV HM Hi H2 HA TW. pose proof (file_lookable _ _ _ _ _ HF HP) as LK.
  apply (C43_bounded_partial _ _ _ _ _ _ _ _ _ _ HF HP HD PN HM Hi H2 HA). destruct (file_at _ _ _ _ _ HF name id M i HM Hi) as [K EM]. rewrite <- EM in Hi.
  assert (HR : forall r g0 M0, In (r, (g0, M0)) (c_nets C) -> exists e, rules_of ds r = Some (g0, e) /\ net_for e M0 /\ forall p, In (TPat p) (gsel_terms e) -> pat_ok p /\ pat_nl p).
  { intros r gn M0 I. destruct (file_net _ _ _ _ _ HF _ _ _ I) as (b & Ib & NF & R). exists b. split; [exact R|]. split; [exact NF|]. intros p Hp. split; [exact (HP _ _ _ Ib Hp)|exact (PN _ _ _ Ib Hp)]. }
  apply (blank_bounded (c_nets C) LK (rules_of ds) HR); try assumption.
  intros r j u Kr Hj. destruct (known_net (c_nets C) LK r Kr) as [g0 Hg]. destruct (file_net _ _ _ _ _ HF _ _ _ Hg) as (b & Ib & NF & _). destruct (TV _ _ Ib) as [TV1 TV2].
  unfold sym. pattern (nt (nth j (net (c_nets C) r) blank)). apply (LookFit.net_nodes b _ _ NF); [intros E _ _; exact E|congruence| |exact Hj].
  intros [y|y|p] Hy SP B _; cbn [term_nty spells] in *.
  - destruct SP.
  - subst u. unfold lit_bytes in *. rewrite map_map in B |- *. assert (EL : map (fun x => (narrow x mod 256)%N) y = map (fun c => (c mod 256)%N) y) by (apply map_ext; intros c; unfold narrow; apply N.mod_mod; discriminate).
    rewrite EL in *. rewrite (TV1 y Hy B). reflexivity.
  - destruct (TV2 p Hy) as [SF VI]. apply (VI u); [|exact B]. apply (proj2 (proj2 NFABuild.sound) p SF). apply (proj1 (proj2 (proj2 (proj2 NFABuild.build_spec) p (HP _ _ _ Ib Hy)))). exact SP.
Qed.
Print Assumptions C43_first_character_partial.

(** ** Cases *)
Lemma pats_plus M i : i < List.length M -> (match nt (nth i M blank) with NReg _ => false | _ => true end) = true -> not_after_plus (nth i M blank).
Proof. intros _ H p E. rewrite E in H. discriminate. Qed.
(** json.cgr: the hypotheses hold; looking ahead is bounded at the decision of Object after its brace, although the grammar is recursive. *)
Example C43_json_bounded : ~ unbounded (c_nets json_C) (str "Object"%string) 1.
Proof.
  destruct (lookup (c_nets json_C) (str "Object"%string)) as [[id M]|] eqn:E; [|vm_compute in E; discriminate]. pose proof (lookup_in _ _ _ E) as HM.
  destruct C43_hyp as (H1 & H2 & H3 & H4 & H5 & T & HT).
  apply (C43_table_partial _ _ _ _ _ (g_comp json_g) (str "Object"%string) id M 1 H1 H2 H3); [exact (proj1 (proj2 C42_hyp))|exact H5|exact HM|..|exists 100, T; exact HT];
    vm_compute in E; injection E as <- <-; try (cbn; lia). intros p X. discriminate.
Qed.
(** json.cgr meets all the hypotheses of C43_first_character_partial at the decision of Object between its seven ways: no recursion at either end, and the first character decides. *)
Definition blank_steps (L : ldfa) : bool := forallb (forallb (fun t : CharClass.cclass * Z => (snd t <? 0)%Z || forallb (fun r => ((9 <=? CharClass.rs r) && (CharClass.re r <=? 11) || (13 <=? CharClass.rs r) && (CharClass.re r <=? 14) || (32 <=? CharClass.rs r) && (CharClass.re r <=? 33))%N) (fst t))) L.
Lemma blank_steps_ok L : blank_steps L = true -> forall w q, ldfa_go L q w = LMore -> spaces w.
Proof.
  intros H. induction w as [|c w IH]; intros q E; [intros c []|]. cbn [ldfa_go] in E. destruct (CodeGenProofs.first_lab (nth q L []) c) as [d|] eqn:F; [|discriminate]. destruct (0 <=? d)%Z eqn:D0; [|discriminate].
  intros x [<-|Hx]; [|exact (IH _ E x Hx)]. clear E IH. destruct (nth_in_or_default q L []) as [HI|HI]; [|rewrite HI in F; discriminate]. unfold blank_steps in H. rewrite forallb_forall in H. specialize (H _ HI). rewrite forallb_forall in H. clear HI.
  induction (nth q L []) as [|[cc d'] ts IH]; [discriminate|]. cbn [CodeGenProofs.first_lab] in F. destruct (CharClass.includes cc c) eqn:EI; [|apply IH; [intros y Hy; apply H; right; exact Hy|exact F]]. injection F as ->.
  specialize (H (cc, d) (or_introl eq_refl)). cbn [fst snd] in H. apply orb_true_iff in H as [H|H]; [lia|]. unfold CharClass.includes in EI. apply existsb_exists in EI as (r & Hr & ER). rewrite forallb_forall in H. specialize (H r Hr). lia.
Qed.
Example C43_first_hyp : no_left_recursion (rules_of json_ds) patL /\ no_right_recursion (rules_of json_ds) patL /\ no_empty_repetition (rules_of json_ds) patL /\ patterns_no_empty_repetition json_ds /\ tokens_visible json_ds /\
  (exists id M, In (str "Object"%string, (id, M)) (c_nets json_C) /\ 1 < List.length M /\ List.length (atrs (nth 1 M blank)) = 7 /\ not_after_plus (nth 1 M blank)) /\
  forall w, two_alts (c_nets json_C) (str "Object"%string) 1 w -> spaces w.
Proof.
  destruct (lookup (c_nets json_C) (str "Object"%string)) as [[id M]|] eqn:E; [|vm_compute in E; discriminate]. pose proof (lookup_in _ _ _ E) as HM. destruct C43_hyp as (H1 & H2 & H3 & H4 & H5 & T & HT).
  assert (HI : 1 < List.length M /\ List.length (atrs (nth 1 M blank)) = 7 /\ not_after_plus (nth 1 M blank)) by (vm_compute in E; injection E as <- <-; split; [cbn; lia|]; split; [reflexivity|]; intros p X; discriminate).
  split; [exact (proj1 json_ends)|]. split.
  { apply (rights_ok [] (map str ["Number"; "String"; "List"; "Dict"; "False"; "True"; "Null"; "Object"; "DictEntry"]%string) json_order json_ds); [intros name i0 e R; apply (rules_from_in _ _ _ _ _ R)|vm_compute; reflexivity|vm_compute; reflexivity]. }
  split; [exact H4|]. split; [exact H5|]. split; [apply visible_ok; vm_compute; reflexivity|]. split; [exists id, M; auto|]. destruct HI as (HI & HL & HA).
  intros w TW. apply (blank_steps_ok T) with (q := 0); [revert HT; vm_compute; intros X; injection X as <-; reflexivity|].
  destruct (C32_decision_partial _ _ _ _ _ _ _ _ _ _ _ _ _ H1 H2 (proj1 (proj2 C42_hyp)) H3 HM HI ltac:(lia) HA HT) as [_ DC]. specialize (DC w). destruct TW as (k & k' & NE & A & B).
  assert (FI : forall m, m <= List.length w -> alternative (c_nets json_C) (str "Object"%string) 1 k (firstn m w) /\ alternative (c_nets json_C) (str "Object"%string) 1 k' (firstn m w)).
  { intros m Hm. split; apply (alternative_firstn _ _ _ _ _ m (List.length w) Hm); rewrite firstn_all; assumption. }
  destruct (ldfa_go T 0 w) as [k0| |]; [| |reflexivity]; destruct DC as (m & Hm & DC & _); destruct (FI m (proj2 Hm)) as [A' B'].
  - apply DC in A', B'. congruence.
  - destruct (DC _ A').
Qed.
(** calc.cgr: EXPR : TERM ('+' EXPR)? refers to itself at its end.  Behind TERM, taking the way around the bracket, one is at the end of EXPR; from there,
    behind the inner EXPR, and so on, without end. *)
Example C43_calc_unbounded : unbounded (c_nets calc_C) (str "EXPR"%string) 3.
Proof.
  set (E := str "EXPR"%string). vm_compute in E.
  assert (N : forall i up, node_of (c_nets calc_C) ((E, i) :: up) = nth_error (net (c_nets calc_C) E) i) by reflexivity.
  assert (B : forall i d t, nth_error (net (c_nets calc_C) E) i = Some (mkA NBlank [(d, t)]) -> texts (c_nets calc_C) (Before [(E, i)]) [] (Before [(E, d)])).
  { intros i d t H. apply (tx_step _ _ [] (After [(E, i)]) [] _); [apply (tm_text _ _ (mkA NBlank [(d, t)])); [rewrite N; exact H|reflexivity]|].
    apply (tx_step _ _ [] (Before [(E, d)]) [] _); [|constructor]. eapply tm_next; [rewrite N; exact H|]. left. reflexivity. }
  assert (TR : forall a b c, texts (c_nets calc_C) a [] b -> texts (c_nets calc_C) b [] c -> texts (c_nets calc_C) a [] c).
  { intros a b c H1 H2. exact (LookStuckSim.texts_trans (c_nets calc_C) a [] b [] c H1 H2). }
  assert (END : texts (c_nets calc_C) (Before [(E, 10)]) [] (After [(E, 11)])).
  { apply (TR _ (Before [(E, 11)])); [apply (B 10 11 0); reflexivity|]. apply (tx_step _ _ [] (After [(E, 11)]) []); [|constructor]. eapply tm_text; [rewrite N; vm_compute; reflexivity|reflexivity]. }
  exists [], (nth 3 (net (c_nets calc_C) E) blank), 1, 10, 0, (After [(E, 11)]). split; [left; reflexivity|]. split; [rewrite N; vm_compute; reflexivity|]. split; [vm_compute; reflexivity|]. split; [exact END|].
  right. exists (After [(E, 8)]). split.
  - eapply tm_out; [rewrite N; vm_compute; reflexivity|reflexivity|rewrite N; vm_compute; reflexivity|reflexivity].
  - apply (TR _ (Before [(E, 9)])).
    + apply (tx_step _ _ [] (Before [(E, 9)]) []); [|constructor]. eapply tm_next; [rewrite N; vm_compute; reflexivity|]. left. reflexivity.
    + apply (TR _ (Before [(E, 10)])); [apply (B 9 10 0); reflexivity|exact END].
Qed.
Example C43_calc_no_table : ~ exists k T, decision (g_comp calc_g) k k (str "EXPR"%string) 3 = SOk T.
Proof.
  destruct (lookup (c_nets calc_C) (str "EXPR"%string)) as [[id M]|] eqn:E; [|vm_compute in E; discriminate]. pose proof (lookup_in _ _ _ E) as HM. destruct C43_calc_hyp as (H1 & H2 & H3 & H4 & H5 & _).
  intros H. apply (C43_table_partial _ _ _ _ _ (g_comp calc_g) (str "EXPR"%string) id M 3 H1 H2 H3 calc_plain H5 HM) in H; [exact (H C43_calc_unbounded)|..];
    vm_compute in E; injection E as <- <-; try (cbn; lia). intros p X. discriminate.
Qed.
