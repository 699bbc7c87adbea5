(** * C42, C33: acceptance in terms of the rules of the grammar alone *)
From Coq Require Import String Ascii.
From Coq Require Import List NArith ZArith Arith Bool Lia Relations ZifyBool ZifyN ZifyNat Permutation.
From Verif Require Import CharClass CharClassSpec Stream StreamSpec NFA NFASem NFAProofs NFABuild NFAParse DFA DFAProofs DFAMin RegexSpec GrammarSpec Marker TreeSpec ParseSpec EmptySpec Reduction ReductionProofs Writer WriterProofs X86 X86Step CodeGen CodeGenProofs CodeGenSimd CodeGenDfa CodeGenPlain CodeGenMisc CodeGenRoutine ATN ATNSem ATNBuild ATNOpt ATNLive Grammar GrammarProofs Properties_CodeGen Properties_Grammar ParserGen ParserRun ParserSim ParserTree ParserTop ParserTerm Properties_Parser Properties_ParserCases
  Lookahead LookSpec LookImport LookRead LookSim LookGrammar LookWf LookFit LookNul LookFuel Properties_Look Properties_Compile LookGrammarSpec ClearSpec ParserComplete Properties_Complete GrammarCheck CompileCheck Properties_CompileCases Properties_CompleteCases EmptyCheck Properties_Ends LoopSpec Properties_Loop StuckSpec RejectBanks StuckProofs Properties_Reject Properties_Tables GreedySpec GreedyNet GreedyProofs.
Import ListNotations.
Local Open Scope nat_scope.

Section File.
Variables (fs : list N -> list N) (file : list N) (ds : list (list N * gsel)) (g : gstate) (C : compiled).
Hypothesis HG : grammar_ok fs file ds g C.
Lemma gr_net name id M : lookup (c_nets C) name = Some (id, M) -> exists e, rules_of ds name = Some (id, e) /\ net_for e M.
Proof. intros H. apply lookup_in in H. destruct (file_net _ _ _ _ _ (go_file _ _ _ _ _ HG) _ _ _ H) as (b & _ & NF & R). eauto. Qed.
Lemma gr_rule name id e : rules_of ds name = Some (id, e) -> exists M, lookup (c_nets C) name = Some (id, M) /\ net_for e M.
Proof.
  intros H. destruct (rules_from_in ds 1 name id e H) as [IN _]. apply (in_map fst) in IN. cbn [fst] in IN. apply (file_names _ _ _ _ _ (go_file _ _ _ _ _ HG)) in IN. destruct (lookup_some _ _ IN) as [[id' M] E].
  destruct (gr_net _ _ _ E) as (e' & R & NF). rewrite H in R. injection R as <- <-. eauto.
Qed.
Lemma gr_pat name id e x t : rules_of ds name = Some (id, e) -> In (TPat x) (gsel_terms e) -> (accepts (build_pat x) t <-> patL x t).
Proof.
  intros H Hx. destruct (rules_from_in ds 1 name id e H) as [IN _]. pose proof (go_pats _ _ _ _ _ HG _ _ _ IN Hx) as PX. rewrite <- (pattern_exact_lang C x PX t).
  destruct PX as (P1 & P2 & _). destruct (proj2 (proj2 build_spec) x P1) as (_ & HAC & _). rewrite (pattern_exact_lang C x (go_pats _ _ _ _ _ HG _ _ _ IN Hx) t), HAC. split; [apply (proj2 (proj2 NFABuild.sound) x P2)|apply (proj2 (proj2 NFABuild.complete))].
Qed.
Lemma gr_lit name id e s : rules_of ds name = Some (id, e) -> In (TLit s) (gsel_terms e) -> lit_bytes s = map narrow s.
Proof. intros _ _. reflexivity. Qed.
Lemma gr_root : exists id M, lookup (c_nets C) (hd [] (map fst ds)) = Some (id, M).
Proof.
  pose proof (go_file _ _ _ _ _ HG) as HF. assert (RD : In (hd [] (map fst ds)) (map fst ds)) by (destruct HF as (_ & _ & HLN & _); destruct ds; [cbn in HLN; lia|left; reflexivity]).
  destruct (lookup_some (c_nets C) _ (file_names _ _ _ _ _ HF _ RD)) as [[id M] E]. eauto.
Qed.
Lemma clear_greedy u n id M ch : lookup (c_nets C) (hd [] (map fst ds)) = Some (id, M) -> clear_from (c_nets C) u (hd [] (map fst ds)) 0 0 n ch -> greedy (rules_of ds) patL u (hd [] (map fst ds)) 0 n (Node id 0 (N.of_nat n) ch).
Proof.
  intros HK H. apply (proj1 (clear_free (c_nets C) u)) in H; [|lia]. pose proof (fs_rule (c_nets C) u _ _ _ _ _ _ HK H) as F.
  apply (proj1 (proj2 (free_greedy (c_nets C) u (rules_of ds) patL gr_net gr_rule gr_pat gr_lit))) in F. destruct F as (t & E & F). injection E as <-. exact F.
Qed.
Lemma greedy_clear u n t : (forall c, In c u -> (c < 256)%N) -> first_visible_decides (c_nets C) -> visible_to_end (c_nets C) (hd [] (map fst ds)) -> greedy (rules_of ds) patL u (hd [] (map fst ds)) 0 n t ->
  exists id M ch, lookup (c_nets C) (hd [] (map fst ds)) = Some (id, M) /\ t = Node id 0 (N.of_nat n) ch /\ clear_from (c_nets C) u (hd [] (map fst ds)) 0 0 n ch.
Proof.
  intros HU HF HE H. apply (proj1 (greedy_free (c_nets C) u (rules_of ds) patL gr_net gr_rule gr_pat gr_lit)) in H. pose proof (proj1 (proj2 (free_le (c_nets C) u)) _ _ _ _ H) as LE.
  inversion H as [| | | |r id M p m ch HK F]; subst. exists id, M, ch. split; [exact HK|]. split; [reflexivity|].
  apply (proj1 (free_clear (c_nets C) u (rules_of ds) patL gr_net gr_rule gr_pat gr_lit HU (hd [] (map fst ds)) HF HE n gr_root ltac:(lia)) _ _ _ _ _ F). split; [lia|]. rewrite slice_empty. constructor.
Qed.
End File.

(** C42.  Whenever the generated code accepts, n characters have been read, there is a greedy derivation of them from the root rule, by the rules of the file, and the
    pages contain the markers of its tree. *)
Theorem C42_accepted_greedy : forall fs file ds g C e a u pad B v bs,
  grammar_ok fs file ds g C -> no_preferences ds -> call_env C ds e a u pad B -> returned C (g_root g) e a v bs -> v <> 0%N ->
  exists n t, v = (a + N.of_nat n)%N /\ greedy (rules_of ds) patL u (hd [] (map fst ds)) 0 n t /\ List.concat (map bank_content bs) = stream t.
Proof.
  intros fs file ds g C e a u pad B v bs HG HL HE HV NZ. destruct (C42_accepted_clear_partial _ _ _ _ _ _ _ _ _ _ _ _ HG HL HE HV NZ) as (n & id & M & ch & V & HK & CF & S).
  exists n, (Node id 0 (N.of_nat n) ch). split; [exact V|]. split; [|exact S]. exact (clear_greedy _ _ _ _ _ HG u n id M ch HK CF).
Qed.
Print Assumptions C42_accepted_greedy.
(** Greedy derivations are derivations. *)
Theorem C42_greedy_derives : forall ds u name p q t, greedy (rules_of ds) patL u name p q t -> derives (rules_of ds) patL u name p q t.
Proof. intros ds u. exact (proj1 (greedy_derives (rules_of ds) patL u)). Qed.
Print Assumptions C42_greedy_derives.
(** Conversely, for grammars in which the first visible character decides everywhere and something visible is still to come at every decision: a text that begins
    with n characters that have a greedy derivation is accepted, after exactly these n characters, and the pages contain the markers of its tree; there is at most one. *)
Theorem C42_first_character_partial : forall fs file ds g C e a u pad B,
  grammar_ok fs file ds g C -> no_preferences ds -> call_env C ds e a u pad B ->
  first_visible_decides (c_nets C) -> visible_to_end (c_nets C) (hd [] (map fst ds)) ->
  forall n t, greedy (rules_of ds) patL u (hd [] (map fst ds)) 0 n t ->
    (exists bs, returned C (g_root g) e a (a + N.of_nat n) bs /\ List.concat (map bank_content bs) = stream t) /\
    forall n' t', greedy (rules_of ds) patL u (hd [] (map fst ds)) 0 n' t' -> n' = n /\ t' = t.
Proof.
  intros fs file ds g C e a u pad B HG HL HE HF HX n t H. pose proof (go_file _ _ _ _ _ HG) as HFL.
  assert (HU : forall c, In c u -> (c < 256)%N) by (intros c Hc; apply (proj1 (proj2 (ce_text _ _ _ _ _ _ _ HE))); apply in_or_app; left; exact Hc).
  assert (ACC : forall n t, greedy (rules_of ds) patL u (hd [] (map fst ds)) 0 n t -> tree_ok t /\ exists bs, returned C (g_root g) e a (a + N.of_nat n) bs /\ List.concat (map bank_content bs) = stream t).
  { intros n0 t0 H0. split.
    - apply (proj1 (greedy_derives (rules_of ds) patL u)) in H0. refine (derives_ok (rules_of ds) patL u (ce_len _ _ _ _ _ _ _ HE) _ _ _ _ _ H0).
      intros name id0 b EB. destruct (rules_from_in ds 1 name id0 b EB) as [_ I2]. destruct HFL as (_ & _ & HLN & _). change (2 ^ 15)%N with 32768%N in *. lia.
    - destruct (greedy_clear _ _ _ _ _ HG u n0 t0 HU HF HX H0) as (id & M & ch & HK & -> & CF). exact (proj2 (C42_clear_texts_partial _ _ _ _ _ _ _ _ _ _ _ _ _ _ HG HL HE HK CF)). }
  destruct (ACC n t H) as [OK (bs & R & S)]. split; [eauto|]. intros n' t' H'. destruct (ACC n' t' H') as [OK' (bs' & R' & S')].
  destruct (grammar_env _ _ _ _ _ _ _ _ _ _ HG HE) as [PE LI]. destruct (file_nets _ _ _ _ _ HFL) as (_ & _ & RT). destruct (root_net fs file ds g C e a u pad B HG HL HE) as (m & _ & _ & EM & _). rewrite RT in R, R'.
  destruct (C18_one_outcome C _ e a u pad B _ _ _ _ PE LI (ex_intro _ m EM) R R') as [E1 E2]. split; [lia|]. apply C15_trees; [exact OK'|exact OK|congruence].
Qed.
Print Assumptions C42_first_character_partial.
(** C33, under the same conditions, when in addition no rule can begin with itself and no repetition can be empty: the generated code always returns;
    it answers with 0 exactly if no beginning of the text has a greedy derivation. *)
Theorem C33_first_character_partial : forall fs file ds g C e a u pad B,
  grammar_ok fs file ds g C -> no_preferences ds -> call_env C ds e a u pad B ->
  first_visible_decides (c_nets C) -> visible_to_end (c_nets C) (hd [] (map fst ds)) ->
  no_left_recursion (rules_of ds) patL -> no_empty_repetition (rules_of ds) patL ->
  ((exists bs, returned C (g_root g) e a 0 bs) <-> forall n t, ~ greedy (rules_of ds) patL u (hd [] (map fst ds)) 0 n t).
Proof.
  intros fs file ds g C e a u pad B HG HL HE HF HX LR ER. pose proof (go_file _ _ _ _ _ HG) as HFL. destruct (grammar_env _ _ _ _ _ _ _ _ _ _ HG HE) as [PE LI]. split.
  - intros [bs R] n t H. destruct (C42_first_character_partial _ _ _ _ _ _ _ _ _ _ HG HL HE HF HX n t H) as [(bs' & R' & _) _].
    destruct (file_nets _ _ _ _ _ HFL) as (_ & _ & RT). destruct (root_net fs file ds g C e a u pad B HG HL HE) as (m & _ & _ & EM & _). rewrite RT in R, R'.
    destruct (C18_one_outcome C _ e a u pad B _ _ _ _ PE LI (ex_intro _ m EM) R R') as [E1 _]. pose proof (pe_addr _ _ _ _ _ _ PE). lia.
  - intros H. destruct (C41_compiled_file_partial _ _ _ _ _ _ _ _ _ _ HG HE LR ER) as (v & bs & R). destruct (N.eq_dec v 0) as [->|NZ]; [eauto|]. exfalso.
    destruct (C42_accepted_greedy _ _ _ _ _ _ _ _ _ _ _ _ HG HL HE R NZ) as (n & t & _ & K & _). exact (H n t K).
Qed.
Print Assumptions C33_first_character_partial.

(** ** Checking the conditions *)
(** The first visible character decides, if no decision table goes on behind a visible character. *)
Lemma blank_tables_decide fs file ds g C : grammar_ok fs file ds g C -> no_preferences ds -> (forall m i, blank_steps (c_look C m i) = true) -> first_visible_decides (c_nets C).
Proof.
  intros HG HL HB name id M i w HM Hi H2 TW. destruct HG as [HF HP HN HPX ((D & HD & HT) & HT2) HCL]. destruct (In_nth_error _ _ HM) as [m EM].
  destruct (HT m i) as [E|(name' & id' & M' & fuel & cf & E & HD')]; [destruct (HT2 _ _ _ _ _ EM Hi H2 E)|]. rewrite EM in E. injection E as <- <- <-.
  destruct (C32_decision_partial fs file ds g C D name id M i fuel cf (c_look C m i) HF HP HL HD HM Hi H2 (HCL _ _ _ _ HM (nth_In _ _ Hi) H2) HD') as [_ DC]. specialize (DC w). apply (blank_steps_ok _ (HB m i) w 0).
  destruct TW as (k & k' & NE & A & A'). assert (FI : forall m0, m0 <= List.length w -> alternative (c_nets C) name i k (firstn m0 w) /\ alternative (c_nets C) name i k' (firstn m0 w)).
  { intros m0 Hm. split; apply (alternative_firstn _ _ _ _ _ m0 (List.length w) Hm); rewrite firstn_all; assumption. }
  destruct (ldfa_go (c_look C m i) 0 w) as [k0| |]; [| |reflexivity]; destruct DC as (m0 & Hm & DC & _); destruct (FI m0 (proj2 Hm)) as [B B'].
  - apply DC in B, B'. congruence.
  - destruct (DC _ B').
Qed.
(** Something visible is still to come: on every way on from a decision one comes to a literal or pattern with a visible character, before any end of a rule. *)
Definition is_blank (c : N) : bool := ((c =? 9) || (c =? 10) || (c =? 13) || (c =? 32))%N.
Definition dfa_visible (D : dfa) : bool := negb (dfa_run D 0 []) && forallb (fun c => match first_tr (dtrs (nth 0 D dnil)) c with Some _ => false | None => true end) [9; 10; 13; 32]%N.
Lemma dfa_visible_ok D t : dfa_visible D = true -> dfa_run D 0 t = true -> ~ spaces t.
Proof.
  unfold dfa_visible. intros H R S. apply andb_true_iff in H as [H1 H2]. rewrite forallb_forall in H2. destruct t as [|c t]; [rewrite R in H1; discriminate|].
  assert (HC : In c [9; 10; 13; 32]%N) by (specialize (S c (or_introl eq_refl)); cbn; intuition congruence). specialize (H2 c HC). cbn [dfa_run] in R. destruct (first_tr _ c); discriminate.
Qed.
Section Stays.
Variable C : compiled.
Definition visible_node (n : nty) : bool := match n with NLit s => existsb (fun c => negb (is_blank c)) (lit_bytes s) | NReg A => dfa_visible (c_dfa C A) | _ => false end.
Fixpoint stays (f : nat) (r : list N) (i : nat) : bool :=
  match f with
  | O => false
  | Datatypes.S f =>
    match LookGrammarSpec.node_of (c_nets C) [(r, i)] with
    | Some n => visible_node (nt n) || match nt n with
      | NInv r' => stays f r' 0
      | NBlank | NWs => match atrs n with [] => false | _ => forallb (fun t => stays f r (fst t)) (atrs n) end
      | _ => false end
    | None => false
    end
  end.
Definition stays_all (f : nat) : bool :=
  forallb (fun x : list N * (N * atn) => forallb (fun n => match atrs n with [] | [_] => true | ts => forallb (fun t => stays f (fst x) (fst t)) ts end) (snd (snd x))) (c_nets C).
Hypothesis HA : forall name id M n A t, In (name, (id, M)) (c_nets C) -> In n M -> nt n = NReg A -> (dfa_run (c_dfa C A) 0 t = true <-> accepts A t).
Definition stays_at (x : spos) : Prop :=
  match x with
  | Before ((r, i) :: _) => exists f, stays f r i = true
  | After ((r, i) :: _) => exists n f, LookGrammarSpec.node_of (c_nets C) [(r, i)] = Some n /\ atrs n <> [] /\ forall d t, In (d, t) (atrs n) -> stays f r d = true
  | _ => False
  end.
Lemma stays_step x v y : tmove (c_nets C) x v y -> spaces v -> stays_at x -> stays_at y.
Proof.
  assert (TOP : forall r i up n, LookGrammarSpec.node_of (c_nets C) ((r, i) :: up) = Some n -> LookGrammarSpec.node_of (c_nets C) [(r, i)] = Some n) by (intros; assumption).
  intros H SV HX. inversion H as [p n w HN HS|p n r HN ES|r i up n d t HN HI|x0 y0 up n HN EA|r i n s j n' HN EA HN' ES]; subst.
  - destruct p as [|[r i] up]; [discriminate|]. apply TOP in HN as HN1. destruct HX as [[|f] HX]; [discriminate|]. cbn [stays] in HX. rewrite HN1 in HX.
    assert (NV : visible_node (nt n) = false).
    { destruct (visible_node (nt n)) eqn:E; [|reflexivity]. exfalso. destruct (nt n) as [|r'|s|A|] eqn:ET; try discriminate; cbn [visible_node spells] in *.
      - subst v. apply existsb_exists in E as (c & Hc & E). specialize (SV c Hc). unfold is_blank in E. lia.
      - unfold LookGrammarSpec.node_of in HN1. destruct (lookup (c_nets C) r) as [[id M]|] eqn:EK; [|discriminate]. apply (dfa_visible_ok _ v E); [|exact SV].
        apply (HA r id M n A v (lookup_in _ _ _ EK) (nth_error_In _ _ HN1) ET). exact HS. }
    rewrite NV in HX. cbn [orb] in HX. assert (K : match atrs n with [] => false | _ => forallb (fun t => stays f r (fst t)) (atrs n) end = true) by (destruct (nt n); try discriminate; try exact HX; destruct HS).
    exists n, f. split; [exact HN1|]. split; [intros E; rewrite E in K; discriminate|]. intros d t HI. assert (K' : forallb (fun t => stays f r (fst t)) (atrs n) = true) by (destruct (atrs n); [discriminate|exact K]).
    rewrite forallb_forall in K'. exact (K' _ HI).
  - destruct p as [|[r0 i] up]; [discriminate|]. apply TOP in HN as HN1. destruct HX as [[|f] HX]; [discriminate|]. cbn [stays] in HX. rewrite HN1, ES in HX. cbn [visible_node orb] in HX. exists f. exact HX.
  - apply TOP in HN as HN1. destruct HX as (n' & f & E & _ & K). rewrite HN1 in E. injection E as <-. exists f. exact (K _ _ HI).
  - destruct x0 as [r i]. apply TOP in HN as HN1. destruct HX as (n' & f & E & K & _). rewrite HN1 in E. injection E as <-. destruct (K EA).
  - destruct HX as (n0 & f & E & K & _). rewrite HN in E. injection E as <-. destruct (K EA).
Qed.
Lemma stays_texts x v y : texts (c_nets C) x v y -> spaces v -> stays_at x -> stays_at y.
Proof.
  induction 1 as [x|x v y w z M T IH]; intros S H; [exact H|]. apply IH; [intros c Hc; apply S; apply in_or_app; right; exact Hc|]. eapply stays_step; [exact M| |exact H]. intros c Hc. apply S. apply in_or_app. left. exact Hc.
Qed.
Lemma stays_visible f root : stays_all f = true -> visible_to_end (c_nets C) root.
Proof.
  intros H name id M i d t j n v HM Hi H2 HI HN EA T S. unfold stays_all in H. rewrite forallb_forall in H. specialize (H _ HM). cbn [fst snd] in H. rewrite forallb_forall in H. specialize (H _ (nth_In M blank Hi)).
  assert (K : stays f name d = true).
  { destruct (atrs (nth i M blank)) as [|t1 [|t2 ts]]; [destruct HI|cbn in H2; lia|]. rewrite forallb_forall in H. exact (H _ HI). }
  destruct (stays_texts _ _ _ T S (ex_intro _ f K)) as (n' & f' & E & K1 & _). rewrite HN in E. injection E as <-. exact (K1 EA).
Qed.
End Stays.

(** ** grammars/json.cgr *)
Lemma json_decides : first_visible_decides (c_nets json_C) /\ visible_to_end (c_nets json_C) (hd [] (map fst json_ds)).
Proof.
  split.
  - apply (blank_tables_decide _ _ _ _ _ json_ok json_plain). assert (B : forallb (forallb blank_steps) json_looks = true) by (vm_compute; reflexivity). intros m i. change (c_look json_C m i) with (nth i (nth m json_looks []) []).
    rewrite forallb_forall in B. destruct (nth_in_or_default m json_looks []) as [HI|E]; [|rewrite E; destruct i; reflexivity]. specialize (B _ HI). rewrite forallb_forall in B.
    destruct (nth_in_or_default i (nth m json_looks []) []) as [HJ|E]; [exact (B _ HJ)|rewrite E; reflexivity].
  - apply (stays_visible json_C) with (f := 40); [|vm_compute; reflexivity]. exact (proj1 (compiled_facts _ _ _ _ _ _ _ _ _ _ json_ok json_plain json_call)).
Qed.
(** The JSON grammar of the repository, and any text whatever (any bytes but NUL, behind it a NUL and 15 more bytes): the generated code returns; it accepts exactly if a beginning of the text has a
    greedy derivation by the rules; then there is only one such beginning, with one derivation, the address behind it is returned and the pages contain the markers of its tree; otherwise the answer is 0. *)
Theorem C42_json_grammar : forall e a u pad B, call_env json_C json_ds e a u pad B ->
  (forall n t, greedy (rules_of json_ds) patL u (str "Object"%string) 0 n t ->
    (exists bs, returned json_C (g_root json_g) e a (a + N.of_nat n) bs /\ List.concat (map bank_content bs) = stream t) /\
    forall n' t', greedy (rules_of json_ds) patL u (str "Object"%string) 0 n' t' -> n' = n /\ t' = t) /\
  ((exists bs, returned json_C (g_root json_g) e a 0 bs) <-> forall n t, ~ greedy (rules_of json_ds) patL u (str "Object"%string) 0 n t).
Proof.
  intros e a u pad B HE. destruct json_decides as [H1 H2]. destruct json_ends as [E1 E2]. split.
  - exact (C42_first_character_partial _ _ _ _ _ _ _ _ _ _ json_ok json_plain HE H1 H2).
  - exact (C33_first_character_partial _ _ _ _ _ _ _ _ _ _ json_ok json_plain HE H1 H2 E1 E2).
Qed.
Print Assumptions C42_json_grammar.
(** The hypotheses are met, by a text that is accepted and by one that is not. *)
Example C42_greedy_hyp : call_env json_C json_ds json_env 1000 json_in json_pad 64 /\ greedy (rules_of json_ds) patL json_in (str "Object"%string) 0 22 json_tree /\
  call_env json_C json_ds cut_env 1000 cut_in json_pad 64 /\ (forall n t, ~ greedy (rules_of json_ds) patL cut_in (str "Object"%string) 0 n t) /\
  first_visible_decides (c_nets json_C) /\ visible_to_end (c_nets json_C) (str "Object"%string) /\ no_left_recursion (rules_of json_ds) patL /\ no_empty_repetition (rules_of json_ds) patL.
Proof.
  split; [exact json_call|]. split.
  - destruct C42_hyp as (_ & _ & _ & ch & CF & E). destruct (gr_root _ _ _ _ _ json_ok) as (id & M & HK). rewrite <- E. assert (id = 1%N) as -> by (vm_compute in HK; injection HK as <- _; reflexivity).
    exact (clear_greedy _ _ _ _ _ json_ok json_in 22 1%N M ch HK CF).
  - split; [exact cut_call|]. split; [|split; [exact (proj1 json_decides)|]; split; [exact (proj2 json_decides)|exact json_ends]].
    apply (proj2 (C42_json_grammar _ _ _ _ _ cut_call)). exists [cut_bank]. exact cut_returned.
Qed.
