(** * C33: rejected texts, exactly *)
From Coq Require Import String Ascii.
From Coq Require Import List NArith ZArith Arith Bool Lia Relations ZifyBool ZifyN ZifyNat Permutation.
From Verif Require Import CharClass CharClassSpec Stream StreamSpec NFA NFASem NFAProofs NFABuild NFAParse DFA DFAProofs DFAMin RegexSpec GrammarSpec Marker TreeSpec ParseSpec Reduction ReductionProofs Writer WriterProofs X86 X86Step CodeGen CodeGenProofs CodeGenSimd CodeGenDfa CodeGenPlain CodeGenMisc CodeGenRoutine ATN ATNSem ATNBuild ATNOpt ATNLive Grammar GrammarProofs Properties_CodeGen Properties_Grammar ParserGen ParserRun ParserSim ParserTree ParserTop ParserTerm Properties_Parser Properties_ParserCases
  Lookahead LookSpec LookImport LookRead LookSim LookGrammar LookWf LookFit LookNul LookFuel Properties_Look Properties_Compile LookGrammarSpec ClearSpec ParserComplete Properties_Complete GrammarCheck CompileCheck Properties_CompileCases Properties_CompleteCases LoopSpec Properties_Loop StuckSpec RejectBanks StuckProofs.
Import ListNotations.
Local Open Scope nat_scope.

Lemma fok_forall ch : fok ch <-> Forall tree_ok ch.
Proof. unfold fok. induction ch as [|c ch IH]; cbn; split; intros H; [constructor|exact Logic.I|constructor; [exact (proj1 H)|apply IH, (proj2 H)]|inversion H; subst; split; [assumption|apply IH; assumption]]. Qed.
Lemma tree_ok_node id s e ch : tree_ok (Node id s e ch) <-> (1 <= id < 2 ^ 15)%N /\ (s < 2 ^ 48)%N /\ (e < 2 ^ 48)%N /\ fok ch.
Proof. reflexivity. Qed.
Lemma in_skipn (w : N) n l : In w (skipn n l) -> In w l.
Proof. intros H. rewrite <- (firstn_skipn n l). apply in_or_app. right. exact H. Qed.
Lemma open_nonzero fs : Forall frame_ok fs -> forall w, In w (List.concat (map open_words fs)) -> w <> 0%N.
Proof.
  intros HF w Hw. apply in_concat in Hw as (l & H1 & H2). apply in_map_iff in H1 as (x & <- & H1). rewrite Forall_forall in HF. destruct (HF x H1) as (K1 & K2 & K3). destruct x as [[id st] ch]. cbn [fst snd] in *.
  destruct H2 as [<-|H2].
  - assert (G : tree_ok (Node id st 0 [])) by (apply tree_ok_node; cbn; repeat split; try exact K2; try apply K1; lia). apply (stream_nonzero _ G). left. reflexivity.
  - apply in_concat in H2 as (l & H3 & H4). cbn [snd] in H3. apply in_map_iff in H3 as (t & <- & H3). rewrite Forall_forall in K3. exact (stream_nonzero t (K3 t H3) w H4).
Qed.

Section One.
Variables (fs : list N -> list N) (file : list N) (ds : list (list N * gsel)) (g : gstate) (C : compiled) (e : env) (a : N) (u pad : list N) (B : nat).
Hypothesis HG : grammar_ok fs file ds g C.
Hypothesis HL : no_preferences ds.
Hypothesis HE : call_env C ds e a u pad B.
Notation root := (hd [] (map fst ds)).

Lemma fit_ds : numbers_fit (rules_of ds).
Proof. intros name id0 b EB. destruct (rules_from_in ds 1 name id0 b EB) as [_ I2]. destruct (go_file _ _ _ _ _ HG) as (_ & _ & HLN & _). change (2 ^ 15)%N with 32768%N in *. lia. Qed.
Lemma ids_fit r id M : lookup (c_nets C) r = Some (id, M) -> (1 <= id < 2 ^ 15)%N.
Proof. intros E. apply lookup_in in E. destruct (file_net _ _ _ _ _ (go_file _ _ _ _ _ HG) _ _ _ E) as (b & _ & _ & EB). exact (fit_ds _ _ _ EB). Qed.
Lemma root_net : exists m id M, net_index (c_nets C) root = Some m /\ nth_error (c_nets C) m = Some (root, (id, M)) /\ lookup (c_nets C) root = Some (id, M) /\ net_of C m = (id, M) /\ 0 < length M.
Proof.
  pose proof (go_file _ _ _ _ _ HG) as HF.
  assert (RD : In root (map fst ds)) by (destruct HF as (_ & _ & HLN & _); destruct ds; [cbn in HLN; lia|left; reflexivity]).
  destruct (net_index (c_nets C) root) as [m|] eqn:EM.
  2: { apply net_index_none in EM. destruct (lookup_some (c_nets C) _ (file_names _ _ _ _ _ HF _ RD)) as [x' E']. congruence. }
  destruct (index_in C _ m EM) as (id & M & E1 & E2 & E3). exists m, id, M. destruct (compiled_facts fs file ds g C e a u pad B HG HL HE) as (_ & _ & _ & _ & WF). destruct (WF _ _ _ (nth_error_In _ _ E1)) as [W1 _ _ _]. auto.
Qed.
(** A finished subtree is a derivation, with all lengths fitting. *)
Lemma whole_derives t : whole (c_nets C) u t -> tree_ok t /\ exists x id p q ch, t = Node id (N.of_nat p) (N.of_nat q) ch /\ p <= q <= length u /\ derives (rules_of ds) patL u x p q t.
Proof.
  intros (x & id & M & p & q & ch & HR & LE & HC & ->). pose proof (ce_len _ _ _ _ _ _ _ HE) as HU. change (2 ^ 48)%N with 281474976710656%N in *.
  assert (OK : tree_ok (Node id (N.of_nat p) (N.of_nat q) ch)).
  { apply tree_ok_node. destruct (proj1 (clear_ok (c_nets C) u ids_fit HU) _ _ _ _ _ HC ltac:(lia)) as [_ Q]. change (2 ^ 48)%N with 281474976710656%N. split; [exact (ids_fit _ _ _ HR)|]. split; [lia|]. split; [lia|exact Q]. }
  split; [exact OK|]. exists x, id, p, q, ch. split; [reflexivity|]. split; [exact LE|].
  destruct (compiled_facts fs file ds g C e a u pad B HG HL HE) as (HA & HLK & HLC & _ & WF).
  destruct (net_index (c_nets C) x) as [m|] eqn:EM; [|apply net_index_none in EM; congruence]. destruct (index_in C x m EM) as (id' & M' & E1 & E2 & E3). rewrite HR in E2. injection E2 as <- <-.
  destruct (proj1 (clear_run C u HA HLK HLC) _ _ _ _ _ HC m EM) as [f RUN].
  assert (RM : run_machine C u f m p = POk q (stream (Node id (N.of_nat p) (N.of_nat q) ch))) by (unfold run_machine; rewrite RUN, E3; reflexivity).
  destruct (machine_tree C u WF (fun k i _ => HLC k i) f x m p q _ EM ltac:(lia) RM) as (t' & DT & ET & LT).
  destruct (file_nets _ _ _ _ _ (go_file _ _ _ _ _ HG)) as (ND & NETS & RT).
  assert (PS : pats_sound (rules_of ds) patL C).
  { intros name id0 b w t0 EB I1 EA. apply (pattern_exact_lang C w); [|exact EA]. destruct HG as [HF HP HN HPX HD HCL]. refine (HPX name b w _ I1). apply (rules_from_in ds 1 name id0 b EB). }
  apply (derives_lift (rules_of ds) patL C u NETS PS) in DT. pose proof (derives_ok (rules_of ds) patL u HU fit_ds _ _ _ _ DT) as OK'.
  assert (t' = Node id (N.of_nat p) (N.of_nat q) ch) as -> by (apply stream_inj; [exact OK'|exact OK|symmetry; exact ET]). exact DT.
Qed.
Lemma begun_ok x : begun (c_nets C) u x -> (1 <= fst (fst x) < 2 ^ 15)%N /\ (snd (fst x) < 2 ^ 48)%N.
Proof. intros (r & M & p & HR & LE & E). split; [exact (ids_fit _ _ _ HR)|]. rewrite E. pose proof (ce_len _ _ _ _ _ _ _ HE) as HU. change (2 ^ 48)%N with 281474976710656%N in *. lia. Qed.
Lemma frames_ok us : Forall (whole (c_nets C) u) (finished us) -> Forall (begun (c_nets C) u) us -> Forall frame_ok us.
Proof.
  intros H1 H2. induction H2 as [|x us HX _ IH]; [constructor|]. unfold finished in H1. cbn [map List.concat] in H1. apply Forall_app in H1 as [H1 H3]. constructor; [|exact (IH H3)].
  destruct (begun_ok x HX) as [K1 K2]. split; [exact K1|]. split; [exact K2|]. eapply Forall_impl; [|exact H1]. intros t HT. exact (proj1 (whole_derives t HT)).
Qed.
Lemma reject_frames id M ch us : lookup (c_nets C) root = Some (id, M) -> stuck_from (c_nets C) u root 0 0 ch us -> Forall (whole (c_nets C) u) (finished ((id, 0%N, ch) :: us)) /\ Forall frame_ok ((id, 0%N, ch) :: us).
Proof.
  intros HR HS. destruct (stuck_whole _ _ _ _ _ _ _ HS ltac:(lia)) as [S1 S2]. split; [exact S1|]. apply frames_ok; [exact S1|]. constructor; [|exact S2]. exists root, M, 0. split; [exact HR|]. split; [lia|reflexivity].
Qed.
Lemma reject_banks bs : returned C (g_root g) e a 0 bs <->
  exists id M ch us, lookup (c_nets C) root = Some (id, M) /\ stuck_from (c_nets C) u root 0 0 ch us /\ write_reject B B (stale e) (List.concat (map open_words ((id, 0%N, ch) :: us))) = Ok bs.
Proof.
  destruct (grammar_env _ _ _ _ _ _ _ _ _ _ HG HE) as [PE LI]. destruct (file_nets _ _ _ _ _ (go_file _ _ _ _ _ HG)) as (ND & NETS & RT). rewrite RT.
  destruct root_net as (m & id & M & EM & E1 & E2 & E3 & L). destruct (compiled_facts fs file ds g C e a u pad B HG HL HE) as (HA & HLK & HLC & HLD & WF).
  rewrite (returned_iff C root e a u pad B m PE EM LI). split.
  - intros [f H]. unfold run_machine in H. destruct (run_node C u f m 0 0) as [n ws|ws| |] eqn:RN; cbn [ParserRun.pre] in H; try contradiction.
    + destruct H as [H _]. pose proof (pe_addr _ _ _ _ _ _ PE). lia.
    + destruct (run_stuck C u WF HA HLK HLC (li_nul _ LI) HLD f root m 0 0 ws EM ltac:(rewrite E3; exact L) ltac:(lia) RN) as (ch & us & S1 & S2). exists id, M, ch, us. split; [exact E2|]. split; [exact S1|].
      rewrite E3 in H. cbn [fst] in H. rewrite S2 in H. exact (proj2 H).
  - intros (id' & M' & ch & us & R1 & S1 & W). rewrite E2 in R1. injection R1 as <- <-. destruct (stuck_run C u WF HA HLK HLC (li_nul _ LI) HLD _ _ _ _ _ S1 m EM ltac:(lia)) as [f RN]. exists f. unfold run_machine. rewrite RN. cbn [ParserRun.pre].
    split; [reflexivity|]. rewrite E3. exact W.
Qed.
End One.

(** C33.  For a grammar file as in C42, and any text: the generated code answers with 0 if and only if the parse from the root rule gets stuck
    (StuckSpec.v).  Missing (as in C42): grammars with preferences, and those that have no tables. *)
Theorem C33_rejected_exactly_partial : forall fs file ds g C e a u pad B, grammar_ok fs file ds g C -> no_preferences ds -> call_env C ds e a u pad B ->
  ((exists bs, returned C (g_root g) e a 0 bs) <-> exists ch us, stuck_from (c_nets C) u (hd [] (map fst ds)) 0 0 ch us).
Proof.
  intros fs file ds g C e a u pad B HG HL HE. destruct (grammar_env _ _ _ _ _ _ _ _ _ _ HG HE) as [PE _]. split.
  - intros [bs H]. apply (reject_banks fs file ds g C e a u pad B HG HL HE) in H as (id & M & ch & us & _ & S1 & _). exists ch, us. exact S1.
  - intros (ch & us & S1). destruct (root_net fs file ds g C e a u pad B HG HL HE) as (m & id & M & _ & _ & E2 & _).
    destruct (reject_frames fs file ds g C e a u pad B HG HL HE id M ch us E2 S1) as [_ FO].
    destruct (write_reject_words B (stale e) (pe_page _ _ _ _ _ _ PE) (pe_stale _ _ _ _ _ _ PE) _ (open_nonzero _ FO)) as (bs & W & _). exists bs. apply (reject_banks fs file ds g C e a u pad B HG HL HE). exists id, M, ch, us. auto.
Qed.
Print Assumptions C33_rejected_exactly_partial.

(** What the pages hold then: for every rule that has been begun and not ended its start marker and the markers of its finished subtrees, and behind them, up to the
    first empty word, what was in the last page before.  The finished subtrees are derivations of parts of the text. *)
Theorem C33_rejected_pages_partial : forall fs file ds g C e a u pad B bs, grammar_ok fs file ds g C -> no_preferences ds -> call_env C ds e a u pad B -> returned C (g_root g) e a 0 bs ->
  exists id M ch us, lookup (c_nets C) (hd [] (map fst ds)) = Some (id, M) /\ stuck_from (c_nets C) u (hd [] (map fst ds)) 0 0 ch us /\
    let ws := List.concat (map open_words ((id, 0%N, ch) :: us)) in
    List.concat (map bank_content bs) = ws ++ bank_content (skipn (length ws mod B) (stale e (length ws / B))) /\
    Forall (fun t => exists x id p q ch, t = Node id (N.of_nat p) (N.of_nat q) ch /\ p <= q <= length u /\ derives (rules_of ds) patL u x p q t) (finished ((id, 0%N, ch) :: us)).
Proof.
  intros fs file ds g C e a u pad B bs HG HL HE H. destruct (grammar_env _ _ _ _ _ _ _ _ _ _ HG HE) as [PE _].
  apply (reject_banks fs file ds g C e a u pad B HG HL HE) in H as (id & M & ch & us & E2 & S1 & W). exists id, M, ch, us. split; [exact E2|]. split; [exact S1|].
  destruct (reject_frames fs file ds g C e a u pad B HG HL HE id M ch us E2 S1) as [WH FO].
  destruct (write_reject_words B (stale e) (pe_page _ _ _ _ _ _ PE) (pe_stale _ _ _ _ _ _ PE) _ (open_nonzero _ FO)) as (bs' & W' & _ & K). rewrite W in W'. injection W' as <-. split; [exact K|].
  eapply Forall_impl; [|exact WH]. intros t HT. exact (proj2 (whole_derives fs file ds g C e a u pad B HG HL HE t HT)).
Qed.
Print Assumptions C33_rejected_pages_partial.

(** When the pages were empty before: whatever the callback, the parse of a rejected text presents the value of the first finished subtree that has
    a value, and the callback is called for the nodes of the finished subtrees, each once, and for nothing else. *)
Theorem C33_rejected_value_partial : forall fs file ds g C e a u pad B bs, grammar_ok fs file ds g C -> no_preferences ds -> call_env C ds e a u pad B ->
  (forall k w, In w (stale e k) -> w = 0%N) -> returned C (g_root g) e a 0 bs ->
  exists id M ch us, lookup (c_nets C) (hd [] (map fst ds)) = Some (id, M) /\ stuck_from (c_nets C) u (hd [] (map fst ds)) 0 0 ch us /\
    let ts := finished ((id, 0%N, ch) :: us) in
    forall f v, exists logs2 log3, parse_value f v bs = Ok (hd 0%N (filter (fun v => negb (v =? 0)%N) (map (eval f) ts)), logs2, log3) /\
      Interleave (List.concat logs2) log3 (List.concat (map (calls f) ts)).
Proof.
  intros fs file ds g C e a u pad B bs HG HL HE HZ H. destruct (grammar_env _ _ _ _ _ _ _ _ _ _ HG HE) as [PE _].
  apply (reject_banks fs file ds g C e a u pad B HG HL HE) in H as (id & M & ch & us & E2 & S1 & W). exists id, M, ch, us. split; [exact E2|]. split; [exact S1|]. intros ts f v.
  destruct (reject_frames fs file ds g C e a u pad B HG HL HE id M ch us E2 S1) as [WH FO].
  destruct (write_reject_words B (stale e) (pe_page _ _ _ _ _ _ PE) (pe_stale _ _ _ _ _ _ PE) _ (open_nonzero _ FO)) as (bs' & W' & _ & K). rewrite W in W'. injection W' as <-.
  rewrite zeros_content in K by (intros w Hw; exact (HZ _ w (in_skipn _ _ _ Hw))).
  rewrite app_nil_r in K. exact (reduction_open f 0%Z bs ((id, 0%N, ch) :: us) ltac:(lia) ltac:(discriminate) FO K).
Qed.
Print Assumptions C33_rejected_value_partial.

(** Every text is accepted, rejected, or keeps the parser going round for ever: the root rule has a clear parse, or a stuck one, or a walk that goes round, and never two of these. *)
Theorem C33_three_ways_partial : forall fs file ds g C e a u pad B, grammar_ok fs file ds g C -> no_preferences ds -> call_env C ds e a u pad B ->
  let r := hd [] (map fst ds) in
  let acc := exists n ch, clear_from (c_nets C) u r 0 0 n ch in let rej := exists ch us, stuck_from (c_nets C) u r 0 0 ch us in let rnd := goes_round (c_nets C) u r in
  ((acc -> ~ rej /\ ~ rnd) /\ (rej -> ~ acc /\ ~ rnd) /\ (~ rnd -> acc \/ rej)).
Proof.
  intros fs file ds g C e a u pad B HG HL HE r acc rej rnd. destruct (grammar_env _ _ _ _ _ _ _ _ _ _ HG HE) as [PE LI]. destruct (file_nets _ _ _ _ _ (go_file _ _ _ _ _ HG)) as (ND & NETS & RT).
  destruct (root_net fs file ds g C e a u pad B HG HL HE) as (m & id & M & EM & _ & E2 & _).
  pose proof (C41_exactly_when _ _ _ _ _ _ _ _ _ _ HG HL HE) as K1. pose proof (C33_rejected_exactly_partial _ _ _ _ _ _ _ _ _ _ HG HL HE) as K2. fold r in K1, K2. fold rnd in K1. fold rej in K2.
  assert (A1 : acc -> exists v bs, v <> 0%N /\ returned C (g_root g) e a v bs).
  { intros (n & ch & H). destruct (C42_clear_texts_partial _ _ _ _ _ _ _ _ _ _ _ _ _ _ HG HL HE E2 H) as (_ & bs & R & _). exists (a + N.of_nat n)%N, bs. split; [|exact R]. pose proof (pe_addr _ _ _ _ _ _ PE). lia. }
  assert (ONE : acc -> ~ rej).
  { intros HA HR. destruct (A1 HA) as (v & bs & NZ & R). destruct (proj2 K2 HR) as [bs' R']. rewrite RT in R, R'. destruct (C18_one_outcome C r e a u pad B v bs 0%N bs' PE LI (ex_intro _ m EM) R R') as [E _]. exact (NZ E). }
  split; [|split].
  - intros HA. split; [exact (ONE HA)|]. apply (proj1 K1). destruct (A1 HA) as (v & bs & _ & R). eauto.
  - intros HR. split; [intros HA; exact (ONE HA HR)|]. apply (proj1 K1). destruct (proj2 K2 HR) as [bs R]. eauto.
  - intros NR. destruct (proj2 K1 NR) as (v & bs & R). destruct (N.eq_dec v 0) as [->|NZ]; [right; apply K2; eauto|left].
    destruct (C42_accepted_clear_partial _ _ _ _ _ _ _ _ _ _ _ _ HG HL HE R NZ) as (n & id' & M' & ch & _ & _ & CF & _). exists n, ch. exact CF.
Qed.
Print Assumptions C33_three_ways_partial.

(** ** grammars/json.cgr and the text [1,2 *)
Definition cut_in : list N := str "[1,2"%string.
Definition cut_env : env := X86.mkE (mem (only 1000 (cut_in ++ 0%N :: json_pad))) 5 64 json_old (fun k => 4096%N) (fun _ _ => 77%N).
Lemma json_plain : no_preferences json_ds.
Proof. intros name b H. cbn in H. repeat (destruct H as [H|H]; [injection H as <- <-; cbn; tauto|]). destruct H. Qed.
Lemma cut_call : call_env json_C json_ds cut_env 1000 cut_in json_pad 64.
Proof.
  destruct json_read as [mid E]. apply (check_env 100 64 json_title json_text json_ds json_g mid json_looks json_checked cut_in json_pad json_old); [lia|reflexivity|cbn; lia| | |reflexivity|reflexivity].
  - intros c Hc. assert (F : forallb (fun c => (c <? 256)%N) (cut_in ++ 0%N :: json_pad) = true) by (vm_compute; reflexivity). rewrite forallb_forall in F. specialize (F c Hc). lia.
  - intros c Hc. assert (F : forallb (fun c => negb (c =? 0)%N) cut_in = true) by (vm_compute; reflexivity). rewrite forallb_forall in F. specialize (F c Hc). lia.
Qed.
Definition cut_open : list unfinished := [(1, 0, []); (4, 0, [Node 1 1 2 [Node 2 1 2 []]; Node 1 3 4 [Node 2 3 4 []]])]%N.
Definition cut_bank : list N := Eval vm_compute in match write_reject 64 64 json_old (List.concat (map open_words cut_open)) with Ok [x] => x | _ => [] end.
Lemma cut_returned : returned json_C (g_root json_g) cut_env 1000 0 [cut_bank].
Proof.
  destruct (grammar_env _ _ _ _ _ _ _ _ _ _ json_ok cut_call) as [PE LI]. apply (returned_iff json_C (g_root json_g) cut_env 1000 cut_in json_pad 64 0 PE eq_refl LI). exists 200. vm_compute. split; reflexivity.
Qed.
(** C33 is false for the JSON grammar of the repository even when all memory was empty before: the text [1,2 is cut short, the generated code answers with 0, and Context::parse then presents
    the value of the object 1 (characters 1 to 2) as the value of the text; the callback is called for the two numbers and the two objects around them. *)
Theorem C33_cut_text_refuted : exists fs file ds g C e u pad bs,
  deliver (fs file) = json_text /\ grammar_ok fs file ds g C /\ no_preferences ds /\ call_env C ds e 1000 u pad 64 /\ (forall k w, In w (stale e k) -> w = 0%N) /\ u = str "[1,2"%string /\
  returned C (g_root g) e 1000 0 bs /\
  forall f, (forall id s en vs, f id s en vs <> 0%N) ->
    let n1 := f 2%N 1%N 2%N [] in let n2 := f 2%N 3%N 4%N [] in
    exists logs2 log3, parse_value f 0 bs = Ok (f 1%N 1%N 2%N [n1], logs2, log3) /\
      Interleave (List.concat logs2) log3 [mkCall 2 1 2 []; mkCall 1 1 2 [n1]; mkCall 2 3 4 []; mkCall 1 3 4 [n2]]%N.
Proof.
  exists (fun _ => json_text), [], json_ds, json_g, json_C, cut_env, cut_in, json_pad, [cut_bank].
  split; [reflexivity|]. split; [exact json_ok|]. split; [exact json_plain|]. split; [exact cut_call|]. split; [intros k w H; exact (repeat_spec _ _ _ H)|]. split; [reflexivity|]. split; [exact cut_returned|].
  intros f NZ n1 n2. assert (FO : Forall frame_ok cut_open) by (repeat constructor; cbn; try lia).
  destruct (reduction_open f 0%Z [cut_bank] cut_open ltac:(lia) ltac:(discriminate) FO eq_refl) as (l2 & l3 & R1 & R2). exists l2, l3.
  assert (Z : forall id s en vs, negb (f id s en vs =? 0)%N = true) by (intros id s en vs; pose proof (NZ id s en vs); lia).
  cbn [finished cut_open map List.concat snd app eval calls filter] in R1, R2. rewrite !Z in R1, R2. cbn [filter] in R1, R2. rewrite !Z in R1. cbn [hd app] in R1, R2. split; [exact R1|exact R2].
Qed.
Print Assumptions C33_cut_text_refuted.
(** The hypotheses of the theorems above are met: the text [1,2 of the JSON grammar is rejected, so its parse gets stuck, and has neither a clear parse nor a walk that goes round. *)
Example C33_rejected_hyp : grammar_ok (fun _ => json_text) [] json_ds json_g json_C /\ no_preferences json_ds /\ call_env json_C json_ds cut_env 1000 cut_in json_pad 64 /\
  (exists ch us, stuck_from (c_nets json_C) cut_in (hd [] (map fst json_ds)) 0 0 ch us) /\ (forall n ch, ~ clear_from (c_nets json_C) cut_in (hd [] (map fst json_ds)) 0 0 n ch) /\
  ~ goes_round (c_nets json_C) cut_in (hd [] (map fst json_ds)).
Proof.
  split; [exact json_ok|]. split; [exact json_plain|]. split; [exact cut_call|].
  pose proof (proj1 (C33_rejected_exactly_partial _ _ _ _ _ _ _ _ _ _ json_ok json_plain cut_call) (ex_intro _ _ cut_returned)) as R. split; [exact R|].
  destruct (C33_three_ways_partial _ _ _ _ _ _ _ _ _ _ json_ok json_plain cut_call) as (_ & K & _). destruct (K R) as [K1 K2]. split; [intros n ch H; apply K1; eauto|exact K2].
Qed.
