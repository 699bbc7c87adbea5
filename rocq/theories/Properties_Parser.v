(** * C18, C26, C33 and end-to-end statements: the whole generated parser *)
From Coq Require Import List NArith ZArith Arith Bool Lia ZifyBool ZifyN ZifyNat Permutation.
From Verif Require Import CharClass Stream NFA NFASem NFABuild NFAParse DFA DFAProofs DFAMin RegexSpec GrammarSpec Marker Reduction ReductionProofs TreeSpec ParseSpec Writer WriterProofs Protocol ProtocolInv ProtocolLive PipelineProofs X86 CodeGen CodeGenProofs CodeGenSimd CodeGenDfa CodeGenMisc CodeGenRoutine ATN ATNSem ATNBuild ATNOpt ATNLive Grammar GrammarProofs Properties_Grammar ParserGen ParserRun ParserSim ParserTree ParserTop SymCtx.
Import ListNotations.
Local Open Scope nat_scope.

(** Numbers that fit a marker. *)
Definition numbers_fit (rules : list N -> option (N * gsel)) : Prop := forall name id e, rules name = Some (id, e) -> (1 <= id < 2 ^ 15)%N.

Lemma accepted_tree : forall rules matches C root e a u pad B v bs,
  parser_env C e a u pad B -> linked C -> nets_of rules C -> pats_sound rules matches C -> numbers_fit rules -> (N.of_nat (length u) < 2 ^ 48)%N ->
  rules root <> None -> returned C root e a v bs -> v <> 0%N ->
  exists n t, v = (a + N.of_nat n)%N /\ n <= length u /\ derives rules matches u root 0 n t /\ List.concat (map bank_content bs) = stream t /\ write_accept B B (stale e) (stream t) = Ok bs /\
    nested 0 (N.of_nat n) t /\ tree_ok t.
Proof.
  intros rules matches C root e a u pad B v bs HE HK HN HP HF HU HR HV NZ.
  destruct (net_index (c_nets C) root) as [m|] eqn:EM; [|apply (proj1 HN) in EM; contradiction].
  apply (returned_iff C root e a u pad B m HE EM HK) in HV as [f HV].
  assert (WF : forall name id M, In (name, (id, M)) (c_nets C) -> wf_net M) by (intros name id M H; destruct (proj2 HN _ _ _ H) as (x & _ & X); exact (net_for_wf _ _ X)).
  assert (HL : forall k i, i < length (snd (net_of C k)) -> 2 <= length (atrs (node_of C k i)) -> lcodable (c_look C k i) (length (atrs (node_of C k i)))).
  { intros k i Hi H2. destruct (Nat.lt_ge_cases k (length (c_nets C))) as [L|L].
    - pose proof (nth_error_nth' (c_nets C) ([], (0%N, [])) L) as E. unfold node_of, net_of in *. destruct (nth k (c_nets C) ([], (0%N, []))) as [name [id M]]. exact (ok_look _ _ (pe_gen _ _ _ _ _ _ HE) k name id M i E Hi H2).
    - unfold net_of in Hi. rewrite nth_overflow in Hi by exact L. cbn in Hi. lia. }
  destruct (run_machine C u f m 0) as [n ws|ws| |] eqn:ER; try contradiction; [|destruct HV; contradiction]. destruct HV as [-> HV].
  destruct (machine_tree C u WF HL f root m 0 n ws EM ltac:(lia) ER) as (t & D & -> & L). apply (derives_lift rules matches C u HN HP) in D. exists n, t.
  pose proof (derives_ok rules matches u HU HF _ _ _ _ D) as OK.
  split; [reflexivity|]. split; [lia|]. split; [exact D|]. split; [|split; [exact HV|split; [exact (proj1 (derives_nested _ _ _ _ _ _ _ D))|exact OK]]].
  destruct (write_accept_correct B (stale e) (pe_page _ _ _ _ _ _ HE) (pe_stale _ _ _ _ _ _ HE) (stream t) (stream_nonzero t OK)) as (bs' & E & E2 & _). rewrite E in HV. injection HV as <-. exact E2.
Qed.
(** C18.  Whatever the grammar, the input and the page size: if the generated code returns an address, it is the
    address n characters into the input, those n characters are derived from the root rule with a
    tree t, and the pages contain exactly the markers of t: start, those of the children, end. *)
Theorem C18_marker_stream : forall rules matches C root e a u pad B v bs,
  parser_env C e a u pad B -> linked C -> nets_of rules C -> pats_sound rules matches C -> numbers_fit rules -> (N.of_nat (length u) < 2 ^ 48)%N ->
  rules root <> None -> returned C root e a v bs -> v <> 0%N ->
  exists n t, v = (a + N.of_nat n)%N /\ n <= length u /\ derives rules matches u root 0 n t /\ List.concat (map bank_content bs) = stream t /\
    nested 0 (N.of_nat n) t /\ tree_ok t.
Proof.
  intros rules matches C root e a u pad B v bs HE HK HN HP HF HU HR HV NZ.
  destruct (accepted_tree rules matches C root e a u pad B v bs HE HK HN HP HF HU HR HV NZ) as (n & t & H1 & H2 & H3 & H4 & _ & H5 & H6). exists n, t. repeat (split; [assumption|]). assumption.
Qed.
Print Assumptions C18_marker_stream.
(** In any case a call has at most one outcome, and never leaves the code, the pages or mapped memory. *)
Theorem C18_no_fault : forall C root e a u pad B r x p sv q s, parser_env C e a u pad B -> linked C -> (exists m, net_index (c_nets C) root = Some m) -> call_regs e a r ->
  star (parser_code C root) e (start_state C root e r x p sv q) s -> pc s = [] \/ exists s', X86.step (parser_code C root) e s = Next s'.
Proof. intros C root e a u pad B r x p sv q s HE HK [m HM] HC HS. exact (never_faults C root e a u pad B m HE HM HK r x p sv q s HC HS). Qed.
Print Assumptions C18_no_fault.
Theorem C18_one_outcome : forall C root e a u pad B v bs v' bs', parser_env C e a u pad B -> linked C -> (exists m, net_index (c_nets C) root = Some m) ->
  returned C root e a v bs -> returned C root e a v' bs' -> v = v' /\ bs = bs'.
Proof.
  intros C root e a u pad B v bs v' bs' HE HK [m HM] H H'. destruct H as (r & x & p & sv & q & s & (R1 & R2 & R3) & S0 & PC & RA & BS).
  apply (returned_iff C root e a u pad B m HE HM HK) in H' as [f HV]. pose proof (parser_run C root e a u pad B (pe_gen _ _ _ _ _ _ HE) (pe_text _ _ _ _ _ _ HE) (pe_addr _ _ _ _ _ _ HE) (pe_nul _ _ _ _ _ _ HE) (pe_page _ _ _ _ _ _ HE) (pe_words _ _ _ _ _ _ HE) (pe_buf _ _ _ _ _ _ HE) (pe_fit _ _ _ _ _ _ HE) r x p sv q m HM R1 R2 R3 f) as RUN.
  destruct (run_machine C u f m 0) as [n ws|ws| |]; try contradiction; destruct RUN as (s' & S' & PC' & RA' & W & _); pose proof (final_eq _ _ _ _ _ S0 S' PC PC') as <-; destruct HV as [-> HV]; split; congruence.
Qed.
Print Assumptions C18_one_outcome.

(** ** From the grammar file *)
(** The automaton of a pattern is the default one, and merging states has not changed it (C09). *)
Definition pattern_exact (C : compiled) (p : pat) : Prop :=
  pat_ok p /\ pat_safe p /\ exists fuel ef D, dfa_plain fuel ef (build_pat p) = Some D /\ dfa_build fuel ef (build_pat p) = Some (c_dfa C (build_pat p)) /\
    forall i j, i < length D -> j < length D -> trs_eqb (dtrs (nth i D dnil)) (dtrs (nth j D dnil)) = true -> dacc (nth i D dnil) = dacc (nth j D dnil).
Lemma pattern_exact_lang C p : pattern_exact C p -> forall t, dfa_run (c_dfa C (build_pat p)) 0 t = true <-> patL p t.
Proof.
  intros (H1 & H2 & fuel & ef & D & HD & HB & HC) t. unfold dfa_build in HB. rewrite HD in HB. injection HB as <-.
  destruct (dfa_plain_range fuel ef _ D HD) as (L & R & _). rewrite (minimize_language D t L R HC). rewrite (dfa_plain_language _ _ _ _ t HD).
  destruct (proj2 (proj2 build_spec) p H1) as (_ & HA & _). rewrite HA. split; [apply (proj2 (proj2 sound) p H2)|apply (proj2 (proj2 complete))].
Qed.
Lemma declared_nets fs file ds g : declares fs file ds -> (N.of_nat (length ds) <= 65534)%N -> Properties_Grammar.reads fs file g ->
  NoDup (map fst (g_nets g)) /\ (forall name, match lookup (g_nets g) name with Some (id, M) => exists e, rules_of ds name = Some (id, e) /\ M = build_body true e | None => rules_of ds name = None end) /\
  g_root g = hd [] (map fst ds).
Proof.
  intros HD HL HR. destruct (C16_declared_rules fs file ds HD HL) as (g' & HR' & HI & HN).
  assert (g' = g) as ->. { destruct HR as (f1 & m1 & E1), HR' as (f2 & m2 & E2). assert (Q : read_grammar f1 fs file = read_grammar f2 fs file) by (apply C37_one_outcome; congruence). congruence. }
  destruct HR as (fu & mid & E). pose proof (gread_inv _ _ _ _ _ _ _ _ inv_empty E) as I. split; [exact (i_nodup _ _ I)|]. split.
  - intros name. destruct (in_dec (list_eq_dec N.eq_dec) name (map fst ds)) as [H|H].
    + destruct (first_nth ds name H) as (j & b & A1 & A2). rewrite (HN j name b A1 A2). exists b. split; [|reflexivity]. unfold rules_of. rewrite (rules_from_some ds 1 j name b A1 A2). do 2 f_equal. lia.
    + destruct (lookup (g_nets g) name) as [[id M]|] eqn:EL; [|apply rules_from_none; exact H]. exfalso. apply H. rewrite <- HI. apply lookup_in in EL. destruct (i_net _ _ I _ _ _ EL) as (k & (l1 & l2 & -> & _) & _). apply in_or_app. right. left. reflexivity.
  - rewrite <- HI. apply (C16_ids fs file g). exists fu, mid. exact E.
Qed.
(** References name declared rules (the rules that count: of several declarations of a name, the first). *)
Definition refs_declared (ds : list (list N * gsel)) : Prop := forall name id e x, rules_of ds name = Some (id, e) -> In (TRule x) (gsel_terms e) -> In x (map fst ds).
Lemma rules_from_in ds : forall k name id e, rules_from k ds name = Some (id, e) -> In (name, e) ds /\ (k <= id < k + N.of_nat (length ds))%N.
Proof.
  induction ds as [|[n b] ds IH]; intros k name id e H; [discriminate|]. cbn [rules_from] in H. destruct (list_eq_dec N.eq_dec n name) as [->|_].
  - injection H as <- <-. split; [left; reflexivity|cbn [length]; lia].
  - destruct (IH _ _ _ _ H) as [A1 A2]. split; [right; exact A1|cbn [length]; lia].
Qed.
(** C18 from the text of the grammar: the rules, their numbers and the root are those the file
    declares; the patterns match what they stand for. *)
Theorem C18_grammar_file : forall fs file ds g C e a u pad B v bs,
  declares fs file ds -> refs_declared ds -> (1 <= N.of_nat (length ds) < 2 ^ 15)%N -> Properties_Grammar.reads fs file g -> loaded g C ->
  (forall name b p, In (name, b) ds -> In (TPat p) (gsel_terms b) -> pattern_exact C p) ->
  (forall m i q cc d, In (cc, d) (nth q (c_look C m i) []) -> CharClass.includes cc 0 = false) ->
  parser_env C e a u pad B -> (N.of_nat (length u) < 2 ^ 48)%N ->
  returned C (g_root g) e a v bs -> v <> 0%N ->
  exists n t, v = (a + N.of_nat n)%N /\ derives (rules_of ds) patL u (hd [] (map fst ds)) 0 n t /\ List.concat (map bank_content bs) = stream t.
Proof.
  intros fs file ds g C e a u pad B v bs HD HX HL HR HC HP HN HE HU HV NZ. change (2 ^ 15)%N with 32768%N in HL.
  destruct (declared_nets fs file ds g HD ltac:(lia) HR) as (ND & LK & RT). pose proof (loaded_nets (rules_of ds) g C ND HC LK) as NETS. rewrite RT in HV.
  assert (IN : forall name id b, rules_of ds name = Some (id, b) -> In (name, b) ds /\ (1 <= id < 1 + N.of_nat (length ds))%N) by (intros name id b; apply rules_from_in).
  assert (LI : linked C).
  { split; [|exact HN]. intros name id M n x H1 H2 H3. destruct (net_index (c_nets C) x) as [m|] eqn:EX; [eauto|]. exfalso. apply (proj1 NETS) in EX.
    destruct (proj2 NETS _ _ _ H1) as (b & E1 & E2). destruct (IN _ _ _ E1) as [I1 _].
    assert (KD : kinds (fun k => forall y, k = NInv y -> In y (map fst ds)) M).
    { apply (net_for_kinds _ b M E2); [discriminate|discriminate|]. intros y Hy z Ez. destruct y as [i|s|p]; cbn in Ez; try discriminate. injection Ez as ->. exact (HX _ _ _ _ E1 Hy). }
    destruct (first_nth ds x (KD n H2 x H3)) as (j & b' & A1 & A2). unfold rules_of in EX. rewrite (rules_from_some ds 1 j x b' A1 A2) in EX. discriminate. }
  assert (R0 : rules_of ds (hd [] (map fst ds)) <> None). { destruct ds as [|[n0 b0] ds]; [cbn in HL; lia|]. unfold rules_of. cbn. destruct (list_eq_dec N.eq_dec n0 n0); congruence. }
  destruct (C18_marker_stream (rules_of ds) patL C (hd [] (map fst ds)) e a u pad B v bs HE LI NETS) as (n & t & T1 & _ & T2 & T3 & _).
  - intros name id b p t E1 I1 E2. destruct (IN _ _ _ E1) as [I2 _]. apply (pattern_exact_lang C p (HP _ _ _ I2 I1)). exact E2.
  - intros name id b E1. destruct (IN _ _ _ E1) as [_ I2]. change (2 ^ 15)%N with 32768%N. lia.
  - exact HU.
  - exact R0.
  - exact HV.
  - exact NZ.
  - exists n, t. auto.
Qed.
Print Assumptions C18_grammar_file.

(** ** To the result *)
(** C25 from end to end: if the generated code accepts, then any number of workers and banks under
    any fair schedule computes the value of the derivation tree, with its callbacks. *)
Theorem C25_end_to_end_partial : forall rules matches C root e a u pad B v bs,
  parser_env C e a u pad B -> linked C -> nets_of rules C -> pats_sound rules matches C -> numbers_fit rules -> (N.of_nat (length u) < 2 ^ 48)%N ->
  rules root <> None -> returned C root e a v bs -> v <> 0%N ->
  exists n t, v = (a + N.of_nat n)%N /\ derives rules matches u root 0 n t /\
  forall f banks_num W (sched : nat -> thread), 1 <= W -> W <= banks_num ->
  (forall th, match th with T2 w => w < W | _ => True end -> forall i, exists j, i <= j /\ sched j = th) ->
  exists N chunks,
    let s := trace banks_num W (length bs) (fun k => nth k bs []) (reduce_bank f (Some 0%Z)) sched init N in
    final W s /\ rev (merged s) = map Ok chunks /\ Permutation (map snd (processed s)) bs /\
    exists s3, stage3 f (Some 0%Z) chunks = Ok (eval f t, s3) /\
      Permutation (List.concat (map (fun c => rev (log c)) chunks) ++ rev (log s3)) (calls f t).
Proof.
  intros rules matches C root e a u pad B v bs HE HK HN HP HF HU HR HV NZ.
  destruct (accepted_tree rules matches C root e a u pad B v bs HE HK HN HP HF HU HR HV NZ) as (n & t & H1 & H2 & H3 & H4 & H5 & H6 & H7). exists n, t. split; [exact H1|]. split; [exact H3|].
  intros f nb W sched W1 W2 FAIR. destruct (pipeline f t B (stale e) nb W sched H7 (pe_page _ _ _ _ _ _ HE) (pe_stale _ _ _ _ _ _ HE) W1 W2 FAIR) as (bs' & E & P). rewrite E in H5. injection H5 as ->. exact P.
Qed.
Print Assumptions C25_end_to_end_partial.

(** ** C26 *)
(** Nodes of a tree. *)
Inductive node_in : tree -> tree -> Prop :=
| ni_self t : node_in t t
| ni_child id s e ch c t : In c ch -> node_in t c -> node_in t (Node id s e ch).
Lemma node_derives rules matches u name p q t : derives rules matches u name p q t -> forall x, node_in x t -> exists name' p' q', derives rules matches u name' p' q' x.
Proof.
  revert name p q t.
  assert (G : (forall name p q t, derives rules matches u name p q t -> forall x, node_in x t -> exists name' p' q', derives rules matches u name' p' q' x) /\
              (forall w p q ch, matched rules matches u w p q ch -> forall c, In c ch -> forall x, node_in x c -> exists name' p' q', derives rules matches u name' p' q' x)).
  { apply (parse_ind rules matches u (fun _ _ _ t _ => forall x, node_in x t -> exists name' p' q', derives rules matches u name' p' q' x)
      (fun _ _ _ ch _ => forall c, In c ch -> forall x, node_in x c -> exists name' p' q', derives rules matches u name' p' q' x)).
    - intros name id e w p q ch HR HG HM IH x Hx. inversion Hx as [|? ? ? ? c ? Hc Hx']; subst; [exists name, p, q; econstructor; eassumption|eauto].
    - intros p _ c [].
    - intros name w p m q t ch HD IH1 HM IH2 c [<-|Hc] x Hx; eauto.
    - intros s w p b m q ch _ _ _ _ _ IH. exact IH.
    - intros s w p b m q ch _ _ _ _ _ IH. exact IH. }
  exact (proj1 G).
Qed.
Lemma calls_nodes f : forall t c, In c (calls f t) -> exists id s e ch, node_in (Node id s e ch) t /\ c = mkCall id s e (filter (fun v => negb (N.eqb v 0)) (map (eval f) ch)).
Proof.
  induction t as [id s e ch IH] using tree_ind'. intros c Hc. cbn [calls] in Hc. apply in_app_or in Hc as [Hc|[<-|[]]]; [|exists id, s, e, ch; split; [constructor|reflexivity]].
  apply in_concat in Hc as (l & Hl & Hc). apply in_map_iff in Hl as (t & <- & Ht). rewrite Forall_forall in IH. destruct (IH t Ht c Hc) as (i & s0 & e0 & ch0 & H1 & H2).
  exists i, s0, e0, ch0. split; [econstructor; eassumption|exact H2].
Qed.
Lemma bytes_slice mem0 a u pad : text_at mem0 a (u ++ pad) -> forall q p, p <= q <= length u -> bytes mem0 (a + N.of_nat p) (q - p) = Some (slice u p q).
Proof.
  intros HT q. assert (G : forall k p, p + k <= length u -> bytes mem0 (a + N.of_nat p) k = Some (firstn k (skipn p u))).
  { induction k as [|k IH]; intros p Hp; [reflexivity|]. cbn [bytes]. assert (Hp' : p < length u) by lia. destruct (nth_error u p) as [c|] eqn:E; [|apply nth_error_None in E; lia].
    replace (a + N.of_nat p + 1)%N with (a + N.of_nat (S p))%N by lia. rewrite IH by lia. destruct HT as [HT _].
    rewrite (HT p c) by (rewrite nth_error_app1 by exact Hp'; exact E). assert (SK : skipn p u = c :: skipn (S p) u) by (clear - E; revert p E; induction u as [|x u IH]; intros [|p] E; try discriminate; [injection E as ->; reflexivity|exact (IH p E)]). rewrite SK. reflexivity. }
  intros p Hp. rewrite G by lia. reflexivity.
Qed.
Lemma node_inside x t : node_in x t -> forall a b, nested a b t -> (exists c, nested c b x) /\ (end_of x <= b)%N.
Proof.
  induction 1 as [[i s en ch]|id s en ch c t HI _ IH]; intros a b H; pose proof H as H'; apply nested_eq in H as (H1 & H2 & H3 & H4).
  - split; [exists a; exact H'|cbn [end_of]; lia].
  - assert (G : exists from, nested from en c).
    { clear - H4 HI. revert s H4. induction ch as [|d ch IH]; intros s H4; [destruct HI|]. destruct H4 as [A1 A2]. destruct HI as [->|HI]; [eauto|exact (IH HI _ A2)]. }
    destruct G as [from G]. destruct (IH _ _ G) as ((c0 & G1) & G2). split; [exists c0; apply (nested_mono _ en); assumption|lia].
Qed.
Lemma to_int_small z : (0 <= z < 2147483648)%Z -> to_int z = z.
Proof. intros H. unfold to_int. change (2 ^ 31)%Z with 2147483648%Z. change (2 ^ 32)%Z with 4294967296%Z. rewrite Z.mod_small by lia. lia. Qed.
Lemma value_one_based vs i x : sym_value vs i = Some x <-> exists k, i = Z.of_nat (S k) /\ nth_error vs k = Some x.
Proof.
  unfold sym_value. split.
  - destruct (1 <=? i)%Z eqn:E; [|discriminate]. intros H. exists (Z.to_nat (i - 1)). split; [lia|exact H].
  - intros (k & -> & H). replace (1 <=? Z.of_nat (S k))%Z with true by lia. replace (Z.to_nat (Z.of_nat (S k) - 1)) with k by lia. exact H.
Qed.
(** C26.  On an accepted input, every callback is for a node of the derivation tree: a part p..q of
    the input that the rule with this number matches; read() returns exactly these characters
    (for texts shorter than 2^31); value(i), counted from 1, is the i-th value its children returned, those that returned 0 left out; children lie inside their parents, in order, without overlap. *)
Theorem C26_callback_text_partial : forall rules matches C root e a u pad B v bs,
  parser_env C e a u pad B -> linked C -> nets_of rules C -> pats_sound rules matches C -> numbers_fit rules -> (N.of_nat (length u) < 2 ^ 48)%N ->
  rules root <> None -> returned C root e a v bs -> v <> 0%N ->
  exists n t, v = (a + N.of_nat n)%N /\ derives rules matches u root 0 n t /\ List.concat (map bank_content bs) = stream t /\ nested 0 (N.of_nat n) t /\
  forall f c, In c (calls f t) -> exists id s en ch name p q,
    node_in (Node id s en ch) t /\ c = mkCall id s en (filter (fun v => negb (N.eqb v 0)) (map (eval f) ch)) /\
    derives rules matches u name p q (Node id s en ch) /\ s = N.of_nat p /\ en = N.of_nat q /\ p <= q <= n /\ n <= length u /\
    ((N.of_nat (q - p) < 2 ^ 31)%N -> sym_read (mem e) a s en = ReadOk (slice u p q) /\ sym_len s en = Z.of_nat (q - p)) /\
    sym_start a s = (a + N.of_nat p)%N /\ sym_end a en = (a + N.of_nat q)%N /\
    sym_count (c_args c) = length (filter (fun v => negb (N.eqb v 0)) (map (eval f) ch)) /\
    forall i x, sym_value (c_args c) i = Some x <-> exists k, i = Z.of_nat (S k) /\ nth_error (filter (fun v => negb (N.eqb v 0)) (map (eval f) ch)) k = Some x.
Proof.
  intros rules matches C root e a u pad B v bs HE HK HN HP HF HU HR HV NZ.
  destruct (accepted_tree rules matches C root e a u pad B v bs HE HK HN HP HF HU HR HV NZ) as (n & t & H1 & H2 & H3 & H4 & H5 & H6 & H7). exists n, t.
  do 4 (split; [assumption|]). intros f c Hc. destruct (calls_nodes f t c Hc) as (id & s & en & ch & NI & ->).
  destruct (node_derives _ _ _ _ _ _ _ H3 _ NI) as (name & p & q & D). exists id, s, en, ch, name, p, q. split; [exact NI|]. split; [reflexivity|]. split; [exact D|].
  assert (PE : s = N.of_nat p /\ en = N.of_nat q) by (inversion D; subst; split; reflexivity). destruct PE as [-> ->].
  pose proof (proj1 (parse_le _ _ _) _ _ _ _ D) as LE. pose proof (node_inside _ _ NI _ _ H6) as [_ IN]. cbn [end_of] in IN.
  split; [reflexivity|]. split; [reflexivity|]. split; [lia|]. split; [exact H2|]. split; [|split; [reflexivity|]; split; [reflexivity|]; split; [reflexivity|intros i x; apply value_one_based]]. intros SM. change (2 ^ 31)%N with 2147483648%N in SM.
  unfold sym_read, sym_len. replace (Z.of_N (N.of_nat q) - Z.of_N (N.of_nat p))%Z with (Z.of_nat (q - p)) by lia.
  rewrite to_int_small by lia. split; [|reflexivity]. replace (Z.of_nat (q - p) <? 0)%Z with false by lia. rewrite Nat2Z.id. unfold sym_start.
  rewrite (bytes_slice (mem e) a u (0%N :: pad) (pe_text _ _ _ _ _ _ HE)) by lia. reflexivity.
Qed.
Print Assumptions C26_callback_text_partial.
(** C26 exactly: what read() answers for a node from p to q, whatever its length.  With m the length modulo 2^32: an exception if m is 2^31 or more,
    otherwise the first m characters of the node.  So it answers the characters of the node if and only if there are fewer than 2^31. *)
Theorem C26_read_exact_partial : forall rules matches C root e a u pad B v bs,
  parser_env C e a u pad B -> linked C -> nets_of rules C -> pats_sound rules matches C -> numbers_fit rules -> (N.of_nat (length u) < 2 ^ 48)%N ->
  rules root <> None -> returned C root e a v bs -> v <> 0%N ->
  exists n t, v = (a + N.of_nat n)%N /\ derives rules matches u root 0 n t /\
  forall f c, In c (calls f t) -> exists p q, c_start c = N.of_nat p /\ c_end c = N.of_nat q /\ p <= q <= n /\
    let m := (N.of_nat (q - p) mod 2 ^ 32)%N in
    sym_read (mem e) a (c_start c) (c_end c) = (if (m <? 2 ^ 31)%N then ReadOk (slice u p (p + N.to_nat m)) else ReadThrows) /\
    (sym_read (mem e) a (c_start c) (c_end c) = ReadOk (slice u p q) <-> (N.of_nat (q - p) < 2 ^ 31)%N).
Proof.
  intros rules matches C root e a u pad B v bs HE HK HN HP HF HU HR HV NZ.
  destruct (C26_callback_text_partial rules matches C root e a u pad B v bs HE HK HN HP HF HU HR HV NZ) as (n & t & H1 & H2 & _ & _ & H5). exists n, t.
  split; [exact H1|]. split; [exact H2|]. intros f c Hc. destruct (H5 f c Hc) as (id & s & en & ch & name & p & q & _ & -> & _ & -> & -> & LE & LU & SM & _). exists p, q. cbn [c_start c_end].
  split; [reflexivity|]. split; [reflexivity|]. split; [exact LE|]. cbv zeta. set (m := (N.of_nat (q - p) mod 2 ^ 32)%N).
  assert (ML : (m <= N.of_nat (q - p))%N) by (apply N.mod_le; discriminate).
  assert (RD : sym_read (mem e) a (N.of_nat p) (N.of_nat q) = if (m <? 2 ^ 31)%N then ReadOk (slice u p (p + N.to_nat m)) else ReadThrows).
  { unfold sym_read, sym_len. replace (Z.of_N (N.of_nat q) - Z.of_N (N.of_nat p))%Z with (Z.of_nat (q - p)) by lia.
    assert (TI : to_int (Z.of_nat (q - p)) = if (m <? 2 ^ 31)%N then Z.of_N m else (Z.of_N m - 2 ^ 32)%Z).
    { unfold to_int. assert (EM : Z.of_N m = (Z.of_nat (q - p) mod 2 ^ 32)%Z). { unfold m. rewrite N2Z.inj_mod, nat_N_Z. reflexivity. }
      change (2 ^ 32)%Z with 4294967296%Z in *. change (2 ^ 31)%Z with 2147483648%Z. change (2 ^ 31)%N with 2147483648%N.
      pose proof (Z.div_mod (Z.of_nat (q - p)) 4294967296 ltac:(lia)) as DM. pose proof (Z.mod_pos_bound (Z.of_nat (q - p)) 4294967296 ltac:(lia)) as BD. rewrite <- EM in *.
      destruct (m <? 2147483648)%N eqn:L.
      - rewrite <- (Z.mod_unique_pos (Z.of_nat (q - p) + 2147483648) 4294967296 (Z.of_nat (q - p) / 4294967296) (Z.of_N m + 2147483648)) by lia. lia.
      - rewrite <- (Z.mod_unique_pos (Z.of_nat (q - p) + 2147483648) 4294967296 (Z.of_nat (q - p) / 4294967296 + 1) (Z.of_N m - 2147483648)) by lia. lia. }
    assert (MB : (m < 2 ^ 32)%N) by (apply N.mod_lt; discriminate). change (2 ^ 32)%N with 4294967296%N in MB. change (2 ^ 32)%Z with 4294967296%Z in TI. change (2 ^ 31)%N with 2147483648%N in *.
    rewrite TI. destruct (m <? 2147483648)%N eqn:L.
    - replace (Z.of_N m <? 0)%Z with false by lia. unfold sym_start. replace (Z.to_nat (Z.of_N m)) with (p + N.to_nat m - p) by lia.
      rewrite (bytes_slice (mem e) a u (0%N :: pad) (pe_text _ _ _ _ _ _ HE)) by lia. reflexivity.
    - replace (Z.of_N m - 4294967296 <? 0)%Z with true by lia. reflexivity. }
  split; [exact RD|]. split.
  - rewrite RD. intros E. change (2 ^ 31)%N with 2147483648%N in *. destruct (m <? 2147483648)%N eqn:L; [|discriminate]. injection E as E. apply (f_equal (@length N)) in E. unfold slice in E. rewrite !firstn_length, !skipn_length in E. lia.
  - intros S0. exact (proj1 (SM S0)).
Qed.
Print Assumptions C26_read_exact_partial.
