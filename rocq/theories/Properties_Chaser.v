(** * C49: the chaser and its listener *)
From Coq Require Import List NArith ZArith Arith Bool Lia ZifyBool ZifyN ZifyNat.
From Verif Require Import CharClass NFA NFABuild DFA RegexSpec GrammarSpec Marker Reduction ReductionProofs TreeSpec ParseSpec Writer WriterProofs X86 CodeGen CodeGenProofs CodeGenSimd CodeGenDfa CodeGenMisc ATN ATNSem Grammar Properties_Grammar ParserGen ParserRun ParserSim ParserTree ParserTerm ParserTop ParserComplete DryParser Chaser ChaserTree ChaserSpec ChaserLift ChaserSame Properties_Parser Properties_Look Properties_Compile Properties_ParserCases Properties_CompileCases.
Import ListNotations.
Local Open Scope nat_scope.

(** The answers of the listener are addresses in the text, or of its end. *)
Definition answers_inside (L : listener) (a : N) (u : list N) : Prop := forall h, exists k, k <= length u /\ l_answer L h = (a + N.of_nat k)%N.
(** Each rule has its own number. *)
Definition ids_distinct (C : compiled) : Prop := forall m m', m < length (c_nets C) -> m' < length (c_nets C) -> fst (net_of C m) = fst (net_of C m') -> m = m'.

Section Calls.
Variables (C : compiled) (lid : nat -> nat -> Z) (e : env) (a : N) (u pad : list N) (B : nat).
Hypothesis HE : parser_env C e a u pad B.
Lemma entry m : m < length (c_nets C) -> exists P0, find_lab (chaser_code C lid) (lmach m) = Some P0.
Proof. intros Hm. destruct (cat_machine C lid m Hm) as (X & Y & EP). eexists. exact (find_at' _ X _ _ EP (chaser_nodup C lid)). Qed.
Lemma inside_not_lost L f m n h0 : answers_inside L a u -> m < length (c_nets C) -> n <= length u -> chase C lid u (offs a u L) f m 0 n [] <> ChLost h0.
Proof.
  intros HL Hm Hn E. destruct HE as [H1 _ _ _ _ _ _ _ _]. destruct (chase_lost C lid u pad H1 (offs a u L) (fun h n H => proj2 (offs_ok a u L h n H)) f m 0 n [] h0 Hm (dnet_ne C pad m H1 Hm) Hn E) as (d & id & p & _ & _ & Q).
  destruct (HL (map (at_addr a) h0)) as (k & K1 & K2). rewrite (offs_some a u L h0 k K2 K1) in Q. discriminate.
Qed.
End Calls.

(** A call of the function for rule m with the text at offset n: whatever the listener answers (addresses in the text), and whatever
    its callbacks do to the registers they may change, the code never leaves itself or mapped memory, and always calls the listener
    object it was given. *)
Theorem C49_no_fault : forall C lid e a u pad B L m n P0 r x p sv q o b c,
  parser_env C e a u pad B -> linked C -> answers_inside L a u -> m < length (c_nets C) -> n <= length u ->
  find_lab (chaser_code C lid) (lmach m) = Some P0 -> r RDI = l_self L -> r RSI = (a + N.of_nat n)%N ->
  cstar (chaser_code C lid) e L (chaser_start P0 r x p sv q o b, []) c -> pc (fst c) = [] \/ exists c', cstep (chaser_code C lid) e L c = CNext c'.
Proof.
  intros C lid e a u pad B L m n P0 r x p sv q o b c HE HK HL Hm Hn FP R1 R2 S. pose proof HE as [H1 H2 H3 H4 _ _ _ _ _]. destruct (cstar_steps _ _ _ _ _ S) as [k SN].
  pose proof (chaser_run C lid e a u pad L (offs a u L) H1 H2 H3 H4 (offs_ok a u L) r x p sv q o b m n Hm R1 R2 Hn P0 FP (Datatypes.S k)) as RUN.
  pose proof (chase_no_wild C lid u pad H1 (offs a u L) HK (fun h n H => proj2 (offs_ok a u L h n H)) (Datatypes.S k) m 0 n [] Hm (dnet_ne C pad m H1 Hm)) as NW.
  pose proof (fun h0 => inside_not_lost C lid e a u pad B HE L (Datatypes.S k) m n h0 HL Hm Hn) as NL.
  assert (FIN : forall s' h', cstar (chaser_code C lid) e L (chaser_start P0 r x p sv q o b, []) (s', h') -> pc s' = [] -> pc (fst c) = [] \/ exists c', cstep (chaser_code C lid) e L c = CNext c').
  { intros s' h' S' PC'. pose proof (cstar_join _ _ _ _ _ S' PC' _ S) as J. inversion J as [|? c1 ? E _]; subst; [left; exact PC'|right; eauto]. }
  destruct (chase C lid u (offs a u L) (Datatypes.S k) m 0 n []) as [n' h0|h0|h0| |].
  - destruct RUN as (s' & S' & PC' & _). exact (FIN _ _ S' PC').
  - destruct RUN as (s' & S' & PC' & _). exact (FIN _ _ S' PC').
  - destruct (NL h0 eq_refl).
  - congruence.
  - destruct RUN as (N1 & c' & L1 & S'). destruct (csteps_split _ _ _ _ _ _ S' k ltac:(lia)) as (d & D1 & D2). rewrite <- (csteps_det _ _ _ _ _ _ SN _ D1) in D2.
    right. destruct (N1 - k) as [|j] eqn:EJ; [lia|]. inversion D2 as [|? ? c1 ? E _]; subst. eauto.
Qed.
Print Assumptions C49_no_fault.

(** When it has returned: registers, stack and page are as before.  A result other than NULL is an address n' characters into the
    text, and what the listener was told, in order, is a sequence of the rule's symbols: each terminal with a number, with the text it
    matched; each reference, with the place the rest starts at, and the text after it is taken up where the listener said.  NULL: what
    the listener was told belongs to the start of such a sequence. *)
Theorem C49_calls : forall rules matches C lid e a u pad B L m n P0 r x p sv q o b s h,
  parser_env C e a u pad B -> linked C -> nets_of rules C -> pats_sound rules matches C -> answers_inside L a u -> m < length (c_nets C) -> n <= length u ->
  find_lab (chaser_code C lid) (lmach m) = Some P0 -> r RDI = l_self L -> r RSI = (a + N.of_nat n)%N ->
  cstar (chaser_code C lid) e L (chaser_start P0 r x p sv q o b, []) (s, h) -> pc s = [] ->
  (forall i, i <> RAX -> rg s i = r i) /\ stk s = q /\ sav s = sv /\ out s = o /\
  exists name body, rules name = Some (fst (net_of C m), body) /\
  ((rg s RAX <> 0%N -> exists n' w vs, rg s RAX = (a + N.of_nat n')%N /\ gselL term (fun x => [x]) body w /\ visits rules matches u w n n' vs /\ h = hears a vs /\ answers L a vs) /\
   (rg s RAX = 0%N -> exists n' w w' vs, gselL term (fun x => [x]) body (w ++ w') /\ visits rules matches u w n n' vs /\ h = hears a vs /\ answers L a vs)).
Proof.
  intros rules matches C lid e a u pad B L m n P0 r x p sv q o b s h HE HK HN HP HL Hm Hn FP R1 R2 S PC. pose proof HE as [H1 H2 H3 H4 _ _ _ _ _]. destruct (cstar_steps _ _ _ _ _ S) as [k SN].
  pose proof (chaser_run C lid e a u pad L (offs a u L) H1 H2 H3 H4 (offs_ok a u L) r x p sv q o b m n Hm R1 R2 Hn P0 FP (Datatypes.S k)) as RUN.
  pose proof (chase_no_wild C lid u pad H1 (offs a u L) HK (fun h n H => proj2 (offs_ok a u L h n H)) (Datatypes.S k) m 0 n [] Hm (dnet_ne C pad m H1 Hm)) as NW.
  pose proof (fun h0 => inside_not_lost C lid e a u pad B HE L (Datatypes.S k) m n h0 HL Hm Hn) as NL.
  pose proof (chase_way C lid u pad H1 (offs a u L) (fun h n H => proj2 (offs_ok a u L h n H)) (Datatypes.S k) m 0 n [] Hm (dnet_ne C pad m H1 Hm) Hn) as W.
  destruct (chase C lid u (offs a u L) (Datatypes.S k) m 0 n []) as [n' h0|h0|h0| |].
  - destruct RUN as (s' & S' & PC' & V' & O' & RR & K' & SV' & N'). pose proof (cfinal_eq _ _ _ _ _ _ S S' PC PC') as E. injection E as -> ->.
    split; [exact RR|]. split; [exact K'|]. split; [exact SV'|]. split; [exact O'|]. destruct W as (ys & kk & r0 & W1 & W2 & W3 & W4 & W5). cbn [app] in W4. subst h0.
    destruct (whole_way_visits C lid u rules matches HN HP HK m n (ys ++ [(kk, r0, n')]) n' Hm) as (name & body & w & V1 & V2 & V3); [exists ys, kk, r0; eauto|]. exists name, body. split; [exact V1|]. split; [|intros Z; lia].
    intros _. exists n', w, (flat_map (vis C lid m) (ys ++ [(kk, r0, n')])). split; [exact V'|]. split; [exact V2|]. split; [exact V3|]. split; [symmetry; apply hears_all|].
    intros vs1 id p0 q0 vs2 EV. exact (agreed_answers C lid L a (offs a u L) m (fun h n H => proj1 (offs_ok a u L h n H)) _ [] W5 vs1 id p0 q0 vs2 EV).
  - destruct RUN as (s' & S' & PC' & V' & O' & RR & K' & SV'). pose proof (cfinal_eq _ _ _ _ _ _ S S' PC PC') as E. injection E as -> ->.
    split; [exact RR|]. split; [exact K'|]. split; [exact SV'|]. split; [exact O'|]. destruct W as (ys & kk & r0 & zs & W1 & W2 & W4 & W5). cbn [app] in W4. subst h0.
    destruct (part_way_visits C lid u rules matches HN HP HK m n ys kk r0 zs Hm W1 Hn W2) as (name & body & w & w' & q1 & V1 & V2 & V3). exists name, body. split; [exact V1|]. split; [intros Z; destruct (Z V')|].
    intros _. exists q1, w, w', (flat_map (vis C lid m) (ys ++ zs)). split; [exact V2|]. split; [exact V3|]. split; [symmetry; apply hears_all|].
    intros vs1 id p0 q0 vs2 EV. exact (agreed_answers C lid L a (offs a u L) m (fun h n H => proj1 (offs_ok a u L h n H)) _ [] W5 vs1 id p0 q0 vs2 EV).
  - destruct (NL h0 eq_refl).
  - congruence.
  - destruct RUN as (N1 & c' & L1 & S'). pose proof (cfinal_steps _ _ _ _ _ _ SN PC _ _ S'). lia.
Qed.
Print Assumptions C49_calls.

Lemma net_numbers rules C : nets_of rules C -> numbers_fit rules -> forall m, m < length (c_nets C) -> (1 <= fst (net_of C m) < 2 ^ 15)%N.
Proof. intros HN HF m Hm. destruct (net_in C m Hm) as (name & IN & _). destruct (net_of C m) as [id M]. destruct (proj2 HN _ _ _ IN) as (b & E & _). exact (HF _ _ _ E). Qed.
Lemma accepted_run : forall rules matches C root e a u pad B v bs,
  parser_env C e a u pad B -> linked C -> nets_of rules C -> pats_sound rules matches C -> numbers_fit rules -> (N.of_nat (length u) < 2 ^ 48)%N ->
  rules root <> None -> returned C root e a v bs -> v <> 0%N ->
  exists n t b, v = (a + N.of_nat n)%N /\ derives rules matches u root 0 n t /\ List.concat (map bank_content bs) = stream t /\ run_of C u t /\ tree_ok t /\ rules root = Some (tid t, b) /\ tstart t = 0%N /\ end_of t = N.of_nat n.
Proof.
  intros rules matches C root e a u pad B v bs HE HK HN HP HF HU HR HV NZ. destruct (accepted_tree rules matches C root e a u pad B v bs HE HK HN HP HF HU HR HV NZ) as (n & t & E1 & E2 & E3 & E4 & E5 & E6 & E7).
  destruct (net_index (c_nets C) root) as [m|] eqn:EM; [|apply (proj1 HN) in EM; contradiction]. pose proof EM as EM'.
  apply (returned_iff C root e a u pad B m HE EM HK) in HV as [f HV]. destruct (run_machine C u f m 0) as [n1 ws|ws| |] eqn:ER; try contradiction; [|destruct HV; contradiction]. destruct HV as [EV HV]. assert (n1 = n) as -> by lia.
  assert (WF : forall name id M, In (name, (id, M)) (c_nets C) -> ATNLive.wf_net M) by (intros name id M H; destruct (proj2 HN _ _ _ H) as (x & _ & X); exact (net_for_wf _ _ X)).
  destruct (machine_tree C u WF (fun k i _ => look_all C (fun _ _ => 0%Z) pad (pe_gen _ _ _ _ _ _ HE) k i) f root m 0 n ws EM ltac:(lia) ER) as (t' & D & -> & L). apply (derives_lift rules matches C u HN HP) in D.
  pose proof (derives_ok rules matches u HU HF _ _ _ _ D) as OK'.
  destruct (write_accept_correct B (stale e) (pe_page _ _ _ _ _ _ HE) (pe_stale _ _ _ _ _ _ HE) (stream t') (stream_nonzero t' OK')) as (bs' & X1 & X2 & _). rewrite X1 in HV. injection HV as <-.
  assert (t' = t) as -> by (apply stream_inj; [exact OK'|exact E7|congruence]).
  inversion D as [name id bd w p' q' ch RR GG MM]; subst. exists n, (Node id 0 (N.of_nat n) ch), bd. split; [reflexivity|]. split; [exact D|]. split; [exact X2|].
  destruct (nets_index rules C root m HN EM') as (bd' & RR' & _). rewrite RR in RR'. injection RR' as -> _. split; [|auto].
  exists f, m, 0, n. split; [exact (net_index_lt _ _ _ EM')|]. repeat (split; [reflexivity|]). split; [lia|]. split; [lia|exact ER].
Qed.

(** After a parse: for every node of the tree the parser wrote, the function for its rule, called at its start with a listener that
    knows where the node's children end, returns the node's end, and asks for exactly the children, in order. *)
Theorem C49_children : forall rules matches C lid root e a u pad B v bs,
  parser_env C e a u pad B -> linked C -> nets_of rules C -> pats_sound rules matches C -> numbers_fit rules -> ids_distinct C -> (N.of_nat (length u) < 2 ^ 48)%N ->
  rules root <> None -> returned C root e a v bs -> v <> 0%N ->
  exists n t, v = (a + N.of_nat n)%N /\ derives rules matches u root 0 n t /\ List.concat (map bank_content bs) = stream t /\
  forall sub L, inside t sub -> (forall c g, In c (tkids sub) -> l_answer L (g ++ [Nonterminal (tid c) (a + tstart c)%N]) = (a + end_of c)%N) ->
  exists m h, m < length (c_nets C) /\ fst (net_of C m) = tid sub /\ requests h = map (fun c => (tid c, (a + tstart c)%N)) (tkids sub) /\
  forall r x p sv q o b, r RDI = l_self L -> r RSI = (a + tstart sub)%N -> call_ends C lid e L m r x p sv q o b (a + end_of sub)%N h.
Proof.
  intros rules matches C lid root e a u pad B v bs HE HK HN HP HF HD HU HR HV NZ. destruct (accepted_run rules matches C root e a u pad B v bs HE HK HN HP HF HU HR HV NZ) as (n & t & bd & E1 & E2 & E3 & RO & OK & _).
  exists n, t. split; [exact E1|]. split; [exact E2|]. split; [exact E3|]. intros sub L IN HL. pose proof HE as [H1 H2 H3 H4 _ _ _ _ _]. pose proof (net_numbers rules C HN HF) as HNm.
  destruct (run_inside C lid u pad H1 HNm HU t sub IN RO OK) as [RS OS].
  destruct (node_chase C lid e a u pad H1 H2 H3 H4 HNm HU sub L RS OS HL) as (m & xs & Hm & EI & PA & _ & _ & CE). exists m, (map (at_addr a) (all_told C lid m xs)). split; [exact Hm|]. split; [exact EI|]. split; [|exact CE].
  assert (Q : forall h, requests (map (at_addr a) h) = map (fun c => (fst c, (a + snd c)%N)) (requests h)) by (induction h as [|[i s0 t0|i p0] h IH]; [reflexivity|exact IH|cbn; f_equal; exact IH]).
  rewrite Q, requests_told, PA, !map_map. reflexivity.
Qed.
Print Assumptions C49_children.

(** The listener that answers every question by calling the chaser again (and with a listener of the same kind): it builds the
    parser's tree ... *)
Theorem C49_rebuilds : forall rules matches C lid root e a u pad B v bs,
  parser_env C e a u pad B -> linked C -> nets_of rules C -> pats_sound rules matches C -> numbers_fit rules -> ids_distinct C -> (N.of_nat (length u) < 2 ^ 48)%N ->
  rules root <> None -> returned C root e a v bs -> v <> 0%N ->
  exists t id b, List.concat (map bank_content bs) = stream t /\ v = (a + end_of t)%N /\ rules root = Some (id, b) /\ chased C lid e a id 0 t.
Proof.
  intros rules matches C lid root e a u pad B v bs HE HK HN HP HF HD HU HR HV NZ. destruct (accepted_run rules matches C root e a u pad B v bs HE HK HN HP HF HU HR HV NZ) as (n & t & bd & E1 & E2 & E3 & RO & OK & E4 & E5 & E6).
  exists t, (tid t), bd. split; [exact E3|]. split; [congruence|]. split; [exact E4|]. pose proof HE as [H1 H2 H3 H4 _ _ _ _ _]. rewrite <- E5. apply (parsed_chased C lid e a u pad H1 H2 H3 H4 HD (net_numbers rules C HN HF) HU t RO OK).
Qed.
Print Assumptions C49_rebuilds.
(** ... and no other: if it gets through the root rule, the parser accepts, too, up to the same place and with the same tree. *)
Theorem C49_no_other_tree : forall rules C lid root id b e a u pad B t,
  parser_env C e a u pad B -> linked C -> nets_of rules C -> ids_distinct C -> rules root = Some (id, b) -> chased C lid e a id 0 t ->
  exists bs, returned C root e a (a + end_of t)%N bs /\ write_accept B B (stale e) (stream t) = Ok bs.
Proof.
  intros rules C lid root id b e a u pad B t HE HK HN HD HR HC. pose proof HE as [H1 H2 H3 H4 H5 _ _ _ H9].
  destruct (proj1 (chased_parsed C lid e a u pad H1 H2 H3 H4 HK HD) id 0%N t HC 0 eq_refl ltac:(lia)) as (f & m & q & Hm & EI & EE & Hq & RUN).
  destruct (net_index (c_nets C) root) as [m'|] eqn:EM; [|apply (proj1 HN) in EM; congruence]. destruct (nets_index rules C root m' HN EM) as (b' & EB & _). rewrite HR in EB. injection EB as EB _.
  assert (m' = m) as -> by (apply HD; [exact (net_index_lt _ _ _ EM)|exact Hm|congruence]).
  pose proof (write_accept B B (stale e) (stream t)) as X.
  pose proof (parser_run C root e a u pad B H1 H2 H3 H4 H5 (pe_words _ _ _ _ _ _ HE) (pe_buf _ _ _ _ _ _ HE) (pe_fit _ _ _ _ _ _ HE) (fun x => match x with RDI => ctx e | RSI => a | RDX => page_addr e 0 | _ => 0%N end) [] [] [] [] m EM eq_refl eq_refl eq_refl f) as PR. rewrite RUN in PR.
  destruct PR as (s & S & PC & RA & W & _). exists (banks s). split; [|congruence].
  eexists _, [], [], [], [], s. split; [|split; [exact S|split; [exact PC|split; [rewrite RA, EE; reflexivity|reflexivity]]]]. repeat split.
Qed.
Print Assumptions C49_no_other_tree.

(** ** The program as a whole *)
Lemma rules_from_number ds : forall k n1 n2 id b1 b2, rules_from k ds n1 = Some (id, b1) -> rules_from k ds n2 = Some (id, b2) -> n1 = n2.
Proof.
  induction ds as [|[n0 b0] ds IH]; intros k n1 n2 id b1 b2 H1 H2; cbn [rules_from] in *; [discriminate|].
  destruct (list_eq_dec N.eq_dec n0 n1) as [<-|D1], (list_eq_dec N.eq_dec n0 n2) as [<-|D2].
  - reflexivity.
  - injection H1 as <- _. destruct (rules_from_in ds _ _ _ _ H2). lia.
  - injection H2 as <- _. destruct (rules_from_in ds _ _ _ _ H1). lia.
  - eauto.
Qed.
Lemma file_facts fs file ds g C : grammar_ok fs file ds g C ->
  nets_of (rules_of ds) C /\ pats_sound (rules_of ds) patL C /\ numbers_fit (rules_of ds) /\ ids_distinct C /\ g_root g = hd [] (map fst ds) /\ exists b, rules_of ds (hd [] (map fst ds)) = Some (1%N, b).
Proof.
  intros HG. pose proof (go_pats _ _ _ _ _ HG) as GP. pose proof (go_file _ _ _ _ _ HG) as HF. destruct (file_nets _ _ _ _ _ HF) as (ND & NETS & RT). pose proof HF as (_ & _ & HL & _ & _). change (2 ^ 15)%N with 32768%N in HL.
  assert (IN : forall name id b, rules_of ds name = Some (id, b) -> In (name, b) ds /\ (1 <= id < 1 + N.of_nat (length ds))%N) by (intros name id b; apply rules_from_in).
  split; [exact NETS|]. split; [|split; [|split; [|split; [exact RT|]]]].
  - intros name id b p t E1 I1 E2. destruct (IN _ _ _ E1) as [I2 _]. apply (pattern_exact_lang C p (GP _ _ _ I2 I1)). exact E2.
  - intros name id b E1. destruct (IN _ _ _ E1) as [_ I2]. change (2 ^ 15)%N with 32768%N. lia.
  - intros m m' Hm Hm' E. unfold net_of in E.
    pose proof (nth_In (c_nets C) ([], (0%N, [])) Hm) as I1. pose proof (nth_In (c_nets C) ([], (0%N, [])) Hm') as I2.
    destruct (nth m (c_nets C) ([], (0%N, []))) as [n1 [i1 M1]] eqn:E1. destruct (nth m' (c_nets C) ([], (0%N, []))) as [n2 [i2 M2]] eqn:E2. cbn [fst snd] in E. subst i2.
    destruct (proj2 NETS _ _ _ I1) as (b1 & R1 & _). destruct (proj2 NETS _ _ _ I2) as (b2 & R2 & _). pose proof (rules_from_number ds 1 _ _ _ _ _ R1 R2) as ->.
    apply (proj1 (NoDup_nth (map fst (c_nets C)) []) ND); [rewrite map_length; exact Hm|rewrite map_length; exact Hm'|].
    change [] with (fst ([] : list N, (0%N, [] : atn))). rewrite !map_nth, E1, E2. reflexivity.
  - destruct ds as [|[n0 b0] ds]; [cbn in HL; lia|]. unfold rules_of. cbn. destruct (list_eq_dec N.eq_dec n0 n0); [eauto|congruence].
Qed.
(** A grammar file is read, networks, automata and code are made; the parser and the chaser of the grammar agree: the parser returns an
    address, with the markers of the tree t, if and only if the listener that calls the chaser again for every question builds t, from
    the beginning of the text and rule number 1, and gets that address. *)
Theorem C49_compiled_file : forall fs file ds g C lid e a u pad B,
  grammar_ok fs file ds g C -> call_env C ds e a u pad B ->
  (forall v bs, returned C (g_root g) e a v bs -> v <> 0%N -> exists t, chased C lid e a 1 0 t /\ v = (a + end_of t)%N /\ List.concat (map bank_content bs) = stream t) /\
  (forall t, chased C lid e a 1 0 t -> exists bs, returned C (g_root g) e a (a + end_of t)%N bs /\ List.concat (map bank_content bs) = stream t /\ exists n, derives (rules_of ds) patL u (hd [] (map fst ds)) 0 n t).
Proof.
  intros fs file ds g C lid e a u pad B HG HE. destruct (file_facts _ _ _ _ _ HG) as (NETS & PS & NF & ID & RT & b & R0). destruct (grammar_env _ _ _ _ _ _ _ _ _ _ HG HE) as [PE LI].
  pose proof (ce_len _ _ _ _ _ _ _ HE) as HU. rewrite RT. assert (RN : rules_of ds (hd [] (map fst ds)) <> None) by congruence. split.
  - intros v bs HV NZ. destruct (C49_rebuilds (rules_of ds) patL C lid _ e a u pad B v bs PE LI NETS PS NF ID HU RN HV NZ) as (t & id & b' & E1 & E2 & E3 & E4). rewrite R0 in E3. injection E3 as <- _. eauto.
  - intros t HC. destruct (C49_no_other_tree (rules_of ds) C lid _ 1%N b e a u pad B t PE LI NETS ID R0 HC) as (bs & RV & W).
    assert (NZ : (a + end_of t)%N <> 0%N) by (pose proof (ce_addr _ _ _ _ _ _ _ HE); lia).
    destruct (accepted_run (rules_of ds) patL C _ e a u pad B _ bs PE LI NETS PS NF HU RN RV NZ) as (n & t' & b' & E1 & E2 & E3 & RO & OK & _ & _ & E6).
    pose proof PE as [H1 H2 H3 H4 _ _ _ _ _].
    pose proof (proj1 (chased_ok C lid e a u pad H1 H2 H3 H4 LI ID (net_numbers (rules_of ds) C NETS NF) HU) 1%N 0%N t HC 0 eq_refl ltac:(lia)) as OK2.
    destruct (write_accept_correct B (stale e) (pe_page _ _ _ _ _ _ PE) (pe_stale _ _ _ _ _ _ PE) (stream t) (stream_nonzero t OK2)) as (bs' & X1 & X2 & _). rewrite W in X1. injection X1 as <-.
    assert (t' = t) as -> by (apply stream_inj; [exact OK|exact OK2|congruence]). exists bs. split; [exact RV|]. split; [exact X2|]. eauto.
Qed.
Print Assumptions C49_compiled_file.

(** ** Cases *)
(** The JSON grammar of the repository and the text  {"a" : [1, 2.5, true]} : the listener that calls the chaser again builds the tree
    of thirteen nodes; whatever the numbers in braces are. *)
Example C49_json : forall lid, chased json_C lid json_env 1000 1 0 json_tree.
Proof.
  intros lid. destruct C18_compiled_hyp as (H1 & H2 & H3 & H4). destruct (proj1 (C49_compiled_file _ _ _ _ _ lid _ _ _ _ _ H1 H2) _ _ H3 ltac:(discriminate)) as (t & C1 & _ & E). cbn [map List.concat] in E. rewrite app_nil_r, H4 in E.
  destruct (file_facts _ _ _ _ _ H1) as (NETS & _ & NF & ID & _). destruct (grammar_env _ _ _ _ _ _ _ _ _ _ H1 H2) as [[G1 G2 G3 G4 _ _ _ _ _] LI].
  pose proof (proj1 (chased_ok json_C lid json_env 1000 json_in json_pad G1 G2 G3 G4 LI ID (net_numbers _ _ NETS NF) (ce_len _ _ _ _ _ _ _ H2)) 1%N 0%N t C1 0 eq_refl ltac:(lia)) as OK.
  rewrite (stream_inj json_tree t); [exact C1| |exact OK|exact E]. cbn; repeat split; lia.
Qed.
(** The hypotheses of the other theorems, for the grammar S : 'a' S | /b/ and the text aab: a listener that always answers the
    address of the last character. *)
Example C49_hyp : exists L, answers_inside L 1000 aab /\ ids_distinct ab_C /\ l_answer L [Nonterminal 1 1001] = 1002%N.
Proof.
  exists (mkL 7 (fun _ => 1002%N) (fun _ _ => 0%N)). split; [intros h; exists 2; split; [cbn; lia|reflexivity]|]. split; [|reflexivity].
  intros m m' H1 H2 _. cbn in H1, H2. lia.
Qed.

(** ** The listener of BaseListener.hpp *)
(** BaseListener::nonterminal_callback returns NULL (BaseListener.hpp:12); the code reads on at that address. *)
Fixpoint faults (P : code) (e : env) (L : listener) (k : nat) (c : cst) : bool :=
  match k with
  | O => false
  | Datatypes.S k => match cstep P e L c with CNext c' => faults P e L k c' | CStop _ => false | CFault => true end
  end.
Lemma faults_star P e L k : forall c, faults P e L k c = true -> exists c', cstar P e L c c' /\ cstep P e L c' = CFault.
Proof.
  induction k as [|k IH]; intros c H; cbn [faults] in H; [discriminate|]. destruct (cstep P e L c) as [c1| |] eqn:E; [|discriminate|eauto using cstar_refl].
  destruct (IH c1 H) as (c' & S & F). exists c'. split; [econstructor; eauto|exact F].
Qed.
(** A text in which, at offset 1, the fifth rule of the JSON grammar (DictEntry) has a derivation: called there with the listener of
    BaseListener.hpp, the code reads at address 0, which is not mapped. *)
Theorem C49_null_answer_refuted : exists fs file ds g C lid e a u pad B L m P0 r c,
  grammar_ok fs file ds g C /\ call_env C ds e a u pad B /\ (exists name n t, rules_of ds name <> None /\ derives (rules_of ds) patL u name 1 n t /\ tid t = fst (net_of C m)) /\
  (forall h, l_answer L h = 0%N) /\ mem e 0 = None /\ m < length (c_nets C) /\ find_lab (chaser_code C lid) (lmach m) = Some P0 /\ r RDI = l_self L /\ r RSI = (a + 1)%N /\
  cstar (chaser_code C lid) e L (chaser_start P0 r [] [] [] [] (mkW [] [] 0) 0%N, []) c /\ cstep (chaser_code C lid) e L c = CFault.
Proof.
  pose (L := mkL 7 (fun _ => 0%N) (fun _ _ => 0%N)). pose (lid := fun _ _ : nat => (-1)%Z). pose (r := fun x => match x with RDI => 7%N | RSI => 1001%N | _ => 0%N end).
  assert (M : exists m, m < length (c_nets json_C) /\ fst (net_of json_C m) = 5%N /\ exists P0, find_lab (chaser_code json_C lid) (lmach m) = Some P0 /\ faults (chaser_code json_C lid) json_env L 400 (chaser_start P0 r [] [] [] [] (mkW [] [] 0) 0%N, []) = true).
  { assert (X : existsb (fun m => (fst (net_of json_C m) =? 5)%N && match find_lab (chaser_code json_C lid) (lmach m) with Some P0 => faults (chaser_code json_C lid) json_env L 400 (chaser_start P0 r [] [] [] [] (mkW [] [] 0) 0%N, []) | None => false end) (seq 0 (length (c_nets json_C))) = true) by (vm_compute; reflexivity).
    apply existsb_exists in X as (m & X1 & X2). apply in_seq in X1. apply andb_true_iff in X2 as [X2 X3]. exists m. split; [lia|]. split; [lia|]. destruct (find_lab (chaser_code json_C lid) (lmach m)) as [P0|]; [eauto|discriminate]. }
  destruct M as (m & Hm & EI & P0 & FP & FA). destruct (faults_star _ _ _ _ _ FA) as (c & S & F).
  exists (fun _ => json_text), [], json_ds, json_g, json_C, lid, json_env, 1000%N, json_in, json_pad, 64, L, m, P0, r, c.
  split; [exact json_ok|]. split; [exact json_call|]. split; [|repeat split; try assumption; reflexivity].
  destruct C18_compiled_hyp as (H1 & H2 & H3 & H4). destruct (proj2 (C49_compiled_file _ _ _ _ _ lid _ _ _ _ _ H1 H2) json_tree (C49_json lid)) as (bs & _ & _ & n & D).
  pose (sub := Node 5 1 21 [Node 3 1 4 []; Node 1 6 21 [Node 4 6 21 [Node 1 8 9 [Node 2 8 9 []]; Node 1 10 14 [Node 2 10 14 []]; Node 1 15 20 [Node 8 15 20 []]]]]).
  assert (NI : node_in sub json_tree) by (eapply ni_child; [left; reflexivity|]; eapply ni_child; [left; reflexivity|]; apply ni_self).
  destruct (node_derives _ _ _ _ _ _ _ D _ NI) as (name & p & q & D'). assert (p = 1) as -> by (inversion D'; lia). exists name, q, sub. split; [inversion D'; congruence|]. split; [exact D'|]. symmetry. exact EI.
Qed.
Print Assumptions C49_null_answer_refuted.
