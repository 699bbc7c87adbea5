(** * C52: places named to the tool *)
From Coq Require Import String Ascii.
From Coq Require Import List NArith ZArith Arith Bool Lia ZifyBool ZifyN ZifyNat Permutation.
From Verif Require Import CharClass Stream StreamSpec NFA NFASem NFABuild DFA RegexSpec GrammarSpec ParseSpec TreeSpec PathSpec CodeGen ATN ATNSem ATNBuild Grammar GrammarProofs Properties_Grammar Properties_NFA Properties_DFA ParserGen ATNLive ParserTree ParserTop Properties_Parser
  Lookahead Properties_Look Properties_Compile GrammarCheck CompileCheck Properties_CompileCases Verify Properties_Verify Tool ToolProofs ToolNodes.
Import ListNotations.
Local Open Scope nat_scope.

(** What the tool prints as a place it reads as that place. *)
Theorem C52_printed_places : forall p : list place, p <> [] -> (forall x, In x p -> is_name (fst x) /\ (snd x < 2 ^ 31)%N) -> read_path (path_text p) = SOk p.
Proof.
  intros p HN H. apply read_path_iff. split; [apply Forall_forall; intros x Hx; exact (proj2 (H x Hx))|]. exists (path_text p). split; [|left; reflexivity].
  apply path_text_written; [exact HN|]. intros x Hx. exact (proj1 (H x Hx)).
Qed.
Print Assumptions C52_printed_places.
(** Exactly the texts Name.number/Name.number/... are read as paths (numbers up to 2^31 - 1, leading zeros allowed;
    whatever stands behind a NUL is ignored); every other text is refused. *)
Theorem C52_read_places : forall (t : list N) (p : list place),
  read_path t = SOk p <-> Forall (fun x => (snd x < 2 ^ 31)%N) p /\ exists x, w_path p x /\ (t = x \/ exists r, t = x ++ 0%N :: r).
Proof. intros t p. apply read_path_iff. Qed.
Print Assumptions C52_read_places.
Theorem C52_other_texts_refused : forall t : list N, read_path t = SThrow <-> forall p, read_path t <> SOk p.
Proof.
  intros t. pose proof (read_path_total t) as T. destruct (read_path t) as [p| |]; split; intros H; try congruence; try discriminate; try reflexivity.
Qed.
Print Assumptions C52_other_texts_refused.

Lemma lookup_nodup (nets : list (list N * (N * atn))) name x : NoDup (map fst nets) -> In (name, x) nets -> lookup nets name = Some x.
Proof.
  intros ND H. destruct (lookup nets name) as [y|] eqn:E.
  - f_equal. apply lookup_in in E. induction nets as [|z l IH]; [destruct H|]. cbn in ND. inversion ND as [|? ? N1 N2]; subst. destruct H as [->|H], E as [E|E].
    + injection E. auto.
    + exfalso. apply N1. cbn. apply (in_map fst) in E. exact E.
    + subst z. exfalso. apply N1. apply (in_map fst) in H. exact H.
    + auto.
  - exfalso. destruct (lookup_some nets name) as [y Y]; [apply (in_map fst) in H; exact H|congruence].
Qed.
Lemma lookup_index nets name : lookup nets name = None -> net_index nets name = None.
Proof. intros H. apply net_index_none. exact H. Qed.
Lemma draw_place nets name i : is_name name -> (N.of_nat i < 2 ^ 31)%N -> draw_nfa nets (path_text [(name, N.of_nat i)]) =
  match lookup nets name with
  | None => Refused
  | Some (_, M) => match nth_error (map nt M) i with Some (NReg A) => Shown A | Some _ => Refused | None => Undefined end
  end.
Proof.
  intros HN L. unfold draw_nfa. rewrite C52_printed_places; [|discriminate|intros x [<-|[]]; auto]. unfold resolve. cbn [rev app]. destruct (lookup nets name) as [[id M]|]; [|reflexivity].
  rewrite Nnat.Nat2N.id, nth_error_map. destruct (nth_error M i) as [n|]; [|reflexivity]. cbn. destruct (nt n); reflexivity.
Qed.
(** generate-nfa: the patterns of a rule are at increasing places, in the order of the text; at the place of a pattern its
    automaton is drawn, at every other place of the rule nothing is; a rule that is not declared is refused. *)
Theorem C52_patterns_drawn : forall fs file ds g C name id b, read_from fs file ds g C -> is_name name -> rules_of ds name = Some (id, b) ->
  exists places : list nat, List.length places = List.length (pats_of b) /\
    (forall k k' i i', k < k' -> nth_error places k = Some i -> nth_error places k' = Some i' -> i < i') /\
    (forall k i, nth_error places k = Some i -> (N.of_nat i < 2 ^ 31)%N -> exists p A, nth_error (pats_of b) k = Some p /\
       draw_nfa (c_nets C) (path_text [(name, N.of_nat i)]) = Shown A /\ (pat_ok p -> pat_safe p -> forall w, accepts A w <-> patL p w)) /\
    (forall i A, ~ In i places -> (N.of_nat i < 2 ^ 31)%N -> draw_nfa (c_nets C) (path_text [(name, N.of_nat i)]) <> Shown A).
Proof.
  intros fs file ds g C name id b HF HN HR. destruct (read_nets fs file ds g C HF) as [ND [N1 N2]].
  assert (EX : exists M, In (name, (id, M)) (c_nets C) /\ net_for b M).
  { destruct (lookup (c_nets C) name) as [[id' M]|] eqn:E; [|apply lookup_index, N1 in E; congruence]. apply lookup_in in E. destruct (N2 _ _ _ E) as (b' & E' & F). rewrite HR in E'. injection E' as <- <-. eauto. }
  destruct EX as (M & IM & NF). pose proof (lookup_nodup _ _ _ ND IM) as LK. pose proof (net_pats b M NF) as PN. exists (map fst (pat_nodes 0 M)).
  assert (LN : List.length (pat_nodes 0 M) = List.length (pats_of b)) by (rewrite <- (map_length snd), PN, map_length; reflexivity).
  split; [rewrite map_length; exact LN|]. split; [|split].
  - intros k k' i i' L H1 H2. rewrite nth_error_map in H1, H2. destruct (nth_error (pat_nodes 0 M) k) as [[a A]|] eqn:E1; [|discriminate]. destruct (nth_error (pat_nodes 0 M) k') as [[a' A']|] eqn:E2; [|discriminate]. cbn in H1, H2. injection H1 as <-. injection H2 as <-.
    exact (pat_nodes_sorted M 0 k k' _ _ _ _ L E1 E2).
  - intros k i H L. rewrite nth_error_map in H. destruct (nth_error (pat_nodes 0 M) k) as [[a A]|] eqn:E; [|discriminate]. cbn in H. injection H as ->.
    assert (EP : nth_error (map build_pat (pats_of b)) k = Some A) by (rewrite <- PN, nth_error_map, E; reflexivity). rewrite nth_error_map in EP. destruct (nth_error (pats_of b) k) as [p|] eqn:Ep; [|discriminate]. cbn in EP. injection EP as <-.
    exists p, (build_pat p). split; [reflexivity|]. split.
    + rewrite (draw_place _ _ _ HN L), LK. apply nth_error_In in E. apply pat_nodes_in in E as [_ E]. rewrite Nat.sub_0_r in E. rewrite E. reflexivity.
    + intros Hp Hs w. destruct (proj2 (proj2 build_spec) p Hp) as (_ & HA & _). rewrite HA. split; [apply (proj2 (proj2 sound) p Hs)|apply (proj2 (proj2 complete))].
  - intros i A NI L. rewrite (draw_place _ _ _ HN L), LK. destruct (nth_error (map nt M) i) as [[|x|x|B|]|] eqn:E; try discriminate. exfalso. apply NI. apply (in_map fst (pat_nodes 0 M) (i, B)). apply pat_nodes_in. rewrite Nat.sub_0_r. split; [lia|exact E].
Qed.
Print Assumptions C52_patterns_drawn.
Theorem C52_unknown_rule_refused : forall fs file ds g C name i, read_from fs file ds g C -> is_name name -> (i < 2 ^ 31)%N -> ~ In name (map fst ds) ->
  draw_nfa (c_nets C) (path_text [(name, i)]) = Refused.
Proof.
  intros fs file ds g C name i HF HN L NI. destruct (read_nets fs file ds g C HF) as [ND [_ N2]]. unfold draw_nfa. rewrite C52_printed_places; [|discriminate|intros x [<-|[]]; auto]. unfold resolve. cbn [rev app].
  destruct (lookup (c_nets C) name) as [[id M]|] eqn:E; [|reflexivity]. exfalso. apply NI. apply lookup_in in E. destruct (N2 _ _ _ E) as (b & E' & _). apply rules_from_in in E' as [E' _]. apply (in_map fst) in E'. exact E'.
Qed.
Print Assumptions C52_unknown_rule_refused.

(** Of a longer path only the last place counts. *)
Theorem C52_leaf_counts : forall nets q x, (forall y, In y (q ++ [x]) -> is_name (fst y) /\ (snd y < 2 ^ 31)%N) ->
  draw_nfa nets (path_text (q ++ [x])) = draw_nfa nets (path_text [x]).
Proof.
  intros nets q x H. unfold draw_nfa. rewrite (C52_printed_places (q ++ [x])), (C52_printed_places [x]); [|discriminate|intros y Hy; apply H; apply in_or_app; right; exact Hy|destruct q; discriminate|exact H].
  unfold resolve. rewrite rev_app_distr. cbn [rev app]. destruct x as [name i]. reflexivity.
Qed.
Print Assumptions C52_leaf_counts.
(** generate-dfa: without --optimize a deterministic automaton of the same language is drawn (the same texts are refused); with it
    one of the same language if no two states with the same arrows differ in accepting (C09). *)
Theorem C52_dfa_drawn : forall k nets t,
  (forall X, draw_dfa k false nets t = Shown X -> exists A, draw_nfa nets t = Shown A /\ forall w, dfa_run X 0 w = true <-> accepts A w) /\
  (forall opt, draw_dfa k opt nets t = Refused <-> draw_nfa nets t = Refused) /\
  (forall Y, draw_dfa k true nets t = Shown Y -> exists X, draw_dfa k false nets t = Shown X /\
     ((forall i j, i < List.length X -> j < List.length X -> trs_eqb (dtrs (nth i X dnil)) (dtrs (nth j X dnil)) = true -> dacc (nth i X dnil) = dacc (nth j X dnil)) ->
      forall w, dfa_run Y 0 w = dfa_run X 0 w)).
Proof.
  intros k nets t. unfold draw_dfa. destruct (draw_nfa nets t) as [A| | |]; (split; [|split]); try discriminate; try (split; congruence).
  - intros X. destruct (dfa_plain k k A) as [X'|] eqn:E; [|discriminate]. intros H. injection H as <-. exists A. split; [reflexivity|]. exact (C08_dfa_exact k k A X' E).
  - intros opt. destruct opt; [destruct (dfa_build k k A)|destruct (dfa_plain k k A)]; split; discriminate.
  - intros Y. destruct (dfa_build k k A) as [Y'|] eqn:E; [|discriminate]. intros H. injection H as <-. destruct (dfa_plain k k A) as [X|] eqn:EX; [|unfold dfa_build in E; rewrite EX in E; discriminate].
    exists X. split; [reflexivity|]. intros HC. destruct (C09_minimize_partial k k A X EX HC) as (M & EM & L). rewrite E in EM. injection EM as <-. exact L.
Qed.
Print Assumptions C52_dfa_drawn.
(** generate-nfa -e: the automaton of the pattern. *)
Theorem C52_pattern_option : forall (p : pat) (t : list N), pat_ok p -> pat_safe p -> w_pat p t -> ~ In 13%N t -> exists A, draw_nfa_e t = Shown A /\ forall w, accepts A w <-> patL p w.
Proof.
  intros p t Hp Hs Hw NC. destruct (C07_pattern_to_end_partial p t Hp Hs Hw) as (A & E & L). exists A. split; [|exact L]. unfold draw_nfa_e. rewrite StreamProofs.deliver_nocr by exact NC. rewrite E. reflexivity.
Qed.
Print Assumptions C52_pattern_option.
(** generate-dfa -e without --optimize draws the minimised automaton all the same: for a+ one that accepts nothing. *)
Theorem C52_e_dfa_refuted : exists (p : pat) (t : list N) A X, w_pat p t /\ pat_ok p /\ pat_safe p /\ patL p [97%N] /\ draw_nfa_e t = Shown A /\ accepts A [97%N] /\ draw_dfa_e 100 false t = Shown X /\ forall w, dfa_run X 0 w = false.
Proof.
  exists (PSnoc PNil (SOne (UAtom (AChar 97)) (QPlus false))), ([] ++ [97%N] ++ [43%N]). eexists. eexists.
  split; [apply wp_snoc; [constructor|]; apply ws_one; [constructor; constructor; [reflexivity|discriminate]|cbn; auto]|]. split; [cbn; lia|]. split; [cbn; repeat split; discriminate|].
  assert (PL : patL (PSnoc PNil (SOne (UAtom (AChar 97)) (QPlus false))) [97%N]).
  { cbn. exists [], [97%N]. split; [reflexivity|]. split; [reflexivity|]. exists [97%N], []. split; [reflexivity|]. split; [exists 97%N; auto|constructor]. }
  split; [exact PL|]. split; [vm_compute; reflexivity|]. split.
  - pose proof (proj2 (proj2 build_spec) (PSnoc PNil (SOne (UAtom (AChar 97)) (QPlus false))) ltac:(cbn; lia)) as (_ & HA & _). apply (proj2 (HA [97%N])). apply (proj2 (proj2 complete)). exact PL.
  - split; [vm_compute; reflexivity|]. intros w. apply first_tr_loop; [reflexivity|]. cbn. intros t [<-|[]]. reflexivity.
Qed.
Print Assumptions C52_e_dfa_refuted.
(** ** The place verify-grammar names *)
Lemma failing_node_check D k name : forall M i,
  match failing_node D k name i M with
  | SOk None => check_nodes D k name i M = SOk true
  | SOk (Some t) => check_nodes D k name i M = SOk false /\ exists j, j < List.length M /\ t = report name (i + j) /\ 2 <= List.length (atrs (nth j M blank)) /\ decision D k k name (i + j) = SThrow
  | SThrow => False
  | SFuel => check_nodes D k name i M = SFuel
  end.
Proof.
  induction M as [|n M IH]; intros i; cbn [failing_node check_nodes]; [reflexivity|]. specialize (IH (S i)).
  assert (REST : match failing_node D k name (S i) M with SOk None => check_nodes D k name (S i) M = SOk true
    | SOk (Some t) => check_nodes D k name (S i) M = SOk false /\ exists j, j < List.length (n :: M) /\ t = report name (i + j) /\ 2 <= List.length (atrs (nth j (n :: M) blank)) /\ decision D k k name (i + j) = SThrow
    | SThrow => False | SFuel => check_nodes D k name (S i) M = SFuel end).
  { destruct (failing_node D k name (S i) M) as [[t|]| |]; try exact IH. destruct IH as (A & j & B1 & B2 & B3 & B4). split; [exact A|]. exists (S j). replace (i + S j) with (S i + j) by lia. cbn [List.length nth]. auto with arith. }
  destruct (1 <? List.length (atrs n)) eqn:E; [|exact REST]. destruct (decision D k k name i) eqn:ED; [exact REST| |reflexivity].
  split; [reflexivity|]. exists 0. rewrite Nat.add_0_r. apply Nat.ltb_lt in E. cbn [List.length nth]. split; [lia|auto].
Qed.
Lemma failing_net_check D k : forall nets,
  match failing_net D k nets with
  | SOk None => check_nets D k nets = SOk true
  | SOk (Some t) => check_nets D k nets = SOk false /\ exists name i, t = report name i /\ decision_point nets name i /\ decision D k k name i = SThrow
  | SThrow => False
  | SFuel => check_nets D k nets = SFuel
  end.
Proof.
  induction nets as [|[name [id M]] nets IH]; cbn [failing_net check_nets]; [reflexivity|]. pose proof (failing_node_check D k name M 0) as H. destruct (failing_node D k name 0 M) as [[t|]| |]; [| |exact H|rewrite H; reflexivity].
  - destruct H as (A & j & B1 & B2 & B3 & B4). rewrite A. split; [reflexivity|]. exists name, j. split; [exact B2|]. split; [|exact B4]. exists id, M. split; [left; reflexivity|auto].
  - rewrite H. destruct (failing_net D k nets) as [[t|]| |]; try exact IH. destruct IH as (A & nm & i & B1 & (gi & M' & B2 & B3) & B4). split; [exact A|]. exists nm, i. split; [exact B1|]. split; [|exact B4]. exists gi, M'. split; [right; exact B2|exact B3].
Qed.
(** verify-grammar says no because of a decision exactly if it names a place; the place, read as a path, is a node with two ways
    on or more whose table cannot be built. *)
Theorem C52_reported_place : forall k nets D, composite nets = Some D -> forallb (fun p => invocations_ok nets (snd (snd p))) nets = true ->
  (forall name id M, In (name, (id, M)) nets -> is_name name /\ (N.of_nat (List.length M) < 2 ^ 31)%N) ->
  (verify k nets = SOk false <-> exists t, failing_net D k nets = SOk (Some t)) /\
  forall t, failing_net D k nets = SOk (Some t) -> exists name i, read_path t = SOk [(name, N.of_nat i)] /\ decision_point nets name i /\ decision D k k name i = SThrow.
Proof.
  intros k nets D HD HI HN. pose proof (failing_net_check D k nets) as H. unfold verify. rewrite HI, HD. destruct (failing_net D k nets) as [[t|]| |].
  - destruct H as (A & name & i & -> & P & E). split; [split; [intros _; eauto|intros _; exact A]|]. intros t Ht. injection Ht as <-. exists name, i. split; [|auto].
    destruct P as (id & M & I1 & I2 & _). destruct (HN _ _ _ I1) as [J1 J2]. apply C52_printed_places; [discriminate|]. intros x [<-|[]]. cbn [fst snd]. split; [exact J1|lia].
  - rewrite H. split; [split; [discriminate|intros [t Ht]; discriminate]|intros t Ht; discriminate].
  - destruct H.
  - rewrite H. split; [split; [discriminate|intros [t Ht]; discriminate]|intros t Ht; discriminate].
Qed.
Print Assumptions C52_reported_place.
(** generate-ldfa takes the number a node has in the drawing of generate-catn: the table of node i of a rule is the one drawn
    at the number j of its copy. *)
Theorem C52_tables_drawn_partial : forall k nets D name Q i j, composite nets = Some D -> mach D name = Some Q -> convert_index Q i 0 = Some j -> is_name name -> (N.of_nat j < 2 ^ 31)%N ->
  draw_ldfa k nets (path_text [(name, N.of_nat j)]) = match decision D k k name i with SOk T => Shown T | SThrow => Refused | SFuel => Unending end.
Proof.
  intros k nets D name Q i j HD HM HC HN L. unfold draw_ldfa. rewrite C52_printed_places; [|discriminate|intros x [<-|[]]; auto]. rewrite HD. cbn [map rev app fst snd]. rewrite Nnat.Nat2N.id. unfold decision. rewrite HM, HC. reflexivity.
Qed.
Print Assumptions C52_tables_drawn_partial.

(** ** Cases *)
Local Open Scope string_scope.
Example C52_path : read_path (str "Object.2/List.010") = SOk [(str "Object", 2%N); (str "List", 10%N)] /\ path_text [(str "Object", 2%N); (str "List", 10%N)] = str "Object.2/List.10" /\
  read_path [] = SThrow /\ read_path (str "S.") = SThrow /\ read_path (str "S.1/") = SThrow /\ read_path (str "S. 1") = SThrow /\ read_path (str "S.2147483648") = SThrow /\ read_path (str "S.2147483647") = SOk [(str "S", 2147483647%N)].
Proof. vm_compute. repeat split. Qed.
Definition rp_text : list N := str "S : ""ab"" ( S ""x"" | S ""y"" ) ;".
Definition rp_ds : list (list N * gsel) :=
  [(str "S", GFirst (GCons (GTerm (TLit (str "ab"))) GOne (GCons (GGroup (GAlt (GFirst (GCons (GTerm (TRule (str "S"))) GOne (GCons (GTerm (TLit (str "x"))) GOne GNil))) false (GCons (GTerm (TRule (str "S"))) GOne (GCons (GTerm (TLit (str "y"))) GOne GNil)))) GOne GNil)))].
Definition rp_g : gstate := Eval vm_compute in match read_grammar 100 (fun _ => rp_text) [] with SOk (_, g) => g | _ => empty_grammar end.
(** As Grammar(path) leaves it: Grammar.hpp:67-72. *)
Definition rp_nets : list (list N * (N * atn)) := Eval vm_compute in map (fun p => (fst p, (fst (snd p), match drop_passthrough (snd (snd p)) with Some M => M | None => [] end))) (g_nets rp_g).
Definition rp_D : list (list N * cmach) := Eval vm_compute in match composite rp_nets with Some D => D | None => [] end.
Example C52_reported_case : composite rp_nets = Some rp_D /\ forallb (fun p => invocations_ok rp_nets (snd (snd p))) rp_nets = true /\ failing_net rp_D 100 rp_nets = SOk (Some (str "S.3")) /\ verify 100 rp_nets = SOk false /\
  (exists Q, mach rp_D (str "S") = Some Q /\ convert_index Q 3 0 = Some 4) /\ draw_ldfa 100 rp_nets (str "S.4") = Refused.
Proof. split; [vm_compute; reflexivity|]. split; [vm_compute; reflexivity|]. split; [vm_compute; reflexivity|]. split; [vm_compute; reflexivity|]. split; [eexists; split; vm_compute; reflexivity|vm_compute; reflexivity]. Qed.
(** The place verify-grammar names, given to generate-ldfa, is not that place: here a table is drawn although the table of the
    place that was reported cannot be built, whatever the number of steps. *)
Theorem C52_reported_place_refuted : exists fs file ds g C D t name i, declares fs file ds /\ Properties_Grammar.reads fs file g /\ loaded g C /\ composite (c_nets C) = Some D /\
  failing_net D 100 (c_nets C) = SOk (Some t) /\ read_path t = SOk [(name, N.of_nat i)] /\ (forall k, 100 <= k -> decision D k k name i = SThrow) /\ exists T, draw_ldfa 100 (c_nets C) t = Shown T.
Proof.
  exists (fun _ => rp_text), [], rp_ds, rp_g, (mkC rp_nets (fun _ => []) (fun _ _ => []) (fun _ _ _ => 0%N) 0%N), rp_D, (str "S.3"), (str "S"), 3.
  split; [unfold declares; apply (check_file_spec _ _ _ None); vm_compute; reflexivity|]. split; [eexists 100%nat, _; vm_compute; reflexivity|].
  split. { exists (g_nets rp_g). split; [apply Permutation_refl|]. right. cbn [c_nets]. repeat constructor; vm_compute; reflexivity. }
  split; [vm_compute; reflexivity|]. split; [vm_compute; reflexivity|]. split; [vm_compute; reflexivity|]. split; [|eexists; vm_compute; reflexivity].
  intros k Hk. assert (E : decision rp_D 100 100 (str "S") 3 = SThrow) by (vm_compute; reflexivity). rewrite (LookFuel.decision_more rp_D 100 k 100 k (str "S") 3 Hk Hk); [exact E|]. rewrite E. discriminate.
Qed.
Print Assumptions C52_reported_place_refuted.
Local Close Scope string_scope.
(** The hypotheses of C52_patterns_drawn on grammars/json.cgr: rule Number has one pattern, drawn at Number.4 (networks not optimised). *)
Example C52_json_number : read_from (fun _ => json_text) [] json_ds json_g json_C /\ is_name (str "Number"%string) /\ (exists b p, rules_of json_ds (str "Number"%string) = Some (2%N, b) /\ pats_of b = [p]) /\
  exists A, draw_nfa (c_nets json_C) (str "Number.4"%string) = Shown A.
Proof.
  split; [apply (proj1 (from_read _ _ _ _ _)); exact (go_file _ _ _ _ _ json_ok)|]. split.
  { cbn [is_name str map list_ascii_of_string]. split; [right; unfold letter; vm_compute; intuition discriminate|]. intros x Hx. unfold sym_char, letter, digit. vm_compute in Hx. intuition lia. }
  split; [do 2 eexists; split; [vm_compute; reflexivity|vm_compute; reflexivity]|]. eexists. vm_compute. reflexivity.
Qed.
