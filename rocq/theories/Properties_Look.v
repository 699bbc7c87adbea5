(** * C32 and the whole compilation of a grammar file: decision automata *)
From Coq Require Import List NArith ZArith Arith Bool Lia ZifyBool ZifyN ZifyNat Permutation.
From Verif Require Import CharClass CharClassSpec Stream NFA NFASem NFAProofs NFABuild NFAParse DFA DFAProofs DFAMin RegexSpec GrammarSpec Marker TreeSpec ParseSpec Writer X86 X86Step CodeGen CodeGenProofs CodeGenSimd CodeGenDfa CodeGenPlain CodeGenMisc CodeGenRoutine ATN ATNSem ATNBuild ATNOpt ATNLive Grammar GrammarProofs Properties_CodeGen Properties_Grammar ParserGen ParserRun ParserSim ParserTree ParserTop Properties_Parser
  Lookahead LookSpec LookImport LookGrammarSpec LookRead LookSim LookGrammar LookWf LookFit LookNul.
Import ListNotations.
Local Open Scope nat_scope.

(** ** Conditions on the text of a grammar *)
(** Literals are not empty and consist of characters 1..254; patterns use characters 1..254 (C06's
    condition for negated brackets). *)
Definition term_plain (x : term) : Prop :=
  match x with TRule _ => True | TLit s => s <> [] /\ (forall c, In c s -> (1 <= c < 255)%N) | TPat p => pat_ok p end.
Definition rules_plain (ds : list (list N * gsel)) : Prop := forall name b x, In (name, b) ds -> In x (gsel_terms b) -> term_plain x.
(** No alternatives with a preference (the bar-greater sign). *)
Definition no_preferences (ds : list (list N * gsel)) : Prop := forall name b, In (name, b) ds -> plain_sel b.
(** No pattern that stands on the node ends in a '+'. *)
Definition not_after_plus (n : anode) : Prop := forall p, nt n = NReg (build_pat p) -> ends_plus_pat p = false.
(** The networks of the program belong to the grammar the file declares. *)
Definition compiled_from (fs : list N -> list N) (file : list N) (ds : list (list N * gsel)) (g : gstate) (C : compiled) : Prop :=
  declares fs file ds /\ refs_declared ds /\ (1 <= N.of_nat (length ds) < 2 ^ 15)%N /\ Properties_Grammar.reads fs file g /\ loaded g C.

Lemma names_declared f file t ds : forall res, w_file f res file t ds -> forall name b, In (name, b) ds -> name <> [].
Proof.
  intros res H. induction H as [| |f0 b b1 id b2 r ds _ _ _ _ _ _ IH|f0 b b1 p b2 r ds ds' _ _ _ _ _ IH1 _ IH2]; intros name e0 Hin.
  - destruct Hin.
  - destruct Hin as [Hin|Hin]; [|eauto]. injection Hin as <- <-. intros ->. match goal with X : is_name [] |- _ => destruct X end.
  - eauto.
  - apply in_app_or in Hin as [Hin|Hin]; eauto.
Qed.
Lemma loaded_names g C : loaded g C -> NoDup (map fst (g_nets g)) -> NoDup (map fst (c_nets C)).
Proof.
  intros (L & HP & HL) ND. assert (E : map fst (c_nets C) = map fst L) by (destruct HL as [->|HF]; [reflexivity|]; clear HP; induction HF as [|p q l l' (H1 & _) _ IH]; [reflexivity|]; cbn [map]; congruence).
  rewrite E. eapply Permutation_NoDup; [apply Permutation_map, Permutation_sym; exact HP|exact ND].
Qed.
Section File.
Variables (fs : list N -> list N) (file : list N) (ds : list (list N * gsel)) (g : gstate) (C : compiled).
Hypothesis HF : compiled_from fs file ds g C.
Hypothesis HP : rules_plain ds.
Lemma file_nets : NoDup (map fst (c_nets C)) /\ nets_of (rules_of ds) C /\ g_root g = hd [] (map fst ds).
Proof.
  destruct HF as (HD & _ & HL & HR & HC). change (2 ^ 15)%N with 32768%N in HL. destruct (declared_nets fs file ds g HD ltac:(lia) HR) as (ND & LK & RT).
  split; [exact (loaded_names g C HC ND)|]. split; [exact (loaded_nets (rules_of ds) g C ND HC LK)|exact RT].
Qed.
Lemma file_net name id M : In (name, (id, M)) (c_nets C) -> exists b, In (name, b) ds /\ net_for b M /\ rules_of ds name = Some (id, b).
Proof. intros H. destruct file_nets as (_ & [_ N2] & _). destruct (N2 _ _ _ H) as (b & E & NF). exists b. split; [apply (rules_from_in ds 1 name id b E)|auto]. Qed.
Lemma file_names x : In x (map fst ds) -> In x (map fst (c_nets C)).
Proof.
  intros H. destruct (first_nth ds x H) as (j & b & A1 & A2). destruct file_nets as (_ & [N1 _] & _). destruct (net_index (c_nets C) x) as [m|] eqn:E.
  - destruct (net_index_nth _ _ _ E) as (nn & E1 & _). apply nth_error_In in E1. apply (in_map fst) in E1. exact E1.
  - specialize (N1 x E). unfold rules_of in N1. rewrite (rules_from_some ds 1 j x b A1 A2) in N1. discriminate.
Qed.
Lemma plain_fit x : term_plain x -> term_fit x.
Proof. destruct x as [s|s|p]; cbn; auto. intros [H1 H2]. split; [exact H1|]. intros c Hc. specialize (H2 c Hc). unfold narrow. rewrite N.mod_small; lia. Qed.
Lemma file_rules : forall r gn M, In (r, (gn, M)) (c_nets C) -> exists e, net_for e M /\ (forall x, In x (gsel_terms e) -> term_fit x) /\ forall s, In (TRule s) (gsel_terms e) -> In s (map fst (c_nets C)).
Proof.
  intros r gn M H. destruct (file_net _ _ _ H) as (b & I & NF & RU). exists b. split; [exact NF|]. split; [intros x Hx; apply plain_fit; exact (HP _ _ _ I Hx)|].
  intros s Hs. apply file_names. destruct HF as (_ & RD & _). exact (RD _ _ _ _ RU Hs).
Qed.
Lemma file_lookable : lookable (c_nets C).
Proof.
  apply nets_lookable; [apply file_nets| |exact file_rules]. intros r [gn M] H. destruct (file_net _ _ _ H) as (b & I & _). destruct HF as (HD & _). exact (names_declared _ _ _ _ _ HD r b I).
Qed.
Lemma file_proper : proper_pats (c_nets C).
Proof. exact (nets_proper _ file_rules). Qed.
Lemma file_levels : no_preferences ds -> no_levels (c_nets C).
Proof. intros H r gn M i d t I Hd. destruct (file_net _ _ _ I) as (b & Ib & NF & _). exact (net_untagged b M (H _ _ Ib) NF i d t Hd). Qed.
Lemma file_at name id M i : In (name, (id, M)) (c_nets C) -> i < length M -> known (c_nets C) name /\ net (c_nets C) name = M.
Proof.
  intros H Hi. split; [apply (in_map fst) in H; exact H|]. unfold net. destruct (lookup_some _ _ (in_map fst _ _ H)) as [[id' M'] E]. cbn [fst] in E. rewrite E. apply lookup_in in E.
  destruct file_nets as (ND & _). clear - ND H E. induction (c_nets C) as [|x l IH]; [destruct H|]. cbn in ND. inversion ND as [|? ? N1 N2]; subst.
  destruct H as [->|H], E as [E|E]; [injection E; auto|exfalso; apply N1; apply (in_map fst) in E; exact E|subst x; exfalso; apply N1; apply (in_map fst) in H; exact H|auto].
Qed.
Lemma file_closed name id M i : In (name, (id, M)) (c_nets C) -> i < length M -> 2 <= length (atrs (nth i M blank)) -> not_after_plus (nth i M blank) -> closed_end (nt (nth i M blank)).
Proof.
  intros H Hi H2 HA. destruct (file_net _ _ _ H) as (b & I & NF & _). destruct (net_good _ _ NF) as [[W1 _] _ _].
  assert (K : nt (nth i M blank) = NWs \/ closed_end (nt (nth i M blank))).
  { generalize HA. unfold not_after_plus. pattern (nt (nth i M blank)). apply (net_nodes b M _ NF); [right; exact Logic.I|left; reflexivity| |exact Hi]. intros [y|y|p] Hx HQ; right; cbn; try exact Logic.I.
    exact (proj2 (proj2 build_shut) p (HP _ _ _ I Hx) (HQ p eq_refl)). }
  destruct K as [K|K]; [|exact K]. destruct (W1 i K) as [E _]. unfold tonode in E. rewrite E in H2. cbn in H2. lia.
Qed.
Lemma file_composite : exists D, composite (c_nets C) = Some D.
Proof.
  pose proof file_lookable as LK. assert (G : forall l, (forall x, In x l -> In x (c_nets C)) -> exists D, composite l = Some D).
  { induction l as [|[r [gn M]] l IH]; intros HI; [exists []; reflexivity|]. destruct (IH ltac:(intros x Hx; apply HI; right; exact Hx)) as [D E]. cbn [composite]. rewrite E.
    destruct (import_atn_total M (lk_ready _ LK _ _ _ (HI _ (or_introl eq_refl))) (lk_ne _ LK _ _ _ (HI _ (or_introl eq_refl)))) as [Q EQ]. rewrite EQ. eauto. }
  apply G. auto.
Qed.
End File.

(** ** C32 *)
(** Every decision point (a node with two or more ways on) of every declared rule, every text: the automaton
    built for it is fit for the code generator; whatever it answers about the text w is right:
    - way k: some beginning of w is the beginning of a text of way k and of no other, while all shorter ones belong to
      two ways or more (so the answer comes as early as possible);
    - rejection: some beginning of w belongs to no way;
    - no answer yet: every beginning of w belongs to two ways or more. *)
Theorem C32_decision_partial : forall fs file ds g C D name id M i fuel cf T,
  compiled_from fs file ds g C -> rules_plain ds -> no_preferences ds -> composite (c_nets C) = Some D ->
  In (name, (id, M)) (c_nets C) -> i < length M -> 2 <= length (atrs (nth i M blank)) -> not_after_plus (nth i M blank) ->
  decision D fuel cf name i = SOk T ->
  lcodable T (length (atrs (nth i M blank))) /\
  forall w, match ldfa_go T 0 w with
  | LExit k => exists m, 0 < m <= length w /\ only_alt (c_nets C) name i k (firstn m w) /\ forall m', 0 < m' < m -> two_alts (c_nets C) name i (firstn m' w)
  | LReject => exists m, 0 < m <= length w /\ no_alt (c_nets C) name i (firstn m w) /\ forall m', 0 < m' < m -> two_alts (c_nets C) name i (firstn m' w)
  | LMore => forall m', 0 < m' <= length w -> two_alts (c_nets C) name i (firstn m' w)
  end.
Proof.
  intros fs file ds g C D name id M i fuel cf T HF HP HL HD HM Hi H2 HA HT. pose proof (file_lookable _ _ _ _ _ HF HP) as LK. pose proof (file_proper _ _ _ _ _ HF HP) as PR.
  destruct (file_at _ _ _ _ _ HF name id M i HM Hi) as [K EN]. pose proof (file_closed _ _ _ _ _ HF HP name id M i HM Hi H2 HA) as CE.
  assert (ES : sym (c_nets C) name i = nt (nth i M blank)) by (unfold sym; rewrite EN; reflexivity). assert (EO : outs (c_nets C) name i = atrs (nth i M blank)) by (unfold outs; rewrite EN; reflexivity).
  rewrite <- ES in CE. rewrite <- EO in *. assert (Hi' : i < length (net (c_nets C) name)) by (rewrite EN; exact Hi). split.
  - exact (decision_codable (c_nets C) D LK HD fuel cf name i T PR K Hi' CE HT).
  - intros w. exact (decision_exact (c_nets C) D LK HD fuel cf name i T PR K Hi' CE H2 HT w (file_levels _ _ _ _ _ HF HL)).
Qed.
Print Assumptions C32_decision_partial.
Lemma alternative_prefix nets r i k u v : alternative nets r i k (u ++ v) -> alternative nets r i k u.
Proof. intros (n & d & t & H1 & H2 & x & y & H). exists n, d, t. split; [exact H1|]. split; [exact H2|]. exists (v ++ x), y. rewrite app_assoc. exact H. Qed.
Lemma alternative_firstn nets r i k w m n : m <= n -> alternative nets r i k (firstn n w) -> alternative nets r i k (firstn m w).
Proof. intros H. replace (firstn n w) with (firstn m w ++ firstn (n - m) (skipn m w)); [apply alternative_prefix|]. rewrite <- (firstn_skipn m w) at 3. destruct (Nat.le_gt_cases m (length w)) as [L|L].
  - rewrite firstn_app, firstn_length_le by exact L. rewrite (firstn_all2 (n := n) (firstn m w)) by (rewrite firstn_length_le; lia). reflexivity.
  - rewrite skipn_all2 by lia. rewrite !firstn_nil, !app_nil_r. rewrite (firstn_all2 w) by lia. rewrite !firstn_all2 by lia. reflexivity.
Qed.
(** In the words of the property: if the first n characters of the text belong to one way only, the
    automaton answers this way, reading no more than these n characters. *)
Theorem C32_chooses_partial : forall fs file ds g C D name id M i fuel cf T,
  compiled_from fs file ds g C -> rules_plain ds -> no_preferences ds -> composite (c_nets C) = Some D ->
  In (name, (id, M)) (c_nets C) -> i < length M -> 2 <= length (atrs (nth i M blank)) -> not_after_plus (nth i M blank) ->
  decision D fuel cf name i = SOk T ->
  forall w k, 0 < length w -> only_alt (c_nets C) name i k w -> forall v, ldfa_go T 0 (w ++ v) = LExit k.
Proof.
  intros fs file ds g C D name id M i fuel cf T HF HP HL HD HM Hi H2 HA HT w k W1 HK v.
  destruct (C32_decision_partial fs file ds g C D name id M i fuel cf T HF HP HL HD HM Hi H2 HA HT) as [_ E]. specialize (E (w ++ v)).
  assert (F : forall m, m <= length w -> alternative (c_nets C) name i k (firstn m (w ++ v))).
  { intros m Hm. apply (alternative_firstn _ _ _ _ _ m (length w) Hm). rewrite firstn_app, Nat.sub_diag, firstn_all, firstn_O, app_nil_r. apply HK. reflexivity. }
  assert (T2 : ~ two_alts (c_nets C) name i (firstn (length w) (w ++ v))).
  { rewrite firstn_app, Nat.sub_diag, firstn_all, firstn_O, app_nil_r. intros (a & b & N0 & A & B). apply HK in A, B. congruence. }
  destruct (ldfa_go T 0 (w ++ v)) as [k'| |].
  - destruct E as (m & M1 & E1 & E2). destruct (Nat.le_gt_cases m (length w)) as [L|L].
    + f_equal. symmetry. apply E1. apply F. exact L.
    + destruct T2. apply E2. lia.
  - destruct E as (m & M1 & E1 & E2). destruct (Nat.le_gt_cases m (length w)) as [L|L].
    + destruct (E1 k). apply F. exact L.
    + destruct T2. apply E2. lia.
  - destruct T2. apply E. rewrite app_length. lia.
Qed.
Print Assumptions C32_chooses_partial.
(** With preferences: every answer is still a way the text can go. *)
Theorem C32_preferences_partial : forall fs file ds g C D name id M i fuel cf T,
  compiled_from fs file ds g C -> rules_plain ds -> composite (c_nets C) = Some D ->
  In (name, (id, M)) (c_nets C) -> i < length M -> 2 <= length (atrs (nth i M blank)) -> not_after_plus (nth i M blank) ->
  decision D fuel cf name i = SOk T ->
  lcodable T (length (atrs (nth i M blank))) /\
  forall w k, ldfa_go T 0 w = LExit k -> exists m, 0 < m <= length w /\ alternative (c_nets C) name i k (firstn m w).
Proof.
  intros fs file ds g C D name id M i fuel cf T HF HP HD HM Hi H2 HA HT. pose proof (file_lookable _ _ _ _ _ HF HP) as LK. pose proof (file_proper _ _ _ _ _ HF HP) as PR.
  destruct (file_at _ _ _ _ _ HF name id M i HM Hi) as [K EN]. pose proof (file_closed _ _ _ _ _ HF HP name id M i HM Hi H2 HA) as CE.
  assert (ES : sym (c_nets C) name i = nt (nth i M blank)) by (unfold sym; rewrite EN; reflexivity). assert (EO : outs (c_nets C) name i = atrs (nth i M blank)) by (unfold outs; rewrite EN; reflexivity).
  rewrite <- ES in CE. rewrite <- EO in *. assert (Hi' : i < length (net (c_nets C) name)) by (rewrite EN; exact Hi). split.
  - exact (decision_codable (c_nets C) D LK HD fuel cf name i T PR K Hi' CE HT).
  - intros w k. exact (decision_sound (c_nets C) D LK HD fuel cf name i T PR K Hi' CE H2 HT w k).
Qed.
Print Assumptions C32_preferences_partial.

(** ** Texts that end *)
(** Nothing but a dot matches the NUL. *)
Definition nul_free (ds : list (list N * gsel)) : Prop := forall name b p, In (name, b) ds -> In (TPat p) (gsel_terms b) -> pat_nodot p.
Lemma nodot_atoms : (forall u, unit_nodot u -> ~ In ADot (unit_atoms u)) /\ (forall s, sel_nodot s -> ~ In ADot (sel_atoms s)) /\ (forall p, pat_nodot p -> ~ In ADot (pat_atoms p)).
Proof.
  apply regex_ind; cbn [unit_nodot sel_nodot pat_nodot unit_atoms sel_atoms pat_atoms]; auto.
  - intros a H [E|[]]. congruence.
  - intros s IHs u IHu q [H1 H2] H. apply in_app_or in H as [H|H]; [exact (IHs H1 H)|exact (IHu H2 H)].
  - intros p IHp s IHs [H1 H2] H. apply in_app_or in H as [H|H]; [exact (IHp H1 H)|exact (IHs H2 H)].
Qed.
Lemma pat_nul p : pat_ok p -> pat_nodot p -> forall q lab d, edge (build_pat p) q lab d -> CharClass.includes lab 0 = false.
Proof.
  intros Hp Hd. apply pat_lacks; [exact Hp|]. intros a Ha. pose proof (proj2 (proj2 atoms_ok) p Hp a Ha) as OK. destruct a as [c| |l|l]; cbn [atom_ok atom_den] in *; try lia.
  - exfalso. exact (proj2 (proj2 nodot_atoms) p Hd Ha).
  - destruct OK as (F & _). intros (i & Hi & K). rewrite Forall_forall in F. specialize (F i Hi). destruct i; cbn in *; lia.
Qed.
Lemma file_nul fs file ds g C D fuel cf name i T : compiled_from fs file ds g C -> rules_plain ds -> nul_free ds -> composite (c_nets C) = Some D -> decision D fuel cf name i = SOk T ->
  forall q cc d, In (cc, d) (nth q T []) -> CharClass.includes cc 0 = false.
Proof.
  intros HF HP HN HD HT. apply (decision_lacks (c_nets C) D (file_lookable _ _ _ _ _ HF HP) HD 0%N) with (fuel := fuel) (cf := cf) (r := name) (i := i); [cbn; lia| | |exact HT].
  - intros r gn M j s x HI Hj E Hx. destruct (file_net _ _ _ _ _ HF _ _ _ HI) as (b & Ib & NF & _). revert E. pattern (nt (nth j M blank)). apply (net_nodes b M _ NF); [discriminate|discriminate| |exact Hj].
    intros [y|y|p] Hy E; cbn in E; try discriminate. injection E as <-. apply in_map_iff in Hx as (z & <- & Hz). pose proof (proj2 (HP _ _ _ Ib Hy) z Hz) as Q. unfold narrow. rewrite !N.mod_small by (try rewrite N.mod_small; lia). lia.
  - intros r gn M j A q lab d HI Hj. destruct (file_net _ _ _ _ _ HF _ _ _ HI) as (b & Ib & NF & _). pattern (nt (nth j M blank)). apply (net_nodes b M _ NF); [discriminate|discriminate| |exact Hj].
    intros [y|y|p] Hy E HE; cbn in E; try discriminate. injection E as <-. exact (pat_nul p (HP _ _ _ Ib Hy) (HN _ _ _ Ib Hy) _ _ _ HE).
Qed.
