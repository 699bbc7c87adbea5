(** Rules declared in a grammar file have networks fit for the decision automata ([lookable], [proper_pats],
    [closed_end], [no_levels]). *)
From Coq Require Import List NArith ZArith Arith Bool Lia ZifyBool ZifyN ZifyNat Permutation.
From Verif Require Import CharClass CharClassSpec CharClassProofs CharClassParse NFA NFASem NFAProofs NFABuild RegexSpec GrammarSpec ATN ATNSem ATNBuild ATNOpt ATNLive Grammar GrammarProofs CodeGenProofs ParserTree Lookahead LookImport LookRead LookGrammar LookWf.
Import ListNotations.
Local Open Scope nat_scope.

(** ** Labels of patterns *)
Definition small (r : range) : Prop := (rs r < re r /\ re r <= 255)%N.
Lemma add_merge_small l : forall r, small r -> (forall x, In x l -> small x) -> forall x, In x (add_merge l r) -> small x.
Proof.
  induction l as [|i l IH]; intros r Hr Hl x Hx; cbn [add_merge] in Hx; [destruct Hx as [<-|[]]; exact Hr|].
  destruct (r_overlaps i r); [|destruct Hx as [<-|Hx]; auto]. apply (IH (r_merge r i)); [|intros y Hy; apply Hl; right; exact Hy|exact Hx].
  pose proof (Hl i (or_introl eq_refl)) as Hi. unfold small, r_merge in *. cbn [rs re]. lia.
Qed.
Lemma add_range_small l : forall r, small r -> (forall x, In x l -> small x) -> forall x, In x (add_range l r) -> small x.
Proof.
  induction l as [|i l IH]; intros r Hr Hl x Hx; cbn [add_range] in Hx; [destruct Hx as [<-|[]]; exact Hr|].
  destruct (r_overlaps i r); [apply (add_merge_small (i :: l) r Hr Hl); exact Hx|]. destruct Hx as [<-|Hx]; [apply Hl; left; reflexivity|].
  apply (IH r Hr); [intros y Hy; apply Hl; right; exact Hy|exact Hx].
Qed.
Lemma acc_small l : Forall item_ok l -> forall x, In x (acc l) -> small x.
Proof.
  intros H. unfold acc. assert (G : forall l c, Forall item_ok l -> (forall x, In x c -> small x) -> forall x, In x (fold_left add_range (map item_range l) c) -> small x).
  { clear. induction l as [|i l IH]; intros c Hl Hc x Hx; [apply Hc; exact Hx|]. inversion Hl as [|? ? Hi Hl']; subst. cbn [map fold_left] in Hx. refine (IH (add_range c (item_range i)) Hl' _ x Hx). apply add_range_small; [|exact Hc]. unfold small; destruct i; cbn [item_range rs re item_lo item_hi item_ok] in *; lia. }
  apply G; [exact H|intros x []].
Qed.
Lemma atom_proper a : atom_ok a -> proper (atom_cc a).
Proof.
  destruct a as [c| |l|l]; cbn [atom_ok atom_cc].
  - intros H r. unfold cc_single. rewrite !narrow_id by lia. intros [<-|[]]. cbn [rs re]. lia.
  - intros _ r [<-|[]]. cbn. split; [reflexivity|discriminate].
  - intros (H & _) r Hr. apply (Permutation_in _ (sort_perm _)) in Hr. pose proof (acc_small l H r Hr) as [? ?]. lia.
  - intros (H & HA & _) r Hr.
    assert (HS : Separated (sort_ranges (acc l))) by (apply sort_Separated, acc_PairSep; auto).
    assert (SM : forall x, In x (sort_ranges (acc l)) -> small x) by (intros x Hx; apply (acc_small l H), (Permutation_in _ (sort_perm _)), Hx).
    assert (HB : Below char_max (sort_ranges (acc l))) by (intros x Hx; apply (SM x Hx)).
    assert (H1 : SortedFrom 1 (sort_ranges (acc l))).
    { apply Separated_SortedFrom; [exact HS|]. destruct (sort_ranges (acc l)) as [|x c] eqn:E; [exact I|].
      assert (K : Den (sort_ranges (acc l)) (rs x)) by (rewrite E; apply Den_cons; left; pose proof (SM x (or_introl eq_refl)) as [? _]; lia).
      rewrite sort_Den in K. apply acc_Den in K; [|exact H]. destruct K as (i & Hi & K). rewrite Forall_forall in H. specialize (H i Hi). destruct i; cbn in *; lia. }
    pose proof (compl_Separated _ HS H1 HB) as SC. pose proof (compl_bounds _ H1 HB r Hr) as [_ B]. unfold char_max in B. split; [apply (proj1 (Separated_PairSep _ SC) r Hr)|lia].
Qed.
Definition plabel (P : cclass -> Prop) (A : nfa) : Prop := forall q lab d, edge A q lab d -> lab = [] \/ P lab.
Lemma plabel_concat P A B : wf A -> plabel P A -> plabel P B -> plabel P (NFA.concat A B).
Proof. intros W HA HB q lab d H. apply edge_concat in H; [|exact W]. destruct H as [H|(q0 & d0 & H & _)]; eauto. Qed.
Lemma plabel_quant P q A : wf A -> 2 <= length A -> plabel P A -> plabel P (quantA q A).
Proof.
  intros W L H. assert (T : forall lg, plabel P (add_to A [] 1 lg)) by (intros lg x lab d E; apply edge_add_to in E; [|lia]; destruct E as [E|(_ & -> & _)]; eauto).
  assert (W2 : forall lg, wf (add_to A [] 1 lg)) by (intros lg; apply wf_add_to; [exact W|lia|lia]).
  destruct q as [|lg|lg|]; cbn [quantA]; [exact H|apply T| |].
  - unfold starA. intros x lab d E. apply edge_add_from in E; [|rewrite add_state_length; unfold add_to; rewrite upd_length; lia]. destruct E as [E|(_ & -> & _)]; [|auto].
    apply edge_add_state in E; [|apply W2]. destruct E as [E|(_ & -> & _)]; [|auto]. eapply T. exact E.
  - intros x lab d E. apply edge_add_from in E; [|lia]. destruct E as [E|(_ & -> & _)]; eauto.
Qed.
(** The atoms of a pattern. *)
Fixpoint unit_atoms (u : unit_) : list atom := match u with UAtom a => [a] | UGroup p => pat_atoms p end
with sel_atoms (s : sel) : list atom := match s with SOne u _ => unit_atoms u | SAlt s u _ => sel_atoms s ++ unit_atoms u end
with pat_atoms (p : pat) : list atom := match p with PNil => [] | PSnoc p s => pat_atoms p ++ sel_atoms s end.
Lemma build_labels (P : cclass -> Prop) :
  (forall u, unit_ok u -> (forall a, In a (unit_atoms u) -> P (atom_cc a)) -> plabel P (build_unit u)) /\
  (forall s, sel_ok s -> (forall a, In a (sel_atoms s) -> P (atom_cc a)) -> plabel P (build_sel s)) /\
  (forall p, pat_ok p -> (forall a, In a (pat_atoms p) -> P (atom_cc a)) -> plabel P (build_pat p)).
Proof.
  apply regex_ind; cbn [unit_ok sel_ok pat_ok build_unit build_sel build_pat unit_atoms sel_atoms pat_atoms].
  - intros a Ha H q lab d E. apply edge_add_state in E; [|apply wf_base]. destruct E as [E|(_ & -> & _)]; [apply edge_base in E as (_ & -> & _); auto|right; apply H; left; reflexivity].
  - intros p IH Hp H. apply plabel_concat; [apply wf_base|intros q lab d E; apply edge_base in E as (_ & -> & _); auto|apply IH; assumption].
  - intros u IH q Hu H. pose proof (proj1 build_spec u Hu) as ((W & L3 & _) & _). apply plabel_quant; [exact W|lia|apply IH; assumption].
  - intros s IHs u IHu q [Hs Hu] H. pose proof (proj1 build_spec u Hu) as (HU & HB & HT). pose proof HU as (W & L3 & _). destruct (quantA_spec q _ _ _ HU HB HT) as (WQ & _).
    assert (LA : plabel P (build_sel s)) by (apply IHs; [exact Hs|intros a Ha; apply H, in_or_app; auto]).
    assert (LB : plabel P (quantA q (build_unit u))) by (apply plabel_quant; [exact W|lia|apply IHu; [exact Hu|intros a Ha; apply H, in_or_app; auto]]).
    destruct (select_spec _ _ (proj1 (proj1 (proj2 build_spec) s Hs)) WQ) as (_ & _ & ES). intros x lab d E. apply ES in E. unfold selectE in E.
    destruct E as [E|[(_ & -> & _)|[(? & E & _)|[(? & ? & _ & E & _)|[(_ & -> & _)|(_ & -> & _)]]]]]; eauto.
  - intros _ _ q lab d E. apply edge_base in E as (_ & -> & _). auto.
  - intros p IHp s IHs [Hp Hs] H. apply plabel_concat; [apply (proj2 (proj2 build_spec) p Hp)|apply IHp; [exact Hp|intros a Ha; apply H, in_or_app; auto]|apply IHs; [exact Hs|intros a Ha; apply H, in_or_app; auto]].
Qed.
Lemma atoms_ok : (forall u, unit_ok u -> forall a, In a (unit_atoms u) -> atom_ok a) /\ (forall s, sel_ok s -> forall a, In a (sel_atoms s) -> atom_ok a) /\ (forall p, pat_ok p -> forall a, In a (pat_atoms p) -> atom_ok a).
Proof.
  apply regex_ind; cbn [unit_ok sel_ok pat_ok unit_atoms sel_atoms pat_atoms]; try (intros; eauto; fail).
  - intros a Ha x [<-|[]]. exact Ha.
  - intros s IHs u IHu q [Hs Hu] a Ha. apply in_app_or in Ha as [Ha|Ha]; auto.
  - intros _ a [].
  - intros p IHp s IHs [Hp Hs] a Ha. apply in_app_or in Ha as [Ha|Ha]; auto.
Qed.
Theorem pat_proper p : pat_ok p -> forall q lab d, edge (build_pat p) q lab d -> proper lab.
Proof.
  intros Hp q lab d E. destruct (proj2 (proj2 (build_labels proper)) p Hp ltac:(intros a Ha; apply atom_proper; exact (proj2 (proj2 atoms_ok) p Hp a Ha)) q lab d E) as [->|H]; [intros r []|exact H].
Qed.

(** ** Patterns that do not end in a plus *)
Definition shut (A : nfa) : Prop := forall lab d, ~ edge A (length A - 1) lab d.
Lemma shut_concat A B : wf A -> wf B -> shut B -> shut (NFA.concat A B).
Proof.
  intros WA WB H lab d E. pose proof WA as [LA EA]. pose proof WB as [LB EB]. rewrite concat_length in E by lia. apply edge_concat in E; [|exact WA]. destruct E as [E|(q0 & d0 & E & E1 & _)].
  - apply edge_lt in E. lia.
  - apply (H lab d0). replace (length B - 1) with q0 by lia. exact E.
Qed.
Lemma build_shut :
  (forall u, unit_ok u -> ends_plus_unit u = false -> shut (build_unit u)) /\
  (forall s, sel_ok s -> ends_plus_sel s = false -> shut (build_sel s)) /\
  (forall p, pat_ok p -> ends_plus_pat p = false -> shut (build_pat p)).
Proof.
  apply regex_ind; cbn [unit_ok sel_ok pat_ok build_unit build_sel build_pat ends_plus_unit ends_plus_sel ends_plus_pat].
  - intros a Ha _ lab d E. rewrite add_state_length in E. apply edge_add_state in E; [|apply wf_base]. destruct E as [E|(E & _)]; [apply edge_base in E as (E & _)|]; cbn in E; lia.
  - intros p IH Hp H. apply shut_concat; [apply wf_base|apply (proj2 (proj2 build_spec) p Hp)|apply IH; assumption].
  - intros u IH q Hu H. pose proof (proj1 build_spec u Hu) as ((W & L3 & _) & _). destruct q as [|lg|lg|]; cbn [quantA]; [apply IH; assumption|discriminate| |].
    + unfold starA. assert (W2 : wf (add_to (build_unit u) [] 1 lg)) by (apply wf_add_to; [exact W|lia|lia]). pose proof W2 as [_ EW].
      assert (LT : length (add_to (build_unit u) [] 1 lg) = length (build_unit u)) by apply upd_length.
      intros lab d E. unfold add_from in E at 2. rewrite upd_length, add_state_length, LT in E. apply edge_add_from in E; [|rewrite add_state_length, LT; lia].
      destruct E as [E|(E & _)]; [|lia]. apply edge_add_state in E; [|exact W2]. rewrite LT in E. destruct E as [E|(E & _)]; [apply edge_lt in E; rewrite LT in E; lia|lia].
    + intros lab d E. unfold add_from in E at 2. rewrite upd_length in E. apply edge_add_from in E; [|lia]. destruct E as [E|(E & _)]; [apply (IH Hu H lab d); exact E|lia].
  - intros s IHs u IHu q [Hs Hu] _. pose proof (proj1 build_spec u Hu) as (HU & HB & HT). destruct (quantA_spec q _ _ _ HU HB HT) as (WQ & _). pose proof (proj1 (proj1 (proj2 build_spec) s Hs)) as WA.
    destruct (select_spec _ _ WA WQ) as (LS & _ & ES). pose proof WA as [LA _]. pose proof WQ as [LB _]. intros lab d E. rewrite LS in E. apply ES in E. unfold selectE in E. cbv zeta in E.
    destruct E as [E|[(E & _)|[(? & E0 & E & _)|[(x & ? & _ & E0 & E & _)|[(E & _)|(E & _)]]]]]; try lia; [apply edge_lt in E; lia|apply edge_lt in E0; lia].
  - intros _ _ lab d E. apply edge_base in E as (E & _). cbn in E. lia.
  - intros p IHp s IHs [Hp Hs] H. apply shut_concat; [apply (proj2 (proj2 build_spec) p Hp)|apply (proj1 (proj2 build_spec) s Hs)|apply IHs; assumption].
Qed.

(** ** Networks *)
(** What the terminals of a rule have to be. *)
Definition term_fit (x : term) : Prop :=
  match x with TRule _ => True | TLit s => s <> [] /\ forall c, In c s -> narrow c <> 255%N | TPat p => pat_ok p end.
Definition pats_shut (e : gsel) : Prop := forall p, In (TPat p) (gsel_terms e) -> ends_plus_pat p = false.
Lemma net_nodes e M K : net_for e M -> (K NBlank : Prop) -> K NWs -> (forall x, In x (gsel_terms e) -> K (term_nty x)) -> forall i, i < length M -> K (nt (nth i M blank)).
Proof. intros H H0 H1 H2 i Hi. apply (net_for_kinds K e M H H0 H1 H2). apply nth_In, Hi. Qed.
Section Nets.
Variable nets : list (list N * (N * atn)).
Hypothesis HN : NoDup (map fst nets).
Hypothesis HS : forall r x, In (r, x) nets -> r <> [].
Hypothesis HR : forall r g M, In (r, (g, M)) nets -> exists e, net_for e M /\ (forall x, In x (gsel_terms e) -> term_fit x) /\ forall s, In (TRule s) (gsel_terms e) -> In s (map fst nets).
Theorem nets_lookable : lookable nets.
Proof.
  split; [exact HN|exact HS|..]; intros r g M.
  - intros H. destruct (HR _ _ _ H) as (e & NF & _). pose proof (wn_ne _ (net_for_wf _ _ NF)) as L. intros ->. cbn in L. lia.
  - intros H. destruct (HR _ _ _ H) as (e & NF & TF & _). pose proof (net_for_wf _ _ NF) as WF. destruct (net_good _ _ NF) as [[W1 W2] _ _].
    split.
    + intros i Hi. pattern (nt (nth i M blank)). apply (net_nodes e M _ NF); [cbn; lia|cbn; lia| |exact Hi]. intros x Hx. specialize (TF x Hx). destruct x as [s|s|p]; cbn [term_nty nsize term_fit] in *; [lia| |].
      * destruct TF as [TF _]. destruct s; [congruence|cbn; lia].
      * pose proof (proj1 (proj2 (proj2 build_spec) p TF)) as [L _]. lia.
    + intros i d t Hd. apply (wn_closed _ WF i). apply in_dests. eauto.
    + intros i d t Hd [s E]. destruct (W2 i d t s Hd E) as [-> A]. destruct (W1 i A) as [B _]. unfold tonode in B. split; [reflexivity|]. unfold tonode in Hd. rewrite B in Hd. destruct Hd as [Hd|[]]. injection Hd as <-. exact B.
    + intros [s Hl]. pose proof (wn_first _ WF) as F. unfold tonode in F. rewrite F in Hl. discriminate.
  - intros i H Hi. destruct (HR _ _ _ H) as (e & NF & _). destruct (net_good _ _ NF) as [_ R _]. exact (R i Hi).
  - intros i H Hi He. destruct (HR _ _ _ H) as (e & NF & _). destruct (net_good _ _ NF) as [_ _ E]. exact (E i Hi He).
  - intros i s H Hi. destruct (HR _ _ _ H) as (e & NF & _ & RD). pattern (nt (nth i M blank)). apply (net_nodes e M _ NF); [discriminate|discriminate| |exact Hi]. intros [y|y|p] Hx E; cbn in E; try discriminate. injection E as <-. auto.
  - intros i A H Hi. destruct (HR _ _ _ H) as (e & NF & TF & _). pattern (nt (nth i M blank)). apply (net_nodes e M _ NF); [discriminate|discriminate| |exact Hi]. intros [y|y|p] Hx E; cbn in E; try discriminate. injection E as <-. apply pat_live, (TF _ Hx).
  - intros i s c H Hi E Hc. revert E. destruct (HR _ _ _ H) as (e & NF & TF & _). pattern (nt (nth i M blank)). apply (net_nodes e M _ NF); [discriminate|discriminate| |exact Hi]. intros [y|y|p] Hx E; cbn in E; try discriminate. injection E as <-. apply in_map_iff in Hc as (c0 & <- & Hc). pose proof (proj2 (TF _ Hx) c0 Hc) as Q. unfold narrow in *. rewrite N.mod_mod by discriminate. exact Q.
Qed.
Theorem nets_proper : proper_pats nets.
Proof.
  intros r g M i A q lab d H Hi. destruct (HR _ _ _ H) as (e & NF & TF & _). pattern (nt (nth i M blank)). apply (net_nodes e M _ NF); [discriminate|discriminate| |exact Hi].
  intros [y|y|p] Hx E HE; cbn in E; try discriminate. injection E as <-. exact (pat_proper p (TF _ Hx) _ _ _ HE).
Qed.
End Nets.
Lemma net_closed e M : net_for e M -> (forall x, In x (gsel_terms e) -> term_fit x) -> pats_shut e -> forall i, i < length M -> 2 <= length (atrs (nth i M blank)) -> closed_end (nt (nth i M blank)).
Proof.
  intros NF TF PS i Hi H2. destruct (net_good _ _ NF) as [[W1 _] _ _].
  assert (K : nt (nth i M blank) = NWs \/ closed_end (nt (nth i M blank))).
  { pattern (nt (nth i M blank)). apply (net_nodes e M _ NF); [right; exact I|left; reflexivity| |exact Hi]. intros [y|y|p] Hx; right; cbn; try exact I. exact (proj2 (proj2 build_shut) p (TF _ Hx) (PS p Hx)). }
  destruct K as [K|K]; [|exact K]. destruct (W1 i K) as [E _]. unfold tonode in E. rewrite E in H2. cbn in H2. lia.
Qed.
