(** A character that no terminal can begin or go on with is on no transition of a decision automaton. *)
From Coq Require Import List NArith ZArith Arith Bool Lia ZifyBool ZifyN ZifyNat.
From Verif Require Import CharClass CharClassSpec CharClassProofs Stream NFA NFASem NFAProofs NFABuild RegexSpec DFA DFADep DFAMin ATN GrammarSpec ATNLive Grammar CodeGen CodeGenProofs CodeGenMisc ParserTree Lookahead LookSpec LookClosure LookItems LookImport LookAuto LookMin LookMain LookGrammarSpec LookRead LookSim LookGrammar LookWf LookFit.
Import ListNotations.
Local Open Scope nat_scope.
Section Plain.
Variable D : list (list N * cmach).
Variable c : N.
Hypothesis HB : forall p nd t, node_at D p = Some nd -> In t (ctrs nd) -> CharClass.includes (clab t) c = false.
Lemma plain_lacks fuel cf id i up n T : node_at D ((id, i) :: up) = Some n -> ldfa_plain D fuel cf ((id, i) :: up) = SOk T ->
  forall q cc d, In (cc, d) (nth q T []) -> CharClass.includes cc c = false.
Proof.
  intros Hr HT q cc d H. destruct (plain_inv D fuel cf id i up n T Hr HT) as (L & -> & HBL & HF & _). destruct (Nat.lt_ge_cases q (length L)) as [Q|Q].
  2:{ rewrite nth_overflow in H by (rewrite map_length; exact Q). destruct H. }
  rewrite (nth_map_lt _ L lnil [] q Q) in H. apply (proj1 (sort_ltrs_in _ _)) in H. fold (ltrs_at L q) in H.
  destruct (CharClass.includes cc c) eqn:EI; [|reflexivity]. exfalso. apply includes_in in EI as (r & Hr1 & Hr2).
  destruct (HF q Q) as (items & Hd & _ & T2 & _). destruct (T2 r d (ex_intro _ cc (conj H Hr1))) as (s & S1 & _).
  unfold departure_set in Hd. destruct (sfold _ _ []) as [ds| |] eqn:E; try discriminate. injection Hd as <-.
  assert (HL : forall x, In x ds -> CharClass.includes (fst x) c = false).
  { eapply (sfold_inv (fun ds => forall x, In x ds -> CharClass.includes (fst x) c = false)); [exact E|intros x Hx; destruct Hx|]. intros e b1 b2 _ H1 Hs.
    cbn beta in Hs, H1 |- *. exact (proj2 (dep_labels D (fun cc => CharClass.includes cc c = false) HB cf) _ _ _ _ _ _ Hs H1). }
  destruct (items_char ds c) as (I1 & I2 & _). pose proof (I2 r s S1 Hr2) as ->. destruct (I1 _ _ S1) as [_ NE]. apply dep_char_ne in NE as (x & X1 & X2). rewrite (HL x X1) in X2. discriminate.
Qed.
Lemma redirect_labels remap : forall L q cc d, In (cc, d) (nth q (fold_left (fun L p => l_redirect (fst p) (snd p) L) remap L) []) -> exists d', In (cc, d') (nth q L []).
Proof.
  induction remap as [|p remap IH]; intros L q cc d H; [eauto|]. cbn [fold_left] in H. destruct (IH _ _ _ _ H) as [d' H']. unfold l_redirect in H'.
  destruct (Nat.lt_ge_cases q (length L)) as [Q|Q]; [|rewrite nth_overflow in H' by (rewrite map_length; exact Q); destruct H'].
  rewrite (nth_map_lt _ L [] [] q Q) in H'. apply in_map_iff in H' as ([c1 x] & E & H'). cbn [fst snd] in E. destruct (x =? _)%Z; injection E as <- <-; eauto.
Qed.
Lemma minimize_labels L q cc d : In (cc, d) (nth q (l_minimize L) []) -> exists q' d', In (cc, d') (nth q' L []).
Proof.
  unfold l_minimize. destruct (l_scan L (seq 0 (length L)) [] []) as [reps remap]. unfold l_filter. intros H.
  destruct (Nat.lt_ge_cases q (length reps)) as [Q|Q]; [|rewrite nth_overflow in H by (rewrite map_length; exact Q); destruct H].
  rewrite (nth_map_lt _ reps 0 [] q Q) in H. apply in_map_iff in H as ([c1 x] & E & H). apply filter_In in H as [H _]. exists (nth q reps 0). cbn [fst snd] in E.
  assert (c1 = cc) as -> by (destruct (x <? 0)%Z; congruence). eapply redirect_labels. exact H.
Qed.
End Plain.
Section Net.
Variable nets : list (list N * (N * atn)).
Variable D : list (list N * cmach).
Hypothesis HN : lookable nets.
Hypothesis HD : composite nets = Some D.
Variable c : N.
Notation lacks cc := (CharClass.includes cc c = false).
Hypothesis Hw : ~ In c [32; 9; 13; 10]%N.
Hypothesis Hl : forall r g M i s x, In (r, (g, M)) nets -> i < length M -> nt (nth i M blank) = NLit s -> In x s -> narrow x <> c.
Hypothesis Hp : forall r g M i A q lab d, In (r, (g, M)) nets -> i < length M -> nt (nth i M blank) = NReg A -> edge A q lab d -> lacks lab.
Lemma all_lack : forall p nd t, node_at D p = Some nd -> In t (ctrs nd) -> lacks (clab t).
Proof.
  intros [|[r p] up] nd t H Ht; [discriminate|]. pose proof (node_known nets D HD r p up nd H) as K. destruct (node_cases nets D HN HD r p up nd K H) as (i & q & Hi & Ep & Hq & _). rewrite Ep in H.
  assert (LP : forall d s x, d < length (net nets r) -> sym nets r d = NLit s -> In x s -> lacks (lit_class x)).
  { intros d s x Hd Es Hc. destruct (known_net nets HN r K) as [g Hg]. pose proof (Hl _ _ _ _ _ _ Hg Hd Es Hc) as NE. pose proof (lk_chr _ HN _ _ _ _ _ _ Hg Hd Es Hc) as N2.
    pose proof (lit_proper x N2 _ (or_introl eq_refl)) as [P1 P2]. cbn [rs re] in P1, P2. unfold CharClass.includes, lit_class, cc_range. cbn [existsb rs re].
    assert (E0 : narrow (narrow x) = narrow x) by (unfold narrow; apply N.mod_mod; discriminate). assert (L : (narrow x < 256)%N) by (unfold narrow; apply N.mod_lt; discriminate).
    assert (E1 : narrow (narrow x + 1) = (narrow x + 1)%N) by (unfold narrow at 1; apply N.mod_small; lia). rewrite ?E0, ?E1. lia. }
  destruct (node_trs nets D HN HD r i q up nd t K Hi Hq H Ht) as [T1 T2 T3 T4|s T1 T2 T3 T4|A d T1 T2 T3 T4|d g T1 T2 T3 T4]; rewrite ?T3.
  - change ws_class with [mkR 32 33; mkR 9 10; mkR 13 14; mkR 10 11]%N. cbn [CharClass.includes existsb rs re]. cbn [In] in Hw. lia.
  - eapply LP; [exact Hi|exact T1|]. apply nth_In. exact T2.
  - destruct (known_net nets HN r K) as [g Hg]. eapply Hp; [exact Hg|exact Hi|exact T1|exact T3].
  - destruct (sym nets r d) as [|s|[|x s]|A|] eqn:Es; cbn [entry_lab]; try reflexivity. eapply LP; [exact (out_lt nets HN r i d g K Hi T2)|exact Es|left; reflexivity].
Qed.
Theorem decision_lacks fuel cf r i T : decision D fuel cf r i = SOk T -> forall q cc d, In (cc, d) (nth q T []) -> lacks cc.
Proof.
  intros HT q cc d H. unfold decision in HT.
  destruct (mach D r) as [Q|] eqn:EM; [|discriminate]. destruct (convert_index Q i 0) as [j|] eqn:EC; [|discriminate]. unfold ldfa_build in HT.
  destruct (ldfa_plain D fuel cf [(r, j)]) as [T0| |] eqn:E; try discriminate. injection HT as <-. apply minimize_labels in H as (q' & d' & H).
  destruct (node_at D [(r, j)]) as [n|] eqn:EN.
  - exact (plain_lacks D c all_lack fuel cf r j [] n T0 EN E q' cc d' H).
  - unfold ldfa_plain, root_closure in E. rewrite EN in E. discriminate.
Qed.
End Net.
(** Terminals without this character. *)
Definition term_lacks (c : N) (x : term) : Prop :=
  match x with TRule _ => True | TLit s => forall y, In y s -> narrow y <> c | TPat p => forall a, In a (pat_atoms p) -> ~ atom_den a c end.
Lemma pat_lacks c p : pat_ok p -> term_lacks c (TPat p) -> forall q lab d, edge (build_pat p) q lab d -> CharClass.includes lab c = false.
Proof.
  intros Hp Hl q lab d E. destruct (proj2 (proj2 (build_labels (fun cc => CharClass.includes cc c = false))) p Hp) with (q := q) (lab := lab) (d := d) as [->|H]; [|exact E|reflexivity|exact H].
  intros a Ha. destruct (CharClass.includes (atom_cc a) c) eqn:X; [|reflexivity]. destruct (Hl a Ha). apply (atom_cc_ok a (proj2 (proj2 atoms_ok) p Hp a Ha)). exact X.
Qed.
