(** The decision automaton of a node of a rule and the texts of its alternatives. *)
From Coq Require Import List NArith ZArith Arith Bool Lia ZifyBool ZifyN ZifyNat.
From Verif Require Import CharClass CharClassSpec CharClassProofs Stream NFA NFASem NFAProofs DFA DFAMin ATN Grammar GrammarProofs CodeGen CodeGenProofs CodeGenMisc ParseSpec Lookahead LookSpec LookClosure LookImport LookAuto LookMin LookMain LookGrammarSpec LookRead LookSim.
Import ListNotations.
Local Open Scope nat_scope.

(** The last state of the pattern of a node is not left again by the pattern itself. *)
Definition closed_end (n : nty) : Prop :=
  match n with NReg A => forall lab d, ~ edge A (length A - 1) lab d | NWs => False | _ => True end.
Lemma proper_nil : proper []. Proof. intros r []. Qed.
Lemma ws_proper : proper ws_class.
Proof. change ws_class with [mkR 32 33; mkR 9 10; mkR 13 14; mkR 10 11]%N. intros r [<-|[<-|[<-|[<-|[]]]]]; cbn [rs re]; lia. Qed.
Lemma lit_proper x : narrow x <> 255%N -> proper (lit_class x).
Proof.
  intros Hn r [<-|[]]. cbn [rs re]. pose proof (narrow_lt x) as H. assert (E : narrow (narrow x) = narrow x) by (unfold narrow; apply N.mod_mod; discriminate). rewrite E.
  assert (H1 : narrow (narrow x + 1) = (narrow x + 1)%N) by (unfold narrow at 1; apply N.mod_small; lia). rewrite H1. lia.
Qed.

Section Grammar.
Variable nets : list (list N * (N * atn)).
Variable D : list (list N * cmach).
Hypothesis HN : lookable nets.
Hypothesis HD : composite nets = Some D.
Notation known := (known nets).
Notation net := (net nets).
Notation entry := (entry nets).
Notation exit_ := (exit_ nets).
Notation sym := (sym nets).
Notation outs := (outs nets).
Notation only_alt := (only_alt nets).
Notation no_alt := (no_alt nets).
Notation two_alts := (two_alts nets).

Lemma frag_closed n a : 0 < nsize n -> closed_end n -> ctrs (nth (nsize n - 1) (frag n a) cblank) = [].
Proof.
  destruct n as [|s|[|c s]|A|]; cbn [closed_end nsize frag]; intros Hn H; try reflexivity; [| |contradiction].
  - cbn [length] in *. replace (S (length s) - 1) with (length s) by lia. rewrite lit_nodes_at by lia. rewrite Nat.ltb_irrefl. reflexivity.
  - rewrite (nth_map_lt _ A [] cblank (length A - 1)) by lia. unfold import_state. cbn [ctrs]. destruct (nth (length A - 1) A []) as [|t ts] eqn:E; [reflexivity|].
    destruct (H (tlab t) (tdest t)). exists t. rewrite E. cbn. auto.
Qed.
(** The node of the composite network is the last one of the symbol. *)
Lemma convert_exit r i Q : known r -> i < length (net r) -> mach D r = Some Q -> convert_index Q i 0 = Some (exit_ r i).
Proof.
  intros K Hi HQ. destruct (node_exit nets D HN HD r i [] K Hi) as (c & C1 & _ & C2 & _). cbn [node_at] in C1. rewrite HQ in C1.
  assert (U : forall p c', nth_error Q p = Some c' -> csrc c' = Some i -> p = exit_ r i).
  { intros p c' H1 H2. assert (N1 : node_at D [(r, p)] = Some c') by (cbn [node_at]; rewrite HQ; exact H1).
    destruct (node_cases nets D HN HD r p [] c' K N1) as (j & q & _ & _ & _ & [(_ & E & _ & E2 & _)|[_ ->]]); [congruence|]. rewrite frag_csrc in H2. discriminate. }
  assert (G : forall (l : cmach) k, (forall p c', nth_error l p = Some c' -> csrc c' = Some i -> k + p = exit_ r i) -> (exists p c', nth_error l p = Some c' /\ csrc c' = Some i) -> convert_index l i k = Some (exit_ r i)).
  { induction l as [|n l IH]; intros k HU HE; [destruct HE as ([|p] & c' & E & _); discriminate|]. cbn [convert_index].
    assert (R : csrc n <> Some i -> convert_index l i (S k) = Some (exit_ r i)).
    { intros Hn. apply IH; [intros p c' P1 P2; specialize (HU (S p) c' P1 P2); lia|]. destruct HE as ([|p] & c' & E1 & E2); [injection E1 as <-; congruence|exists p, c'; auto]. }
    destruct (csrc n) as [s|] eqn:Es; [|apply R; discriminate]. destruct (s =? i) eqn:E; [|apply R; intros X; injection X as ->; rewrite Nat.eqb_refl in E; discriminate].
    apply Nat.eqb_eq in E. subst s. f_equal. specialize (HU 0 n eq_refl Es). lia. }
  apply G; [intros p c' H1 H2; cbn; eapply U; eassumption|]. exists (exit_ r i), c. auto.
Qed.
Lemma not_lit r i d t : known r -> i < length (net r) -> 2 <= length (outs r i) -> In (d, t) (outs r i) -> ~ is_lit (net r) d.
Proof.
  intros K Hi H2 Hd HL. destruct (known_net nets HN r K) as [g Hg]. destruct (r_lit _ (lk_ready _ HN _ _ _ Hg) i d t Hd HL) as [_ E]. unfold LookRead.outs in H2. rewrite E in H2. cbn in H2. lia.
Qed.
(** The alternatives of the automaton are the alternatives of the rule. *)
Theorem branch_iff r i k w : known r -> i < length (net r) -> closed_end (sym r i) -> 2 <= length (outs r i) ->
  (branch D [(r, exit_ r i)] k w <-> alternative nets r i k w).
Proof.
  intros K Hi HC H2. destruct (node_exit nets D HN HD r i [] K Hi) as (c & C1 & _ & _ & C3). rewrite (frag_closed _ _ (size_pos nets HN r i K Hi) HC) in C3. cbn [app] in C3.
  unfold branch, alternative. split.
  - intros (n & t & N1 & N2 & N3). rewrite C1 in N1. injection N1 as <-. rewrite C3, nth_error_map in N2. destruct (nth_error (outs r i) k) as [[d g]|] eqn:E; [|discriminate]. injection N2 as <-. cbn [cdest fst snd] in N3.
    pose proof (nth_error_In _ _ E) as Hd. exists (nth i (net r) blank), d, g. split; [apply node_of_iff; auto|]. split; [exact E|].
    apply (reads_iff nets D HN HD); [exact K|exact (out_lt nets HN r i d g K Hi Hd)|exact (not_lit r i d g K Hi H2 Hd)|exact N3].
  - intros (n & d & g & N1 & N2 & N3). apply node_of_iff in N1 as (_ & _ & ->). fold (outs r i) in N2. pose proof (nth_error_In _ _ N2) as Hd.
    exists c, (mkCT (entry_lab (sym r d)) (entry r d) g). split; [exact C1|]. split; [rewrite C3, nth_error_map, N2; reflexivity|]. cbn [cdest].
    apply (reads_iff nets D HN HD); [exact K|exact (out_lt nets HN r i d g K Hi Hd)|exact (not_lit r i d g K Hi H2 Hd)|exact N3].
Qed.
(** Labels. *)
Definition proper_pats : Prop := forall r g M i A q lab d, In (r, (g, M)) nets -> i < length M -> nt (nth i M blank) = NReg A -> edge A q lab d -> proper lab.
Lemma mach_known r Q : mach D r = Some Q -> known r.
Proof.
  unfold mach. intros H. destruct (find _ D) as [[s Q']|] eqn:E; [|discriminate]. apply find_some in E as [E1 E2]. apply eqname_spec in E2. cbn in E2. subst s.
  unfold LookRead.known. rewrite <- (composite_names _ _ HD). apply in_map_iff. exists (r, Q'). auto.
Qed.
Lemma node_known r p up c : node_at D ((r, p) :: up) = Some c -> known r.
Proof. cbn [node_at]. destruct (mach D r) as [Q|] eqn:E; [|discriminate]. intros _. eapply mach_known; exact E. Qed.
Lemma all_proper : proper_pats -> forall p nd t, node_at D p = Some nd -> In t (ctrs nd) -> proper (clab t).
Proof.
  intros HP [|[r p] up] nd t H Ht; [discriminate|]. pose proof (node_known r p up nd H) as K. destruct (node_cases nets D HN HD r p up nd K H) as (i & q & Hi & Ep & Hq & _). rewrite Ep in H.
  assert (LP : forall d s c, d < length (net r) -> sym r d = NLit s -> In c s -> proper (lit_class c)).
  { intros d s c Hd Es Hc. apply lit_proper. destruct (known_net nets HN r K) as [g Hg]. exact (lk_chr _ HN _ _ _ _ _ _ Hg Hd Es Hc). }
  destruct (node_trs nets D HN HD r i q up nd t K Hi Hq H Ht) as [T1 T2 T3 T4|s T1 T2 T3 T4|A d T1 T2 T3 T4|d g T1 T2 T3 T4]; rewrite ?T3.
  - apply ws_proper.
  - eapply LP; [exact Hi|exact T1|]. apply nth_In. exact T2.
  - destruct (known_net nets HN r K) as [g Hg]. eapply HP; [exact Hg|exact Hi|exact T1|exact T3].
  - destruct (sym r d) as [|s|[|c s]|A|] eqn:Es; cbn [entry_lab]; try apply proper_nil. eapply LP; [exact (out_lt nets HN r i d g K Hi T2)|exact Es|left; reflexivity].
Qed.
(** No |> anywhere. *)
Definition no_levels : Prop := forall r g M i d t, In (r, (g, M)) nets -> In (d, t) (atrs (nth i M blank)) -> t = 0.
Lemma frag_tags n a q t : In t (ctrs (nth q (frag n a) cblank)) -> ctag t = 0.
Proof.
  assert (G : forall s a q t, In t (ctrs (nth q (lit_nodes a s) cblank)) -> ctag t = 0) by (induction s as [|c s IH]; intros b [|p] x Hx; cbn in Hx; try (destruct p; destruct Hx); [destruct Hx|destruct Hx as [<-|[]]; reflexivity|eapply IH; exact Hx]).
  destruct n as [|s|[|c s]|A|]; cbn [frag]; try (destruct q as [|[|q]]; cbn; intros H; destruct H as [<-|[]] || destruct H; reflexivity); [apply G|].
  destruct (Nat.lt_ge_cases q (length A)) as [L|L]; [rewrite (nth_map_lt _ A [] cblank q L)|rewrite nth_overflow by (rewrite map_length; exact L); intros []].
  unfold import_state. cbn [ctrs]. intros H. apply in_map_iff in H as (x & <- & _). reflexivity.
Qed.
Lemma levels_flat : no_levels -> no_preference D.
Proof.
  intros HL m j nd t t' H. assert (K : known m) by (eapply node_known; exact H). assert (G : forall t, In t (ctrs nd) -> ctag t = 0).
  { intros x Hx. destruct (node_cases nets D HN HD m j [] nd K H) as (i & q & Hi & Ep & Hq & [(_ & _ & _ & _ & E)|[_ ->]]); [|eapply frag_tags; exact Hx].
    rewrite E in Hx. apply in_app_or in Hx as [Hx|Hx]; [eapply frag_tags; exact Hx|]. apply in_map_iff in Hx as ([d g] & <- & Hx). cbn [ctag snd].
    destruct (known_net nets HN m K) as [gg Hg]. eapply HL; [exact Hg|exact Hx]. }
  intros H1 H2. rewrite (G _ H1), (G _ H2). reflexivity.
Qed.

(** What the alternatives of node i of rule r say about a text. *)

Section Decision.
Variables (fuel cf : nat) (r : list N) (i : nat) (T : ldfa).
Hypothesis HP : proper_pats.
Hypothesis HK : known r.
Hypothesis Hi : i < length (net r).
Hypothesis HC : closed_end (sym r i).
Hypothesis H2 : 2 <= length (outs r i).
Hypothesis HT : decision D fuel cf r i = SOk T.
Lemma decision_build : exists n, node_at D [(r, exit_ r i)] = Some n /\ length (ctrs n) = length (outs r i) /\ ldfa_build D fuel cf [(r, exit_ r i)] = SOk T.
Proof.
  destruct (node_exit nets D HN HD r i [] HK Hi) as (c & C1 & _ & _ & C3). rewrite (frag_closed _ _ (size_pos nets HN r i HK Hi) HC) in C3. cbn [app] in C3. exists c. split; [exact C1|].
  split; [rewrite C3; apply map_length|]. unfold decision in HT. destruct (mach D r) as [Q|] eqn:E; [|discriminate]. rewrite (convert_exit r i Q HK Hi E) in HT. exact HT.
Qed.
Theorem decision_codable : lcodable T (length (outs r i)).
Proof. destruct decision_build as (n & N1 & <- & N3). exact (build_codable D fuel cf _ _ _ n T N1 N3 (all_proper HP)). Qed.
Theorem decision_sound w k : ldfa_go T 0 w = LExit k -> exists m, 0 < m <= length w /\ alternative nets r i k (firstn m w).
Proof.
  intros H. destruct decision_build as (n & N1 & _ & N3). destruct (build_sound D fuel cf _ _ _ n T N1 N3 (all_proper HP) w k H) as (m & M & B). exists m. split; [exact M|]. apply (branch_iff r i k _ HK Hi HC H2). exact B.
Qed.
Theorem decision_exact w : no_levels -> match ldfa_go T 0 w with
  | LExit k => exists m, 0 < m <= length w /\ only_alt r i k (firstn m w) /\ forall m', 0 < m' < m -> two_alts r i (firstn m' w)
  | LReject => exists m, 0 < m <= length w /\ no_alt r i (firstn m w) /\ forall m', 0 < m' < m -> two_alts r i (firstn m' w)
  | LMore => forall m', 0 < m' <= length w -> two_alts r i (firstn m' w)
  end.
Proof.
  intros HL. destruct decision_build as (n & N1 & _ & N3). pose proof (build_exact D fuel cf _ _ _ n T N1 N3 (all_proper HP) w (levels_flat HL)) as B.
  assert (BI : forall k v, branch D [(r, exit_ r i)] k v <-> alternative nets r i k v) by (intros k v; exact (branch_iff r i k v HK Hi HC H2)).
  assert (T2 : forall v, several D r (exit_ r i) [] v -> two_alts r i v) by (intros v (k & k' & A1 & A2 & A3); exists k, k'; rewrite <- !BI; auto).
  destruct (ldfa_go T 0 w) as [k| |].
  - destruct B as (m & M & [B1 B2] & B3). exists m. split; [exact M|]. split; [|intros m' M'; apply T2, B3, M']. intros k'. rewrite <- BI. split; [apply B2|intros ->; exact B1].
  - destruct B as (m & M & B1 & B3). exists m. split; [exact M|]. split; [|intros m' M'; apply T2, B3, M']. intros k'. rewrite <- BI. apply B1.
  - intros m' M'. apply T2, B, M'.
Qed.
End Decision.
End Grammar.
