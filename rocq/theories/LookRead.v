(** Composite network and rule networks read the same texts. *)
From Coq Require Import List NArith ZArith Arith Bool Lia ZifyBool ZifyN ZifyNat.
From Verif Require Import CharClass CharClassSpec CharClassProofs Stream NFA NFASem NFAProofs DFA DFAMin ATN Grammar GrammarProofs CodeGen ParseSpec Lookahead LookSpec LookClosure LookImport LookGrammarSpec.
Import ListNotations.
Local Open Scope nat_scope.

(** Every state of the pattern leads to the accepting one. *)
Definition live_nfa (A : nfa) : Prop :=
  A <> [] /\ (forall q lab d, edge A q lab d -> d < length A) /\ forall q, q < length A -> exists v, NFASem.path (edge A) q v (length A - 1).
Inductive reach (M : atn) : nat -> Prop :=
| reach_start : reach M 0
| reach_edge i d t : reach M i -> In (d, t) (atrs (nth i M blank)) -> reach M d.
(** What is needed of the rules: names once; every node reachable; only blank nodes end a rule; literals
    not empty and with a node of white space of their own before them; references to rules that exist;
    patterns without dead states; no character 255 in a literal. *)
Record lookable (nets : list (list N * (N * atn))) : Prop := {
  lk_names : NoDup (map fst nets);
  lk_name : forall r x, In (r, x) nets -> r <> [];
  lk_ne : forall r g M, In (r, (g, M)) nets -> M <> [];
  lk_ready : forall r g M, In (r, (g, M)) nets -> ready M;
  lk_reach : forall r g M i, In (r, (g, M)) nets -> i < length M -> reach M i;
  lk_end : forall r g M i, In (r, (g, M)) nets -> i < length M -> atrs (nth i M blank) = [] -> nt (nth i M blank) = NBlank;
  lk_inv : forall r g M i s, In (r, (g, M)) nets -> i < length M -> nt (nth i M blank) = NInv s -> In s (map fst nets);
  lk_reg : forall r g M i A, In (r, (g, M)) nets -> i < length M -> nt (nth i M blank) = NReg A -> live_nfa A;
  lk_chr : forall r g M i s c, In (r, (g, M)) nets -> i < length M -> nt (nth i M blank) = NLit s -> In c s -> narrow c <> 255%N }.

Lemma nth_error_some_nth {A} (l : list A) i d : i < length l -> nth_error l i = Some (nth i l d).
Proof. intros H. apply nth_error_nth'. exact H. Qed.

Section Read.
Variable nets : list (list N * (N * atn)).
Variable D : list (list N * cmach).
Hypothesis HN : lookable nets.
Hypothesis HD : composite nets = Some D.

Lemma composite_in : forall ns E, composite ns = Some E -> forall r g M, In (r, (g, M)) ns -> exists Q, In (r, Q) E /\ import_atn M = Some Q.
Proof.
  induction ns as [|[r0 [g0 M0]] ns IH]; intros E H r g M Hin; [destruct Hin|]. cbn [composite] in H.
  destruct (import_atn M0) as [Q0|] eqn:E0; [|discriminate]. destruct (composite ns) as [E'|]; [|discriminate]. injection H as <-.
  destruct Hin as [Hin|Hin]; [injection Hin as <- <- <-; exists Q0; cbn; auto|]. destruct (IH E' eq_refl _ _ _ Hin) as (Q & H1 & H2). exists Q. cbn. auto.
Qed.
Lemma composite_from : forall ns E, composite ns = Some E -> forall r Q, In (r, Q) E -> exists g M, In (r, (g, M)) ns /\ import_atn M = Some Q.
Proof.
  induction ns as [|[r0 [g0 M0]] ns IH]; intros E H r Q Hin; cbn [composite] in H; [injection H as <-; destruct Hin|].
  destruct (import_atn M0) as [Q0|] eqn:E0; [|discriminate]. destruct (composite ns) as [E'|]; [|discriminate]. injection H as <-.
  destruct Hin as [Hin|Hin]; [injection Hin as <- <-; exists g0, M0; cbn; auto|]. destruct (IH E' eq_refl _ _ Hin) as (g & M & H1 & H2). exists g, M. cbn. auto.
Qed.
Lemma composite_names : forall ns E, composite ns = Some E -> map fst E = map fst ns.
Proof.
  induction ns as [|[r0 [g0 M0]] ns IH]; intros E H; cbn [composite] in H; [injection H as <-; reflexivity|].
  destruct (import_atn M0) as [Q0|] eqn:E0; [|discriminate]. destruct (composite ns) as [E'|]; [|discriminate]. injection H as <-. cbn. f_equal. apply IH. reflexivity.
Qed.
Lemma find_unique {X} : forall (l : list (list N * X)) r x, NoDup (map fst l) -> In (r, x) l -> find (fun p => eqname (fst p) r) l = Some (r, x).
Proof.
  induction l as [|[s y] l IH]; intros r x ND H; [destruct H|]. cbn [find fst]. cbn [map fst] in ND. inversion ND as [|? ? N1 N2]; subst. destruct H as [H|H].
  - injection H as -> ->. rewrite eqname_refl. reflexivity.
  - destruct (eqname s r) eqn:E; [|auto]. apply eqname_spec in E. subst. destruct N1. apply in_map_iff. exists (r, x). auto.
Qed.
Lemma lookup_net r g M : In (r, (g, M)) nets -> lookup nets r = Some (g, M).
Proof. intros H. unfold lookup. rewrite (find_unique nets r (g, M) (lk_names _ HN) H). reflexivity. Qed.
Lemma mach_of r g M : In (r, (g, M)) nets -> exists Q, import_atn M = Some Q /\ mach D r = Some Q /\ In (r, Q) D.
Proof.
  intros H. destruct (composite_in _ _ HD _ _ _ H) as (Q & H1 & H2). exists Q. split; [exact H2|]. split; [|exact H1]. unfold mach. rewrite (find_unique D r Q); [reflexivity| |exact H1].
  rewrite (composite_names _ _ HD). apply HN.
Qed.
(** The network of a rule, and where its nodes went. *)
Definition net (r : list N) : atn := match lookup nets r with Some (_, M) => M | None => [] end.
Definition known (r : list N) : Prop := In r (map fst nets).
Definition entry (r : list N) (i : nat) : nat := ent (imap_of (net r)) i.
Definition sym (r : list N) (i : nat) : nty := nt (nth i (net r) blank).
Definition outs (r : list N) (i : nat) : list (nat * nat) := atrs (nth i (net r) blank).
Definition exit_ (r : list N) (i : nat) : nat := entry r i + nsize (sym r i) - 1.
Lemma known_net r : known r -> exists g, In (r, (g, net r)) nets.
Proof. intros H. unfold known in H. apply in_map_iff in H as ([r' [g M]] & E & H). cbn in E. subst. exists g. unfold net. rewrite (lookup_net _ _ _ H). exact H. Qed.
Lemma node_of_iff r i up n : node_of nets ((r, i) :: up) = Some n <-> known r /\ i < length (net r) /\ n = nth i (net r) blank.
Proof.
  cbn [node_of]. unfold net. destruct (lookup nets r) as [[g M]|] eqn:E.
  - split.
    + intros H. split; [apply lookup_in in E; unfold known; apply in_map_iff; exists (r, (g, M)); auto|]. assert (i < length M) by (apply nth_error_Some; congruence). split; [assumption|].
      rewrite (nth_error_some_nth _ _ blank H0) in H. congruence.
    + intros (_ & L & ->). apply nth_error_some_nth, L.
  - split; [discriminate|]. intros (K & _). destruct (lookup_none _ _ E K).
Qed.
Lemma placement_of r : known r -> exists Q, mach D r = Some Q /\ In (r, Q) D /\ placement (net r) Q (imap_of (net r)) /\ forall i, i < length (net r) -> mapped (imap_of (net r)) i.
Proof.
  intros K. destruct (known_net r K) as [g Hg]. destruct (mach_of _ _ _ Hg) as (Q & E1 & E2 & E3). exists Q. split; [exact E2|]. split; [exact E3|].
  assert (P : placement (net r) Q (imap_of (net r))) by (apply import_atn_spec; [eapply lk_ready; eauto|eapply lk_ne; eauto|exact E1]). split; [exact P|].
  intros i Hi. destruct P as (P0 & P1 & _). pose proof (lk_reach _ HN _ _ _ _ Hg Hi) as R. clear Hi. induction R as [|i d t R IH Hd]; [unfold mapped; rewrite P0; discriminate|].
  destruct (P1 i IH) as (_ & a & _ & _ & H). exact (H d t Hd).
Qed.
(** The composite nodes. *)
Definition is_exit (r : list N) (i : nat) (c : cnode) : Prop :=
  csub c = match sym r i with NInv s => s | _ => [] end /\ csrc c = Some i /\
  ctrs c = ctrs (nth (nsize (sym r i) - 1) (frag (sym r i) (entry r i)) cblank) ++ map (fun t => mkCT (entry_lab (sym r (fst t))) (entry r (fst t)) (snd t)) (outs r i).
Lemma size_pos r i : known r -> i < length (net r) -> 0 < nsize (sym r i).
Proof. intros K Hi. destruct (known_net r K) as [g Hg]. apply (r_size _ (lk_ready _ HN _ _ _ Hg)). exact Hi. Qed.
Lemma frag_csub n a q : q < nsize n -> csub (nth q (frag n a) cblank) = match n with NInv s => s | _ => [] end.
Proof.
  assert (G : forall s a q, csub (nth q (lit_nodes a s) cblank) = []) by (induction s as [|c s IH]; intros b [|p]; cbn; try reflexivity; [destruct p; reflexivity|apply IH]).
  intros Hq. destruct n as [|id|[|c s]|A|]; cbn [frag nsize] in *.
  - destruct q; [reflexivity|lia].
  - destruct q; [reflexivity|lia].
  - destruct q; reflexivity.
  - apply G.
  - rewrite (nth_map_lt _ A [] cblank q Hq). reflexivity.
  - destruct q; [reflexivity|lia].
Qed.
Lemma frag_csrc n a q : csrc (nth q (frag n a) cblank) = None.
Proof.
  assert (G : forall s a q, csrc (nth q (lit_nodes a s) cblank) = None) by (induction s as [|c s IH]; intros b [|p]; cbn; try reflexivity; [destruct p; reflexivity|apply IH]).
  destruct n as [|id|[|c s]|A|]; cbn [frag]; try (destruct q as [|[|q]]; reflexivity); [apply G|].
  destruct (Nat.lt_ge_cases q (length A)) as [L|L]; [rewrite (nth_map_lt _ A [] cblank q L); reflexivity|rewrite nth_overflow by (rewrite map_length; exact L); reflexivity].
Qed.
Lemma node_inner r i q up : known r -> i < length (net r) -> S q < nsize (sym r i) -> node_at D ((r, entry r i + q) :: up) = Some (nth q (frag (sym r i) (entry r i)) cblank).
Proof.
  intros K Hi Hq. destruct (placement_of r K) as (Q & E1 & _ & (_ & P1 & _) & PM). destruct (P1 i (PM i Hi)) as (_ & a & A1 & [A2 A3] & _).
  cbn [node_at]. rewrite E1. unfold entry, ent. rewrite A1. fold (sym r i) in A2, A3. rewrite (nth_error_some_nth Q (a + q) cblank) by lia. rewrite (A3 q) by lia. replace (S q =? nsize (sym r i)) with false by lia. reflexivity.
Qed.
Lemma node_exit r i up : known r -> i < length (net r) -> exists c, node_at D ((r, exit_ r i) :: up) = Some c /\ is_exit r i c.
Proof.
  intros K Hi. pose proof (size_pos r i K Hi) as Hn. destruct (placement_of r K) as (Q & E1 & _ & (_ & P1 & _) & PM). destruct (P1 i (PM i Hi)) as (_ & a & A1 & [A2 A3] & A4).
  cbn [node_at]. rewrite E1. unfold exit_, entry, ent. rewrite A1. fold (sym r i) in A2, A3. replace (a + nsize (sym r i) - 1) with (a + (nsize (sym r i) - 1)) by lia.
  rewrite (nth_error_some_nth Q _ cblank) by lia. rewrite (A3 (nsize (sym r i) - 1)) by lia. replace (S (nsize (sym r i) - 1) =? nsize (sym r i)) with true by lia.
  eexists. split; [reflexivity|]. unfold is_exit, finish. cbn [csub csrc ctrs]. split; [apply frag_csub; lia|]. split; [reflexivity|]. unfold entry, ent. rewrite A1. reflexivity.
Qed.
Lemma entry0 r : known r -> entry r 0 = 0 /\ 0 < length (net r).
Proof.
  intros K. destruct (placement_of r K) as (Q & _ & _ & (P0 & P1 & _) & _). split; [unfold entry, ent; rewrite P0; reflexivity|]. destruct (known_net r K) as [g Hg]. pose proof (lk_ne _ HN _ _ _ Hg). destruct (net r); [congruence|cbn; lia].
Qed.
(** Every composite node belongs to some node of its rule. *)
Lemma node_cases r p up c : known r -> node_at D ((r, p) :: up) = Some c -> exists i q, i < length (net r) /\ p = entry r i + q /\ q < nsize (sym r i) /\
  ((S q = nsize (sym r i) /\ p = exit_ r i /\ is_exit r i c) \/ (S q < nsize (sym r i) /\ c = nth q (frag (sym r i) (entry r i)) cblank)).
Proof.
  intros K H. destruct (placement_of r K) as (Q & E1 & _ & (_ & P1 & P2) & _). pose proof H as H0. cbn [node_at] in H0. rewrite E1 in H0. assert (L : p < length Q) by (apply nth_error_Some; congruence).
  destruct (P2 p L) as (i & a & A1 & A2). destruct (P1 i) as (Hi & _); [unfold mapped; congruence|]. fold (sym r i) in A2.
  assert (Ea : entry r i = a) by (unfold entry, ent; rewrite A1; reflexivity). exists i, (p - a). rewrite Ea. split; [exact Hi|]. split; [lia|]. split; [lia|].
  destruct (Nat.eq_dec (S (p - a)) (nsize (sym r i))) as [E|E]; [left|right].
  - split; [exact E|]. assert (Ep : p = exit_ r i) by (unfold exit_; rewrite Ea; lia). split; [exact Ep|]. destruct (node_exit r i up K Hi) as (c' & C1 & C2). rewrite <- Ep in C1. congruence.
  - split; [lia|]. assert (Ep : p = entry r i + (p - a)) by (rewrite Ea; lia). rewrite Ep in H. rewrite (node_inner r i (p - a) up K Hi) in H by lia. rewrite <- Ea. congruence.
Qed.
Lemma sites_iff r s p : In (s, p) (sites D r) <-> known s /\ exists c, node_at D [(s, p)] = Some c /\ csub c = r.
Proof.
  unfold sites. rewrite in_flat_map. split.
  - intros ([s' Q] & H1 & H2). cbn [fst snd] in H2. apply in_map_iff in H2 as (i & E & H2). injection E as <- <-. apply filter_In in H2 as [H2 H3]. apply in_seq in H2. apply eqname_spec in H3.
    assert (K : known s') by (unfold known; rewrite <- (composite_names _ _ HD); apply in_map_iff; exists (s', Q); auto). split; [exact K|].
    exists (nth i Q cblank). split; [|exact H3]. cbn [node_at]. unfold mach. rewrite (find_unique D s' Q); [|rewrite (composite_names _ _ HD); apply HN|exact H1]. cbn [option_map snd]. apply nth_error_some_nth. lia.
  - intros (K & c & H1 & H2). destruct (placement_of s K) as (Q & E1 & E2 & _). exists (s, Q). split; [exact E2|]. cbn [fst snd]. cbn [node_at] in H1. rewrite E1 in H1.
    assert (p < length Q) by (apply nth_error_Some; congruence). apply in_map_iff. exists p. split; [reflexivity|]. apply filter_In. split; [apply in_seq; lia|].
    rewrite (nth_error_nth _ _ cblank H1). apply eqname_spec. exact H2.
Qed.
End Read.
