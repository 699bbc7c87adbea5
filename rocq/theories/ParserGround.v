(** * Grammars without left recursion and without repetition of something empty: no endless walk *)
From Coq Require Import List NArith ZArith Arith Bool Lia Relations ZifyBool ZifyN ZifyNat.
From Verif Require Import CharClass NFA NFABuild DFA DFAMin RegexSpec GrammarSpec Marker Reduction TreeSpec ParseSpec EmptySpec Writer X86 CodeGen CodeGenDfa CodeGenMisc ATN CodeGenRoutine ATNSem ATNBuild ATNOpt ATNLive ATNLoop Grammar GrammarProofs ParserGen ParserRun ParserSim ParserTree ParserTop ParserTerm.
Import ListNotations.
Local Open Scope nat_scope.

Lemma net_for_reach e M : net_for e M -> forall i, i < length M -> exists w, apath M i w (length M - 1).
Proof.
  intros [->|H]; [apply body_reach|]. destruct (body_wf true e) as [W1 W2 _ _]. exact (drop_reach _ _ W2 W1 (body_reach true e) H).
Qed.
Lemma net_for_loop E e M : net_for e M -> rsel E true e -> loopfree E M.
Proof.
  intros H R. destruct (body_wf true e) as [W1 W2 _ _]. destruct H as [->|H]; [apply body_loop; exact R|]. exact (drop_loop E _ _ W2 W1 (body_loop E true e R) H).
Qed.
Lemma words_split : forall v w x w', words v = w ++ NInv x :: w' -> exists v1 v2, v = v1 ++ TRule x :: v2 /\ words v1 = w /\ words v2 = w'.
Proof.
  induction v as [|y v IH]; intros w x w' H; [destruct w; discriminate|]. destruct y as [id|s|p]; cbn [words flat_map term_word app term_nty] in H; fold (words v) in H.
  - destruct w as [|a w]; cbn in H.
    + injection H as -> H. exists [], v. auto.
    + injection H as <- H. destruct (IH _ _ _ H) as (v1 & v2 & -> & A & B). exists (TRule id :: v1), v2. split; [reflexivity|]. split; [|exact B]. cbn. f_equal. exact A.
  - destruct w as [|a [|b w]]; cbn in H; try discriminate. injection H as <- <- H. destruct (IH _ _ _ H) as (v1 & v2 & -> & A & B). exists (TLit s :: v1), v2. split; [reflexivity|]. split; [|exact B]. cbn. do 2 f_equal. exact A.
  - destruct w as [|a [|b w]]; cbn in H; try discriminate. injection H as <- <- H. destruct (IH _ _ _ H) as (v1 & v2 & -> & A & B). exists (TPat p :: v1), v2. split; [reflexivity|]. split; [|exact B]. cbn. do 2 f_equal. exact A.
Qed.

Section Ground.
Variables (rules : list N -> option (N * gsel)) (matches : pat -> list N -> Prop) (C : compiled).
Hypothesis HN : nets_of rules C.
Hypothesis HP : pats_sound rules matches C.

Definition em (t : nty) : Prop := own_empty C t \/ exists x m', t = NInv x /\ net_index (c_nets C) x = Some m' /\ silent C m' 0.
Lemma passes_em m i : passes C m i -> em (nt (node_of C m i)).
Proof. intros [m0 i0 H|m0 i0 x m' H1 H2 H3]; [left; exact H|right; exists x, m'; auto]. Qed.
Definition em1 (t : nty) : Prop := t <> NBlank /\ em t.
Lemma em_reads n : em n -> Forall em1 (ATNSem.reads n).
Proof. intros H. destruct n; cbn [ATNSem.reads]; constructor; try (split; [discriminate|exact H]); constructor. Qed.
Lemma net_at m : m < length (c_nets C) -> exists e, rules (fst (nth m (c_nets C) ([], (0%N, [])))) = Some (fst (net_of C m), e) /\ net_for e (snd (net_of C m)).
Proof.
  intros H. unfold net_of. destruct (nth m (c_nets C) ([], (0%N, []))) as [name [id M]] eqn:Q. cbn [fst snd]. apply (proj2 HN). rewrite <- Q. apply nth_In. exact H.
Qed.
Lemma nets_wf name id M : In (name, (id, M)) (c_nets C) -> wf_net M.
Proof. intros H. destruct (proj2 HN _ _ _ H) as (e & _ & K). exact (net_for_wf _ _ K). Qed.
Notation nm := (nmatched C []).
Lemma own_matched t w ch : own_empty C t -> nm w 0 0 ch -> nm (ATNSem.reads t ++ w) 0 0 ch.
Proof.
  intros H K. destruct t as [|x|s|A|]; cbn [own_empty ATNSem.reads app] in *.
  - exact K.
  - destruct H.
  - subst s. apply (nm_lit _ _ _ _ _ 0); [split; cbn; lia|reflexivity|exact K].
  - apply (nm_reg _ _ _ _ _ 0); [split; cbn; lia|exact H|exact K].
  - apply (nm_ws _ _ _ _ 0); [split; cbn; lia|intros c []|exact K].
Qed.
Lemma silent_matched :
  (forall m i, silent C m i -> m < length (c_nets C) -> i < length (snd (net_of C m)) -> exists w ch, apath (snd (net_of C m)) i w (length (snd (net_of C m)) - 1) /\ nm (rd (snd (net_of C m)) i ++ w) 0 0 ch) /\
  (forall m i, passes C m i -> forall w ch, nm w 0 0 ch -> exists ch', nm (ATNSem.reads (nt (node_of C m i)) ++ w) 0 0 ch').
Proof.
  apply (silent_passes_ind C (fun m i _ => m < length (c_nets C) -> i < length (snd (net_of C m)) -> exists w ch, apath (snd (net_of C m)) i w (length (snd (net_of C m)) - 1) /\ nm (rd (snd (net_of C m)) i ++ w) 0 0 ch)
    (fun m i _ => forall w ch, nm w 0 0 ch -> exists ch', nm (ATNSem.reads (nt (node_of C m i)) ++ w) 0 0 ch')).
  - intros m i ET _ IH Hm Hi. destruct (net_wf C nets_wf m Hm) as [W1 W2 W3 W4].
    assert (i = length (snd (net_of C m)) - 1) as ->. { destruct (Nat.eq_dec i (length (snd (net_of C m)) - 1)); [assumption|]. exfalso. apply (W4 i); [lia|]. unfold dests, tonode. change (nth i (snd (net_of C m)) blank) with (node_of C m i). rewrite ET. reflexivity. }
    destruct (IH [] [] (nm_end _ _ 0 ltac:(cbn; lia))) as [ch K]. exists [], ch. split; [constructor|exact K].
  - intros m i t Ht _ IH1 _ IH2 Hm Hi. destruct (net_wf C nets_wf m Hm) as [W1 W2 W3 W4].
    assert (D : In (fst t) (dests (snd (net_of C m)) i)) by (apply in_map; exact Ht). destruct (IH2 Hm (W2 _ _ D)) as (w & ch & P & K). destruct (IH1 _ _ K) as [ch' K']. exists (rd (snd (net_of C m)) (fst t) ++ w), ch'. split; [econstructor; eassumption|exact K'].
  - intros m i H w ch K. exists ch. apply own_matched; assumption.
  - intros m i x m' E1 E2 _ IH w ch K. rewrite E1. pose proof (net_index_lt _ _ _ E2) as Hm'. destruct (net_wf C nets_wf m' Hm') as [W1 W2 W3 W4]. destruct (IH Hm' ltac:(lia)) as (w' & ch' & P & Q).
    unfold rd in Q. rewrite W3 in Q. cbn [ATNSem.reads app] in Q |- *. exists (Node (fst (net_of C m')) (N.of_nat 0) (N.of_nat 0) ch' :: ch). eapply nm_inv; [|exact K]. econstructor; eassumption.
Qed.
Lemma em_matched w : Forall em1 w -> exists ch, nm w 0 0 ch.
Proof.
  intros H. induction H as [|t w [NB Ht] _ [ch IH]]; [exists []; constructor; cbn; lia|]. destruct Ht as [Ht|(x & m' & -> & E2 & S)].
  - exists ch. pose proof (own_matched t w ch Ht IH) as K. destruct t; cbn [ATNSem.reads app] in K; [destruct (NB eq_refl)|exact K..].
  - pose proof (net_index_lt _ _ _ E2) as Hm'. destruct (net_wf C nets_wf m' Hm') as [W1 W2 W3 W4]. destruct (proj1 silent_matched _ _ S Hm' ltac:(lia)) as (w' & ch' & P & Q).
    unfold rd in Q. rewrite W3 in Q. cbn [ATNSem.reads app] in Q. exists (Node (fst (net_of C m')) (N.of_nat 0) (N.of_nat 0) ch' :: ch). eapply nm_inv; [|exact IH]. econstructor; eassumption.
Qed.
Lemma em_empty e v name id : rules name = Some (id, e) -> (forall x, In x v -> In x (gsel_terms e)) -> Forall em1 (words v) -> can_be_empty rules matches v.
Proof.
  intros R T H. destruct (em_matched _ H) as [ch K]. exists ch. apply (proj1 (proj2 (parse_lift rules matches C [] HN HP) _ _ _ _ K) v eq_refl). intros x Hx t Ht. exact (HP name id e x t R (T _ Hx) Ht).
Qed.
(** Repetitions. *)
Lemma reps_lift name id e : rules name = Some (id, e) ->
  (forall a, (forall x, In x (gatom_terms a) -> In x (gsel_terms e)) -> reps_atom rules matches a -> ratom em1 true a) /\
  (forall s, (forall x, In x (gseq_terms s) -> In x (gsel_terms e)) -> reps_seq rules matches s -> rseq em1 true s) /\
  (forall e', (forall x, In x (gsel_terms e') -> In x (gsel_terms e)) -> reps_sel rules matches e' -> rsel em1 true e').
Proof.
  intros R. apply g_ind.
  - intros x _ _. exact I.
  - intros e' IH T H. exact (IH T H).
  - intros _ _. exact I.
  - intros a IHa q s IHs T (H1 & H2 & H3). cbn [gseq_terms] in T. cbn [rseq]. split; [apply IHa; [intros x Hx; apply T; apply in_or_app; auto|exact H1]|]. split; [|apply IHs; [intros x Hx; apply T; apply in_or_app; auto|exact H3]].
    intros Q (w & K1 & K2). apply (H2 Q). destruct (proj1 lift_all a w K1) as (v & V1 & -> & V3). exists v. split; [exact V1|]. eapply em_empty; [exact R| |exact K2]. intros x Hx. apply T. apply in_or_app. left. auto.
  - intros s IH T H. exact (IH T H).
  - intros e' IHe up s IHs T [H1 H2]. cbn [gsel_terms] in T. split; [apply IHe|apply IHs]; try assumption; intros x Hx; apply T; apply in_or_app; auto.
Qed.
(** Silent walks inside one network, from its first node: [pre i w]: the nodes before i contributed w. *)
Inductive pre (m : nat) : nat -> list nty -> Prop :=
| pre_0 : pre m 0 []
| pre_step i w j : pre m i w -> passes C m i -> In j (dests (snd (net_of C m)) i) -> pre m j (w ++ rd (snd (net_of C m)) i).
Lemma pre_em m i w : pre m i w -> Forall em1 w.
Proof. intros H. induction H as [|i w j _ IH P _]; [constructor|]. apply Forall_app. split; [exact IH|]. apply em_reads. exact (passes_em _ _ P). Qed.
Lemma pre_path m i w : m < length (c_nets C) -> pre m i w -> apath (snd (net_of C m)) 0 (w ++ rd (snd (net_of C m)) i) i.
Proof.
  intros Hm H. destruct (net_wf C nets_wf m Hm) as [W1 W2 W3 W4]. induction H as [|i w j _ IH P D].
  - unfold rd. rewrite W3. constructor.
  - eapply path_app; [exact IH|]. replace (rd (snd (net_of C m)) j) with (rd (snd (net_of C m)) j ++ []) by apply app_nil_r. econstructor; [exact D|constructor].
Qed.
Definition nmof (m : nat) : list N := fst (nth m (c_nets C) ([], (0%N, []))).
Definition calls (m m' : nat) : Prop := exists i w x, pre m i w /\ nt (node_of C m i) = NInv x /\ net_index (c_nets C) x = Some m'.
Lemma pre_in m i w : m < length (c_nets C) -> pre m i w -> i < length (snd (net_of C m)).
Proof. intros Hm H. destruct (net_wf C nets_wf m Hm) as [W1 W2 W3 W4]. destruct H; [lia|eauto]. Qed.
Lemma calls_lt m m' : calls m m' -> m' < length (c_nets C).
Proof. intros (i & w & x & _ & _ & H). exact (net_index_lt _ _ _ H). Qed.
Lemma calls_src m m' : calls m m' -> m < length (c_nets C).
Proof.
  intros (i & w & x & _ & H & _). destruct (Nat.lt_ge_cases m (length (c_nets C))) as [K|K]; [exact K|]. unfold node_of, net_of in H. rewrite (nth_overflow (c_nets C)) in H by exact K. cbn [snd] in H. destruct i; discriminate.
Qed.
Lemma calls_starts m m' : calls m m' -> starts_with rules matches (nmof m) (nmof m').
Proof.
  intros HC. pose proof (calls_src _ _ HC) as Hm. destruct HC as (i & w & x & P & E1 & E2). destruct (net_at m Hm) as (e & R & NF). pose proof (pre_in _ _ _ Hm P) as Hi.
  destruct (net_for_reach e _ NF i Hi) as [w' Q]. pose proof (path_app _ _ _ _ _ _ (pre_path m i w Hm P) Q) as A. unfold rd in A. change (tonode (snd (net_of C m)) i) with (node_of C m i) in A. rewrite E1 in A. cbn [ATNSem.reads] in A.
  rewrite <- app_assoc in A. cbn [app] in A. apply (net_for_language e _ NF) in A. destruct (proj2 (proj2 lift_all) e _ A) as (v & V1 & V2 & V3).
  symmetry in V2. destruct (words_split _ _ _ _ V2) as (v1 & v2 & -> & X1 & X2). destruct (net_index_nth _ _ _ E2) as (net & N1 & _).
  assert (nmof m' = x) as ->. { unfold nmof. rewrite (nth_error_nth _ _ _ N1). reflexivity. }
  exists (fst (net_of C m)), e, v1, v2. split; [exact R|]. split; [exact V1|]. eapply em_empty; [exact R|intros y Hy; apply V3; apply in_or_app; auto|]. rewrite X1. exact (pre_em _ _ _ P).
Qed.

Hypothesis LR : no_left_recursion rules matches.
Hypothesis ER : no_empty_repetition rules matches.
Lemma calls_acc m : Acc (fun b a => calls a b) m.
Proof.
  apply (acyclic_acc calls (length (c_nets C))); [intros i j H; exact (calls_lt _ _ H)|]. intros i H. apply (LR (nmof i)). 
  assert (G : forall a b, clos_trans _ calls a b -> clos_trans _ (starts_with rules matches) (nmof a) (nmof b)).
  { intros a b K. induction K as [a b K|a b c _ IH1 _ IH2]; [apply t_step; exact (calls_starts _ _ K)|eapply t_trans; eassumption]. }
  exact (G _ _ H).
Qed.
Definition next (m : nat) (i j : nat) : Prop := passes C m i /\ In j (dests (snd (net_of C m)) i).
Lemma next_acc m i : Acc (fun b a => next m a b) i.
Proof.
  destruct (Nat.lt_ge_cases m (length (c_nets C))) as [Hm|Hm].
  - destruct (net_at m Hm) as (e & R & NF). destruct (net_wf C nets_wf m Hm) as [W1 W2 W3 W4].
    pose proof (net_for_loop em1 e _ NF (proj2 (proj2 (reps_lift _ _ e R)) e (fun x H => H) (ER _ _ _ R))) as LF.
    apply (acyclic_acc (next m) (length (snd (net_of C m)))); [intros a b [_ H]; exact (W2 _ _ H)|]. intros a H. apply clos_trans_t1n in H.
    assert (G : forall a b, clos_trans_1n _ (next m) a b -> em (nt (node_of C m a)) /\ exists d w, In d (dests (snd (net_of C m)) a) /\ apath (snd (net_of C m)) d w b /\ (em (nt (node_of C m b)) -> Forall em1 (rd (snd (net_of C m)) d ++ w))).
    { intros x y K. induction K as [x y [K1 K2]|x y z [K1 K2] _ [IH1 (d & w & D & P & F)]].
      - split; [exact (passes_em _ _ K1)|]. exists y, []. split; [exact K2|]. split; [constructor|]. intros Q. rewrite app_nil_r. apply em_reads. exact Q.
      - split; [exact (passes_em _ _ K1)|]. exists y, (rd (snd (net_of C m)) d ++ w). split; [exact K2|]. split; [econstructor; eassumption|]. intros Q. apply Forall_app. split; [apply em_reads; exact IH1|exact (F Q)]. }
    destruct (G _ _ H) as [Q (d & w & D & P & F)]. exact (LF a d w D P (F Q)).
  - constructor. intros j [_ H]. unfold net_of in H. rewrite (nth_overflow (c_nets C)) in H by exact Hm. cbn [snd] in H. rewrite dests_out in H by (cbn; lia). destruct H.
Qed.
Lemma start_acc : forall m, Acc (fun b a => walk C a b) (m, 0).
Proof.
  intros m. induction (calls_acc m) as [m _ IH].
  assert (G : forall i w, pre m i w -> Acc (fun b a => walk C a b) (m, i)).
  { intros i. induction (next_acc m i) as [i _ IHi]. intros w P. constructor. intros c K. inversion K as [m0 i0 t P1 Ht|m0 i0 x m' E1 E2]; subst.
    - assert (D : In (fst t) (dests (snd (net_of C m)) i)) by (apply in_map; exact Ht). apply (IHi (fst t)) with (w := w ++ rd (snd (net_of C m)) i); [split; assumption|]. econstructor; eassumption.
    - apply IH. exists i, w, x. auto. }
  exact (G 0 [] (pre_0 m)).
Qed.
Theorem grounded : no_endless_walk C.
Proof.
  intros [m i]. induction (next_acc m i) as [i _ IHi]. constructor. intros c K. inversion K as [m0 i0 t P1 Ht|m0 i0 x m' E1 E2]; subst.
  - apply (IHi (fst t)). split; [exact P1|apply in_map; exact Ht].
  - apply start_acc.
Qed.
End Ground.
