(** * Silent walks of the composite network, in terms of the rules *)
From Coq Require Import List NArith ZArith Arith Bool Lia Relations ZifyBool ZifyN ZifyNat.
From Verif Require Import CharClass Stream NFA NFASem NFABuild DFA DFATerm DFAPattern DFAMin RegexSpec GrammarSpec TreeSpec ParseSpec EmptySpec ATN ATNSem ATNBuild ATNOpt ATNLive ATNLoop Grammar GrammarProofs CodeGen ParserTree ParserGround Lookahead LookImport LookRead LookSim LookWf LookFit LookFuel LookEnds.
Import ListNotations.
Local Open Scope nat_scope.

Section Sil.
Variable nets : list (list N * (N * atn)).
Variable D : list (list N * cmach).
Hypothesis HN : lookable nets.
Hypothesis HD : composite nets = Some D.
Variable rules : list N -> option (N * gsel).
Hypothesis HR : forall r g M, In (r, (g, M)) nets -> exists e, rules r = Some (g, e) /\ net_for e M /\ forall p, In (TPat p) (gsel_terms e) -> pat_ok p /\ pat_nl p.
Notation known := (known nets).
Notation net := (net nets).
Notation entry := (entry nets).
Notation exit_ := (exit_ nets).
Notation sym := (sym nets).
Notation outs := (outs nets).

(** Symbols that can match nothing. *)
Definition em2 (n : nty) : Prop :=
  match n with
  | NWs => True
  | NReg A => accepts A []
  | NInv s => exists t, derives rules patL [] s 0 0 t
  | _ => False
  end.
Lemma empty_pat p : pat_ok p -> accepts (build_pat p) [] -> patL p [].
Proof. intros Hp H. apply (proj2 (proj2 null_exact)). apply (proj1 (proj2 (proj2 (proj2 build_spec) p Hp))). exact H. Qed.
Lemma word_empty v : (forall p, In (TPat p) v -> pat_ok p) -> Forall em2 (words v) -> can_be_empty rules patL v.
Proof.
  induction v as [|x v IH]; intros HP H; [exists []; constructor; cbn; lia|]. assert (HP' : forall p, In (TPat p) v -> pat_ok p) by (intros p Hp; apply HP; right; exact Hp).
  destruct x as [id|s|p]; cbn [words flat_map term_word app term_nty] in H; fold (words v) in H.
  - inversion H as [|? ? Hx H']; subst. destruct Hx as [t Ht]. destruct (IH HP' H') as [ch K]. exists (t :: ch). eapply matched_rule; eassumption.
  - inversion H as [|? ? _ H']; subst. inversion H' as [|? ? Hx _]; destruct Hx.
  - inversion H as [|? ? _ H']; subst. inversion H' as [|? ? A H2]; subst. destruct (IH HP' H2) as [ch K]. exists ch. apply (matched_pat _ _ _ _ _ 0 0 0); [split; cbn; lia|intros c []|split; cbn; lia| |exact K].
    apply empty_pat; [apply HP; left; reflexivity|exact A].
Qed.
Lemma known_rule r : known r -> exists g e, rules r = Some (g, e) /\ net_for e (net r) /\ forall p, In (TPat p) (gsel_terms e) -> pat_ok p /\ pat_nl p.
Proof. intros K. destruct (known_net nets HN r K) as [g Hg]. destruct (HR _ _ _ Hg) as (e & H). exists g, e. exact H. Qed.
Lemma rule_empty r w : known r -> apath (net r) 0 w (length (net r) - 1) -> Forall em2 w -> em2 (NInv r).
Proof.
  intros K P F. destruct (known_rule r K) as (g & e & R & NF & HP). apply (net_for_language e _ NF) in P. destruct (proj2 (proj2 lift_all) e w P) as (v & V1 & -> & V3).
  destruct (word_empty v) as [ch M]; [intros p Hp; apply (HP p); apply V3; exact Hp|exact F|]. eexists. eapply derives_rule; eassumption.
Qed.
Definition inner (n : nty) (q : nat) : Prop := match n with NReg A => NFASem.path (edge A) q [] (length A - 1) | _ => True end.
Lemma in_dests r i d g : In (d, g) (outs r i) -> In d (dests (net r) i).
Proof. intros H. apply (in_map fst) in H. exact H. Qed.
(** A node entered without reading, and left without reading. *)
Lemma pass_em r d : known r -> d < length (net r) -> (forall s, sym r d = NInv s -> em2 (NInv s)) -> entry_lab (sym r d) = [] -> inner (sym r d) 0 -> Forall em2 (rd (net r) d).
Proof.
  intros K Hd HI HE HL. unfold rd, tonode. fold (sym r d). pose proof (lit_len nets HN r d) as LL. destruct (sym r d) as [|s|s|A|]; cbn [ATNSem.reads] in *; try (constructor; fail); (constructor; [|constructor]).
  - exact (HI s eq_refl).
  - destruct s; [destruct (LL [] K Hd eq_refl eq_refl)|discriminate].
  - exact HL.
  - exact I.
Qed.
Lemma eps_nil c : is_epsilon c = true -> c = [].
Proof. destruct c; [reflexivity|discriminate]. Qed.
Lemma reg_pos r i A : known r -> i < length (net r) -> sym r i = NReg A -> 0 < length A.
Proof. intros K Hi E. pose proof (size_pos nets HN r i K Hi) as P. rewrite E in P. exact P. Qed.
Lemma inner_exit n q : S q = nsize n -> inner n q.
Proof. destruct n; cbn [inner]; auto. cbn [nsize]. intros H. replace (length A - 1) with q by lia. constructor. Qed.
(** Steps without a label: inside a pattern, or from the exit of a node to the entry of the next. *)
Inductive estep (r : list N) (i q : nat) (p' : nat) : Prop :=
| es_reg A d : sym r i = NReg A -> d < length A -> edge A q [] d -> p' = entry r i + d -> estep r i q p'
| es_link d g : S q = nsize (sym r i) -> In (d, g) (outs r i) -> d < length (net r) -> entry_lab (sym r d) = [] -> p' = entry r d + 0 -> estep r i q p'.
Lemma node_estep r i q up c t : known r -> i < length (net r) -> q < nsize (sym r i) -> node_at D ((r, entry r i + q) :: up) = Some c -> In t (ctrs c) -> is_epsilon (clab t) = true -> estep r i q (cdest t).
Proof.
  intros K Hi Hq Hc Ht He. apply eps_nil in He. destruct (node_trs nets D HN HD r i q up c t K Hi Hq Hc Ht) as [E1 _ E2 _|s E1 _ E2 _|A d E1 E2 E3 E4|d g E1 E2 E3 E4].
  - rewrite E2 in He. discriminate.
  - rewrite E2 in He. discriminate.
  - rewrite He in E3. eapply es_reg; [exact E1| |exact E3|exact E4]. destruct (reg_live nets HN r i A K Hi E1) as (_ & L & _). eauto.
  - eapply es_link; [exact E1|exact E2|exact (out_lt nets HN r i d g K Hi E2)|congruence|lia].
Qed.
Lemma csil_spec r p : csil D r p -> forall i q, known r -> i < length (net r) -> q < nsize (sym r i) -> p = entry r i + q ->
  inner (sym r i) q /\ exists w, apath (net r) i w (length (net r) - 1) /\ Forall em2 w.
Proof.
  intros H. induction H as [r p n Hn He|r p n t m Hn Ht He Hm _ IHsub _ IH]; intros i q K Hi Hq ->.
  - destruct (node_end nets D HN HD r i q [] n K Hi Hq Hn He) as (E1 & E2 & ->). split; [rewrite E2; exact I|]. destruct (known_rule r K) as (g & e & _ & NF & _). destruct (net_for_wf _ _ NF) as [W1 W2 W3 W4].
    assert (i = length (net r) - 1) as ->. { destruct (Nat.eq_dec i (length (net r) - 1)); [assumption|]. exfalso. apply (W4 i); [lia|]. unfold dests, tonode. fold (outs r i). rewrite E1. reflexivity. }
    exists []. split; constructor.
  - destruct (node_estep r i q [] n t K Hi Hq Hn Ht He) as [A d E1 E2 E3 E4|d g E1 E2 E3 E4 E5].
    + destruct (IH i d K Hi ltac:(rewrite E1; exact E2) E4) as [I1 I2]. split; [|exact I2]. rewrite E1 in *. cbn [inner] in *. eapply p_eps; eassumption.
    + split; [apply inner_exit; exact E1|]. pose proof (size_pos nets HN r d K E3) as PS. destruct (IH d 0 K E3 PS E5) as [I1 (w & P & F)]. exists (rd (net r) d ++ w). split; [eapply ap_step; [exact (in_dests _ _ _ _ E2)|exact P]|].
      apply Forall_app. split; [|exact F]. apply pass_em; [exact K|exact E3| |exact E4|exact I1]. intros s Es. rewrite E5 in Hm. pose proof (node_csub nets D HN HD r d 0 [] m K E3 PS Hm) as CS. rewrite Es in CS.
      pose proof (inv_known nets HN r d s K E3 Es) as Ks. rewrite CS in IHsub. destruct (entry0 nets D HN HD s Ks) as [Z1 Z2]. 
      destruct (IHsub (known_ne nets HN s Ks) 0 0 Ks Z2 (size_pos nets HN s 0 Ks Z2) ltac:(lia)) as [_ (w' & P' & F')]. exact (rule_empty s w' Ks P' F').
Qed.
(** ** No silent circles *)
Hypothesis ER : no_empty_repetition rules patL.
Lemma reps_em e : (forall p, In (TPat p) (gsel_terms e) -> pat_ok p) ->
  (forall a, (forall x, In x (gatom_terms a) -> In x (gsel_terms e)) -> reps_atom rules patL a -> ratom em2 true a) /\
  (forall s, (forall x, In x (gseq_terms s) -> In x (gsel_terms e)) -> reps_seq rules patL s -> rseq em2 true s) /\
  (forall e', (forall x, In x (gsel_terms e') -> In x (gsel_terms e)) -> reps_sel rules patL e' -> rsel em2 true e').
Proof.
  intros HP. apply g_ind.
  - intros x _ _. exact I.
  - intros e' IH T H. exact (IH T H).
  - intros _ _. exact I.
  - intros a IHa q s IHs T (H1 & H2 & H3). cbn [gseq_terms] in T. cbn [rseq]. split; [apply IHa; [intros x Hx; apply T; apply in_or_app; auto|exact H1]|]. split; [|apply IHs; [intros x Hx; apply T; apply in_or_app; auto|exact H3]].
    intros Q (w & K1 & K2). apply (H2 Q). destruct (proj1 lift_all a w K1) as (v & V1 & -> & V3). exists v. split; [exact V1|]. apply word_empty; [|exact K2]. intros p Hp. apply HP. apply T. apply in_or_app. left. auto.
  - intros s IH T H. exact (IH T H).
  - intros e' IHe up s IHs T [H1 H2]. cbn [gsel_terms] in T. split; [apply IHe|apply IHs]; try assumption; intros x Hx; apply T; apply in_or_app; auto.
Qed.
Lemma net_loopfree r : known r -> loopfree em2 (net r).
Proof.
  intros K. destruct (known_rule r K) as (g & e & R & NF & HP). apply (net_for_loop em2 e _ NF). apply (proj2 (proj2 (reps_em e (fun p h => proj1 (HP p h)))) e (fun x h => h)). exact (ER _ _ _ R).
Qed.
Definition step2 (r : list N) (i d : nat) : Prop := In d (dests (net r) i) /\ Forall em2 (rd (net r) d).
Lemma step2_acc r i : known r -> Acc (fun b a => step2 r a b) i.
Proof.
  intros K. destruct (known_rule r K) as (g & e & R & NF & HP). destruct (net_for_wf _ _ NF) as [W1 W2 W3 W4].
  apply (acyclic_acc (step2 r) (length (net r))); [intros a b [H _]; exact (W2 _ _ H)|]. intros a H. apply clos_trans_t1n in H.
  assert (G : forall a b, clos_trans_1n _ (step2 r) a b -> exists d w, In d (dests (net r) a) /\ apath (net r) d w b /\ Forall em2 (rd (net r) d ++ w)).
  { intros x y Q. induction Q as [x y [Q1 Q2]|x y z [Q1 Q2] _ (d & w & A & B & F)].
    - exists y, []. split; [exact Q1|]. split; [constructor|]. rewrite app_nil_r. exact Q2.
    - exists y, (rd (net r) d ++ w). split; [exact Q1|]. split; [econstructor; eassumption|]. apply Forall_app. auto. }
  destruct (G _ _ H) as (d & w & A & B & F). exact (net_loopfree r K a d w A B F).
Qed.
Lemma reg_acyc r i A : known r -> i < length (net r) -> sym r i = NReg A -> acyc A.
Proof.
  intros K Hi. destruct (known_rule r K) as (g & e & R & NF & HP). unfold sym. pattern (nt (nth i (net r) blank)). apply (LookFit.net_nodes e (net r) _ NF); [discriminate|discriminate| |exact Hi].
  intros [y|y|p] Hy E; cbn in E; try discriminate. injection E as <-. destruct (HP p Hy). apply acyc_build; assumption.
Qed.
Notation aft r p := (Acc (fun b a => hush D r a b) p).
Lemma inside r i : known r -> i < length (net r) -> forall q, q < nsize (sym r i) -> (inner (sym r i) q -> forall d g, In (d, g) (outs r i) -> entry_lab (sym r d) = [] -> hush D r (exit_ r i) (entry r d + 0) -> aft r (entry r d + 0)) -> aft r (entry r i + q).
Proof.
  intros K Hi. 
  assert (G : forall q, (forall A, sym r i = NReg A -> Acc (epsrev A) q) -> q < nsize (sym r i) -> (inner (sym r i) q -> forall d g, In (d, g) (outs r i) -> entry_lab (sym r d) = [] -> hush D r (exit_ r i) (entry r d + 0) -> aft r (entry r d + 0)) -> aft r (entry r i + q)).
  { assert (LINK : forall q, q < nsize (sym r i) -> (inner (sym r i) q -> forall d g, In (d, g) (outs r i) -> entry_lab (sym r d) = [] -> hush D r (exit_ r i) (entry r d + 0) -> aft r (entry r d + 0)) ->
       (forall A d, sym r i = NReg A -> d < length A -> edge A q [] d -> aft r (entry r i + d)) -> aft r (entry r i + q)).
    { intros q Hq HC HA. constructor. intros p' HS. pose proof HS as (n & t & m & Hn & Ht & He & Ed & Hm & _). subst p'. destruct (node_estep r i q [] n t K Hi Hq Hn Ht He) as [A d E1 E2 E3 E4|d g E1 E2 E3 E4 E5].
      - rewrite E4. eapply HA; eassumption.
      - rewrite E5 in *. eapply HC; [apply inner_exit; exact E1|exact E2|exact E4|]. replace (exit_ r i) with (entry r i + q) by (unfold LookRead.exit_; lia). exact HS. }
    intros q HA Hq HC. destruct (sym r i) as [|s|s|A|] eqn:ES; try (apply LINK; [exact Hq|exact HC|discriminate]).
    specialize (HA A eq_refl). induction HA as [q _ IH]. apply LINK; [exact Hq|exact HC|]. intros A' d E Hd He. injection E as <-. apply IH; [exact He|exact Hd|]. intros HI. apply HC. cbn [inner] in *. eapply p_eps; eassumption. }
  intros q Hq HC. apply G; [|exact Hq|exact HC]. intros A E. exact (reg_acyc r i A K Hi E q).
Qed.
Lemma behind r i : known r -> i < length (net r) -> forall d g, In (d, g) (outs r i) -> entry_lab (sym r d) = [] -> hush D r (exit_ r i) (entry r d + 0) -> aft r (entry r d + 0).
Proof.
  intros K. induction (step2_acc r i K) as [i _ IH]. intros Hi d g Hd EL HS. pose proof (out_lt nets HN r i d g K Hi Hd) as Ld. pose proof (size_pos nets HN r d K Ld) as PS. apply inside; [exact K|exact Ld|exact PS|]. intros HI. apply IH; [|exact Ld]. split; [exact (in_dests _ _ _ _ Hd)|].
  destruct HS as (n & t & m & Hn & Ht & He & Ed & Hm & HC).
  apply pass_em; [exact K|exact Ld| |exact EL|exact HI].
  intros s Es. pose proof (node_csub nets D HN HD r d 0 [] m K Ld PS Hm) as CS. rewrite Es in CS. rewrite CS in HC. pose proof (inv_known nets HN r d s K Ld Es) as Ks. specialize (HC (known_ne nets HN s Ks)).
  destruct (entry0 nets D HN HD s Ks) as [Z1 Z2]. destruct (csil_spec s 0 HC 0 0 Ks Z2 (size_pos nets HN s 0 Ks Z2) ltac:(lia)) as [_ (w' & P' & F')]. exact (rule_empty s w' Ks P' F').
Qed.
Lemma known_node r p n : node_at D [(r, p)] = Some n -> known r.
Proof.
  cbn [node_at]. destruct (mach D r) as [Q|] eqn:E; [|discriminate]. intros _. apply mach_in in E. unfold LookRead.known. rewrite <- (composite_names _ _ HD). apply in_map_iff. exists (r, Q). auto.
Qed.
Theorem no_hush_circle r p : aft r p.
Proof.
  constructor. intros p' HS. assert (exists n, node_at D [(r, p')] = Some n) as [n Hn] by (destruct HS as (_ & _ & m & _ & _ & _ & _ & Hm & _); eauto). pose proof (known_node r p' n Hn) as K.
  destruct (node_cases nets D HN HD r p' [] n K Hn) as (i & q & Hi & -> & Hq & _). apply inside; [exact K|exact Hi|exact Hq|]. intros _. exact (behind r i K Hi).
Qed.
Theorem starts_plain r n : node_at D [(r, 0)] = Some n -> csub n = [].
Proof.
  intros H. pose proof (known_node r 0 n H) as K. destruct (entry0 nets D HN HD r K) as [Z1 Z2]. destruct (known_rule r K) as (g & e & _ & NF & _). destruct (net_for_wf _ _ NF) as [W1 W2 W3 W4].
  rewrite (node_csub nets D HN HD r 0 0 [] n K Z2 (size_pos nets HN r 0 K Z2)); [|rewrite Z1; exact H]. change (sym r 0) with (nt (tonode (net r) 0)). rewrite W3. reflexivity.
Qed.
Theorem decisions_end : exists f0 cf0, forall r i f cf, f0 <= f -> cf0 <= cf -> done (decision D f cf r i).
Proof.
  assert (ONE : forall r j, exists k, done (ldfa_build D k k [(r, j)])).
  { intros r j. destruct (build_ends D no_hush_circle starts_plain r j) as (f & cf & H). exists (max f cf). unfold ldfa_build in *. pose proof (plain_more D f (max f cf) cf (max f cf) [(r, j)] ltac:(lia) ltac:(lia)) as M.
    destruct (ldfa_plain D f cf [(r, j)]); [rewrite (M ltac:(discriminate)); exact H|rewrite (M ltac:(discriminate)); exact H|destruct (H eq_refl)]. }
  destruct (uniform (fun k x => done (ldfa_build D k k [x]))) with (l := U D) as [k Hk].
  - intros f f' x Hf K. unfold ldfa_build in *. pose proof (plain_more D f f' f f' [x] Hf Hf) as M. destruct (ldfa_plain D f f [x]); [rewrite (M ltac:(discriminate)); exact K|rewrite (M ltac:(discriminate)); exact K|destruct (K eq_refl)].
  - intros [r j] _. exact (ONE r j).
  - exists k, k. intros r i f cf Hf Hcf. eapply more_done; [apply (decision_more D k f k cf r i Hf Hcf)|]. unfold decision. destruct (mach D r) as [Q|] eqn:E; [|discriminate]. destruct (convert_index Q i 0) as [j|] eqn:EC; [|discriminate]. apply Hk.
    assert (G : forall Q k, convert_index Q i k = Some j -> k <= j < k + length Q).
    { clear. induction Q as [|n Q IH]; intros k H; [discriminate|]. cbn [convert_index length] in *. destruct (csrc n) as [s|]; [destruct (s =? i); [injection H as <-; lia|]|]; specialize (IH _ H); lia. }
    specialize (G Q 0 EC). apply in_flat_map. exists (r, Q). split; [apply mach_in; exact E|]. cbn [fst snd]. apply in_map. apply in_or_app. left. apply in_seq. lia.
Qed.
End Sil.
