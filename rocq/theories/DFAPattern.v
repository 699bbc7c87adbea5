(** For which patterns the construction of the matcher terminates. *)
From Coq Require Import List NArith Arith Bool Lia.
From Verif Require Import CharClass CharClassSpec CharClassProofs RegexSpec NFA NFASem NFAProofs NFABuild DFA DFADep DFAProofs DFATerm.
Import ListNotations.
Local Open Scope nat_scope.

Lemma Star_nil_inv (L : list N -> Prop) : Star L []. Proof. constructor. Qed.
Lemma null_exact :
  (forall u, uI u [] <-> unitL u []) /\ (forall s, sI s [] <-> selL s []) /\ (forall p, pI p [] <-> patL p []).
Proof.
  assert (PL : forall L, Plus L [] <-> L []).
  { intros L. split; [intros (u & v & E & H & _); destruct u; [exact H|discriminate]|]. intros H. exists [], []. split; [reflexivity|]. split; [exact H|constructor]. }
  assert (Q : forall q u, (uI u [] <-> unitL u []) -> (qI q (uI u) (uT u) [] <-> quantL q (unitL u) [])).
  { intros q u H. destruct q; cbn [qI quantL].
    - exact H.
    - rewrite !PL. exact H.
    - split; intros; constructor.
    - split; [auto|]. intros _. right. apply tail_nil. }
  apply regex_ind; cbn [uI sI pI unitL selL patL]; try reflexivity.
  - auto.
  - intros u H q. apply Q. exact H.
  - intros s Hs u Hu q. rewrite Hs, (Q q u Hu). reflexivity.
  - intros p Hp s Hs. split; intros (u & v & E & P & S); destruct u; try discriminate; destruct v; try discriminate; exists [], [];
      (split; [reflexivity|]); split; try (apply Hp; exact P); apply Hs; exact S.
Qed.

(** ** Absence of epsilon cycles *)
Lemma acyc_extend A A' : (forall q d, edge A' q [] d -> edge A q [] d \/ Acc (epsrev A') d) -> acyc A -> acyc A'.
Proof.
  intros H HA q. induction (HA q) as [q _ IH]. constructor. intros d Hd. destruct (H q d Hd) as [K|K]; [apply IH; exact K|exact K].
Qed.
Lemma acyc_embed A A' (f : nat -> nat) : (forall q d, edge A q [] d -> edge A' (f q) [] (f d)) -> acyc A' -> acyc A.
Proof.
  intros H HA q. remember (f q) as p eqn:E. revert q E. induction (HA p) as [p _ IH]. intros q ->. constructor. intros d Hd.
  apply (IH (f d)); [apply H; exact Hd|reflexivity].
Qed.
Lemma acc_no_cycle A q : Acc (epsrev A) q -> forall d, edge A q [] d -> eps_path A d q -> False.
Proof.
  induction 1 as [q _ IH]. intros d Hd P. destruct (eps_path_inv _ _ _ P) as [E|(d' & Hd' & P')].
  - subst d. exact (IH q Hd q Hd P).
  - apply (IH d Hd d' Hd'). refine (path_app _ _ [] _ [] _ P' _). eapply p_eps; [exact Hd|constructor].
Qed.
Lemma acc_sink A q : (forall d, ~ edge A q [] d) -> Acc (epsrev A) q.
Proof. intros H. constructor. intros d Hd. destruct (H d Hd). Qed.
Lemma acyc_base : acyc nfa_base.
Proof.
  assert (H1 : Acc (epsrev nfa_base) 1) by (apply acc_sink; intros d Hd; apply edge_base in Hd; lia).
  intros q. constructor. intros d Hd. apply edge_base in Hd as (_ & _ & ->). exact H1.
Qed.
Lemma acyc_add_state A cc : wf A -> acyc A -> acyc (add_state A cc).
Proof.
  intros HW. apply acyc_extend. intros q d Hd. apply edge_add_state in Hd; [|exact HW]. destruct Hd as [Hd|(_ & _ & ->)]; [auto|right].
  apply acc_sink. intros d Hd. apply edge_add_state in Hd; [|exact HW]. destruct Hd as [Hd|(E & _)]; [apply edge_lt in Hd; lia|destruct HW; lia].
Qed.
Lemma acyc_concat A B : wf A -> wf B -> (acyc (concat A B) <-> acyc A /\ acyc B).
Proof.
  intros HA HB. pose proof HA as [LA EA]. pose proof HB as [LB EB]. split.
  - intros H. split.
    + apply (acyc_embed A (concat A B) (fun q => q)); [|exact H]. intros q d Hd. apply edge_concat; [exact HA|auto].
    + apply (acyc_embed B (concat A B) (fun q => q + (length A - 1))); [|exact H]. intros q d Hd. apply edge_concat; [exact HA|]. right. exists q, d. auto.
  - intros [H1 H2].
    assert (G : forall q0, 1 <= q0 -> Acc (epsrev (concat A B)) (q0 + (length A - 1))).
    { intros q0. induction (H2 q0) as [q0 _ IH]. intros Hq. constructor. intros d Hd. apply edge_concat in Hd; [|exact HA].
      destruct Hd as [Hd|(q1 & d1 & Hd & E & ->)]; [apply edge_lt in Hd; lia|]. assert (q1 = q0) as -> by lia. apply IH; [exact Hd|]. apply EB in Hd. lia. }
    apply (acyc_extend A); [|exact H1]. intros q d Hd. apply edge_concat in Hd; [|exact HA]. destruct Hd as [Hd|(q1 & d1 & Hd & _ & ->)]; [auto|].
    right. apply G. apply EB in Hd. lia.
Qed.
Lemma acyc_select A B : wf A -> wf B -> (acyc (select A B) <-> acyc A /\ acyc B).
Proof.
  intros HA HB. pose proof HA as [LA EA]. pose proof HB as [LB EB]. destruct (select_spec A B HA HB) as (LS & WS & ES). split.
  - intros H. split.
    + apply (acyc_embed A (select A B) (fun q => q)); [|exact H]. intros q d Hd. apply ES. left. exact Hd.
    + apply (acyc_embed B (select A B) (fun q => if q =? 0 then 0 else q + (length A - 1))); [|exact H].
      intros q d Hd. apply ES. unfold selectE. assert (Hd1 : 1 <= d) by (apply EB in Hd; lia).
      destruct d as [|d]; [lia|]. cbn [Nat.eqb]. destruct q as [|q]; cbn [Nat.eqb].
      * right. right. left. exists (S d). auto.
      * right. right. right. left. exists (S q), (S d). split; [lia|auto].
  - intros [H1 H2].
    assert (F : Acc (epsrev (select A B)) (length A + length B - 1)).
    { apply acc_sink. intros d Hd. apply ES in Hd. destruct Hd as [Hd|[(E & _)|[(d0 & _ & E & _)|[(q0 & d0 & _ & Hd & E & _)|[(E & _)|(E & _)]]]]]; try lia.
      - apply edge_lt in Hd. lia.
      - apply edge_lt in Hd. lia. }
    assert (G : forall q0, 1 <= q0 -> Acc (epsrev (select A B)) (q0 + (length A - 1))).
    { intros q0. induction (H2 q0) as [q0 _ IH]. intros Hq. constructor. intros d Hd. apply ES in Hd.
      destruct Hd as [Hd|[(E & _)|[(d0 & _ & E & _)|[(q1 & d1 & _ & Hd & E & ->)|[(E & _ & ->)|(E & _)]]]]]; try lia.
      - apply edge_lt in Hd. lia.
      - assert (q1 = q0) as -> by lia. apply IH; [exact Hd|]. apply EB in Hd. lia.
      - exact F. }
    apply (acyc_extend A); [|exact H1]. intros q d Hd. apply ES in Hd.
    destruct Hd as [Hd|[(_ & _ & ->)|[(d0 & Hd & _ & ->)|[(q1 & d1 & _ & Hd & _ & ->)|[(_ & _ & ->)|(_ & _ & ->)]]]]]; [auto|right..].
    + replace (length A) with (1 + (length A - 1)) by lia. apply G. lia.
    + apply G. apply EB in Hd. lia.
    + apply G. apply EB in Hd. lia.
    + exact F.
    + exact F.
Qed.
(** Loops: the added edge goes from the final state back to state 1. *)
Lemma acyc_loop A A' : acyc A ->
  (forall q d, edge A' q [] d -> edge A q [] d \/ (q = length A - 1 /\ d = 1) \/ Acc (epsrev A') d) ->
  ~ body A [] -> acyc A'.
Proof.
  intros HA HE HB.
  assert (G : forall q, eps_path A 1 q -> Acc (epsrev A') q).
  { intros q. induction (HA q) as [q _ IH]. intros P. constructor. intros d Hd. destruct (HE q d Hd) as [K|[(-> & ->)|K]].
    - apply IH; [exact K|]. refine (path_app _ _ [] _ [] _ P _). eapply p_eps; [exact K|constructor].
    - exfalso. apply HB. exact P.
    - exact K. }
  apply (acyc_extend A); [|exact HA]. intros q d Hd. destruct (HE q d Hd) as [K|[(-> & ->)|K]]; [auto| |auto].
  right. apply G. constructor.
Qed.
Lemma acyc_plus A lg : unitA A -> (acyc (add_to A [] 1 lg) <-> acyc A /\ ~ body A []).
Proof.
  intros (HW & HL & H0 & H1). assert (EE := edge_add_to A 1 lg). split.
  - intros H. split.
    + apply (acyc_embed A _ (fun q => q)) with (2 := H). intros q d Hd. apply EE; [lia|auto].
    + intros P. assert (He : edge (add_to A [] 1 lg) (length A - 1) [] 1) by (apply EE; [lia|auto]).
      apply (acc_no_cycle _ _ (H (length A - 1)) 1 He). eapply path_mono; [|exact P]. intros. apply EE; [lia|auto].
  - intros [HA HB]. apply (acyc_loop A); [exact HA| |exact HB]. intros q d Hd. apply EE in Hd; [|lia]. tauto.
Qed.
Lemma acyc_star A lg : unitA A -> (acyc (starA A lg) <-> acyc A /\ ~ body A []).
Proof.
  intros HU. pose proof HU as (HW & HL & H0 & H1). assert (EE := fun q lab d => star_edges A lg q lab d HU). split.
  - intros H. split.
    + apply (acyc_embed A _ (fun q => q)) with (2 := H). intros q d Hd. apply EE. auto.
    + intros P. assert (He : edge (starA A lg) (length A - 1) [] 1) by (apply EE; auto).
      apply (acc_no_cycle _ _ (H (length A - 1)) 1 He). eapply path_mono; [|exact P]. intros. apply EE. auto.
  - intros [HA HB]. assert (F : Acc (epsrev (starA A lg)) (length A)) by (apply acc_sink; intros d; apply star_sink; exact HU).
    apply (acyc_loop A); [exact HA| |exact HB]. intros q d Hd. apply EE in Hd as [Hd|[(-> & _ & ->)|[(_ & _ & ->)|(_ & _ & ->)]]]; auto.
Qed.
Lemma acyc_opt A : unitA A -> (acyc (add_from A [] 1) <-> acyc A).
Proof.
  intros (HW & HL & H0 & H1). assert (EE := edge_add_from A 1). pose proof HW as [_ HD]. split.
  - intros H. apply (acyc_embed A _ (fun q => q)) with (2 := H). intros q d Hd. apply EE; [lia|auto].
  - intros HA.
    assert (G : forall q, 2 <= q -> Acc (epsrev (add_from A [] 1)) q).
    { intros q. induction (HA q) as [q _ IH]. intros Hq. constructor. intros d Hd. apply EE in Hd; [|lia].
      destruct Hd as [Hd|(-> & _)]; [|lia]. apply IH; [exact Hd|]. pose proof (HD _ _ _ Hd).
      destruct (Nat.eq_dec d 1) as [->|]; [|lia]. apply H1 in Hd. lia. }
    apply (acyc_extend A); [|exact HA]. intros q d Hd. apply EE in Hd; [|lia]. destruct Hd as [Hd|(_ & _ & ->)]; [auto|right]. apply G. lia.
Qed.
Lemma acyc_quant q A : unitA A -> (acyc (quantA q A) <-> acyc A /\ (loops q = true -> ~ body A [])).
Proof.
  intros HU. destruct q; cbn [quantA loops].
  - split; [intros H; split; [exact H|discriminate]|tauto].
  - rewrite acyc_plus by exact HU. tauto.
  - rewrite acyc_star by exact HU. tauto.
  - rewrite acyc_opt by exact HU. split; [intros H; split; [exact H|discriminate]|tauto].
Qed.
Lemma acyc_build :
  (forall u, unit_ok u -> (acyc (build_unit u) <-> unit_nl u)) /\
  (forall s, sel_ok s -> (acyc (build_sel s) <-> sel_nl s)) /\
  (forall p, pat_ok p -> (acyc (build_pat p) <-> pat_nl p)).
Proof.
  destruct build_spec as (BU & BS & BP). destruct null_exact as (NU & _ & _).
  assert (Q : forall u q, unit_ok u -> (acyc (build_unit u) <-> unit_nl u) ->
    (acyc (quantA q (build_unit u)) <-> unit_nl u /\ (loops q = true -> ~ unitL u []))).
  { intros u q Hu H. destruct (BU u Hu) as (HU & HB & _). rewrite acyc_quant by exact HU. rewrite H, HB, NU. reflexivity. }
  apply regex_ind; cbn [unit_ok sel_ok pat_ok build_unit build_sel build_pat unit_nl sel_nl pat_nl].
  - intros a _. split; [auto|]. intros _. apply acyc_add_state; [apply wf_base|apply acyc_base].
  - intros p IH Hp. destruct (BP p Hp) as (W & _). rewrite acyc_concat by (assumption || apply wf_base). rewrite (IH Hp).
    split; [tauto|]. intros H. split; [apply acyc_base|exact H].
  - intros u IH q Hu. apply Q; auto.
  - intros s IHs u IHu q [Hs Hu]. destruct (BS s Hs) as (WA & _). destruct (BU u Hu) as (HU & HB & HT).
    destruct (quantA_spec q _ _ _ HU HB HT) as (W & _). rewrite acyc_select by assumption. rewrite (IHs Hs), (Q u q Hu (IHu Hu)). reflexivity.
  - intros _. split; [auto|]. intros _. apply acyc_base.
  - intros p IHp s IHs [Hp Hs]. destruct (BP p Hp) as (WA & _). destruct (BS s Hs) as (WB & _).
    rewrite acyc_concat by assumption. rewrite (IHp Hp), (IHs Hs). reflexivity.
Qed.

(** ** Every state is reachable *)
Definition reach (A : nfa) : Prop := forall q, q < length A -> exists w, path (edge A) 0 w q.
Lemma reach_base : reach nfa_base.
Proof.
  intros [|[|q]] H; cbn in H; [| |lia]; [exists []; constructor|]. exists []. eapply p_eps; [apply edge_base; auto|constructor].
Qed.
Lemma reach_add_state A cc : wf A -> (exists ch, includes cc ch = true) -> reach A -> reach (add_state A cc).
Proof.
  intros HW [ch Hc] HR q Hq. rewrite add_state_length in Hq.
  assert (M : forall q w r, path (edge A) q w r -> path (edge (add_state A cc)) q w r).
  { intros q0 w0 r0. apply path_mono. intros. apply edge_add_state; auto. }
  destruct (Nat.eq_dec q (length A)) as [->|N].
  - destruct (HR (length A - 1) ltac:(destruct HW; lia)) as [w P]. exists (w ++ [ch]). eapply path_app; [apply M; exact P|].
    eapply p_chr; [apply edge_add_state; [exact HW|right; auto]|exact Hc|constructor].
  - destruct (HR q ltac:(lia)) as [w P]. exists w. apply M. exact P.
Qed.
Lemma reach_concat A B : wf A -> wf B -> reach A -> reach B -> reach (concat A B).
Proof.
  intros HA HB RA RB q Hq. pose proof HA as [LA _]. pose proof HB as [LB _]. rewrite concat_length in Hq by lia.
  assert (M : forall q w r, path (edge A) q w r -> path (edge (concat A B)) q w r).
  { intros q0 w0 r0. apply path_mono. intros. apply edge_concat; auto. }
  destruct (Nat.lt_ge_cases q (length A)) as [L|L]; [destruct (RA q L) as [w P]; exists w; apply M; exact P|].
  destruct (RA (length A - 1) ltac:(lia)) as [w P]. destruct (RB (q - (length A - 1)) ltac:(lia)) as [v Q]. exists (w ++ v). eapply path_app; [apply M; exact P|].
  apply (path_iso (edge B) (edge (concat A B)) (fun x => x + (length A - 1))) in Q.
  - cbn beta in Q. replace (q - (length A - 1) + (length A - 1)) with q in Q by lia. exact Q.
  - intros a l b He. apply edge_concat; [exact HA|]. right. exists a, b. auto.
Qed.
Lemma reach_select A B : wf A -> wf B -> reach A -> reach B -> reach (select A B).
Proof.
  intros HA HB RA RB q Hq. pose proof HA as [LA EA]. pose proof HB as [LB EB]. destruct (select_spec A B HA HB) as (LS & WS & ES). rewrite LS in Hq.
  assert (M : forall q w r, path (edge A) q w r -> path (edge (select A B)) q w r).
  { intros q0 w0 r0. apply path_mono. intros. apply ES. left. assumption. }
  destruct (Nat.lt_ge_cases q (length A)) as [L|L]; [destruct (RA q L) as [w P]; exists w; apply M; exact P|].
  destruct (Nat.eq_dec q (length A + length B - 1)) as [->|N].
  - destruct (RA (length A - 1) ltac:(lia)) as [w P]. exists (w ++ []). eapply path_app; [apply M; exact P|].
    eapply p_eps; [apply ES; repeat right; auto|constructor].
  - destruct (RB (q - (length A - 1)) ltac:(lia)) as [v Q]. exists v.
    apply (path_iso (edge B) (edge (select A B)) (fun x => if x =? 0 then 0 else x + (length A - 1))) in Q.
    + cbn [Nat.eqb] in Q. destruct (q - (length A - 1) =? 0) eqn:E; [apply Nat.eqb_eq in E; lia|].
      replace (q - (length A - 1) + (length A - 1)) with q in Q by lia. exact Q.
    + intros a l b He. apply ES. unfold selectE. assert (Hd1 : 1 <= b) by (apply EB in He; lia).
      destruct b as [|b]; [lia|]. cbn [Nat.eqb]. destruct a as [|a]; cbn [Nat.eqb].
      * right. right. left. exists (S b). auto.
      * right. right. right. left. exists (S a), (S b). split; [lia|auto].
Qed.
Lemma reach_quant q A : unitA A -> reach A -> reach (quantA q A).
Proof.
  intros HU HR. pose proof HU as (HW & HL & H0 & H1). destruct q as [|lg|lg|]; cbn [quantA].
  - exact HR.
  - intros q Hq. unfold add_to in Hq. rewrite upd_length in Hq. destruct (HR q Hq) as [w P]. exists w. eapply path_mono; [|exact P].
    intros. apply edge_add_to; [lia|auto].
  - assert (M : forall q w r, path (edge A) q w r -> path (edge (starA A lg)) q w r).
    { intros q0 w0 r0. apply path_mono. intros. apply star_edges; auto. }
    intros q Hq. rewrite starA_length in Hq. destruct (Nat.eq_dec q (length A)) as [->|N].
    + destruct (HR (length A - 1) ltac:(lia)) as [w P]. exists (w ++ []). eapply path_app; [apply M; exact P|].
      eapply p_eps; [apply star_edges; [exact HU|right; right; left; auto]|constructor].
    + destruct (HR q ltac:(lia)) as [w P]. exists w. apply M. exact P.
  - intros q Hq. unfold add_from in Hq. rewrite upd_length in Hq. destruct (HR q Hq) as [w P]. exists w. eapply path_mono; [|exact P].
    intros. apply edge_add_from; [lia|auto].
Qed.
Lemma atom_some a : atom_ok a -> exists ch, includes (atom_cc a) ch = true.
Proof.
  intros H. destruct (atom_cc_ok a H) as [_ K].
  assert (X : exists ch, atom_den a ch).
  { destruct a as [c| |l|l]; cbn [atom_ok atom_den] in *.
    - eauto.
    - exists 1%N. lia.
    - destruct H as (H1 & _ & H3). destruct l as [|i l]; [congruence|]. inversion H1; subst.
      exists (item_lo i), i. split; [left; reflexivity|]. destruct i; cbn in *; lia.
    - destruct H as (_ & _ & H). exact H. }
  destruct X as [ch X]. exists ch. apply K. exact X.
Qed.
Lemma reach_build :
  (forall u, unit_ok u -> reach (build_unit u)) /\ (forall s, sel_ok s -> reach (build_sel s)) /\ (forall p, pat_ok p -> reach (build_pat p)).
Proof.
  destruct build_spec as (BU & BS & BP).
  apply regex_ind; cbn [unit_ok sel_ok pat_ok build_unit build_sel build_pat].
  - intros a Ha. apply reach_add_state; [apply wf_base|apply atom_some; exact Ha|apply reach_base].
  - intros p IH Hp. apply reach_concat; [apply wf_base|apply BP; exact Hp|apply reach_base|auto].
  - intros u IH q Hu. apply reach_quant; [apply BU; exact Hu|auto].
  - intros s IHs u IHu q [Hs Hu]. destruct (BU u Hu) as (HU & HB & HT). destruct (quantA_spec q _ _ _ HU HB HT) as (W & _).
    apply reach_select; [apply BS; exact Hs|exact W|auto|apply reach_quant; auto].
  - intros _. apply reach_base.
  - intros p IHp s IHs [Hp Hs]. apply reach_concat; [apply BP; exact Hp|apply BS; exact Hs|auto|auto].
Qed.

(** The construction ends exactly for the patterns without empty loops. *)
Lemma build_terminates p : pat_ok p -> pat_nl p ->
  exists ef0, forall ef, ef0 <= ef -> exists f0 D, forall f, f0 <= f -> dfa_plain f ef (build_pat p) = Some D.
Proof.
  intros Hp Hn. apply dfa_plain_total; [apply build_spec; exact Hp|]. apply acyc_build; assumption.
Qed.
Lemma build_diverges p : pat_ok p -> ~ pat_nl p -> forall f ef, dfa_plain f ef (build_pat p) = None.
Proof.
  intros Hp Hn f ef. destruct (dfa_plain f ef (build_pat p)) as [D|] eqn:E; [|reflexivity]. exfalso. apply Hn. apply acyc_build; [exact Hp|].
  intros q. destruct (Nat.lt_ge_cases q (length (build_pat p))) as [L|L].
  - destruct (proj2 (proj2 reach_build) p Hp q L) as [w P]. exact (dfa_plain_acc _ _ _ _ E w q P).
  - apply acc_sink. intros d Hd. apply edge_lt in Hd. lia.
Qed.
