(** Networks of rule bodies: where a run can end, and what stands on the nodes. *)
From Coq Require Import List NArith Arith Bool Lia.
From Verif Require Import RegexSpec GrammarSpec NFA ATN ATNSem ATNBuild ATNOpt.
Import ListNotations.
Local Open Scope nat_scope.

(** Every node outside [T], except the last, has a transition forward. *)
Definition fwd (T : nat -> Prop) (M : atn) : Prop := forall i, i < length M - 1 -> T i \/ exists j, i < j /\ In j (dests M i).
Lemma fwd_mono (T T' : nat -> Prop) M : (forall i, T i -> T' i) -> fwd T M -> fwd T' M.
Proof. intros H F i Hi. destruct (F i Hi) as [K|K]; auto. Qed.
Lemma fwd_upd T M k d t : k < length M -> fwd T M -> fwd T (upd_nth M k (add_atr d t)).
Proof. intros H F i Hi. rewrite upd_len in Hi. destruct (F i Hi) as [K|(j & L & K)]; [auto|]. right. exists j. split; [exact L|]. rewrite upd_dests by exact H. apply in_or_app. auto. Qed.
Lemma fwd_add T M from tag : from < length M -> (length M - 1 = from \/ T (length M - 1)) -> fwd T M -> fwd T (add_node M from tag).
Proof.
  intros H TL F i Hi. rewrite add_node_len in Hi. destruct (Nat.eq_dec i (length M - 1)) as [->|N0].
  - destruct TL as [<-|TL]; [|auto]. right. exists (length M). split; [lia|]. rewrite add_node_dests by lia. rewrite Nat.eqb_refl. apply in_or_app. right. left. reflexivity.
  - destruct (F i ltac:(lia)) as [K|(j & L & K)]; [auto|]. right. exists j. split; [exact L|]. rewrite add_node_dests by exact H. apply in_or_app. auto.
Qed.
Lemma fwd_push T M n : 1 <= length M -> fwd T M -> fwd T (push_node M n).
Proof.
  intros H F i Hi. rewrite push_node_len in Hi. destruct (Nat.eq_dec i (length M - 1)) as [->|N0].
  - right. exists (length M). split; [lia|]. rewrite push_node_dests by lia. rewrite Nat.eqb_refl. apply in_or_app. right. left. reflexivity.
  - destruct (F i ltac:(lia)) as [K|(j & L & K)]; [auto|]. right. exists j. split; [exact L|]. rewrite push_node_dests by exact H. apply in_or_app. auto.
Qed.
Lemma fwd_quant T q M o a : o < length M -> fwd T M -> fwd T (quantM q M o a).
Proof.
  intros H B. destruct q; cbn [quantM]; [exact B|..].
  - assert (B1 := fwd_add T M (length M - 1) 0 ltac:(lia) (or_introl eq_refl) B). set (M1 := add_node M (length M - 1) 0) in *. assert (L1 : length M1 = S (length M)) by apply add_node_len.
    assert (B2 := fwd_upd T M1 (length M1 - 1) a 0 ltac:(lia) B1). set (M2 := upd_nth M1 _ _) in *. assert (L2 : length M2 = length M1) by apply upd_len.
    apply fwd_upd; [rewrite add_node_len; lia|]. apply fwd_add; [lia|left; reflexivity|exact B2].
  - apply fwd_upd; [rewrite add_node_len; lia|]. apply fwd_add; [lia|left; reflexivity|exact B].
  - apply fwd_upd; [rewrite add_node_len; lia|]. apply fwd_add; [lia|left; reflexivity|exact B].
Qed.
Lemma fwd_join T A terms : (forall t, In t terms -> t < length A) -> In (length A - 1) terms -> fwd (fun i => T i \/ In i terms) A -> fwd T (join A terms).
Proof.
  intros H TL F i Hi. destruct (join_facts A terms H) as (J1 & _ & _ & J4). rewrite J1 in Hi.
  destruct (Nat.eq_dec i (length A - 1)) as [->|N0].
  - right. exists (length A). split; [specialize (H _ TL); lia|]. apply J4. right. auto.
  - destruct (F i ltac:(lia)) as [[K|K]|(j & L & K)]; [auto| |].
    + right. exists (length A). split; [specialize (H _ K); lia|]. apply J4. right. auto.
    + right. exists j. split; [exact L|]. apply J4. auto.
Qed.
Lemma build_fwd ws :
  (forall a M T, 1 <= length M -> closed M -> fwd T M -> fwd T (batom ws a M)) /\
  (forall s M T, 1 <= length M -> closed M -> fwd T M -> fwd T (bseq ws s M)) /\
  (forall e M T, 1 <= length M -> closed M -> dests M (length M - 1) = [] -> fwd T M ->
     let r := balts ws e M (length M - 1) in fwd (fun i => T i \/ In i (snd r)) (fst (fst r)) /\ In (length (fst (fst r)) - 1) (snd r)).
Proof.
  apply g_ind.
  - intros x M T H C B. cbn [batom]. unfold push_term. destruct (term_nty x); try (apply fwd_push; assumption); destruct ws; try (apply fwd_push; assumption);
      (apply fwd_push; [rewrite push_node_len; lia|apply fwd_push; assumption]).
  - intros e IH M T H C B. cbn [batom]. rewrite add_node_last by exact H.
    assert (L : length (push_node M NBlank) = S (length M)) by apply push_node_len.
    assert (CB : closed (push_node M NBlank)) by (apply push_node_closed; assumption).
    assert (DB : dests (push_node M NBlank) (length (push_node M NBlank) - 1) = []).
    { rewrite L. replace (S (length M) - 1) with (length M) by lia. rewrite push_node_dests, dests_out by lia.
      destruct (length M =? length M - 1) eqn:E; [apply Nat.eqb_eq in E; lia|reflexivity]. }
    pose proof (proj2 (proj2 (build_exact ws)) e (push_node M NBlank) ltac:(lia) CB DB) as (_ & _ & HT & _).
    specialize (IH (push_node M NBlank) T ltac:(lia) CB DB (fwd_push _ _ _ H B)).
    destruct (balts ws e (push_node M NBlank) (length (push_node M NBlank) - 1)) as [[A prio] terms]. cbn [fst snd] in *. destruct IH as [IH1 IH2].
    apply fwd_join; [intros t Ht; specialize (HT t Ht); lia|exact IH2|exact IH1].
  - intros M T H C B. exact B.
  - intros a IHa q s IHs M T H C B. cbn [bseq].
    pose proof (proj1 (build_exact ws) a M H C) as A. pose proof (quant_adds q M _ _ H C A) as Q. destruct (adds_closed _ _ _ Q) as [Q1 Q2]. destruct A as (_ & _ & L & _).
    apply IHs; [exact Q2|exact Q1|]. apply fwd_quant; [lia|]. apply IHa; assumption.
  - intros s IH M T H C D B. cbn [balts fst snd]. split; [|left; reflexivity]. apply (fwd_mono T); [auto|]. apply IH; [rewrite add_node_len; lia|apply add_node_closed; [lia|exact C]|apply fwd_add; [lia|left; reflexivity|exact B]].
  - intros e IHe up s IHs M T H C D B. cbn [balts]. pose proof (proj2 (proj2 (build_exact ws)) e M H C D) as (CA & (LA & _) & _). specialize (IHe M T H C D B).
    destruct (balts ws e M (length M - 1)) as [[A prio] terms]. cbn [fst snd] in *. destruct IHe as [IHe IHl]. split; [|apply in_or_app; right; left; reflexivity].
    apply (fwd_mono (fun i => T i \/ In i terms)); [intros i [K|K]; [auto|right; apply in_or_app; auto]|].
    apply IHs; [rewrite add_node_len; lia|apply add_node_closed; [lia|exact CA]|apply fwd_add; [lia|right; right; exact IHl|exact IHe]].
Qed.
(** ** What stands on the nodes *)
Fixpoint gatom_terms (a : gatom) : list term := match a with GTerm x => [x] | GGroup e => gsel_terms e end
with gseq_terms (s : gseq) : list term := match s with GNil => [] | GCons a _ s => gatom_terms a ++ gseq_terms s end
with gsel_terms (e : gsel) : list term := match e with GFirst s => gseq_terms s | GAlt e _ s => gsel_terms e ++ gseq_terms s end.
Definition kinds (K : nty -> Prop) (M : atn) : Prop := forall n, In n M -> K (nt n).
Lemma kinds_upd K M i f : (forall n, nt (f n) = nt n) -> kinds K M -> kinds K (upd_nth M i f).
Proof.
  intros Hf. revert i. induction M as [|m M IH]; intros i HK; [destruct i; exact HK|]. destruct i as [|i]; cbn [upd_nth]; intros n [<-|Hn].
  - rewrite Hf. apply HK. left. reflexivity.
  - apply HK. right. exact Hn.
  - apply HK. left. reflexivity.
  - apply (IH i); [intros x Hx; apply HK; right; exact Hx|exact Hn].
Qed.
Lemma kinds_snoc K M n : kinds K M -> K (nt n) -> kinds K (M ++ [n]).
Proof. intros H Hn x Hx. apply in_app_or in Hx as [Hx|[<-|[]]]; auto. Qed.
Lemma kinds_add (K : nty -> Prop) M from tag : K NBlank -> kinds K M -> kinds K (add_node M from tag).
Proof. intros H0 H. apply kinds_snoc; [apply kinds_upd; [reflexivity|exact H]|exact H0]. Qed.
Lemma kinds_push (K : nty -> Prop) M n : K n -> kinds K M -> kinds K (push_node M n).
Proof. intros H0 H. apply kinds_snoc; [apply kinds_upd; [reflexivity|exact H]|exact H0]. Qed.
Lemma kinds_quant (K : nty -> Prop) q M o a : K NBlank -> kinds K M -> kinds K (quantM q M o a).
Proof. intros H0 H. destruct q; cbn [quantM]; [exact H|..]; repeat (first [apply kinds_upd; [reflexivity|]|apply kinds_add; [exact H0|]]); exact H. Qed.
Lemma kinds_join (K : nty -> Prop) A terms : K NBlank -> kinds K A -> kinds K (join A terms).
Proof.
  intros H0 H. unfold join. assert (G : forall ts M, kinds K M -> kinds K (fold_left (fun M from => upd_nth M from (add_atr (length M - 1) 0)) ts M)).
  { induction ts as [|t ts IH]; intros M HM; [exact HM|]. cbn [fold_left]. apply IH. apply kinds_upd; [reflexivity|exact HM]. }
  apply G. apply kinds_snoc; [exact H|exact H0].
Qed.
Lemma build_kinds (ws : bool) (K : nty -> Prop) : K NBlank -> (ws = true -> K NWs) ->
  (forall a M, (forall x, In x (gatom_terms a) -> K (term_nty x)) -> kinds K M -> kinds K (batom ws a M)) /\
  (forall s M, (forall x, In x (gseq_terms s) -> K (term_nty x)) -> kinds K M -> kinds K (bseq ws s M)) /\
  (forall e M o, (forall x, In x (gsel_terms e) -> K (term_nty x)) -> kinds K M -> kinds K (fst (fst (balts ws e M o)))).
Proof.
  intros KB KW. apply g_ind.
  - intros x M HX H. cbn [batom]. specialize (HX x (or_introl eq_refl)). unfold push_term.
    destruct (term_nty x); try (apply kinds_push; assumption); destruct ws; try (apply kinds_push; assumption); (apply kinds_push; [assumption|apply kinds_push; [auto|exact H]]).
  - intros e IH M HX H. cbn [batom]. specialize (IH (add_node M (length M - 1) 0) (length (add_node M (length M - 1) 0) - 1) HX (kinds_add _ _ _ _ KB H)).
    destruct (balts _ _ _ _) as [[A p] ts]. apply kinds_join; assumption.
  - intros M _ H. exact H.
  - intros a IHa q s IHs M HX H. cbn [bseq]. apply IHs; [intros x Hx; apply HX; cbn; apply in_or_app; auto|]. apply kinds_quant; [exact KB|]. apply IHa; [intros x Hx; apply HX; cbn; apply in_or_app; auto|exact H].
  - intros s IH M o HX H. cbn [balts fst]. apply IH; [exact HX|]. apply kinds_add; assumption.
  - intros e IHe up s IHs M o HX H. cbn [balts]. specialize (IHe M o ltac:(intros x Hx; apply HX; cbn; apply in_or_app; auto) H). destruct (balts ws e M o) as [[A p] ts]. cbn [fst] in *.
    apply IHs; [intros x Hx; apply HX; cbn; apply in_or_app; auto|]. apply kinds_add; assumption.
Qed.

(** ** Networks a parser can run *)
(** Transitions stay inside, the first node reads nothing, every node but the last goes on. *)
Record wf_net (M : atn) : Prop := { wn_ne : 1 <= length M; wn_closed : closed M; wn_first : nt (tonode M 0) = NBlank; wn_go : forall i, i < length M - 1 -> dests M i <> [] }.
Theorem body_wf ws e : wf_net (build_body ws e).
Proof.
  destruct body_base as (B1 & B2 & _). pose proof (proj1 (build_exact ws) (GGroup e) [blank] B1 B2) as A. destruct (atomic_closed _ _ _ A) as (A1 & A2 & A3). destruct A as (_ & (_ & S2 & _) & _).
  fold (bsel ws e [blank]) in *. fold (build_body ws e) in *.
  split; [exact A3|exact A1| |].
  - specialize (S2 0 ltac:(cbn; lia)). change (rd [blank] 0) with (@nil nty) in S2. unfold rd in S2. destruct (nt (tonode (build_body ws e) 0)); [reflexivity|discriminate..].
  - intros i Hi. pose proof (proj1 (build_fwd ws) (GGroup e) [blank] (fun _ => False) B1 B2 ltac:(intros j Hj; cbn in Hj; lia) i Hi) as [[]|(j & _ & K)]. intros E. fold (bsel ws e [blank]) in K. fold (build_body ws e) in K. rewrite E in K. destruct K.
Qed.
Theorem body_kinds (ws : bool) e (K : nty -> Prop) : K NBlank -> (ws = true -> K NWs) -> (forall x, In x (gsel_terms e) -> K (term_nty x)) -> kinds K (build_body ws e).
Proof. intros H0 H1 H2. apply (proj1 (build_kinds ws K H0 H1) (GGroup e)); [exact H2|]. intros n [<-|[]]. exact H0. Qed.
(** Every node reaches the last one. *)
Lemma body_reach ws e : forall i, i < length (build_body ws e) -> exists w, apath (build_body ws e) i w (length (build_body ws e) - 1).
Proof.
  destruct body_base as (B1 & B2 & _). pose proof (proj1 (build_fwd ws) (GGroup e) [blank] (fun _ => False) B1 B2 ltac:(intros j Hj; cbn in Hj; lia)) as F. fold (bsel ws e [blank]) in F. fold (build_body ws e) in F.
  destruct (body_wf ws e) as [_ CL _ _]. set (M := build_body ws e) in *.
  assert (G : forall n i, length M - i <= n -> i < length M -> exists w, apath M i w (length M - 1)).
  { induction n as [|n IH]; intros i Hn Hi; [lia|]. destruct (Nat.eq_dec i (length M - 1)) as [->|N0]; [exists []; constructor|].
    destruct (F i ltac:(lia)) as [[]|(j & L & K)]. pose proof (CL _ _ K). destruct (IH j ltac:(lia) ltac:(lia)) as [w P]. exists (rd M j ++ w). econstructor; eauto. }
  intros i Hi. exact (G (length M) i ltac:(lia) Hi).
Qed.
(** ... also after removing pass-through nodes. *)
Notation gp := (gpath nty (fun _ => []) reads).
Definition reach (M : atn) (mask : list bool) (n : nat) : Prop := length M = n /\ length mask = n /\ maskf mask (n - 1) = true /\ forall p, maskf mask p = true -> exists w, gp M (maskf mask) p w (n - 1).
Lemma reach_step M mask n i M' mask' : reach M mask n -> i < n - 1 -> maskf mask i = true -> drop_step (Some (M, mask)) i = Some (M', mask') ->
  reach M' mask' n /\ (forall p, p <> i -> maskf mask' p = maskf mask p).
Proof.
  intros (HL & HK & HM & HR) Hi Mi. cbn [drop_step]. fold (tonode M i).
  destruct (nt (tonode M i)) eqn:En; try (intros E; injection E as <- <-; split; [repeat split; assumption|reflexivity]).
  destruct (incoming M i) as [|o [|o' rest]] eqn:Ei; try (intros E; injection E as <- <-; split; [repeat split; assumption|reflexivity]).
  destruct (o =? i) eqn:Eo; [discriminate|]. apply Nat.eqb_neq in Eo. intros E. injection E as <- <-.
  assert (IN : forall p tag, In (i, tag) (atrs (tonode M p)) -> p = o) by (intros p tag H; assert (In p (incoming M i)) as Q by (apply in_incoming; eauto); rewrite Ei in Q; destruct Q as [Q|[]]; auto).
  pose proof (incoming_lt _ _ _ Ei) as Ho. set (f := fun n => mkA (nt n) (atrs n ++ atrs (tonode M i))).
  assert (HN : forall p, tonode (upd_nth M o f) p = if p =? o then f (tonode M p) else tonode M p) by (intros p; apply to_upd; right; exact Ho).
  assert (MK : forall p, maskf (upd_nth mask i (fun _ => false)) p = if p =? i then false else maskf mask p) by (intros p; unfold maskf; rewrite upd_nth_nth by lia; destruct (p =? i); reflexivity).
  split; [|intros p Hp; rewrite MK; destruct (p =? i) eqn:Q; [apply Nat.eqb_eq in Q; congruence|reflexivity]].
  split; [rewrite upd_len; exact HL|]. split; [rewrite upd_len; exact HK|]. split; [rewrite MK; destruct (n - 1 =? i) eqn:Q; [apply Nat.eqb_eq in Q; lia|exact HM]|].
  intros p Hp. rewrite MK in Hp. destruct (p =? i) eqn:Q; [discriminate|]. apply Nat.eqb_neq in Q. destruct (HR p Hp) as [w P]. exists w.
  apply (drop_fwd nty (fun _ => []) reads eq_refl M (upd_nth M o f) (maskf mask) (maskf (upd_nth mask i (fun _ => false))) i o) in P; [apply P; exact Q|..].
  - intros x. rewrite HN. destruct (x =? o); cbn [f atrs]; [reflexivity|rewrite app_nil_r; reflexivity].
  - intros x. rewrite HN. destruct (x =? o); reflexivity.
  - exact MK.
  - exact En.
  - intros x tag H0. split; [eauto|reflexivity].
  - exact Eo.
  - lia.
Qed.
Lemma reach_loop n k : forall i M mask M' mask', reach M mask n -> i + k <= n - 1 -> (forall p, i <= p < n -> maskf mask p = true) ->
  fold_left drop_step (seq i k) (Some (M, mask)) = Some (M', mask') -> reach M' mask' n.
Proof.
  induction k as [|k IH]; intros i M mask M' mask' HR Hl HK H; [cbn in H; injection H as <- <-; exact HR|].
  change (fold_left drop_step (seq i (S k)) (Some (M, mask))) with (fold_left drop_step (seq (S i) k) (drop_step (Some (M, mask)) i)) in H.
  destruct (drop_step (Some (M, mask)) i) as [[M1 mask1]|] eqn:E; [|rewrite drop_none in H; discriminate].
  assert (I1 : i < n - 1) by lia. assert (I2 : i <= i < n) by lia. destruct (reach_step _ _ _ _ _ _ HR I1 (HK i I2) E) as [R1 R2]. apply (IH (S i) M1 mask1 M' mask' R1); [lia| |exact H]. intros p Hp. rewrite R2 by lia. apply HK. lia.
Qed.

Lemma maskf_repeat n p : maskf (repeat true n) p = (p <? n).
Proof.
  unfold maskf. destruct (p <? n) eqn:Ep; [apply Nat.ltb_lt in Ep|apply Nat.ltb_ge in Ep; apply nth_overflow; rewrite repeat_length; exact Ep].
  revert p Ep. induction n as [|n IHn]; intros p Ep; [lia|]. destruct p as [|p]; [reflexivity|]. cbn. apply IHn. lia.
Qed.
Lemma gp_ext m1 m2 M p w q : (forall x, m1 x = m2 x) -> gp M m1 p w q -> gp M m2 p w q.
Proof. intros H K. induction K; [constructor|]. eapply (gp_step nty (fun _ => []) reads); [eassumption|rewrite <- H; assumption|assumption]. Qed.
Theorem drop_wf M M' : wf_net M -> (forall i, i < length M -> exists w, apath M i w (length M - 1)) -> drop_passthrough M = Some M' -> wf_net M'.
Proof.
  intros [H1 HC H0 HG] HR HD. pose proof (drop_closed _ _ HD) as HC'. pose proof (drop_nonempty _ _ H1 HD) as H1'. split; [exact H1'|exact HC'|..].
  - pose proof HD as HD0. unfold drop_passthrough in HD. destruct (fold_left _ _ _) as [[M1 mask]|] eqn:E; [|discriminate]. injection HD as <-.
    assert (L := drop_len_loop _ _ _ _ _ E). rewrite repeat_length in L. destruct L as [L1 L2].
    assert (G : forall l M mask M' mask', Forall (fun i => 1 <= i) l -> fold_left drop_step l (Some (M, mask)) = Some (M', mask') -> maskf mask 0 = true -> 1 <= length mask -> maskf mask' 0 = true /\ nt (tonode M' 0) = nt (tonode M 0)).
    { clear. induction l as [|i l IH]; intros M mask M' mask' Hl H K HL; [injection H as <- <-; auto|]. inversion Hl; subst.
      change (fold_left drop_step (i :: l) (Some (M, mask))) with (fold_left drop_step l (drop_step (Some (M, mask)) i)) in H.
      destruct (drop_step (Some (M, mask)) i) as [[M1 mask1]|] eqn:E; [|rewrite drop_none in H; discriminate].
      pose proof (drop_len_step _ _ _ _ _ _ eq_refl E) as [_ L].
      assert (Q : maskf mask1 0 = true /\ nt (tonode M1 0) = nt (tonode M 0)).
      { revert E. cbn [drop_step]. destruct (nt _); try (intros E; injection E as <- <-; auto).
        destruct (incoming M i) as [|o [|? ?]] eqn:Ei; try (intros E; injection E as <- <-; auto). destruct (o =? i); [discriminate|]. intros E. injection E as <- <-.
        split; [unfold maskf in *; destruct mask as [|b mask]; [cbn in HL; lia|]; destruct i as [|i]; [lia|]; exact K|].
        rewrite to_upd by (right; apply (incoming_lt _ _ _ Ei)). destruct (0 =? o); reflexivity. }
      destruct Q as [Q1 Q2]. rewrite <- Q2. eapply IH; [eassumption|exact H|exact Q1|lia]. }
    assert (FA : Forall (fun i => 1 <= i) (seq 1 (length M - 2))) by (apply Forall_forall; intros x Hx; apply in_seq in Hx; lia).
    destruct (G _ _ _ _ _ FA E) as [K1 K2]; [rewrite maskf_repeat; apply Nat.ltb_lt; lia|rewrite repeat_length; exact H1|].
    rewrite filter_eq. destruct (filter_prefix M1 mask (length M1) ltac:(lia)) as [_ F2]. cbv zeta in F2. specialize (F2 0 ltac:(lia) K1).
    replace (new_index mask 0) with 0 in F2 by (destruct mask; reflexivity). unfold tonode. rewrite F2. cbn [fnode nt]. fold (tonode M1 0). congruence.
  - intros i Hi ED. unfold drop_passthrough in HD. destruct (fold_left _ _ _) as [[M1 mask]|] eqn:E; [|discriminate]. injection HD as <-.
    assert (L := drop_len_loop _ _ _ _ _ E). rewrite repeat_length in L. destruct L as [L1 L2].
    assert (R0 : reach M (repeat true (length M)) (length M)).
    { split; [reflexivity|]. split; [apply repeat_length|]. split; [rewrite maskf_repeat; apply Nat.ltb_lt; lia|]. intros p Hp. rewrite maskf_repeat in Hp. apply Nat.ltb_lt in Hp. destruct (HR p Hp) as [w P]. exists w.
      apply (gp_ext (fun x => x <? length M)); [intros x; rewrite maskf_repeat; reflexivity|]. apply gpath_apath; assumption. }
    assert (RF : reach M1 mask (length M)).
    { destruct (Nat.le_gt_cases 2 (length M)) as [L|L].
      - refine (reach_loop (length M) (length M - 2) 1 M _ M1 mask R0 _ _ E); [lia|]. intros p Hp. rewrite maskf_repeat. apply Nat.ltb_lt. lia.
      - replace (length M - 2) with 0 in E by lia. cbn in E. injection E as <- <-. exact R0. }
    destruct RF as (_ & _ & ML & RF). rewrite filter_eq in Hi, ED. destruct (filter_prefix M1 mask (length M1) ltac:(lia)) as [F1 F2]. cbv zeta in F1, F2.
    set (F := flat_map _ _) in *.
    assert (EX : exists p, maskf mask p = true /\ p < length M1 /\ i = new_index mask p).
    { assert (S : forall n, n <= length mask -> forall j, j < new_index mask n -> exists p, maskf mask p = true /\ p < n /\ j = new_index mask p).
      { clear. induction n as [|n IH]; intros Hn j Hj; [destruct mask; cbn in Hj; lia|]. rewrite new_index_S in Hj by lia. destruct (maskf mask n) eqn:Q.
        - destruct (Nat.eq_dec j (new_index mask n)) as [->|N0]; [exists n; auto|]. destruct (IH ltac:(lia) j ltac:(lia)) as (p & ? & ? & ?). exists p. auto.
        - destruct (IH ltac:(lia) j ltac:(lia)) as (p & ? & ? & ?). exists p. auto. }
      apply (S (length M1)); [lia|]. lia. }
    destruct EX as (p & Mp & Lp & ->). destruct (RF p Mp) as [w P].
    assert (NL : p <> length M - 1).
    { intros ->. assert (length F = S (new_index mask (length M - 1))); [|lia]. rewrite F1. replace (length M1) with (S (length M - 1)) by lia. rewrite new_index_S by lia. rewrite ML. lia. }
    inversion P as [|p0 d tag v r Hd Hm Hr]; subst; [congruence|].
    unfold dests in ED. unfold tonode in ED. rewrite F2 in ED by assumption. cbn [fnode atrs] in ED.
    apply map_eq_nil, map_eq_nil in ED. assert (K : In (d, tag) (filter (fun t => maskf mask (fst t)) (atrs (tonode M1 p)))) by (apply filter_In; auto).
    rewrite ED in K. destruct K.
Qed.
Theorem body_drop_wf ws e M' : drop_passthrough (build_body ws e) = Some M' -> wf_net M'.
Proof. intros H. eapply drop_wf; [apply body_wf|apply body_reach|exact H]. Qed.
(** Removal of nodes keeps the symbols. *)
Lemma drop_kinds K M M' : kinds K M -> drop_passthrough M = Some M' -> kinds K M'.
Proof.
  intros HK. unfold drop_passthrough. destruct (fold_left _ _ _) as [[M1 mask]|] eqn:E; [|discriminate]. intros Q. injection Q as <-.
  assert (H1 : kinds K M1).
  { revert HK E. generalize (repeat true (length M)). generalize (seq 1 (length M - 2)). intros l. revert M. induction l as [|i l IH]; intros M mk HK E; [cbn in E; injection E as <- <-; exact HK|].
    change (fold_left drop_step (i :: l) (Some (M, mk))) with (fold_left drop_step l (drop_step (Some (M, mk)) i)) in E.
    destruct (drop_step (Some (M, mk)) i) as [[M2 mk2]|] eqn:E2; [|rewrite drop_none in E; discriminate]. apply (IH M2 mk2); [|exact E].
    revert E2. cbn [drop_step]. destruct (nt _); try (intros Q; injection Q as <- <-; exact HK). destruct (incoming M i) as [|o [|? ?]]; try (intros Q; injection Q as <- <-; exact HK).
    destruct (o =? i); [discriminate|]. intros Q. injection Q as <- <-. apply kinds_upd; [reflexivity|exact HK]. }
  intros n Hn. unfold filter_atn in Hn. apply in_flat_map in Hn as (i & Hi & Hn). destruct (nth i mask false); [|destruct Hn]. destruct Hn as [<-|[]]. cbn [nt]. apply H1. apply nth_In. apply in_seq in Hi. lia.
Qed.
