(** Cycles in the networks of rule bodies: each one reads something, if nothing under a star or a
    plus can be read without reading. *)
From Coq Require Import List NArith Arith Bool Lia Relations.
From Verif Require Import RegexSpec GrammarSpec NFA ATN ATNSem ATNBuild ATNOpt ATNLive.
Import ListNotations.
Local Open Scope nat_scope.

Section Loop.
Variable E : nty -> Prop.      (* symbols that may match nothing *)
(** No cycle consists of nodes that may all match nothing. *)
Definition loopfree (M : atn) : Prop := forall i d w, In d (dests M i) -> apath M d w i -> Forall E (rd M d ++ w) -> False.

Lemma dead_node M M' : closed M -> length M' = S (length M) -> dests M' (length M) = [] ->
  (forall j, j < length M -> rd M' j = rd M j /\ forall d, In d (dests M' j) -> In d (dests M j) \/ d = length M) -> loopfree M -> loopfree M'.
Proof.
  intros C L D H LF i d w Hd P HE. 
  assert (BACK : forall p w q, apath M' p w q -> p < length M -> q < length M -> apath M p w q).
  { intros p v q K. induction K as [p|p x v q Hx K IH]; intros Hp Hq; [constructor|]. destruct (H p Hp) as [_ HD]. destruct (HD x Hx) as [HD'|HD'].
    - pose proof (C _ _ HD') as Lx. rewrite (proj1 (H x Lx)). econstructor; [exact HD'|auto].
    - subst x. destruct (path_dead _ _ _ _ D K) as [_ E2]. lia. }
  assert (Hi : i < length M). { destruct (Nat.lt_ge_cases i (length M)) as [K|K]; [exact K|]. destruct (Nat.eq_dec i (length M)) as [->|N0]; [rewrite D in Hd; destruct Hd|]. rewrite dests_out in Hd by lia. destruct Hd. }
  destruct (H i Hi) as [_ HD]. destruct (HD d Hd) as [HD'|HD'].
  - pose proof (C _ _ HD') as Ld. rewrite (proj1 (H d Ld)) in HE. exact (LF i d w HD' (BACK _ _ _ P Ld Hi) HE).
  - subst d. destruct (path_dead _ _ _ _ D P) as [_ E2]. lia.
Qed.
Lemma push_loop M n : 1 <= length M -> closed M -> loopfree M -> loopfree (push_node M n).
Proof.
  intros H C LF. apply (dead_node M); [exact C|apply push_node_len| | |exact LF].
  - rewrite push_node_dests, dests_out by lia. destruct (length M =? length M - 1) eqn:Q; [apply Nat.eqb_eq in Q; lia|reflexivity].
  - intros j Hj. split; [rewrite push_node_rd by exact H; destruct (j =? length M) eqn:Q; [apply Nat.eqb_eq in Q; lia|reflexivity]|].
    intros d Hd. rewrite push_node_dests in Hd by exact H. apply in_app_or in Hd as [Hd|Hd]; [auto|]. destruct (j =? length M - 1); [destruct Hd as [<-|[]]; auto|destruct Hd].
Qed.
Lemma add_loop M from tag : from < length M -> closed M -> loopfree M -> loopfree (add_node M from tag).
Proof.
  intros H C LF. apply (dead_node M); [exact C|apply add_node_len| | |exact LF].
  - rewrite add_node_dests, dests_out by lia. destruct (length M =? from) eqn:Q; [apply Nat.eqb_eq in Q; lia|reflexivity].
  - intros j Hj. split; [apply add_node_rd|].
    intros d Hd. rewrite add_node_dests in Hd by exact H. apply in_app_or in Hd as [Hd|Hd]; [auto|]. destruct (j =? from); [destruct Hd as [<-|[]]; auto|destruct Hd].
Qed.
Lemma join_loop A terms : (forall t, In t terms -> t < length A) -> closed A -> loopfree A -> loopfree (join A terms).
Proof.
  intros H C LF. destruct (join_facts A terms H) as (J1 & J2 & J3 & J4). apply (dead_node A); [exact C|exact J1| | |exact LF].
  - rewrite J3; [apply dests_out; lia|]. intros K. specialize (H _ K). lia.
  - intros j Hj. split; [apply J2|]. intros d Hd. apply J4 in Hd. tauto.
Qed.
(** A plus closes the cycle from its last node to its first one. *)
Lemma plus_loop M M1 F o : 1 <= length M -> closed M -> atomic M M1 F -> (forall w, F w -> Forall E w -> False) -> loopfree M1 -> loopfree (quantM GPlus M1 o (length M)).
Proof.
  intros H C (C1 & S1 & L1 & D1 & H1) HF LF. cbn [quantM].
  set (M2 := upd_nth _ _ _). assert (HD : forall j, dests M2 j = dests M1 j ++ (if j =? length M1 - 1 then [length M1] else []) ++ (if j =? length M1 then [length M] else [])) by (intros j; apply plus_dests; lia).
  assert (HR : forall j, rd M2 j = rd M1 j) by (intros j; apply plus_rd; lia).
  assert (DX : dests M2 (length M1) = [length M]) by (rewrite HD, dests_out, Nat.eqb_refl by lia; destruct (length M1 =? length M1 - 1) eqn:Q; [apply Nat.eqb_eq in Q; lia|reflexivity]).
  assert (DO : forall j d, j < length M1 -> In d (dests M2 j) -> In d (dests M1 j) \/ (j = length M1 - 1 /\ d = length M1)).
  { intros j d Hj Hd. rewrite HD in Hd. apply in_app_or in Hd as [Hd|Hd]; [auto|]. apply in_app_or in Hd as [Hd|Hd].
    - destruct (j =? length M1 - 1) eqn:Q; [|destruct Hd]. apply Nat.eqb_eq in Q. destruct Hd as [<-|[]]. auto.
    - destruct (j =? length M1) eqn:Q; [apply Nat.eqb_eq in Q; lia|destruct Hd]. }
  set (X := length M1) in *.
  (* a path either avoids X or comes to it *)
  assert (SPLIT : forall p w q, apath M2 p w q -> p < X -> (q < X /\ apath M1 p w q) \/ exists u v, w = u ++ v /\ apath M1 p u (X - 1) /\ apath M2 X v q).
  { intros p w q K. induction K as [p|p d w q Hd K IH]; intros Hp; [left; split; [exact Hp|constructor]|]. destruct (DO p d Hp Hd) as [Q|[-> ->]].
    - pose proof (C1 _ _ Q) as Ld. fold X in Ld. rewrite HR. destruct (IH Ld) as [[A B]|(u & v & -> & A & B)]; [left; split; [exact A|econstructor; eassumption]|].
      right. exists (rd M1 d ++ u), v. split; [apply app_assoc|]. split; [econstructor; eassumption|exact B].
    - right. exists [], w. rewrite HR, rd_out by (unfold X; lia). split; [reflexivity|]. split; [constructor|exact K]. }
  assert (NOX : forall w, apath M2 (length M) w X -> Forall E (rd M2 (length M) ++ w) -> False).
  { intros w K HE. destruct (SPLIT _ _ _ K) as [[A _]|(u & v & -> & A & _)]; [unfold X; lia|lia|]. apply (HF (rd M1 (length M) ++ u)).
    - apply H1. exists u. split; [reflexivity|exact A].
    - rewrite HR in HE. rewrite app_assoc in HE. apply Forall_app in HE. apply HE. }
  assert (NOXX : forall d w, In d (dests M2 X) -> apath M2 d w X -> Forall E (rd M2 d ++ w) -> False).
  { intros d w Hd K HE. rewrite DX in Hd. destruct Hd as [<-|[]]. exact (NOX w K HE). }
  intros i d w Hd P HE.
  destruct (Nat.lt_ge_cases i X) as [Hi|Hi].
  - destruct (DO i d Hi Hd) as [Q|[-> ->]].
    + pose proof (C1 _ _ Q) as Ld. fold X in Ld. destruct (SPLIT _ _ _ P Ld) as [[A B]|(u & v & -> & A & B)]; [rewrite HR in HE; exact (LF i d w Q B HE)|].
      (* rotate the cycle: from X to X *)
      inversion B as [|p x v' q Hx B']; subst; [lia|]. rewrite !Forall_app in HE. destruct HE as (E1 & E2 & E3 & E4). apply (NOXX x (v' ++ rd M2 d ++ u)).
      * exact Hx.
      * eapply path_app; [exact B'|]. econstructor; [exact Hd|].
        assert (UP : forall p u q, apath M1 p u q -> apath M2 p u q). { intros p0 u0 q0 K. induction K as [p0|p0 d0 w0 q0 Hd0 K IH]; [constructor|]. rewrite <- HR. econstructor; [rewrite HD; apply in_or_app; auto|exact IH]. }
        replace u with (u ++ rd M2 X) by (rewrite HR, rd_out by (unfold X; lia); apply app_nil_r).
        eapply path_app; [apply UP; exact A|]. replace (rd M2 X) with (rd M2 X ++ []) by apply app_nil_r. apply ap_step; [rewrite HD, Nat.eqb_refl; apply in_or_app; right; left; reflexivity|constructor].
      * rewrite !Forall_app. auto.
    + inversion P as [|p x v' q Hx P']; subst; [lia|]. rewrite !Forall_app in HE. destruct HE as (E1 & E2 & E3). apply (NOXX x (v' ++ rd M2 X)); [exact Hx| |rewrite !Forall_app; auto].
      eapply path_app; [exact P'|]. replace (rd M2 X) with (rd M2 X ++ []) by apply app_nil_r. apply ap_step; [exact Hd|constructor].
  - destruct (Nat.eq_dec i X) as [->|N0]; [exact (NOXX d w Hd P HE)|]. rewrite dests_out in Hd; [destruct Hd|]. unfold M2. rewrite upd_len, add_node_len. fold X. lia.
Qed.
Lemma opt_loop M1 o a : o < length M1 -> closed M1 -> loopfree M1 -> loopfree (quantM GOpt M1 o a).
Proof.
  intros H C LF. cbn [quantM]. set (M2 := upd_nth _ _ _).
  assert (HD : forall j d, In d (dests M2 j) -> In d (dests M1 j) \/ (j < length M1 /\ d = length M1)).
  { intros j d Hd. unfold M2 in Hd. rewrite upd_dests in Hd by (rewrite add_node_len; lia). rewrite add_node_dests, add_node_len in Hd by lia. rewrite !in_app_iff in Hd.
    destruct Hd as [[Hd|Hd]|Hd]; [auto| |].
    - destruct (j =? length M1 - 1) eqn:Q; [|destruct Hd]. apply Nat.eqb_eq in Q. destruct Hd as [<-|[]]. right. split; lia.
    - destruct (j =? o) eqn:Q; [|destruct Hd]. apply Nat.eqb_eq in Q. destruct Hd as [<-|[]]. right. split; lia. }
  apply (dead_node M1); [exact C|unfold M2; rewrite upd_len; apply add_node_len| | |exact LF].
  - destruct (dests M2 (length M1)) as [|d l] eqn:Q; [reflexivity|]. destruct (HD (length M1) d) as [K|[K _]]; [rewrite Q; left; reflexivity| |lia]. rewrite dests_out in K by lia. destruct K.
  - intros j Hj. split; [unfold M2; rewrite upd_rd by (rewrite add_node_len; lia); apply add_node_rd|]. intros d Hd. apply HD in Hd. tauto.
Qed.
(** Nothing under a star or a plus can be read without reading. *)
Section Reps.
Variable ws : bool.
Definition aempty (a : gatom) : Prop := exists w, gatomL nty (term_word ws) a w /\ Forall E w.
Fixpoint ratom (a : gatom) : Prop := match a with GTerm _ => True | GGroup e => rsel e end
with rseq (s : gseq) : Prop := match s with GNil => True | GCons a q s => ratom a /\ (q = GStar \/ q = GPlus -> ~ aempty a) /\ rseq s end
with rsel (e : gsel) : Prop := match e with GFirst s => rseq s | GAlt e _ s => rsel e /\ rseq s end.
Lemma quant_loop q M a M1 : 1 <= length M -> closed M -> atomic M M1 (gatomL nty (term_word ws) a) -> (q = GStar \/ q = GPlus -> ~ aempty a) -> loopfree M1 -> loopfree (quantM q M1 (length M - 1) (length M)).
Proof.
  intros H C A HN LF.
  assert (PL : q = GStar \/ q = GPlus -> loopfree (quantM GPlus M1 (length M - 1) (length M))).
  { intros Q. apply (plus_loop M M1 _ _ H C A); [|exact LF]. intros w K1 K2. apply (HN Q). exists w. auto. }
  pose proof (atomic_closed _ _ _ A) as (A1 & A2 & A3). destruct q.
  - exact LF.
  - change (quantM GStar M1 (length M - 1) (length M)) with (quantM GOpt (quantM GPlus M1 (length M - 1) (length M)) (length M - 1) (length M)).
    pose proof (plus_atomic M M1 _ (length M - 1) H C A) as A'. destruct (atomic_closed _ _ _ A') as (B1 & B2 & B3). apply opt_loop; [lia|exact B1|auto].
  - auto.
  - apply opt_loop; [lia|exact A1|exact LF].
Qed.
Theorem build_loop :
  (forall a M, 1 <= length M -> closed M -> ratom a -> loopfree M -> loopfree (batom ws a M)) /\
  (forall s M, 1 <= length M -> closed M -> rseq s -> loopfree M -> loopfree (bseq ws s M)) /\
  (forall e M, 1 <= length M -> closed M -> dests M (length M - 1) = [] -> rsel e -> loopfree M -> loopfree (fst (fst (balts ws e M (length M - 1))))).
Proof.
  apply g_ind.
  - intros x M H C _ B. cbn [batom]. unfold push_term. destruct (term_nty x); try (apply push_loop; assumption); destruct ws; try (apply push_loop; assumption);
      (apply push_loop; [rewrite push_node_len; lia|apply push_node_closed; assumption|apply push_loop; assumption]).
  - intros e IH M H C R B. cbn [batom]. rewrite add_node_last by exact H.
    assert (L : length (push_node M NBlank) = S (length M)) by apply push_node_len.
    assert (CB : closed (push_node M NBlank)) by (apply push_node_closed; assumption).
    assert (DB : dests (push_node M NBlank) (length (push_node M NBlank) - 1) = []).
    { rewrite L. replace (S (length M) - 1) with (length M) by lia. rewrite push_node_dests, dests_out by lia.
      destruct (length M =? length M - 1) eqn:Q; [apply Nat.eqb_eq in Q; lia|reflexivity]. }
    pose proof (proj2 (proj2 (build_exact ws)) e (push_node M NBlank) ltac:(lia) CB DB) as (CA & _ & HT & _).
    specialize (IH (push_node M NBlank) ltac:(lia) CB DB R (push_loop _ _ H C B)).
    destruct (balts ws e (push_node M NBlank) (length (push_node M NBlank) - 1)) as [[A prio] terms]. cbn [fst snd] in *.
    apply join_loop; [intros t Ht; specialize (HT t Ht); lia|exact CA|exact IH].
  - intros M H C _ B. exact B.
  - intros a IHa q s IHs M H C (R1 & R2 & R3) B. cbn [bseq].
    pose proof (proj1 (build_exact ws) a M H C) as A. pose proof (quant_adds q M _ _ H C A) as Q. destruct (adds_closed _ _ _ Q) as [Q1 Q2].
    apply IHs; [exact Q2|exact Q1|exact R3|]. eapply quant_loop; [exact H|exact C|exact A|exact R2|]. apply IHa; assumption.
  - intros s IH M H C D R B. cbn [balts fst snd]. apply IH; [rewrite add_node_len; lia|apply add_node_closed; [lia|exact C]|exact R|apply add_loop; [lia|exact C|exact B]].
  - intros e IHe up s IHs M H C D [R1 R2] B. cbn [balts]. pose proof (proj2 (proj2 (build_exact ws)) e M H C D) as (CA & (LA & _) & _). specialize (IHe M H C D R1 B).
    destruct (balts ws e M (length M - 1)) as [[A prio] terms]. cbn [fst snd] in *.
    apply IHs; [rewrite add_node_len; lia|apply add_node_closed; [lia|exact CA]|exact R2|apply add_loop; [lia|exact CA|exact IHe]].
Qed.
Theorem body_loop e : rsel e -> loopfree (build_body ws e).
Proof.
  intros H. apply (proj1 build_loop (GGroup e)); [cbn; lia|intros [|[|i]] d []|exact H|]. intros [|[|i]] d w [].
Qed.
End Reps.

(** ** Removing pass-through nodes *)
Notation gp := (gpath nty (fun _ => []) reads).
Definition gfree (M : atn) (mask : nat -> bool) : Prop := forall p d tag w, In (d, tag) (edges M p) -> mask d = true -> gp M mask d w p -> Forall E (reads (nt (tonode M d)) ++ w) -> False.
Lemma gfree_step M mask i M' mask' : i < length M -> length mask = length M -> maskf mask i = true -> drop_step (Some (M, mask)) i = Some (M', mask') -> gfree M (maskf mask) -> gfree M' (maskf mask').
Proof.
  intros Hi HK Mi. cbn [drop_step]. fold (tonode M i).
  destruct (nt (tonode M i)) eqn:En; try (intros Q; injection Q as <- <-; auto).
  destruct (incoming M i) as [|o [|o' rest]] eqn:Ei; try (intros Q; injection Q as <- <-; auto).
  destruct (o =? i) eqn:Eo; [discriminate|]. apply Nat.eqb_neq in Eo. intros Q. injection Q as <- <-. intros GF.
  assert (IN : forall p tag, In (i, tag) (atrs (tonode M p)) -> p = o) by (intros p tag H; assert (In p (incoming M i)) as K by (apply in_incoming; eauto); rewrite Ei in K; destruct K as [K|[]]; auto).
  assert (EX : exists tag, In (i, tag) (edges M o)) by (apply in_incoming; rewrite Ei; left; reflexivity).
  pose proof (incoming_lt _ _ _ Ei) as Ho. set (f := fun n => mkA (nt n) (atrs n ++ atrs (tonode M i))).
  assert (HN : forall p, tonode (upd_nth M o f) p = if p =? o then f (tonode M p) else tonode M p) by (intros p; apply to_upd; right; exact Ho).
  assert (MK : forall p, maskf (upd_nth mask i (fun _ => false)) p = if p =? i then false else maskf mask p) by (intros p; unfold maskf; rewrite upd_nth_nth by lia; destruct (p =? i); reflexivity).
  assert (HM : forall p, edges (upd_nth M o f) p = edges M p ++ (if p =? o then edges M i else [])) by (intros p; rewrite HN; destruct (p =? o); cbn [f atrs]; [reflexivity|rewrite app_nil_r; reflexivity]).
  assert (HT : forall p, nt (tonode (upd_nth M o f) p) = nt (tonode M p)) by (intros p; rewrite HN; destruct (p =? o); reflexivity).
  assert (BW : forall p w q, gp (upd_nth M o f) (maskf (upd_nth mask i (fun _ => false))) p w q -> gp M (maskf mask) p w q).
  { intros p w q K. apply (drop_bwd nty (fun _ => []) reads eq_refl M (upd_nth M o f) (maskf mask) (maskf (upd_nth mask i (fun _ => false))) i o); try assumption. intros x tag H0. split; [eauto|reflexivity]. }
  intros p d tag w Hd Hm P HE. rewrite MK in Hm. destruct (d =? i) eqn:Q; [discriminate|]. rewrite HM in Hd. apply in_app_or in Hd as [Hd|Hd].
  - apply (GF p d tag w Hd Hm (BW _ _ _ P)). rewrite HT in HE. exact HE.
  - destruct (p =? o) eqn:Po; [|destruct Hd]. apply Nat.eqb_eq in Po. subst p. destruct EX as [t0 H0]. apply (GF o i t0 (reads (nt (tonode M d)) ++ w) H0 Mi).
    + apply (gp_step nty (fun _ => []) reads M (maskf mask) i d tag w o Hd Hm (BW _ _ _ P)).
    + rewrite En. cbn [reads app]. rewrite HT in HE. exact HE.
Qed.
Lemma gfree_loop n k : forall i M mask M' mask', length M = n -> length mask = n -> gfree M (maskf mask) -> i + k <= n -> (forall p, i <= p < n -> maskf mask p = true) ->
  fold_left drop_step (seq i k) (Some (M, mask)) = Some (M', mask') -> gfree M' (maskf mask') /\ length M' = n /\ length mask' = n.
Proof.
  induction k as [|k IH]; intros i M mask M' mask' L1 L2 HR Hl HK H; [cbn in H; injection H as <- <-; auto|].
  change (fold_left drop_step (seq i (S k)) (Some (M, mask))) with (fold_left drop_step (seq (S i) k) (drop_step (Some (M, mask)) i)) in H.
  destruct (drop_step (Some (M, mask)) i) as [[M1 mask1]|] eqn:Q; [|rewrite drop_none in H; discriminate].
  assert (K1 : maskf mask i = true) by (apply HK; lia). pose proof (gfree_step M mask i M1 mask1 ltac:(lia) ltac:(lia) K1 Q HR) as G1. pose proof (drop_len_step _ _ _ _ _ _ eq_refl Q) as [L3 L4].
  apply (IH (S i) M1 mask1 M' mask'); [lia|lia|exact G1|lia| |exact H]. intros p Hp.
  revert Q. cbn [drop_step]. destruct (nt _); try (intros Q; injection Q as <- <-; apply HK; lia). destruct (incoming M i) as [|o [|? ?]]; try (intros Q; injection Q as <- <-; apply HK; lia).
  destruct (o =? i); [discriminate|]. intros Q. injection Q as <- <-. unfold maskf. rewrite upd_nth_nth by lia. destruct (p =? i) eqn:Q; [apply Nat.eqb_eq in Q; lia|]. apply HK. lia.
Qed.
Lemma apath_gp M p w q : closed M -> apath M p w q <-> gp M (fun x => x <? length M) p w q.
Proof.
  intros C. split; intros H.
  - induction H as [p|p d w r Hd H IH]; [constructor|]. pose proof (C _ _ Hd) as L. apply in_map_iff in Hd as ([d' tag] & Q & Hd). cbn in Q. subst d'.
    apply (gp_step nty (fun _ => []) reads M _ p d tag w r Hd); [apply Nat.ltb_lt; exact L|exact IH].
  - induction H as [p|p d tag w r Hd Hm H IH]; [constructor|]. cbn [app]. apply ap_step; [|exact IH]. apply in_map_iff. exists (d, tag). auto.
Qed.
Theorem drop_loop M M' : closed M -> 1 <= length M -> loopfree M -> drop_passthrough M = Some M' -> loopfree M'.
Proof.
  intros C H1 LF HD. pose proof (drop_closed _ _ HD) as C'. unfold drop_passthrough in HD.
  destruct (fold_left _ _ _) as [[M1 mask]|] eqn:Q; [|discriminate]. injection HD as <-.
  assert (G0 : gfree M (maskf (repeat true (length M)))).
  { intros p d tag w Hd Hm P HE. apply (LF p d w); [apply in_map_iff; exists (d, tag); auto| |exact HE]. apply (apath_gp M d w p C). apply (gp_ext (maskf (repeat true (length M)))); [intros x; apply maskf_repeat|exact P]. }
  assert (G : gfree M1 (maskf mask) /\ length M1 = length M /\ length mask = length M).
  { destruct (Nat.le_gt_cases 2 (length M)) as [L|L].
    - apply (gfree_loop (length M) (length M - 2) 1 M (repeat true (length M)) M1 mask); [reflexivity|apply repeat_length|exact G0|lia| |exact Q]. intros p Hp. rewrite maskf_repeat. apply Nat.ltb_lt. lia.
    - replace (length M - 2) with 0 in Q by lia. cbn in Q. injection Q as <- <-. rewrite repeat_length. auto. }
  destruct G as (GF & L1 & L2). destruct (filter_path nty (fun _ => []) reads (fun _ _ => True) (fun _ _ _ _ _ _ _ _ _ => eq_refl) (fun _ _ _ _ _ => I) (fun _ _ _ _ _ _ _ => I) M1 mask ltac:(lia)) as [_ F2]. cbv zeta in F2.
  destruct (filter_prefix M1 mask (length M1) ltac:(lia)) as [FL FN]. cbv zeta in FL, FN. rewrite <- filter_eq in FL, FN. set (F := filter_atn M1 mask) in *.
  intros i d w Hd P HE.
  assert (EX : exists p, maskf mask p = true /\ p < length M1 /\ i = new_index mask p).
  { assert (Hi : i < length F) by (destruct (Nat.lt_ge_cases i (length F)) as [K|K]; [exact K|]; rewrite dests_out in Hd by exact K; destruct Hd). rewrite FL in Hi.
    assert (S : forall n, n <= length mask -> forall j, j < new_index mask n -> exists p, maskf mask p = true /\ p < n /\ j = new_index mask p).
    { clear. induction n as [|n IH]; intros Hn j Hj; [destruct mask; cbn in Hj; lia|]. rewrite new_index_S in Hj by lia. destruct (maskf mask n) eqn:Q.
      - destruct (Nat.eq_dec j (new_index mask n)) as [->|N0]; [exists n; auto|]. destruct (IH ltac:(lia) j ltac:(lia)) as (p & ? & ? & ?). exists p. auto.
      - destruct (IH ltac:(lia) j ltac:(lia)) as (p & ? & ? & ?). exists p. auto. }
    apply (S (length M1)); [lia|exact Hi]. }
  destruct EX as (p & Mp & Lp & ->). apply in_map_iff in Hd as ([d' tag] & K & Hd). cbn in K. subst d'. unfold tonode in Hd. rewrite FN in Hd by assumption. cbn [fnode atrs] in Hd.
  apply in_map_iff in Hd as ([x tg] & K & Hx). cbn in K. injection K as <- <-. apply filter_In in Hx as [Hx Mx]. cbn [fst] in Mx.
  apply (apath_gp F _ _ _ C') in P. destruct (F2 _ _ _ P x eq_refl Mx) as (q & Eq & Mq & PQ). pose proof (new_index_inj mask p q Mp Mq Eq). subst q.
  apply (GF p x tg w Hx Mx PQ). unfold rd, tonode in HE. rewrite FN in HE; [exact HE| |exact Mx].
  rewrite <- L1 in L2. rewrite <- L2. destruct (Nat.lt_ge_cases x (length mask)) as [K|K]; [exact K|unfold maskf in Mx; rewrite nth_overflow in Mx by exact K; discriminate].
Qed.
(** Every node still reaches the last one. *)
Theorem drop_reach M M' : closed M -> 1 <= length M -> (forall i, i < length M -> exists w, apath M i w (length M - 1)) -> drop_passthrough M = Some M' -> forall i, i < length M' -> exists w, apath M' i w (length M' - 1).
Proof.
  intros HC H1 HR HD. pose proof (drop_closed _ _ HD) as C'. unfold drop_passthrough in HD. destruct (fold_left _ _ _) as [[M1 mask]|] eqn:Q; [|discriminate]. injection HD as <-.
  assert (L := drop_len_loop _ _ _ _ _ Q). rewrite repeat_length in L. destruct L as [L1 L2].
  assert (R0 : reach M (repeat true (length M)) (length M)).
  { split; [reflexivity|]. split; [apply repeat_length|]. split; [rewrite maskf_repeat; apply Nat.ltb_lt; lia|]. intros p Hp. rewrite maskf_repeat in Hp. apply Nat.ltb_lt in Hp. destruct (HR p Hp) as [w P]. exists w.
    apply (gp_ext (fun x => x <? length M)); [intros x; rewrite maskf_repeat; reflexivity|]. apply apath_gp; assumption. }
  assert (RF : reach M1 mask (length M)).
  { destruct (Nat.le_gt_cases 2 (length M)) as [L|L].
    - refine (reach_loop (length M) (length M - 2) 1 M _ M1 mask R0 _ _ Q); [lia|]. intros p Hp. rewrite maskf_repeat. apply Nat.ltb_lt. lia.
    - replace (length M - 2) with 0 in Q by lia. cbn in Q. injection Q as <- <-. exact R0. }
  destruct RF as (_ & _ & ML & RF). destruct (filter_path nty (fun _ => []) reads (fun _ _ => True) (fun _ _ _ _ _ _ _ _ _ => eq_refl) (fun _ _ _ _ _ => I) (fun _ _ _ _ _ _ _ => I) M1 mask ltac:(lia)) as [F1 _]. cbv zeta in F1.
  destruct (filter_prefix M1 mask (length M1) ltac:(lia)) as [FL FN]. cbv zeta in FL, FN. rewrite <- filter_eq in FL, FN. set (F := filter_atn M1 mask) in *.
  intros i Hi.
  assert (EX : exists p, maskf mask p = true /\ p < length M1 /\ i = new_index mask p).
  { rewrite FL in Hi.
    assert (S : forall n, n <= length mask -> forall j, j < new_index mask n -> exists p, maskf mask p = true /\ p < n /\ j = new_index mask p).
    { clear. induction n as [|n IH]; intros Hn j Hj; [destruct mask; cbn in Hj; lia|]. rewrite new_index_S in Hj by lia. destruct (maskf mask n) eqn:Q.
      - destruct (Nat.eq_dec j (new_index mask n)) as [->|N0]; [exists n; auto|]. destruct (IH ltac:(lia) j ltac:(lia)) as (p & ? & ? & ?). exists p. auto.
      - destruct (IH ltac:(lia) j ltac:(lia)) as (p & ? & ? & ?). exists p. auto. }
    apply (S (length M1)); [lia|exact Hi]. }
  destruct EX as (p & Mp & Lp & ->). destruct (RF p Mp) as [w P]. exists w. apply (apath_gp F _ _ _ C').
  replace (length F - 1) with (new_index mask (length M - 1)); [apply F1; assumption|]. rewrite FL. replace (length M1) with (S (length M - 1)) by lia. rewrite new_index_S by lia. rewrite ML. lia.
Qed.
End Loop.

(** ** Finite relations without cycles *)
Theorem acyclic_acc (R : nat -> nat -> Prop) n : (forall i j, R i j -> j < n) -> (forall i, ~ clos_trans _ R i i) -> forall i, Acc (fun b a => R a b) i.
Proof.
  intros HB HC.
  assert (G : forall k l i, length l + k = n -> NoDup l -> (forall x, In x l -> x < n) -> i < n -> ~ In i l -> (forall x, In x l -> clos_trans _ R x i) -> Acc (fun b a => R a b) i).
  { induction k as [|k IH]; intros l i HL ND HR Hi NI HP.
    - exfalso. assert (K : length (i :: l) <= length (seq 0 n)). { apply NoDup_incl_length; [constructor; assumption|]. intros x [<-|Hx]; apply in_seq; [lia|specialize (HR x Hx); lia]. } rewrite seq_length in K. cbn in K. lia.
    - constructor. intros j Hj. apply (IH (i :: l)); [cbn; lia|constructor; assumption|intros x [<-|Hx]; auto|exact (HB _ _ Hj)| |].
      + intros [<-|Hx]; [exact (HC _ (t_step _ _ _ _ Hj))|]. apply (HC j). eapply t_trans; [exact (HP j Hx)|apply t_step; exact Hj].
      + intros x [<-|Hx]; [apply t_step; exact Hj|]. eapply t_trans; [exact (HP x Hx)|apply t_step; exact Hj]. }
  intros i. constructor. intros j Hj. apply (G n [] j); [reflexivity|constructor|intros x []|exact (HB _ _ Hj)|intros []|intros x []].
Qed.
