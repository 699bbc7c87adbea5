(** Removing pass-through nodes: what happens to the paths, and to the priorities on them. *)
From Coq Require Import List NArith Arith Bool Lia.
From Verif Require Import CharClass NFA NFAProofs GrammarSpec ATN ATNSem ATNBuild.
Import ListNotations.
Local Open Scope nat_scope.

Notation edges M p := (atrs (tonode M p)).
Lemma in_incoming M i p : In p (incoming M i) <-> exists tag, In (i, tag) (edges M p).
Proof.
  unfold incoming. rewrite in_flat_map. split.
  - intros (x & Hx & Hp). apply in_map_iff in Hp as ([d tag] & <- & Hf). apply filter_In in Hf as [Hf E]. cbn in E. apply Nat.eqb_eq in E. subst d. exists tag. exact Hf.
  - intros (tag & H). exists p. assert (p < length M).
    { destruct (Nat.lt_ge_cases p (length M)); [assumption|]. rewrite to_out in H by assumption. destruct H. }
    split; [apply in_seq; lia|]. apply in_map_iff. exists (i, tag). split; [reflexivity|]. apply filter_In. split; [exact H|]. cbn. apply Nat.eqb_refl.
Qed.

(** ** Masks and renumbering *)
Definition maskf (mask : list bool) (p : nat) : bool := nth p mask false.
Lemma upd_nth_nth {A} (l : list A) i f d p : i < length l -> nth p (upd_nth l i f) d = if p =? i then f (nth p l d) else nth p l d.
Proof.
  revert i p. induction l as [|x l IH]; intros [|i] [|p] H; cbn in *; try lia; try reflexivity. apply IH. lia.
Qed.
Lemma drop_none l : fold_left drop_step l None = None.
Proof. induction l as [|i l IH]; [reflexivity|exact IH]. Qed.
Lemma new_index_S mask i : i < length mask -> new_index mask (S i) = new_index mask i + (if maskf mask i then 1 else 0).
Proof.
  unfold maskf. revert i. induction mask as [|b mask IH]; intros i H; cbn in H; [lia|].
  destruct i as [|i]; [cbn; destruct mask, b; reflexivity|]. 
  change (new_index (b :: mask) (S (S i))) with ((if b then 1 else 0) + new_index mask (S i)). rewrite IH by lia. cbn [new_index nth]. lia.
Qed.
Definition fnode (M : atn) (mask : list bool) (i : nat) : anode :=
  mkA (nt (tonode M i)) (map (fun t => (new_index mask (fst t), snd t)) (filter (fun t => maskf mask (fst t)) (edges M i))).
Lemma filter_prefix M mask n : n <= length mask ->
  let l := flat_map (fun i => if maskf mask i then [fnode M mask i] else []) (seq 0 n) in
  length l = new_index mask n /\ forall i, i < n -> maskf mask i = true -> nth (new_index mask i) l blank = fnode M mask i.
Proof.
  induction n as [|n IH]; intros Hn; cbv zeta.
  - split; [destruct mask; reflexivity|lia].
  - destruct IH as [L1 L2]; [lia|]. rewrite seq_S. cbn [plus]. rewrite flat_map_app. cbn [flat_map]. rewrite app_nil_r. split.
    + rewrite app_length, L1, new_index_S by lia. destruct (maskf mask n); reflexivity.
    + intros i Hi Hm. destruct (Nat.eq_dec i n) as [->|Ne].
      * rewrite Hm. rewrite app_nth2 by lia. rewrite L1, Nat.sub_diag. reflexivity.
      * rewrite app_nth1; [apply L2; [lia|exact Hm]|]. rewrite L1.
        assert (mono : forall a b, a <= b -> b <= length mask -> new_index mask a <= new_index mask b).
        { intros a b Hab. induction Hab as [|b Hab IHb]; intros Hb; [lia|]. rewrite new_index_S by lia. specialize (IHb ltac:(lia)). lia. }
        specialize (mono (S i) n ltac:(lia) ltac:(lia)). rewrite new_index_S, Hm in mono by lia. lia.
Qed.
Lemma filter_eq M mask : filter_atn M mask = flat_map (fun i => if maskf mask i then [fnode M mask i] else []) (seq 0 (length M)).
Proof. reflexivity. Qed.
Lemma new_index_inj mask a b : maskf mask a = true -> maskf mask b = true -> new_index mask a = new_index mask b -> a = b.
Proof.
  intros Ha Hb E.
  assert (inr : forall p, maskf mask p = true -> p < length mask) by (intros p H; destruct (Nat.lt_ge_cases p (length mask)); [assumption|unfold maskf in H; rewrite nth_overflow in H by assumption; discriminate]).
  assert (mono : forall a b, a <= b -> b <= length mask -> new_index mask a <= new_index mask b).
  { intros x y Hab. induction Hab as [|y Hab IHb]; intros Hy; [lia|]. rewrite new_index_S by lia. specialize (IHb ltac:(lia)). lia. }
  pose proof (inr a Ha). pose proof (inr b Hb). destruct (Nat.lt_trichotomy a b) as [L|[L|L]]; [|exact L|].
  - specialize (mono (S a) b ltac:(lia) ltac:(lia)). rewrite new_index_S, Ha in mono by lia. lia.
  - specialize (mono (S b) a ltac:(lia) ltac:(lia)). rewrite new_index_S, Hb in mono by lia. lia.
Qed.

(** ** Paths whose words record symbols and, optionally, tags *)
Section Dec.
Variable X : Type.
Variable lab : nat -> list X.
Variable R : nty -> list X.
Hypothesis Rblank : R NBlank = [].
Inductive gpath (M : atn) (mask : nat -> bool) : nat -> list X -> nat -> Prop :=
| gp_nil p : gpath M mask p [] p
| gp_step p d tag w r : In (d, tag) (edges M p) -> mask d = true -> gpath M mask d w r -> gpath M mask p (lab tag ++ R (nt (tonode M d)) ++ w) r.

(** One drop: the edges of [i] are copied to its only predecessor [o]. *)
Section Drop.
Variables (M M' : atn) (mask mask' : nat -> bool) (i o : nat).
Hypothesis HM : forall p, edges M' p = edges M p ++ (if p =? o then edges M i else []).
Hypothesis HT : forall p, nt (tonode M' p) = nt (tonode M p).
Hypothesis Hmask : forall p, mask' p = if p =? i then false else mask p.
Hypothesis Hi : mask i = true.
Hypothesis Hb : nt (tonode M i) = NBlank.
Hypothesis Hin : forall p tag, In (i, tag) (edges M p) -> p = o /\ lab tag = [].
Hypothesis Hex : exists tag, In (i, tag) (edges M o).
Hypothesis Hoi : o <> i.
Lemma edge_keep p e : In e (edges M p) -> In e (edges M' p).
Proof. intros H. rewrite HM. apply in_or_app. auto. Qed.
Lemma drop_fwd p w q : gpath M mask p w q -> q <> i -> (p <> i -> gpath M' mask' p w q) /\ (p = i -> gpath M' mask' o w q).
Proof.
  intros H. induction H as [p|p d tag w q Hd Hm H IH]; intros Hq; [split; [intros _; constructor|congruence]|].
  destruct (IH Hq) as [IH1 IH2]. destruct (Nat.eq_dec d i) as [->|Nd].
  - destruct (Hin _ _ Hd) as [-> E]. rewrite E, Hb, Rblank. cbn [app]. split; [auto|congruence].
  - assert (Md : mask' d = true) by (rewrite Hmask; destruct (d =? i) eqn:E; [apply Nat.eqb_eq in E; congruence|exact Hm]).
    rewrite <- HT. split.
    + intros _. apply gp_step; [apply edge_keep; exact Hd|exact Md|auto].
    + intros ->. apply gp_step; [rewrite HM, Nat.eqb_refl; apply in_or_app; auto|exact Md|auto].
Qed.
Lemma drop_bwd p w q : gpath M' mask' p w q -> gpath M mask p w q.
Proof.
  intros H. induction H as [p|p d tag w q Hd Hm H IH]; [constructor|].
  rewrite Hmask in Hm. destruct (d =? i) eqn:E; [discriminate|]. rewrite HT. rewrite HM in Hd. apply in_app_or in Hd as [Hd|Hd]; [apply gp_step; assumption|].
  destruct (p =? o) eqn:Eo; [|destruct Hd]. apply Nat.eqb_eq in Eo. subst p. destruct Hex as [t0 H0].
  assert (S : gpath M mask i (lab tag ++ R (nt (tonode M d)) ++ w) q) by (apply gp_step; assumption).
  apply (gp_step M mask o i t0) in S; [|exact H0|exact Hi]. destruct (Hin _ _ H0) as [_ E0]. rewrite E0, Hb, Rblank in S. exact S.
Qed.
End Drop.

(** ** The loop *)
Variable Inv : nat -> atn -> Prop.
Hypothesis Inv_tag : forall M i o, i < length M - 1 -> Inv i M -> nt (tonode M i) = NBlank -> incoming M i = [o] -> forall tag, In (i, tag) (edges M o) -> lab tag = [].
Hypothesis Inv_keep : forall M i, i < length M - 1 -> Inv i M -> (nt (tonode M i) <> NBlank \/ forall o, incoming M i <> [o]) -> Inv (S i) M.
Hypothesis Inv_step : forall M i o, i < length M - 1 -> Inv i M -> nt (tonode M i) = NBlank -> incoming M i = [o] ->
  Inv (S i) (upd_nth M o (fun n => mkA (nt n) (atrs n ++ edges M i))).
Definition dstate (M0 : atn) (M : atn) (mask : list bool) (k : nat) : Prop :=
  Inv k M /\ length M = length M0 /\ length mask = length M0 /\ (forall p, p = 0 \/ k <= p < length M0 -> maskf mask p = true) /\
  forall w, gpath M (maskf mask) 0 w (length M0 - 1) <-> gpath M0 (fun p => p <? length M0) 0 w (length M0 - 1).
Lemma drop_step_ok M0 M mask i M' mask' : dstate M0 M mask i -> 1 <= i -> i < length M0 - 1 -> drop_step (Some (M, mask)) i = Some (M', mask') -> dstate M0 M' mask' (S i).
Proof.
  intros (HI & HL & HK & HM & HP) Hi Hl. cbn [drop_step]. fold (tonode M i).
  destruct (nt (tonode M i)) eqn:En; try (intros E; injection E as <- <-; split; [apply Inv_keep; [lia|exact HI|left; congruence]|split; [exact HL|split; [exact HK|split; [intros p Hp; apply HM; lia|exact HP]]]]).
  destruct (incoming M i) as [|o [|o' rest]] eqn:Ei; try (intros E; injection E as <- <-; split; [apply Inv_keep; [lia|exact HI|right; congruence]|split; [exact HL|split; [exact HK|split; [intros p Hp; apply HM; lia|exact HP]]]]).
  destruct (o =? i) eqn:Eo; [discriminate|]. apply Nat.eqb_neq in Eo. intros E. injection E as <- <-.
  assert (IN : forall p tag, In (i, tag) (edges M p) -> p = o) by (intros p tag H; assert (In p (incoming M i)) as Q by (apply in_incoming; eauto); rewrite Ei in Q; destruct Q as [Q|[]]; auto).
  assert (EX : exists tag, In (i, tag) (edges M o)) by (apply in_incoming; rewrite Ei; left; reflexivity).
  assert (Ho : o < length M) by (destruct EX as [tag EX]; destruct (Nat.lt_ge_cases o (length M)); [assumption|rewrite to_out in EX by assumption; destruct EX]).
  set (f := fun n => mkA (nt n) (atrs n ++ edges M i)).
  assert (HN : forall p, tonode (upd_nth M o f) p = if p =? o then f (tonode M p) else tonode M p) by (intros p; apply to_upd; right; exact Ho).
  split; [apply Inv_step; assumption || lia|]. split; [rewrite upd_len; exact HL|]. split; [rewrite upd_len; exact HK|]. split.
  { intros p Hp. unfold maskf. rewrite upd_nth_nth by lia. destruct (p =? i) eqn:Ep; [apply Nat.eqb_eq in Ep; lia|]. apply HM. lia. }
  intros w. rewrite <- HP. split.
  - apply (drop_bwd M _ (maskf mask) _ i o).
    + intros p. rewrite HN. destruct (p =? o); cbn [f atrs]; [reflexivity|rewrite app_nil_r; reflexivity].
    + intros p. rewrite HN. destruct (p =? o); reflexivity.
    + intros p. unfold maskf. rewrite upd_nth_nth by lia. destruct (p =? i); reflexivity.
    + apply HM. lia.
    + exact En.
    + intros p tag H. split; [eauto|]. pose proof (IN _ _ H). subst p. eapply Inv_tag; [|eassumption..]; lia.
    + exact EX.
  - intros H. apply (drop_fwd M (upd_nth M o f) (maskf mask) (maskf (upd_nth mask i (fun _ => false))) i o) in H; [apply H; lia|..].
    + intros p. rewrite HN. destruct (p =? o); cbn [f atrs]; [reflexivity|rewrite app_nil_r; reflexivity].
    + intros p. rewrite HN. destruct (p =? o); reflexivity.
    + intros p. unfold maskf. rewrite upd_nth_nth by lia. destruct (p =? i); reflexivity.
    + exact En.
    + intros p tag H0. split; [eauto|]. pose proof (IN _ _ H0). subst p. eapply Inv_tag; [|eassumption..]; lia.
    + exact Eo.
    + lia.
Qed.
Lemma drop_loop_ok M0 n : forall i M mask M' mask', dstate M0 M mask i -> 1 <= i -> i + n <= length M0 - 1 ->
  fold_left drop_step (seq i n) (Some (M, mask)) = Some (M', mask') -> dstate M0 M' mask' (i + n).
Proof.
  induction n as [|n IH]; intros i M mask M' mask' HD Hi Hl H.
  - cbn [seq fold_left] in H. injection H as <- <-. rewrite Nat.add_0_r. exact HD.
  - change (seq i (S n)) with (i :: seq (S i) n) in H. change (fold_left drop_step (i :: seq (S i) n) (Some (M, mask))) with (fold_left drop_step (seq (S i) n) (drop_step (Some (M, mask)) i)) in H.
    destruct (drop_step (Some (M, mask)) i) as [[M1 mask1]|] eqn:E; [|rewrite drop_none in H; discriminate].
    replace (i + S n) with (S i + n) by lia. eapply IH; [|lia|lia|exact H]. eapply drop_step_ok; [exact HD|lia|lia|exact E].
Qed.

(** ** Renumbering *)
Lemma filter_path M mask : length mask = length M ->
  let F := filter_atn M mask in
  (forall p w q, gpath M (maskf mask) p w q -> maskf mask p = true -> gpath F (fun p => p <? length F) (new_index mask p) w (new_index mask q)) /\
  (forall p' w q', gpath F (fun p => p <? length F) p' w q' -> forall p, p' = new_index mask p -> maskf mask p = true -> 
     exists q, q' = new_index mask q /\ maskf mask q = true /\ gpath M (maskf mask) p w q).
Proof.
  intros HL. cbv zeta. rewrite filter_eq. destruct (filter_prefix M mask (length M) ltac:(lia)) as [L1 L2]. cbv zeta in *. set (F := flat_map _ _) in *.
  assert (inr : forall p, maskf mask p = true -> p < length M) by (intros p H; destruct (Nat.lt_ge_cases p (length mask)); [lia|unfold maskf in H; rewrite nth_overflow in H by assumption; discriminate]).
  assert (bnd : forall p, maskf mask p = true -> new_index mask p < length F).
  { intros p H. pose proof (inr p H) as Hp. rewrite L1.
    assert (mono : forall a b, a <= b -> b <= length mask -> new_index mask a <= new_index mask b).
    { intros a b Hab. induction Hab as [|b Hab IHb]; intros Hb; [lia|]. rewrite new_index_S by lia. specialize (IHb ltac:(lia)). lia. }
    specialize (mono (S p) (length M) ltac:(lia) ltac:(lia)). rewrite new_index_S, H in mono by lia. lia. }
  split.
  - intros p w q H. induction H as [p|p d tag w q Hd Hm H IH]; intros Hp; [constructor|].
    replace (nt (tonode M d)) with (nt (tonode F (new_index mask d))) by (unfold tonode at 1; rewrite L2; [reflexivity|apply inr; exact Hm|exact Hm]).
    apply gp_step; [|apply Nat.ltb_lt; apply bnd; exact Hm|auto]. unfold tonode. rewrite L2; [|apply inr; exact Hp|exact Hp]. cbn [fnode atrs].
    apply in_map_iff. exists (d, tag). split; [reflexivity|]. apply filter_In. split; [exact Hd|exact Hm].
  - intros p' w q' H. induction H as [p'|p' d' tag w q' Hd Hm H IH]; intros p -> Hp; [exists p; split; [reflexivity|split; [exact Hp|constructor]]|].
    unfold tonode in Hd. rewrite L2 in Hd; [|apply inr; exact Hp|exact Hp]. cbn [fnode atrs] in Hd. apply in_map_iff in Hd as ([d tag'] & E & Hd). cbn in E. injection E as <- <-.
    apply filter_In in Hd as [Hd Md]. cbn in Md. destruct (IH d eq_refl Md) as (q & -> & Mq & K). exists q. split; [reflexivity|]. split; [exact Mq|].
    replace (nt (tonode F (new_index mask d))) with (nt (tonode M d)) by (unfold tonode at 2; rewrite L2; [reflexivity|apply inr; exact Md|exact Md]).
    apply gp_step; assumption.
Qed.
Theorem drop_preserves M0 M' : 1 <= length M0 -> Inv 1 M0 -> drop_passthrough M0 = Some M' ->
  forall w, gpath M' (fun p => p <? length M') 0 w (length M' - 1) <-> gpath M0 (fun p => p <? length M0) 0 w (length M0 - 1).
Proof.
  intros H1 HI. unfold drop_passthrough.
  destruct (fold_left drop_step (seq 1 (length M0 - 2)) (Some (M0, repeat true (length M0)))) as [[M mask]|] eqn:E; [|discriminate].
  intros Q. injection Q as <-.
  assert (MR : forall p, maskf (repeat true (length M0)) p = (p <? length M0)).
  { intros p. unfold maskf. destruct (p <? length M0) eqn:Ep; [apply Nat.ltb_lt in Ep|apply Nat.ltb_ge in Ep; apply nth_overflow; rewrite repeat_length; exact Ep].
    revert Ep. generalize (length M0). intros n. revert p. induction n as [|n IHn]; intros p Ep; [lia|]. destruct p as [|p]; [reflexivity|]. cbn. apply IHn. lia. }
  assert (GM : forall m1 m2 M p w q, (forall x, m1 x = m2 x) -> gpath M m1 p w q -> gpath M m2 p w q).
  { intros m1 m2 N p w q Hm K. induction K; [constructor|]. apply gp_step; [assumption|rewrite <- Hm; assumption|assumption]. }
  assert (D0 : dstate M0 M0 (repeat true (length M0)) 1).
  { split; [exact HI|]. split; [reflexivity|]. split; [apply repeat_length|]. split.
    - intros p Hp. rewrite MR. apply Nat.ltb_lt. lia.
    - intros w. split; apply GM; intros x; rewrite MR; reflexivity. }
  assert (D : exists k, k <= Nat.max 1 (length M0 - 1) /\ dstate M0 M mask k).
  { destruct (Nat.le_gt_cases 2 (length M0)) as [L|L].
    - exists (1 + (length M0 - 2)). split; [lia|]. eapply drop_loop_ok; [exact D0|lia|lia|exact E].
    - replace (length M0 - 2) with 0 in E by lia. cbn in E. injection E as <- <-. exists 1. split; [lia|exact D0]. }
  destruct D as (k & Hk & _ & HL & HK & HM0 & HP).
  assert (HM : forall p, p = 0 \/ length M0 - 1 <= p < length M0 -> maskf mask p = true) by (intros p Hp; apply HM0; lia). destruct (filter_path M mask ltac:(lia)) as [F1 F2]. cbv zeta in *. set (F := filter_atn M mask) in *.
  assert (FL : length F - 1 = new_index mask (length M0 - 1)).
  { unfold F. rewrite filter_eq. destruct (filter_prefix M mask (length M) ltac:(lia)) as [L1 _]. cbv zeta in L1. rewrite L1.
    replace (length M) with (S (length M0 - 1)) by lia. rewrite new_index_S by lia. rewrite HM by lia. lia. }
  assert (Z : new_index mask 0 = 0) by (destruct mask; reflexivity).
  intros w. rewrite <- HP, FL. split.
  - intros K. destruct (F2 _ _ _ K 0) as (q & Eq & Mq & G); [symmetry; exact Z|apply HM; lia|]. apply new_index_inj in Eq; [|apply HM; lia|exact Mq]. subst q. exact G.
  - intros K. pose proof (F1 _ _ _ K (HM 0 (or_introl eq_refl))) as G. rewrite Z in G. exact G.
Qed.
End Dec.

(** ** Plain paths *)
Lemma gpath_apath M p w q : closed M -> p < length M -> gpath nty (fun _ => []) reads M (fun x => x <? length M) p w q <-> apath M p w q.
Proof.
  intros HC Hp. split.
  - intros H. induction H as [p|p d tag w q Hd Hm H IH]; [constructor|]. cbn [app]. change (reads (nt (tonode M d))) with (rd M d). apply ap_step; [|apply IH; apply Nat.ltb_lt; exact Hm].
    apply in_map_iff. exists (d, tag). auto.
  - intros H. induction H as [p|p d w q Hd H IH]; [constructor|]. pose proof (HC _ _ Hd). apply in_map_iff in Hd as ([d' tag] & E & Hd). cbn in E. subst d'.
    apply (gp_step nty (fun _ => []) reads M (fun x => x <? length M) p d tag); [exact Hd|apply Nat.ltb_lt; assumption|auto].
Qed.

Lemma filter_closed M mask : length mask = length M -> closed (filter_atn M mask).
Proof.
  intros HL i d Hd. rewrite filter_eq in *. destruct (filter_prefix M mask (length M) ltac:(lia)) as [L1 L2]. cbv zeta in *. set (F := flat_map _ _) in *.
  assert (exists p, i < length F -> tonode F i = fnode M mask p) as [p Hp].
  {
    assert (K : i < length F -> In (tonode F i) F) by (intros Q; apply nth_In; exact Q).
    destruct (Nat.lt_ge_cases i (length F)) as [Q|Q]; [|exists 0; lia]. specialize (K Q). unfold F in K. apply in_flat_map in K as (p & _ & K). destruct (maskf mask p); [|destruct K]. destruct K as [K|[]]. exists p. intros _. symmetry. exact K. }
  assert (Q : i < length F) by (destruct (Nat.lt_ge_cases i (length F)); [assumption|rewrite dests_out in Hd by assumption; destruct Hd]).
  unfold dests in Hd. rewrite Hp in Hd by exact Q. cbn [fnode atrs] in Hd. rewrite map_map in Hd. cbn in Hd. apply in_map_iff in Hd as ([x tag] & <- & Hd). apply filter_In in Hd as [_ Hm]. cbn in Hm. cbn [fst].
  assert (x < length M) by (destruct (Nat.lt_ge_cases x (length mask)); [lia|unfold maskf in Hm; rewrite nth_overflow in Hm by assumption; discriminate]).
  rewrite L1.
  assert (mono : forall a b, a <= b -> b <= length mask -> new_index mask a <= new_index mask b).
  { intros a b Hab. induction Hab as [|b Hab IHb]; intros Hb; [lia|]. rewrite new_index_S by lia. specialize (IHb ltac:(lia)). lia. }
  specialize (mono (S x) (length M) ltac:(lia) ltac:(lia)). rewrite new_index_S, Hm in mono by lia. lia.
Qed.
Lemma drop_len_step s i M mask M' mask' : s = Some (M, mask) -> drop_step s i = Some (M', mask') -> length M' = length M /\ length mask' = length mask.
Proof.
  intros ->. cbn [drop_step]. destruct (nt _); try (intros E; injection E as <- <-; auto; fail).
  destruct (incoming M i) as [|o [|? ?]]; try (intros E; injection E as <- <-; auto; fail). destruct (o =? i); [discriminate|]. intros E. injection E as <- <-. rewrite !upd_len. auto.
Qed.
Lemma drop_len_loop l : forall M mask M' mask', fold_left drop_step l (Some (M, mask)) = Some (M', mask') -> length M' = length M /\ length mask' = length mask.
Proof.
  induction l as [|i l IH]; intros M mask M' mask' H; [injection H as <- <-; auto|].
  change (fold_left drop_step (i :: l) (Some (M, mask))) with (fold_left drop_step l (drop_step (Some (M, mask)) i)) in H.
  destruct (drop_step (Some (M, mask)) i) as [[M1 mask1]|] eqn:E; [|rewrite drop_none in H; discriminate].
  apply (drop_len_step _ _ _ _ _ _ eq_refl) in E. apply IH in H. lia.
Qed.
Lemma drop_closed M M' : drop_passthrough M = Some M' -> closed M'.
Proof.
  unfold drop_passthrough. destruct (fold_left _ _ _) as [[M1 mask]|] eqn:E; [|discriminate]. intros Q. injection Q as <-. apply drop_len_loop in E. rewrite repeat_length in E. apply filter_closed. lia.
Qed.
Lemma drop_nonempty M M' : 1 <= length M -> drop_passthrough M = Some M' -> 1 <= length M'.
Proof.
  intros H1. unfold drop_passthrough. destruct (fold_left _ _ _) as [[M1 mask]|] eqn:E; [|discriminate]. intros Q. injection Q as <-.
  pose proof (drop_len_loop _ _ _ _ _ E) as L. rewrite repeat_length in L.
  assert (K : maskf mask 0 = true).
  { assert (G : forall l M mask M' mask', Forall (fun i => 1 <= i) l -> fold_left drop_step l (Some (M, mask)) = Some (M', mask') -> maskf mask 0 = true -> 1 <= length mask -> maskf mask' 0 = true).
    { clear. induction l as [|i l IH]; intros M mask M' mask' Hl H K HL; [injection H as <- <-; exact K|]. inversion Hl; subst.
      change (fold_left drop_step (i :: l) (Some (M, mask))) with (fold_left drop_step l (drop_step (Some (M, mask)) i)) in H.
      destruct (drop_step (Some (M, mask)) i) as [[M1 mask1]|] eqn:E; [|rewrite drop_none in H; discriminate].
      pose proof (drop_len_step _ _ _ _ _ _ eq_refl E) as [_ L]. eapply IH; [eassumption|exact H| |lia].
      revert E. cbn [drop_step]. destruct (nt _); try (intros E; injection E as <- <-; exact K).
      destruct (incoming M i) as [|o [|? ?]]; try (intros E; injection E as <- <-; exact K). destruct (o =? i); [discriminate|]. intros E. injection E as <- <-.
      unfold maskf in *. destruct mask as [|b mask]; [cbn in HL; lia|]. destruct i as [|i]; [lia|]. exact K. }
    eapply G; [|exact E| |].
    - apply Forall_forall. intros x Hx. apply in_seq in Hx. lia.
    - destruct (length M); [lia|reflexivity].
    - rewrite repeat_length. exact H1. }
  rewrite filter_eq. destruct (filter_prefix M1 mask (length M1) ltac:(lia)) as [L1 _]. cbv zeta in L1. rewrite L1.
  assert (mono : forall a b, a <= b -> b <= length mask -> new_index mask a <= new_index mask b).
  { intros a b Hab. induction Hab as [|b Hab IHb]; intros Hb; [lia|]. rewrite new_index_S by lia. specialize (IHb ltac:(lia)). lia. }
  specialize (mono 1 (length M1) ltac:(lia) ltac:(lia)). rewrite new_index_S, K in mono by lia. lia.
Qed.
(** Every network whose transitions stay inside it. *)
Theorem drop_language M M' : 1 <= length M -> closed M -> drop_passthrough M = Some M' -> forall w, atn_accepts M' w <-> atn_accepts M w.
Proof.
  intros H1 HC HD w. unfold atn_accepts. pose proof (drop_nonempty _ _ H1 HD) as H2. pose proof (drop_closed _ _ HD) as HC'.
  rewrite <- (gpath_apath M' 0) by (assumption || lia). rewrite <- (gpath_apath M 0) by (assumption || lia).
  apply (drop_preserves nty (fun _ => []) reads eq_refl (fun _ _ => True)); auto.
Qed.

(** ** Priorities *)
(** A path's symbols, and the positive tags of the transitions it takes. *)
Definition plab (tag : nat) : list (nat + nty) := if tag =? 0 then [] else [inl tag].
Definition preads (n : nty) : list (nat + nty) := map inr (reads n).
Definition ppath (M : atn) : nat -> list (nat + nty) -> nat -> Prop := gpath (nat + nty) plab preads M (fun x => x <? length M).
Definition twice (M : atn) : Prop := forall p j k, In (j, S k) (edges M p) -> exists a b, a <> b /\ In j (dests M a) /\ In j (dests M b).
Lemma len2 {A} (l : list A) x y : In x l -> In y l -> x <> y -> 2 <= length l.
Proof. destruct l as [|a [|b l]]; cbn; [tauto| |lia]. intros [<-|[]] [<-|[]] H. congruence. Qed.
Lemma twice_tag M i o : twice M -> incoming M i = [o] -> forall tag, In (i, tag) (edges M o) -> plab tag = [].
Proof.
  intros HT HI [|k] H; [reflexivity|]. destruct (HT _ _ _ H) as (a & b & N0 & Ha & Hb). exfalso.
  assert (forall x, In i (dests M x) -> In x (incoming M i)) as K by (intros x Hx; apply in_incoming; apply in_map_iff in Hx as ([d t] & E & Hx); cbn in E; subst d; eauto).
  pose proof (len2 (incoming M i) a b (K _ Ha) (K _ Hb) N0) as L. rewrite HI in L. cbn in L. lia.
Qed.
Lemma drop_edges M i o : o < length M -> forall p e, In e (edges (upd_nth M o (fun n => mkA (nt n) (atrs n ++ edges M i))) p) <-> In e (edges M p) \/ (p = o /\ In e (edges M i)).
Proof.
  intros Ho p e. rewrite to_upd by auto. destruct (p =? o) eqn:E; rewrite ?Nat.eqb_eq, ?Nat.eqb_neq in *; cbn [atrs]; rewrite ?in_app_iff; intuition congruence.
Qed.
Lemma incoming_lt M i o : incoming M i = [o] -> o < length M.
Proof.
  intros H. assert (In o (incoming M i)) as K by (rewrite H; left; reflexivity). apply in_incoming in K as [tag K].
  destruct (Nat.lt_ge_cases o (length M)); [assumption|]. rewrite to_out in K by assumption. destruct K.
Qed.
Lemma in_dests M p j : In j (dests M p) <-> exists t, In (j, t) (edges M p).
Proof. unfold dests. rewrite in_map_iff. split; [intros ([d t] & E & H); cbn in E; subst; eauto|intros (t & H); exists (j, t); auto]. Qed.
Lemma twice_step M i o : twice M -> incoming M i = [o] -> twice (upd_nth M o (fun n => mkA (nt n) (atrs n ++ edges M i))).
Proof.
  intros HT HI p j k H. pose proof (incoming_lt _ _ _ HI) as Ho. 
  assert (exists q, In (j, S k) (edges M q)) as [q Hq] by (apply drop_edges in H as [H|[_ H]]; eauto).
  destruct (HT _ _ _ Hq) as (a & b & N0 & Ha & Hb). exists a, b. split; [exact N0|]. rewrite !in_dests in *.
  destruct Ha as [ta Ha], Hb as [tb Hb]. split; eexists; apply drop_edges; eauto.
Qed.
(** All declared priorities sit on the transitions of node 1, whose only predecessor is node 0. *)
Definition toponly (M : atn) : Prop :=
  (forall p j k, In (j, S k) (edges M p) -> p = 1) /\ incoming M 1 = [0] /\ nt (tonode M 1) = NBlank /\ edges M 0 = [(1, 0)] /\ 2 < length M.
Theorem drop_priorities M M' : toponly M -> drop_passthrough M = Some M' ->
  forall w, ppath M' 0 w (length M' - 1) <-> ppath M 0 w (length M - 1).
Proof.
  intros (HT & HI & HB & HE & HL) HD. 
  (* the first step turns toponly into twice, later ones keep twice *)
  assert (K0 : twice (upd_nth M 0 (fun n => mkA (nt n) (atrs n ++ edges M 1)))).
  { intros p j k H. apply drop_edges in H; [|lia]. assert (In (j, S k) (edges M 1)) as Q by (destruct H as [H|[_ H]]; [pose proof (HT _ _ _ H); subst p; exact H|exact H]).
    exists 0, 1. split; [lia|]. rewrite !in_dests. split; exists (S k); apply drop_edges; auto; lia. }
  apply (drop_preserves _ plab preads eq_refl (fun i N => (i = 1 /\ N = M) \/ (1 < i /\ twice N))); auto; try lia.
  - intros N i o _ [[-> ->]|[_ HN]] Hb Hi tag Ht; [|eapply twice_tag; eassumption]. rewrite HI in Hi. injection Hi as <-.
    rewrite HE in Ht. destruct Ht as [Ht|[]]. injection Ht as <-. reflexivity.
  - intros N i _ [[-> ->]|[L HN]] Q; [|right; split; [lia|exact HN]]. exfalso. destruct Q as [Q|Q]; [apply Q; exact HB|apply (Q 0); exact HI].
  - intros N i o _ [[-> ->]|[L HN]] Hb Hi.
    + rewrite HI in Hi. injection Hi as <-. right. split; [lia|exact K0].
    + right. split; [lia|]. apply twice_step; assumption.
Qed.

(** ** Networks of rule bodies *)
Lemma edges_upd M i d t j : i < length M -> edges (upd_nth M i (add_atr d t)) j = edges M j ++ (if j =? i then [(d, t)] else []).
Proof. intros H. rewrite to_upd by auto. destruct (j =? i); [reflexivity|rewrite app_nil_r; reflexivity]. Qed.
Lemma edges_snoc M n j : edges (M ++ [mkA n []]) j = edges M j.
Proof.
  rewrite to_app. destruct (j <? length M) eqn:E; [reflexivity|]. apply Nat.ltb_ge in E. rewrite (to_out M j E).
  destruct (j - length M) as [|[|k]]; reflexivity.
Qed.
Lemma edges_add M from tag j : from < length M -> edges (add_node M from tag) j = edges M j ++ (if j =? from then [(length M, tag)] else []).
Proof. intros H. unfold add_node. change blank with (mkA NBlank []). rewrite edges_snoc. apply edges_upd. exact H. Qed.
Lemma edges_push M n j : 1 <= length M -> edges (push_node M n) j = edges M j ++ (if j =? length M - 1 then [(length M, 0)] else []).
Proof. intros H. unfold push_node. rewrite edges_snoc. apply edges_upd. lia. Qed.
(** No new transition with a positive tag. *)
Definition notag (M N : atn) : Prop := length M <= length N /\ forall p j k, In (j, S k) (edges N p) -> In (j, S k) (edges M p).
Lemma notag_refl M : notag M M.
Proof. split; [lia|auto]. Qed.
Lemma notag_trans A B C : notag A B -> notag B C -> notag A C.
Proof. intros [L1 H1] [L2 H2]. split; [lia|auto]. Qed.
Lemma notag_upd M i d : i < length M -> notag M (upd_nth M i (add_atr d 0)).
Proof.
  intros H. split; [rewrite upd_len; lia|]. intros p j k Hp. rewrite edges_upd in Hp by exact H. apply in_app_or in Hp as [Hp|Hp]; [exact Hp|].
  destruct (p =? i); [|destruct Hp]. destruct Hp as [Hp|[]]. discriminate.
Qed.
Lemma notag_add M i : i < length M -> notag M (add_node M i 0).
Proof.
  intros H. split; [rewrite add_node_len; lia|]. intros p j k Hp. rewrite edges_add in Hp by exact H. apply in_app_or in Hp as [Hp|Hp]; [exact Hp|].
  destruct (p =? i); [|destruct Hp]. destruct Hp as [Hp|[]]. discriminate.
Qed.
Lemma notag_push M n : 1 <= length M -> notag M (push_node M n).
Proof.
  intros H. split; [rewrite push_node_len; lia|]. intros p j k Hp. rewrite edges_push in Hp by exact H. apply in_app_or in Hp as [Hp|Hp]; [exact Hp|].
  destruct (p =? length M - 1); [|destruct Hp]. destruct Hp as [Hp|[]]. discriminate.
Qed.
Lemma notag_term ws M n : 1 <= length M -> notag M (push_term ws M n).
Proof.
  intros H. unfold push_term. destruct n; try (apply notag_push; exact H); destruct ws; try (apply notag_push; exact H);
  (eapply notag_trans; [apply notag_push; exact H|apply notag_push; rewrite push_node_len; lia]).
Qed.
Lemma notag_quant q M o a : o < length M -> notag M (quantM q M o a).
Proof.
  intros H. destruct q; cbn [quantM]; [apply notag_refl|..].
  - eapply notag_trans; [apply notag_add with (i := length M - 1); lia|]. set (M1 := add_node M (length M - 1) 0). assert (L1 : length M1 = S (length M)) by apply add_node_len.
    eapply notag_trans; [apply notag_upd with (i := length M1 - 1) (d := a); lia|]. set (M2 := upd_nth M1 _ _). assert (L2 : length M2 = length M1) by apply upd_len.
    eapply notag_trans; [apply notag_add with (i := length M2 - 1); lia|]. apply notag_upd. rewrite add_node_len. lia.
  - eapply notag_trans; [apply notag_add with (i := length M - 1); lia|]. apply notag_upd. rewrite add_node_len. lia.
  - eapply notag_trans; [apply notag_add with (i := length M - 1); lia|]. apply notag_upd. rewrite add_node_len. lia.
Qed.
Lemma notag_join A terms : (forall t, In t terms -> t < length A) -> notag A (join A terms).
Proof.
  intros H. unfold join.
  assert (G : forall ts A1, length A1 = S (length A) -> (forall t, In t ts -> t < length A) -> notag A1 (fold_left (fun M from => upd_nth M from (add_atr (length M - 1) 0)) ts A1)).
  { induction ts as [|t ts IH]; intros A1 L Ht; cbn [fold_left]; [apply notag_refl|]. eapply notag_trans; [|apply IH; [rewrite upd_len; exact L|intros x Hx; apply Ht; right; exact Hx]].
    apply notag_upd. specialize (Ht t (or_introl eq_refl)). lia. }
  eapply notag_trans; [|apply G; [rewrite app_length; cbn; lia|exact H]]. split; [rewrite app_length; lia|]. intros p j k Hp. change blank with (mkA NBlank []) in Hp. rewrite edges_snoc in Hp. exact Hp.
Qed.
(** The bar |> does not occur. *)
Fixpoint plain_atom (a : gatom) : Prop := match a with GTerm _ => True | GGroup e => plain_sel e end
with plain_seq (s : gseq) : Prop := match s with GNil => True | GCons a _ s => plain_atom a /\ plain_seq s end
with plain_sel (e : gsel) : Prop := match e with GFirst s => plain_seq s | GAlt e up s => up = false /\ plain_sel e /\ plain_seq s end.
(** ... occurs at the outermost level only. *)
Fixpoint top_bars (e : gsel) : Prop := match e with GFirst s => plain_seq s | GAlt e _ s => top_bars e /\ plain_seq s end.
Lemma build_notag ws :
  (forall a, plain_atom a -> forall M, 1 <= length M -> closed M -> notag M (batom ws a M)) /\
  (forall s, plain_seq s -> forall M, 1 <= length M -> closed M -> notag M (bseq ws s M)) /\
  (forall e, plain_sel e -> forall M, 1 <= length M -> closed M -> dests M (length M - 1) = [] ->
     notag M (fst (fst (balts ws e M (length M - 1)))) /\ snd (fst (balts ws e M (length M - 1))) = 0).
Proof.
  apply g_ind.
  - intros x _ M H C. apply notag_term. exact H.
  - intros e IH He M H C. cbn [batom plain_atom] in *. rewrite add_node_last by exact H.
    assert (L : length (push_node M NBlank) = S (length M)) by apply push_node_len.
    assert (CB : closed (push_node M NBlank)) by (apply push_node_closed; assumption).
    assert (DB : dests (push_node M NBlank) (length (push_node M NBlank) - 1) = []).
    { rewrite L. replace (S (length M) - 1) with (length M) by lia. rewrite push_node_dests, dests_out by lia.
      destruct (length M =? length M - 1) eqn:E; [apply Nat.eqb_eq in E; lia|reflexivity]. }
    pose proof (proj2 (proj2 (build_exact ws)) e (push_node M NBlank) ltac:(lia) CB DB) as (_ & _ & HT & _).
    specialize (IH He (push_node M NBlank) ltac:(lia) CB DB).
    destruct (balts ws e (push_node M NBlank) (length (push_node M NBlank) - 1)) as [[A prio] terms]. cbn [fst snd] in *. destruct IH as [IH _].
    eapply notag_trans; [apply notag_push; exact H|]. eapply notag_trans; [exact IH|]. apply notag_join. intros t Ht. specialize (HT t Ht). lia.
  - intros _ M H C. apply notag_refl.
  - intros a IHa q s IHs [Ha Hs] M H C. cbn [bseq].
    pose proof (proj1 (build_exact ws) a M H C) as A. pose proof (quant_adds q M _ _ H C A) as Q. destruct (adds_closed _ _ _ Q) as [Q1 Q2].
    destruct A as (_ & _ & L & _).
    eapply notag_trans; [|apply IHs; [exact Hs|exact Q2|exact Q1]]. eapply notag_trans; [apply IHa; assumption|]. apply notag_quant. lia.
  - intros s IH Hs M H C D. cbn [balts fst snd]. split; [|reflexivity]. eapply notag_trans; [apply notag_add with (i := length M - 1); lia|].
    apply IH; [exact Hs|rewrite add_node_len; lia|apply add_node_closed; [lia|exact C]].
  - intros e IHe up s IHs (-> & He & Hs) M H C D. cbn [balts].
    pose proof (proj2 (proj2 (build_exact ws)) e M H C D) as (CA & (LA & _) & _). specialize (IHe He M H C D).
    destruct (balts ws e M (length M - 1)) as [[A prio] terms]. cbn [fst snd] in *. destruct IHe as [IHe ->]. split; [|reflexivity].
    eapply notag_trans; [exact IHe|]. eapply notag_trans; [apply notag_add with (i := length M - 1); lia|]. apply IHs; [exact Hs|rewrite add_node_len; lia|apply add_node_closed; [lia|exact CA]].
Qed.
Lemma gsel_list_ind (P : gsel -> Prop) : (forall s, P (GFirst s)) -> (forall e up s, P e -> P (GAlt e up s)) -> forall e, P e.
Proof. intros H1 H2. fix F 1. intros [s|e up s]; [apply H1|apply H2; apply F]. Qed.
Lemma top_notag ws e : top_bars e -> forall M, 1 <= length M -> closed M -> dests M (length M - 1) = [] ->
  forall p j k, In (j, S k) (edges (fst (fst (balts ws e M (length M - 1)))) p) -> In (j, S k) (edges M p) \/ p = length M - 1.
Proof.
  induction e as [s|e up s IHe] using gsel_list_ind.
  - intros Hs M H C D p j k. cbn [balts fst]. intros Hp. left.
    assert (L : length M - 1 < length M) by lia.
    apply (proj1 (proj2 (build_notag ws)) s Hs (add_node M (length M - 1) 0)) in Hp; [|rewrite add_node_len; lia|apply add_node_closed; [lia|exact C]].
    eapply notag_add; [exact L|exact Hp].
  - intros [He Hs] M H C D p j k. cbn [balts].
    pose proof (proj2 (proj2 (build_exact ws)) e M H C D) as (CA & (LA & _) & _). specialize (IHe He M H C D).
    destruct (balts ws e M (length M - 1)) as [[A prio] terms]. cbn [fst snd] in *. intros Hp.
    apply (proj1 (proj2 (build_notag ws)) s Hs (add_node A (length M - 1) _)) in Hp; [|rewrite add_node_len; lia|apply add_node_closed; [lia|exact CA]].
    rewrite edges_add in Hp by lia. apply in_app_or in Hp as [Hp|Hp]; [eapply IHe; exact Hp|]. destruct (p =? length M - 1) eqn:E; [|destruct Hp]. apply Nat.eqb_eq in E. auto.
Qed.
Lemma body_base : 1 <= length [blank] /\ closed [blank] /\ closed (push_node [blank] NBlank) /\ dests (push_node [blank] NBlank) 1 = [].
Proof. split; [cbn; lia|]. split; [intros [|[|i]] d []|]. split; [|reflexivity]. intros [|[|[|i]]] d Hd; cbn in *; try tauto. lia. Qed.
Lemma body_toponly ws e : top_bars e -> toponly (build_body ws e).
Proof.
  intros He. destruct body_base as (B1 & B2 & B3 & B4). set (B := push_node [blank] NBlank) in *.
  pose proof (proj2 (proj2 (build_exact ws)) e B ltac:(cbn; lia) B3 B4) as (CA & SA & HT & _).
  pose proof (top_notag ws e He B ltac:(cbn; lia) B3 B4) as TN.
  unfold build_body, bsel. cbn [batom]. change (add_node [blank] (length [blank] - 1) 0) with B. change (length B - 1) with 1 in *.
  destruct (balts ws e B 1) as [[A prio] terms]. cbn [fst snd] in *.
  assert (HT' : forall t, In t terms -> t < length A) by (intros t Ht; specialize (HT t Ht); lia).
  destruct (join_facts A terms HT') as (J1 & J2 & J3 & J4). pose proof (notag_join A terms HT') as [_ NJ]. set (J := join A terms) in *.
  destruct SA as (LA & RA & DA & _ & NA & YA). change (length B) with 2 in *. change (2 - 1) with 1 in *.
  assert (D0 : dests J 0 = [1]). { rewrite J3 by (intros K; specialize (HT _ K); lia). rewrite DA by lia. reflexivity. }
  assert (TG : forall p j k, In (j, S k) (edges J p) -> p = 1).
  { intros p j k Hp. apply NJ in Hp. apply TN in Hp as [Hp| ->]; [|reflexivity]. destruct p as [|[|[|p]]]; cbn in Hp; try tauto. destruct Hp as [Hp|[]]. discriminate. }
  assert (E0 : edges J 0 = [(1, 0)]).
  { unfold dests in D0. destruct (edges J 0) as [|[d t] [|? ?]] eqn:E; try discriminate. injection D0 as ->. destruct t as [|t]; [reflexivity|]. specialize (TG 0 1 t). rewrite E in TG. specialize (TG (or_introl eq_refl)). discriminate. }
  split; [exact TG|]. split; [|split; [|split; [exact E0|rewrite J1; lia]]].
  - unfold incoming. rewrite J1. change (seq 0 (S (length A))) with (0 :: seq 1 (length A)). cbn [flat_map]. fold (tonode J 0). rewrite E0. cbn [filter fst map app]. change (1 =? 1) with true. cbn [map app]. f_equal.
    assert (G : forall l, (forall i, In i l -> 1 <= i) -> flat_map (fun i => map (fun _ => i) (filter (fun t => fst t =? 1) (atrs (nth i J blank)))) l = []).
    { induction l as [|i l IH]; intros Hl; [reflexivity|]. cbn [flat_map]. rewrite IH by (intros x Hx; apply Hl; right; exact Hx). rewrite app_nil_r.
      assert (forall t, In t (edges J i) -> (fst t =? 1) = false) as Q.
      { intros [d t] Ht. cbn. apply Nat.eqb_neq. intros ->. assert (K : In 1 (dests J i)) by (apply in_dests; eauto). apply J4 in K as [K|[_ K]].
        - specialize (Hl i (or_introl eq_refl)). destruct (Nat.eq_dec i 1) as [->|N1]; [apply NA in K as [K|K]; [|lia]; rewrite B4 in K; destruct K|]. specialize (YA i 1 ltac:(lia) K). lia.
        - lia. }
      fold (tonode J i). clear - Q. induction (edges J i) as [|t ts IH]; [reflexivity|]. cbn [filter]. rewrite Q by (left; reflexivity). apply IH. intros x Hx. apply Q. right. exact Hx. }
    apply G. intros i Hi. apply in_seq in Hi. lia.
  - assert (R : rd J 1 = []) by (rewrite J2, RA by lia; reflexivity). unfold rd in R. destruct (nt (tonode J 1)); try discriminate. reflexivity.
Qed.
(** Every node but the first can be entered from an earlier one. *)
Definition backed (M : atn) : Prop := forall i, 1 <= i < length M -> exists j, j < i /\ In i (dests M j).
Lemma backed_upd M k d t : k < length M -> backed M -> backed (upd_nth M k (add_atr d t)).
Proof. intros H B i Hi. rewrite upd_len in Hi. destruct (B i Hi) as (j & L & J). exists j. split; [exact L|]. rewrite upd_dests by exact H. apply in_or_app. auto. Qed.
Lemma backed_add M from tag : from < length M -> backed M -> backed (add_node M from tag).
Proof.
  intros H B i Hi. rewrite add_node_len in Hi. destruct (Nat.eq_dec i (length M)) as [->|N0].
  - exists from. split; [lia|]. rewrite add_node_dests by exact H. rewrite Nat.eqb_refl. apply in_or_app. right. left. reflexivity.
  - destruct (B i ltac:(lia)) as (j & L & J). exists j. split; [exact L|]. rewrite add_node_dests by exact H. apply in_or_app. auto.
Qed.
Lemma backed_push M n : 1 <= length M -> backed M -> backed (push_node M n).
Proof.
  intros H B i Hi. rewrite push_node_len in Hi. destruct (Nat.eq_dec i (length M)) as [->|N0].
  - exists (length M - 1). split; [lia|]. rewrite push_node_dests by exact H. rewrite Nat.eqb_refl. apply in_or_app. right. left. reflexivity.
  - destruct (B i ltac:(lia)) as (j & L & J). exists j. split; [exact L|]. rewrite push_node_dests by exact H. apply in_or_app. auto.
Qed.
Lemma backed_quant q M o a : o < length M -> backed M -> backed (quantM q M o a).
Proof.
  intros H B. destruct q; cbn [quantM]; [exact B|..].
  - assert (B1 := backed_add M (length M - 1) 0 ltac:(lia) B). set (M1 := add_node M (length M - 1) 0) in *. assert (L1 : length M1 = S (length M)) by apply add_node_len.
    assert (B2 := backed_upd M1 (length M1 - 1) a 0 ltac:(lia) B1). set (M2 := upd_nth M1 _ _) in *. assert (L2 : length M2 = length M1) by apply upd_len.
    apply backed_upd; [rewrite add_node_len; lia|]. apply backed_add; [lia|exact B2].
  - apply backed_upd; [rewrite add_node_len; lia|]. apply backed_add; [lia|exact B].
  - apply backed_upd; [rewrite add_node_len; lia|]. apply backed_add; [lia|exact B].
Qed.
Lemma backed_join A terms : (forall t, In t terms -> t < length A) -> terms <> [] -> backed A -> backed (join A terms).
Proof.
  intros H N0 B i Hi. destruct (join_facts A terms H) as (J1 & _ & _ & J4). rewrite J1 in Hi. destruct (Nat.eq_dec i (length A)) as [->|N1].
  - destruct terms as [|t terms]; [congruence|]. exists t. split; [apply H; left; reflexivity|]. apply J4. right. split; [left; reflexivity|reflexivity].
  - destruct (B i ltac:(lia)) as (j & L & J). exists j. split; [exact L|]. apply J4. auto.
Qed.
Lemma build_backed ws :
  (forall a M, 1 <= length M -> closed M -> backed M -> backed (batom ws a M)) /\
  (forall s M, 1 <= length M -> closed M -> backed M -> backed (bseq ws s M)) /\
  (forall e M, 1 <= length M -> closed M -> dests M (length M - 1) = [] -> backed M ->
     backed (fst (fst (balts ws e M (length M - 1)))) /\ snd (balts ws e M (length M - 1)) <> []).
Proof.
  apply g_ind.
  - intros x M H C B. cbn [batom]. unfold push_term. destruct (term_nty x); try (apply backed_push; assumption); destruct ws; try (apply backed_push; assumption);
      (apply backed_push; [rewrite push_node_len; lia|apply backed_push; assumption]).
  - intros e IH M H C B. cbn [batom]. rewrite add_node_last by exact H.
    assert (L : length (push_node M NBlank) = S (length M)) by apply push_node_len.
    assert (CB : closed (push_node M NBlank)) by (apply push_node_closed; assumption).
    assert (DB : dests (push_node M NBlank) (length (push_node M NBlank) - 1) = []).
    { rewrite L. replace (S (length M) - 1) with (length M) by lia. rewrite push_node_dests, dests_out by lia.
      destruct (length M =? length M - 1) eqn:E; [apply Nat.eqb_eq in E; lia|reflexivity]. }
    pose proof (proj2 (proj2 (build_exact ws)) e (push_node M NBlank) ltac:(lia) CB DB) as (_ & _ & HT & _).
    specialize (IH (push_node M NBlank) ltac:(lia) CB DB (backed_push _ _ H B)).
    destruct (balts ws e (push_node M NBlank) (length (push_node M NBlank) - 1)) as [[A prio] terms]. cbn [fst snd] in *. destruct IH as [IH1 IH2].
    apply backed_join; [intros t Ht; specialize (HT t Ht); lia|exact IH2|exact IH1].
  - intros M H C B. exact B.
  - intros a IHa q s IHs M H C B. cbn [bseq].
    pose proof (proj1 (build_exact ws) a M H C) as A. pose proof (quant_adds q M _ _ H C A) as Q. destruct (adds_closed _ _ _ Q) as [Q1 Q2]. destruct A as (_ & _ & L & _).
    apply IHs; [exact Q2|exact Q1|]. apply backed_quant; [lia|]. apply IHa; assumption.
  - intros s IH M H C D B. cbn [balts fst snd]. split; [|discriminate]. apply IH; [rewrite add_node_len; lia|apply add_node_closed; [lia|exact C]|apply backed_add; [lia|exact B]].
  - intros e IHe up s IHs M H C D B. cbn [balts]. pose proof (proj2 (proj2 (build_exact ws)) e M H C D) as (CA & (LA & _) & _). specialize (IHe M H C D B).
    destruct (balts ws e M (length M - 1)) as [[A prio] terms]. cbn [fst snd] in *. destruct IHe as [IHe _]. split; [|destruct terms; discriminate].
    apply IHs; [rewrite add_node_len; lia|apply add_node_closed; [lia|exact CA]|apply backed_add; [lia|exact IHe]].
Qed.
Lemma drop_total_loop l : forall M mask, backed M -> (forall i, In i l -> 1 <= i < length M) -> fold_left drop_step l (Some (M, mask)) <> None.
Proof.
  induction l as [|i l IH]; intros M mask B Hl; [discriminate|].
  change (fold_left drop_step (i :: l) (Some (M, mask))) with (fold_left drop_step l (drop_step (Some (M, mask)) i)).
  assert (G : exists M' mask', drop_step (Some (M, mask)) i = Some (M', mask') /\ length M' = length M /\ backed M').
  { cbn [drop_step]. destruct (nt _); try (eexists; eexists; split; [reflexivity|]; split; [reflexivity|exact B]).
    destruct (incoming M i) as [|o [|? ?]] eqn:Ei; try (eexists; eexists; split; [reflexivity|]; split; [reflexivity|exact B]).
    destruct (B i (Hl i (or_introl eq_refl))) as (j & Lj & Hj). assert (j = o) as ->.
    { assert (K : In j (incoming M i)) by (apply in_incoming; apply in_dests; exact Hj). rewrite Ei in K. destruct K as [K|[]]; auto. }
    destruct (o =? i) eqn:E; [apply Nat.eqb_eq in E; lia|]. eexists; eexists; split; [reflexivity|]. split; [apply upd_len|].
    intros x Hx. rewrite upd_len in Hx. destruct (B x Hx) as (y & Ly & Hy). exists y. split; [exact Ly|]. apply in_dests in Hy as [t Hy]. apply in_dests. exists t. apply drop_edges; [apply (incoming_lt _ _ _ Ei)|auto]. }
  destruct G as (M' & mask' & -> & L & B'). apply IH; [exact B'|]. intros x Hx. rewrite L. apply Hl. right. exact Hx.
Qed.
Theorem body_facts ws e : closed (build_body ws e) /\ 1 <= length (build_body ws e) /\ exists M', drop_passthrough (build_body ws e) = Some M'.
Proof.
  destruct body_base as (B1 & B2 & _). assert (B0 : backed [blank]) by (intros i Hi; cbn in Hi; lia).
  pose proof (proj1 (build_exact ws) (GGroup e) [blank] B1 B2) as A. destruct (atomic_closed _ _ _ A) as (A1 & A2 & A3).
  split; [exact A1|]. split; [exact A3|]. unfold drop_passthrough.
  pose proof (drop_total_loop (seq 1 (length (build_body ws e) - 2)) (build_body ws e) (repeat true (length (build_body ws e))) (proj1 (build_backed ws) (GGroup e) [blank] B1 B2 B0)) as T.
  destruct (fold_left _ _ _) as [[M' mask]|]; [eauto|]. exfalso. apply T; [|reflexivity]. intros i Hi. apply in_seq in Hi. lia.
Qed.
