(** * The networks of a grammar can be drawn (proofs for Properties_DrawAtn.v) *)
From Coq Require Import List NArith Arith Bool Lia.
From Verif Require Import CharClass NFA ATN ATNSem ATNBuild ATNOpt ATNLive GrammarSpec ParserTree DrawProofs DrawAtnProofs.
Import ListNotations.
Local Open Scope nat_scope.

Lemma new_index_mono mask a b : a <= b -> b <= length mask -> new_index mask a <= new_index mask b.
Proof. intros Hab. induction Hab as [|b Hab IHb]; intros Hb; [lia|]. rewrite new_index_S by lia. specialize (IHb ltac:(lia)). lia. Qed.
Lemma new_index_onto mask n : n <= length mask -> forall p, p < new_index mask n -> exists i, i < n /\ maskf mask i = true /\ new_index mask i = p.
Proof.
  induction n as [|n IH]; intros Hn p Hp; [destruct mask; cbn in Hp; lia|]. rewrite new_index_S in Hp by lia. destruct (maskf mask n) eqn:E.
  - destruct (Nat.eq_dec p (new_index mask n)) as [->|NE]; [exists n; auto|]. destruct (IH ltac:(lia) p ltac:(lia)) as (i & A & B). exists i. split; [lia|exact B].
  - destruct (IH ltac:(lia) p ltac:(lia)) as (i & A & B). exists i. split; [lia|exact B].
Qed.
(** During drop_passthrough: the ends are kept, and every node that is kept can be entered from an earlier one that is kept. *)
Definition keeps (M0 M : atn) (mask : list bool) : Prop :=
  length M = length M0 /\ length mask = length M0 /\ maskf mask 0 = true /\ maskf mask (length M0 - 1) = true /\
  (forall i, nt (tonode M i) = nt (tonode M0 i)) /\
  (forall i, 1 <= i < length M -> maskf mask i = true -> exists j, j < i /\ maskf mask j = true /\ In i (dests M j)).
Lemma maskf_upd mask i j : i < length mask -> maskf (upd_nth mask i (fun _ => false)) j = if j =? i then false else maskf mask j.
Proof. intros H. unfold maskf. apply (upd_nth_nth mask i (fun _ => false) false j H). Qed.
Lemma keeps_step M0 M mask i : keeps M0 M mask -> 1 <= i -> i < length M0 - 1 -> maskf mask i = true ->
  exists M' mask', drop_step (Some (M, mask)) i = Some (M', mask') /\ keeps M0 M' mask' /\ forall j, i < j -> maskf mask' j = maskf mask j.
Proof.
  intros (K1 & K2 & K3 & K4 & K5 & K6) I1 I2 I3. cbn [drop_step].
  assert (T : exists M' mask', Some (M, mask) = Some (M', mask') /\ keeps M0 M' mask' /\ forall j, i < j -> maskf mask' j = maskf mask j) by (exists M, mask; repeat split; auto).
  destruct (nt (nth i M blank)); try exact T. destruct (incoming M i) as [|o [|? ?]] eqn:Ei; try exact T. clear T.
  destruct (K6 i ltac:(lia) I3) as (j & Lj & Mj & Hj). assert (j = o) as ->.
  { assert (K : In j (incoming M i)) by (apply in_incoming; apply in_dests; exact Hj). rewrite Ei in K. destruct K as [K|[]]; auto. }
  destruct (o =? i) eqn:E; [apply Nat.eqb_eq in E; lia|]. pose proof (incoming_lt _ _ _ Ei) as Lo. eexists; eexists; split; [reflexivity|].
  assert (MU : forall j, maskf (upd_nth mask i (fun _ => false)) j = if j =? i then false else maskf mask j) by (intros j; apply maskf_upd; lia).
  split.
  - split; [rewrite upd_len; exact K1|]. split; [rewrite upd_len; exact K2|]. rewrite !MU. split; [destruct (0 =? i) eqn:Z; [apply Nat.eqb_eq in Z; lia|exact K3]|].
    split; [destruct (length M0 - 1 =? i) eqn:Z; [apply Nat.eqb_eq in Z; lia|exact K4]|]. split.
    + intros x. rewrite <- K5. unfold tonode. rewrite upd_nth_nth by exact Lo. destruct (x =? o); reflexivity.
    + intros x Hx Mx. rewrite upd_len in Hx. rewrite MU in Mx. destruct (x =? i) eqn:Xi; [discriminate|]. destruct (K6 x Hx Mx) as (y & Ly & My & Hy). apply in_dests in Hy as [t Hy].
      destruct (Nat.eq_dec y i) as [->|Ny].
      * exists o. split; [lia|]. rewrite MU, E. split; [exact Mj|]. apply in_dests. exists t. apply drop_edges; [exact Lo|]. right. auto.
      * exists y. split; [exact Ly|]. rewrite MU, (proj2 (Nat.eqb_neq y i) Ny). split; [exact My|]. apply in_dests. exists t. apply drop_edges; [exact Lo|]. auto.
  - intros y Hy. rewrite MU. destruct (y =? i) eqn:Z; [apply Nat.eqb_eq in Z; lia|reflexivity].
Qed.
Lemma keeps_loop M0 n : forall i M mask, keeps M0 M mask -> 1 <= i -> i + n <= length M0 - 1 -> (forall j, i <= j -> j < length M0 -> maskf mask j = true) ->
  exists M' mask', fold_left drop_step (seq i n) (Some (M, mask)) = Some (M', mask') /\ keeps M0 M' mask'.
Proof.
  induction n as [|n IH]; intros i M mask K I1 I2 HM; [exists M, mask; auto|].
  change (fold_left drop_step (seq i (S n)) (Some (M, mask))) with (fold_left drop_step (seq (S i) n) (drop_step (Some (M, mask)) i)).
  destruct (keeps_step M0 M mask i K I1 ltac:(lia) (HM i ltac:(lia) ltac:(lia))) as (M1 & mask1 & E & K1 & KM). rewrite E.
  apply IH; [exact K1|lia|lia|]. intros j Hj Hj2. rewrite KM by lia. apply HM; lia.
Qed.
Lemma maskf_repeat n i : i < n -> maskf (repeat true n) i = true.
Proof. intros H. unfold maskf. revert n H. induction i as [|i IH]; intros [|n] H; try lia; [reflexivity|]. apply IH. lia. Qed.
Theorem drop_backed M : 2 <= length M -> backed M -> nt (tonode M 0) = NBlank -> nt (tonode M (length M - 1)) = NBlank ->
  exists M', drop_passthrough M = Some M' /\ 2 <= length M' /\ backed M' /\ nt (tonode M' 0) = NBlank /\ nt (tonode M' (length M' - 1)) = NBlank.
Proof.
  intros L B F0 F1.
  assert (K : keeps M M (repeat true (length M))).
  { split; [reflexivity|]. split; [apply repeat_length|]. split; [apply maskf_repeat; lia|]. split; [apply maskf_repeat; lia|]. split; [reflexivity|]. intros i Hi _. destruct (B i Hi) as (j & A1 & A2). exists j. split; [exact A1|]. split; [apply maskf_repeat; lia|exact A2]. }
  destruct (keeps_loop M (length M - 2) 1 M (repeat true (length M)) K ltac:(lia) ltac:(lia)) as (M1 & mask & E & (K1 & K2 & K3 & K4 & K5 & K6)); [intros j _ Hj; apply maskf_repeat; exact Hj|].
  exists (filter_atn M1 mask). unfold drop_passthrough. rewrite E. split; [reflexivity|]. rewrite filter_eq.
  destruct (filter_prefix M1 mask (length M1) ltac:(lia)) as [L1 L2]. cbv zeta in *. set (F := flat_map _ _) in *.
  assert (Z : new_index mask 0 = 0) by (destruct mask; reflexivity).
  assert (LF : length F = S (new_index mask (length M - 1))).
  { rewrite L1. replace (length M1) with (S (length M - 1)) by lia. rewrite new_index_S, K4 by lia. lia. }
  assert (L0 : 1 <= new_index mask (length M - 1)).
  { pose proof (new_index_mono mask 1 (length M - 1) ltac:(lia) ltac:(lia)) as P. rewrite new_index_S, K3 in P by lia. lia. }
  split; [lia|]. split; [|split].
  - intros p Hp. rewrite L1 in Hp. destruct (new_index_onto mask (length M1) ltac:(lia) p ltac:(lia)) as (i & A1 & A2 & A3). subst p.
    assert (I0 : i <> 0) by (intros ->; lia). destruct (K6 i ltac:(lia) A2) as (j & J1 & J2 & J3). exists (new_index mask j). split.
    + pose proof (new_index_mono mask (S j) i ltac:(lia) ltac:(lia)) as P. rewrite new_index_S, J2 in P by lia. lia.
    + unfold dests, tonode. rewrite L2 by (lia || exact J2). cbn [fnode atrs]. rewrite map_map. cbn [fst]. apply in_dests in J3 as [t J3]. apply in_map_iff. exists (i, t). split; [reflexivity|]. apply filter_In. split; [exact J3|exact A2].
  - unfold tonode. rewrite <- Z. rewrite L2 by (lia || exact K3). cbn [fnode nt]. rewrite K5. exact F0.
  - unfold tonode. rewrite LF. replace (S (new_index mask (length M - 1)) - 1) with (new_index mask (length M - 1)) by lia. rewrite L2 by (lia || exact K4). cbn [fnode nt]. rewrite K5. exact F1.
Qed.

(** ** What holds of the networks, optimised any number of times *)
Definition kind_fine (n : nty) : Prop := match n with NInv r => dot_name r | NReg A => pattern_fine A | _ => True end.
Record drawable (M : atn) : Prop := { dw_len : 2 <= length M; dw_backed : backed M; dw_first : nt (tonode M 0) = NBlank; dw_last : nt (tonode M (length M - 1)) = NBlank;
  dw_closed : closed M; dw_kinds : kinds kind_fine M }.
Lemma drawable_fine M : drawable M -> net_fine M.
Proof.
  intros [L B F0 F1 C K]. split; [exists (tonode M 0); split; [apply nth_error_nth'; lia|exact F0]|]. split; [exists (tonode M (length M - 1)); split; [apply nth_error_nth'; lia|exact F1]|].
  intros n Hn. split; [|exact (K n Hn)]. intros t Ht. apply (In_nth _ _ blank) in Hn as (i & Hi & <-). apply (C i). apply in_dests. exists (snd t). destruct t. exact Ht.
Qed.
Lemma drawable_drop M : drawable M -> exists M', drop_passthrough M = Some M' /\ drawable M'.
Proof.
  intros [L B F0 F1 C K]. destruct (drop_backed M L B F0 F1) as (M' & E & L' & B' & F0' & F1'). exists M'. split; [exact E|]. split; auto; [exact (drop_closed _ _ E)|exact (drop_kinds _ _ _ K E)].
Qed.
Lemma join_nt A terms : (forall t, In t terms -> t < length A) -> nt (tonode (join A terms) (length A)) = NBlank.
Proof.
  unfold join. assert (G : forall terms M, (forall i, nt (tonode M i) = nt (tonode (A ++ [blank]) i)) -> nt (tonode (fold_left (fun M from => upd_nth M from (add_atr (length M - 1) 0)) terms M) (length A)) = NBlank).
  { clear terms. induction terms as [|t terms IH]; intros M HM; cbn [fold_left].
    - rewrite HM. unfold tonode. rewrite app_nth2 by lia. rewrite Nat.sub_diag. reflexivity.
    - apply IH. intros i. rewrite <- HM. clear. unfold tonode. generalize (length M - 1). intros d. revert t i. induction M as [|m M IH]; intros t i; [destruct t; reflexivity|]. destruct t as [|t], i as [|i]; cbn [upd_nth nth]; try reflexivity. apply IH. }
  intros _. apply G. reflexivity.
Qed.
Theorem body_drawable ws e : (forall x, In x (gsel_terms e) -> kind_fine (term_nty x)) -> drawable (build_body ws e).
Proof.
  intros HT. destruct body_base as (B1 & B2 & _). assert (B0 : backed [blank]) by (intros i Hi; cbn in Hi; lia).
  pose proof (proj1 (build_exact ws) (GGroup e) [blank] B1 B2) as A. destruct (atomic_closed _ _ _ A) as (A1 & A2 & A3). pose proof (body_wf ws e) as [W1 W2 W3 W4].
  split; [exact A2|exact (proj1 (build_backed ws) (GGroup e) [blank] B1 B2 B0)|exact W3| |exact W2|].
  - clear A A1 A2 A3 W1 W2 W3 W4. unfold build_body, bsel. cbn [batom]. rewrite add_node_last by exact B1.
    assert (CB : closed (push_node [blank] NBlank)) by (apply push_node_closed; assumption).
    assert (DB : dests (push_node [blank] NBlank) (length (push_node [blank] NBlank) - 1) = []) by reflexivity.
    pose proof (proj2 (proj2 (build_exact ws)) e (push_node [blank] NBlank) ltac:(cbn; lia) CB DB) as (_ & _ & HL & _).
    destruct (balts ws e (push_node [blank] NBlank) (length (push_node [blank] NBlank) - 1)) as [[A prio] terms]. cbn [fst snd] in HL.
    assert (HL' : forall t, In t terms -> t < length A) by (intros t Ht; specialize (HL t Ht); lia). destruct (join_facts A terms HL') as (J1 & _). rewrite J1. replace (S (length A) - 1) with (length A) by lia. apply join_nt. exact HL'.
  - apply body_kinds; cbn; auto.
Qed.
Lemma net_drawable e M : net_for e M -> (forall x, In x (gsel_terms e) -> kind_fine (term_nty x)) -> drawable M.
Proof.
  intros [->|H] HT; [apply body_drawable; exact HT|]. destruct (drawable_drop _ (body_drawable true e HT)) as (M' & E & D). congruence.
Qed.
