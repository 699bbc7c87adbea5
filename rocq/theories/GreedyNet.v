(** * The last node of the network of a rule has no way on *)
From Coq Require Import List NArith Arith Bool Lia.
From Verif Require Import RegexSpec GrammarSpec NFA ATN ATNSem ATNBuild ATNOpt ATNLive ParserTree.
Import ListNotations.
Local Open Scope nat_scope.

Lemma body_last ws e : dests (build_body ws e) (length (build_body ws e) - 1) = [].
Proof.
  destruct body_base as (B1 & B2 & B3 & B4). unfold build_body, bsel. cbn [batom]. change (add_node [blank] (length [blank] - 1) 0) with (push_node [blank] NBlank).
  pose proof (proj2 (proj2 (build_exact ws)) e (push_node [blank] NBlank) ltac:(cbn; lia) B3 B4) as (CA & _ & HT & _).
  change (length (push_node [blank] NBlank) - 1) with 1 in *. destruct (balts ws e (push_node [blank] NBlank) 1) as [[A prio] terms]. cbn [fst snd] in *.
  assert (HT' : forall t, In t terms -> t < length A) by (intros t Ht; specialize (HT t Ht); lia).
  destruct (join_facts A terms HT') as (J1 & _ & J3 & _). rewrite J1. replace (Datatypes.S (length A) - 1) with (length A) by lia.
  rewrite J3; [apply dests_out; lia|]. intros K. specialize (HT' _ K). lia.
Qed.
Lemma drop_last_loop l : forall M mask M' mask', fold_left drop_step l (Some (M, mask)) = Some (M', mask') -> dests M (length M - 1) = [] -> dests M' (length M' - 1) = [].
Proof.
  induction l as [|i l IH]; intros M mask M' mask' H HL; [cbn in H; injection H as <- <-; exact HL|].
  change (fold_left drop_step (i :: l) (Some (M, mask))) with (fold_left drop_step l (drop_step (Some (M, mask)) i)) in H.
  destruct (drop_step (Some (M, mask)) i) as [[M1 mask1]|] eqn:E; [|rewrite drop_none in H; discriminate]. apply (IH _ _ _ _ H). clear IH H. revert E. cbn [drop_step].
  destruct (nt _); try (intros E; injection E as <- <-; exact HL). destruct (incoming M i) as [|o [|? ?]] eqn:Ei; try (intros E; injection E as <- <-; exact HL). destruct (o =? i); [discriminate|]. intros E. injection E as <- <-.
  rewrite upd_len. pose proof (incoming_lt _ _ _ Ei) as Ho. unfold dests. rewrite to_upd by (right; exact Ho). destruct (length M - 1 =? o) eqn:Q; [|exact HL]. apply Nat.eqb_eq in Q. exfalso.
  assert (K : In o (incoming M i)) by (rewrite Ei; left; reflexivity). apply in_incoming in K as [tag K]. unfold dests in HL. rewrite Q in HL. apply map_eq_nil in HL. change (edges M o) with (edges M o) in K. fold (tonode M o) in K. rewrite HL in K. destruct K.
Qed.
Lemma drop_mask_last n k : forall i M mask M' mask', length mask = n -> i + k <= n - 1 -> maskf mask (n - 1) = true -> fold_left drop_step (seq i k) (Some (M, mask)) = Some (M', mask') -> maskf mask' (n - 1) = true.
Proof.
  induction k as [|k IH]; intros i M mask M' mask' HL Hk HM H; [cbn in H; injection H as <- <-; exact HM|].
  change (fold_left drop_step (seq i (Datatypes.S k)) (Some (M, mask))) with (fold_left drop_step (seq (Datatypes.S i) k) (drop_step (Some (M, mask)) i)) in H.
  destruct (drop_step (Some (M, mask)) i) as [[M1 mask1]|] eqn:E; [|rewrite drop_none in H; discriminate]. pose proof (drop_len_step _ _ _ _ _ _ eq_refl E) as [_ L].
  apply (IH (Datatypes.S i) M1 mask1 M' mask'); [lia|lia| |exact H]. revert E. cbn [drop_step]. destruct (nt _); try (intros E; injection E as <- <-; exact HM).
  destruct (incoming M i) as [|o [|? ?]]; try (intros E; injection E as <- <-; exact HM). destruct (o =? i); [discriminate|]. intros E. injection E as <- <-.
  unfold maskf. rewrite upd_nth_nth by lia. destruct (n - 1 =? i) eqn:Q; [apply Nat.eqb_eq in Q; lia|exact HM].
Qed.
Lemma drop_last M M' : 1 <= length M -> dests M (length M - 1) = [] -> drop_passthrough M = Some M' -> dests M' (length M' - 1) = [].
Proof.
  intros H1 HL HD. unfold drop_passthrough in HD. destruct (fold_left _ _ _) as [[M1 mask]|] eqn:E; [|discriminate]. injection HD as <-.
  pose proof (drop_last_loop _ _ _ _ _ E HL) as D1. destruct (drop_len_loop _ _ _ _ _ E) as [L1 L2]. rewrite repeat_length in L2.
  assert (ML : maskf mask (length M - 1) = true).
  { destruct (Nat.le_gt_cases 2 (length M)) as [L|L].
    - apply (drop_mask_last (length M) (length M - 2) 1 M (repeat true (length M)) M1 mask (repeat_length _ _)); [lia|rewrite maskf_repeat; apply Nat.ltb_lt; lia|exact E].
    - replace (length M - 2) with 0 in E by lia. cbn in E. injection E as _ <-. rewrite maskf_repeat. apply Nat.ltb_lt. lia. }
  rewrite filter_eq. destruct (filter_prefix M1 mask (length M1) ltac:(lia)) as [F1 F2]. cbv zeta in F1, F2. rewrite F1.
  assert (NI : new_index mask (length M1) - 1 = new_index mask (length M - 1)).
  { replace (length M1) with (Datatypes.S (length M - 1)) by lia. rewrite new_index_S by lia. rewrite ML. lia. }
  rewrite NI. unfold dests, tonode. rewrite F2 by (assumption || lia). cbn [fnode atrs]. rewrite L1 in D1. unfold dests in D1. apply map_eq_nil in D1. rewrite D1. reflexivity.
Qed.
(** Only the last node of the network of a rule has no way on. *)
Theorem net_last e M : net_for e M -> dests M (length M - 1) = [].
Proof.
  intros [->|H]; [apply body_last|]. apply (drop_last (build_body true e)); [apply body_wf|apply body_last|exact H].
Qed.
