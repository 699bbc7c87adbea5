(** The nodes of a rule's network that read something are those of the terms of its body, in the order of the text. *)
From Coq Require Import List NArith Arith Bool Lia.
From Verif Require Import RegexSpec GrammarSpec NFA ATN ATNSem ATNBuild ATNOpt ATNLive ParserTree.
Import ListNotations.
Local Open Scope nat_scope.

Definition reading (n : nty) : bool := match n with NBlank => false | _ => true end.
Definition tnodes (M : atn) : list nty := filter reading (map nt M).
Lemma nts_upd M i f : (forall n, nt (f n) = nt n) -> map nt (upd_nth M i f) = map nt M.
Proof. intros H. revert i. induction M as [|n M IH]; intros i; [destruct i; reflexivity|]. destruct i; cbn; [rewrite H|rewrite IH]; reflexivity. Qed.
Lemma nts_add M from tag : map nt (add_node M from tag) = map nt M ++ [NBlank].
Proof. unfold add_node. rewrite map_app, nts_upd by reflexivity. reflexivity. Qed.
Lemma nts_push M n : map nt (push_node M n) = map nt M ++ [n].
Proof. unfold push_node. rewrite map_app, nts_upd by reflexivity. reflexivity. Qed.
Lemma tn_upd M i f : (forall n, nt (f n) = nt n) -> tnodes (upd_nth M i f) = tnodes M.
Proof. intros H. unfold tnodes. rewrite nts_upd by exact H. reflexivity. Qed.
Lemma tn_add M from tag : tnodes (add_node M from tag) = tnodes M.
Proof. unfold tnodes. rewrite nts_add, filter_app. cbn. apply app_nil_r. Qed.
Lemma tn_push M n : tnodes (push_node M n) = tnodes M ++ filter reading [n].
Proof. unfold tnodes. rewrite nts_push, filter_app. reflexivity. Qed.
Lemma tn_quant q M o a : tnodes (quantM q M o a) = tnodes M.
Proof. destruct q; cbn [quantM]; repeat first [rewrite tn_upd by reflexivity | rewrite tn_add]; reflexivity. Qed.
Lemma tn_join A terms : tnodes (join A terms) = tnodes A.
Proof.
  unfold join. assert (G : forall ts M, tnodes (fold_left (fun M from => upd_nth M from (add_atr (length M - 1) 0)) ts M) = tnodes M).
  { induction ts as [|t ts IH]; intros M; [reflexivity|]. cbn [fold_left]. rewrite IH. apply tn_upd. reflexivity. }
  rewrite G. unfold tnodes. rewrite map_app, filter_app. cbn. apply app_nil_r.
Qed.
Lemma build_tnodes ws :
  (forall a M, tnodes (batom ws a M) = tnodes M ++ flat_map (term_word ws) (gatom_terms a)) /\
  (forall s M, tnodes (bseq ws s M) = tnodes M ++ flat_map (term_word ws) (gseq_terms s)) /\
  (forall e M o, tnodes (fst (fst (balts ws e M o))) = tnodes M ++ flat_map (term_word ws) (gsel_terms e)).
Proof.
  apply g_ind.
  - intros x M. cbn [batom gatom_terms flat_map]. rewrite app_nil_r. destruct x as [id|s|p]; cbn [push_term term_nty term_word]; destruct ws; rewrite ?tn_push; cbn [filter reading]; rewrite <- ?app_assoc; reflexivity.
  - intros e IH M. cbn [batom gatom_terms]. specialize (IH (add_node M (length M - 1) 0) (length (add_node M (length M - 1) 0) - 1)). destruct (balts _ _ _ _) as [[A p] ts]. rewrite tn_join. cbn [fst] in IH. rewrite IH, tn_add. reflexivity.
  - intros M. cbn. rewrite app_nil_r. reflexivity.
  - intros a IHa q s IHs M. cbn [bseq gseq_terms]. rewrite IHs, tn_quant, IHa, flat_map_app, app_assoc. reflexivity.
  - intros s IH M o. cbn [balts fst gsel_terms]. rewrite IH, tn_add. reflexivity.
  - intros e IHe up s IHs M o. cbn [balts gsel_terms]. specialize (IHe M o). destruct (balts ws e M o) as [[A p] ts]. cbn [fst] in *. rewrite IHs, tn_add, IHe, flat_map_app, app_assoc. reflexivity.
Qed.
Lemma body_tnodes ws e : tnodes (build_body ws e) = flat_map (term_word ws) (gsel_terms e).
Proof. unfold build_body, bsel. rewrite (proj1 (build_tnodes ws) (GGroup e) [blank]). reflexivity. Qed.

Lemma seq_flat {A B} (g : A -> list B) (h : nat -> list B) (l : list A) d : forall k, (forall i, i < length l -> h (k + i) = g (nth i l d)) -> flat_map h (seq k (length l)) = flat_map g l.
Proof.
  induction l as [|x l IH]; intros k H; [reflexivity|]. cbn [length seq flat_map]. rewrite <- (Nat.add_0_r k) at 1. rewrite (H 0) by (cbn; lia). cbn [nth]. f_equal. apply IH. intros i Hi. replace (S k + i) with (k + S i) by lia. rewrite H by (cbn; lia). reflexivity.
Qed.
Lemma drop_tnodes M M' : drop_passthrough M = Some M' -> tnodes M' = tnodes M.
Proof.
  unfold drop_passthrough. destruct (fold_left _ _ _) as [[M1 mask]|] eqn:E; [|discriminate]. intros Q. injection Q as <-.
  assert (H1 : map nt M1 = map nt M /\ forall i, i < length M -> nth i mask false = false -> nt (nth i M blank) = NBlank).
  { assert (K : forall i, i < length M -> nth i (repeat true (length M)) false = false -> nt (nth i M blank) = NBlank).
    { intros i Hi H. rewrite (nth_indep _ false true) in H by (rewrite repeat_length; exact Hi). rewrite nth_repeat in H. discriminate. }
    revert K E. generalize (repeat true (length M)). generalize (seq 1 (length M - 2)). intros l. revert M. induction l as [|i l IH]; intros M mk HK E; [cbn in E; injection E as <- <-; auto|].
    change (fold_left drop_step (i :: l) (Some (M, mk))) with (fold_left drop_step l (drop_step (Some (M, mk)) i)) in E.
    destruct (drop_step (Some (M, mk)) i) as [[M2 mk2]|] eqn:E2; [|rewrite drop_none in E; discriminate].
    assert (G : map nt M2 = map nt M /\ forall i, i < length M -> nth i mk2 false = false -> nt (nth i M blank) = NBlank).
    { revert E2. cbn [drop_step]. destruct (nt (nth i M blank)) eqn:EN; try (intros Q; injection Q as <- <-; auto). destruct (incoming M i) as [|o [|? ?]]; try (intros Q; injection Q as <- <-; auto).
      destruct (o =? i); [discriminate|]. intros Q. injection Q as <- <-. split; [apply nts_upd; reflexivity|]. intros j Hj H. destruct (Nat.eq_dec j i) as [->|N0]; [exact EN|]. apply HK; [exact Hj|]. etransitivity; [|exact H]. clear - N0.
      revert i j N0. induction mk as [|b mk IH]; intros i j N0; [destruct i; reflexivity|]. destruct i as [|i], j as [|j]; cbn; try reflexivity; [congruence|]. apply IH. congruence. }
    destruct G as [G1 G2]. assert (GL : length M2 = length M) by (rewrite <- (map_length nt M2), G1, map_length; reflexivity).
    assert (GN : forall j, nt (nth j M2 blank) = nt (nth j M blank)) by (intros j; rewrite <- (map_nth nt M2 blank j), G1, map_nth; reflexivity).
    destruct (IH M2 mk2) as [I1 I2]; [intros j Hj H; rewrite GN; apply G2; [lia|exact H]|exact E|]. split; [congruence|]. intros j Hj H. rewrite <- GN. apply I2; [lia|exact H]. }
  destruct H1 as [H1 H2]. assert (GL : length M1 = length M) by (rewrite <- (map_length nt M1), H1, map_length; reflexivity).
  assert (GN : forall j, nt (nth j M1 blank) = nt (nth j M blank)) by (intros j; rewrite <- (map_nth nt M1 blank j), H1, map_nth; reflexivity).
  unfold tnodes, filter_atn. rewrite GL.
  assert (FM : forall l, filter reading (map nt (flat_map (fun i => if nth i mask false then [mkA (nt (nth i M1 blank)) (map (fun t => (new_index mask (fst t), snd t)) (filter (fun t => nth (fst t) mask false) (atrs (nth i M1 blank))))] else []) l)) =
                     flat_map (fun i => if nth i mask false then filter reading [nt (nth i M1 blank)] else []) l).
  { induction l as [|i l IH]; [reflexivity|]. cbn [flat_map]. rewrite map_app, filter_app, IH. destruct (nth i mask false); reflexivity. }
  rewrite FM. rewrite (seq_flat (fun n => filter reading [nt n]) _ M blank).
  - clear. induction M as [|n M IH]; [reflexivity|]. cbn [flat_map map]. rewrite IH. cbn [filter]. destruct (reading (nt n)); reflexivity.
  - intros i Hi. cbn [Nat.add]. destruct (nth i mask false) eqn:E0; [rewrite GN; reflexivity|]. rewrite (H2 i Hi E0). reflexivity.
Qed.
Lemma net_tnodes e M : net_for e M -> tnodes M = flat_map (term_word true) (gsel_terms e).
Proof. intros [->|H]; [apply body_tnodes|]. rewrite (drop_tnodes _ _ H). apply body_tnodes. Qed.

(** The patterns of a body and the nodes with patterns. *)
Definition pats_of (e : gsel) : list pat := flat_map (fun x => match x with TPat p => [p] | _ => [] end) (gsel_terms e).
Fixpoint pat_nodes (i : nat) (M : atn) : list (nat * nfa) :=
  match M with
  | [] => []
  | n :: M' => match nt n with NReg A => (i, A) :: pat_nodes (S i) M' | _ => pat_nodes (S i) M' end
  end.
Lemma pat_nodes_in M : forall k i A, In (i, A) (pat_nodes k M) <-> k <= i /\ nth_error (map nt M) (i - k) = Some (NReg A).
Proof.
  induction M as [|n M IH]; intros k i A; cbn [pat_nodes map].
  - split; [intros []|]. intros [_ H]. destruct (i - k); discriminate.
  - assert (R : In (i, A) (pat_nodes (S k) M) <-> S k <= i /\ nth_error (nt n :: map nt M) (i - k) = Some (NReg A)).
    { rewrite IH. split; intros [H1 H2]; (split; [exact H1|]).
      - replace (i - k) with (S (i - S k)) by lia. exact H2.
      - replace (i - k) with (S (i - S k)) in H2 by lia. exact H2. }
    destruct (nt n) as [|id|s|B|] eqn:E; cbn [In]; rewrite ?R; split; intros H.
    all: try (destruct H as [H1 H2]; split; [lia|exact H2]).
    all: try (destruct H as [H1 H2]; split; [|exact H2]; destruct (Nat.eq_dec i k) as [->|]; [rewrite Nat.sub_diag in H2; cbn in H2; discriminate|lia]).
    + destruct H as [H|[H1 H2]]; [injection H as -> ->; split; [lia|rewrite Nat.sub_diag; reflexivity]|split; [lia|exact H2]].
    + destruct H as [H1 H2]. destruct (Nat.eq_dec i k) as [->|]; [left; rewrite Nat.sub_diag in H2; cbn in H2; injection H2 as ->; reflexivity|right; split; [lia|exact H2]].
Qed.
Lemma pat_nodes_all M : forall k, map snd (pat_nodes k M) = flat_map (fun n => match n with NReg A => [A] | _ => [] end) (tnodes M).
Proof. induction M as [|n M IH]; intros k; [reflexivity|]. unfold tnodes in *. cbn [pat_nodes map]. destruct (nt n); cbn [filter reading flat_map map snd app]; rewrite ?IH; reflexivity. Qed.
Lemma net_pats e M : net_for e M -> map snd (pat_nodes 0 M) = map NFABuild.build_pat (pats_of e).
Proof.
  intros H. rewrite pat_nodes_all, (net_tnodes e M H). unfold pats_of. induction (gsel_terms e) as [|x l IH]; [reflexivity|].
  cbn [flat_map]. rewrite flat_map_app, IH, map_app. destruct x; reflexivity.
Qed.
Lemma pat_nodes_sorted M : forall k a b i j A B, a < b -> nth_error (pat_nodes k M) a = Some (i, A) -> nth_error (pat_nodes k M) b = Some (j, B) -> i < j.
Proof.
  induction M as [|n M IH]; intros k a b i j A B L H1 H2; [destruct a; discriminate|]. cbn [pat_nodes] in *. destruct (nt n) as [|id|s|C|]; try (eapply IH; eassumption).
  destruct b as [|b]; [lia|]. destruct a as [|a]; cbn in H1, H2; [|eapply (IH (S k) a b); [lia|eassumption..]].
  injection H1 as <- <-. apply nth_error_In in H2. apply pat_nodes_in in H2 as [H2 _]. lia.
Qed.
