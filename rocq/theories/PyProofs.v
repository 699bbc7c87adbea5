(** The Python mode does what the in-process mode does. *)
From Coq Require Import List NArith ZArith Bool Lia Arith Cantor ZifyBool ZifyN ZifyNat.
From Verif Require Import Marker Reduction TreeSpec ReductionProofs PyReduction PySpec.
Import ListNotations.
Local Open Scope nat_scope.

Lemma F2_firstn {A B} (P : A -> B -> Prop) l l' n : Forall2 P l l' -> Forall2 P (firstn n l) (firstn n l').
Proof. intros H. revert n. induction H; intros [|n]; cbn; constructor; auto. Qed.
Lemma F2_skipn {A B} (P : A -> B -> Prop) l l' n : Forall2 P l l' -> Forall2 P (skipn n l) (skipn n l').
Proof. intros H. revert n. induction H; intros [|n]; cbn; try constructor; auto. Qed.
Lemma F2_rev {A B} (P : A -> B -> Prop) l l' : Forall2 P l l' -> Forall2 P (rev l) (rev l').
Proof. induction 1; cbn; [constructor|]. apply Forall2_app; [assumption|repeat constructor; assumption]. Qed.
Lemma F2_len {A B} (P : A -> B -> Prop) l l' : Forall2 P l l' -> length l = length l'.
Proof. induction 1; cbn; congruence. Qed.

(** ** Simulation *)
Section Sim.
Context {V : Type}.
Variable h : N -> N -> N -> list V -> option V.
Variable f : N -> N -> N -> list N -> N.
Variable R : N -> V -> Prop.
Hypothesis HR : forall id s e args vs, Forall2 R args vs ->
  match h id s e vs with None => f id s e args = 0%N | Some v => f id s e args <> 0%N /\ R (f id s e args) v end.
Variable eb : option Z.

Definition crel (c : call) (p : pcall V) : Prop :=
  c_id c = pc_id p /\ c_start c = pc_start p /\ c_end c = pc_end p /\ Forall2 R (c_args c) (pc_args p).
(** [rest]: the values of the current chunk the in-process merger has not taken yet. *)
Definition rel (rest : list N) (s : stacks) (p : pst V) : Prop :=
  starts s = q_starts p /\ ends s = q_ends p /\ tags s = q_tags p /\ Forall2 crel (log s) (q_log p) /\
  exists pend rst, concat (q_iters p) = pend ++ rst /\ length pend = N.to_nat (q_count p) /\
    Forall2 R (values s) (rev pend ++ q_vals p) /\ Forall2 R rest rst.

Lemma pull_ok (its : list (list V)) : forall n vals pend rst, concat its = pend ++ rst -> length pend = n ->
  exists its', pull n its vals = Ok (its', rev pend ++ vals) /\ concat its' = rst.
Proof.
  induction its as [|it its IH]; intros n vals pend rst E L.
  - cbn in E. symmetry in E. apply app_eq_nil in E as [-> ->]. cbn in L. subst n. exists []. auto.
  - destruct n as [|n]; [destruct pend; [|discriminate]; exists (it :: its); auto|].
    cbn [pull concat] in *. destruct (S n <=? length it) eqn:D.
    + assert (EA : firstn (S n) (it ++ concat its) = pend) by (rewrite E, firstn_app, <- L, firstn_all, Nat.sub_diag, firstn_O; apply app_nil_r).
      assert (EB : skipn (S n) (it ++ concat its) = rst) by (rewrite E, skipn_app, <- L, skipn_all, Nat.sub_diag; reflexivity).
      rewrite firstn_app in EA. rewrite skipn_app in EB. replace (S n - length it) with 0 in EA, EB by lia. rewrite firstn_O, app_nil_r in EA. 
      exists (skipn (S n) it :: its). rewrite <- EA. split; [reflexivity|]. exact EB.
    + assert (EA : firstn (length it) (pend ++ rst) = it) by (rewrite <- E, firstn_app, firstn_all, Nat.sub_diag, firstn_O; apply app_nil_r).
      assert (EB : skipn (length it) (pend ++ rst) = concat its) by (rewrite <- E, skipn_app, skipn_all, Nat.sub_diag; reflexivity).
      rewrite firstn_app in EA. rewrite skipn_app in EB. replace (length it - length pend) with 0 in EA, EB by lia. rewrite firstn_O, app_nil_r in EA.
      destruct (IH (S n - length it) (rev it ++ vals) (skipn (length it) pend) rst (eq_sym EB)) as (its' & H1 & H2); [rewrite skipn_length; lia|].
      exists its'. split; [|exact H2]. rewrite H1. f_equal. f_equal. rewrite app_assoc. f_equal. rewrite <- rev_app_distr. f_equal. rewrite <- EA at 1. apply firstn_skipn.
Qed.

Lemma reduce_rel rest m s p s' : rel rest s p -> reduce_by_end_marker f eb m s = Ok s' ->
  exists p', p_reduce h eb true m p = Ok p' /\ rel rest s' p' /\ q_count p' = 0%N.
Proof.
  intros (E1 & E2 & E3 & E4 & pend & rst & C1 & C2 & C3 & C4). unfold reduce_by_end_marker, p_reduce. rewrite E1, E3.
  destruct (q_starts p) as [|st starts']; [discriminate|]. destruct (q_tags p) as [|t tags']; [discriminate|]. cbn zeta.
  set (argc := if (t <? 1)%Z then 0 else Z.to_nat t). set (tags1 := if (t <? 1)%Z then t :: tags' else tags').
  destruct (length (values s) <? argc) eqn:EL; [discriminate|].
  destruct (pull_ok (q_iters p) (N.to_nat (q_count p)) (q_vals p) pend rst C1 C2) as (its' & P1 & P2).
  unfold p_callback. rewrite P1. cbn [obind]. unfold p_invoke. cbn [q_vals q_starts q_ends q_count q_tags q_iters q_log].
  rewrite <- (F2_len R _ _ C3), EL.
  set (vs := rev (firstn argc (rev pend ++ q_vals p))). set (args := rev (firstn argc (values s))).
  assert (FA : Forall2 R args vs) by (apply F2_rev, F2_firstn; exact C3).
  pose proof (HR (get_machine_id m) (get_offset st) (get_offset m) args vs FA) as HH.
  assert (FR : Forall2 R (skipn argc (values s)) (skipn argc (rev pend ++ q_vals p))) by (apply F2_skipn; exact C3).
  destruct tags1 as [|t1 tags2]; [discriminate|].
  assert (CL : crel (mkCall (get_machine_id m) (get_offset st) (get_offset m) args) (mkPCall (get_machine_id m) (get_offset st) (get_offset m) vs)) by (repeat split; exact FA).
  destruct (h (get_machine_id m) (get_offset st) (get_offset m) vs) as [v|].
  - destruct HH as [NZ RV]. unfold push_value. rewrite (proj2 (N.eqb_neq _ _) NZ). cbn [tags].
    destruct (bump_tag eb VALUE tags2) as [ts|] eqn:EB; [|discriminate]. cbn [obind]. intros X. injection X as <-.
    unfold p_push_value. change (1 =? 0)%N with false. cbn match. cbn [q_tags]. rewrite EB. cbn [obind].
    eexists. split; [reflexivity|]. split; [|reflexivity].
    repeat split; cbn; auto.
    exists [], rst. split; [exact P2|]. split; [reflexivity|]. split; [constructor; assumption|exact C4].
  - unfold push_value. rewrite HH. cbn. intros X. injection X as <-.
    eexists. split; [reflexivity|]. split; [|reflexivity]. repeat split; cbn; auto.
    exists [], rst. auto.
Qed.
Lemma p_reduce_false m p : q_count p = 0%N -> p_reduce h eb false m p = p_reduce h eb true m p.
Proof.
  intros E. unfold p_reduce. destruct (q_starts p); [reflexivity|]. destruct (q_tags p); [reflexivity|]. cbn zeta.
  unfold p_callback. rewrite E. cbn. assert (P0 : forall its vs, pull 0 its vs = Ok (its, vs) :> outc (list (list V) * list V)) by (intros [|? ?]; reflexivity).
  rewrite P0. cbn [obind]. rewrite <- E. destruct p. reflexivity.
Qed.

Definition rel2 (s : stacks) (p : pst V) : Prop := rel [] s p /\ q_count p = 0%N /\ q_iters p = [].
Lemma p_reduce_iters m p p' : q_count p = 0%N -> p_reduce h eb true m p = Ok p' -> q_iters p' = q_iters p.
Proof.
  intros E. unfold p_reduce. destruct (q_starts p); [discriminate|]. destruct (q_tags p) as [|t tg]; [discriminate|]. cbn zeta.
  unfold p_callback. rewrite E. cbn [N.to_nat]. assert (P0 : forall its vs, pull 0 its vs = Ok (its, vs) :> outc (list (list V) * list V)) by (intros [|? ?]; reflexivity).
  rewrite P0. cbn [obind]. unfold p_invoke. cbn [q_vals]. destruct (length (q_vals p) <? _); [discriminate|].
  destruct (h _ _ _ _); cbn [obind q_starts q_ends q_count q_tags q_vals q_iters q_log]; (destruct (if (t <? 1)%Z then t :: tg else tg); [discriminate|]); unfold p_push_value; cbn; [|intros X; injection X as <-; reflexivity].
  destruct (bump_tag eb VALUE _); [|discriminate]. cbn. intros X; injection X as <-. reflexivity.
Qed.
Lemma word_rel w s p s' : rel2 s p -> reduce_word f eb w s = Ok s' -> exists p', p_word h eb w p = Ok p' /\ rel2 s' p'.
Proof.
  intros (H & Hc & Hi). unfold reduce_word, p_word. pose proof H as (E1 & E2 & E3 & E4 & pend & rst & C1 & C2 & C3 & C4).
  destruct (is_start_marker w).
  - intros X. injection X as <-. eexists. split; [reflexivity|]. split; [|split; [exact Hc|exact Hi]].
    unfold rel, p_push_start, push_start_marker. cbn [starts ends tags log values q_starts q_ends q_tags q_log q_iters q_vals q_count]. rewrite E1, E2, E3. repeat split; auto. exists pend, rst. auto.
  - rewrite E1. destruct (q_starts p) eqn:ES.
    + intros X. injection X as <-. eexists. split; [reflexivity|]. split; [|split; [exact Hc|exact Hi]].
      unfold rel, p_push_end, push_end_marker. cbn [starts ends tags log values q_starts q_ends q_tags q_log q_iters q_vals q_count]. rewrite E1, E2, E3, ES. repeat split; auto. exists pend, rst. auto.
    + intros X. destruct (reduce_rel [] w s p s' H X) as (p' & P1 & P2 & P3). exists p'. rewrite p_reduce_false by exact Hc. split; [exact P1|]. split; [exact P2|]. split; [exact P3|].
      rewrite (p_reduce_iters w p p' Hc P1). exact Hi.
Qed.
Lemma words_rel ws : forall s p s', rel2 s p -> reduce_words f eb ws s = Ok s' -> exists p', p_words h eb ws p = Ok p' /\ rel2 s' p'.
Proof.
  induction ws as [|w ws IH]; intros s p s' H X; cbn in *; [injection X as <-; exists p; auto|].
  destruct (reduce_word f eb w s) as [s1|] eqn:E; [|discriminate]. destruct (word_rel w s p s1 H E) as (p1 & P1 & P2).
  rewrite P1. cbn [obind]. apply (IH s1 p1 s' P2 X).
Qed.

Definition vsum (ts : list Z) : nat := fold_right (fun t n => (if (t <? 1)%Z then 0 else Z.to_nat t) + n) 0 ts.
Lemma merge_rel ts : forall ss es vs s p s', rel vs s p -> length vs = vsum ts -> (forall t, In t ts -> (-1 <= t)%Z) ->
  merge_tags f eb ts ss es vs s = Ok s' -> exists p', p_merge h eb ts ss es p = Ok p' /\ rel [] s' p'.
Proof.
  induction ts as [|t ts IH]; intros ss es vs s p s' H L G X; cbn [merge_tags p_merge] in *.
  - injection X as <-. exists p. split; [reflexivity|]. destruct vs; [exact H|discriminate].
  - assert (Gt := G t (or_introl eq_refl)). assert (G' : forall t, In t ts -> (-1 <= t)%Z) by (intros x Hx; apply G; right; exact Hx).
    unfold vsum in L. cbn [fold_right] in L. fold (vsum ts) in L. unfold START_MARKER, END_MARKER in *.
    pose proof H as (E1 & E2 & E3 & E4 & pend & rst & C1 & C2 & C3 & C4).
    destruct (t =? -1)%Z eqn:D1; [replace (t <? 1)%Z with true in L by lia|destruct (t =? 0)%Z eqn:D2; [replace (t <? 1)%Z with true in L by lia|replace (t <? 1)%Z with false in L by lia]].
    + destruct ss as [|m ss]; [discriminate|]. apply (IH ss es vs (push_start_marker m s) (p_push_start m p) s'); [|exact L|exact G'|exact X].
      unfold rel, p_push_start, push_start_marker. cbn [starts ends tags log values q_starts q_ends q_tags q_log q_iters q_vals q_count]. rewrite E1, E2, E3. repeat split; auto. exists pend, rst. auto.
    + destruct es as [|m es]; [discriminate|]. destruct (reduce_by_end_marker f eb m s) as [s1|] eqn:E; [|discriminate]. cbn [obind] in X.
      destruct (reduce_rel vs m s p s1 H E) as (p1 & P1 & P2 & _). rewrite P1. cbn [obind]. apply (IH ss es vs s1 p1 s' P2 L G' X).
    + destruct (length vs <? Z.to_nat t) eqn:EL; [discriminate|]. unfold append_value, p_append in *. rewrite <- E3.
      destruct (bump_tag eb t (tags s)) as [tg|] eqn:EB; [|discriminate]. cbn [obind] in *. refine (IH _ _ _ _ _ _ _ _ G' X).
      * repeat split; cbn; auto. exists (pend ++ firstn (Z.to_nat t) rst), (skipn (Z.to_nat t) rst).
        split; [rewrite <- app_assoc, firstn_skipn; exact C1|]. split; [rewrite app_length, C2, firstn_length; rewrite <- (F2_len R _ _ C4); lia|].
        split; [|apply F2_skipn; exact C4]. rewrite rev_app_distr, <- app_assoc. apply Forall2_app; [apply F2_rev, F2_firstn; exact C4|exact C3].
      * rewrite skipn_length. lia.
Qed.
End Sim.
