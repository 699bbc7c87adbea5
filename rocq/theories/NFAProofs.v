From Coq Require Import List NArith Arith Bool Lia.
From Verif Require Import CharClass CharClassSpec CharClassProofs CharClassParse Stream RegexSpec NFA NFASem.
Import ListNotations.
Local Open Scope nat_scope.

(** ** Graph lemmas *)
Lemma nth_upd {A} (l : list A) i f d q :
  nth q (upd_nth l i f) d = if (q =? i)%nat && (i <? length l)%nat then f (nth i l d) else nth q l d.
Proof.
  revert i q. induction l as [|x l IH]; intros [|i] [|q]; cbn; try reflexivity.
  - destruct (q =? i)%nat; reflexivity.
  - rewrite IH. reflexivity.
Qed.
Lemma upd_length {A} (l : list A) i f : length (upd_nth l i f) = length l.
Proof. revert i. induction l as [|x l IH]; intros [|i]; cbn; auto. Qed.

Lemma edge_upd_app A i extra q lab d (f : nstate -> nstate) :
  (forall st, st = nth i A [] -> f st = st ++ extra) ->
  edge (upd_nth A i f) q lab d <->
  edge A q lab d \/ (q = i /\ i < length A /\ exists t, In t extra /\ tlab t = lab /\ tdest t = d).
Proof.
  intros Hf. unfold edge. rewrite nth_upd.
  match goal with |- context [if ?b then _ else _] => destruct b eqn:E end.
  - apply andb_true_iff in E as [E1 E2]. apply Nat.eqb_eq in E1. apply Nat.ltb_lt in E2. subst q.
    rewrite Hf by reflexivity. split.
    + intros (t & Hi & K). apply in_app_or in Hi as [Hi|Hi]; [left|right]; eauto 6.
    + intros [(t & Hi & K)|(_ & _ & t & Hi & K)]; exists t; split; auto; apply in_or_app; auto.
  - split; [auto|]. intros [H|(-> & Hl & _)]; [exact H|].
    rewrite Nat.eqb_refl in E. cbn [andb] in E. apply Nat.ltb_ge in E. lia.
Qed.
Lemma edge_app A B q lab d : edge (A ++ B) q lab d <-> edge A q lab d \/ (length A <= q /\ edge B (q - length A) lab d).
Proof.
  unfold edge. destruct (Nat.lt_ge_cases q (length A)) as [H|H].
  - rewrite app_nth1 by exact H. split; [auto|]. intros [K|[K _]]; [exact K|lia].
  - rewrite app_nth2 by lia. split; [auto|]. intros [(t & Hi & K)|[_ K]]; [|exact K].
    rewrite nth_overflow in Hi by lia. destruct Hi.
Qed.
Lemma edge_lt A q lab d : edge A q lab d -> q < length A.
Proof.
  intros (t & Hi & _). destruct (Nat.lt_ge_cases q (length A)); [assumption|].
  rewrite nth_overflow in Hi by lia. destruct Hi.
Qed.
Lemma edge_shift_tl k B q lab d :
  edge (map (shift k) (tl B)) q lab d <-> exists d0, edge B (S q) lab d0 /\ d = d0 + k.
Proof.
  unfold edge. assert (E : nth q (map (shift k) (tl B)) [] = shift k (nth (S q) B [])).
  { destruct B as [|b B]; cbn [tl map nth].
    - destruct q; reflexivity.
    - rewrite <- (map_nth (shift k)). reflexivity. }
  rewrite E. unfold shift. split.
  - intros (t & Hi & <- & <-). apply in_map_iff in Hi as (t0 & <- & Hi). exists (tdest t0). cbn. split; [|reflexivity].
    exists t0. auto.
  - intros (d0 & (t & Hi & <- & <-) & ->). exists (shift_tr k t). split; [apply in_map; exact Hi|]. auto.
Qed.
Lemma in_shift_hd k B lab d :
  (exists t, In t (shift k (hd [] B)) /\ tlab t = lab /\ tdest t = d) <-> exists d0, edge B 0 lab d0 /\ d = d0 + k.
Proof.
  unfold edge, shift. assert (E : nth 0 B [] = hd [] B) by (destruct B; reflexivity). rewrite E. split.
  - intros (t & Hi & <- & <-). apply in_map_iff in Hi as (t0 & <- & Hi). exists (tdest t0). cbn. split; [|reflexivity].
    exists t0. auto.
  - intros (d0 & (t & Hi & <- & <-) & ->). exists (shift_tr k t). split; [apply in_map; exact Hi|]. auto.
Qed.

Definition wf (A : nfa) : Prop := 2 <= length A /\ forall q lab d, edge A q lab d -> 1 <= d /\ d < length A.

Lemma add_tr_eps d lg st : add_tr [] d lg st = st ++ [mkT [] d lg].
Proof. reflexivity. Qed.
Lemma merge_tr_none st cc d lg : (forall t, In t st -> tdest t <> d) -> merge_tr st cc d lg = None.
Proof.
  induction st as [|t st IH]; intros H; cbn; [reflexivity|].
  assert (E : (tdest t =? d)%nat = false) by (apply Nat.eqb_neq; apply H; cbn; auto). rewrite E. cbn.
  rewrite IH; [reflexivity|]. intros; apply H; cbn; auto.
Qed.
Lemma add_tr_fresh cc d lg st : (forall t, In t st -> tdest t <> d) -> add_tr cc d lg st = st ++ [mkT cc d lg].
Proof. intros H. unfold add_tr. destruct (is_epsilon cc); [reflexivity|]. rewrite merge_tr_none by exact H. reflexivity. Qed.

Lemma ex_single (t0 : ntr) lab d :
  (exists t, In t [t0] /\ tlab t = lab /\ tdest t = d) <-> tlab t0 = lab /\ tdest t0 = d.
Proof. split; [intros (t & [<-|[]] & K); exact K|intros K; exists t0; cbn; auto]. Qed.

Lemma edge_add_state A cc q lab d : wf A ->
  edge (add_state A cc) q lab d <-> edge A q lab d \/ (q = length A - 1 /\ lab = cc /\ d = length A).
Proof.
  intros [HA HE]. unfold add_state. rewrite edge_app, (edge_upd_app _ _ [mkT cc (length A) false]).
  - rewrite ex_single. cbn [tlab tdest].
    assert (X : ~ edge [[]] (q - length (upd_nth A (length A - 1) (add_tr cc (length A) false))) lab d).
    { intros (t & Hi & _). destruct (q - _) as [|[|]]; destruct Hi. }
    split; [intros [[H|(H1 & _ & <- & <-)]|[_ H]]; auto; tauto|].
    intros [H|(-> & -> & ->)]; left; [auto|right]. repeat split; lia.
  - intros st ->. apply add_tr_fresh. intros t Hi E.
    assert (edge A (length A - 1) (tlab t) (length A)) by (exists t; auto). apply HE in H. lia.
Qed.
Lemma add_state_length A cc : length (add_state A cc) = S (length A).
Proof. unfold add_state. rewrite app_length, upd_length. cbn. lia. Qed.
Lemma edge_add_to A x lg q lab d : 1 <= length A ->
  edge (add_to A [] x lg) q lab d <-> edge A q lab d \/ (q = length A - 1 /\ lab = [] /\ d = x).
Proof.
  intros HA. unfold add_to. rewrite (edge_upd_app _ _ [mkT [] x lg]) by (intros; reflexivity).
  rewrite ex_single. cbn [tlab tdest]. split; [intros [H|(-> & _ & <- & <-)]; auto|].
  intros [H|(-> & -> & ->)]; [auto|right]. repeat split; lia.
Qed.
Lemma edge_add_from A x q lab d : x < length A ->
  edge (add_from A [] x) q lab d <-> edge A q lab d \/ (q = x /\ lab = [] /\ d = length A - 1).
Proof.
  intros HA. unfold add_from. rewrite (edge_upd_app _ _ [mkT [] (length A - 1) false]) by (intros; reflexivity).
  rewrite ex_single. cbn [tlab tdest]. split; [intros [H|(-> & _ & <- & <-)]; auto|].
  intros [H|(-> & -> & ->)]; [auto|right]. repeat split; auto.
Qed.
Lemma edge_concat A B q lab d : wf A ->
  edge (concat A B) q lab d <->
  edge A q lab d \/ exists q0 d0, edge B q0 lab d0 /\ q = q0 + (length A - 1) /\ d = d0 + (length A - 1).
Proof.
  intros [HA HE]. unfold concat. rewrite (edge_upd_app _ _ (shift (length A - 1) (hd [] B))) by (intros; reflexivity).
  rewrite in_shift_hd, edge_app. setoid_rewrite edge_shift_tl. rewrite app_length. split.
  - intros [[H|(Hq & d0 & H & ->)]|(-> & _ & d0 & H & ->)]; [left; exact H| |].
    + right. exists (S (q - length A)), d0. split; [exact H|]. split; lia.
    + right. exists 0, d0. split; [exact H|]. split; lia.
  - intros [H|(q0 & d0 & H & -> & ->)]; [left; left; exact H|].
    destruct q0 as [|q0].
    + right. split; [lia|]. split; [lia|]. exists d0. auto.
    + left. right. split; [lia|]. exists d0. split; [|reflexivity].
      replace (S (S q0 + (length A - 1) - length A)) with (S q0) by lia. exact H.
Qed.
Lemma concat_length A B : 1 <= length B -> length (concat A B) = length A + length B - 1.
Proof. intros H. unfold concat. rewrite upd_length, app_length, map_length. destruct B; cbn in *; lia. Qed.

Lemma wf_add_state A cc : wf A -> wf (add_state A cc).
Proof.
  intros HW. split; [rewrite add_state_length; destruct HW; lia|].
  intros q lab d H. rewrite add_state_length. apply edge_add_state in H; [|exact HW].
  destruct HW as [HA HE]. destruct H as [H|(_ & _ & ->)]; [apply HE in H; lia|lia].
Qed.
Lemma wf_add_to A x lg : wf A -> 1 <= x -> x < length A -> wf (add_to A [] x lg).
Proof.
  intros [HA HE] H1 H2. split; [unfold add_to; rewrite upd_length; lia|].
  intros q lab d H. unfold add_to at 1. rewrite upd_length. apply edge_add_to in H; [|lia].
  destruct H as [H|(_ & _ & ->)]; [apply HE in H; lia|lia].
Qed.
Lemma wf_add_from A x : wf A -> x < length A -> wf (add_from A [] x).
Proof.
  intros [HA HE] H2. split; [unfold add_from; rewrite upd_length; lia|].
  intros q lab d H. unfold add_from at 1. rewrite upd_length. apply edge_add_from in H; [|lia].
  destruct H as [H|(_ & _ & ->)]; [apply HE in H; lia|lia].
Qed.
Lemma wf_concat A B : wf A -> wf B -> wf (concat A B).
Proof.
  intros HW [HB HE']. pose proof HW as [HA HE]. split; [rewrite concat_length; lia|].
  intros q lab d H. rewrite concat_length by lia. apply edge_concat in H; [|exact HW].
  destruct H as [H|(q0 & d0 & H & _ & ->)]; [apply HE in H; lia|apply HE' in H; lia].
Qed.
Lemma wf_base : wf nfa_base.
Proof.
  split; [cbn; lia|]. intros q lab d (t & Hi & _ & <-).
  destruct q as [|[|[|q]]]; cbn in Hi; try destruct Hi as [<-|[]]; try destruct Hi. cbn. lia.
Qed.
Lemma edge_base q lab d : edge nfa_base q lab d <-> q = 0 /\ lab = [] /\ d = 1.
Proof.
  split.
  - intros (t & Hi & <- & <-). destruct q as [|[|[|q]]]; cbn in Hi; try destruct Hi as [<-|[]]; try destruct Hi. cbn. auto.
  - intros (-> & -> & ->). exists (mkT [] 1 false). cbn. auto.
Qed.

Definition selectE (A B : nfa) (q : nat) (lab : cclass) (d : nat) : Prop :=
  let n := length A in let m := length B in
  edge A q lab d \/ (q = 0 /\ lab = [] /\ d = n) \/
  (exists d0, edge B 0 lab d0 /\ q = 0 /\ d = d0 + (n - 1)) \/
  (exists q0 d0, 1 <= q0 /\ edge B q0 lab d0 /\ q = q0 + (n - 1) /\ d = d0 + (n - 1)) \/
  (q = n + m - 2 /\ lab = [] /\ d = n + m - 1) \/ (q = n - 1 /\ lab = [] /\ d = n + m - 1).

Lemma select_spec A B : wf A -> wf B ->
  length (select A B) = length A + length B /\ wf (select A B) /\
  forall q lab d, edge (select A B) q lab d <-> selectE A B q lab d.
Proof.
  intros [HA HE] [HB HE']. unfold select. set (n := length A) in *. set (m := length B) in *.
  set (A1 := upd_nth A 0 (add_tr [] n false)).
  assert (L1 : length A1 = n) by apply upd_length.
  assert (E1 : forall q lab d, edge A1 q lab d <-> edge A q lab d \/ (q = 0 /\ lab = [] /\ d = n)).
  { intros. unfold A1. rewrite (edge_upd_app _ _ [mkT [] n false]) by (intros; reflexivity). rewrite ex_single. cbn [tlab tdest].
    fold n. split; [intros [H|(-> & _ & <- & <-)]; auto|intros [H|(-> & -> & ->)]; [auto|right; repeat split; lia]]. }
  set (A2 := A1 ++ map (shift (n - 1)) (tl B)).
  assert (L2 : length A2 = n + m - 1).
  { unfold A2. rewrite app_length, map_length, L1. unfold m. destruct B; cbn in *; lia. }
  set (A3 := upd_nth A2 0 (fun st => st ++ shift (n - 1) (hd [] B))).
  assert (L3 : length A3 = n + m - 1) by (unfold A3; rewrite upd_length; exact L2).
  assert (E3 : forall q lab d, edge A3 q lab d <->
     edge A q lab d \/ (q = 0 /\ lab = [] /\ d = n) \/
     (exists d0, edge B 0 lab d0 /\ q = 0 /\ d = d0 + (n - 1)) \/
     (exists q0 d0, 1 <= q0 /\ edge B q0 lab d0 /\ q = q0 + (n - 1) /\ d = d0 + (n - 1))).
  { intros. unfold A3. rewrite (edge_upd_app _ _ (shift (n - 1) (hd [] B))) by (intros; reflexivity).
    rewrite in_shift_hd. unfold A2. rewrite edge_app, E1, edge_shift_tl, L1. fold A2. rewrite L2. split.
    - intros [[[H|H]|(Hq & d0 & H & ->)]|(-> & _ & d0 & H & ->)]; [auto|auto| |].
      + right. right. right. exists (S (q - n)), d0. split; [lia|]. split; [exact H|]. split; lia.
      + right. right. left. exists d0. auto.
    - intros [H|[H|[(d0 & H & -> & ->)|(q0 & d0 & Hq & H & -> & ->)]]]; [auto|auto| |].
      + right. split; [reflexivity|]. split; [lia|]. exists d0. auto.
      + left. right. split; [lia|]. exists d0. split; [|reflexivity].
        replace (S (q0 + (n - 1) - n)) with q0 by lia. exact H. }
  assert (W3 : wf A3).
  { split; [lia|]. intros q lab d H. rewrite L3. apply E3 in H as [H|[(-> & _ & ->)|[(d0 & H & _ & ->)|(q0 & d0 & _ & H & _ & ->)]]].
    - apply HE in H. fold n in H. lia.
    - lia.
    - apply HE' in H. fold m in H. lia.
    - apply HE' in H. fold m in H. lia. }
  set (A4 := add_state A3 []).
  assert (L4 : length A4 = n + m) by (unfold A4; rewrite add_state_length, L3; lia).
  split; [unfold add_from; rewrite upd_length; exact L4|].
  split; [apply wf_add_from; [apply wf_add_state; exact W3|lia]|].
  intros q lab d. rewrite edge_add_from by lia. unfold A4 at 1. rewrite edge_add_state by exact W3. rewrite E3, L4, L3.
  unfold selectE. fold n m. replace (n + m - 1 - 1) with (n + m - 2) by lia. tauto.
Qed.

(** ** Paths *)
Lemma path_app E q u r v s : path E q u r -> path E r v s -> path E q (u ++ v) s.
Proof.
  induction 1; intros H'; [exact H'|eapply p_eps; eauto|]. cbn. eapply p_chr; eauto.
Qed.
Lemma path_mono (E E' : nat -> cclass -> nat -> Prop) q w r :
  (forall a l b, E a l b -> E' a l b) -> path E q w r -> path E' q w r.
Proof. intros H. induction 1; [constructor|eapply p_eps; eauto|eapply p_chr; eauto]. Qed.
Lemma path_iso (E E' : nat -> cclass -> nat -> Prop) (f : nat -> nat) q w r :
  (forall a l b, E a l b -> E' (f a) l (f b)) -> path E q w r -> path E' (f q) w (f r).
Proof. intros H. induction 1; [constructor|eapply p_eps; eauto|eapply p_chr; eauto]. Qed.

(** concatenation *)
Lemma path_in_B A B q w r : wf A -> wf B ->
  path (edge (concat A B)) q w r -> forall q0, q = q0 + (length A - 1) -> 1 <= q0 ->
  exists r0, r = r0 + (length A - 1) /\ path (edge B) q0 w r0.
Proof.
  intros HA HB H. pose proof HA as [LA EA]. pose proof HB as [LB EB]. induction H as [q|q d w r He Hp IH|q lab ch d w r He Hi Hp IH]; intros q0 -> H1.
  - exists q0. split; [reflexivity|constructor].
  - apply edge_concat in He; [|exact HA]. destruct He as [He|(q1 & d1 & He & E1 & ->)]; [apply edge_lt in He; lia|].
    assert (q1 = q0) as -> by lia. destruct (EB _ _ _ He). destruct (IH d1 eq_refl) as (r0 & -> & P); [lia|].
    exists r0. split; [reflexivity|]. eapply p_eps; eauto.
  - apply edge_concat in He; [|exact HA]. destruct He as [He|(q1 & d1 & He & E1 & ->)]; [apply edge_lt in He; lia|].
    assert (q1 = q0) as -> by lia. destruct (EB _ _ _ He). destruct (IH d1 eq_refl) as (r0 & -> & P); [lia|].
    exists r0. split; [reflexivity|]. eapply p_chr; eauto.
Qed.
Lemma path_from_A A B q w r : wf A -> wf B ->
  path (edge (concat A B)) q w r -> q < length A -> length A <= r ->
  exists u v, w = u ++ v /\ path (edge A) q u (length A - 1) /\ exists r0, r = r0 + (length A - 1) /\ path (edge B) 0 v r0.
Proof.
  intros HA HB H. pose proof HA as [LA EA]. pose proof HB as [LB EB].
  induction H as [q|q d w r He Hp IH|q lab ch d w r He Hi Hp IH]; intros Hq Hr; [lia| |].
  - pose proof He as He0. apply edge_concat in He; [|exact HA]. destruct He as [He|(q1 & d1 & He & E1 & ->)].
    + destruct (EA _ _ _ He). destruct IH as (u & v & -> & P & Q); [lia|lia|]. exists u, v. split; [reflexivity|].
      split; [eapply p_eps; eauto|exact Q].
    + assert (q1 = 0) as -> by lia. destruct (EB _ _ _ He).
      destruct (path_in_B A B _ _ _ HA HB Hp d1 eq_refl) as (r0 & -> & P); [lia|].
      exists [], w. split; [reflexivity|]. split; [replace q with (length A - 1) by lia; constructor|].
      exists r0. split; [reflexivity|]. eapply p_eps; eauto.
  - apply edge_concat in He; [|exact HA]. destruct He as [He|(q1 & d1 & He & E1 & ->)].
    + destruct (EA _ _ _ He). destruct IH as (u & v & -> & P & Q); [lia|lia|]. exists (ch :: u), v. split; [reflexivity|].
      split; [eapply p_chr; eauto|exact Q].
    + assert (q1 = 0) as -> by lia. destruct (EB _ _ _ He).
      destruct (path_in_B A B _ _ _ HA HB Hp d1 eq_refl) as (r0 & -> & P); [lia|].
      exists [], (ch :: w). split; [reflexivity|]. split; [replace q with (length A - 1) by lia; constructor|].
      exists r0. split; [reflexivity|]. eapply p_chr; eauto.
Qed.
Lemma accepts_concat A B w : wf A -> wf B ->
  accepts (concat A B) w <-> exists u v, w = u ++ v /\ accepts A u /\ accepts B v.
Proof.
  intros HA HB. pose proof HA as [LA EA]. pose proof HB as [LB EB]. unfold accepts. rewrite concat_length by lia. split.
  - intros H. apply path_from_A in H as (u & v & -> & P & r0 & E & Q); [|exact HA|exact HB|lia|lia].
    exists u, v. split; [reflexivity|]. split; [exact P|]. replace (length B - 1) with r0 by lia. exact Q.
  - intros (u & v & -> & P & Q). eapply path_app.
    + eapply path_mono; [|exact P]. intros. apply edge_concat; [exact HA|]. auto.
    + apply (path_iso (edge B) (edge (concat A B)) (fun x => x + (length A - 1))) in Q.
      * replace (length A + length B - 1 - 1) with (length B - 1 + (length A - 1)) by lia. exact Q.
      * intros a l b H. apply edge_concat; [exact HA|]. right. eauto.
Qed.
(** words read from the final state back to itself *)
Definition tail (A : nfa) (w : list N) : Prop := path (edge A) (length A - 1) w (length A - 1).
Lemma tail_concat A B w : wf A -> wf B -> tail (concat A B) w <-> tail B w.
Proof.
  intros HA HB. pose proof HA as [LA EA]. pose proof HB as [LB EB]. unfold tail. rewrite concat_length by lia.
  replace (length A + length B - 1 - 1) with (length B - 1 + (length A - 1)) by lia. split.
  - intros H. eapply path_in_B in H; [|exact HA|exact HB|reflexivity|lia].
    destruct H as (r0 & E & P). replace (length B - 1) with r0 at 2 by lia. exact P.
  - intros H. apply (path_iso (edge B) (edge (concat A B)) (fun x => x + (length A - 1))) in H; [exact H|].
    intros a l b K. apply edge_concat; [exact HA|]. right. eauto.
Qed.

(** selection *)
Lemma sel_in_A A B q w r : wf A -> wf B -> path (edge (select A B)) q w r ->
  1 <= q < length A -> r = length A + length B - 1 -> path (edge A) q w (length A - 1).
Proof.
  intros HA HB H. pose proof HA as [LA EA]. pose proof HB as [LB EB]. destruct (select_spec A B HA HB) as (LS & WS & ES).
  induction H as [q|q d w r He Hp IH|q lab ch d w r He Hi Hp IH]; intros Hq Hr; [lia| |].
  - apply ES in He as [He|[(-> & _)|[(d0 & _ & -> & _)|[(q0 & d0 & H0 & _ & -> & _)|[(-> & _)|(-> & _ & ->)]]]]]; try lia.
    + destruct (EA _ _ _ He). eapply p_eps; [exact He|]. apply IH; lia.
    + inversion Hp as [|? ? ? ? He2 ?|? ? ? ? ? ? He2 ? ?]; subst; [apply p_nil| |]; exfalso; apply edge_lt in He2 as X;
        (apply ES in He2 as [He2|[(E & _)|[(? & _ & E & _)|[(? & ? & _ & He2 & E & _)|[(E & _)|(E & _)]]]]]; try lia);
        apply edge_lt in He2; lia.
  - apply ES in He as [He|[(-> & _)|[(d0 & _ & -> & _)|[(q0 & d0 & H0 & _ & -> & _)|[(-> & _)|(-> & -> & ->)]]]]]; try lia.
    + destruct (EA _ _ _ He). eapply p_chr; [exact He|exact Hi|]. apply IH; lia.
    + discriminate Hi.
Qed.
Lemma sel_in_B A B q w r : wf A -> wf B -> path (edge (select A B)) q w r ->
  forall q0, 1 <= q0 -> q = q0 + (length A - 1) -> q0 < length B -> r = length A + length B - 1 -> path (edge B) q0 w (length B - 1).
Proof.
  intros HA HB H. pose proof HA as [LA EA]. pose proof HB as [LB EB]. destruct (select_spec A B HA HB) as (LS & WS & ES).
  induction H as [q|q d w r He Hp IH|q lab ch d w r He Hi Hp IH]; intros q0 H1 Hq Hl Hr; [lia| |].
  - apply ES in He as [He|[(-> & _)|[(d0 & _ & -> & _)|[(q1 & d1 & H0 & He & E & ->)|[(-> & _ & ->)|(-> & _ & ->)]]]]]; try lia.
    + apply edge_lt in He. lia.
    + assert (q1 = q0) as -> by lia. destruct (EB _ _ _ He). eapply p_eps; [exact He|]. eapply IH; eauto; lia.
    + assert (q0 = length B - 1) as -> by lia.
      inversion Hp as [|? ? ? ? He2 ?|? ? ? ? ? ? He2 ? ?]; subst; [apply p_nil| |]; exfalso; apply edge_lt in He2 as X;
        (apply ES in He2 as [He2|[(E & _)|[(? & _ & E & _)|[(? & ? & _ & He2 & E & _)|[(E & _)|(E & _)]]]]]; try lia);
        apply edge_lt in He2; lia.
  - apply ES in He as [He|[(-> & _)|[(d0 & _ & -> & _)|[(q1 & d1 & H0 & He & E & ->)|[(-> & -> & ->)|(-> & -> & ->)]]]]]; try lia; try discriminate Hi.
    + apply edge_lt in He. lia.
    + assert (q1 = q0) as -> by lia. destruct (EB _ _ _ He). eapply p_chr; [exact He|exact Hi|]. eapply IH; eauto; lia.
Qed.
Lemma accepts_select A B w : wf A -> wf B -> edge B 0 [] 1 ->
  accepts (select A B) w <-> accepts A w \/ accepts B w.
Proof.
  intros HA HB B01. pose proof HA as [LA EA]. pose proof HB as [LB EB]. destruct (select_spec A B HA HB) as (LS & WS & ES).
  unfold accepts. rewrite LS. split.
  - intros H. inversion H as [|q d w' r He Hp|q lab ch d w' r He Hi Hp]; subst; [lia| |].
    + apply ES in He as [He|[(_ & _ & ->)|[(d0 & He & _ & ->)|[(q0 & d0 & H0 & _ & E & _)|[(E & _)|(E & _)]]]]]; try lia.
      * destruct (EA _ _ _ He). left. eapply p_eps; [exact He|]. apply (sel_in_A A B _ _ _ HA HB Hp); lia.
      * right. eapply p_eps; [exact B01|]. apply (sel_in_B A B _ _ _ HA HB Hp); lia.
      * destruct (EB _ _ _ He). right. eapply p_eps; [exact He|]. apply (sel_in_B A B _ _ _ HA HB Hp); lia.
    + apply ES in He as [He|[(_ & -> & ->)|[(d0 & He & _ & ->)|[(q0 & d0 & H0 & _ & E & _)|[(E & _)|(E & _)]]]]]; try lia.
      * destruct (EA _ _ _ He). left. eapply p_chr; [exact He|exact Hi|]. apply (sel_in_A A B _ _ _ HA HB Hp); lia.
      * discriminate Hi.
      * destruct (EB _ _ _ He). right. eapply p_chr; [exact He|exact Hi|]. apply (sel_in_B A B _ _ _ HA HB Hp); lia.
  - intros [H|H].
    + rewrite <- (app_nil_r w). eapply path_app.
      * eapply path_mono; [|exact H]. intros. apply ES. left. assumption.
      * eapply p_eps; [|constructor]. apply ES. unfold selectE. do 5 right. auto.
    + inversion H as [|q d w' r He Hp|q lab ch d w' r He Hi Hp]; subst; [lia| |]; destruct (EB _ _ _ He).
      * rewrite <- (app_nil_r w). eapply path_app; [|eapply p_eps; [|constructor]; apply ES; unfold selectE; do 4 right; left; repeat split; lia].
        eapply p_eps; [apply ES; unfold selectE; right; right; left; exists d; split; [exact He|split; reflexivity]|].
        replace (length A + length B - 2) with (length B - 1 + (length A - 1)) by lia.
        assert (G : forall a u b, path (edge B) a u b -> 1 <= a -> path (edge (select A B)) (a + (length A - 1)) u (b + (length A - 1))).
        { induction 1 as [a|a e u b He1 Hp1 IH1|a lab1 c1 e u b He1 Hi1 Hp1 IH1]; intros Ha; [constructor| |]; destruct (EB _ _ _ He1).
          - eapply p_eps; [apply ES; unfold selectE; do 3 right; left; exists a, e; split; [exact Ha|split; [exact He1|split; reflexivity]]|]. apply IH1. lia.
          - eapply p_chr; [apply ES; unfold selectE; do 3 right; left; exists a, e; split; [exact Ha|split; [exact He1|split; reflexivity]]|exact Hi1|]. apply IH1. lia. }
        apply G; [exact Hp|lia].
      * rewrite <- (app_nil_r (ch :: w')). eapply path_app; [|eapply p_eps; [|constructor]; apply ES; unfold selectE; do 4 right; left; repeat split; lia].
        eapply p_chr; [apply ES; unfold selectE; right; right; left; exists d; split; [exact He|split; reflexivity]|exact Hi|].
        replace (length A + length B - 2) with (length B - 1 + (length A - 1)) by lia.
        assert (G : forall a u b, path (edge B) a u b -> 1 <= a -> path (edge (select A B)) (a + (length A - 1)) u (b + (length A - 1))).
        { induction 1 as [a|a e u b He1 Hp1 IH1|a lab1 c1 e u b He1 Hi1 Hp1 IH1]; intros Ha; [constructor| |]; destruct (EB _ _ _ He1).
          - eapply p_eps; [apply ES; unfold selectE; do 3 right; left; exists a, e; split; [exact Ha|split; [exact He1|split; reflexivity]]|]. apply IH1. lia.
          - eapply p_chr; [apply ES; unfold selectE; do 3 right; left; exists a, e; split; [exact Ha|split; [exact He1|split; reflexivity]]|exact Hi1|]. apply IH1. lia. }
        apply G; [exact Hp|lia].
Qed.
Lemma sink_tail A w : (forall lab d, ~ edge A (length A - 1) lab d) -> tail A w <-> w = [].
Proof.
  intros H. unfold tail. split; [|intros ->; constructor].
  intros P. inversion P; subst; [reflexivity| |]; exfalso; eapply H; eassumption.
Qed.
Lemma tail_select A B w : wf A -> wf B -> tail (select A B) w <-> w = [].
Proof.
  intros HA HB. pose proof HA as [LA EA]. pose proof HB as [LB EB]. destruct (select_spec A B HA HB) as (LS & WS & ES).
  apply sink_tail. rewrite LS. intros lab d He.
  apply ES in He as [He|[(E & _)|[(d0 & _ & E & _)|[(q2 & d0 & H0 & He & E & _)|[(E & _)|(E & _)]]]]]; try lia;
    apply edge_lt in He; lia.
Qed.

(** quantifiers, on NFAs of the shape 0 -eps-> 1 ... *)
Definition unitA (A : nfa) : Prop :=
  wf A /\ 3 <= length A /\ (forall lab d, edge A 0 lab d <-> lab = [] /\ d = 1) /\
  (forall q lab, edge A q lab 1 -> q = 0).
Definition body (A : nfa) (w : list N) : Prop := path (edge A) 1 w (length A - 1).

Lemma from_0 A w : 2 <= length A -> (forall lab d, edge A 0 lab d <-> lab = [] /\ d = 1) -> accepts A w <-> body A w.
Proof.
  intros HL H. unfold accepts, body. split.
  - intros P. inversion P as [|q d w' r He Hp|q lab ch d w' r He Hi Hp]; subst; [lia| |].
    + apply H in He as [_ ->]. exact Hp.
    + apply H in He as [-> _]. discriminate Hi.
  - intros P. eapply p_eps; [|exact P]. apply H. auto.
Qed.
Lemma no_return A : (forall q lab, edge A q lab 1 -> q = 0) -> wf A -> forall q w, path (edge A) q w 1 -> q <= 1 -> q = 1 -> w = [].
Proof.
  intros H [_ HW] q w P.
  assert (G : forall q w r, path (edge A) q w r -> r = 1 -> (q = 1 /\ w = []) \/ q = 0).
  { induction 1 as [q'|q' d w' r' He Hp IH|q' lab ch d w' r' He Hi Hp IH]; intros ->; [auto| |]; specialize (IH eq_refl); destruct (HW _ _ _ He) as [HD _].
    - destruct IH as [[K1 K2]|K1]; [|lia]. right. eapply H. rewrite <- K1. exact He.
    - destruct IH as [[K1 K2]|K1]; [|lia]. right. eapply H. rewrite <- K1. exact He. }
  intros _ ->. apply G in P; [|reflexivity]. destruct P as [[_ ->]|]; [reflexivity|discriminate].
Qed.

Lemma plus_paths A lg q w : unitA A ->
  path (edge (add_to A [] 1 lg)) q w (length A - 1) <->
  exists u v, w = u ++ v /\ path (edge A) q u (length A - 1) /\ Star (body A) v.
Proof.
  intros (HW & HL & _ & _). assert (EE := edge_add_to A 1 lg). split.
  - intros P. assert (Ef : length A - 1 = length A - 1) by reflexivity. revert P Ef.
    generalize (length A - 1) at 1 2 4 as f. intros f P.
    induction P as [q|q d w r He Hp IH|q lab ch d w r He Hi Hp IH]; intros Ef.
    + exists [], []. split; [reflexivity|]. split; constructor.
    + destruct (IH Ef) as (u & v & -> & P & S). apply EE in He; [|lia]. destruct He as [He|(-> & _ & ->)].
      * exists u, v. split; [reflexivity|]. split; [eapply p_eps; eauto|exact S].
      * exists [], (u ++ v). split; [reflexivity|]. split; [rewrite Ef; constructor|]. constructor; [|exact S]. unfold body. rewrite <- Ef. exact P.
    + destruct (IH Ef) as (u & v & -> & P & S). apply EE in He; [|lia]. destruct He as [He|(-> & -> & ->)]; [|discriminate Hi].
      exists (ch :: u), v. split; [reflexivity|]. split; [eapply p_chr; eauto|exact S].
  - intros (u & v & -> & P & S). eapply path_app.
    + eapply path_mono; [|exact P]. intros. apply EE; [lia|auto].
    + clear P. induction S as [|x y Hx Hy IH]; [constructor|].
      eapply p_eps; [apply EE; [lia|right; repeat split]|]. eapply path_app; [|exact IH].
      eapply path_mono; [|exact Hx]. intros. apply EE; [lia|auto].
Qed.

Definition starA (A : nfa) (lg : bool) := add_from (add_state (add_to A [] 1 lg) []) [] 1.
Lemma star_edges A lg q lab d : unitA A ->
  edge (starA A lg) q lab d <->
  edge A q lab d \/ (q = length A - 1 /\ lab = [] /\ d = 1) \/ (q = length A - 1 /\ lab = [] /\ d = length A) \/ (q = 1 /\ lab = [] /\ d = length A).
Proof.
  intros (HW & HL & _ & _). unfold starA.
  assert (L1 : length (add_to A [] 1 lg) = length A) by apply upd_length.
  assert (W1 : wf (add_to A [] 1 lg)) by (apply wf_add_to; [exact HW|lia|lia]).
  rewrite edge_add_from by (rewrite add_state_length, L1; lia). rewrite edge_add_state by exact W1.
  rewrite add_state_length, L1, edge_add_to by lia. replace (S (length A) - 1) with (length A) by lia. tauto.
Qed.
Lemma star_paths A lg q w : unitA A -> q < length A ->
  path (edge (starA A lg)) q w (length A) ->
  exists u v, w = u ++ v /\ (path (edge A) q u (length A - 1) \/ path (edge A) q u 1) /\ Star (body A) v.
Proof.
  intros HU Hq P. pose proof HU as (HW & HL & H0 & H1). pose proof HW as [_ HD].
  assert (EE := fun q lab d => star_edges A lg q lab d HU).
  assert (Ef : length A = length A) by reflexivity. revert P Hq Ef.
  generalize (length A) at 1 3 as f. intros f P.
  induction P as [q|q d w r He Hp IH|q lab ch d w r He Hi Hp IH]; intros Hq Ef; [lia| |].
  - apply EE in He as [He|[(-> & _ & ->)|[(-> & _ & ->)|(-> & _ & ->)]]].
    + destruct (HD _ _ _ He). destruct IH as (u & v & -> & P & S); [lia|exact Ef|]. exists u, v. split; [reflexivity|]. split; [|exact S].
      destruct P as [P|P]; [left|right]; eapply p_eps; eauto.
    + destruct IH as (u & v & -> & P & S); [lia|exact Ef|]. destruct P as [P|P].
      * exists [], (u ++ v). split; [reflexivity|]. split; [left; subst; constructor|]. constructor; [exact P|exact S].
      * assert (u = []) as -> by (apply (no_return A H1 HW 1 u P); lia).
        exists [], v. split; [reflexivity|]. split; [left; subst; constructor|exact S].
    + assert (w = []) as ->.
      { inversion Hp as [|? ? ? ? He2 ?|? ? ? ? ? ? He2 ? ?]; subst; [reflexivity| |]; exfalso;
          apply EE in He2 as [He2|[(E & _)|[(E & _)|(E & _)]]]; try lia; apply edge_lt in He2; lia. }
      exists [], []. split; [reflexivity|]. split; [left; subst; constructor|constructor].
    + assert (w = []) as ->.
      { inversion Hp as [|? ? ? ? He2 ?|? ? ? ? ? ? He2 ? ?]; subst; [reflexivity| |]; exfalso;
          apply EE in He2 as [He2|[(E & _)|[(E & _)|(E & _)]]]; try lia; apply edge_lt in He2; lia. }
      exists [], []. split; [reflexivity|]. split; [right; constructor|constructor].
  - apply EE in He as [He|[(-> & -> & ->)|[(-> & -> & ->)|(-> & -> & ->)]]]; try discriminate Hi.
    destruct (HD _ _ _ He). destruct IH as (u & v & -> & P & S); [lia|exact Ef|]. exists (ch :: u), v. split; [reflexivity|]. split; [|exact S].
    destruct P as [P|P]; [left|right]; eapply p_chr; eauto.
Qed.

Lemma quant_plus A lg w : unitA A -> accepts (add_to A [] 1 lg) w <-> Plus (body A) w.
Proof.
  intros HU. pose proof HU as (HW & HL & H0 & H1).
  assert (EE := edge_add_to A 1 lg).
  rewrite from_0.
  - unfold body at 1. unfold add_to at 2. rewrite upd_length. rewrite plus_paths by exact HU. reflexivity.
  - unfold add_to. rewrite upd_length. lia.
  - intros lab d. rewrite EE by lia. rewrite H0. split; [intros [H|(H & _)]; [exact H|lia]|auto].
Qed.
Lemma tail_plus A lg w : unitA A -> tail (add_to A [] 1 lg) w <-> exists u v, w = u ++ v /\ tail A u /\ Star (body A) v.
Proof.
  intros HU. unfold tail, add_to at 2 3. rewrite upd_length. apply plus_paths. exact HU.
Qed.
Lemma starA_length A lg : length (starA A lg) = S (length A).
Proof. unfold starA, add_from. rewrite upd_length, add_state_length. unfold add_to. rewrite upd_length. reflexivity. Qed.

Lemma star_sink A lg : unitA A -> forall lab d, ~ edge (starA A lg) (length A) lab d.
Proof.
  intros HU lab d He. pose proof HU as (HW & HL & H0 & H1).
  apply star_edges in He; [|exact HU].
  destruct He as [He|[(E & _)|[(E & _)|(E & _)]]]; try lia. apply edge_lt in He. lia.
Qed.
Lemma star_build A lg w : unitA A -> Star (body A) w -> path (edge (starA A lg)) 1 w (length A).
Proof.
  intros HU S. pose proof HU as (HW & HL & H0 & H1).
  assert (EE := fun q lab d => star_edges A lg q lab d HU).
  assert (M : forall q w r, path (edge A) q w r -> path (edge (starA A lg)) q w r).
  { intros q0 w0 r0. apply path_mono. intros. apply EE. auto. }
  (* from the final state of A every further word of the star can be read *)
  assert (G : forall w, Star (body A) w -> path (edge (starA A lg)) (length A - 1) w (length A)).
  { intros w0. induction 1 as [|x y Hx Hy IH].
    - eapply p_eps; [apply EE; right; right; left; auto|constructor].
    - eapply p_eps; [apply EE; right; left; auto|]. eapply path_app; [apply M; exact Hx|exact IH]. }
  destruct S as [|x y Hx Hy].
  - eapply p_eps; [apply EE; right; right; right; auto|constructor].
  - eapply path_app; [apply M; exact Hx|apply G; exact Hy].
Qed.
Lemma quant_star A lg w : unitA A -> accepts (starA A lg) w <-> Star (body A) w.
Proof.
  intros HU. pose proof HU as (HW & HL & H0 & H1).
  assert (EE := fun q lab d => star_edges A lg q lab d HU).
  rewrite from_0.
  - unfold body at 1. rewrite starA_length. replace (S (length A) - 1) with (length A) by lia. split.
    + intros P. apply star_paths in P as (u & v & -> & [P|P] & S); [| |exact HU|lia].
      * constructor; [exact P|exact S].
      * assert (u = []) as -> by (apply (no_return A H1 HW 1 u P); lia). exact S.
    + apply star_build. exact HU.
  - rewrite starA_length. lia.
  - intros lab d. rewrite EE, H0. split; [intros [H|[(E & _)|[(E & _)|(E & _)]]]; [exact H|lia|lia|lia]|auto].
Qed.
Lemma tail_star A lg w : unitA A -> tail (starA A lg) w <-> w = [].
Proof.
  intros HU. apply sink_tail. rewrite starA_length. replace (S (length A) - 1) with (length A) by lia.
  apply star_sink. exact HU.
Qed.

(** the question mark: skip from state 1 straight to the final state *)
Lemma opt_paths A q w : unitA A ->
  path (edge (add_from A [] 1)) q w (length A - 1) ->
  path (edge A) q w (length A - 1) \/ (exists u v, w = u ++ v /\ path (edge A) q u 1 /\ tail A v).
Proof.
  intros HU P. pose proof HU as (HW & HL & H0 & H1).
  assert (EE := edge_add_from A 1).
  assert (Ef : length A - 1 = length A - 1) by reflexivity. revert P Ef.
  generalize (length A - 1) at 1 2 as f. intros f P.
  induction P as [q|q d w r He Hp IH|q lab ch d w r He Hi Hp IH]; intros Ef.
  - left. subst. constructor.
  - apply EE in He; [|lia]. destruct He as [He|(-> & _ & ->)].
    + destruct (IH Ef) as [P|(u & v & -> & P & T)]; [left; eapply p_eps; eauto|].
      right. exists u, v. split; [reflexivity|]. split; [eapply p_eps; eauto|exact T].
    + destruct (IH Ef) as [P|(u & v & -> & P & T)].
      * right. exists [], w. split; [reflexivity|]. split; [constructor|exact P].
      * exfalso. destruct HW as [_ HW].
        assert (G : forall q w r, path (edge A) q w r -> r = 1 -> q <= 1).
        { induction 1 as [q'|q' d w' r' He' Hp' IH'|q' lab ch d w' r' He' Hi Hp' IH']; intros ->; [lia| |]; specialize (IH' eq_refl); destruct (HW _ _ _ He') as [HD _];
          assert (d = 1) by lia; subst d; rewrite (H1 _ _ He'); lia. }
        apply G in P; [lia|reflexivity].
  - apply EE in He; [|lia]. destruct He as [He|(-> & -> & ->)]; [|discriminate Hi].
    destruct (IH Ef) as [P|(u & v & -> & P & T)]; [left; eapply p_chr; eauto|].
    right. exists (ch :: u), v. split; [reflexivity|]. split; [eapply p_chr; eauto|exact T].
Qed.
Lemma quant_opt A w : unitA A -> accepts (add_from A [] 1) w <-> body A w \/ tail A w.
Proof.
  intros HU. pose proof HU as (HW & HL & H0 & H1).
  assert (EE := edge_add_from A 1).
  rewrite from_0.
  - unfold body at 1, add_from at 2. rewrite upd_length. split.
    + intros P. apply opt_paths in P; [|exact HU]. destruct P as [P|(u & v & -> & P & T)]; [left; exact P|right].
      assert (u = []) as -> by (apply (no_return A H1 HW 1 u P); lia). exact T.
    + intros [P|T].
      * eapply path_mono; [|exact P]. intros. apply EE; [lia|auto].
      * eapply p_eps; [apply EE; [lia|right; auto]|]. eapply path_mono; [|exact T]. intros. apply EE; [lia|auto].
  - unfold add_from. rewrite upd_length. lia.
  - intros lab d. rewrite EE by lia. rewrite H0. split; [intros [H|(H & _)]; [exact H|lia]|auto].
Qed.
Lemma tail_opt A w : unitA A -> tail (add_from A [] 1) w <-> tail A w.
Proof.
  intros HU. pose proof HU as (HW & HL & H0 & H1). pose proof HW as [_ HD].
  assert (EE := edge_add_from A 1). unfold tail, add_from at 2 3. rewrite upd_length. split.
  - intros P. apply opt_paths in P; [|exact HU]. destruct P as [P|(u & v & -> & P & T)]; [exact P|]. exfalso.
    assert (G : forall q w r, path (edge A) q w r -> r = 1 -> q <= 1).
    { induction 1 as [q'|q' d w' r' He' Hp' IH'|q' lab ch d w' r' He' Hi Hp' IH']; intros ->; [lia| |]; specialize (IH' eq_refl); destruct (HD _ _ _ He') as [HD' _];
      assert (d = 1) by lia; subst d; rewrite (H1 _ _ He'); lia. }
    apply G in P; [lia|reflexivity].
  - intros P. eapply path_mono; [|exact P]. intros. apply EE; [lia|auto].
Qed.

(** units *)
Lemma unit_state cc : unitA (add_state nfa_base cc) /\
  (forall w, body (add_state nfa_base cc) w <-> (cc = [] /\ w = []) \/ exists ch, w = [ch] /\ includes cc ch = true) /\
  (forall w, tail (add_state nfa_base cc) w <-> w = []).
Proof.
  assert (EE : forall q lab d, edge (add_state nfa_base cc) q lab d <-> (q = 0 /\ lab = [] /\ d = 1) \/ (q = 1 /\ lab = cc /\ d = 2)).
  { intros. rewrite edge_add_state by apply wf_base. rewrite edge_base. reflexivity. }
  assert (L : length (add_state nfa_base cc) = 3) by reflexivity.
  assert (T : forall w, tail (add_state nfa_base cc) w <-> w = []).
  { intros w. apply sink_tail. intros lab d He. rewrite L in He. apply EE in He. lia. }
  repeat split.
  - apply wf_add_state. apply wf_base.
  - apply (wf_add_state _ cc wf_base) in H. tauto.
  - apply (wf_add_state _ cc wf_base) in H. tauto.
  - rewrite L. lia.
  - apply EE in H. destruct H as [(_ & -> & _)|(E & _)]; [reflexivity|lia].
  - apply EE in H. destruct H as [(_ & _ & ->)|(E & _)]; [reflexivity|lia].
  - intros (-> & ->). apply EE. auto.
  - intros q lab He. apply EE in He. lia.
  - unfold body. rewrite L. intros P. cbn in P.
    inversion P as [|q d w' r He Hp|q lab ch d w' r He Hi Hp]; subst.
    + apply EE in He as [(E & _)|(_ & E & ->)]; [lia|]. left. split; [congruence|].
      change 2 with (length (add_state nfa_base cc) - 1) in Hp. apply T in Hp. exact Hp.
    + apply EE in He as [(E & _)|(_ & -> & ->)]; [lia|].
      change 2 with (length (add_state nfa_base cc) - 1) in Hp. apply T in Hp. subst. right. eauto.
  - unfold body. rewrite L. intros [(E & ->)|(ch & -> & Hi)].
    + eapply p_eps; [apply EE; right; repeat split; auto|constructor].
    + eapply p_chr; [apply EE; right; repeat split|exact Hi|constructor].
  - apply T.
  - apply T.
Qed.
Lemma unit_group B : wf B ->
  unitA (concat nfa_base B) /\
  (forall w, body (concat nfa_base B) w <-> accepts B w) /\ (forall w, tail (concat nfa_base B) w <-> tail B w).
Proof.
  intros HB. pose proof HB as [LB EB].
  assert (EE : forall q lab d, edge (concat nfa_base B) q lab d <->
    (q = 0 /\ lab = [] /\ d = 1) \/ exists q0 d0, edge B q0 lab d0 /\ q = S q0 /\ d = S d0).
  { intros. rewrite edge_concat by apply wf_base. rewrite edge_base. cbn [length nfa_base]. cbn.
    split; (intros [H|(q0 & d0 & H & -> & ->)]; [auto|right; exists q0, d0]); repeat split; auto; lia. }
  assert (L : length (concat nfa_base B) = S (length B)) by (rewrite concat_length by lia; cbn; lia).
  assert (U : unitA (concat nfa_base B)).
  { split; [apply wf_concat; [apply wf_base|exact HB]|]. split; [rewrite L; lia|]. split.
    - intros lab d. rewrite EE. split; [intros [(_ & H)|(q0 & d0 & _ & E & _)]; [exact H|lia]|auto].
    - intros q lab He. apply EE in He as [(-> & _)|(q0 & d0 & He & -> & E)]; [reflexivity|]. apply EB in He. lia. }
  split; [exact U|]. split.
  - intros w. destruct U as (UW & UL & U0 & U1).
    rewrite <- from_0 by (assumption || lia). rewrite accepts_concat by (assumption || apply wf_base). split.
    + intros (u & v & -> & P & Q). assert (u = []) as ->; [|exact Q].
      unfold accepts in P. inversion P as [|q d w' r He Hp|q lab ch d w' r He Hi Hp]; subst.
      * apply edge_base in He as (_ & _ & ->). cbn in Hp. inversion Hp as [|? ? ? ? He2|? ? ? ? ? ? He2]; subst; [reflexivity| |]; apply edge_base in He2; lia.
      * apply edge_base in He as (_ & -> & _). discriminate Hi.
    + intros Q. exists [], w. split; [reflexivity|]. split; [|exact Q].
      unfold accepts. eapply p_eps; [apply edge_base; auto|constructor].
  - intros w. apply tail_concat; [apply wf_base|exact HB].
Qed.
Lemma accepts_base w : accepts nfa_base w <-> w = [].
Proof.
  unfold accepts. cbn. split.
  - intros P. inversion P as [|q d w' r He Hp|q lab ch d w' r He Hi Hp]; subst.
    + apply edge_base in He as (_ & _ & ->). inversion Hp as [|? ? ? ? He2|? ? ? ? ? ? He2]; subst; [reflexivity| |]; apply edge_base in He2; lia.
    + apply edge_base in He as (_ & -> & _). discriminate Hi.
  - intros ->. eapply p_eps; [apply edge_base; auto|constructor].
Qed.
Lemma tail_base w : tail nfa_base w <-> w = [].
Proof. apply sink_tail. intros lab d He. apply edge_base in He. cbn in He. lia. Qed.
