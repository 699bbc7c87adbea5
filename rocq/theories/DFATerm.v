(** When the subset construction terminates. *)
From Coq Require Import List NArith Arith Bool Lia ZifyBool ZifyN ZifyNat Permutation.
From Verif Require Import CharClass CharClassSpec CharClassProofs RegexSpec NFA NFASem NFAProofs NFABuild DFA DFADep DFAProofs.
Import ListNotations.
Local Open Scope nat_scope.

Definition epsrev (A : nfa) (d q : nat) : Prop := edge A q [] d.
Definition acyc (A : nfa) : Prop := forall q, Acc (epsrev A) q.

(** ** Epsilon closure terminates exactly from states with no infinite epsilon path *)
Lemma eclose_mono f : forall f' A cl q r, f <= f' -> eclose_sub f A cl q = Some r -> eclose_sub f' A cl q = Some r.
Proof.
  induction f as [|f IH]; intros f' A cl q r Hf H; [discriminate|]. destruct f' as [|f']; [lia|].
  rewrite eclose_sub_S in *. revert H. generalize (sins q cl) (existsb tlong (nth q A [])). generalize (nth q A []).
  induction l as [|t l IHl]; intros s b H; cbn [eclose_go] in *; [exact H|]. destruct (teps t); [|apply IHl; exact H].
  destruct (eclose_sub f A s (tdest t)) as [[s' b']|] eqn:E; [|discriminate]. rewrite (IH f' _ _ _ _ ltac:(lia) E). apply IHl. exact H.
Qed.
Lemma eclose_acc f : forall A cl q r, eclose_sub f A cl q = Some r -> Acc (epsrev A) q.
Proof.
  induction f as [|f IH]; intros A cl q r H; [discriminate|]. rewrite eclose_sub_S in H. constructor. intros d (t & Ht & E1 & E2).
  apply teps_nil in E1. subst d. revert H Ht. generalize (sins q cl) (existsb tlong (nth q A [])). generalize (nth q A []).
  induction l as [|u l IHl]; intros s b H Ht; [destruct Ht|]. cbn [eclose_go] in H. destruct Ht as [->|Ht].
  - rewrite E1 in H. destruct (eclose_sub f A s (tdest t)) as [[s' b']|] eqn:E; [|discriminate]. eapply IH; exact E.
  - destruct (teps u); [|eapply IHl; eauto]. destruct (eclose_sub f A s (tdest u)) as [[s' b']|]; [|discriminate]. eapply IHl; eauto.
Qed.
Lemma acc_eclose A q : Acc (epsrev A) q -> exists f, forall cl, eclose_sub f A cl q <> None.
Proof.
  induction 1 as [q _ IH].
  assert (G : forall l, (forall t, In t l -> In t (nth q A [])) -> exists f, forall cl b, eclose_go f A l cl b <> None).
  { induction l as [|t l IHl]; intros Hl; [exists 0; discriminate|].
    destruct IHl as [f1 H1]; [intros; apply Hl; right; assumption|].
    assert (M : forall f f' l cl b, f <= f' -> eclose_go f A l cl b <> None -> eclose_go f' A l cl b <> None).
    { clear. intros f f'. induction l as [|t l IHl]; intros cl b Hf H; cbn [eclose_go] in *; [discriminate|]. destruct (teps t); [|apply IHl; auto].
      destruct (eclose_sub f A cl (tdest t)) as [[s' b']|] eqn:E; [|congruence]. rewrite (eclose_mono _ _ _ _ _ _ Hf E). apply IHl; auto. }
    destruct (teps t) eqn:E.
    - destruct (IH (tdest t)) as [f2 H2]; [exists t; apply teps_nil in E; auto using in_eq|].
      exists (max f1 f2). intros cl b. cbn [eclose_go]. rewrite E. specialize (H2 cl).
      destruct (eclose_sub f2 A cl (tdest t)) as [[s' b']|] eqn:E2; [|congruence].
      rewrite (eclose_mono f2 (max f1 f2) _ _ _ _ ltac:(lia) E2). apply (M f1); [lia|apply H1].
    - exists f1. intros cl b. cbn [eclose_go]. rewrite E. apply H1. }
  destruct (G (nth q A []) (fun t h => h)) as [f Hf]. exists (S f). intros cl. rewrite eclose_sub_S. apply Hf.
Qed.
Lemma acyc_depth A : acyc A -> exists ef0, forall ef, ef0 <= ef -> forall cl q, eclose_sub ef A cl q <> None.
Proof.
  intros H.
  assert (G : forall n, exists ef0, forall ef, ef0 <= ef -> forall cl q, q < n -> eclose_sub ef A cl q <> None).
  { induction n as [|n [e0 IH]]; [exists 0; lia|]. destruct (acc_eclose A n (H n)) as [f Hf]. exists (max e0 f).
    intros ef He cl q Hq. destruct (Nat.eq_dec q n) as [->|N]; [|apply IH; lia]. specialize (Hf cl).
    destruct (eclose_sub f A cl n) as [r|] eqn:E; [|congruence]. rewrite (eclose_mono f ef _ _ _ _ ltac:(lia) E). discriminate. }
  destruct (G (length A)) as [e0 He]. exists (S e0). intros ef L cl q. destruct (Nat.lt_ge_cases q (length A)) as [Q|Q]; [apply He; lia|].
  destruct ef as [|ef]; [lia|]. rewrite eclose_sub_S. rewrite nth_overflow by exact Q. discriminate.
Qed.

(** ** Fuel *)
Lemma fork_mono ef A : forall f,
  (forall f' D i D', f <= f' -> fork_states f ef A D i = Some D' -> fork_states f' ef A D i = Some D') /\
  (forall f' D i D', f <= f' -> fork_loop f ef A D i = Some D' -> fork_loop f' ef A D i = Some D').
Proof.
  induction f as [|f [IH1 IH2]]; split; intros f' D i D' Hf H; try discriminate; (destruct f' as [|f']; [lia|]).
  - cbn [fork_states] in *. destruct (fork_items _ _ _ _ _) as [D1|]; [|discriminate]. apply IH2; [lia|exact H].
  - cbn [fork_loop] in *. destruct (i <? length D); [|exact H]. destruct (fork_states f ef A D i) as [D1|] eqn:E; [|discriminate].
    rewrite (IH1 f' _ _ _ ltac:(lia) E). apply IH2; [lia|exact H].
Qed.

(** ** The number of states is bounded *)
Fixpoint subs (l : list nat) : list (list nat) :=
  match l with [] => [[]] | x :: l' => subs l' ++ map (cons x) (subs l') end.
Lemma in_subs n : forall a l, ssorted l -> (forall x, In x l -> a <= x < a + n) -> In l (subs (seq a n)).
Proof.
  induction n as [|n IH]; intros a l HS HR; cbn [seq subs].
  - destruct l as [|x l]; [left; reflexivity|]. specialize (HR x (or_introl eq_refl)). lia.
  - apply in_or_app. destruct HS as [|x l Hx HS].
    + left. apply IH; [constructor|intros ? []].
    + destruct (Nat.eq_dec x a) as [->|N].
      * right. apply in_map. apply IH; [exact HS|]. intros y Hy. pose proof (Hx y Hy). specialize (HR y (or_intror Hy)). lia.
      * left. apply IH; [constructor; assumption|]. pose proof (HR x (or_introl eq_refl)). intros y Hy.
        pose proof (HR y Hy). destruct Hy as [<-|Hy]; [lia|]. apply Hx in Hy. lia.
Qed.
Definition inr (A : nfa) (l : list nat) : Prop := forall x, In x l -> x < length A.
Definition N_of (A : nfa) := length (subs (seq 0 (length A))).
Lemma states_bound A D : base_ok A D -> Forall (inr A) (labs D) -> length D <= N_of A.
Proof.
  intros (ND & HC & _) HR. unfold N_of. replace (length D) with (length (labs D)) by apply map_length.
  apply NoDup_incl_length; [exact ND|]. intros l Hl. apply in_subs; [apply HC; exact Hl|].
  rewrite Forall_forall in HR. intros x Hx. apply (HR l Hl) in Hx. lia.
Qed.
Lemma eps_inr A q x : wf A -> q < length A -> eps_path A q x -> x < length A.
Proof.
  intros [_ HW] Hq P. unfold eps_path in P. assert (Ew : exists w, w = @nil N /\ path (edge A) q w x) by eauto. destruct Ew as (w & _ & P').
  clear P. induction P' as [q|q d w r He Hp IH|q lab c d w r He Hi Hp IH]; [exact Hq| |]; apply IH; apply HW in He; lia.
Qed.
Lemma fork_items_inr ef A index : wf A -> forall items D D', Forall (inr A) (labs D) -> Forall (fun i => inr A (snd i)) items ->
  fork_items ef A D index items = Some D' -> Forall (inr A) (labs D').
Proof.
  intros HW. induction items as [|[cc s] items IH]; intros D D' HD HI H; cbn [fork_items] in H; [injection H as <-; exact HD|].
  destruct (eclose_set ef A s [] false) as [[ec lg]|] eqn:Ee; [|discriminate]. inversion HI as [|? ? I1 I2]; subst. cbn [snd] in I1.
  assert (R : inr A ec).
  { destruct (ecl_closed ef A s ec (ex_intro _ lg Ee)) as [_ K]. intros x Hx. apply K in Hx as (q & Hq & P). eapply eps_inr; eauto. }
  unfold dfa_add_state in H. destruct (find_label D ec 0) as [i|]; (apply (IH _ _) in H; [exact H| |exact I2]);
    rewrite labs_upd by reflexivity; [rewrite labs_upd by reflexivity; exact HD|].
  unfold labs. rewrite map_app. apply Forall_app. split; [exact HD|]. cbn. constructor; [exact R|constructor].
Qed.
Lemma items_inr A l : wf A -> Forall (fun i => inr A (snd i)) (departures (label_trs A l)).
Proof.
  intros [_ HW]. apply Forall_forall. intros [cc s] Hi. cbn [snd]. intros x Hx. destruct (departures_spec (label_trs A l)) as (_ & K & _).
  destruct (K cc s Hi) as (K1 & K2 & K3). destruct cc as [|r cc]; [congruence|]. cbn [Separated] in K1.
  rewrite (K3 (rs r)) in Hx by (unfold includes; cbn; lia). destruct (on_char_spec (label_trs A l) (rs r)) as [_ OC]. apply OC in Hx as (t & Ht & _ & <-).
  apply in_label_trs in Ht as (q & _ & Ht). apply (HW q (tlab t) (tdest t)). exists t. auto.
Qed.
Lemma fork_inr ef A : wf A -> forall f,
  (forall D i D', Forall (inr A) (labs D) -> fork_states f ef A D i = Some D' -> Forall (inr A) (labs D')) /\
  (forall D i D', Forall (inr A) (labs D) -> fork_loop f ef A D i = Some D' -> Forall (inr A) (labs D')).
Proof.
  intros HW. induction f as [|f [IH1 IH2]]; split; intros D i D' HD H; try discriminate.
  - cbn [fork_states] in H. destruct (fork_items _ _ _ _ _) as [D1|] eqn:E; [|discriminate]. eapply IH2; [|exact H].
    eapply fork_items_inr; [exact HW|exact HD|apply items_inr; exact HW|exact E].
  - cbn [fork_loop] in H. destruct (i <? length D); [|injection H as <-; exact HD]. destruct (fork_states f ef A D i) as [D1|] eqn:E; [|discriminate].
    eapply IH2; [eapply IH1; eauto|exact H].
Qed.
Lemma eclose_set_total ef A : (forall cl q, eclose_sub ef A cl q <> None) -> forall qs cl lg, eclose_set ef A qs cl lg <> None.
Proof.
  intros H. induction qs as [|q qs IH]; intros cl lg; cbn [eclose_set]; [discriminate|]. specialize (H cl q).
  destruct (eclose_sub ef A cl q) as [[c l]|]; [apply IH|congruence].
Qed.
Lemma fork_items_total ef A index : (forall cl q, eclose_sub ef A cl q <> None) -> forall items D, fork_items ef A D index items <> None.
Proof.
  intros H. induction items as [|[cc s] items IH]; intros D; cbn [fork_items]; [discriminate|].
  pose proof (eclose_set_total ef A H s [] false). destruct (eclose_set ef A s [] false) as [[c l]|]; [|congruence].
  destruct (dfa_add_state D c l) as [D1 j]. apply IH.
Qed.

Definition okD ef A D := good ef A D /\ Forall (inr A) (labs D).
Lemma fork_total ef A : wf A -> (forall cl q, eclose_sub ef A cl q <> None) ->
  forall M D i, okD ef A D -> i < length D -> N_of A - length D <= M -> exists f, fork_states f ef A D i <> None.
Proof.
  intros HW HE. induction M as [M IHM] using lt_wf_ind. intros D i [HG HR] Hi HM.
  pose proof (fork_items_total ef A i HE (items_at A D i) D) as T. destruct (fork_items ef A D i (items_at A D i)) as [D1|] eqn:E1; [|congruence].
  destruct (fork_items_good ef A D i D1 HG Hi E1) as (G1 & X1 & _ & _). pose proof (ext_length _ _ X1) as L1.
  assert (R1 : Forall (inr A) (labs D1)).
  { eapply fork_items_inr; [exact HW|exact HR| |exact E1]. apply items_inr. exact HW. }
  assert (B1 : length D1 <= N_of A) by (apply states_bound; [apply G1|exact R1]).
  assert (Q : exists f, fork_loop f ef A D1 (length D) <> None).
  { destruct (Nat.eq_dec (length D1) (length D)) as [E|N].
    - exists 1. cbn [fork_loop]. rewrite E, Nat.ltb_irrefl. discriminate.
    - assert (LP : forall K j D2, okD ef A D2 -> length D1 <= length D2 -> N_of A - j <= K -> exists f, fork_loop f ef A D2 j <> None).
      { induction K as [|K IHK]; intros j D2 [G2 R2] L2 HK.
        - exists 1. cbn [fork_loop]. pose proof (states_bound A D2 (proj1 G2) R2). destruct (j <? length D2) eqn:Ej; [lia|discriminate].
        - destruct (j <? length D2) eqn:Ej; [|exists 1; cbn [fork_loop]; rewrite Ej; discriminate].
          destruct (IHM (N_of A - length D2) ltac:(lia) D2 j (conj G2 R2) ltac:(lia) ltac:(lia)) as [f1 H1].
          destruct (fork_states f1 ef A D2 j) as [D3|] eqn:E3; [|congruence].
          destruct (proj1 (fork_good ef A f1) D2 j D3 G2 ltac:(lia) E3) as (G3 & X3 & _). pose proof (ext_length _ _ X3).
          pose proof (proj1 (fork_inr ef A HW f1) _ _ _ R2 E3) as R3.
          destruct (IHK (S j) D3 (conj G3 R3) ltac:(lia) ltac:(lia)) as [f2 H2]. destruct (fork_loop f2 ef A D3 (S j)) as [D4|] eqn:E4; [|congruence].
          exists (S (max f1 f2)). cbn [fork_loop]. rewrite Ej. rewrite (proj1 (fork_mono ef A f1) (max f1 f2) _ _ _ ltac:(lia) E3).
          rewrite (proj2 (fork_mono ef A f2) (max f1 f2) _ _ _ ltac:(lia) E4). discriminate. }
      apply (LP (N_of A)); [split; assumption|lia|lia]. }
  destruct Q as [f Hf]. exists (S f). cbn [fork_states]. fold (items_at A D i). rewrite E1. exact Hf.
Qed.

(** Enough depth and enough steps always exist when there is no epsilon cycle. *)
Theorem dfa_plain_total A : wf A -> acyc A -> exists ef0, forall ef, ef0 <= ef -> exists f0 D, forall f, f0 <= f -> dfa_plain f ef A = Some D.
Proof.
  intros HW HA. destruct (acyc_depth A HA) as [e0 He]. exists e0. intros ef Hef.
  specialize (He ef Hef). unfold dfa_plain. pose proof (He [] 0) as H0. destruct (eclose_sub ef A [] 0) as [[ec lg]|] eqn:E0; [|congruence].
  destruct (eclose_sub_spec _ _ _ _ _ _ ss_nil E0) as [S0 I0].
  assert (I1 : forall x, In x ec <-> eps_path A 0 x) by (intros x; rewrite I0; split; [intros [[]|K]; exact K|auto]).
  assert (G : okD ef A [mkD ec [] lg false]).
  { split.
    - split.
      + split; [cbn; constructor; [intros []|constructor]|]. split.
        * intros l [<-|[]]. cbn. split; [exact S0|]. intros q x Hq Hx. apply I1 in Hq. apply I1. exact (path_app _ _ [] _ [] _ Hq Hx).
        * intros [|[|i]]; reflexivity.
      + intros i Hi. left. destruct i as [|[|]]; reflexivity.
    - cbn. constructor; [|constructor]. intros x Hx. apply I1 in Hx. eapply eps_inr; [exact HW| |exact Hx]. destruct HW; lia. }
  destruct (fork_total ef A HW He _ _ 0 G ltac:(cbn; lia) (le_n _)) as [f Hf].
  destruct (fork_states f ef A [mkD ec [] lg false] 0) as [D|] eqn:E; [|congruence].
  exists f, (map (finish_state (length A - 1)) D). intros f' Hf'. rewrite (proj1 (fork_mono ef A f) f' _ _ _ Hf' E). reflexivity.
Qed.

(** Conversely, a finished construction shows that no reachable state starts an infinite epsilon path. *)
Lemma acc_eps A q x : Acc (epsrev A) q -> eps_path A q x -> Acc (epsrev A) x.
Proof.
  intros H P. unfold eps_path in P. remember (@nil N) as w eqn:E. revert H. induction P as [q|q d w r He Hp IH|q lab c d w r He Hi Hp IH]; intros H; [exact H| |discriminate].
  apply IH; [exact E|]. destruct H as [H]. apply H. exact He.
Qed.
Lemma ecl_acc ef A s lab : ecl ef A s lab -> forall x, In x lab -> Acc (epsrev A) x.
Proof.
  intros HE. pose proof (ecl_closed _ _ _ _ HE) as [_ I]. destruct HE as [lg H]. intros x Hx. apply I in Hx as (q & Hq & P).
  apply (acc_eps A q x); [|exact P]. clear I P x. revert H Hq. generalize (@nil nat) false. induction s as [|p s IH]; intros cl b H Hq; [destruct Hq|].
  cbn [eclose_set] in H. destruct (eclose_sub ef A cl p) as [[c l]|] eqn:E; [|discriminate]. destruct Hq as [->|Hq]; [eapply eclose_acc; exact E|eapply IH; eauto].
Qed.
Theorem dfa_plain_acc f ef A D : dfa_plain f ef A = Some D -> forall w q, path (edge A) 0 w q -> Acc (epsrev A) q.
Proof.
  intros H. assert (A0 : Acc (epsrev A) 0).
  { unfold dfa_plain in H. destruct (eclose_sub ef A [] 0) as [r|] eqn:E; [|discriminate]. eapply eclose_acc; exact E. }
  destruct (dfa_plain_inv _ _ _ _ H) as (D0 & _ & [HB HF] & L & I0).
  assert (G : forall p w q, path (edge A) p w q -> forall i, i < length D0 -> In p (dlab (nth i D0 dnil)) -> Acc (epsrev A) p -> Acc (epsrev A) q).
  { intros p w q P. induction P as [p|p d w r He Hp IH|p lab c d w r He Hi Hp IH]; intros i Hi0 Hin HA; [exact HA| |].
    - apply (IH i Hi0); [|destruct HA as [HA]; apply HA; exact He].
      apply (proj2 (proj1 (proj2 HB) (dlab (nth i D0 dnil)) ltac:(unfold labs; apply in_map; apply nth_In; exact Hi0)) p d Hin). eapply p_eps; [exact He|constructor].
    - destruct (forked_step ef A D0 i c HB Hi0 (HF i Hi0)) as [K1 K2].
      destruct (on_char_spec (label_trs A (dlab (nth i D0 dnil))) c) as [_ OC].
      assert (Hd : In d (on_char (label_trs A (dlab (nth i D0 dnil))) c)).
      { destruct He as (t & Ht & E1 & E2). apply OC. exists t. split; [apply in_label_trs; exists p; auto|]. split; [congruence|exact E2]. }
      destruct K2 as (t & Ht & Hc); [intros E; rewrite E in Hd; destruct Hd|]. destruct (K1 t Ht Hc) as [L1 E1].
      assert (Hd' : In d (dlab (nth (tdest t) D0 dnil))) by (apply (ecl_closed _ _ _ _ E1); exists d; split; [exact Hd|constructor]).
      apply (IH (tdest t) L1 Hd'). eapply ecl_acc; eauto. }
  intros w q P. apply (G 0 w q P 0 L); [apply I0; constructor|exact A0].
Qed.
