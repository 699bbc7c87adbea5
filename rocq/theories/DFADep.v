(** Sets, label unions and departure sets. *)
From Coq Require Import List NArith Arith Bool Lia ZifyBool ZifyN ZifyNat Permutation.
From Verif Require Import CharClass CharClassSpec CharClassProofs NFA DFA.
Import ListNotations.
Local Open Scope nat_scope.

(** ** Sets of indices *)
Inductive ssorted : list nat -> Prop :=
| ss_nil : ssorted []
| ss_cons x l : (forall y, In y l -> x < y) -> ssorted l -> ssorted (x :: l).
Lemma sins_in x y s : In x (sins y s) <-> x = y \/ In x s.
Proof.
  induction s as [|z s IH]; cbn [sins In]; [firstorder congruence|].
  destruct (y <? z) eqn:E1; [cbn [In]; firstorder congruence|]. destruct (y =? z) eqn:E2.
  - apply Nat.eqb_eq in E2. subst. cbn [In]. firstorder congruence.
  - cbn [In]. rewrite IH. tauto.
Qed.
Lemma sins_sorted y s : ssorted s -> ssorted (sins y s).
Proof.
  induction 1 as [|z s Hz Hs IH]; cbn [sins]; [constructor; [intros ? []|constructor]|].
  destruct (y <? z) eqn:E1; [|destruct (y =? z) eqn:E2].
  - constructor; [|constructor; assumption]. intros w [<-|Hw]; [lia|]. apply Hz in Hw. lia.
  - constructor; assumption.
  - constructor; [|exact IH]. intros w Hw. apply sins_in in Hw as [->|Hw]; [lia|auto].
Qed.
Lemma ssorted_ext a b : ssorted a -> ssorted b -> (forall x, In x a <-> In x b) -> a = b.
Proof.
  intros Ha. revert b. induction Ha as [|x a Hx Ha IH]; intros b Hb HE.
  - destruct b as [|y b]; [reflexivity|]. exfalso. apply (HE y). left. reflexivity.
  - inversion Hb as [|y b' Hy Hb']; subst; [exfalso; apply (HE x); left; reflexivity|].
    assert (x = y).
    { assert (I1 : In x (y :: b')) by (apply HE; left; reflexivity). assert (I2 : In y (x :: a)) by (apply HE; left; reflexivity).
      destruct I1 as [E|I1]; [congruence|]. destruct I2 as [E|I2]; [congruence|]. apply Hx in I2. apply Hy in I1. lia. }
    subst y. f_equal. apply IH; [exact Hb'|]. intros z. split; intros Hz.
    + assert (I1 : In z (x :: b')) by (apply HE; right; exact Hz). destruct I1 as [E|]; [|assumption]. apply Hx in Hz. lia.
    + assert (I1 : In z (x :: a)) by (apply HE; right; exact Hz). destruct I1 as [E|]; [|assumption]. apply Hy in Hz. lia.
Qed.
Lemma list_eqb_spec a b : list_eqb a b = true <-> a = b.
Proof.
  revert b. induction a as [|x a IH]; intros [|y b]; cbn; try (split; congruence).
  rewrite andb_true_iff, Nat.eqb_eq, IH. split; [intros [-> ->]; reflexivity|intros E; injection E; auto].
Qed.

(** ** Borders *)
Inductive nsorted : list N -> Prop :=
| ns_nil : nsorted []
| ns_cons x l : (forall y, In y l -> x < y)%N -> nsorted l -> nsorted (x :: l).
Lemma nins_in x y s : In x (nins y s) <-> x = y \/ In x s.
Proof.
  induction s as [|z s IH]; cbn [nins In]; [firstorder congruence|].
  destruct (y <? z)%N eqn:E1; [cbn [In]; firstorder congruence|]. destruct (y =? z)%N eqn:E2.
  - apply N.eqb_eq in E2. subst. cbn [In]. firstorder congruence.
  - cbn [In]. rewrite IH. tauto.
Qed.
Lemma nins_sorted y s : nsorted s -> nsorted (nins y s).
Proof.
  induction 1 as [|z s Hz Hs IH]; cbn [nins]; [constructor; [intros ? []|constructor]|].
  destruct (y <? z)%N eqn:E1; [|destruct (y =? z)%N eqn:E2].
  - constructor; [|constructor; assumption]. intros w [<-|Hw]; [lia|]. apply Hz in Hw. lia.
  - constructor; assumption.
  - constructor; [|exact IH]. intros w Hw. apply nins_in in Hw as [->|Hw]; [lia|auto].
Qed.
Lemma borders_spec ts : nsorted (borders ts) /\
  forall b, In b (borders ts) <-> exists t r, In t ts /\ In r (tlab t) /\ (b = rs r \/ b = re r).
Proof.
  unfold borders.
  assert (G1 : forall (l : cclass) s, nsorted s -> nsorted (fold_left (fun s r => nins (re r) (nins (rs r) s)) l s) /\
    forall b, In b (fold_left (fun s r => nins (re r) (nins (rs r) s)) l s) <-> In b s \/ exists r, In r l /\ (b = rs r \/ b = re r)).
  { induction l as [|r l IH]; intros s Hs; cbn [fold_left].
    - split; [exact Hs|]. intros b. split; [auto|]. intros [H|(r & [] & _)]. exact H.
    - destruct (IH (nins (re r) (nins (rs r) s))) as [H1 H2]; [do 2 apply nins_sorted; exact Hs|].
      split; [exact H1|]. intros b. rewrite H2, !nins_in. split.
      + intros [[H|[H|H]]|(r' & H & K)]; [right; exists r; cbn; auto|right; exists r; cbn; auto|auto|right; exists r'; cbn; auto].
      + intros [H|(r' & [<-|H] & K)]; [auto|destruct K; auto|right; eauto]. }
  assert (G2 : forall ts s, nsorted s ->
    nsorted (fold_left (fun s t => fold_left (fun s r => nins (re r) (nins (rs r) s)) (tlab t) s) ts s) /\
    forall b, In b (fold_left (fun s t => fold_left (fun s r => nins (re r) (nins (rs r) s)) (tlab t) s) ts s) <->
      In b s \/ exists t r, In t ts /\ In r (tlab t) /\ (b = rs r \/ b = re r)).
  { clear ts. induction ts as [|t ts IH]; intros s Hs; cbn [fold_left].
    - split; [exact Hs|]. intros b. split; [auto|]. intros [H|(t & r & [] & _)]. exact H.
    - destruct (G1 (tlab t) s Hs) as [K1 K2]. destruct (IH _ K1) as [H1 H2]. split; [exact H1|].
      intros b. rewrite H2, K2. split.
      + intros [[H|(r & H & K)]|(t' & r & H & H' & K)]; [auto|right; exists t, r; cbn; auto|right; exists t', r; cbn; auto].
      + intros [H|(t' & r & [<-|H] & H' & K)]; [auto|left; right; eauto|right; eauto 6]. }
  destruct (G2 ts [] ns_nil) as [H1 H2]. split; [exact H1|]. intros b. rewrite H2. split; [intros [[]|H]; exact H|auto].
Qed.

(** ** Destinations on a character *)
Definition on_char (ts : list ntr) (ch : N) : list nat :=
  fold_left (fun s t => if includes (tlab t) ch then sins (tdest t) s else s) ts [].
Lemma fold_dest_spec (c : ntr -> bool) ts : forall s, ssorted s ->
  ssorted (fold_left (fun s t => if c t then sins (tdest t) s else s) ts s) /\
  forall x, In x (fold_left (fun s t => if c t then sins (tdest t) s else s) ts s) <-> In x s \/ exists t, In t ts /\ c t = true /\ tdest t = x.
Proof.
  induction ts as [|t ts IH]; intros s Hs; cbn [fold_left].
  - split; [exact Hs|]. intros x. split; [auto|]. intros [H|(t & [] & _)]. exact H.
  - destruct (c t) eqn:E.
    + destruct (IH (sins (tdest t) s) (sins_sorted _ _ Hs)) as [H1 H2]. split; [exact H1|]. intros x. rewrite H2, sins_in. split.
      * intros [[H|H]|(t' & H & K)]; [right; exists t; cbn; auto|auto|right; exists t'; cbn; auto].
      * intros [H|(t' & [<-|H] & K1 & K2)]; [auto|auto|right; eauto].
    + destruct (IH s Hs) as [H1 H2]. split; [exact H1|]. intros x. rewrite H2. split.
      * intros [H|(t' & H & K)]; [auto|right; exists t'; cbn; auto].
      * intros [H|(t' & [<-|H] & K1 & K2)]; [auto|congruence|right; eauto].
Qed.
Lemma on_char_spec ts ch : ssorted (on_char ts ch) /\
  forall x, In x (on_char ts ch) <-> exists t, In t ts /\ includes (tlab t) ch = true /\ tdest t = x.
Proof.
  destruct (fold_dest_spec (fun t => includes (tlab t) ch) ts [] ss_nil) as [H1 H2]. split; [exact H1|].
  intros x. unfold on_char. rewrite H2. split; [intros [[]|H]; exact H|auto].
Qed.

Definition borders_in (bs : list N) (ts : list ntr) : Prop :=
  forall t r, In t ts -> In r (tlab t) -> In (rs r) bs /\ In (re r) bs.
Lemma atomic_range bs a b pre post r ch : nsorted bs -> bs = pre ++ a :: b :: post ->
  In (rs r) bs -> In (re r) bs -> (a <= ch < b)%N ->
  ((rs r <=? ch) && (ch <? re r))%N = r_includes r (mkR a b).
Proof.
  intros HS E H1 H2 Hch. unfold r_includes. cbn [rs re].
  assert (Q : forall x, In x bs -> (x <= a \/ b <= x)%N).
  { intros x Hx. rewrite E in Hx, HS. clear E. induction pre as [|p pre IH].
    - cbn in Hx, HS. inversion HS as [|? ? Ha HS']; subst. inversion HS' as [|? ? Hb _]; subst.
      destruct Hx as [->|[->|Hx]]; [lia|lia|]. apply Hb in Hx. lia.
    - cbn in Hx, HS. inversion HS as [|? ? Hp HS']; subst. destruct Hx as [<-|Hx]; [|apply IH; assumption].
      left. specialize (Hp a). assert (In a (pre ++ a :: b :: post)) by (apply in_or_app; right; left; reflexivity). apply Hp in H. lia. }
  destruct (Q _ H1), (Q _ H2); lia.
Qed.
Lemma includes_atomic bs a b pre post ts t ch : nsorted bs -> bs = pre ++ a :: b :: post ->
  borders_in bs ts -> In t ts -> (a <= ch < b)%N -> includes (tlab t) ch = includes_range (tlab t) (mkR a b).
Proof.
  intros HS E HB Ht Hch. unfold includes, includes_range.
  assert (G : forall l, (forall r, In r l -> In r (tlab t)) ->
     existsb (fun r => ((rs r <=? ch) && (ch <? re r))%N) l = existsb (fun mr => r_includes mr (mkR a b)) l).
  { induction l as [|r l IH]; intros Hl; cbn; [reflexivity|]. rewrite IH by (intros; apply Hl; cbn; auto).
    f_equal. destruct (HB t r Ht (Hl r (or_introl eq_refl))). eapply atomic_range; eauto. }
  apply G. auto.
Qed.
Lemma fold_left_ext_in {A B} (f g : A -> B -> A) l : (forall a b, In b l -> f a b = g a b) -> forall a, fold_left f l a = fold_left g l a.
Proof.
  induction l as [|b l IH]; intros H a; cbn; [reflexivity|]. rewrite (H a b) by (left; reflexivity). apply IH. intros; apply H; right; assumption.
Qed.
Lemma dep_closure_char bs a b pre post ts ch : nsorted bs -> bs = pre ++ a :: b :: post ->
  borders_in bs ts -> (a <= ch < b)%N -> dep_closure ts (mkR a b) = on_char ts ch.
Proof.
  intros HS E HB Hch. unfold dep_closure, on_char. apply fold_left_ext_in. intros s t Ht.
  rewrite (includes_atomic bs a b pre post ts t ch) by assumption. reflexivity.
Qed.

(** ** add_range at the end *)
Lemma add_range_end cc r a : Separated cc -> (forall x, In x cc -> (re x <= a)%N) -> (a <= rs r)%N -> (rs r < re r)%N ->
  Separated (add_range cc r) /\ (forall x, In x (add_range cc r) -> (re x <= re r)%N).
Proof.
  intros HS HB Ha Hr.
  assert (G : Separated (add_range cc r) /\ (forall x, In x (add_range cc r) -> (re x <= re r)%N) /\
     match cc with [] => True | y :: _ => match add_range cc r with [] => False | z :: _ => rs z = rs y end end).
  { induction cc as [|x cc IH]; cbn [add_range].
    - cbn. split; [lia|]. split; [|exact I]. intros ? [<-|[]]. lia.
    - assert (Hx : (re x <= a)%N) by (apply HB; left; reflexivity).
      cbn [Separated] in HS. destruct HS as (S1 & S2 & S3).
      destruct (r_overlaps x r) eqn:E.
      + unfold r_overlaps in E. assert (Ex : re x = rs r) by lia.
        assert (cc = []) as ->.
        { destruct cc as [|y cc]; [reflexivity|]. assert ((re y <= a)%N) by (apply HB; right; left; reflexivity).
          cbn [Separated] in S3. lia. }
        cbn [add_merge]. assert (E' : r_overlaps x r = true) by (unfold r_overlaps; lia). rewrite E'.
        cbn [add_merge Separated]. unfold r_merge; cbn [rs re]. split; [lia|]. split; [|lia].
        intros ? [<-|[]]. cbn. lia.
      + destruct IH as (I1 & I2 & I3); [exact S3|intros; apply HB; right; assumption|].
        split; [|split; [|reflexivity]].
        * cbn [Separated]. split; [exact S1|]. split; [|exact I1].
          destruct cc as [|y cc].
          -- cbn. unfold r_overlaps in E. lia.
          -- destruct (add_range (y :: cc) r) as [|z l]; [exact I|]. rewrite I3. exact S2.
        * intros z [<-|Hz]; [lia|]. apply I2. exact Hz. }
  tauto.
Qed.

(** ** The departure set *)
Definition ditems := list (cclass * list nat).
Lemma dep_add_spec items r cl : NoDup (map snd items) ->
  (exists cc, In (cc, cl) items /\ NoDup (map snd (dep_add items r cl)) /\
     forall cc' s, In (cc', s) (dep_add items r cl) <-> (In (cc', s) items /\ s <> cl) \/ (s = cl /\ cc' = add_range cc r)) \/
  (~ In cl (map snd items) /\ dep_add items r cl = items ++ [([r], cl)]).
Proof.
  induction items as [|[cc s] items IH]; intros ND; cbn [dep_add].
  - right. split; [intros []|reflexivity].
  - cbn [map snd] in ND. inversion ND as [|? ? N1 N2]; subst. destruct (list_eqb cl s) eqn:E.
    + apply list_eqb_spec in E. subst s. left. exists cc. split; [left; reflexivity|]. split; [cbn; constructor; assumption|].
      intros cc' s. cbn [In]. split.
      * intros [H|H]; [injection H as <- <-; auto|]. left. split; [auto|]. intros ->. apply N1.
        apply in_map_iff. exists (cc', cl). auto.
      * intros [[[H|H] K]|[-> ->]]; [injection H as _ <-; congruence|auto|auto].
    + assert (N3 : cl <> s) by (intros ->; rewrite (proj2 (list_eqb_spec s s) eq_refl) in E; discriminate).
      destruct (IH N2) as [(c0 & H1 & H2 & H3)|(H1 & H2)].
      * left. exists c0. split; [right; exact H1|]. split.
        -- cbn. constructor; [|exact H2]. intros K. apply in_map_iff in K as ([c1 s1] & E1 & K). cbn in E1. subst s1.
           apply H3 in K as [[K _]|[-> _]]; [|congruence]. apply N1. apply in_map_iff. exists (c1, s). auto.
        -- intros cc' s'. cbn [In]. rewrite H3. split.
           ++ intros [H|[H|H]]; [injection H as <- <-; left; split; [auto|congruence]|left; tauto|auto].
           ++ intros [[[H|H] K]|H]; auto.
      * right. split; [|rewrite H2; reflexivity]. cbn. intros [K|K]; [congruence|auto].
Qed.

Lemma add_merge_ne l : forall r, add_merge l r <> [].
Proof. induction l as [|i l IH]; intros r; cbn [add_merge]; [discriminate|]. destruct (r_overlaps i r); [apply IH|discriminate]. Qed.
Lemma add_range_ne l r : add_range l r <> [].
Proof. destruct l as [|i l]; cbn [add_range]; [discriminate|]. destruct (r_overlaps i r); [apply add_merge_ne|discriminate]. Qed.
Definition dep_inv (ts : list ntr) (lo hi : N) (items : ditems) : Prop :=
  NoDup (map snd items) /\
  (forall cc s, In (cc, s) items -> Separated cc /\ cc <> [] /\ (forall x, In x cc -> (re x <= hi)%N) /\
     forall ch, includes cc ch = true -> s = on_char ts ch) /\
  (forall ch, (lo <= ch < hi)%N -> on_char ts ch <> [] -> exists cc s, In (cc, s) items /\ includes cc ch = true).

Lemma includes_add cc r ch : Separated cc -> (rs r < re r)%N ->
  includes (add_range cc r) ch = true <-> includes cc ch = true \/ (rs r <= ch < re r)%N.
Proof.
  intros HS Hr. rewrite !includes_Den. rewrite add_range_Den; [reflexivity|eapply SortedFrom_Proper; apply Separated_Sorted; exact HS|lia].
Qed.
Lemma dep_step ts lo a b items : (lo <= a < b)%N ->
  (forall ch, (a <= ch < b)%N -> dep_closure ts (mkR a b) = on_char ts ch) ->
  dep_inv ts lo a items ->
  dep_inv ts lo b (match dep_closure ts (mkR a b) with [] => items | _ => dep_add items (mkR a b) (dep_closure ts (mkR a b)) end).
Proof.
  intros Hab HC (ND & HI & HL).
  destruct (dep_closure ts (mkR a b)) as [|q0 cl0] eqn:Ecl.
  - split; [exact ND|]. split.
    + intros cc s Hin. destruct (HI cc s Hin) as (K1 & K2 & K3 & K4). split; [exact K1|]. split; [exact K2|].
      split; [intros x Hx; apply K3 in Hx; lia|exact K4].
    + intros ch Hch Hne. destruct (N.lt_ge_cases ch a) as [L|L]; [apply HL; [lia|exact Hne]|].
      exfalso. apply Hne. symmetry. apply HC. lia.
  - set (cl := q0 :: cl0) in *.
    assert (Hr : (rs (mkR a b) < re (mkR a b))%N) by (cbn; lia).
    destruct (dep_add_spec items (mkR a b) cl ND) as [(c0 & Hc0 & ND' & HS)|(Hnew & Eq)].
    + destruct (HI _ _ Hc0) as (K1 & K2 & K3 & K4).
      destruct (add_range_end c0 (mkR a b) a K1 K3 ltac:(cbn; lia) Hr) as (R1 & R2). cbn [re] in R2.
      split; [exact ND'|]. split.
      * intros cc s Hin. apply HS in Hin as [[Hin _]|[-> ->]].
        -- destruct (HI cc s Hin) as (J1 & J2 & J3 & J4). split; [exact J1|]. split; [exact J2|].
           split; [intros x Hx; apply J3 in Hx; lia|exact J4].
        -- split; [exact R1|]. split.
           { apply add_range_ne. }
           split; [exact R2|]. intros ch Hi. apply includes_add in Hi; [|exact K1|exact Hr].
           destruct Hi as [Hi|Hi]; [apply K4; exact Hi|]. cbn in Hi. apply HC. exact Hi.
      * intros ch Hch Hne. destruct (N.lt_ge_cases ch a) as [L|L].
        -- destruct (HL ch) as (cc & s & Hin & Hi); [lia|exact Hne|].
           destruct (list_eq_dec Nat.eq_dec s cl) as [->|Ns].
           ++ (* it is the extended item *)
              assert (cc = c0).
              { clear - ND Hin Hc0. induction items as [|[c s] items IH]; [destruct Hin|]. cbn in ND. inversion ND as [|? ? N1 N2]; subst.
                destruct Hin as [E|Hin], Hc0 as [E'|Hc0].
                - congruence.
                - injection E as -> ->. exfalso. apply N1. apply in_map_iff. exists (c0, cl). auto.
                - injection E' as -> ->. exfalso. apply N1. apply in_map_iff. exists (cc, cl). auto.
                - apply IH; assumption. }
              subst cc. exists (add_range c0 (mkR a b)), cl. split; [apply HS; right; auto|]. apply includes_add; auto.
           ++ exists cc, s. split; [apply HS; left; auto|exact Hi].
        -- exists (add_range c0 (mkR a b)), cl. split; [apply HS; right; auto|]. apply includes_add; [exact K1|exact Hr|right; cbn; lia].
    + rewrite Eq. split; [|split].
      * rewrite map_app. cbn. apply (Permutation_NoDup (Permutation_cons_append _ _)). constructor; assumption.
      * intros cc s Hin. apply in_app_or in Hin as [Hin|[E|[]]].
        -- destruct (HI cc s Hin) as (J1 & J2 & J3 & J4). split; [exact J1|]. split; [exact J2|].
           split; [intros x Hx; apply J3 in Hx; lia|exact J4].
        -- injection E as <- <-. split; [cbn; lia|]. split; [discriminate|]. split; [intros ? [<-|[]]; cbn; lia|].
           intros ch Hi. apply HC. unfold includes in Hi. cbn in Hi. lia.
      * intros ch Hch Hne. destruct (N.lt_ge_cases ch a) as [L|L].
        -- destruct (HL ch) as (cc & s & Hin & Hi); [lia|exact Hne|]. exists cc, s. split; [apply in_or_app; auto|exact Hi].
        -- exists [mkR a b], cl. split; [apply in_or_app; right; left; reflexivity|]. unfold includes. cbn. lia.
Qed.
Lemma dep_loop_inv ts bs0 lo : nsorted bs0 -> borders_in bs0 ts ->
  forall bs pre items, bs0 = pre ++ bs -> match bs with [] => True | a :: _ => (lo <= a)%N /\ dep_inv ts lo a items end ->
  bs <> [] -> dep_inv ts lo (last bs 0%N) (dep_loop ts bs items).
Proof.
  intros HS HB. induction bs as [|a bs IH]; intros pre items E HI Hne; [congruence|].
  destruct bs as [|b bs].
  - cbn. tauto.
  - change (last (a :: b :: bs) 0%N) with (last (b :: bs) 0%N).
    change (dep_loop ts (a :: b :: bs) items) with
      (dep_loop ts (b :: bs) (match dep_closure ts (mkR a b) with [] => items | _ => dep_add items (mkR a b) (dep_closure ts (mkR a b)) end)).
    assert (Hab : (a < b)%N).
    { rewrite E in HS. clear - HS. induction pre as [|p pre IH]; cbn in HS; inversion HS as [|? ? H1 H2]; subst; [apply H1; left; reflexivity|auto]. }
    destruct HI as [Hlo HI].
    apply (IH (pre ++ [a])); [rewrite <- app_assoc; exact E| |discriminate]. split; [lia|].
    apply dep_step; [lia| |exact HI]. intros ch Hch. eapply dep_closure_char; eauto.
Qed.

(** What a departure set is: labels separated, disjoint, covering, each with the exact set of
    destinations of its characters. *)
Definition neps (ts : list ntr) := filter (fun t => negb (teps t)) ts.
Lemma on_char_neps ts ch : on_char (neps ts) ch = on_char ts ch.
Proof.
  destruct (on_char_spec (neps ts) ch) as [S1 I1]. destruct (on_char_spec ts ch) as [S2 I2].
  apply ssorted_ext; [exact S1|exact S2|]. intros x. rewrite I1, I2. unfold neps. split; intros (t & Ht & Hi & E); exists t.
  - apply filter_In in Ht as [Ht _]. auto.
  - split; [|auto]. apply filter_In. split; [exact Ht|]. unfold teps, is_epsilon. destruct (tlab t); [discriminate Hi|reflexivity].
Qed.
Lemma departures_spec ts :
  NoDup (map snd (departures ts)) /\
  (forall cc s, In (cc, s) (departures ts) -> Separated cc /\ cc <> [] /\ forall ch, includes cc ch = true -> s = on_char ts ch) /\
  (forall ch, on_char ts ch <> [] -> exists cc s, In (cc, s) (departures ts) /\ includes cc ch = true).
Proof.
  unfold departures. fold (neps ts). set (us := neps ts).
  assert (OC : forall ch, on_char us ch = on_char ts ch) by (intros; apply on_char_neps).
  destruct (borders_spec us) as [HS HB].
  assert (HBI : borders_in (borders us) us).
  { intros t r Ht Hr. split; apply HB; exists t, r; auto. }
  destruct (borders us) as [|b0 bs] eqn:Eb.
  - cbn. split; [constructor|]. split; [intros ? ? []|]. intros ch Hne. exfalso. apply Hne. rewrite <- OC.
    destruct (on_char_spec us ch) as [_ I1]. destruct (on_char us ch) as [|x l]; [reflexivity|].
    destruct (proj1 (I1 x) (or_introl eq_refl)) as (t & Ht & Hi & _).
    apply includes_Den in Hi. destruct Hi as (r & Hr & _). destruct (HBI t r Ht Hr) as [[] _].
  - destruct (dep_loop_inv us (b0 :: bs) b0 HS HBI (b0 :: bs) [] [] eq_refl) as (ND & HI & HL).
    + split; [lia|]. split; [constructor|]. split; [intros ? ? []|]. intros ch Hch. lia.
    + discriminate.
    + split; [exact ND|]. split.
      * intros cc s Hin. destruct (HI cc s Hin) as (K1 & K2 & _ & K4). split; [exact K1|]. split; [exact K2|].
        intros ch Hi. rewrite <- OC. apply K4. exact Hi.
      * intros ch Hne. apply HL; [|rewrite OC; exact Hne]. rewrite <- OC in Hne.
        destruct (on_char_spec us ch) as [_ I1]. destruct (on_char us ch) as [|x l]; [congruence|].
        destruct (proj1 (I1 x) (or_introl eq_refl)) as (t & Ht & Hi & _).
        apply includes_Den in Hi. destruct Hi as (r & Hr & L1 & L2). destruct (HBI t r Ht Hr) as [B1 B2].
        assert (LO : forall x, In x (b0 :: bs) -> (b0 <= x)%N).
        { intros y [<-|Hy]; [lia|]. inversion HS as [|? ? H1 _]; subst. apply H1 in Hy. lia. }
        assert (HI' : forall x, In x (b0 :: bs) -> (x <= last (b0 :: bs) 0)%N).
        { clear - HS. induction HS as [|z l Hz Hl IH]; intros y Hy; [destruct Hy|]. destruct l as [|z' l].
          - destruct Hy as [<-|[]]. cbn. lia.
          - change (last (z :: z' :: l) 0%N) with (last (z' :: l) 0%N). destruct Hy as [<-|Hy]; [|apply IH; exact Hy].
            specialize (Hz z' (or_introl eq_refl)). specialize (IH z' (or_introl eq_refl)). lia. }
        apply LO in B1. apply HI' in B2. lia.
Qed.

(** ** Unions of labels *)
Lemma union_loop_ranges fuel : forall a b la lb,
  (length a + length b <= fuel)%nat -> SortedFrom la a -> SortedFrom lb b ->
  (forall ch, Den a ch -> Den b ch -> False) ->
  forall d, exists c, union_loop fuel (next_r a d) a (next_r b d) b = Some c /\ forall r, In r c <-> In r a \/ In r b.
Proof.
  induction fuel as [|f IH]; intros a b la lb Hf Ha Hb HX d.
  - destruct a, b; simpl in Hf; try lia. exists []. split; [reflexivity|]. cbn. tauto.
  - destruct a as [|x a]; [exists b; split; [reflexivity|]; cbn; tauto|].
    destruct b as [|y b]; [exists (x :: a); split; [reflexivity|]; cbn; tauto|].
    cbn [union_loop length next_r] in *.
    pose proof Ha as Ha'. pose proof Hb as Hb'. cbn [SortedFrom] in Ha', Hb'.
    destruct Ha' as (A1 & A2 & A3), Hb' as (B1 & B2 & B3).
    assert (DJ : (re x <= rs y \/ re y <= rs x)%N).
    { destruct (N.le_gt_cases (re x) (rs y)); [auto|]. destruct (N.le_gt_cases (re y) (rs x)); [auto|].
      exfalso. apply (HX (N.max (rs x) (rs y))); apply Den_cons; left; lia. }
    unfold r_lt, r_gt. destruct (re x <=? rs y)%N eqn:E1; [|destruct (re y <=? rs x)%N eqn:E2; [|lia]].
    + destruct (IH a (y :: b) (re x) (rs y)) with (d := x) as (c & Hc & HD); auto; [simpl; lia| | |].
      { cbn [SortedFrom]. repeat split; auto. lia. }
      { intros ch K L. apply (HX ch); [apply Den_cons; auto|exact L]. }
      cbn [next_r] in Hc. rewrite Hc. eexists. split; [reflexivity|]. intros r. cbn [In]. rewrite HD. cbn [In]. tauto.
    + destruct (IH (x :: a) b (rs x) (re y)) with (d := y) as (c & Hc & HD); auto; [simpl; lia| | |].
      { cbn [SortedFrom]. repeat split; auto. lia. }
      { intros ch K L. apply (HX ch); [exact K|apply Den_cons; auto]. }
      cbn [next_r] in Hc. rewrite Hc. eexists. split; [reflexivity|]. intros r. cbn [In]. rewrite HD. cbn [In]. tauto.
Qed.
Lemma cc_or_disjoint a b : Sorted a -> Sorted b -> (forall ch, Den a ch -> Den b ch -> False) ->
  Sorted (cc_or a b) /\ forall r, In r (cc_or a b) <-> In r a \/ In r b.
Proof.
  intros Ha Hb HX. unfold cc_or.
  destruct (union_disjoint a b Ha Hb HX) as (c & H1 & H2 & _). rewrite H1. split; [exact H2|].
  destruct (union_loop_ranges (length a + length b) a b 0%N 0%N (le_n _) Ha Hb HX (mkR 0 0)) as (c' & K1 & K2).
  unfold union in H1. rewrite H1 in K1. injection K1 as <-. exact K2.
Qed.
(** Adding ranges that are already there changes nothing. *)
Lemma union_loop_sub fuel : forall c a l la,
  (length c + length a <= fuel)%nat -> SortedFrom l c -> SortedFrom la a -> (forall r, In r a -> In r c) ->
  forall d, union_loop fuel (next_r c d) c (next_r a d) a = Some c.
Proof.
  induction fuel as [|f IH]; intros c a l la Hf Hc Ha HI d.
  - destruct c, a; simpl in Hf; try lia. reflexivity.
  - destruct c as [|x c].
    { destruct a as [|y a]; [reflexivity|]. destruct (HI y (or_introl eq_refl)). }
    destruct a as [|y a]; [reflexivity|].
    cbn [union_loop next_r length] in *.
    cbn [SortedFrom] in Hc, Ha. destruct Hc as (C1 & C2 & C3), Ha as (A1 & A2 & A3).
    assert (BL : forall r, In r c -> (re x <= rs r)%N).
    { clear - C3. revert C3. generalize (re x). induction c as [|z c IH]; intros m Hc r Hr; [destruct Hr|].
      cbn in Hc. destruct Hr as [<-|Hr]; [tauto|]. destruct Hc as (K1 & K2 & K3). specialize (IH _ K3 r Hr). lia. }
    destruct (HI y (or_introl eq_refl)) as [E|Hy].
    + subst y. unfold r_lt, r_gt. destruct (re x <=? rs x)%N eqn:E1; [lia|]. destruct (re x <? re x)%N eqn:E2; [lia|].
      rewrite r_merge_same. apply (IH (x :: c) a l (re x)); [cbn; lia|cbn; auto|exact A3|].
      intros r Hr. destruct (HI r (or_intror Hr)) as [E|K]; [|right; exact K].
      (* r = x is impossible: everything left in a starts at or after the end of x *)
      exfalso. subst r. clear - A3 Hr C2. revert A3 Hr. assert (G : forall m a, SortedFrom m a -> In x a -> (m <= rs x)%N).
      { intros m a0. revert m. induction a0 as [|z a0 IH]; intros m H Hr; [destruct Hr|]. cbn in H. destruct Hr as [<-|Hr]; [tauto|].
        destruct H as (K1 & K2 & K3). specialize (IH _ K3 Hr). lia. }
      intros A3 Hr. apply (G _ _ A3) in Hr. lia.
    + pose proof (BL y Hy) as L. unfold r_lt. destruct (re x <=? rs y)%N eqn:E1; [|lia].
      rewrite (IH c (y :: a) (re x) la); [reflexivity|cbn; lia|exact C3|cbn; auto|].
      intros r Hr. destruct (HI r Hr) as [E|K]; [|exact K]. subst r. exfalso. destruct Hr as [E|Hr]; [subst; lia|].
      assert (G : forall m a, SortedFrom m a -> In x a -> (m <= rs x)%N).
      { intros m a0. revert m. induction a0 as [|z a0 IH0]; intros m H Hr0; [destruct Hr0|]. cbn in H. destruct Hr0 as [<-|Hr0]; [tauto|].
        destruct H as (K1 & K2 & K3). specialize (IH0 _ K3 Hr0). lia. }
      apply (G _ _ A3) in Hr. lia.
Qed.
Lemma cc_or_sub c a : Sorted c -> Sorted a -> (forall r, In r a -> In r c) -> cc_or c a = c.
Proof. intros Hc Ha HI. unfold cc_or, union. rewrite (union_loop_sub _ c a 0 0 (le_n _) Hc Ha HI (mkR 0 0)). reflexivity. Qed.
