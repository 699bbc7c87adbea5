(** Departure sets by character, and transition tables as sets of (range, destination). *)
From Coq Require Import List NArith ZArith Arith Bool Lia ZifyBool ZifyN ZifyNat Permutation.
From Verif Require Import CharClass CharClassSpec CharClassProofs Stream NFA NFAProofs DFA DFADep DFAProofs ATN Grammar CodeGen CodeGenProofs Lookahead LookSpec LookOrder LookClosure.
Import ListNotations.
Local Open Scope nat_scope.
Notation departure := (cclass * celem)%type.

(** ** One character *)
Definition dep_char (ds : list departure) (c : N) : closure :=
  fold_left (fun cl d => if CharClass.includes (fst d) c then closure_add cl (snd d) else cl) ds [].
Definition as_tr (d : departure) : ntr := mkT (fst d) 0 false.
Lemma dep_borders_eq ds : dep_borders ds = borders (map as_tr ds).
Proof.
  unfold dep_borders, borders. generalize (@nil N). induction ds as [|d ds IH]; intros s; cbn [fold_left map]; [reflexivity|]. rewrite IH. reflexivity.
Qed.
Lemma dep_at_char ds a b pre post c : dep_borders ds = pre ++ a :: b :: post -> (a <= c < b)%N -> dep_at ds (mkR a b) = dep_char ds c.
Proof.
  intros E Hc. unfold dep_at, dep_char. apply fold_left_ext_in. intros s d Hd. rewrite dep_borders_eq in E.
  destruct (borders_spec (map as_tr ds)) as [HS HB].
  assert (BI : borders_in (borders (map as_tr ds)) (map as_tr ds)) by (intros t r Ht Hr; split; apply HB; exists t, r; auto).
  pose proof (includes_atomic _ a b pre post _ (as_tr d) c HS E BI (in_map as_tr _ _ Hd) Hc) as H. cbn [as_tr tlab] in H. rewrite H. reflexivity.
Qed.
(** The items are found where the characters are. *)
Lemma nsorted_tail x l : nsorted (x :: l) -> nsorted l. Proof. intros H. inversion H. assumption. Qed.
Lemma dep_items_in ds : forall bs r s, In (r, s) (dep_items ds bs) -> nsorted bs -> exists pre post, bs = pre ++ rs r :: re r :: post /\ (rs r < re r)%N /\ s = dep_at ds r /\ s <> [].
Proof.
  induction bs as [|a bs IH]; intros r s H HS; [destruct H|]. destruct bs as [|b bs]; [destruct H|].
  assert (G : In (r, s) (dep_items ds (b :: bs)) -> exists pre post, a :: b :: bs = pre ++ rs r :: re r :: post /\ (rs r < re r)%N /\ s = dep_at ds r /\ s <> []).
  { intros H1. destruct (IH r s H1 (nsorted_tail _ _ HS)) as (pre & post & E & R). exists (a :: pre), post. rewrite E. auto. }
  cbn [dep_items] in H. destruct (dep_at ds (mkR a b)) as [|e cl] eqn:Ed; [apply G, H|]. destruct H as [H|H]; [|apply G, H].
  injection H as <- <-. exists [], bs. cbn [rs re app]. repeat split; [|symmetry; exact Ed|discriminate].
  inversion HS as [|? ? H1 _]; subst. apply H1. left. reflexivity.
Qed.
Lemma dep_items_find ds : forall bs a b pre post, bs = pre ++ a :: b :: post -> dep_at ds (mkR a b) <> [] -> In (mkR a b, dep_at ds (mkR a b)) (dep_items ds bs).
Proof.
  induction bs as [|x bs IH]; intros a b pre post E H; [destruct pre; discriminate|].
  destruct pre as [|y pre]; cbn [app] in E; injection E as -> ->.
  - cbn [dep_items]. destruct (dep_at ds (mkR a b)); [congruence|left; reflexivity].
  - specialize (IH a b pre post eq_refl H). cbn [dep_items]. destruct (pre ++ a :: b :: post) as [|z l]; [destruct IH|].
    destruct (dep_at ds (mkR y z)); [exact IH|right; exact IH].
Qed.
Lemma between bs c : nsorted bs -> (exists x, In x bs /\ (x <= c)%N) -> (exists y, In y bs /\ (c < y)%N) -> exists pre a b post, bs = pre ++ a :: b :: post /\ (a <= c < b)%N.
Proof.
  induction bs as [|x bs IH]; intros HS (u & Hu & Lu) (v & Hv & Lv); [destruct Hu|].
  inversion HS as [|? ? Hx HS']; subst. destruct bs as [|y bs].
  - destruct Hu as [->|[]], Hv as [->|[]]. lia.
  - destruct (N.lt_ge_cases c y) as [L|L].
    + exists [], x, y, bs. split; [reflexivity|]. split; [|exact L]. destruct Hu as [->|Hu]; [exact Lu|].
      inversion HS' as [|? ? Hy _]; subst. destruct Hu as [->|Hu]; [lia|]. apply Hy in Hu. lia.
    + destruct IH as (pre & a & b & post & E & R); [exact HS'|exists y; split; [left; reflexivity|exact L]| |].
      * destruct Hv as [->|Hv]; [|eauto]. specialize (Hx y (or_introl eq_refl)). lia.
      * exists (x :: pre), a, b, post. rewrite E. auto.
Qed.
Lemma closure_add_ne cl e : closure_add cl e <> [].
Proof. unfold closure_add. destruct (existsb _ cl) eqn:E; [|apply cl_ins_ne]. destruct cl; [discriminate|congruence]. Qed.
Lemma dep_char_ne ds c : dep_char ds c <> [] <-> exists d, In d ds /\ CharClass.includes (fst d) c = true.
Proof.
  unfold dep_char. assert (G : forall ds cl, fold_left (fun cl d => if CharClass.includes (fst d) c then closure_add cl (snd d) else cl) ds cl <> [] <-> cl <> [] \/ exists d, In d ds /\ CharClass.includes (fst d) c = true).
  { clear. induction ds as [|d ds IH]; intros cl; cbn [fold_left]; [firstorder|]. rewrite IH. destruct (CharClass.includes (fst d) c) eqn:E.
    - split; [right; exists d; cbn; auto|]. intros _. left. apply closure_add_ne.
    - split; [intros [H|(x & H1 & H2)]; [auto|right; exists x; cbn; auto]|]. intros [H|(x & [<-|H1] & H2)]; [auto|congruence|right; eauto]. }
  rewrite G. split; [intros [H|H]; [congruence|exact H]|auto].
Qed.
Lemma items_char ds c : let items := dep_items ds (dep_borders ds) in
  (forall r s, In (r, s) items -> (rs r < re r)%N /\ s <> []) /\
  (forall r s, In (r, s) items -> (rs r <= c < re r)%N -> s = dep_char ds c) /\
  (dep_char ds c <> [] -> exists r, In (r, dep_char ds c) items /\ (rs r <= c < re r)%N).
Proof.
  destruct (borders_spec (map as_tr ds)) as [HS HB]. rewrite <- dep_borders_eq in HS, HB. cbn zeta. split; [|split].
  - intros r s H. apply dep_items_in in H as (pre & post & E & H1 & H2 & H3); auto.
  - intros r s H Hc. apply dep_items_in in H as (pre & post & E & H1 & H2 & H3); [|exact HS]. destruct r as [a b]. cbn [rs re] in *. rewrite H2. eapply dep_at_char; eauto.
  - intros H. pose proof H as H'. apply dep_char_ne in H as (d & Hd & HI). unfold CharClass.includes in HI. apply existsb_exists in HI as (r & Hr & HI). apply andb_true_iff in HI as [H1 H2].
    destruct (between (dep_borders ds) c HS) as (pre & a & b & post & E & R).
    + exists (rs r). split; [|lia]. apply HB. exists (as_tr d), r. split; [apply in_map, Hd|]. auto.
    + exists (re r). split; [|lia]. apply HB. exists (as_tr d), r. split; [apply in_map, Hd|]. auto.
    + exists (mkR a b). split; [|exact R]. pose proof (dep_at_char ds a b pre post c E R) as EQ. rewrite <- EQ in *. eapply dep_items_find; eauto.
Qed.
Lemma items_disjoint ds r s r' s' : let items := dep_items ds (dep_borders ds) in In (r, s) items -> In (r', s') items -> (r = r' /\ s = s') \/ (re r <= rs r')%N \/ (re r' <= rs r)%N.
Proof.
  destruct (borders_spec (map as_tr ds)) as [HS _]. rewrite <- dep_borders_eq in HS. cbn zeta. intros H1 H2.
  apply dep_items_in in H1 as (pre & post & E & L & S1 & _); [|exact HS]. apply dep_items_in in H2 as (pre' & post' & E' & L' & S2 & _); [|exact HS].
  assert (Q : forall r r' pre post, (rs r < re r)%N -> (rs r' < re r')%N -> dep_borders ds = pre ++ rs r :: re r :: post -> In (rs r') (dep_borders ds) -> In (re r') (dep_borders ds) ->
     (re r <= rs r' \/ rs r' <= rs r)%N /\ (re r' <= rs r \/ re r <= re r')%N).
  { clear. intros r r' pre post L L' E I1 I2. destruct (borders_spec (map as_tr ds)) as [HS _]. rewrite <- dep_borders_eq in HS. rewrite E in HS.
    assert (Z : forall x, In x (dep_borders ds) -> (x <= rs r \/ re r <= x)%N).
    { intros x Hx. rewrite E in Hx. clear E. induction pre as [|p pre IH]; cbn [app] in Hx, HS.
      - inversion HS as [|? ? Ha HS']; subst. inversion HS' as [|? ? Hb _]; subst. destruct Hx as [->|[->|Hx]]; [lia|lia|]. apply Hb in Hx. lia.
      - inversion HS as [|? ? Hp HS']; subst. destruct Hx as [<-|Hx]; [|auto]. left. assert (I : In (rs r) (pre ++ rs r :: re r :: post)) by (apply in_or_app; right; left; reflexivity). apply Hp in I. lia. }
    destruct (Z _ I1), (Z _ I2); split; lia. }
  assert (J1 : In (rs r') (dep_borders ds) /\ In (re r') (dep_borders ds)) by (rewrite E'; split; apply in_or_app; right; cbn; auto).
  assert (J2 : In (rs r) (dep_borders ds) /\ In (re r) (dep_borders ds)) by (rewrite E; split; apply in_or_app; right; cbn; auto).
  destruct (Q r r' pre post L L' E (proj1 J1) (proj2 J1)) as [A1 A2]. destruct (Q r' r pre' post' L' L E' (proj1 J2) (proj2 J2)) as [B1 B2].
  destruct r as [x1 x2], r' as [y1 y2]. cbn [rs re] in *.
  assert (C : (x1 = y1 /\ x2 = y2) \/ (x2 <= y1)%N \/ (y2 <= x1)%N) by lia. destruct C as [[-> ->]|[C|C]]; [left; split; [reflexivity|congruence]|auto|auto].
Qed.

(** ** The closure of a character, with and without preferences *)
Lemma closure_add_sub cl e k : K k (closure_add cl e) -> k = key e \/ K k cl.
Proof.
  unfold closure_add. destruct (existsb _ cl); [auto|]. unfold K. rewrite cl_ins_keys. intros [H|H]; [auto|right].
  apply in_map_iff in H as (x & <- & H). apply filter_In in H as [H _]. apply in_map, H.
Qed.
Lemma dep_char_sub ds c k : K k (dep_char ds c) -> dep c k ds.
Proof.
  unfold dep_char. assert (G : forall ds cl, K k (fold_left (fun cl d => if CharClass.includes (fst d) c then closure_add cl (snd d) else cl) ds cl) -> K k cl \/ dep c k ds).
  { clear. induction ds as [|d ds IH]; intros cl; cbn [fold_left]; [auto|]. intros H. apply IH in H as [H|(l & e & H1 & H2)]; [|right; exists l, e; cbn; auto].
    destruct (CharClass.includes (fst d) c) eqn:E; [|auto]. apply closure_add_sub in H as [H|H]; [|auto]. right. destruct d as [l e]. exists l, e. cbn in *. auto. }
  intros H. apply G in H as [[]|H]. exact H.
Qed.
(** A predicate on the elements. *)
Lemma closure_add_all (P : celem -> Prop) cl e : P e -> (forall x, In x cl -> P x) -> forall x, In x (closure_add cl e) -> P x.
Proof.
  unfold closure_add. intros He Hcl x. destruct (existsb _ cl); [auto|]. intros H. apply cl_ins_in in H as [->|H]; [exact He|]. apply filter_In in H as [H _]. auto.
Qed.
Lemma dep_char_all (P : celem -> Prop) ds c : (forall d, In d ds -> P (snd d)) -> forall x, In x (dep_char ds c) -> P x.
Proof.
  unfold dep_char. assert (G : forall ds cl, (forall d, In d ds -> P (snd d)) -> (forall x, In x cl -> P x) -> forall x, In x (fold_left (fun cl d => if CharClass.includes (fst d) c then closure_add cl (snd d) else cl) ds cl) -> P x).
  { clear. induction ds as [|d ds IH]; intros cl Hd Hcl; cbn [fold_left]; [exact Hcl|]. apply IH; [intros; apply Hd; right; assumption|].
    destruct (CharClass.includes (fst d) c); [|exact Hcl]. apply closure_add_all; [apply Hd; left; reflexivity|exact Hcl]. }
  intros H. apply G; [exact H|intros ? []].
Qed.
Lemma dep_char_all_items ds r s : In (r, s) (dep_items ds (dep_borders ds)) -> exists c, s = dep_char ds c.
Proof.
  intros H. destruct (items_char ds (rs r)) as (H1 & H2 & _). exists (rs r). apply (H2 r s H). pose proof (H1 r s H). lia.
Qed.
(** Without preferences, nothing is dropped. *)
Lemma dep_char_full ds c k : (forall d d', In d ds -> In d' ds -> prio_cmp (eprio (snd d)) (eprio (snd d')) = Eq) -> K k (dep_char ds c) <-> dep c k ds.
Proof.
  intros HU. unfold dep_char.
  assert (G : forall l cl, (forall d, In d l -> In d ds) -> (forall e, In e cl -> exists d, In d ds /\ e = snd d) ->
    (K k (fold_left (fun cl d => if CharClass.includes (fst d) c then closure_add cl (snd d) else cl) l cl) <-> K k cl \/ dep c k l)).
  { induction l as [|d l IH]; intros cl Hl Hcl; cbn [fold_left].
    - split; [auto|]. intros [H|(? & ? & [] & _)]. exact H.
    - destruct (CharClass.includes (fst d) c) eqn:E.
      + assert (EA : closure_add cl (snd d) = cl_ins (snd d) cl).
        { unfold closure_add. assert (X : existsb (fun x => inferior (eprio (snd d)) (eprio x)) cl = false).
          { apply not_true_is_false. intros X. apply existsb_exists in X as (x & Hx & X). destruct (Hcl x Hx) as (d' & Hd' & ->). unfold inferior in X. rewrite (HU d d') in X; [discriminate|apply Hl; left; reflexivity|exact Hd']. }
          rewrite X. f_equal. clear - HU Hl Hcl. induction cl as [|x cl IH]; cbn [filter]; [reflexivity|]. destruct (Hcl x (or_introl eq_refl)) as (d' & Hd' & ->).
          unfold superior. rewrite (HU d d') by (try (apply Hl; left; reflexivity); exact Hd'). cbn [negb]. f_equal. apply IH. intros; apply Hcl; right; assumption. }
        rewrite IH; [|intros; apply Hl; right; assumption|].
        * rewrite EA. unfold K. rewrite cl_ins_keys. unfold dep. split.
          -- intros [[H|H]|(lab & e & H1 & H2)]; [right; exists (fst d), (snd d); destruct d; cbn; auto|auto|right; exists lab, e; cbn; auto].
          -- intros [H|(lab & e & [H1|H1] & H2 & H3)]; [auto|subst d; cbn; auto|right; eauto].
        * intros e He. rewrite EA in He. apply cl_ins_in in He as [->|He]; [|auto]. exists d. split; [apply Hl; left; reflexivity|reflexivity].
      + rewrite IH; [|intros; apply Hl; right; assumption|exact Hcl]. unfold dep. split.
        * intros [H|(lab & e & H1 & H2)]; [auto|right; exists lab, e; cbn; auto].
        * intros [H|(lab & e & [H1|H1] & H2 & H3)]; [auto|subst d; cbn [fst] in E; congruence|right; eauto]. }
  rewrite (G ds [] (fun d h => h) ltac:(intros ? [])). split; [intros [[]|H]; exact H|auto].
Qed.

(** ** Tables as sets *)
Definition pairs (ts : list (cclass * Z)) (r : range) (d : Z) : Prop := exists cc, In (cc, d) ts /\ In r cc.
Definition tinv (ts : list (cclass * Z)) : Prop := NoDup (map snd ts) /\ forall cc d, In (cc, d) ts -> cc <> [] /\ Sorted cc.
Lemma Sorted_in cc r : Sorted cc -> In r cc -> (rs r < re r)%N.
Proof. unfold Sorted. generalize 0%N. induction cc as [|x cc IH]; intros m H Hr; [destruct Hr|]. cbn in H. destruct Hr as [<-|Hr]; [tauto|]. eapply IH; [apply H|exact Hr]. Qed.
Lemma Den_disjoint cc r : (forall x, In x cc -> (re x <= rs r \/ re r <= rs x)%N) -> forall ch, Den cc ch -> Den [r] ch -> False.
Proof. intros H ch H1 H2. apply Den_ranges in H1 as (x & Hx & R1). apply Den_ranges in H2 as (y & [<-|[]] & R2). specialize (H x Hx). lia. Qed.
Lemma cc_or_one cc r : Sorted cc -> (rs r < re r)%N -> (forall x, In x cc -> x = r \/ (re x <= rs r \/ re r <= rs x)%N) ->
  Sorted (cc_or cc [r]) /\ forall x, In x (cc_or cc [r]) <-> In x cc \/ x = r.
Proof.
  intros HS L HD. assert (SR : Sorted [r]) by (unfold Sorted; cbn; repeat split; lia || exact L).
  destruct (in_dec range_dec r cc) as [I|I].
  - rewrite (cc_or_sub cc [r] HS SR) by (intros x [<-|[]]; exact I). split; [exact HS|]. intros x. split; [auto|]. intros [H| ->]; assumption.
  - destruct (cc_or_disjoint cc [r] HS SR) as [H1 H2].
    + apply Den_disjoint. intros x Hx. destruct (HD x Hx) as [->|H]; [contradiction|exact H].
    + split; [exact H1|]. intros x. rewrite H2. cbn. intuition congruence.
Qed.
Definition add_pair (ts : list (cclass * Z)) (r : range) (d : Z) : list (cclass * Z) := match merge_ltr ts [r] d with Some ts' => ts' | None => ts ++ [([r], d)] end.
Lemma merge_spec ts r d : (forall cc x, In (cc, x) ts -> cc <> []) ->
  match merge_ltr ts [r] d with
  | Some ts' => exists A cc B, ts = A ++ (cc, d) :: B /\ ts' = A ++ (cc_or cc [r], d) :: B
  | None => ~ In d (map snd ts)
  end.
Proof.
  induction ts as [|[c x] ts IH]; intros HE; cbn [merge_ltr map In]; [intros []|].
  destruct (x =? d)%Z eqn:E.
  - assert (is_epsilon c = false) by (pose proof (HE c x (or_introl eq_refl)); destruct c; [congruence|reflexivity]). rewrite H. cbn [negb andb].
    exists [], c, ts. assert (x = d) by lia. subst. split; reflexivity.
  - cbn [andb]. specialize (IH (fun cc y h => HE cc y (or_intror h))). destruct (merge_ltr ts [r] d) as [ts'|]; cbn [option_map].
    + destruct IH as (A & cc & B & -> & ->). exists ((c, x) :: A), cc, B. split; reflexivity.
    + cbn [snd]. intros [H|H]; [lia|contradiction].
Qed.
Lemma add_pair_spec ts r d : tinv ts -> (rs r < re r)%N -> (forall x, pairs ts x d -> x = r \/ (re x <= rs r \/ re r <= rs x)%N) ->
  tinv (add_pair ts r d) /\ forall x y, pairs (add_pair ts r d) x y <-> pairs ts x y \/ (x = r /\ y = d).
Proof.
  intros [ND HE] L HD. unfold add_pair. pose proof (merge_spec ts r d (fun cc x h => proj1 (HE cc x h))) as M. destruct (merge_ltr ts [r] d) as [ts'|].
  - destruct M as (A & cc & B & -> & ->).
    assert (Hcc : In (cc, d) (A ++ (cc, d) :: B)) by (apply in_or_app; right; left; reflexivity).
    destruct (HE cc d Hcc) as [N1 S1]. destruct (cc_or_one cc r S1 L) as [S2 I2].
    { intros x Hx. apply HD. exists cc. auto. }
    split.
    + split.
      * rewrite map_app in *. exact ND.
      * intros c y Hc. apply in_app_or in Hc as [Hc|[Hc|Hc]].
        -- apply (HE c y). apply in_or_app. auto.
        -- injection Hc as <- <-. split; [|exact S2]. intros X. assert (Y : In r (cc_or cc [r])) by (apply I2; auto). rewrite X in Y. destruct Y.
        -- apply (HE c y). apply in_or_app. right. right. exact Hc.
    + intros x y. unfold pairs. split.
      * intros (c & Hc & Hx). apply in_app_or in Hc as [Hc|[Hc|Hc]].
        -- left. exists c. split; [apply in_or_app; auto|exact Hx].
        -- injection Hc as <- <-. apply I2 in Hx as [Hx| ->]; [left; exists cc; auto|auto].
        -- left. exists c. split; [apply in_or_app; right; right; exact Hc|exact Hx].
      * intros [(c & Hc & Hx)|[-> ->]].
        -- apply in_app_or in Hc as [Hc|[Hc|Hc]].
           ++ exists c. split; [apply in_or_app; auto|exact Hx].
           ++ injection Hc as <- <-. exists (cc_or cc [r]). split; [apply in_or_app; right; left; reflexivity|apply I2; auto].
           ++ exists c. split; [apply in_or_app; right; right; exact Hc|exact Hx].
        -- exists (cc_or cc [r]). split; [apply in_or_app; right; left; reflexivity|apply I2; auto].
  - split.
    + split.
      * rewrite map_app. cbn [map snd]. apply (Permutation_NoDup (Permutation_cons_append _ _)). constructor; assumption.
      * intros c y Hc. apply in_app_or in Hc as [Hc|[Hc|[]]]; [exact (HE _ _ Hc)|]. injection Hc as <- <-. split; [discriminate|]. unfold Sorted. cbn. repeat split; lia || exact L.
    + intros x y. unfold pairs. split.
      * intros (c & Hc & Hx). apply in_app_or in Hc as [Hc|[Hc|[]]]; [left; eauto|]. injection Hc as <- <-. destruct Hx as [<-|[]]. auto.
      * intros [(c & Hc & Hx)|[-> ->]]; [exists c; split; [apply in_or_app; auto|exact Hx]|]. exists [r]. split; [apply in_or_app; right; left; reflexivity|left; reflexivity].
Qed.
(** Sorting does not matter. *)
Lemma ins_ltr_in t l x : In x (ins_ltr t l) <-> x = t \/ In x l.
Proof. induction l as [|y l IH]; cbn [ins_ltr In]; [intuition congruence|]. destruct (snd t <? snd y)%Z; cbn [In]; [intuition congruence|]. rewrite IH. tauto. Qed.
Lemma sort_ltrs_in l x : In x (sort_ltrs l) <-> In x l.
Proof. unfold sort_ltrs. induction l as [|y l IH]; cbn [fold_right In]; [tauto|]. rewrite ins_ltr_in, IH. intuition congruence. Qed.
Lemma pairs_sort l r d : pairs (sort_ltrs l) r d <-> pairs l r d.
Proof. unfold pairs. split; intros (cc & H & R); exists cc; rewrite sort_ltrs_in in *; auto. Qed.
(** The run by character. *)
Lemma first_lab_some {A} (ts : list (cclass * A)) c d : first_lab ts c = Some d -> exists cc, In (cc, d) ts /\ CharClass.includes cc c = true.
Proof. induction ts as [|[cc x] ts IH]; cbn [first_lab]; [discriminate|]. destruct (CharClass.includes cc c) eqn:E; [intros H; injection H as <-; exists cc; cbn; auto|]. intros H. destruct (IH H) as (c' & H1 & H2). exists c'. cbn. auto. Qed.
Lemma first_lab_none {A} (ts : list (cclass * A)) c cc d : first_lab ts c = None -> In (cc, d) ts -> CharClass.includes cc c = false.
Proof. induction ts as [|[cc' x] ts IH]; cbn [first_lab]; [intros _ []|]. destruct (CharClass.includes cc' c) eqn:E; [discriminate|]. intros H [K|K]; [injection K as <- <-; exact E|auto]. Qed.
Lemma includes_in cc c : CharClass.includes cc c = true <-> exists r, In r cc /\ (rs r <= c < re r)%N.
Proof. unfold CharClass.includes. rewrite existsb_exists. split; intros (r & H & R); exists r; split; try assumption; [apply andb_true_iff in R|apply andb_true_iff]; lia. Qed.
Lemma first_lab_pairs ts c : match first_lab ts c with
  | Some d => exists r, pairs ts r d /\ (rs r <= c < re r)%N
  | None => forall r d, pairs ts r d -> ~ (rs r <= c < re r)%N
  end.
Proof.
  destruct (first_lab ts c) as [d|] eqn:E.
  - apply first_lab_some in E as (cc & H1 & H2). apply includes_in in H2 as (r & H2 & H3). exists r. split; [exists cc; auto|exact H3].
  - intros r d (cc & H1 & H2) H3. pose proof (first_lab_none _ _ _ _ E H1) as H4. rewrite (proj2 (includes_in cc c)) in H4; [discriminate|eauto].
Qed.
