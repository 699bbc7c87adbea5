From Coq Require Import List NArith Bool Lia ZifyBool ZifyN Permutation.
From Verif Require Import CharClass CharClassSpec.
Import ListNotations.
Open Scope N_scope.

Lemma includes_Den c ch : includes c ch = true <-> Den c ch.
Proof.
  unfold includes, Den. rewrite existsb_exists. split.
  - intros [r [Hin H]]. exists r. split; [exact Hin|]. lia.
  - intros [r [Hin H]]. exists r. split; [exact Hin|]. lia.
Qed.

Lemma Den_nil ch : Den [] ch <-> False.
Proof. split; [intros [r [[] _]] | tauto]. Qed.

Lemma Den_cons r c ch : Den (r :: c) ch <-> (rs r <= ch /\ ch < re r) \/ Den c ch.
Proof.
  split.
  - intros [r' [[->|Hin] H]]; [left; exact H| right; exists r'; tauto].
  - intros [H|[r' [Hin H]]]; [exists r; simpl; tauto | exists r'; simpl; tauto].
Qed.

Lemma Den_app a b ch : Den (a ++ b) ch <-> Den a ch \/ Den b ch.
Proof.
  induction a as [|x a IH]; simpl.
  - rewrite Den_nil. tauto.
  - rewrite !Den_cons, IH. tauto.
Qed.

Lemma Den_perm a b ch : Permutation a b -> (Den a ch <-> Den b ch).
Proof.
  intros H. split; intros [r [Hin Hr]]; exists r; split; auto.
  - eapply Permutation_in; eauto.
  - eapply Permutation_in; [apply Permutation_sym|]; eauto.
Qed.

Lemma Proper_cons r c : Proper (r :: c) <-> rs r <= re r /\ Proper c.
Proof.
  unfold Proper; simpl; split.
  - intros H. split; [apply H; auto| intros; apply H; auto].
  - intros [H1 H2] r' [->|Hin]; auto.
Qed.

Lemma SortedFrom_weaken lo lo' c : lo' <= lo -> SortedFrom lo c -> SortedFrom lo' c.
Proof. destruct c; simpl; intros; [auto|]. intuition lia. Qed.

Lemma SortedFrom_Proper lo c : SortedFrom lo c -> Proper c.
Proof.
  revert lo; induction c as [|r c IH]; intros lo H; [intros ? []|].
  simpl in H. apply Proper_cons. split; [lia|]. eapply IH; apply H.
Qed.

Lemma SortedFrom_Den lo c ch : SortedFrom lo c -> Den c ch -> lo <= ch.
Proof.
  revert lo; induction c as [|r c IH]; intros lo H HD.
  - apply Den_nil in HD; tauto.
  - simpl in H. apply Den_cons in HD. destruct HD as [HD|HD]; [lia|].
    assert (re r <= ch) by (eapply IH; [apply H|exact HD]). lia.
Qed.

Lemma Separated_SortedFrom c lo :
  Separated c -> match c with [] => True | r :: _ => lo <= rs r end -> SortedFrom lo c.
Proof.
  revert lo; induction c as [|r c IH]; intros lo H Hlo; [exact I|].
  simpl in *. destruct H as (H1 & H2 & H3). split; [lia|]. split; [lia|].
  apply IH; [exact H3|]. destruct c; [exact I|lia].
Qed.
Lemma Separated_Sorted c : Separated c -> Sorted c.
Proof. intros H. apply Separated_SortedFrom; [exact H|]. destruct c; [exact I|lia]. Qed.

(** ** operator|(Range) *)
Lemma add_merge_Den l r ch :
  Proper l -> rs r <= re r ->
  (Den (add_merge l r) ch <-> Den l ch \/ (rs r <= ch /\ ch < re r)).
Proof.
  revert r; induction l as [|i l IH]; intros r HP Hr; cbn [add_merge].
  - rewrite Den_cons. tauto.
  - apply Proper_cons in HP; destruct HP as [Hi HP].
    destruct (r_overlaps i r) eqn:E.
    + unfold r_overlaps in E. rewrite IH; [|exact HP|unfold r_merge; cbn [rs re]; lia].
      rewrite Den_cons. unfold r_merge; cbn [rs re].
      assert ((N.min (rs r) (rs i) <= ch /\ ch < N.max (re r) (re i)) <->
              ((rs i <= ch /\ ch < re i) \/ (rs r <= ch /\ ch < re r))) by lia.
      tauto.
    + rewrite !Den_cons. tauto.
Qed.

Lemma add_range_Den l r ch :
  Proper l -> rs r <= re r ->
  (Den (add_range l r) ch <-> Den l ch \/ (rs r <= ch /\ ch < re r)).
Proof.
  induction l as [|i l IH]; intros HP Hr; cbn [add_range].
  - rewrite Den_cons. tauto.
  - destruct (r_overlaps i r) eqn:E; [apply add_merge_Den; assumption|].
    apply Proper_cons in HP; destruct HP as [Hi HP].
    rewrite !Den_cons, IH by assumption. tauto.
Qed.

Lemma add_merge_Proper l r : Proper l -> rs r <= re r -> Proper (add_merge l r).
Proof.
  revert r; induction l as [|i l IH]; intros r HP Hr; cbn [add_merge].
  - apply Proper_cons. split; [exact Hr|intros ? []].
  - destruct (r_overlaps i r).
    + apply Proper_cons in HP; destruct HP as [Hi HP].
      apply IH; [exact HP|unfold r_merge; cbn [rs re]; lia].
    + apply Proper_cons; split; assumption.
Qed.
Lemma add_range_Proper l r : Proper l -> rs r <= re r -> Proper (add_range l r).
Proof.
  induction l as [|i l IH]; intros HP Hr; cbn [add_range].
  - apply Proper_cons. split; [exact Hr|intros ? []].
  - destruct (r_overlaps i r) eqn:E; [apply add_merge_Proper; assumption|].
    apply Proper_cons in HP; destruct HP as [Hi HP].
    apply Proper_cons; split; [exact Hi|apply IH; assumption].
Qed.

(** Pairwise apart ranges, in any order. *)
Definition sep2 (a b : range) : Prop := r_overlaps a b = false.
Definition PairSep (c : cclass) : Prop := (forall r, In r c -> rs r < re r) /\ ForallOrdPairs sep2 c.

Lemma sep2_sym a b : sep2 a b -> sep2 b a.
Proof. unfold sep2, r_overlaps. lia. Qed.

(** Adding a range all of whose touching ranges are consecutive in the list keeps
    pairwise separation: two cases used below. *)
Lemma add_range_none l r :
  Forall (fun i => sep2 i r) l -> add_range l r = l ++ [r].
Proof.
  induction l as [|i l IH]; intros H; cbn [add_range app]; [reflexivity|].
  inversion H as [|? ? Hi Hl]; subst. unfold sep2 in Hi. rewrite Hi.
  rewrite IH by assumption. reflexivity.
Qed.

Lemma PairSep_snoc l r :
  PairSep l -> rs r < re r -> Forall (fun i => sep2 i r) l -> PairSep (l ++ [r]).
Proof.
  intros [H1 H2] Hr HF. split.
  - intros x Hx. apply in_app_or in Hx. destruct Hx as [Hx|[->|[]]]; auto.
  - induction H2 as [|i l Hi H2 IH].
    + simpl. constructor; constructor.
    + simpl. inversion HF as [|? ? HF1 HF2]; subst. constructor.
      * apply Forall_app. split; [exact Hi|]. constructor; [exact HF1|constructor].
      * apply IH; [intros; apply H1; simpl; auto|exact HF2].
Qed.

(** General form: the touching ranges form one consecutive block [m]. *)
Lemma add_merge_block m r l :
  PairSep (m ++ l) -> rs r < re r ->
  Forall (fun i => r_overlaps i r = true) m ->
  Forall (fun i => sep2 i r) l ->
  exists r', add_merge (m ++ l) r = r' :: l /\ rs r' < re r' /\
    Forall (fun i => sep2 i r') l /\
    (forall s, sep2 s r -> Forall (fun i => sep2 s i) m -> rs s < re s -> sep2 s r').
Proof.
  revert r; induction m as [|i m IH]; intros r HP Hr Hm Hl; cbn [app add_merge].
  - exists r. repeat split; auto. destruct l as [|x l]; cbn [add_merge]; [reflexivity|].
    inversion Hl as [|? ? Hx _]; subst. unfold sep2 in Hx. rewrite Hx. reflexivity.
  - inversion Hm as [|? ? Hi Hm']; subst. rewrite Hi.
    destruct HP as [HP1 HP2]. cbn [app] in HP2. inversion HP2 as [|? ? HPi HPr]; subst.
    apply Forall_app in HPi. destruct HPi as [HPim HPil].
    assert (Hile : rs i < re i) by (apply HP1; simpl; auto).
    assert (Hsep : forall s, sep2 s r -> sep2 s i -> rs s < re s -> sep2 s (r_merge r i)).
    { unfold sep2, r_overlaps, r_merge in *; cbn [rs re]; lia. }
    destruct (IH (r_merge r i)) as (r' & E & H1 & H2 & H3).
    + split; [intros x Hx; apply HP1; simpl; auto|exact HPr].
    + unfold r_merge; cbn [rs re]; lia.
    + apply Forall_forall. intros x Hx. rewrite Forall_forall in Hm'. specialize (Hm' x Hx).
      assert (rs x < re x) by (apply HP1; simpl; right; apply in_or_app; auto).
      unfold r_overlaps, r_merge in *; cbn [rs re]; lia.
    + apply Forall_forall. intros x Hx. rewrite Forall_forall in Hl, HPil.
      apply Hsep; [apply Hl; auto|apply sep2_sym; apply HPil; auto|].
      apply HP1; simpl; right; apply in_or_app; auto.
    + exists r'. rewrite E. repeat split; auto.
      intros s Hs Hsm Hss. inversion Hsm as [|? ? Hsi Hsm']; subst.
      apply H3; auto.
Qed.

Lemma add_range_block p m l r :
  PairSep (p ++ m ++ l) -> rs r < re r ->
  Forall (fun i => sep2 i r) p ->
  Forall (fun i => r_overlaps i r = true) m ->
  Forall (fun i => sep2 i r) l ->
  PairSep (add_range (p ++ m ++ l) r).
Proof.
  intros HP Hr Hp Hm Hl.
  destruct m as [|x m].
  - cbn [app] in *. rewrite add_range_none; [|apply Forall_app; auto].
    apply PairSep_snoc; auto. apply Forall_app; auto.
  - assert (E : add_range (p ++ (x :: m) ++ l) r = p ++ add_merge ((x :: m) ++ l) r).
    { clear HP. induction p as [|i p IH]; cbn [app].
      - cbn [add_range]. inversion Hm as [|? ? Hx _]; subst. rewrite Hx. reflexivity.
      - cbn [add_range]. inversion Hp as [|? ? Hi Hp']; subst. unfold sep2 in Hi. rewrite Hi.
        f_equal. exact (IH Hp'). }
    rewrite E. clear E.
    assert (HPm : PairSep ((x :: m) ++ l)).
    { clear - HP. induction p as [|i p IH]; [exact HP|]. apply IH. destruct HP as [H1 H2].
      cbn [app] in H2; inversion H2; subst. split; [intros; apply H1; simpl; auto|assumption]. }
    destruct (add_merge_block (x :: m) r l HPm Hr Hm Hl) as (r' & E & H1 & H2 & H3).
    rewrite E. clear E.
    induction p as [|i p IH].
    + cbn [app]. destruct HPm as [HPm1 HPm2]. split.
      * intros y [->|Hy]; [exact H1|]. apply HPm1. apply in_or_app; auto.
      * constructor.
        -- eapply Forall_impl; [|exact H2]. intros; apply sep2_sym; auto.
        -- clear - HPm2. induction (x :: m) as [|y m' IH]; [exact HPm2|].
           apply IH. cbn [app] in HPm2. inversion HPm2; assumption.
    + cbn [app]. destruct HP as [HP1 HP2]. cbn [app] in HP2. inversion HP2 as [|? ? HPi HPr]; subst.
      inversion Hp as [|? ? Hi Hp']; subst.
      assert (HIH : PairSep (p ++ r' :: l)).
      { apply IH; auto. split; [intros; apply HP1; simpl; auto|exact HPr]. }
      destruct HIH as [HI1 HI2]. split.
      * intros y [->|Hy]; [apply HP1; simpl; auto|]. apply HI1; auto.
      * apply Forall_app in HPi. destruct HPi as [HPip HPim].
        cbn [app] in HPim.
        assert (HPim' : Forall (sep2 i) ((x :: m) ++ l)) by exact HPim.
        apply Forall_app in HPim'. destruct HPim' as [HPm' HPl'].
        constructor; [|exact HI2]. apply Forall_app. split; [exact HPip|].
        constructor; [|exact HPl']. apply H3; auto. apply HP1; simpl; auto.
Qed.

(** ** sort *)
Lemma ins_back_perm p r : Permutation (ins_back p r) (r :: p).
Proof.
  induction p as [|x p IH]; cbn [ins_back]; [reflexivity|].
  destruct (r_lt r x); [|reflexivity].
  rewrite IH. apply perm_swap.
Qed.
Lemma insert_r_perm l r : Permutation (insert_r l r) (r :: l).
Proof.
  destruct l as [|x l]; cbn [insert_r]; [reflexivity|].
  destruct (r_lt r x); [reflexivity|].
  rewrite <- Permutation_rev, ins_back_perm, <- Permutation_rev. reflexivity.
Qed.
Lemma sort_perm l : Permutation (sort_ranges l) l.
Proof.
  unfold sort_ranges.
  assert (G : forall l acc, Permutation (fold_left insert_r l acc) (acc ++ l)).
  { clear l. induction l as [|r l IH]; intros acc; cbn [fold_left].
    - rewrite app_nil_r. reflexivity.
    - rewrite IH, insert_r_perm. cbn [app]. rewrite Permutation_middle. reflexivity. }
  exact (G l []).
Qed.

(** Descending separated list (reverse of Separated). *)
Fixpoint Desc (c : cclass) : Prop :=
  match c with
  | [] => True
  | r :: c' => rs r < re r /\ match c' with [] => True | r' :: _ => re r' < rs r end /\ Desc c'
  end.

Lemma Separated_app a b :
  Separated (a ++ b) <->
  Separated a /\ Separated b /\
  match rev a, b with x :: _, y :: _ => re x < rs y | _, _ => True end.
Proof.
  induction a as [|x a IH].
  - simpl. tauto.
  - cbn [app Separated rev]. rewrite IH. destruct a as [|y a].
    + cbn [app rev]. destruct b; simpl; tauto.
    + cbn [app rev]. destruct (rev a ++ [y]) as [|z zs] eqn:E.
      * apply app_eq_nil in E. destruct E; discriminate.
      * cbn [rev] in *. rewrite ?E in *. cbn [app]. tauto.
Qed.
Lemma Desc_rev c : Desc c <-> Separated (rev c).
Proof.
  induction c as [|x c IH]; [simpl; tauto|].
  cbn [Desc rev]. rewrite Separated_app, rev_involutive, IH. simpl.
  destruct c; simpl; tauto.
Qed.

Lemma Desc_below x p y : Desc (x :: p) -> In y p -> re y < rs x.
Proof.
  revert x; induction p as [|z p IH]; intros x H Hin; [destruct Hin|].
  cbn [Desc] in H. destruct H as (H1 & H2 & H3 & H4 & H5).
  destruct Hin as [<-|Hin]; [exact H2|].
  assert (re y < rs z) by (apply IH; [cbn [Desc]; tauto|exact Hin]). lia.
Qed.

Lemma ins_back_Desc p r :
  Desc p -> rs r < re r -> Forall (sep2 r) p -> Desc (ins_back p r).
Proof.
  induction p as [|x p IH]; intros HD Hr HF; cbn [ins_back].
  - simpl. auto.
  - inversion HF as [|? ? Hx HF']; subst.
    assert (Hxx : rs x < re x) by (cbn [Desc] in HD; tauto).
    assert (HDp : Desc p) by (cbn [Desc] in HD; tauto).
    destruct (r_lt r x) eqn:E.
    + unfold r_lt in E. cbn [Desc]. split; [exact Hxx|]. split; [|apply IH; auto].
      assert (re r < rs x) by (unfold sep2, r_overlaps in Hx; lia).
      destruct p as [|y p]; cbn [ins_back]; [assumption|].
      destruct (r_lt r y); [|assumption].
      apply (Desc_below x (y :: p)); [exact HD|simpl; auto].
    + cbn [Desc]. split; [exact Hr|]. split; [|exact HD].
      unfold sep2, r_overlaps, r_lt in *. lia.
Qed.

Lemma insert_r_Separated l r :
  Separated l -> rs r < re r -> Forall (sep2 r) l -> Separated (insert_r l r).
Proof.
  intros HS Hr HF. destruct l as [|x l]; cbn [insert_r]; [simpl; auto|].
  destruct (r_lt r x) eqn:E.
  - cbn [Separated]. split; [exact Hr|]. split; [|exact HS].
    inversion HF as [|? ? Hx _]; subst. cbn [Separated] in HS. unfold sep2, r_overlaps, r_lt in *. lia.
  - apply (proj1 (Desc_rev _)). apply ins_back_Desc; auto.
    + apply Desc_rev. rewrite rev_involutive. exact HS.
    + apply Forall_rev. exact HF.
Qed.

Lemma sort_Separated l : PairSep l -> Separated (sort_ranges l).
Proof.
  unfold sort_ranges.
  assert (G : forall l acc, PairSep l -> Separated acc ->
     Forall (fun r => Forall (sep2 r) acc) l -> Separated (fold_left insert_r l acc)).
  { clear l. induction l as [|r l IH]; intros acc [H1 H2] HS HF; cbn [fold_left]; [exact HS|].
    inversion H2 as [|? ? Hr H2']; subst. inversion HF as [|? ? HFr HF']; subst.
    apply IH.
    - split; [intros; apply H1; simpl; auto|exact H2'].
    - apply insert_r_Separated; auto. apply H1; simpl; auto.
    - apply Forall_forall. intros x Hx. rewrite Forall_forall in Hr, HF'.
      eapply Permutation_Forall; [apply Permutation_sym, insert_r_perm|].
      constructor; [apply sep2_sym; auto|auto]. }
  intros H. apply G; [exact H|exact I|].
  apply Forall_forall. intros; constructor.
Qed.

(** ** operator~ *)
Lemma compl_loop_Den c last ch :
  SortedFrom last c -> Below char_max c ->
  (Den (compl_loop last c) ch <-> last <= ch /\ ch < char_max /\ ~ Den c ch).
Proof.
  revert last; induction c as [|r c IH]; intros last HS HB; cbn [compl_loop].
  - destruct (last <? char_max) eqn:E; rewrite ?Den_cons, !Den_nil; cbn [rs re]; intuition lia.
  - cbn [SortedFrom] in HS. destruct HS as (H1 & H2 & H3).
    assert (HBr : re r <= char_max) by (apply HB; simpl; auto).
    rewrite Den_cons, IH; [|exact H3|intros x Hx; apply HB; simpl; auto].
    cbn [rs re]. rewrite Den_cons.
    assert (Hd : Den c ch -> re r <= ch) by (intros; eapply SortedFrom_Den; eauto).
    split.
    + intros [H|[H [H' H'']]]; (split; [lia|]; split; [lia|]).
      * intros [K|K]; [lia|]. specialize (Hd K). lia.
      * intros [K|K]; [lia|tauto].
    + intros (K1 & K2 & K3).
      destruct (N.lt_ge_cases ch (rs r)); [left; lia|].
      destruct (N.lt_ge_cases ch (re r)); [exfalso; apply K3; left; lia|].
      right. repeat split; auto.
Qed.

Lemma compl_Den c ch :
  SortedFrom 1 c -> Below char_max c ->
  (Den (compl c) ch <-> 1 <= ch /\ ch < char_max /\ ~ Den c ch).
Proof.
  intros HS HB. unfold compl. destruct c as [|r c].
  - apply compl_loop_Den; auto.
  - destruct (rs r =? 1) eqn:E.
    + cbn [SortedFrom] in HS. destruct HS as (H1 & H2 & H3).
      rewrite compl_loop_Den; [|exact H3|intros x Hx; apply HB; simpl; auto].
      rewrite Den_cons.
      assert (Hd : Den c ch -> re r <= ch) by (intros; eapply SortedFrom_Den; eauto).
      split.
      * intros (K1 & K2 & K3). repeat split; try lia. intros [K|K]; [lia|tauto].
      * intros (K1 & K2 & K3). split; [|split; [exact K2|tauto]].
        destruct (N.lt_ge_cases ch (re r)); [exfalso; apply K3; left; lia|lia].
    + apply compl_loop_Den; auto.
Qed.

Lemma compl_loop_Separated c last :
  Separated c -> Below char_max c ->
  match c with [] => True | r :: _ => last < rs r end ->
  Separated (compl_loop last c) /\
  match compl_loop last c with [] => True | r :: _ => rs r = last end.
Proof.
  revert last; induction c as [|r c IH]; intros last HS HB Hl; cbn [compl_loop].
  - destruct (last <? char_max) eqn:E; simpl; auto.
    split; [|reflexivity]. split; [lia|auto].
  - cbn [Separated] in HS. destruct HS as (H1 & H2 & H3).
    destruct (IH (re r)) as [IH1 IH2]; [exact H3| |destruct c; [exact I|exact H2]|].
    { intros x Hx; apply HB; simpl; auto. }
    split; [|reflexivity].
    cbn [Separated rs re]. split; [exact Hl|]. split; [|exact IH1].
    destruct (compl_loop (re r) c); [exact I|]. rewrite IH2. exact H1.
Qed.

Lemma compl_Separated c :
  Separated c -> SortedFrom 1 c -> Below char_max c -> Separated (compl c).
Proof.
  intros HS H1 HB. unfold compl. destruct c as [|r c].
  - simpl. repeat split; reflexivity.
  - destruct (rs r =? 1) eqn:E.
    + cbn [Separated] in HS. apply compl_loop_Separated; [tauto| |destruct c; [exact I|lia]].
      intros x Hx; apply HB; simpl; auto.
    + apply compl_loop_Separated; auto. cbn [SortedFrom] in H1. lia.
Qed.

Lemma compl_bounds c : SortedFrom 1 c -> Below char_max c ->
  (forall r, In r (compl c) -> 1 <= rs r /\ re r <= char_max).
Proof.
  assert (G : forall c last, 1 <= last -> SortedFrom last c -> Below char_max c ->
     forall r, In r (compl_loop last c) -> 1 <= rs r /\ re r <= char_max).
  { clear c. induction c as [|x c IH]; intros last Hl HS HB r Hin; cbn [compl_loop] in Hin.
    - destruct (last <? char_max); [|destruct Hin].
      destruct Hin as [<-|[]]. cbn [rs re]. lia.
    - cbn [SortedFrom] in HS. assert (re x <= char_max) by (apply HB; simpl; auto).
      destruct Hin as [<-|Hin]; [cbn [rs re]; lia|].
      eapply (IH (re x)); eauto; [lia|tauto|]. intros y Hy; apply HB; simpl; auto. }
  intros HS HB r Hin. unfold compl in Hin. destruct c as [|x c].
  - eapply (G [] 1); eauto. lia.
  - destruct (rs x =? 1) eqn:E.
    + cbn [SortedFrom] in HS. eapply (G c (re x)); eauto; [lia|tauto|].
      intros y Hy; apply HB; simpl; auto.
    + eapply (G (x :: c) 1); eauto. lia.
Qed.

(** Separated lists are canonical: same set, same list. *)
Lemma Separated_canonical a b :
  Separated a -> Separated b -> (forall ch, Den a ch <-> Den b ch) -> a = b.
Proof.
  revert b; induction a as [|x a IH]; intros b Ha Hb H.
  - destruct b as [|y b]; [reflexivity|]. exfalso.
    apply (Den_nil (rs y)). apply H. apply Den_cons. left. simpl in Hb. lia.
  - destruct b as [|y b].
    + exfalso. apply (Den_nil (rs x)). apply H. apply Den_cons. left. simpl in Ha. lia.
    + pose proof (Separated_Sorted _ Ha) as Sa. pose proof (Separated_Sorted _ Hb) as Sb.
      unfold Sorted in Sa, Sb. cbn [SortedFrom] in Sa, Sb.
      destruct Sa as (_ & Sa1 & Sa2), Sb as (_ & Sb1 & Sb2).
      assert (Da : forall ch, Den a ch -> re x < ch).
      { intros ch Hd. cbn [Separated] in Ha. destruct Ha as (_ & Ha1 & Ha2).
        destruct a as [|z a]; [apply Den_nil in Hd; tauto|].
        assert (rs z <= ch); [|lia].
        eapply SortedFrom_Den; [|exact Hd]. apply Separated_SortedFrom; [exact Ha2|lia]. }
      assert (Db : forall ch, Den b ch -> re y < ch).
      { intros ch Hd. cbn [Separated] in Hb. destruct Hb as (_ & Hb1 & Hb2).
        destruct b as [|z b]; [apply Den_nil in Hd; tauto|].
        assert (rs z <= ch); [|lia].
        eapply SortedFrom_Den; [|exact Hd]. apply Separated_SortedFrom; [exact Hb2|lia]. }
      assert (E1 : rs x = rs y).
      { assert (D1 : Den (x :: a) (rs x)) by (apply Den_cons; left; lia).
        assert (D2 : Den (y :: b) (rs y)) by (apply Den_cons; left; lia).
        apply H in D1. apply H in D2. rewrite Den_cons in D1, D2.
        destruct D1 as [D1|D1]; [|apply Db in D1]; (destruct D2 as [D2|D2]; [|apply Da in D2]); lia. }
      assert (E2 : re x = re y).
      { assert (~ Den (x :: a) (re x)) as K1.
        { rewrite Den_cons. intros [K|K]; [lia|]. apply Da in K. lia. }
        assert (~ Den (y :: b) (re y)) as K2.
        { rewrite Den_cons. intros [K|K]; [lia|]. apply Db in K. lia. }
        destruct (N.lt_trichotomy (re x) (re y)) as [L|[L|L]]; [|exact L|].
        - exfalso. apply K1, H, Den_cons. left. lia.
        - exfalso. apply K2, H, Den_cons. left. lia. }
      assert (x = y) as -> by (destruct x as [xs xe], y as [ys ye]; cbn [rs re] in *; congruence).
      f_equal. apply IH.
      * cbn [Separated] in Ha; tauto.
      * cbn [Separated] in Hb; tauto.
      * intros ch. specialize (H ch). rewrite !Den_cons in H. split; intros K.
        -- assert (re y < ch) by (apply Da; exact K).
           destruct (proj1 H (or_intror K)); [lia|assumption].
        -- assert (re y < ch) by (apply Db; exact K).
           destruct (proj2 H (or_intror K)); [lia|assumption].
Qed.

Lemma compl_compl c :
  Separated c -> SortedFrom 1 c -> Below char_max c -> compl (compl c) = c.
Proof.
  intros H1 H2 H3.
  assert (HS : Separated (compl c)) by (apply compl_Separated; auto).
  assert (H2' : SortedFrom 1 (compl c)).
  { apply Separated_SortedFrom; [exact HS|].
    pose proof (compl_bounds c H2 H3) as HBd.
    destruct (compl c) as [|r l]; [exact I|]. apply (HBd r). simpl; auto. }
  assert (H3' : Below char_max (compl c)) by (intros r Hr; apply (proj2 (compl_bounds c H2 H3 r Hr))).
  apply Separated_canonical; [apply compl_Separated; auto|exact H1|].
  intros ch. rewrite (compl_Den (compl c)) by auto. rewrite compl_Den by auto.
  split.
  - intros (K1 & K2 & K3). destruct (includes c ch) eqn:E; [apply includes_Den; exact E|].
    exfalso. apply K3. repeat split; auto. rewrite <- includes_Den. congruence.
  - intros K. split; [exact (SortedFrom_Den 1 c ch H2 K)|]. split.
    + destruct K as (r & Hr & Hr'). specialize (H3 r Hr). lia.
    + intros (_ & _ & K'). tauto.
Qed.

(** ** operator& and overlaps *)
Lemma inter_loop_spec fuel a b la lb :
  (length a + length b <= fuel)%nat -> SortedFrom la a -> SortedFrom lb b ->
  exists c, inter_loop fuel a b = Some c /\ SortedFrom (N.max la lb) c /\
    (forall ch, Den c ch <-> Den a ch /\ Den b ch).
Proof.
  revert a b la lb; induction fuel as [|f IH]; intros a b la lb Hf Ha Hb.
  - destruct a as [|? ?], b as [|? ?]; simpl in Hf; try lia.
    exists []. simpl. split; [reflexivity|]. split; [exact I|]. intros ch. rewrite Den_nil. tauto.
  - destruct a as [|x a].
    { exists []. split; [reflexivity|]. split; [exact I|]. intros ch. rewrite Den_nil. tauto. }
    destruct b as [|y b].
    { exists []. split; [reflexivity|]. split; [exact I|]. intros ch. rewrite Den_nil. tauto. }
    cbn [inter_loop length] in *.
    pose proof Ha as Ha'. pose proof Hb as Hb'. cbn [SortedFrom] in Ha', Hb'.
    destruct Ha' as (A1 & A2 & A3), Hb' as (B1 & B2 & B3).
    assert (DA : forall ch, Den a ch -> re x <= ch) by (intros; eapply SortedFrom_Den; eauto).
    assert (DB : forall ch, Den b ch -> re y <= ch) by (intros; eapply SortedFrom_Den; eauto).
    destruct (r_lt x y) eqn:E1; [|destruct (r_gt x y) eqn:E2].
    + unfold r_lt in E1.
      destruct (IH a (y :: b) (re x) lb) as (c & Hc & HS & HD); auto; [simpl; lia|].
      exists c. split; [exact Hc|]. split.
      { eapply SortedFrom_weaken; [|exact HS]. lia. }
      intros ch. rewrite HD, !Den_cons. pose proof (DB ch).
      split; [tauto|]. intros [[K|K] [L|L]]; try tauto; [lia|]. apply H in L. lia.
    + unfold r_gt in E2.
      destruct (IH (x :: a) b la (re y)) as (c & Hc & HS & HD); auto; [simpl; lia|].
      exists c. split; [exact Hc|]. split.
      { eapply SortedFrom_weaken; [|exact HS]. lia. }
      intros ch. rewrite HD, !Den_cons. pose proof (DA ch).
      split; [tauto|]. intros [[K|K] [L|L]]; try tauto; [lia|]. apply H in K. lia.
    + unfold r_lt, r_gt in *. destruct (re x <? re y) eqn:E3.
      * destruct (IH a (y :: b) (re x) lb) as (c & Hc & HS & HD); auto; [simpl; lia|].
        rewrite Hc. cbn [option_map]. eexists. split; [reflexivity|]. split.
        { cbn [SortedFrom r_intersect rs re]. split; [lia|]. split; [lia|].
          eapply SortedFrom_weaken; [|exact HS]. lia. }
        intros ch. rewrite !Den_cons, HD, Den_cons. cbn [r_intersect rs re].
        pose proof (DA ch) as PA. pose proof (DB ch) as PB.
        split.
        { intros [K|[K [L|L]]].
          - split; left; lia.
          - split; [tauto|left; lia].
          - split; [tauto|right; exact L]. }
        { intros [[K|K] [L|L]].
          - left. lia.
          - apply PB in L. lia.
          - right. split; [exact K|left; exact L].
          - right. split; [exact K|right; exact L]. }
      * destruct (IH (x :: a) b la (re y)) as (c & Hc & HS & HD); auto; [simpl; lia|].
        rewrite Hc. cbn [option_map]. eexists. split; [reflexivity|]. split.
        { cbn [SortedFrom r_intersect rs re]. split; [lia|]. split; [lia|].
          eapply SortedFrom_weaken; [|exact HS]. lia. }
        intros ch. rewrite !Den_cons, HD, Den_cons. cbn [r_intersect rs re].
        pose proof (DA ch) as PA. pose proof (DB ch) as PB.
        split.
        { intros [K|[[K|K] L]].
          - split; left; lia.
          - split; [left; lia|right; exact L].
          - split; [right; exact K|right; exact L]. }
        { intros [[K|K] [L|L]].
          - left. lia.
          - right. split; [left; exact K|exact L].
          - apply PA in K. lia.
          - right. split; [right; exact K|exact L]. }
Qed.

Lemma overlaps_loop_spec fuel a b la lb :
  (length a + length b <= fuel)%nat -> SortedFrom la a -> SortedFrom lb b ->
  exists t, overlaps_loop fuel a b = Some t /\
    (t = true <-> exists ch, Den a ch /\ Den b ch).
Proof.
  revert a b la lb; induction fuel as [|f IH]; intros a b la lb Hf Ha Hb.
  - destruct a as [|? ?], b as [|? ?]; simpl in Hf; try lia.
    exists false. split; [reflexivity|]. split; [discriminate|]. intros [ch [H _]]. apply Den_nil in H; tauto.
  - destruct a as [|x a].
    { exists false. split; [reflexivity|]. split; [discriminate|]. intros [ch [H _]]. apply Den_nil in H; tauto. }
    destruct b as [|y b].
    { exists false. split; [reflexivity|]. split; [discriminate|]. intros [ch [_ H]]. apply Den_nil in H; tauto. }
    cbn [overlaps_loop length] in *.
    pose proof Ha as Ha'. pose proof Hb as Hb'. cbn [SortedFrom] in Ha', Hb'.
    destruct Ha' as (A1 & A2 & A3), Hb' as (B1 & B2 & B3).
    assert (DA : forall ch, Den a ch -> re x <= ch) by (intros; eapply SortedFrom_Den; eauto).
    assert (DB : forall ch, Den b ch -> re y <= ch) by (intros; eapply SortedFrom_Den; eauto).
    unfold r_lt. destruct (re x <=? rs y) eqn:E1; [|destruct (re y <=? rs x) eqn:E2].
    + destruct (IH a (y :: b) (re x) lb) as (t & Ht & HD); auto; [simpl; lia|].
      exists t. split; [exact Ht|]. rewrite HD. split; intros [ch [K L]]; exists ch.
      * rewrite Den_cons. tauto.
      * split; [|exact L]. rewrite Den_cons in K. destruct K as [K|K]; [|exact K].
        exfalso. rewrite Den_cons in L. destruct L as [L|L]; [lia|apply DB in L; lia].
    + destruct (IH (x :: a) b la (re y)) as (t & Ht & HD); auto; [simpl; lia|].
      exists t. split; [exact Ht|]. rewrite HD. split; intros [ch [K L]]; exists ch.
      * rewrite (Den_cons y). tauto.
      * split; [exact K|]. rewrite Den_cons in L. destruct L as [L|L]; [|exact L].
        exfalso. rewrite Den_cons in K. destruct K as [K|K]; [lia|apply DA in K; lia].
    + exists true. split; [reflexivity|]. split; [intros _|reflexivity].
      exists (N.max (rs x) (rs y)). rewrite !Den_cons. split; left; lia.
Qed.

(** ** operator|(CharClass) *)
Lemma union_loop_sound fuel : forall ri li rj lj la lb,
  (length li + length lj <= fuel)%nat ->
  match li with [] => True | i :: li' => rs ri <= rs i /\ re ri = re i /\ rs i < re i /\ SortedFrom (re i) li' end ->
  match lj with [] => True | j :: lj' => rs rj <= rs j /\ re rj = re j /\ rs j < re j /\ SortedFrom (re j) lj' end ->
  la = match li with [] => [] | _ :: li' => ri :: li' end ->
  lb = match lj with [] => [] | _ :: lj' => rj :: lj' end ->
  exists c, union_loop fuel ri li rj lj = Some c /\
    (forall ch, Den c ch -> Den la ch \/ Den lb ch).
Proof.
  induction fuel as [|f IH]; intros ri li rj lj la lb Hf Hi Hj -> ->.
  - destruct li, lj; simpl in Hf; try lia. exists []. split; [reflexivity|]. auto.
  - destruct li as [|i li].
    { exists lj. split; [reflexivity|]. intros ch H. right. destruct lj as [|j lj]; [exact H|].
      rewrite Den_cons in *. destruct H; [left; lia|auto]. }
    destruct lj as [|j lj].
    { exists (i :: li). split; [reflexivity|]. intros ch H. left.
      rewrite Den_cons in *. destruct H; [left; lia|auto]. }
    cbn [union_loop length] in *.
    assert (NXI : match li with [] => True | i' :: li' =>
        rs (next_r li ri) <= rs i' /\ re (next_r li ri) = re i' /\ rs i' < re i' /\ SortedFrom (re i') li' end).
    { destruct li; [exact I|]. cbn [next_r SortedFrom] in *. intuition lia. }
    assert (NXJ : match lj with [] => True | i' :: li' =>
        rs (next_r lj rj) <= rs i' /\ re (next_r lj rj) = re i' /\ rs i' < re i' /\ SortedFrom (re i') li' end).
    { destruct lj; [exact I|]. cbn [next_r SortedFrom] in *. intuition lia. }
    assert (NLI : match li with [] => [] | _ :: li' => next_r li ri :: li' end = li) by (destruct li; reflexivity).
    assert (NLJ : match lj with [] => [] | _ :: lj' => next_r lj rj :: lj' end = lj) by (destruct lj; reflexivity).
    unfold r_lt, r_gt. destruct (re ri <=? rs rj) eqn:E1; [|destruct (re rj <=? rs ri) eqn:E2; [|destruct (re ri <? re rj) eqn:E3]].
    + destruct (IH (next_r li ri) li rj (j :: lj) li (rj :: lj)) as (c & Hc & HD); auto; [simpl; lia|].
      rewrite Hc. eexists. split; [reflexivity|]. intros ch. rewrite !Den_cons. intros [H|H]; [tauto|].
      apply HD in H. rewrite Den_cons in H. tauto.
    + destruct (IH ri (i :: li) (next_r lj rj) lj (ri :: li) lj) as (c & Hc & HD); auto; [simpl; lia|].
      rewrite Hc. eexists. split; [reflexivity|]. intros ch. rewrite !Den_cons. intros [H|H]; [tauto|].
      apply HD in H. rewrite Den_cons in H. tauto.
    + destruct (IH (next_r li ri) li (r_merge rj ri) (j :: lj) li (r_merge rj ri :: lj)) as (c & Hc & HD); auto; [simpl; lia| |].
      { unfold r_merge; cbn [rs re]. intuition lia. }
      rewrite Hc. eexists. split; [reflexivity|]. intros ch H. apply HD in H.
      rewrite !Den_cons in *. cbn [r_merge rs re] in H.
      destruct H as [H|[H|H]]; try tauto.
      assert ((rs rj <= ch /\ ch < re rj) \/ (rs ri <= ch /\ ch < re ri)) by lia. tauto.
    + destruct (IH (r_merge ri rj) (i :: li) (next_r lj rj) lj (r_merge ri rj :: li) lj) as (c & Hc & HD); auto; [simpl; lia| |].
      { unfold r_merge; cbn [rs re]. intuition lia. }
      rewrite Hc. eexists. split; [reflexivity|]. intros ch H. apply HD in H.
      rewrite !Den_cons in *. cbn [r_merge rs re] in H.
      destruct H as [[H|H]|H]; try tauto.
      assert ((rs rj <= ch /\ ch < re rj) \/ (rs ri <= ch /\ ch < re ri)) by lia. tauto.
Qed.

Lemma union_sound a b :
  Sorted a -> Sorted b ->
  exists c, union a b = Some c /\ forall ch, Den c ch -> Den a ch \/ Den b ch.
Proof.
  intros Ha Hb. unfold union.
  destruct (union_loop_sound (length a + length b) (next_r a (mkR 0 0)) a (next_r b (mkR 0 0)) b a b)
    as (c & Hc & HD); eauto.
  - destruct a; [exact I|]. unfold Sorted in Ha. cbn [next_r SortedFrom] in *. intuition lia.
  - destruct b; [exact I|]. unfold Sorted in Hb. cbn [next_r SortedFrom] in *. intuition lia.
  - destruct a; reflexivity.
  - destruct b; reflexivity.
Qed.

(** Disjoint operands: exact, sorted; this is the situation of the automaton
    constructions, which only merge labels without common characters. *)
Lemma union_loop_disjoint fuel : forall a b la lb,
  (length a + length b <= fuel)%nat -> SortedFrom la a -> SortedFrom lb b ->
  (forall ch, Den a ch -> Den b ch -> False) ->
  forall d, exists c, union_loop fuel (next_r a d) a (next_r b d) b = Some c /\
    SortedFrom (N.min la lb) c /\
    (forall ch, Den c ch <-> Den a ch \/ Den b ch).
Proof.
  induction fuel as [|f IH]; intros a b la lb Hf Ha Hb HX d.
  - destruct a, b; simpl in Hf; try lia. exists []. repeat split; auto. intros [H|H]; exact H.
  - destruct a as [|x a].
    { exists b. split; [reflexivity|]. split; [eapply SortedFrom_weaken; [|exact Hb]; lia|].
      intros ch. rewrite Den_nil. tauto. }
    destruct b as [|y b].
    { exists (x :: a). split; [reflexivity|]. split; [eapply SortedFrom_weaken; [|exact Ha]; lia|].
      intros ch. rewrite Den_nil. tauto. }
    cbn [union_loop length next_r] in *.
    pose proof Ha as Ha'. pose proof Hb as Hb'. cbn [SortedFrom] in Ha', Hb'.
    destruct Ha' as (A1 & A2 & A3), Hb' as (B1 & B2 & B3).
    assert (DJ : re x <= rs y \/ re y <= rs x).
    { destruct (N.le_gt_cases (re x) (rs y)); [auto|]. destruct (N.le_gt_cases (re y) (rs x)); [auto|].
      exfalso. apply (HX (N.max (rs x) (rs y))); apply Den_cons; left; lia. }
    unfold r_lt, r_gt. destruct (re x <=? rs y) eqn:E1; [|destruct (re y <=? rs x) eqn:E2; [|lia]].
    + destruct (IH a (y :: b) (re x) (rs y)) with (d := x) as (c & Hc & HS & HD); auto; [simpl; lia| | |].
      { cbn [SortedFrom]. repeat split; auto. lia. }
      { intros ch K L. apply (HX ch); [apply Den_cons; auto|exact L]. }
      cbn [next_r] in Hc. rewrite Hc. eexists. split; [reflexivity|]. split.
      { cbn [SortedFrom]. split; [lia|]. split; [lia|]. eapply SortedFrom_weaken; [|exact HS]. lia. }
      intros ch. rewrite !Den_cons, HD, Den_cons. tauto.
    + destruct (IH (x :: a) b (rs x) (re y)) with (d := y) as (c & Hc & HS & HD); auto; [simpl; lia| | |].
      { cbn [SortedFrom]. repeat split; auto. lia. }
      { intros ch K L. apply (HX ch); [exact K|apply Den_cons; auto]. }
      cbn [next_r] in Hc. rewrite Hc. eexists. split; [reflexivity|]. split.
      { cbn [SortedFrom]. split; [lia|]. split; [lia|]. eapply SortedFrom_weaken; [|exact HS]. lia. }
      intros ch. rewrite !Den_cons, HD, Den_cons. tauto.
Qed.

Lemma union_disjoint a b :
  Sorted a -> Sorted b -> (forall ch, Den a ch -> Den b ch -> False) ->
  exists c, union a b = Some c /\ Sorted c /\ forall ch, Den c ch <-> Den a ch \/ Den b ch.
Proof.
  intros Ha Hb HX. unfold union.
  destruct (union_loop_disjoint (length a + length b) a b 0 0) with (d := mkR 0 0) as (c & Hc & HS & HD); auto.
  exists c. auto.
Qed.

Lemma r_merge_same x : r_merge x x = x.
Proof. unfold r_merge. destruct x as [s e]; cbn [rs re]. f_equal; lia. Qed.

Lemma union_loop_idem fuel : forall a l d,
  (2 * length a <= fuel)%nat -> SortedFrom l a ->
  union_loop fuel (next_r a d) a (next_r a d) a = Some a.
Proof.
  assert (G : forall a fuel x (l : N), (2 * length a + 1 <= fuel)%nat -> rs x < re x -> SortedFrom (re x) a ->
     union_loop fuel x (x :: a) (next_r a x) a = Some (x :: a)).
  { clear fuel. induction a as [|y a IH]; intros fuel x l Hf Hx Ha.
    - destruct fuel; reflexivity.
    - destruct fuel as [|f]; [simpl in Hf; lia|]. cbn [union_loop next_r].
      cbn [SortedFrom] in Ha. unfold r_lt at 1.
      destruct (re x <=? rs y) eqn:E; [|lia].
      cbn [next_r]. destruct f as [|f]; [simpl in Hf; lia|]. cbn [union_loop].
      unfold r_lt, r_gt. destruct (re y <=? rs y) eqn:E1; [lia|].
      destruct (re y <? re y) eqn:E2; [lia|].
      rewrite r_merge_same. rewrite (IH f y l); [reflexivity|simpl in Hf; lia|tauto|tauto]. }
  intros a l d Hf Ha. destruct a as [|x a]; [destruct fuel; reflexivity|].
  destruct fuel as [|f]; [simpl in Hf; lia|].
  cbn [union_loop next_r]. cbn [SortedFrom] in Ha. unfold r_lt, r_gt.
  destruct (re x <=? rs x) eqn:E1; [lia|]. destruct (re x <? re x) eqn:E2; [lia|].
  rewrite r_merge_same. rewrite (G a f x l); [reflexivity|simpl in Hf; lia|tauto|tauto].
Qed.

Lemma union_idem a : Sorted a -> union a a = Some a.
Proof. intros H. unfold union. eapply union_loop_idem; [lia|exact H]. Qed.

(** ** append and diff_and_int *)
(** [ok c lo]: c is sorted and everything in it ends at or below lo. *)
Definition Fits (c : cclass) (hi : N) : Prop := Sorted c /\ Below hi c.

Lemma SortedFrom_app l a b :
  SortedFrom l (a ++ b) <-> SortedFrom l a /\ SortedFrom (match rev a with [] => l | x :: _ => re x end) b.
Proof.
  revert l; induction a as [|x a IH]; intros l; [simpl; tauto|].
  cbn [app SortedFrom rev]. rewrite IH.
  destruct a as [|y a]; [simpl; tauto|].
  destruct (rev (y :: a)) as [|z zs] eqn:E.
  - apply (f_equal (@length _)) in E. rewrite rev_length in E. discriminate.
  - cbn [app]. tauto.
Qed.

Lemma append_spec c r hi :
  Fits c hi -> hi <= rs r -> rs r < re r ->
  Fits (append c r) (re r) /\ (forall ch, Den (append c r) ch <-> Den c ch \/ (rs r <= ch /\ ch < re r)).
Proof.
  intros [HS HB] Hr Hne. unfold append.
  destruct (rev c) as [|b before] eqn:E.
  - assert (c = []) as -> by (rewrite <- (rev_involutive c), E; reflexivity).
    split; [split|].
    + unfold Sorted; simpl. lia.
    + intros x [<-|[]]. lia.
    + intros ch. rewrite Den_cons, Den_nil. tauto.
  - assert (Ec : c = rev before ++ [b]) by (rewrite <- (rev_involutive c), E; reflexivity).
    subst c. clear E.
    assert (Hbh : re b <= hi) by (apply HB; apply in_or_app; simpl; auto).
    assert (Hbb : Below (re r) (rev before)).
    { intros x Hx. assert (re x <= hi) by (apply HB; apply in_or_app; auto). lia. }
    destruct (re b =? rs r) eqn:E1.
    + split; [split|].
      * unfold Sorted in *. rewrite SortedFrom_app in *. cbn [SortedFrom rs re] in *. intuition lia.
      * intros x Hx. apply in_app_or in Hx. destruct Hx as [Hx|[<-|[]]]; [apply Hbb; auto|cbn [re]; lia].
      * intros ch. rewrite !Den_app, !Den_cons, Den_nil. cbn [rs re].
        unfold Sorted in HS. rewrite SortedFrom_app in HS. cbn [SortedFrom] in HS.
        assert ((rs b <= ch /\ ch < re r) <-> (rs b <= ch /\ ch < re b) \/ (rs r <= ch /\ ch < re r)) by lia.
        tauto.
    + split; [split|].
      * unfold Sorted in *. rewrite <- app_assoc. rewrite SortedFrom_app in *.
        cbn [SortedFrom app] in *. intuition lia.
      * intros x Hx. apply in_app_or in Hx. destruct Hx as [Hx|[<-|[]]]; [|lia].
        apply HB in Hx. lia.
      * intros ch. rewrite !Den_app, !Den_cons, Den_nil. tauto.
Qed.

Lemma fold_append_spec b : forall c hi,
  Fits c hi -> SortedFrom hi b ->
  Sorted (fold_left append b c) /\ (forall ch, Den (fold_left append b c) ch <-> Den c ch \/ Den b ch).
Proof.
  induction b as [|r b IH]; intros c hi HF HS; cbn [fold_left].
  - split; [apply HF|]. intros ch. rewrite Den_nil. tauto.
  - cbn [SortedFrom] in HS. destruct (append_spec c r hi) as [H1 H2]; try tauto.
    destruct (IH (append c r) (re r)) as [H3 H4]; try tauto.
    split; [exact H3|]. intros ch. rewrite H4, H2, Den_cons. tauto.
Qed.

Lemma Fits_weaken c h h' : h <= h' -> Fits c h -> Fits c h'.
Proof. intros Hh [H1 H2]. split; [exact H1|]. intros r Hr. specialize (H2 r Hr). lia. Qed.

(** Decision of membership, to close set equations. *)
Lemma Den_dec c ch : Den c ch \/ ~ Den c ch.
Proof.
  destruct (includes c ch) eqn:E; [left; apply includes_Den; auto|].
  right. rewrite <- includes_Den. congruence.
Qed.

Definition dai_measure (a b : cclass) : nat :=
  2 * (length a + length b) -
  match a, b with x :: _, y :: _ => if rs x =? rs y then 1 else 0 | _, _ => 0 end.

Lemma dai_loop_spec fuel : forall a b lo r0 r1 r2,
  (dai_measure a b <= fuel)%nat ->
  SortedFrom lo a -> SortedFrom lo b -> Fits r0 lo -> Fits r1 lo -> Fits r2 lo ->
  exists s0 s1 s2, dai_loop fuel a b r0 r1 r2 = Some (s0, s1, s2) /\
    Sorted s0 /\ Sorted s1 /\ Sorted s2 /\
    (forall ch, Den s0 ch <-> Den r0 ch \/ (Den a ch /\ ~ Den b ch)) /\
    (forall ch, Den s1 ch <-> Den r1 ch \/ (Den b ch /\ ~ Den a ch)) /\
    (forall ch, Den s2 ch <-> Den r2 ch \/ (Den a ch /\ Den b ch)).
Proof.
  induction fuel as [|f IH]; intros a b lo r0 r1 r2 Hf Ha Hb H0 H1 H2.
  - destruct a as [|x a], b as [|y b].
    1: exists r0, r1, r2; split; [reflexivity|]; repeat (split; [apply H0 || apply H1 || apply H2|]);
       repeat split; rewrite ?Den_nil; tauto.
    all: unfold dai_measure in Hf; cbn [length] in Hf; try lia.
    destruct (rs x =? rs y); lia.
  - destruct a as [|x a].
    { cbn [dai_loop]. destruct (fold_append_spec b r1 lo H1 Hb) as [K1 K2].
      exists r0, (fold_left append b r1), r2. split; [reflexivity|].
      split; [apply H0|]. split; [exact K1|]. split; [apply H2|].
      repeat split; rewrite ?K2, ?Den_nil; tauto. }
    destruct b as [|y b].
    { cbn [dai_loop]. destruct (fold_append_spec (x :: a) r0 lo H0 Ha) as [K1 K2].
      exists (fold_left append (x :: a) r0), r1, r2. split; [reflexivity|].
      split; [exact K1|]. split; [apply H1|]. split; [apply H2|].
      repeat split; rewrite ?K2, ?Den_nil; tauto. }
    cbn [dai_loop].
    pose proof Ha as Ha'. pose proof Hb as Hb'. cbn [SortedFrom] in Ha', Hb'.
    destruct Ha' as (A1 & A2 & A3), Hb' as (B1 & B2 & B3).
    assert (DA : forall ch, Den a ch -> re x <= ch) by (intros; eapply SortedFrom_Den; eauto).
    assert (DB : forall ch, Den b ch -> re y <= ch) by (intros; eapply SortedFrom_Den; eauto).
    assert (M : forall c d : cclass, (match c, d with x :: _, y :: _ => if rs x =? rs y then 1 else 0 | _, _ => 0 end <= 1)%nat).
    { intros [|? ?] [|? ?]; try lia. destruct (rs r =? rs r3); lia. }
    unfold r_lt, r_gt.
    destruct (re x <=? rs y) eqn:E1; [|destruct (re y <=? rs x) eqn:E2;
      [|destruct (rs x <? rs y) eqn:E3; [|destruct (rs y <? rs x) eqn:E4;
        [|destruct (re y <? re x) eqn:E5; [|destruct (re x <? re y) eqn:E6]]]]].
    + (* x entirely before y *)
      destruct (append_spec r0 x lo) as [F0 G0]; auto.
      destruct (IH a (y :: b) (re x) (append r0 x) r1 r2) as (s0 & s1 & s2 & Hr & S0 & S1 & S2 & D0 & D1 & D2); auto.
      { unfold dai_measure in *. cbn [length] in *. assert (rs x =? rs y = false) as Q by lia. rewrite Q in Hf.
        pose proof (M a (y :: b)). lia. }
      { cbn [SortedFrom]. repeat split; auto. lia. }
      { eapply Fits_weaken; [|exact H1]; lia. }
      { eapply Fits_weaken; [|exact H2]; lia. }
      exists s0, s1, s2. split; [exact Hr|]. repeat (split; [assumption|]).
      assert (HN : forall ch, rs x <= ch /\ ch < re x -> ~ Den (y :: b) ch).
      { intros ch K. rewrite Den_cons. intros [L|L]; [lia|]. apply DB in L. lia. }
      repeat split; intros K.
      * apply D0 in K. rewrite G0 in K. rewrite (Den_cons x). specialize (HN ch). tauto.
      * apply D0. rewrite G0. rewrite (Den_cons x) in K. tauto.
      * apply D1 in K. rewrite (Den_cons x). specialize (HN ch). destruct K as [K|[K1 K2]]; [auto|]. tauto.
      * apply D1. rewrite (Den_cons x) in K. tauto.
      * apply D2 in K. rewrite (Den_cons x). tauto.
      * apply D2. rewrite (Den_cons x) in K. specialize (HN ch). tauto.
    + (* y entirely before x *)
      destruct (append_spec r1 y lo) as [F1 G1]; auto.
      destruct (IH (x :: a) b (re y) r0 (append r1 y) r2) as (s0 & s1 & s2 & Hr & S0 & S1 & S2 & D0 & D1 & D2); auto.
      { unfold dai_measure in *. cbn [length] in *. assert (rs x =? rs y = false) as Q by lia. rewrite Q in Hf.
        pose proof (M (x :: a) b). lia. }
      { cbn [SortedFrom]. repeat split; auto. lia. }
      { eapply Fits_weaken; [|exact H0]; lia. }
      { eapply Fits_weaken; [|exact H2]; lia. }
      exists s0, s1, s2. split; [exact Hr|]. repeat (split; [assumption|]).
      assert (HN : forall ch, rs y <= ch /\ ch < re y -> ~ Den (x :: a) ch).
      { intros ch K. rewrite Den_cons. intros [L|L]; [lia|]. apply DA in L. lia. }
      repeat split; intros K.
      * apply D0 in K. rewrite (Den_cons y). specialize (HN ch). destruct K as [K|[K1 K2]]; [auto|]. tauto.
      * apply D0. rewrite (Den_cons y) in K. tauto.
      * apply D1 in K. rewrite G1 in K. rewrite (Den_cons y). specialize (HN ch). tauto.
      * apply D1. rewrite G1. rewrite (Den_cons y) in K. tauto.
      * apply D2 in K. rewrite (Den_cons y). tauto.
      * apply D2. rewrite (Den_cons y) in K. specialize (HN ch). tauto.
    + (* x starts earlier *)
      destruct (append_spec r0 (mkR (rs x) (rs y)) lo) as [F0 G0]; auto; [cbn [rs re]; lia|].
      cbn [rs re] in F0, G0.
      destruct (IH (mkR (rs y) (re x) :: a) (y :: b) (rs y) (append r0 (mkR (rs x) (rs y))) r1 r2)
        as (s0 & s1 & s2 & Hr & S0 & S1 & S2 & D0 & D1 & D2); auto.
      { unfold dai_measure in *. cbn [length rs] in *. assert (rs x =? rs y = false) as Q by lia. rewrite Q in Hf.
        rewrite N.eqb_refl. lia. }
      { cbn [SortedFrom rs re]. repeat split; auto; lia. }
      { cbn [SortedFrom]. repeat split; auto. lia. }
      { eapply Fits_weaken; [|exact H1]; lia. }
      { eapply Fits_weaken; [|exact H2]; lia. }
      exists s0, s1, s2. split; [exact Hr|]. repeat (split; [assumption|]).
      assert (HN : forall ch, rs x <= ch /\ ch < rs y -> ~ Den (y :: b) ch).
      { intros ch K. rewrite Den_cons. intros [L|L]; [lia|]. apply DB in L. lia. }
      assert (HX : forall ch, Den (x :: a) ch <-> (rs x <= ch /\ ch < rs y) \/ Den (mkR (rs y) (re x) :: a) ch).
      { intros ch. rewrite !Den_cons. cbn [rs re].
        assert ((rs x <= ch /\ ch < re x) <-> (rs x <= ch /\ ch < rs y) \/ (rs y <= ch /\ ch < re x)) by lia. tauto. }
      repeat split; intros K.
      * apply D0 in K. rewrite G0 in K. rewrite HX. specialize (HN ch). tauto.
      * apply D0. rewrite G0. rewrite HX in K. tauto.
      * apply D1 in K. rewrite HX. specialize (HN ch). destruct K as [K|[K1 K2]]; [auto|]. tauto.
      * apply D1. rewrite HX in K. tauto.
      * apply D2 in K. rewrite HX. tauto.
      * apply D2. rewrite HX in K. specialize (HN ch). tauto.
    + (* y starts earlier *)
      destruct (append_spec r1 (mkR (rs y) (rs x)) lo) as [F1 G1]; auto; [cbn [rs re]; lia|].
      cbn [rs re] in F1, G1.
      destruct (IH (x :: a) (mkR (rs x) (re y) :: b) (rs x) r0 (append r1 (mkR (rs y) (rs x))) r2)
        as (s0 & s1 & s2 & Hr & S0 & S1 & S2 & D0 & D1 & D2); auto.
      { unfold dai_measure in *. cbn [length rs] in *. assert (rs x =? rs y = false) as Q by lia. rewrite Q in Hf.
        rewrite N.eqb_refl. lia. }
      { cbn [SortedFrom]. repeat split; auto. lia. }
      { cbn [SortedFrom rs re]. repeat split; auto; lia. }
      { eapply Fits_weaken; [|exact H0]; lia. }
      { eapply Fits_weaken; [|exact H2]; lia. }
      exists s0, s1, s2. split; [exact Hr|]. repeat (split; [assumption|]).
      assert (HN : forall ch, rs y <= ch /\ ch < rs x -> ~ Den (x :: a) ch).
      { intros ch K. rewrite Den_cons. intros [L|L]; [lia|]. apply DA in L. lia. }
      assert (HX : forall ch, Den (y :: b) ch <-> (rs y <= ch /\ ch < rs x) \/ Den (mkR (rs x) (re y) :: b) ch).
      { intros ch. rewrite !Den_cons. cbn [rs re].
        assert ((rs y <= ch /\ ch < re y) <-> (rs y <= ch /\ ch < rs x) \/ (rs x <= ch /\ ch < re y)) by lia. tauto. }
      repeat split; intros K.
      * apply D0 in K. rewrite HX. specialize (HN ch). destruct K as [K|[K1 K2]]; [auto|]. tauto.
      * apply D0. rewrite HX in K. tauto.
      * apply D1 in K. rewrite G1 in K. rewrite HX. specialize (HN ch). tauto.
      * apply D1. rewrite G1. rewrite HX in K. tauto.
      * apply D2 in K. rewrite HX. tauto.
      * apply D2. rewrite HX in K. specialize (HN ch). tauto.
    + (* same start, x ends later *)
      assert (Q : rs x = rs y) by lia.
      destruct (append_spec r2 (mkR (rs y) (re y)) lo) as [F2 G2]; auto.
      cbn [rs re] in F2, G2.
      destruct (IH (mkR (re y) (re x) :: a) b (re y) r0 r1 (append r2 (mkR (rs y) (re y))))
        as (s0 & s1 & s2 & Hr & S0 & S1 & S2 & D0 & D1 & D2); auto.
      { unfold dai_measure in *. cbn [length rs] in *. rewrite Q, N.eqb_refl in Hf.
        pose proof (M (mkR (re y) (re x) :: a) b). cbn [rs] in *. lia. }
      { cbn [SortedFrom rs re]. repeat split; auto; lia. }
      { eapply Fits_weaken; [|exact H0]; lia. }
      { eapply Fits_weaken; [|exact H1]; lia. }
      exists s0, s1, s2. split; [exact Hr|]. repeat (split; [assumption|]).
      assert (HN : forall ch, rs y <= ch /\ ch < re y -> ~ Den (mkR (re y) (re x) :: a) ch /\ ~ Den b ch).
      { intros ch K. rewrite Den_cons. cbn [rs re]. split; [intros [L|L]; [lia|]|intros L].
        apply DA in L. lia. apply DB in L. lia. }
      assert (HX : forall ch, Den (x :: a) ch <-> (rs y <= ch /\ ch < re y) \/ Den (mkR (re y) (re x) :: a) ch).
      { intros ch. rewrite !Den_cons. cbn [rs re].
        assert ((rs x <= ch /\ ch < re x) <-> (rs y <= ch /\ ch < re y) \/ (re y <= ch /\ ch < re x)) by lia. tauto. }
      repeat split; intros K.
      * apply D0 in K. rewrite HX, (Den_cons y). specialize (HN ch). tauto.
      * apply D0. rewrite HX, (Den_cons y) in K. tauto.
      * apply D1 in K. rewrite HX, (Den_cons y). specialize (HN ch). tauto.
      * apply D1. rewrite HX, (Den_cons y) in K. tauto.
      * apply D2 in K. rewrite G2 in K. rewrite HX, (Den_cons y). tauto.
      * apply D2. rewrite G2. rewrite HX, (Den_cons y) in K. tauto.
    + (* same start, y ends later *)
      assert (Q : rs x = rs y) by lia.
      destruct (append_spec r2 (mkR (rs x) (re x)) lo) as [F2 G2]; auto.
      cbn [rs re] in F2, G2.
      destruct (IH a (mkR (re x) (re y) :: b) (re x) r0 r1 (append r2 (mkR (rs x) (re x))))
        as (s0 & s1 & s2 & Hr & S0 & S1 & S2 & D0 & D1 & D2); auto.
      { unfold dai_measure in *. cbn [length rs] in *. rewrite Q, N.eqb_refl in Hf.
        pose proof (M a (mkR (re x) (re y) :: b)). cbn [rs] in *. lia. }
      { cbn [SortedFrom rs re]. repeat split; auto; lia. }
      { eapply Fits_weaken; [|exact H0]; lia. }
      { eapply Fits_weaken; [|exact H1]; lia. }
      exists s0, s1, s2. split; [exact Hr|]. repeat (split; [assumption|]).
      assert (HN : forall ch, rs x <= ch /\ ch < re x -> ~ Den (mkR (re x) (re y) :: b) ch /\ ~ Den a ch).
      { intros ch K. rewrite Den_cons. cbn [rs re]. split; [intros [L|L]; [lia|]|intros L].
        apply DB in L. lia. apply DA in L. lia. }
      assert (HX : forall ch, Den (y :: b) ch <-> (rs x <= ch /\ ch < re x) \/ Den (mkR (re x) (re y) :: b) ch).
      { intros ch. rewrite !Den_cons. cbn [rs re].
        assert ((rs y <= ch /\ ch < re y) <-> (rs x <= ch /\ ch < re x) \/ (re x <= ch /\ ch < re y)) by lia. tauto. }
      repeat split; intros K.
      * apply D0 in K. rewrite HX, (Den_cons x). specialize (HN ch). tauto.
      * apply D0. rewrite HX, (Den_cons x) in K. tauto.
      * apply D1 in K. rewrite HX, (Den_cons x). specialize (HN ch). tauto.
      * apply D1. rewrite HX, (Den_cons x) in K. tauto.
      * apply D2 in K. rewrite G2 in K. rewrite HX, (Den_cons x). tauto.
      * apply D2. rewrite G2. rewrite HX, (Den_cons x) in K. tauto.
    + (* equal *)
      assert (Q : rs x = rs y) by lia. assert (Q' : re x = re y) by lia.
      destruct (append_spec r2 (mkR (rs x) (re y)) lo) as [F2 G2]; auto; [cbn [rs re]; lia|].
      cbn [rs re] in F2, G2.
      destruct (IH a b (re x) r0 r1 (append r2 (mkR (rs x) (re y))))
        as (s0 & s1 & s2 & Hr & S0 & S1 & S2 & D0 & D1 & D2); auto.
      { unfold dai_measure in *. cbn [length] in *. rewrite Q, N.eqb_refl in Hf.
        pose proof (M a b). lia. }
      { rewrite Q'. exact B3. }
      { eapply Fits_weaken; [|exact H0]; lia. }
      { eapply Fits_weaken; [|exact H1]; lia. }
      { rewrite Q'. exact F2. }
      exists s0, s1, s2. split; [exact Hr|]. repeat (split; [assumption|]).
      assert (HN : forall ch, rs x <= ch /\ ch < re x -> ~ Den a ch /\ ~ Den b ch).
      { intros ch K. split; intros L. apply DA in L. lia. apply DB in L. lia. }
      rewrite Q' in HN.
      assert (HY : forall ch, (rs y <= ch /\ ch < re y) <-> (rs x <= ch /\ ch < re y)) by (intros; lia).
      assert (HZ : forall ch, (rs x <= ch /\ ch < re x) <-> (rs x <= ch /\ ch < re y)) by (intros; lia).
      repeat split; intros K.
      * apply D0 in K. rewrite (Den_cons x), (Den_cons y), HY, HZ. specialize (HN ch). tauto.
      * apply D0. rewrite (Den_cons x), (Den_cons y), HY, HZ in K. tauto.
      * apply D1 in K. rewrite (Den_cons x), (Den_cons y), HY, HZ. specialize (HN ch). tauto.
      * apply D1. rewrite (Den_cons x), (Den_cons y), HY, HZ in K. tauto.
      * apply D2 in K. rewrite G2 in K. rewrite (Den_cons x), (Den_cons y), HY, HZ. tauto.
      * apply D2. rewrite G2. rewrite (Den_cons x), (Den_cons y), HY, HZ in K. tauto.
Qed.
