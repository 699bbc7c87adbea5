From Coq Require Import List NArith ZArith Bool Lia ZifyBool ZifyN ZifyNat Permutation.
From Verif Require Import Marker MarkerProofs Reduction TreeSpec.
Import ListNotations.

(** ** Abstract machine: a stack of blocks *)
Inductive block := BS (w : N) | BE (w : N) | BV (vs : list N).

Section A.
Variable f : N -> N -> N -> list N -> N.

Definition pushb (vs : list N) (s : list block) : list block :=
  match s with BV us :: r => BV (us ++ vs) :: r | _ => BV vs :: s end.
Definition pushv (v : N) (s : list block) : list block :=
  if (v =? 0)%N then s else pushb [v] s.
Definition mk (w st : N) (args : list N) : call := mkCall (get_machine_id w) (get_offset st) (get_offset w) args.
Definition app_f (c : call) : N := f (c_id c) (c_start c) (c_end c) (c_args c).

(** stack, calls made *)
Definition bstep (s : list block) (x : block) : list block * list call :=
  match x with
  | BS w => (BS w :: s, [])
  | BV vs => (pushb vs s, [])
  | BE w =>
    match s with
    | BS st :: r => let c := mk w st [] in (pushv (app_f c) r, [c])
    | BV us :: BS st :: r => let c := mk w st us in (pushv (app_f c) r, [c])
    | _ => (BE w :: s, [])
    end
  end.

Fixpoint bsteps (s : list block) (xs : list block) : list block * list call :=
  match xs with
  | [] => (s, [])
  | x :: r => let '(s1, l1) := bstep s x in let '(s2, l2) := bsteps s1 r in (s2, l1 ++ l2)
  end.

Lemma bsteps_app s xs ys :
  bsteps s (xs ++ ys) =
  let '(s1, l1) := bsteps s xs in let '(s2, l2) := bsteps s1 ys in (s2, l1 ++ l2).
Proof.
  revert s; induction xs as [|x xs IH]; intros s; cbn [app bsteps].
  - destruct (bsteps s ys); reflexivity.
  - destruct (bstep s x) as [s1 l1]. rewrite IH.
    destruct (bsteps s1 xs) as [s2 l2]. destruct (bsteps s2 ys) as [s3 l3].
    rewrite app_assoc. reflexivity.
Qed.

Lemma bsteps_one s x : bsteps s [x] = bstep s x.
Proof. cbn [bsteps]. destruct (bstep s x). rewrite app_nil_r. reflexivity. Qed.

Lemma bsteps_snoc s xs x :
  bsteps s (xs ++ [x]) = let '(s1, l1) := bsteps s xs in let '(s2, l2) := bstep s1 x in (s2, l1 ++ l2).
Proof.
  rewrite bsteps_app. destruct (bsteps s xs). rewrite bsteps_one. reflexivity.
Qed.

(** Confluence: reducing a chunk first and feeding its normal form gives the same
    stack, and the same calls up to order. *)
Lemma pushb_bstep s vs : pushb vs s = fst (bstep s (BV vs)).
Proof. reflexivity. Qed.

Definition F (s u : list block) : list block := fst (bsteps s (rev u)).
Definition L (s u : list block) : list call := snd (bsteps s (rev u)).
Lemma F_cons s b u : F s (b :: u) = fst (bstep (F s u) b).
Proof.
  unfold F. cbn [rev]. rewrite bsteps_snoc. destruct (bsteps s (rev u)) as [s1 l1].
  cbn [fst]. destruct (bstep s1 b); reflexivity.
Qed.
Lemma L_cons s b u : L s (b :: u) = L s u ++ snd (bstep (F s u) b).
Proof.
  unfold F, L. cbn [rev]. rewrite bsteps_snoc. destruct (bsteps s (rev u)) as [s1 l1].
  cbn [fst snd]. destruct (bstep s1 b); reflexivity.
Qed.

Lemma pushb_pushb us vs s : pushb vs (pushb us s) = pushb (us ++ vs) s.
Proof. destruct s as [|[w|w|ws] r]; cbn [pushb]; rewrite <- ?app_assoc; reflexivity. Qed.

Lemma F_pushb s vs r : F s (pushb vs r) = pushb vs (F s r).
Proof.
  destruct r as [|[w|w|us] r]; cbn [pushb]; try (rewrite F_cons; reflexivity).
  rewrite !F_cons. cbn [bstep fst]. rewrite pushb_pushb. reflexivity.
Qed.
Lemma L_pushb s vs r : L s (pushb vs r) = L s r.
Proof.
  destruct r as [|[w|w|us] r]; cbn [pushb]; rewrite !L_cons; cbn [bstep snd]; rewrite ?app_nil_r; reflexivity.
Qed.
Lemma F_pushv s v r : F s (pushv v r) = pushv v (F s r).
Proof. unfold pushv. destruct (v =? 0)%N; [reflexivity|apply F_pushb]. Qed.
Lemma L_pushv s v r : L s (pushv v r) = L s r.
Proof. unfold pushv. destruct (v =? 0)%N; [reflexivity|apply L_pushb]. Qed.

Lemma il_app {A} (a b c a' b' c' : list A) :
  Interleave a b c -> Interleave a' b' c' -> Interleave (a ++ a') (b ++ b') (c ++ c').
Proof. induction 1; intros; cbn [app]; [assumption|constructor; auto|constructor; auto]. Qed.
Lemma il_l {A} (a : list A) : Interleave a [] a.
Proof. induction a; constructor; assumption. Qed.
Lemma il_r {A} (a : list A) : Interleave [] a a.
Proof. induction a; constructor; assumption. Qed.
Lemma il_perm {A} (a b c : list A) : Interleave a b c -> Permutation (a ++ b) c.
Proof.
  induction 1; cbn [app]; [reflexivity|constructor; assumption|].
  rewrite <- Permutation_middle. constructor. assumption.
Qed.

Lemma bstep_confl s t x :
  fst (bstep (F s t) x) = F s (fst (bstep t x)) /\
  ((snd (bstep t x) = snd (bstep (F s t) x) /\ L s (fst (bstep t x)) = L s t) \/
   (snd (bstep t x) = [] /\ L s (fst (bstep t x)) = L s t ++ snd (bstep (F s t) x))).
Proof.
  assert (D : forall w t0, bstep t0 (BE w) = (BE w :: t0, []) ->
    fst (bstep (F s t0) (BE w)) = F s (fst (bstep t0 (BE w))) /\
    (snd (bstep t0 (BE w)) = [] /\ L s (fst (bstep t0 (BE w))) = L s t0 ++ snd (bstep (F s t0) (BE w)))).
  { intros w t0 E. rewrite E. cbn [fst snd]. rewrite F_cons, L_cons. auto. }
  destruct x as [w|w|vs].
  - cbn [bstep fst snd]. rewrite F_cons, L_cons. cbn [bstep fst snd]. rewrite app_nil_r. auto.
  - destruct t as [|[st|e|us] r].
    + destruct (D w []) as [D1 D2]; [reflexivity|]. auto.
    + rewrite F_cons. cbn [bstep fst snd]. rewrite F_pushv, L_pushv. split; [reflexivity|]. left.
      rewrite L_cons. cbn [bstep snd]. rewrite app_nil_r. auto.
    + destruct (D w (BE e :: r)) as [D1 D2]; [reflexivity|]. auto.
    + destruct r as [|[st|e|us'] r].
      * destruct (D w [BV us]) as [D1 D2]; [reflexivity|]. auto.
      * rewrite !F_cons. cbn [bstep fst snd pushb]. rewrite F_pushv, L_pushv. split; [reflexivity|]. left.
        rewrite !L_cons, F_cons. cbn [bstep fst snd]. rewrite !app_nil_r. auto.
      * destruct (D w (BV us :: BE e :: r)) as [D1 D2]; [reflexivity|]. auto.
      * destruct (D w (BV us :: BV us' :: r)) as [D1 D2]; [reflexivity|]. auto.
  - cbn [bstep fst snd]. rewrite F_pushb, L_pushb. auto.
Qed.

Lemma confluence s xs :
  fst (bsteps s xs) = F s (fst (bsteps [] xs)) /\
  Interleave (snd (bsteps [] xs)) (L s (fst (bsteps [] xs))) (snd (bsteps s xs)).
Proof.
  induction xs as [|x xs IH] using rev_ind; [split; [reflexivity|constructor]|].
  rewrite !bsteps_snoc.
  destruct (bsteps s xs) as [s1 l1]. destruct (bsteps [] xs) as [t l2]. cbn [fst snd] in IH.
  destruct IH as [-> IH].
  destruct (bstep_confl s t x) as [C1 C2].
  destruct (bstep (F s t) x) as [s2 k1]. destruct (bstep t x) as [t2 k2]. cbn [fst snd] in *.
  split; [exact C1|]. destruct C2 as [[-> ->]|[-> ->]].
  - rewrite <- (app_nil_r (L s t)). apply il_app; [exact IH|apply il_l].
  - apply il_app; [exact IH|apply il_r].
Qed.

(** ** Well-formed stacks *)
Definition noBS (s : list block) : Prop := forall w, ~ In (BS w) s.
Fixpoint Good (s : list block) : Prop :=
  match s with
  | [] => True
  | BS _ :: r => Good r
  | BE _ :: r => noBS r /\ Good r
  | BV us :: r => us <> [] /\ match r with BV _ :: _ => False | _ => True end /\ Good r
  end.
Definition okb (x : block) : Prop := match x with BV vs => vs <> [] | _ => True end.

Lemma pushb_Good vs s : vs <> [] -> Good s -> Good (pushb vs s).
Proof.
  intros Hv Hs. destruct s as [|[w|w|us] r]; cbn [pushb Good] in *; auto.
  split; [|tauto]. intros E. apply app_eq_nil in E. tauto.
Qed.
Lemma pushv_Good v s : Good s -> Good (pushv v s).
Proof. intros H. unfold pushv. destruct (v =? 0)%N; [exact H|apply pushb_Good; [discriminate|exact H]]. Qed.
Lemma bstep_Good s x : okb x -> Good s -> Good (fst (bstep s x)).
Proof.
  intros Hx Hs. destruct x as [w|w|vs]; cbn [bstep fst].
  - exact Hs.
  - destruct s as [|[st|e|us] r].
    + cbn [fst Good]. split; [intros ? []|exact I].
    + cbn [fst]. apply pushv_Good. exact Hs.
    + cbn [fst Good] in *. split; [|exact Hs]. destruct Hs as [H1 _].
      intros w' [K|K]; [discriminate|]. apply (H1 w' K).
    + destruct r as [|[st|e|us'] r].
      * cbn [fst Good] in *. split; [|exact Hs]. intros w' [K|[]]. discriminate.
      * cbn [fst]. apply pushv_Good. cbn [Good] in Hs. tauto.
      * cbn [fst Good] in *. split; [|exact Hs]. intros w' [K|[K|K]]; [discriminate|discriminate|].
        destruct Hs as (_ & _ & H1 & _). apply (H1 w' K).
      * cbn [Good] in Hs. tauto.
  - apply pushb_Good; assumption.
Qed.
Lemma bsteps_Good s xs : Forall okb xs -> Good s -> Good (fst (bsteps s xs)).
Proof.
  revert s; induction xs as [|x xs IH]; intros s Hx Hs; cbn [bsteps fst]; [exact Hs|].
  inversion Hx as [|? ? H1 H2]; subst. pose proof (bstep_Good s x H1 Hs) as G.
  destruct (bstep s x) as [s1 l1]. cbn [fst] in G. specialize (IH s1 H2 G).
  destruct (bsteps s1 xs). exact IH.
Qed.
Lemma Good_okb s : Good s -> Forall okb s.
Proof.
  induction s as [|[w|w|us] r IH]; intros H; constructor; cbn [Good okb] in *; auto; try tauto; apply IH; tauto.
Qed.
Lemma Good_top s : Good s -> ~ noBS s -> (forall w r, s <> BE w :: r) ->
  (exists st r, s = BS st :: r) \/ (exists us st r, s = BV us :: BS st :: r).
Proof.
  intros HG HN HE. destruct s as [|[st|e|us] r].
  - exfalso. apply HN. intros ? [].
  - left. eauto.
  - exfalso. eapply HE; reflexivity.
  - destruct r as [|[st|e|us'] r]; cbn [Good] in HG.
    + exfalso. apply HN. intros ? [K|[]]; discriminate.
    + right. eauto.
    + exfalso. apply HN. intros w [K|[K|K]]; try discriminate. destruct HG as (_ & _ & H & _). apply (H w K).
    + tauto.
Qed.

(** An unmatched end marker never disappears. *)
Definition hasBE (s : list block) : Prop := exists w, In (BE w) s.
Lemma hasBE_pushv v s : hasBE s -> hasBE (pushv v s).
Proof.
  intros [w H]. unfold pushv. destruct (v =? 0)%N; [exists w; exact H|].
  exists w. destruct s as [|[a|a|us] r]; cbn [pushb] in *; simpl in *; try tauto.
  destruct H as [H|H]; [discriminate|]. tauto.
Qed.
Lemma hasBE_bstep s x : hasBE s -> hasBE (fst (bstep s x)).
Proof.
  intros H. destruct x as [w|w|vs]; cbn [bstep fst].
  - destruct H as [a H]. exists a. simpl; auto.
  - destruct s as [|[st|e|us] r].
    + destruct H as [a []].
    + apply hasBE_pushv. destruct H as [a [H|H]]; [discriminate|]. exists a; exact H.
    + exists w. simpl; auto.
    + destruct r as [|[st|e|us'] r]; try (exists w; simpl; auto; fail).
      cbn [fst]. apply hasBE_pushv. destruct H as [a [H|[H|H]]]; try discriminate. exists a; exact H.
  - destruct H as [a H]. exists a. destruct s as [|[b|b|us] r]; cbn [pushb]; simpl in *; auto.
    destruct H as [H|H]; [discriminate|auto].
Qed.
Lemma hasBE_bsteps s xs : hasBE s -> hasBE (fst (bsteps s xs)).
Proof.
  revert s; induction xs as [|x xs IH]; intros s H; cbn [bsteps fst]; [exact H|].
  pose proof (hasBE_bstep s x H) as G. destruct (bstep s x) as [s1 l1]. specialize (IH s1 G).
  destruct (bsteps s1 xs). exact IH.
Qed.

(** ** Concrete stacks of an abstract stack *)
Definition bstarts (s : list block) : list N := flat_map (fun b => match b with BS w => [w] | _ => [] end) s.
Definition bends (s : list block) : list N := flat_map (fun b => match b with BE w => [w] | _ => [] end) s.
Definition bvalues (s : list block) : list N := flat_map (fun b => match b with BV vs => rev vs | _ => [] end) s.
Definition btag (b : block) : Z :=
  match b with BS _ => START_MARKER | BE _ => END_MARKER | BV vs => Z.of_nat (length vs) end.
Definition conc (s : list block) (lg : list call) : stacks :=
  mkS (bstarts s) (bends s) (bvalues s) (map btag s) lg.

Variable eb : option Z.
Hypothesis eb_ok : exists z, eb = Some z /\ isValueTag z = false.

Lemma bump_conc n vs s lg : vs <> [] -> Good s -> n = Z.of_nat (length vs) ->
  obind (bump_tag eb n (tags (conc s lg)))
    (fun ts => Ok (mkS (bstarts s) (bends s) (rev vs ++ bvalues s) ts lg)) = Ok (conc (pushb vs s) lg).
Proof.
  intros Hv HG ->. destruct eb_ok as (z & Ez & Hz).
  destruct s as [|[w|w|us] r]; cbn [conc tags map btag bump_tag obind pushb].
  - rewrite Ez, Hz. cbn [obind]. reflexivity.
  - reflexivity.
  - reflexivity.
  - cbn [Good] in HG. destruct us as [|u us]; [tauto|].
    assert (isValueTag (Z.of_nat (length (u :: us))) = true) as ->.
    { unfold isValueTag, VALUE. cbn [length]. lia. }
    cbn [obind]. unfold conc. cbn [bstarts bends bvalues flat_map map btag app].
    rewrite <- Nat2Z.inj_add, <- app_length. change (u :: us ++ vs) with ((u :: us) ++ vs).
    rewrite (rev_app_distr (u :: us) vs), <- app_assoc. reflexivity.
Qed.

Lemma push_value_conc v s lg : Good s -> push_value eb v (conc s lg) = Ok (conc (pushv v s) lg).
Proof.
  intros HG. unfold push_value, pushv. destruct (v =? 0)%N; [reflexivity|].
  exact (bump_conc VALUE [v] s lg ltac:(discriminate) HG eq_refl).
Qed.
Lemma append_value_conc vs s lg : vs <> [] -> Good s ->
  append_value eb vs (Z.of_nat (length vs)) (conc s lg) = Ok (conc (pushb vs s) lg).
Proof. intros Hv HG. exact (bump_conc _ vs s lg Hv HG eq_refl). Qed.

Lemma reduce_conc w s lg : Good s -> ~ noBS s -> (forall a r, s <> BE a :: r) ->
  reduce_by_end_marker f eb w (conc s lg) =
  Ok (conc (fst (bstep s (BE w))) (rev (snd (bstep s (BE w))) ++ lg)).
Proof.
  intros HG HN HE. destruct (Good_top s HG HN HE) as [(st & r & ->)|(us & st & r & ->)].
  - cbn [Good] in HG. cbn [bstep fst snd rev app].
    rewrite <- push_value_conc by exact HG. reflexivity.
  - cbn [Good] in HG. destruct HG as (Hu & _ & HG). cbn [bstep fst snd rev app].
    rewrite <- push_value_conc by exact HG.
    unfold reduce_by_end_marker. cbn [conc starts tags bstarts flat_map app map btag].
    assert ((Z.of_nat (length us) <? 1)%Z = false) as ->.
    { destruct us; [congruence|]. cbn [length]. lia. }
    rewrite Nat2Z.id. cbn [conc values bvalues flat_map app].
    assert (length (rev us ++ flat_map (fun b => match b with BV vs => rev vs | _ => [] end) r) <? length us = false)%nat as ->.
    { rewrite app_length, rev_length. lia. }
    replace (length us) with (length (rev us)) by apply rev_length.
    rewrite firstn_app, skipn_app, firstn_all, skipn_all, Nat.sub_diag. cbn [firstn skipn app].
    rewrite app_nil_r, rev_involutive. reflexivity.
Qed.

Lemma noBS_starts s : bstarts s = [] <-> noBS s.
Proof.
  split.
  - intros H w Hin. assert (K : In w (bstarts s)).
    { apply in_flat_map. exists (BS w). split; [exact Hin|simpl; auto]. }
    rewrite H in K. exact K.
  - intros H. destruct (bstarts s) as [|w l] eqn:E; [reflexivity|]. exfalso.
    assert (K : In w (bstarts s)) by (rewrite E; simpl; auto).
    apply in_flat_map in K. destruct K as ([a|a|a] & Ha & K); simpl in K; try tauto.
    apply (H a Ha).
Qed.

(** word to abstract input *)
Definition wblock (w : N) : block := if is_start_marker w then BS w else BE w.

Lemma noBS_BE w s : noBS s -> bstep s (BE w) = (BE w :: s, []).
Proof.
  intros H. destruct s as [|[st|e|us] r]; cbn [bstep]; try reflexivity.
  - exfalso. apply (H st). simpl; auto.
  - destruct r as [|[st|e|us'] r]; try reflexivity. exfalso. apply (H st). simpl; auto.
Qed.

Lemma reduce_word_conc w s lg : Good s ->
  reduce_word f eb w (conc s lg) =
  Ok (conc (fst (bstep s (wblock w))) (rev (snd (bstep s (wblock w))) ++ lg)).
Proof.
  intros HG. unfold reduce_word, wblock. destruct (is_start_marker w); [reflexivity|].
  cbn [conc starts]. destruct (bstarts s) as [|st l] eqn:E.
  - apply noBS_starts in E. rewrite noBS_BE by exact E. reflexivity.
  - apply reduce_conc; [exact HG| |].
    + intros K. apply noBS_starts in K. congruence.
    + intros a r ->. cbn [Good] in HG. destruct HG as [K _]. apply noBS_starts in K.
      cbn [bstarts flat_map app] in E. unfold bstarts in K. congruence.
Qed.

Lemma reduce_words_conc ws : forall s lg, Good s ->
  reduce_words f eb ws (conc s lg) =
  Ok (conc (fst (bsteps s (map wblock ws))) (rev (snd (bsteps s (map wblock ws))) ++ lg)).
Proof.
  induction ws as [|w ws IH]; intros s lg HG; cbn [reduce_words map bsteps]; [reflexivity|].
  rewrite reduce_word_conc by exact HG. cbn [obind].
  assert (G : Good (fst (bstep s (wblock w)))).
  { apply bstep_Good; [|exact HG]. unfold wblock; destruct (is_start_marker w); exact I. }
  destruct (bstep s (wblock w)) as [s1 l1]. cbn [fst snd] in *.
  rewrite IH by exact G. destruct (bsteps s1 (map wblock ws)) as [s2 l2]. cbn [fst snd].
  rewrite rev_app_distr, app_assoc. reflexivity.
Qed.

Lemma okb_wblock ws : Forall okb (map wblock ws).
Proof. apply Forall_forall. intros x Hx. apply in_map_iff in Hx. destruct Hx as (w & <- & _).
  unfold wblock; destruct (is_start_marker w); exact I. Qed.

Lemma rev_flat_map {A B} (g : A -> list B) l : rev (flat_map g l) = flat_map (fun x => rev (g x)) (rev l).
Proof.
  induction l as [|x l IH]; [reflexivity|]. cbn [flat_map rev].
  rewrite rev_app_distr, flat_map_app, IH. cbn [flat_map]. rewrite app_nil_r. reflexivity.
Qed.

(** stage 3's loop over one chunk, chunk blocks given first-first *)
Lemma merge_tags_conc bs : forall s lg, Forall okb bs -> Good s -> ~ hasBE (fst (bsteps s bs)) ->
  merge_tags f eb (map btag bs)
    (flat_map (fun b => rev (match b with BS w => [w] | _ => [] end)) bs)
    (flat_map (fun b => rev (match b with BE w => [w] | _ => [] end)) bs)
    (flat_map (fun b => rev (match b with BV vs => rev vs | _ => [] end)) bs) (conc s lg) =
  Ok (conc (fst (bsteps s bs)) (rev (snd (bsteps s bs)) ++ lg)).
Proof.
  induction bs as [|b bs IH]; intros s lg Hok HG HB; [reflexivity|].
  inversion Hok as [|? ? H1 H2]; subst.
  assert (HG1 := bstep_Good s b H1 HG).
  assert (HB1 : ~ hasBE (fst (bstep s b))).
  { intros K. apply HB. cbn [bsteps]. destruct (bstep s b) as [s1 l1]. cbn [fst] in K.
    pose proof (hasBE_bsteps s1 bs K) as Q. destruct (bsteps s1 bs). exact Q. }
  cbn [bsteps] in HB |- *.
  destruct b as [w|w|vs]; cbn [map btag flat_map rev app].
  - cbn [merge_tags]. change ((START_MARKER =? START_MARKER)%Z) with true. cbn match.
    cbn [bstep] in *. cbn [fst] in *.
    change (push_start_marker w (conc s lg)) with (conc (BS w :: s) lg).
    specialize (IH (BS w :: s) lg H2 HG1).
    destruct (bsteps (BS w :: s) bs) as [s2 l2]. cbn [fst snd app] in *. apply IH; exact HB.
  - cbn [merge_tags]. change ((END_MARKER =? START_MARKER)%Z) with false.
    change ((END_MARKER =? END_MARKER)%Z) with true. cbn match.
    assert (HN : ~ noBS s).
    { intros K. apply HB1. rewrite noBS_BE by exact K. exists w. simpl; auto. }
    rewrite reduce_conc; [|exact HG|exact HN|].
    + cbn [obind]. destruct (bstep s (BE w)) as [s1 l1]. cbn [fst snd] in *.
      specialize (IH s1 (rev l1 ++ lg) H2 HG1).
      destruct (bsteps s1 bs) as [s2 l2]. cbn [fst snd] in *. rewrite IH by exact HB.
      rewrite rev_app_distr, app_assoc. reflexivity.
    + intros a r ->. apply HN. cbn [Good] in HG. intros w' [K|K]; [discriminate|]. destruct HG as [Q _]. apply (Q w' K).
  - cbn [okb] in H1. cbn [merge_tags].
    assert ((Z.of_nat (length vs) =? START_MARKER)%Z = false) as -> by (unfold START_MARKER; lia).
    assert ((Z.of_nat (length vs) =? END_MARKER)%Z = false) as ->.
    { unfold END_MARKER. destruct vs; [congruence|]. cbn [length]. lia. }
    cbn zeta. rewrite Nat2Z.id, !rev_involutive.
    rewrite app_length.
    assert ((length vs + length (flat_map (fun b => rev (match b with BV vs0 => rev vs0 | _ => [] end)) bs) <? length vs)%nat = false) as -> by lia.
    rewrite firstn_app, skipn_app, firstn_all, skipn_all, Nat.sub_diag. cbn [firstn skipn app]. rewrite app_nil_r.
    rewrite append_value_conc by assumption. cbn [obind].
    cbn [bstep] in *. cbn [fst snd] in *.
    specialize (IH (pushb vs s) lg H2 HG1).
    destruct (bsteps (pushb vs s) bs) as [s2 l2]. cbn [fst snd app] in *. apply IH; exact HB.
Qed.

Lemma merge_chunk_conc s lg t lt : Good s -> Good t -> ~ hasBE (F s t) ->
  merge_chunk f eb (conc s lg) (conc t lt) = Ok (conc (F s t) (rev (L s t) ++ lg)).
Proof.
  intros HG HT HB. unfold merge_chunk. cbn [conc tags starts ends values].
  unfold bstarts, bends, bvalues. rewrite !rev_flat_map, <- map_rev.
  apply merge_tags_conc; [|exact HG|exact HB].
  apply Forall_rev. apply Good_okb. exact HT.
Qed.

(** ** Banks *)
Definition nf (bank : list N) : list block := fst (bsteps [] (map wblock (bank_content bank))).
Definition nl (bank : list N) : list call := snd (bsteps [] (map wblock (bank_content bank))).

Lemma nf_Good b : Good (nf b).
Proof. apply bsteps_Good; [apply okb_wblock|exact I]. Qed.

Lemma reduce_bank_conc b : reduce_bank f eb b = Ok (conc (nf b) (rev (nl b))).
Proof.
  unfold reduce_bank. change empty_stacks with (conc [] []).
  rewrite reduce_words_conc by exact I. rewrite app_nil_r. reflexivity.
Qed.
Lemma reduce_banks_conc bs : reduce_banks f eb bs = Ok (map (fun b => conc (nf b) (rev (nl b))) bs).
Proof.
  induction bs as [|b bs IH]; [reflexivity|]. cbn [reduce_banks map]. rewrite reduce_bank_conc. cbn [obind].
  rewrite IH. reflexivity.
Qed.

Definition content (bs : list (list N)) : list block := concat (map (fun b => map wblock (bank_content b)) bs).

Lemma merge_chunks_conc bs : forall s lg, Good s -> ~ hasBE (fst (bsteps s (content bs))) ->
  exists l3, merge_chunks f eb (conc s lg) (map (fun b => conc (nf b) (rev (nl b))) bs) =
    Ok (conc (fst (bsteps s (content bs))) (rev l3 ++ lg)) /\
    Interleave (concat (map nl bs)) l3 (snd (bsteps s (content bs))).
Proof.
  induction bs as [|b bs IH]; intros s lg HG HB.
  - exists []. split; [reflexivity|]. constructor.
  - unfold content in *. cbn [map concat] in *. fold (content bs) in *.
    rewrite bsteps_app in *.
    destruct (confluence s (map wblock (bank_content b))) as [C1 C2].
    fold (nf b) in C1, C2. fold (nl b) in C2.
    destruct (bsteps s (map wblock (bank_content b))) as [s1 l1]. cbn [fst snd] in C1, C2.
    assert (HG1 : Good (F s (nf b))).
    { unfold F. apply bsteps_Good; [|exact HG]. apply Forall_rev, Good_okb, nf_Good. }
    subst s1.
    assert (HB1 : ~ hasBE (F s (nf b))).
    { intros K. apply HB. pose proof (hasBE_bsteps (F s (nf b)) (content bs) K) as Q.
      destruct (bsteps (F s (nf b)) (content bs)). exact Q. }
    destruct (IH (F s (nf b)) (rev (L s (nf b)) ++ lg) HG1) as (l3 & E & P).
    { destruct (bsteps (F s (nf b)) (content bs)). exact HB. }
    exists (L s (nf b) ++ l3).
    cbn [merge_chunks]. rewrite merge_chunk_conc by (auto using nf_Good). cbn [obind].
    unfold content in E. rewrite E. fold (content bs).
    destruct (bsteps (F s (nf b)) (content bs)) as [s2 l2]. cbn [fst snd] in *. split.
    + rewrite rev_app_distr, app_assoc. reflexivity.
    + apply il_app; assumption.
Qed.

(** ** Trees *)
Definition nz (v : N) : bool := negb (v =? 0)%N.

Lemma tree_ind' (P : tree -> Prop) :
  (forall id s e ch, Forall P ch -> P (Node id s e ch)) -> forall t, P t.
Proof.
  intros H. fix IH 1. intros [id s e ch]. apply H.
  induction ch as [|c ch IHc]; constructor; [apply IH|exact IHc].
Qed.

Lemma tree_ok_Forall ch : fold_right (fun c P => tree_ok c /\ P) True ch <-> Forall tree_ok ch.
Proof.
  induction ch as [|c ch IH]; cbn [fold_right]; split; intros H; auto.
  - constructor; tauto.
  - inversion H; subst. tauto.
Qed.

Lemma wblock_start id s : (1 <= id < 2 ^ 15)%N -> (s < 2 ^ 48)%N -> wblock (start_word id s) = BS (start_word id s).
Proof. intros H1 H2. unfold wblock. destruct (marker_start id s H1 H2) as (_&_&_&->&_). reflexivity. Qed.
Lemma wblock_end id s : (1 <= id < 2 ^ 15)%N -> (s < 2 ^ 48)%N -> wblock (end_word id s) = BE (end_word id s).
Proof. intros H1 H2. unfold wblock. destruct (marker_end id s H1 H2) as (_&_&_&->&_). reflexivity. Qed.

(** stack with value list [us] pending on top of a start marker *)
Definition pend (us : list N) (s : list block) : list block := match us with [] => s | _ => BV us :: s end.

Lemma pushv_pend v us st s : pushv v (pend us (BS st :: s)) = pend (us ++ filter nz [v]) (BS st :: s).
Proof.
  unfold pushv, nz. cbn [filter]. destruct (v =? 0)%N; cbn [negb].
  - rewrite app_nil_r. reflexivity.
  - destruct us; reflexivity.
Qed.

Lemma bsteps_tree t : tree_ok t -> forall s,
  bsteps s (map wblock (stream t)) = (pushv (eval f t) s, calls f t).
Proof.
  induction t as [id st e ch IH] using tree_ind'. intros Hok s.
  cbn [tree_ok] in Hok. destruct Hok as (Hid & Hs & He & Hch). apply tree_ok_Forall in Hch.
  assert (G : forall l us s, Forall (fun t => tree_ok t -> forall s, bsteps s (map wblock (stream t)) = (pushv (eval f t) s, calls f t)) l ->
     Forall tree_ok l ->
     bsteps (pend us (BS (start_word id st) :: s)) (map wblock (concat (map stream l))) =
     (pend (us ++ filter nz (map (eval f) l)) (BS (start_word id st) :: s), concat (map (calls f) l))).
  { clear. induction l as [|c l IHl]; intros us s HF Hok; cbn [map concat].
    - cbn [bsteps filter]. rewrite app_nil_r. reflexivity.
    - inversion HF as [|? ? HF1 HF2]; subst. inversion Hok as [|? ? Ho1 Ho2]; subst.
      rewrite map_app, bsteps_app, HF1 by exact Ho1. rewrite pushv_pend, IHl by assumption.
      change (eval f c :: map (eval f) l) with ([eval f c] ++ map (eval f) l).
      rewrite filter_app, app_assoc. reflexivity. }
  cbn [stream map]. rewrite map_app. cbn [map bsteps].
  rewrite wblock_start, wblock_end by assumption. cbn [bstep].
  rewrite bsteps_app.
  specialize (G ch [] s IH Hch). cbn [pend app] in G. rewrite G.
  rewrite bsteps_one. cbn [eval calls app].
  destruct (marker_start id st Hid Hs) as (_ & S2 & _). destruct (marker_end id e Hid He) as (E1 & E2 & _).
  change (filter (fun v => negb (v =? 0)%N) (map (eval f) ch)) with (filter nz (map (eval f) ch)).
  destruct (filter nz (map (eval f) ch)) as [|u us]; cbn [pend bstep];
    unfold app_f, mk; cbn [c_id c_start c_end c_args]; rewrite E1, E2, S2; reflexivity.
Qed.

Lemma content_words bs ws : concat (map bank_content bs) = ws -> content bs = map wblock ws.
Proof.
  intros <-. unfold content. induction bs as [|b bs IH]; [reflexivity|].
  cbn [map concat]. rewrite map_app, IH. reflexivity.
Qed.

Theorem reduction_correct t banks :
  tree_ok t -> concat (map bank_content banks) = stream t ->
  exists logs2 log3,
    reduction f eb banks = Ok (eval f t, logs2, log3) /\
    Interleave (concat logs2) log3 (calls f t).
Proof.
  intros Hok Hc. destruct banks as [|b banks].
  { exfalso. destruct t as [id s e ch]. cbn in Hc. discriminate. }
  pose proof (content_words (b :: banks) (stream t) Hc) as HC.
  pose proof (bsteps_tree t Hok []) as HT. rewrite <- HC in HT.
  unfold content in HT. cbn [map concat] in HT. fold (content banks) in HT. rewrite bsteps_app in HT.
  unfold reduction. rewrite reduce_banks_conc. cbn [obind map stage3].
  change (mkS (starts (conc (nf b) (rev (nl b)))) (ends (conc (nf b) (rev (nl b))))
      (values (conc (nf b) (rev (nl b)))) (tags (conc (nf b) (rev (nl b)))) []) with (conc (nf b) []).
  assert (Hnf : bsteps [] (map wblock (bank_content b)) = (nf b, nl b)) by (unfold nf, nl; apply surjective_pairing).
  rewrite Hnf in HT.
  destruct (bsteps (nf b) (content banks)) as [s2 l2] eqn:E2.
  injection HT as Hs2 Hl.
  destruct (merge_chunks_conc banks (nf b) []) as (l3 & EM & PM).
  - apply nf_Good.
  - rewrite E2. cbn [fst]. subst s2. unfold pushv. destruct (eval f t =? 0)%N; intros [w Hw]; simpl in Hw; [exact Hw|].
    destruct Hw as [Hw|[]]. discriminate.
  - rewrite EM. cbn [obind]. rewrite E2. cbn [fst snd] in *. rewrite app_nil_r.
    exists (nl b :: map nl banks), l3. split.
    + subst s2. cbn [conc values log]. rewrite !rev_involutive.
      assert (Hv : (match rev (bvalues (pushv (eval f t) [])) with [] => 0%N | v :: _ => v end) = eval f t).
      { unfold pushv. destruct (eval f t =? 0)%N eqn:E; [cbn; lia|reflexivity]. }
      rewrite Hv. rewrite map_map. cbn [log conc].
      rewrite (map_ext (fun x => rev (rev (nl x))) nl) by (intros; apply rev_involutive). reflexivity.
    + cbn [concat]. rewrite <- Hl. rewrite <- (app_nil_l l3). apply il_app; [apply il_l|rewrite E2 in PM; exact PM].
Qed.
End A.

(** ** Without relying on back() of an empty vector: callbacks that return 0 *)
Section Zero.
Variable f : N -> N -> N -> list N -> N.
Hypothesis f0 : forall i s e l, f i s e l = 0%N.

Lemma reduce_by_end_zero eb m s : reduce_by_end_marker f eb m s = reduce_by_end_marker f (Some 0%Z) m s.
Proof.
  unfold reduce_by_end_marker. destruct (starts s); [reflexivity|]. destruct (tags s) as [|t ts]; [reflexivity|].
  cbn zeta. destruct (length (values s) <? _)%nat; [reflexivity|].
  destruct (if (t <? 1)%Z then t :: ts else ts); [reflexivity|]. rewrite f0. reflexivity.
Qed.
Lemma reduce_words_zero eb ws : forall s, reduce_words f eb ws s = reduce_words f (Some 0%Z) ws s.
Proof.
  induction ws as [|w ws IH]; intros s; [reflexivity|]. cbn [reduce_words].
  unfold reduce_word. rewrite reduce_by_end_zero.
  destruct (is_start_marker w); cbn [obind]; [apply IH|].
  destruct (starts s); cbn [obind]; [apply IH|].
  destruct (reduce_by_end_marker f (Some 0%Z) w s); cbn [obind]; [apply IH|reflexivity].
Qed.
Definition noBV (s : list block) : Prop := forall us, ~ In (BV us) s.
Lemma noBV_bsteps xs : forall s, noBV s -> noBV xs -> noBV (fst (bsteps f s xs)).
Proof.
  assert (G : forall s x, noBV s -> (forall us, x <> BV us) -> noBV (fst (bstep f s x))).
  { intros s x Hs Hx. assert (HZ : forall c, pushv (app_f f c) = fun s => s).
    { intros c. unfold pushv, app_f. rewrite f0. reflexivity. }
    destruct x as [w|w|us]; [| |exfalso; eapply Hx; reflexivity].
    - cbn [bstep fst]. intros us [K|K]; [discriminate|apply (Hs us K)].
    - destruct s as [|[st|e|us] r]; cbn [bstep].
      + intros us [K|[]]; discriminate.
      + cbn [fst]. rewrite HZ. intros us K. apply (Hs us). simpl; auto.
      + intros us [K|K]; [discriminate|apply (Hs us K)].
      + exfalso. apply (Hs us). simpl; auto. }
  induction xs as [|x xs IH]; intros s Hs Hx; cbn [bsteps fst]; [exact Hs|].
  assert (G1 : noBV (fst (bstep f s x))).
  { apply G; [exact Hs|]. intros us ->. apply (Hx us). simpl; auto. }
  destruct (bstep f s x) as [s1 l1]. cbn [fst] in G1.
  specialize (IH s1 G1). destruct (bsteps f s1 xs) as [s2 l2]. cbn [fst] in *. apply IH.
  intros us K. apply (Hx us). simpl; auto.
Qed.
Lemma merge_tags_zero eb ts : (forall t, In t ts -> t = START_MARKER \/ t = END_MARKER) -> forall ss es vs s,
  merge_tags f eb ts ss es vs s = merge_tags f (Some 0%Z) ts ss es vs s.
Proof.
  induction ts as [|t ts IH]; intros Ht ss es vs s; [reflexivity|].
  assert (IH' := IH (fun t0 H => Ht t0 (or_intror H))).
  destruct (Ht t (or_introl eq_refl)) as [-> | ->]; cbn [merge_tags].
  - change ((START_MARKER =? START_MARKER)%Z) with true. cbn match. destruct ss; [reflexivity|]. apply IH'.
  - change ((END_MARKER =? START_MARKER)%Z) with false. change ((END_MARKER =? END_MARKER)%Z) with true. cbn match.
    destruct es as [|m es]; [reflexivity|]. rewrite reduce_by_end_zero.
    destruct (reduce_by_end_marker f (Some 0%Z) m s); cbn [obind]; [apply IH'|reflexivity].
Qed.
Lemma zero_ok : exists z, Some 0%Z = Some z /\ isValueTag z = false.
Proof. exists 0%Z. split; reflexivity. Qed.

Lemma reduce_banks_zero eb bs : reduce_banks f eb bs = reduce_banks f (Some 0%Z) bs.
Proof.
  induction bs as [|b bs IH]; [reflexivity|]. cbn [reduce_banks]. unfold reduce_bank. rewrite reduce_words_zero, IH. reflexivity.
Qed.
Lemma merge_chunks_zero eb bs : forall s,
  merge_chunks f eb s (map (fun b => conc (nf f b) (rev (nl f b))) bs) =
  merge_chunks f (Some 0%Z) s (map (fun b => conc (nf f b) (rev (nl f b))) bs).
Proof.
  induction bs as [|b bs IH]; intros s; [reflexivity|]. cbn [map merge_chunks].
  unfold merge_chunk. cbn [conc tags].
  rewrite merge_tags_zero.
  - destruct (merge_tags f (Some 0%Z) _ _ _ _ s); cbn [obind]; [apply IH|reflexivity].
  - intros t Ht. apply in_rev in Ht. apply in_map_iff in Ht. destruct Ht as (x & <- & Hx).
    assert (NV : noBV (nf f b)).
    { apply noBV_bsteps; [intros us []|]. intros us K. apply in_map_iff in K. destruct K as (w & K & _).
      unfold wblock in K. destruct (is_start_marker w); discriminate. }
    destruct x as [w|w|us]; cbn [btag]; auto. exfalso. apply (NV us Hx).
Qed.
Theorem reduction_zero eb banks : reduction f eb banks = reduction f (Some 0%Z) banks.
Proof.
  unfold reduction. rewrite reduce_banks_zero. rewrite (reduce_banks_conc f (Some 0%Z) zero_ok). cbn [obind].
  destruct banks as [|b bs]; [reflexivity|]. cbn [map stage3]. rewrite merge_chunks_zero. reflexivity.
Qed.
End Zero.

Lemma stream_nonzero t : tree_ok t -> forall w, In w (stream t) -> w <> 0%N.
Proof.
  induction t as [id s e ch IH] using tree_ind'. intros (H1 & H2 & H3 & H4) w Hw.
  apply tree_ok_Forall in H4. cbn [stream] in Hw. destruct Hw as [<-|Hw]; [apply marker_start; assumption|].
  apply in_app_or in Hw as [Hw|[<-|[]]]; [|apply marker_end; assumption].
  apply in_concat in Hw as (l & Hl & Hw). apply in_map_iff in Hl as (c & <- & Hc).
  rewrite Forall_forall in *. eapply IH; eauto.
Qed.
