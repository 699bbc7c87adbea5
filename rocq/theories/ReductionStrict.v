(** When the reduction never evaluates back() on an empty vector: exactly when no value ever lies at the bottom of a stack. *)
From Coq Require Import List NArith ZArith Bool Lia ZifyBool ZifyN ZifyNat.
From Verif Require Import Marker MarkerProofs Reduction TreeSpec ReductionProofs.
Import ListNotations.

Fixpoint botV (s : list block) : bool :=
  match s with [] => false | [BV _] => true | _ :: r => botV r end.
Lemma botV_cons x y r : botV (x :: y :: r) = botV (y :: r).
Proof. destruct x; reflexivity. Qed.
Lemma botV_app s t : t <> [] -> botV (s ++ t) = botV t.
Proof.
  intros H. induction s as [|x s IH]; [reflexivity|]. cbn [app]. destruct (s ++ t) as [|y r] eqn:E.
  - apply app_eq_nil in E. tauto.
  - rewrite botV_cons. exact IH.
Qed.
Lemma botV_pushb vs s : s <> [] -> botV (pushb vs s) = botV s.
Proof.
  intros H. destruct s as [|b r]; [congruence|]. destruct b; cbn [pushb]; [apply botV_cons|apply botV_cons|].
  destruct r; [reflexivity|]. rewrite !botV_cons. reflexivity.
Qed.

Section S.
Variable f : N -> N -> N -> list N -> N.

Lemma botV_pushv v s : botV s = true -> botV (pushv v s) = true.
Proof. intros H. unfold pushv. destruct (v =? 0)%N; [exact H|]. destruct s as [|x r]; [discriminate|]. rewrite botV_pushb by discriminate. exact H. Qed.
Lemma botV_bstep s x : botV s = true -> botV (fst (bstep f s x)) = true.
Proof.
  intros H. destruct s as [|b r]; [discriminate|]. destruct x as [w|w|vs]; cbn [bstep fst].
  - rewrite botV_cons. exact H.
  - destruct b as [st|e|us].
    + cbn [fst]. destruct r as [|c r]; [discriminate|]. rewrite botV_cons in H. apply botV_pushv. exact H.
    + cbn [fst]. rewrite botV_cons. exact H.
    + destruct r as [|[st|e|us'] r]; try (cbn [fst]; rewrite botV_cons; exact H).
      cbn [fst]. rewrite botV_cons in H. destruct r as [|c r]; [discriminate|]. rewrite botV_cons in H. apply botV_pushv. exact H.
  - rewrite botV_pushb by discriminate. exact H.
Qed.
Lemma botV_bsteps xs : forall s, botV s = true -> botV (fst (bsteps f s xs)) = true.
Proof.
  induction xs as [|x xs IH]; intros s H; [exact H|]. cbn [bsteps]. pose proof (botV_bstep s x H) as G.
  destruct (bstep f s x) as [s1 l1]. specialize (IH s1 G). destruct (bsteps f s1 xs). exact IH.
Qed.

Definition Z0 := Some 0%Z.
Lemma push_value_none v s lg : botV s = false -> Good s ->
  push_value None v (conc s lg) = if botV (pushv v s) then UB else push_value Z0 v (conc s lg).
Proof.
  intros H HG. unfold push_value, pushv. destruct (v =? 0)%N; [rewrite H; reflexivity|].
  destruct s as [|b r]; [reflexivity|]. rewrite botV_pushb by discriminate. rewrite H. reflexivity.
Qed.
Lemma append_value_none vs n s lg : botV s = false -> vs <> [] ->
  append_value None vs n (conc s lg) = if botV (pushb vs s) then UB else append_value Z0 vs n (conc s lg).
Proof.
  intros H Hv. unfold append_value. destruct s as [|b r]; [reflexivity|]. rewrite botV_pushb by discriminate. rewrite H. reflexivity.
Qed.
Lemma reduce_none w s lg : Good s -> botV s = false -> ~ noBS s -> (forall a r, s <> BE a :: r) ->
  reduce_by_end_marker f None w (conc s lg) =
  if botV (fst (bstep f s (BE w))) then UB else reduce_by_end_marker f Z0 w (conc s lg).
Proof.
  intros HG HV HN HE. destruct (Good_top s HG HN HE) as [(st & r & ->)|(us & st & r & ->)].
  - cbn [Good] in HG. assert (V : botV r = false) by (destruct r; [reflexivity|rewrite botV_cons in HV; exact HV]).
    cbn [bstep fst]. exact (push_value_none (app_f f (mk w st [])) r (mk w st [] :: lg) V HG).
  - cbn [Good] in HG. destruct HG as (Hu & _ & HG). cbn [bstep fst]. rewrite botV_cons in HV.
    assert (V : botV r = false) by (destruct r; [reflexivity|rewrite botV_cons in HV; exact HV]).
    pose proof (push_value_none (app_f f (mk w st us)) r (mk w st us :: lg) V HG) as P. revert P.
    unfold reduce_by_end_marker. cbn [conc starts tags bstarts flat_map app map btag].
    assert ((Z.of_nat (length us) <? 1)%Z = false) as ->.
    { destruct us; [congruence|]. cbn [length]. lia. }
    rewrite Nat2Z.id. cbn [conc values bvalues flat_map app].
    assert (length (rev us ++ flat_map (fun b => match b with BV vs => rev vs | _ => [] end) r) <? length us = false)%nat as ->.
    { rewrite app_length, rev_length. lia. }
    replace (length us) with (length (rev us)) by apply rev_length.
    rewrite firstn_app, skipn_app, firstn_all, skipn_all, Nat.sub_diag. cbn [firstn skipn app].
    rewrite app_nil_r, rev_involutive. intros P. exact P.
Qed.
Lemma reduce_word_none w s lg : Good s -> botV s = false ->
  reduce_word f None w (conc s lg) = if botV (fst (bstep f s (wblock w))) then UB else reduce_word f Z0 w (conc s lg).
Proof.
  intros HG HV. unfold reduce_word, wblock. destruct (is_start_marker w).
  { cbn [bstep fst]. destruct s; [reflexivity|]. rewrite botV_cons, HV. reflexivity. }
  cbn [conc starts]. destruct (bstarts s) as [|st l] eqn:E.
  - apply (noBS_starts f) in E. rewrite noBS_BE by exact E. cbn [fst]. assert (botV (BE w :: s) = false) as -> by (destruct s; [reflexivity|rewrite botV_cons; exact HV]). reflexivity.
  - apply reduce_none; [exact HG|exact HV| |].
    + intros K. apply (noBS_starts f) in K. congruence.
    + intros a r ->. cbn [Good] in HG. destruct HG as [K _]. apply (noBS_starts f) in K.
      cbn [bstarts flat_map app] in E. unfold bstarts in K. congruence.
Qed.
Lemma z0_ok : exists z, Z0 = Some z /\ isValueTag z = false.
Proof. exists 0%Z. split; reflexivity. Qed.
Lemma reduce_words_none ws : forall s lg, Good s -> botV s = false ->
  reduce_words f None ws (conc s lg) = if botV (fst (bsteps f s (map wblock ws))) then UB else reduce_words f Z0 ws (conc s lg).
Proof.
  induction ws as [|w ws IH]; intros s lg HG HV; cbn [reduce_words map bsteps]; [cbn [fst]; rewrite HV; reflexivity|].
  rewrite reduce_word_none by assumption. rewrite (reduce_word_conc f Z0 z0_ok) by exact HG.
  assert (G : Good (fst (bstep f s (wblock w)))).
  { apply bstep_Good; [|exact HG]. unfold wblock; destruct (is_start_marker w); exact I. }
  pose proof (botV_bsteps (map wblock ws) (fst (bstep f s (wblock w)))) as B.
  destruct (bstep f s (wblock w)) as [s1 l1]. cbn [fst snd] in *.
  destruct (botV s1) eqn:V1.
  - specialize (B eq_refl). destruct (bsteps f s1 (map wblock ws)). cbn [fst] in *. rewrite B. reflexivity.
  - cbn [obind]. rewrite IH by assumption. destruct (bsteps f s1 (map wblock ws)). reflexivity.
Qed.
Lemma merge_tags_none bs : forall s lg, Forall okb bs -> Good s -> botV s = false -> ~ hasBE (fst (bsteps f s bs)) ->
  merge_tags f None (map btag bs)
    (flat_map (fun b => rev (match b with BS w => [w] | _ => [] end)) bs)
    (flat_map (fun b => rev (match b with BE w => [w] | _ => [] end)) bs)
    (flat_map (fun b => rev (match b with BV vs => rev vs | _ => [] end)) bs) (conc s lg) =
  if botV (fst (bsteps f s bs)) then UB else Ok (conc (fst (bsteps f s bs)) (rev (snd (bsteps f s bs)) ++ lg)).
Proof.
  induction bs as [|b bs IH]; intros s lg Hok HG HV HB; [cbn; rewrite HV; reflexivity|].
  inversion Hok as [|? ? H1 H2]; subst.
  assert (HG1 := bstep_Good f s b H1 HG).
  assert (HB1 : ~ hasBE (fst (bstep f s b))).
  { intros K. apply HB. cbn [bsteps]. destruct (bstep f s b) as [s1 l1]. cbn [fst] in K.
    pose proof (hasBE_bsteps f s1 bs K) as Q. destruct (bsteps f s1 bs). exact Q. }
  pose proof (botV_bsteps bs (fst (bstep f s b))) as BV'.
  cbn [bsteps] in HB |- *.
  destruct b as [w|w|vs]; cbn [map btag flat_map rev app].
  - cbn [merge_tags]. change ((START_MARKER =? START_MARKER)%Z) with true. cbn match.
    cbn [bstep] in *. cbn [fst] in *.
    change (push_start_marker w (conc s lg)) with (conc (BS w :: s) lg).
    assert (V1 : botV (BS w :: s) = false) by (destruct s; [reflexivity|rewrite botV_cons; exact HV]).
    specialize (IH (BS w :: s) lg H2 HG1 V1).
    destruct (bsteps f (BS w :: s) bs) as [s2 l2]. cbn [fst snd app] in *. apply IH; exact HB.
  - cbn [merge_tags]. change ((END_MARKER =? START_MARKER)%Z) with false.
    change ((END_MARKER =? END_MARKER)%Z) with true. cbn match.
    assert (HN : ~ noBS s).
    { intros K. apply HB1. rewrite noBS_BE by exact K. exists w. simpl; auto. }
    assert (HT : forall a r, s <> BE a :: r).
    { intros a r ->. apply HN. cbn [Good] in HG. intros w' [K|K]; [discriminate|]. destruct HG as [Q _]. apply (Q w' K). }
    rewrite reduce_none by assumption. rewrite (reduce_conc f Z0 z0_ok) by assumption.
    destruct (bstep f s (BE w)) as [s1 l1]. cbn [fst snd] in *.
    destruct (botV s1) eqn:V1.
    + specialize (BV' eq_refl). destruct (bsteps f s1 bs). cbn [fst] in *. rewrite BV'. reflexivity.
    + cbn [obind]. specialize (IH s1 (rev l1 ++ lg) H2 HG1 V1).
      destruct (bsteps f s1 bs) as [s2 l2]. cbn [fst snd] in *. rewrite IH by exact HB.
      rewrite rev_app_distr, app_assoc. reflexivity.
  - cbn [okb] in H1. cbn [merge_tags].
    assert ((Z.of_nat (length vs) =? START_MARKER)%Z = false) as -> by (unfold START_MARKER; lia).
    assert ((Z.of_nat (length vs) =? END_MARKER)%Z = false) as ->.
    { unfold END_MARKER. destruct vs; [congruence|]. cbn [length]. lia. }
    cbn zeta. rewrite Nat2Z.id, !rev_involutive.
    rewrite app_length.
    assert ((length vs + length (flat_map (fun b => rev (match b with BV vs0 => rev vs0 | _ => [] end)) bs) <? length vs)%nat = false) as -> by lia.
    rewrite firstn_app, skipn_app, firstn_all, skipn_all, Nat.sub_diag. cbn [firstn skipn app]. rewrite app_nil_r.
    rewrite append_value_none by assumption. rewrite (append_value_conc f Z0 z0_ok) by assumption.
    cbn [bstep] in *. cbn [fst snd] in *. destruct (botV (pushb vs s)) eqn:V1.
    + specialize (BV' eq_refl). destruct (bsteps f (pushb vs s) bs). cbn [fst] in *. rewrite BV'. reflexivity.
    + cbn [obind]. specialize (IH (pushb vs s) lg H2 HG1 V1).
      destruct (bsteps f (pushb vs s) bs) as [s2 l2]. cbn [fst snd app] in *. apply IH; exact HB.
Qed.
Lemma merge_chunk_none s lg t lt : Good s -> Good t -> botV s = false -> ~ hasBE (F f s t) ->
  merge_chunk f None (conc s lg) (conc t lt) = if botV (F f s t) then UB else Ok (conc (F f s t) (rev (L f s t) ++ lg)).
Proof.
  intros HG HT HV HB. unfold merge_chunk. cbn [conc tags starts ends values].
  unfold bstarts, bends, bvalues. rewrite !rev_flat_map, <- map_rev.
  apply merge_tags_none; [|exact HG|exact HV|exact HB].
  apply Forall_rev. apply (Good_okb f). exact HT.
Qed.
Lemma reduce_bank_none b : reduce_bank f None b = if botV (nf f b) then UB else reduce_bank f Z0 b.
Proof.
  unfold reduce_bank. change empty_stacks with (conc [] []). rewrite reduce_words_none by (try exact I; reflexivity). reflexivity.
Qed.
Lemma reduce_banks_none bs : reduce_banks f None bs = if existsb (fun b => botV (nf f b)) bs then UB else reduce_banks f Z0 bs.
Proof.
  induction bs as [|b bs IH]; [reflexivity|]. cbn [reduce_banks existsb]. rewrite reduce_bank_none, IH.
  destruct (botV (nf f b)); [reflexivity|]. cbn [orb]. rewrite (reduce_bank_conc f Z0 z0_ok). cbn [obind].
  destruct (existsb (fun b0 => botV (nf f b0)) bs); reflexivity.
Qed.
Lemma merge_chunks_none bs : forall s lg, Good s -> botV s = false -> ~ hasBE (fst (bsteps f s (content bs))) ->
  merge_chunks f None (conc s lg) (map (fun b => conc (nf f b) (rev (nl f b))) bs) =
  if botV (fst (bsteps f s (content bs))) then UB else merge_chunks f Z0 (conc s lg) (map (fun b => conc (nf f b) (rev (nl f b))) bs).
Proof.
  induction bs as [|b bs IH]; intros s lg HG HV HB.
  - cbn. rewrite HV. reflexivity.
  - unfold content in *. cbn [map concat] in *. fold (content bs) in *.
    rewrite bsteps_app in *.
    destruct (confluence f s (map wblock (bank_content b))) as [C1 _].
    fold (nf f b) in C1.
    destruct (bsteps f s (map wblock (bank_content b))) as [s1 l1]. cbn [fst snd] in C1.
    assert (HG1 : Good (F f s (nf f b))).
    { unfold F. apply bsteps_Good; [|exact HG]. apply Forall_rev, (Good_okb f), nf_Good. }
    subst s1.
    assert (HB1 : ~ hasBE (F f s (nf f b))).
    { intros K. apply HB. pose proof (hasBE_bsteps f (F f s (nf f b)) (content bs) K) as Q.
      destruct (bsteps f (F f s (nf f b)) (content bs)). exact Q. }
    cbn [merge_chunks]. rewrite merge_chunk_none by (auto using nf_Good).
    rewrite (merge_chunk_conc f Z0 z0_ok) by (auto using nf_Good).
    pose proof (botV_bsteps (content bs) (F f s (nf f b))) as B.
    destruct (botV (F f s (nf f b))) eqn:V1.
    + specialize (B eq_refl). destruct (bsteps f (F f s (nf f b)) (content bs)). cbn [fst obind] in *. rewrite B. reflexivity.
    + cbn [obind]. specialize (IH (F f s (nf f b)) (rev (L f s (nf f b)) ++ lg) HG1 V1). unfold content in IH. fold (content bs) in IH.
      destruct (bsteps f (F f s (nf f b)) (content bs)) as [s2 l2]. cbn [fst] in *. apply IH. exact HB.
Qed.

Theorem reduction_none t banks : tree_ok t -> concat (map bank_content banks) = stream t ->
  reduction f None banks =
  if orb (negb (eval f t =? 0)%N) (existsb (fun b => botV (nf f b)) banks) then UB else reduction f Z0 banks.
Proof.
  intros Hok Hc. destruct banks as [|b banks].
  { exfalso. destruct t as [id s e ch]. cbn in Hc. discriminate. }
  unfold reduction. rewrite reduce_banks_none.
  destruct (existsb (fun b0 => botV (nf f b0)) (b :: banks)) eqn:Ex; [rewrite orb_true_r; reflexivity|]. rewrite orb_false_r.
  pose proof (content_words (b :: banks) (stream t) Hc) as HC.
  pose proof (bsteps_tree f t Hok []) as HT. rewrite <- HC in HT.
  unfold content in HT. cbn [map concat] in HT. fold (content banks) in HT. rewrite bsteps_app in HT.
  rewrite (reduce_banks_conc f Z0 z0_ok). cbn [obind map stage3].
  change (mkS (starts (conc (nf f b) (rev (nl f b)))) (ends (conc (nf f b) (rev (nl f b))))
      (values (conc (nf f b) (rev (nl f b)))) (tags (conc (nf f b) (rev (nl f b)))) []) with (conc (nf f b) []).
  assert (Hnf : bsteps f [] (map wblock (bank_content b)) = (nf f b, nl f b)) by (unfold nf, nl; apply surjective_pairing).
  rewrite Hnf in HT.
  cbn [existsb] in Ex. apply orb_false_iff in Ex as [Ex _].
  assert (HN : ~ hasBE (fst (bsteps f (nf f b) (content banks)))).
  { destruct (bsteps f (nf f b) (content banks)) as [s2 l2]. injection HT as -> _. cbn [fst]. unfold pushv.
    destruct (eval f t =? 0)%N; intros [w Hw]; simpl in Hw; [exact Hw|]. destruct Hw as [Hw|[]]. discriminate. }
  rewrite merge_chunks_none; [|apply nf_Good|exact Ex|exact HN].
  assert (E : fst (bsteps f (nf f b) (content banks)) = pushv (eval f t) []).
  { destruct (bsteps f (nf f b) (content banks)). injection HT as -> _. reflexivity. }
  rewrite E. unfold pushv. destruct (eval f t =? 0)%N; reflexivity.
Qed.

(** ** What it means for a bank *)
Lemma bsteps_forest_zero ts : forall s, Forall tree_ok ts -> Forall (fun t => eval f t = 0%N) ts ->
  fst (bsteps f s (map wblock (concat (map stream ts)))) = s.
Proof.
  induction ts as [|t ts IH]; intros s H1 H2; [reflexivity|]. inversion H1; subst. inversion H2 as [|? ? E H2']; subst.
  cbn [map concat]. rewrite map_app, bsteps_app, bsteps_tree by assumption. rewrite E. unfold pushv. cbn [N.eqb].
  specialize (IH s ltac:(assumption) H2'). destruct (bsteps f s (map wblock (concat (map stream ts)))). exact IH.
Qed.
Definition bad_words (ws : list N) : Prop := exists ts t' rest,
  ws = concat (map stream ts) ++ stream t' ++ rest /\ Forall tree_ok ts /\ tree_ok t' /\
  Forall (fun t => eval f t = 0%N) ts /\ eval f t' <> 0%N.
Lemma bad_botV ws : bad_words ws -> botV (fst (bsteps f [] (map wblock ws))) = true.
Proof.
  intros (ts & t' & rest & -> & H1 & H2 & H3 & H4). rewrite !map_app, bsteps_app.
  pose proof (bsteps_forest_zero ts [] H1 H3) as Z. destruct (bsteps f [] (map wblock (concat (map stream ts)))) as [s1 l1]. cbn [fst] in Z. subst s1.
  rewrite bsteps_app, bsteps_tree by exact H2. pose proof (botV_bsteps (map wblock rest) (pushv (eval f t') [])) as B.
  destruct (bsteps f (pushv (eval f t') []) (map wblock rest)). cbn [fst] in *. apply B.
  unfold pushv. destruct (eval f t' =? 0)%N eqn:E; [apply N.eqb_eq in E; congruence|reflexivity].
Qed.

(** The ids of the open start markers, with matching checked; end markers of nodes opened earlier are let through. *)
Fixpoint mrun (st : list N) (ws : list N) : option (list N) :=
  match ws with
  | [] => Some st
  | w :: r => if is_start_marker w then mrun (get_machine_id w :: st) r
              else match st with
                   | [] => mrun [] r
                   | i :: st' => if (get_machine_id w =? i)%N then mrun st' r else None
                   end
  end.
Lemma mrun_app xs : forall st ys, mrun st (xs ++ ys) = match mrun st xs with Some st' => mrun st' ys | None => None end.
Proof.
  induction xs as [|x xs IH]; intros st ys; [reflexivity|]. cbn [app mrun]. destruct (is_start_marker x); [apply IH|].
  destruct st as [|i st]; [apply IH|]. destruct (_ =? _)%N; [apply IH|reflexivity].
Qed.
Lemma mrun_rel ws : forall rel tl r, mrun (rel ++ tl) ws = Some r -> exists rel' tl', r = rel' ++ tl' /\ mrun rel ws = Some rel'.
Proof.
  induction ws as [|w ws IH]; intros rel tl r H; [injection H as <-; eauto|]. cbn [mrun] in *.
  destruct (is_start_marker w).
  - exact (IH (get_machine_id w :: rel) tl r H).
  - destruct rel as [|i rel].
    + cbn [app] in H. destruct tl as [|j tl]; [exact (IH [] [] r H)|]. destruct (_ =? _)%N; [|discriminate].
      exact (IH [] tl r H).
    + cbn [app] in H. destruct (_ =? _)%N; [|discriminate]. exact (IH rel tl r H).
Qed.
Lemma mrun_tree t : tree_ok t -> forall st, mrun st (stream t) = Some st.
Proof.
  induction t as [id s e ch IH] using tree_ind'. intros (H1 & H2 & H3 & H4) st. apply tree_ok_Forall in H4.
  assert (G : forall st, mrun st (concat (map stream ch)) = Some st).
  { clear -IH H4. induction ch as [|c ch IHc]; intros st; [reflexivity|]. inversion IH as [|? ? I1 I2]; inversion H4 as [|? ? O1 O2]; subst.
    cbn [map concat]. rewrite mrun_app, I1 by exact O1. apply IHc; assumption. }
  cbn [stream mrun]. destruct (marker_start id s H1 H2) as (E1 & _ & _ & -> & _). rewrite E1, mrun_app, G. cbn [mrun].
  destruct (marker_end id e H1 H3) as (E2 & _ & _ & -> & _). rewrite E2, N.eqb_refl. reflexivity.
Qed.
Lemma mrun_factor t pre ws post : tree_ok t -> stream t = pre ++ ws ++ post -> exists st, mrun [] ws = Some st.
Proof.
  intros H E. pose proof (mrun_tree t H []) as M. rewrite E, mrun_app in M. destruct (mrun [] pre) as [s1|]; [|discriminate].
  rewrite mrun_app in M. destruct (mrun s1 ws) as [s2|] eqn:M2; [|discriminate].
  destruct (mrun_rel ws [] s1 s2 M2) as (rel & tl & _ & R). eauto.
Qed.
(** Words of a stream are encodings. *)
Definition encoded (w : N) : Prop := exists id off, (1 <= id < 2 ^ 15)%N /\ (off < 2 ^ 48)%N /\ (w = start_word id off \/ w = end_word id off).
Lemma stream_encoded t : tree_ok t -> Forall encoded (stream t).
Proof.
  induction t as [id s e ch IH] using tree_ind'. intros (H1 & H2 & H3 & H4). apply tree_ok_Forall in H4. cbn [stream]. constructor.
  - exists id, s. auto.
  - apply Forall_app. split; [|constructor; [exists id, e; auto|constructor]].
    clear -IH H4. induction ch as [|c ch IHc]; [constructor|]. inversion IH; inversion H4; subst. cbn [map concat]. apply Forall_app. auto.
Qed.

(** Items of a stack with the words they come from. *)
Inductive gi := IS (w : N) | IE (w : N) | IT (t : tree).
Definition giw (x : gi) : list N := match x with IS w => [w] | IE w => [w] | IT t => stream t end.
Definition gwords (g : list gi) : list N := concat (map giw (rev g)).
Fixpoint gids (g : list gi) : list N := match g with [] => [] | IS w :: r => get_machine_id w :: gids r | _ :: r => gids r end.
Fixpoint gblocks (g : list gi) : list block :=
  match g with [] => [] | IS w :: r => BS w :: gblocks r | IE w :: r => BE w :: gblocks r | IT t :: r => pushv (eval f t) (gblocks r) end.
Definition gok (x : gi) : Prop := match x with IS w => encoded w /\ is_start_marker w = true | IE w => encoded w | IT t => tree_ok t end.
Lemma peel_i g : exists us rest, g = map IT us ++ rest /\ (forall t r, rest <> IT t :: r).
Proof.
  induction g as [|[w|w|t] g IH].
  - exists [], []. split; [reflexivity|discriminate].
  - exists [], (IS w :: g). split; [reflexivity|discriminate].
  - exists [], (IE w :: g). split; [reflexivity|discriminate].
  - destruct IH as (us & rest & -> & H). exists (t :: us), rest. split; [reflexivity|exact H].
Qed.
Lemma gids_trees us rest : gids (map IT us ++ rest) = gids rest.
Proof. induction us; [reflexivity|exact IHus]. Qed.
Lemma gids_BS g : gids g = [] -> noBS (gblocks g).
Proof.
  induction g as [|[w|w|t] g IH]; intros H u Hu; cbn [gids gblocks] in *.
  - exact Hu.
  - discriminate.
  - destruct Hu as [Hu|Hu]; [discriminate|]. exact (IH H u Hu).
  - unfold pushv in Hu. destruct (eval f t =? 0)%N; [exact (IH H u Hu)|]. destruct (gblocks g) as [|[a|a|us] r] eqn:E; cbn [pushb] in Hu; simpl in Hu.
    + destruct Hu as [Hu|[]]. discriminate.
    + apply (IH H a). simpl; auto.
    + destruct Hu as [Hu|[Hu|Hu]]; try discriminate. apply (IH H u). simpl; auto.
    + destruct Hu as [Hu|Hu]; [discriminate|]. apply (IH H u). simpl; auto.
Qed.
Lemma gids_none g : gids g = [] -> forall w, bstep f (gblocks g) (BE w) = (BE w :: gblocks g, []).
Proof. intros H w. apply noBS_BE. apply gids_BS. exact H. Qed.

(** An end marker is only kept when no start marker is open, so below it there is none. *)
Fixpoint gw (g : list gi) : Prop := match g with [] => True | IE _ :: r => gids r = [] /\ gw r | _ :: r => gw r end.

Lemma items ws : Forall encoded ws -> forall st, mrun [] ws = Some st ->
  exists g, Forall gok g /\ gw g /\ gwords g = ws /\ gids g = st /\ fst (bsteps f [] (map wblock ws)) = gblocks g.
Proof.
  induction ws as [|w ws IH] using rev_ind; intros He st Hm.
  { exists []. injection Hm as <-. repeat split. constructor. }
  apply Forall_app in He as [He1 He2]. inversion He2 as [|? ? Ew _]; subst. rewrite mrun_app in Hm.
  destruct (mrun [] ws) as [s1|] eqn:M; [|discriminate].
  destruct (IH He1 s1 eq_refl) as (g & G1 & G2 & G3 & G4 & G5). clear IH.
  rewrite map_app, bsteps_app. destruct (bsteps f [] (map wblock ws)) as [bs ls]. cbn [fst] in G5. subst bs.
  cbn [map]. rewrite bsteps_one. cbn [mrun] in Hm.
  assert (NEW : forall x, giw x = [w] -> gwords (x :: g) = ws ++ [w]).
  { intros x E. unfold gwords. cbn [rev]. rewrite map_app, concat_app. fold (gwords g). rewrite G3. cbn. rewrite E. reflexivity. }
  unfold wblock at 1. destruct (is_start_marker w) eqn:Sw.
  - injection Hm as <-. exists (IS w :: g). split; [constructor; [split; assumption|exact G1]|]. split; [exact G2|].
    split; [apply NEW; reflexivity|]. split; [cbn [gids]; rewrite G4; reflexivity|]. reflexivity.
  - destruct s1 as [|i s1].
    + injection Hm as <-. exists (IE w :: g). split; [constructor; assumption|]. split; [split; assumption|].
      split; [apply NEW; reflexivity|]. split; [exact G4|]. rewrite gids_none by exact G4. reflexivity.
    + destruct (get_machine_id w =? i)%N eqn:Ei; [|discriminate]. apply N.eqb_eq in Ei. injection Hm as <-.
      destruct (peel_i g) as (us & rest & -> & Hr). rewrite gids_trees in G4.
      destruct rest as [|[a|a|t] r]; [discriminate| | |exfalso; eapply Hr; reflexivity].
      2:{ exfalso. cbn [gids] in G4. assert (K : gids r = []). { clear -G2. induction us as [|u us IH]; [exact (proj1 G2)|apply IH; exact G2]. } congruence. }
      cbn [gids] in G4. injection G4 as Ea Er. subst s1.
      apply Forall_app in G1 as [Gu Gr]. pose proof (Forall_inv_tail Gr) as Gr'. destruct (Forall_inv Gr) as [Ea' Sa].
      assert (Tu : Forall tree_ok us). { apply Forall_forall. intros u Hu. rewrite Forall_forall in Gu. exact (Gu (IT u) (in_map IT us u Hu)). }
      destruct Ea' as (ida & offa & Ia & Oa & Wa). destruct Wa as [Wa|Wa].
      2:{ exfalso. rewrite Wa in Sa. destruct (marker_end ida offa Ia Oa) as (_ & _ & _ & X & _). congruence. }
      destruct Ew as (idw & offw & Iw & Ow & Ww). destruct Ww as [Ww|Ww].
      { exfalso. rewrite Ww in Sw. destruct (marker_start idw offw Iw Ow) as (_ & _ & _ & X & _). congruence. }
      destruct (marker_start ida offa Ia Oa) as (A1 & A2 & _). destruct (marker_end idw offw Iw Ow) as (B1 & B2 & _).
      assert (ida = idw) by (rewrite Wa, A1 in Ea; rewrite Ww, B1 in Ei; congruence). subst ida.
      set (nt := Node idw offa offw (rev us)).
      assert (NT : tree_ok nt). { cbn [tree_ok nt]. split; [exact Iw|]. split; [exact Oa|]. split; [exact Ow|]. apply tree_ok_Forall. apply Forall_rev. exact Tu. }
      assert (SN : stream nt = [a] ++ concat (map giw (map IT (rev us))) ++ [w]).
      { cbn [stream nt]. rewrite Wa, Ww, map_map. reflexivity. }
      exists (IT nt :: r). split; [constructor; [exact NT|exact Gr']|].
      split. { cbn [gw]. clear -G2. induction us as [|u us IH]; [exact G2|apply IH; exact G2]. }
      split. { rewrite <- G3. unfold gwords. cbn [rev]. rewrite rev_app_distr. cbn [rev]. rewrite !map_app, !concat_app. cbn [map concat giw]. rewrite SN, !app_nil_r, <- map_rev, <- !app_assoc. reflexivity. }
      split; [reflexivity|].
      (* the block step *)
      cbn [gblocks].
      assert (P : forall us s, Forall tree_ok us -> gblocks (map IT us ++ r) = s -> True) by auto. clear P.
      assert (K : gblocks (map IT us ++ IS a :: r) = fst (bsteps f (gblocks (IS a :: r)) (map wblock (concat (map stream (rev us)))))).
      { clear -Tu. induction us as [|u us IH]; [reflexivity|]. inversion Tu; subst. cbn [map app gblocks rev]. rewrite IH by assumption.
        rewrite map_app, concat_app, map_app, bsteps_app. cbn [gblocks map concat]. rewrite (app_nil_r (stream u)). destruct (bsteps f (BS a :: gblocks r) (map wblock (concat (map stream (rev us))))) as [s l]. cbn [fst]. rewrite bsteps_tree by assumption. reflexivity. }
      rewrite K. pose proof (bsteps_tree f nt NT (gblocks r)) as B. cbn [stream nt] in B. cbn [map] in B. rewrite wblock_start in B by assumption.
      cbn [bsteps bstep] in B. rewrite map_app in B. cbn [map] in B. rewrite wblock_end, bsteps_app in B by assumption.
      cbn [gblocks]. rewrite <- Wa, <- Ww in B.
      destruct (bsteps f (BS a :: gblocks r) (map wblock (concat (map stream (rev us))))) as [s2 l2]. rewrite bsteps_one in B.
      cbn [fst]. destruct (bstep f s2 (BE w)) as [s3 l3]. injection B as B _. cbn [fst]. exact B.
Qed.

Lemma gblocks_botV g : botV (gblocks g) = true -> exists ts t' rest, rev g = map IT ts ++ IT t' :: rest /\
  Forall (fun t => eval f t = 0%N) ts /\ eval f t' <> 0%N.
Proof.
  induction g as [|x g IH]; intros H; [discriminate|].
  assert (D : botV (gblocks g) = true \/ (gblocks g = [] /\ exists t, x = IT t /\ eval f t <> 0%N)).
  { destruct x as [w|w|t]; cbn [gblocks] in H.
    - destruct (gblocks g) eqn:E; [discriminate|]. rewrite botV_cons in H. auto.
    - destruct (gblocks g) eqn:E; [discriminate|]. rewrite botV_cons in H. auto.
    - unfold pushv in H. destruct (eval f t =? 0)%N eqn:E; [auto|]. destruct (gblocks g) eqn:Eg.
      + right. split; [reflexivity|]. exists t. split; [reflexivity|]. apply N.eqb_neq. exact E.
      + left. rewrite botV_pushb in H by discriminate. exact H. }
  destruct D as [D|(D & t & -> & E)].
  - destruct (IH D) as (ts' & t'' & rest' & E' & R'). exists ts', t'', (rest' ++ [x]). cbn [rev]. split; [rewrite E', <- app_assoc; reflexivity|exact R'].
  - assert (Z : exists ts, rev g = map IT ts /\ Forall (fun t => eval f t = 0%N) ts).
    { clear -D. induction g as [|y g IHg]; [exists []; split; [reflexivity|constructor]|]. destruct y as [w|w|u]; [discriminate|discriminate|].
      cbn [gblocks] in D. unfold pushv in D. destruct (eval f u =? 0)%N eqn:E.
      - destruct (IHg D) as (ts & E1 & E2). exists (ts ++ [u]). cbn [rev]. rewrite E1, map_app. split; [reflexivity|]. apply Forall_app. split; [exact E2|]. constructor; [apply N.eqb_eq; exact E|constructor].
      - destruct (gblocks g) as [|[]]; discriminate. }
    destruct Z as (ts & E1 & E2). exists ts, t, []. cbn [rev]. rewrite E1. auto.
Qed.
Lemma botV_bad t pre ws post : tree_ok t -> stream t = pre ++ ws ++ post ->
  botV (fst (bsteps f [] (map wblock ws))) = true -> bad_words ws.
Proof.
  intros Ht E H. destruct (mrun_factor t pre ws post Ht E) as (st & M).
  assert (EN : Forall encoded ws). { pose proof (stream_encoded t Ht) as S. rewrite E in S. apply Forall_app in S as [_ S]. apply Forall_app in S as [S _]. exact S. }
  destruct (items ws EN st M) as (g & G1 & _ & G3 & _ & G5). rewrite G5 in H.
  destruct (gblocks_botV g H) as (ts & t' & rest & R & Z & N0).
  assert (GR : Forall gok (rev g)) by (apply Forall_rev; exact G1). rewrite R in GR. apply Forall_app in GR as [GT GR]. inversion GR as [|? ? G' _]; subst.
  exists ts, t', (concat (map giw rest)). split.
  { unfold gwords. rewrite R, map_app, concat_app, map_map. reflexivity. }
  split; [|split; [exact G'|split; assumption]]. apply Forall_forall. intros u Hu. rewrite Forall_forall in GT. exact (GT (IT u) (in_map IT ts u Hu)).
Qed.

Theorem strict_exact t banks : tree_ok t -> concat (map bank_content banks) = stream t ->
  reduction f None banks = UB <-> eval f t <> 0%N \/ exists b, In b banks /\ bad_words (bank_content b).
Proof.
  intros Ht Hc. rewrite (reduction_none t banks Ht Hc).
  destruct (reduction_correct f Z0 z0_ok t banks Ht Hc) as (l2 & l3 & R & _).
  destruct (negb (eval f t =? 0)%N || existsb (fun b => botV (nf f b)) banks) eqn:E.
  - split; [intros _|reflexivity]. apply orb_true_iff in E as [E|E].
    + left. apply negb_true_iff, N.eqb_neq in E. exact E.
    + right. apply existsb_exists in E as (b & Hb & B). exists b. split; [exact Hb|].
      apply in_split in Hb as (p & q & ->). rewrite map_app, concat_app in Hc. cbn [map concat] in Hc.
      apply (botV_bad t (concat (map bank_content p)) (bank_content b) (concat (map bank_content q)) Ht (eq_sym Hc) B).
  - rewrite R. split; [discriminate|]. apply orb_false_iff in E as [E1 E2]. apply negb_false_iff, N.eqb_eq in E1.
    intros [K|(b & Hb & B)]; [contradiction|]. apply bad_botV in B. exfalso.
    assert (existsb (fun b0 => botV (nf f b0)) banks = true) by (apply existsb_exists; exists b; split; [exact Hb|exact B]). congruence.
Qed.
End S.
