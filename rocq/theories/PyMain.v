(** The whole reduction of the Python mode. *)
From Coq Require Import List NArith ZArith Bool Lia Arith Cantor ZifyBool ZifyN ZifyNat.
From Verif Require Import Marker MarkerProofs Reduction TreeSpec ReductionProofs PyReduction PySpec PyProofs PyBank.
Import ListNotations.
Local Open Scope nat_scope.

Lemma stream_pos t a b : tree_ok t -> stream t = a ++ b -> a <> [] -> b <> [] -> (1 <= level a)%Z.
Proof.
  destruct t as [id s e ch]. intros (H1 & H2 & H3 & H4) E Na Nb. apply tree_ok_Forall in H4.
  assert (G : exists d, between (concat (map stream ch)) d /\ level (concat (map stream ch)) = 0%Z).
  { clear - H4. induction H4 as [|c ch O _ [d [B L]]]; [exists 0; split; [apply between_nil|reflexivity]|].
    destruct (stream_level c O) as [B' L']. exists (Nat.max (depth c) d). cbn [map concat]. split; [|rewrite level_app; lia].
    apply between_app; [eapply between_mono; [|exact B']; lia|exact L'|eapply between_mono; [|exact B]; lia]. }
  destruct G as (d & G1 & G2). pose proof (marker_start id s H1 H2) as (_&_&_&WS&_).
  destruct a as [|x a]; [congruence|]. cbn [stream app] in E. injection E as <- E. unfold level. cbn [fold_right]. rewrite WS. fold (level a).
  destruct b as [|y b] using rev_ind; [congruence|]. clear IHb. rewrite app_assoc in E. apply app_inj_tail in E as [E _]. specialize (G1 a b E). lia.
Qed.
Lemma scan_pos ws : forall pre, (forall a b, ws = a ++ b -> (1 <= level (pre ++ a))%Z) ->
  (level pre + level ws = level pre - Z.of_nat (fst (scan ws)) + Z.of_nat (snd (scan ws)) /\ Z.of_nat (fst (scan ws)) + 1 <= level pre)%Z.
Proof.
  intros pre. induction ws as [|w ws IH] using rev_ind; intros B.
  - specialize (B [] [] eq_refl). rewrite app_nil_r in B. cbn. lia.
  - destruct IH as [I1 I2]; [intros a b E; apply (B a (b ++ [w])); rewrite app_assoc, <- E; reflexivity|].
    pose proof (B (ws ++ [w]) [] ltac:(rewrite app_nil_r; reflexivity)) as L.
    rewrite !level_app in L. rewrite !level_app. unfold scan in *. rewrite fold_left_app. cbn [fold_left]. destruct (fold_left scan1 ws (0, 0)) as [e s]. cbn [fst snd] in *.
    unfold level at 3 in L. unfold level at 3. cbn [fold_right] in *. unfold scan1. destruct (is_start_marker w); cbn [fst snd]; [lia|]. destruct s; cbn [fst snd]; lia.
Qed.

Section Main.
Context {V : Type}.
Variable h : N -> N -> N -> list V -> option V.
Variable f : N -> N -> N -> list N -> N.
Variable R : N -> V -> Prop.
Hypothesis HR : forall id s e args vs, Forall2 R args vs ->
  match h id s e vs with None => f id s e args = 0%N | Some v => f id s e args <> 0%N /\ R (f id s e args) v end.
Variable eb : option Z.
Hypothesis eb_ok : exists z, eb = Some z /\ isValueTag z = false.
Notation crel := (crel R). Notation rel := (rel R). Notation rel2 := (rel2 R).

Lemma bank_run b : exists p, p_words h eb (bank_content b) p_empty = Ok p /\ rel2 (conc (nf f b) (rev (nl f b))) p.
Proof.
  apply (words_rel h f R HR eb (bank_content b) empty_stacks p_empty).
  - split; [|split; reflexivity]. repeat split; [constructor|]. exists [], []. repeat split; constructor.
  - exact (reduce_bank_conc f eb eb_ok b).
Qed.
(** room for whatever the bank leaves open *)
Definition roomy (b : list N) : Prop := let '(e, s) := scan (bank_content b) in 2 * (e + s) + 6 <= length b /\ (Z.of_nat (length b) < 2 ^ 31)%Z.
Lemma content_len b : length (bank_content b) <= length b.
Proof. induction b as [|w b IH]; cbn; [lia|]. destruct (w =? 0)%N; cbn; lia. Qed.
Lemma needed_le b p : rel2 (conc (nf f b) (rev (nl f b))) p ->
  needed p = S_ (nf f b) + E_ (nf f b) + 5 + Nat.div2 (S (length (nf f b))) /\
  needed p <= 2 * (fst (scan (bank_content b)) + snd (scan (bank_content b))) + 6.
Proof.
  intros ((E1 & E2 & E3 & _) & _). unfold needed. rewrite <- E1, <- E2, <- E3. cbn [conc starts ends tags]. rewrite map_length.
  split; [reflexivity|]. change (length (bstarts (nf f b))) with (S_ (nf f b)). change (length (bends (nf f b))) with (E_ (nf f b)).
  destruct (nf_scan f (bank_content b)) as [H1 _]. fold (nf f b) in H1. rewrite <- H1. cbn [fst snd].
  pose proof (proj1 (Good_len f (nf f b) (nf_Good f b))) as H2. rewrite Nat.div2_div. pose proof (Nat.div_le_mono (S (length (nf f b))) (2 + (S_ (nf f b) + E_ (nf f b)) * 2) 2 ltac:(lia) ltac:(lia)) as H3.
  rewrite Nat.div_add in H3 by lia. change (2 / 2) with 1 in H3. lia.
Qed.
Lemma bank_image b : roomy b -> exists p img, p_words h eb (bank_content b) p_empty = Ok p /\ rel2 (conc (nf f b) (rev (nl f b))) p /\
  p_bank h eb b = Ok (img, rev (q_vals p), rev (q_log p)) /\ length img = length b /\
  read_bank img = Ok (rev (q_starts p), rev (q_ends p), [q_count p], rev (q_tags p)).
Proof.
  unfold roomy. destruct (bank_run b) as (p & P1 & P2). destruct (needed_le b p P2) as [_ N1]. destruct (scan (bank_content b)) as [e s]. cbn [fst snd] in N1. intros [H1 H2].
  exists p. eexists. split; [exact P1|]. split; [exact P2|]. unfold p_bank. rewrite P1. cbn [obind]. replace (length b <? needed p) with false by lia.
  split; [reflexivity|]. split; [rewrite app_assoc, !app_length, skipn_length; rewrite needed_length; lia|].
  unfold tag_words. apply read_back. intros t Ht. destruct P2 as ((_ & _ & E3 & _) & _). rewrite <- E3 in Ht. cbn [conc tags] in Ht. apply (btag_range f) in Ht.
  pose proof (nf_scan f (bank_content b)) as [_ H3]. fold (nf f b) in H3. pose proof (content_len b). change (2 ^ 31)%Z with 2147483648%Z in *. lia.
Qed.
Lemma banks_images bs : Forall roomy bs -> exists l, p_banks h eb bs = Ok l /\
  Forall2 (fun b x => exists p, rel2 (conc (nf f b) (rev (nl f b))) p /\ snd (fst x) = rev (q_vals p) /\ snd x = rev (q_log p) /\
     read_bank (fst (fst x)) = Ok (rev (q_starts p), rev (q_ends p), [q_count p], rev (q_tags p))) bs l.
Proof.
  induction 1 as [|b bs Hb _ IH]; [exists []; split; [reflexivity|constructor]|]. destruct IH as (l & L1 & L2).
  destruct (bank_image b Hb) as (p & img & _ & P2 & P3 & _ & P4). exists ((img, rev (q_vals p), rev (q_log p)) :: l). cbn [p_banks]. rewrite P3. cbn [obind]. rewrite L1. split; [reflexivity|].
  constructor; [exists p; auto|exact L2].
Qed.

Lemma p_merge_last ts : forall ss es p p', p_merge h eb (ts ++ [END_MARKER]) ss es p = Ok p' -> q_count p' = 0%N.
Proof.
  induction ts as [|t ts IH]; intros ss es p p' X; cbn [app p_merge] in X.
  - change (END_MARKER =? START_MARKER)%Z with false in X. change (END_MARKER =? END_MARKER)%Z with true in X. cbn match in X. destruct es as [|m es]; [discriminate|].
    destruct (p_reduce h eb true m p) as [q|] eqn:E; [|discriminate]. cbn in X. injection X as <-. revert E. unfold p_reduce. destruct (q_starts p); [discriminate|]. destruct (q_tags p) as [|t tg]; [discriminate|]. cbn zeta.
    destruct (p_callback _ _ _ _ _ _ _) as [[v s1]|]; [|discriminate]. cbn [obind]. destruct (if (t <? 1)%Z then t :: tg else tg); [discriminate|]. destruct (p_push_value _ _ _); [|discriminate]. cbn. intros X; injection X as <-. reflexivity.
  - destruct (t =? START_MARKER)%Z; [destruct ss; [discriminate|]; apply IH in X; exact X|]. destruct (t =? END_MARKER)%Z.
    + destruct es as [|m es]; [discriminate|]. destruct (p_reduce h eb true m p); [|discriminate]. apply IH in X. exact X.
    + destruct (p_append eb t p); [|discriminate]. apply IH in X. exact X.
Qed.

Variable t : tree.
Hypothesis Hok : tree_ok t.
Definition B_ (ws : list N) : list block := fst (bsteps f [] (map wblock ws)).
Lemma B_app pre b : B_ (pre ++ bank_content b) = F f (B_ pre) (nf f b).
Proof.
  unfold B_. rewrite map_app, bsteps_app. destruct (bsteps f [] (map wblock pre)) as [s l]. cbn [fst].
  pose proof (proj1 (confluence f s (map wblock (bank_content b)))) as C. destruct (bsteps f s (map wblock (bank_content b))). exact C.
Qed.
Lemma B_Good ws : Good (B_ ws).
Proof. apply bsteps_Good; [apply okb_wblock|exact I]. Qed.
Lemma B_scan pre post : pre ++ post = stream t -> E_ (B_ pre) = 0 /\ Z.of_nat (S_ (B_ pre)) = level pre.
Proof.
  intros E. destruct (nf_scan f pre) as [H _]. fold (B_ pre) in H. destruct (stream_level t Hok) as [SL _]. rewrite <- E in SL.
  destruct (scan_level pre (depth t) [] post SL) as [L1 L2]. rewrite <- H in L1, L2. cbn [fst snd level fold_right] in *. lia.
Qed.
Lemma no_BE pre post : pre ++ post = stream t -> ~ hasBE (B_ pre).
Proof. intros E [w Hw]. destruct (B_scan pre post E) as [H _]. unfold E_, bends in H. apply in_split in Hw as (l1 & l2 & Hw). rewrite Hw, flat_map_app, app_length in H. cbn in H. lia. Qed.

Lemma chunks_rel bs : forall l pre lg p, pre ++ concat (map bank_content bs) = stream t -> pre <> [] ->
  rel [] (conc (B_ pre) lg) p -> (q_count p = 0%N \/ q_starts p <> []) ->
  Forall2 (fun b x => exists p, rel2 (conc (nf f b) (rev (nl f b))) p /\ snd (fst x) = rev (q_vals p) /\ snd x = rev (q_log p) /\
     read_bank (fst (fst x)) = Ok (rev (q_starts p), rev (q_ends p), [q_count p], rev (q_tags p))) bs l ->
  exists s' p', merge_chunks f eb (conc (B_ pre) lg) (map (fun b => conc (nf f b) (rev (nl f b))) bs) = Ok s' /\
    p_chunks h eb p (map fst l) = Ok p' /\ rel [] s' p' /\ (q_count p' = 0%N \/ q_starts p' <> []).
Proof.
  induction bs as [|b bs IH]; intros l pre lg p E NE Hp HI HL; inversion HL as [|? x ? l' Hx HL']; subst.
  - exists (conc (B_ pre) lg), p. cbn. auto.
  - destruct Hx as (pb & Q1 & Q2 & Q3 & Q4). destruct x as [[img vs] lgx]. cbn [fst snd] in Q2, Q3, Q4. subst vs lgx.
    cbn [map merge_chunks p_chunks fst]. cbn [map concat] in E. rewrite app_assoc in E.
    assert (MC : merge_chunk f eb (conc (B_ pre) lg) (conc (nf f b) (rev (nl f b))) = Ok (conc (B_ (pre ++ bank_content b)) (rev (L f (B_ pre) (nf f b)) ++ lg))).
    { rewrite B_app. apply merge_chunk_conc; [exact eb_ok|apply B_Good|apply nf_Good|]. rewrite <- B_app. apply (no_BE _ _ E). }
    rewrite MC. cbn [obind]. unfold p_chunk. cbn [fst snd]. rewrite Q4. cbn [obind].
    destruct Q1 as ((E1 & E2 & E3 & E4 & pend & rst & C1 & C2 & C3 & C4) & QC & QI). rewrite QI in C1. cbn in C1. symmetry in C1. apply app_eq_nil in C1 as [-> ->]. cbn [rev app] in C3.
    set (p0 := mkP (q_starts p) (q_ends p) (q_count p) (q_tags p) (q_vals p) (q_iters p ++ [rev (q_vals pb)]) (q_log p)).
    assert (HP0 : rel (rev (values (conc (nf f b) (rev (nl f b))))) (conc (B_ pre) lg) p0).
    { destruct Hp as (P1 & P2 & P3 & P4 & pend' & rst' & D1 & D2 & D3 & D4). inversion D4; subst rst'. rewrite app_nil_r in D1.
      split; [exact P1|]. split; [exact P2|]. split; [exact P3|]. split; [exact P4|]. exists pend', (rev (q_vals pb)). cbn [q_iters q_count q_vals p0]. split; [rewrite concat_app, D1; cbn [concat]; rewrite app_nil_r; reflexivity|].
      split; [exact D2|]. split; [exact D3|]. apply F2_rev. exact C3. }
    unfold merge_chunk in MC. rewrite E3, E1, E2 in MC.
    assert (MR : forall A B, exists p1, p_merge h eb (rev (q_tags pb)) (rev (q_starts pb)) (rev (q_ends pb)) p0 = Ok p1 /\ rel [] (conc (B_ (pre ++ bank_content b)) (rev (L f (B_ pre) (nf f b)) ++ lg)) p1)
      by (intros A B; exact (merge_rel h f R HR eb (rev (q_tags pb)) (rev (q_starts pb)) (rev (q_ends pb)) _ _ p0 _ HP0 A B MC)).
    destruct MR as (p1 & M1 & M2).
    { rewrite rev_length, vsum_rev, <- E3. cbn [conc values tags]. rewrite (vsum_tags f) by apply nf_Good. reflexivity. }
    { intros x Hx. apply in_rev in Hx. rewrite <- E3 in Hx. cbn [conc tags] in Hx. apply (btag_range f) in Hx. lia. }
    rewrite M1. cbn [obind]. apply (IH l' (pre ++ bank_content b) _ p1); [exact E|destruct pre; [congruence|discriminate]|exact M2| |exact HL'].
    destruct (bank_content b) as [|w ws _] eqn:EC using rev_ind.
    { (* empty bank: no tags *)
      assert (EN : nf f b = []) by (unfold nf; rewrite EC; reflexivity). rewrite EN in E3. cbn in E3. rewrite <- E3 in M1. cbn in M1. injection M1 as <-. exact HI. }
    destruct (q_starts p1) eqn:ES; [left|right; discriminate].
    (* everything closed: the stream is over, and its last word is a marker this bank leaves open *)
    assert (LV : level (pre ++ ws ++ [w]) = 0%Z).
    { pose proof (proj2 (B_scan _ _ E)) as Q. destruct M2 as (P1 & _). rewrite ES in P1. cbn [conc starts] in P1. unfold S_ in Q. rewrite P1 in Q. cbn in Q. lia. }
    assert (LP : forall a c, ws = a ++ c -> (1 <= level (pre ++ a))%Z).
    { intros a c Ea. apply (stream_pos t (pre ++ a) (c ++ [w] ++ concat (map bank_content bs)) Hok).
      - rewrite <- E, Ea, <- !app_assoc. reflexivity.
      - destruct pre; [congruence|discriminate].
      - destruct c; discriminate. }
    destruct (scan_pos ws pre LP) as [S1 S2]. pose proof (LP ws [] ltac:(rewrite app_nil_r; reflexivity)) as S3. rewrite !level_app in *. 
    assert (WE : is_start_marker w = false). { destruct (is_start_marker w) eqn:W; [|reflexivity]. unfold level at 3 in LV. cbn [fold_right] in LV. rewrite W in LV. lia. }
    unfold level at 3 in LV. cbn [fold_right] in LV. rewrite WE in LV.
    destruct (nf_scan f ws) as [N1 _]. set (s1 := fst (bsteps f [] (map wblock ws))) in *. rewrite <- N1 in S1, S2. cbn [fst snd] in *.
    assert (Z0 : S_ s1 = 0) by lia.
    assert (NF : nf f b = BE w :: s1).
    { unfold nf. rewrite EC, map_app, bsteps_app. cbn [map]. unfold s1 in *. destruct (bsteps f [] (map wblock ws)) as [s2 l2]. cbn [fst] in *. rewrite bsteps_one. unfold wblock. rewrite WE.
      rewrite noBS_BE; [reflexivity|]. apply (noBS_starts f). unfold S_ in Z0. apply length_zero_iff_nil. exact Z0. }
    rewrite <- E3, NF in M1. cbn [conc tags map rev btag] in M1. apply (p_merge_last _ _ _ _ _ M1).
Qed.

Theorem py_reduction_rel banks : concat (map bank_content banks) = stream t -> bank_content (hd [] banks) <> [] -> Forall roomy banks ->
  exists v l2 l3 v' l2' l3', reduction f eb banks = Ok (v, l2, l3) /\ p_reduction h eb banks = Ok (v', l2', l3') /\
    match v' with None => v = 0%N | Some x => R v x end /\ Forall2 (Forall2 crel) l2 l2' /\ Forall2 crel l3 l3'.
Proof.
  intros Hc Hne Hr. destruct banks as [|b bs]; [cbn in Hne; congruence|]. cbn [hd] in Hne.
  destruct (banks_images (b :: bs) Hr) as (l & L1 & L2). pose proof L2 as L2'. inversion L2 as [|? x ? l' Hx HL']; subst.
  destruct Hx as (pb & Q1 & Q2 & Q3 & Q4). destruct x as [[img vs] lgx]. cbn [fst snd] in Q2, Q3, Q4. subst vs lgx.
  destruct (reduction_correct f eb eb_ok t (b :: bs) Hok Hc) as (l2 & l3 & RC & _).
  unfold reduction in RC. rewrite (reduce_banks_conc f eb eb_ok) in RC. cbn [obind map stage3] in RC.
  change (mkS (starts (conc (nf f b) (rev (nl f b)))) (ends (conc (nf f b) (rev (nl f b)))) (values (conc (nf f b) (rev (nl f b)))) (tags (conc (nf f b) (rev (nl f b)))) []) with (conc (B_ (bank_content b)) []) in RC.
  set (p0 := mkP (q_starts pb) (q_ends pb) (q_count pb) (q_tags pb) (q_vals pb) [] [] : pst V).
  destruct Q1 as ((E1 & E2 & E3 & E4 & pend & rst & C1 & C2 & C3 & C4) & QC & QI). rewrite QI in C1. cbn in C1. symmetry in C1. apply app_eq_nil in C1 as [-> ->]. cbn [rev app] in C3.
  assert (HP0 : rel [] (conc (B_ (bank_content b)) []) p0).
  { split; [exact E1|]. split; [exact E2|]. split; [exact E3|]. split; [constructor|]. exists [], []. split; [reflexivity|]. split; [cbn; rewrite QC; reflexivity|]. split; [exact C3|constructor]. }
  destruct (chunks_rel bs l' (bank_content b) [] p0) as (s' & p' & M1 & M2 & M3 & M4); [exact Hc|exact Hne|exact HP0|left; exact QC|exact HL'|].
  rewrite M1 in RC. cbn [obind] in RC. injection RC as RV RL RG.
  exists (eval f t), l2, l3. unfold reduction. rewrite (reduce_banks_conc f eb eb_ok). cbn [obind map stage3].
  change (mkS (starts (conc (nf f b) (rev (nl f b)))) (ends (conc (nf f b) (rev (nl f b)))) (values (conc (nf f b) (rev (nl f b)))) (tags (conc (nf f b) (rev (nl f b)))) []) with (conc (B_ (bank_content b)) []).
  rewrite M1. cbn [obind]. rewrite RV, <- RL, <- RG.
  eexists _, _, _. split; [reflexivity|]. unfold p_reduction. rewrite L1. cbn [obind map fst]. unfold p_stage3. rewrite Q4. cbn [obind].
  rewrite !rev_involutive. fold p0. rewrite M2. cbn [obind]. split; [reflexivity|].
  (* the result *)
  assert (FIN : s' = conc (B_ (stream t)) (log s')).
  { destruct (merge_chunks_conc f eb eb_ok bs (B_ (bank_content b)) []) as (l3' & EM & _).
    - apply B_Good.
    - assert (EB : fst (bsteps f (B_ (bank_content b)) (content bs)) = B_ (stream t)).
      { unfold B_. rewrite <- Hc. cbn [map concat]. rewrite map_app, bsteps_app. destruct (bsteps f [] (map wblock (bank_content b))) as [s0 l0]. cbn [fst]. rewrite (content_words bs _ eq_refl). destruct (bsteps f s0 _). reflexivity. }
      rewrite EB. apply (no_BE (stream t) []). apply app_nil_r.
    - assert (EB : fst (bsteps f (B_ (bank_content b)) (content bs)) = B_ (stream t)).
      { unfold B_. rewrite <- Hc. cbn [map concat]. rewrite map_app, bsteps_app. destruct (bsteps f [] (map wblock (bank_content b))) as [s0 l0]. cbn [fst]. rewrite (content_words bs _ eq_refl). destruct (bsteps f s0 _). reflexivity. }
      rewrite EB in EM. rewrite M1 in EM. injection EM as ->. reflexivity. }
  destruct M3 as (F1 & F2 & F3 & F4 & pend' & rst' & G1 & G2 & G3 & G4).
  assert (C0 : q_count p' = 0%N).
  { destruct M4 as [K|K]; [exact K|]. exfalso. apply K. rewrite <- F1, FIN. cbn [conc starts]. apply length_zero_iff_nil. change (length (bstarts (B_ (stream t)))) with (S_ (B_ (stream t))).
    pose proof (proj2 (B_scan (stream t) [] (app_nil_r _))) as Q. rewrite (proj2 (stream_level t Hok)) in Q. lia. }
  rewrite C0 in G2. destruct pend'; [|discriminate]. cbn [rev app] in G3. split; [|split].
  - rewrite <- RV. pose proof (F2_rev R _ _ G3) as G. destruct G; cbn [hd_error]; [reflexivity|assumption].
  - constructor.
    + cbn [snd]. rewrite <- (rev_involutive (nl f b)). apply F2_rev. exact E4.
    + clear - HL'. induction HL' as [|b [[img vs] lg] bs l (p & ((_ & _ & _ & E4 & _) & _) & _ & Q3 & _) _ IH]; cbn [map]; constructor; [|exact IH]. cbn [snd] in *. subst lg. apply F2_rev. exact E4.
  - apply F2_rev. exact F4.
Qed.

(** the sequential evaluations *)
Lemma eval_rel : match py_eval h t with None => eval f t = 0%N | Some v => eval f t <> 0%N /\ R (eval f t) v end /\ Forall2 crel (calls f t) (py_calls h t).
Proof.
  clear Hok. induction t as [id s e ch IH] using tree_ind'. cbn [eval py_eval calls py_calls].
  assert (G : Forall2 R (filter (fun v => negb (v =? 0)%N) (map (eval f) ch)) (somes (map (py_eval h) ch)) /\ Forall2 crel (concat (map (calls f) ch)) (concat (map (py_calls h) ch))).
  { induction IH as [|c ch [H1 H2] _ [I1 I2]]; [split; constructor|]. cbn [map filter somes concat]. split; [|apply Forall2_app; assumption].
    destruct (py_eval h c) as [v|]; [destruct H1 as [H1 H3]; rewrite (proj2 (N.eqb_neq _ _) H1); cbn [negb]; constructor; assumption|]. rewrite H1. exact I1. }
  destruct G as [G1 G2]. split; [apply HR; exact G1|]. apply Forall2_app; [exact G2|]. constructor; [repeat split; exact G1|constructor].
Qed.
End Main.

(** ** Values as codes of how they were made *)
Section Code.
Context {V : Type}.
Variable h : N -> N -> N -> list V -> option V.
Fixpoint code (l : list nat) : nat := match l with [] => 0 | a :: r => S (to_nat (a, code r)) end.
Fixpoint decl (k n : nat) : list nat :=
  match k, n with S k', S m => let '(a, b) := of_nat m in a :: decl k' b | _, _ => [] end.
Lemma decl_code l : forall k, code l <= k -> decl k (code l) = l.
Proof.
  induction l as [|a l IH]; intros k H; cbn [code] in *; [destruct k; reflexivity|]. destruct k as [|k]; [lia|]. cbn [decl]. rewrite cancel_of_to. f_equal. apply IH.
  pose proof (to_nat_non_decreasing a (code l)). lia.
Qed.
Lemma decl_lt k : forall n a, In a (decl k n) -> a < n.
Proof.
  induction k as [|k IH]; intros n a H; [destruct H|]. destruct n as [|m]; [destruct H|]. cbn [decl] in H. destruct (of_nat m) as [x y] eqn:E.
  assert (M : m = to_nat (x, y)) by (rewrite <- E; symmetry; apply cancel_to_of). pose proof (to_nat_non_decreasing x y). destruct H as [<-|H]; [lia|]. apply IH in H. lia.
Qed.
Definition apply_code (l : list nat) (D : nat -> option V) : option V :=
  match l with id :: s :: e :: args => h (N.of_nat id) (N.of_nat s) (N.of_nat e) (somes (map D args)) | _ => None end.
Fixpoint dval (k n : nat) : option V := match k with 0 => None | S k' => apply_code (decl n n) (dval k') end.
Lemma dval_enough k : forall n, n < k -> dval k n = dval (S n) n.
Proof.
  induction k as [k IH] using lt_wf_ind. intros n H. destruct k as [|k]; [lia|]. cbn [dval]. unfold apply_code.
  pose proof (decl_lt n n) as D. destruct (decl n n) as [|id [|s [|e args]]]; try reflexivity. f_equal. f_equal. apply map_ext_in. intros a Ha.
  assert (a < n) by (apply D; right; right; right; exact Ha). rewrite (IH k) by lia. symmetry. apply IH; lia.
Qed.
Definition D (n : N) : option V := dval (S (N.to_nat n)) (N.to_nat n).
Definition fcode (id s e : N) (args : list N) : N :=
  match h id s e (somes (map D args)) with None => 0%N | Some _ => N.of_nat (code (map N.to_nat (id :: s :: e :: args))) end.
Lemma D_code id s e args : D (N.of_nat (code (map N.to_nat (id :: s :: e :: args)))) = h id s e (somes (map D args)).
Proof.
  unfold D. rewrite Nat2N.id. set (n := code (map N.to_nat (id :: s :: e :: args))). assert (E : decl n n = map N.to_nat (id :: s :: e :: args)) by (apply decl_code; auto).
  cbn [dval]. pose proof (decl_lt n n) as LT. rewrite E in *. unfold apply_code. cbn [map] in *. rewrite !N2Nat.id. f_equal. f_equal. rewrite map_map. apply map_ext_in. intros a Ha. unfold D. apply dval_enough. apply LT. right; right; right. apply in_map. exact Ha.
Qed.
Definition Rc (n : N) (v : V) : Prop := D n = Some v.
Lemma Rc_ok id s e args vs : Forall2 Rc args vs ->
  match h id s e vs with None => fcode id s e args = 0%N | Some v => fcode id s e args <> 0%N /\ Rc (fcode id s e args) v end.
Proof.
  intros H. assert (E : somes (map D args) = vs) by (induction H as [|n v args vs H _ IH]; [reflexivity|]; cbn [map somes]; rewrite H, IH; reflexivity).
  unfold fcode, Rc. rewrite E. destruct (h id s e vs) as [v|] eqn:EH; [|reflexivity]. split; [cbn [map code]; lia|]. rewrite D_code, E. exact EH.
Qed.
Lemma crel_fun c p p' : crel Rc c p -> crel Rc c p' -> p = p'.
Proof.
  intros (A1 & A2 & A3 & A4) (B1 & B2 & B3 & B4). destruct p as [i s e l], p' as [i' s' e' l']. cbn in *. subst. f_equal.
  revert l' B4. induction A4 as [|n v ns l H _ IH]; intros l' B4; inversion B4; subst; [reflexivity|]. f_equal; [unfold Rc in *; congruence|apply IH; assumption].
Qed.
Lemma crels_fun l q q' : Forall2 (crel Rc) l q -> Forall2 (crel Rc) l q' -> q = q'.
Proof. intros H. revert q'. induction H as [|c p l q H _ IH]; intros q' H'; inversion H'; subst; [reflexivity|]. f_equal; [eapply crel_fun; eauto|apply IH; assumption]. Qed.

Theorem py_reduction_correct eb t banks : (exists z, eb = Some z /\ isValueTag z = false) ->
  tree_ok t -> concat (map bank_content banks) = stream t -> bank_content (hd [] banks) <> [] -> Forall roomy banks ->
  exists logs2 log3, p_reduction h eb banks = Ok (py_eval h t, logs2, log3) /\ Interleave (concat logs2) log3 (py_calls h t).
Proof.
  intros Heb Hok Hc Hne Hr. destruct (py_reduction_rel h fcode Rc Rc_ok eb Heb t Hok banks Hc Hne Hr) as (v & l2 & l3 & v' & l2' & l3' & R1 & R2 & R3 & R4 & R5).
  destruct (reduction_correct fcode eb Heb t banks Hok Hc) as (m2 & m3 & R6 & IL). rewrite R1 in R6. injection R6 as -> <- <-.
  destruct (eval_rel h fcode Rc Rc_ok t) as [EV CL]. exists l2', l3'. split.
  - rewrite R2. f_equal. f_equal. f_equal. destruct v' as [x|], (py_eval h t) as [y|]; [|exfalso|exfalso|reflexivity].
    + destruct EV as [_ EV]. unfold Rc in *. congruence.
    + rewrite EV in R3. unfold Rc, D in R3. cbn in R3. discriminate.
    + destruct EV as [EV _]. congruence.
  - assert (RCAT : Forall2 (crel Rc) (concat l2) (concat l2')) by (clear - R4; induction R4; cbn [concat]; [constructor|apply Forall2_app; assumption]).
    clear - IL RCAT R5 CL. revert l3' R5 CL RCAT. generalize (py_calls h t), (concat l2'). revert IL. generalize (concat l2), l3, (calls fcode t). 
    induction 1 as [|x a b c _ IH|x a b c _ IH]; intros cs q l3' R5 CL RCAT.
    + inversion R5; inversion CL; inversion RCAT; subst. constructor.
    + inversion CL as [|? y ? cs' Y1 Y2]; inversion RCAT as [|? z ? q' Z1 Z2]; subst. rewrite (crel_fun _ _ _ Y1 Z1). constructor. apply IH; assumption.
    + inversion CL as [|? y ? cs' Y1 Y2]; inversion R5 as [|? z ? q' Z1 Z2]; subst. rewrite (crel_fun _ _ _ Y1 Z1). constructor. apply IH; assumption.
Qed.
End Code.
