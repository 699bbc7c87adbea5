From Coq Require Import List NArith Bool Lia ZifyBool ZifyN Permutation.
From Verif Require Import CharClass CharClassSpec CharClassProofs.
Import ListNotations.
Open Scope N_scope.

Definition item_range (i : item) : range := mkR (item_lo i) (item_hi i).
Definition flush (st : ccst) (cc : cclass) : cclass :=
  match st with CRange s => add_range cc (mkR s (s + 1)) | _ => cc end.
Definition st_ok (st : ccst) : Prop :=
  match st with CStart => True | CRange s => 1 <= s < 255 | CEnd _ => False end.

Lemma narrow_id c : c < 256 -> narrow c = c.
Proof. intros; unfold narrow. apply N.mod_small. exact H. Qed.

Lemma cc_step_esc st cc b c : (b = true \/ c <> 45) -> cc_step st cc b c = cc_step st cc true c.
Proof.
  intros H. unfold cc_step. assert (negb b && (c =? 45) = false) as -> by (destruct b; simpl; lia).
  reflexivity.
Qed.

Lemma cc_loop_char c w t st cc :
  char_text c w ->
  cc_loop (w ++ t) st cc =
  match cc_step st cc true c with None => PThrow | Some (st', cc') => cc_loop t st' cc' end.
Proof.
  intros Hc. destruct Hc as [c H|c H|e H|e H|e H]; cbn [In app] in *.
  - cbn [cc_loop]. assert (c =? 93 = false) as -> by lia. assert (c =? 0 = false) as -> by lia.
    assert (c =? 65535 = false) as -> by lia. assert (c =? 92 = false) as -> by lia.
    cbn [orb]. rewrite (cc_step_esc st cc false c) by (right; lia). reflexivity.
  - destruct H as [<-|[<-|[<-|[<-|[]]]]]; reflexivity.
  - destruct H as [<-|[<-|[]]]; reflexivity.
  - destruct H as [<-|[<-|[]]]; reflexivity.
  - destruct H as [<-|[<-|[]]]; reflexivity.
Qed.
Lemma write_char_text c : 1 <= c < 255 -> char_text c (write_char c).
Proof.
  intros Hc. unfold write_char.
  destruct (c =? 9) eqn:E1; [assert (c = 9) as -> by lia; apply ct_tab; cbn; auto|].
  destruct (c =? 10) eqn:E2; [assert (c = 10) as -> by lia; apply ct_lf; cbn; auto|].
  destruct (c =? 13) eqn:E3; [assert (c = 13) as -> by lia; apply ct_cr; cbn; auto|].
  destruct (((c =? 92) || (c =? 45)) || ((c =? 91) || (c =? 93)))%bool eqn:E4.
  - apply ct_self. cbn. lia.
  - apply ct_plain. cbn. lia.
Qed.
Lemma write_items_text l : Forall item_ok l -> items_text l (write_items l).
Proof.
  unfold write_items. induction l as [|i l IH]; intros H; [constructor|]. inversion H as [|? ? Hi Hl]; subst. cbn [map concat]. constructor; [|apply IH; exact Hl].
  destruct i as [c|a b]; cbn [write_item item_ok] in *; constructor; apply write_char_text; lia.
Qed.

Lemma cc_loop_dash t s cc :
  cc_loop (45 :: t) (CRange s) cc = cc_loop t (CEnd s) cc.
Proof. reflexivity. Qed.

Lemma cc_loop_item i w t st cc :
  item_ok i -> item_text i w -> st_ok st ->
  exists st' cc', cc_loop (w ++ t) st cc = cc_loop t st' cc' /\ st_ok st' /\
    flush st' cc' = add_range (flush st cc) (item_range i).
Proof.
  intros Hi Hw Hst. destruct Hw as [c w Hw|a b w u Hw Hu]; cbn [item_ok] in *.
  - rewrite (cc_loop_char c) by exact Hw.
    destruct st as [|s|s]; cbn [cc_step negb andb st_ok] in *; [| |tauto].
    + exists (CRange c), cc. repeat split; auto; lia.
    + exists (CRange c), (add_range cc (wr s (s + 1))). repeat split; auto; try lia.
      unfold wr. rewrite !narrow_id by lia. reflexivity.
  - rewrite <- !app_assoc. cbn [app]. rewrite (cc_loop_char a) by exact Hw.
    assert (Hgo : forall cc0, cc_loop (45 :: u ++ t) (CRange a) cc0 =
                  cc_loop t CStart (add_range cc0 (mkR a (b + 1)))).
    { intros cc0. rewrite cc_loop_dash. rewrite (cc_loop_char b) by exact Hu.
      cbn [cc_step negb andb]. unfold wr. rewrite !narrow_id by lia. reflexivity. }
    destruct st as [|s|s]; cbn [cc_step negb andb st_ok] in *; [| |tauto].
    + rewrite Hgo. exists CStart. eexists. repeat split; auto.
    + rewrite Hgo. exists CStart. eexists. repeat split; auto.
      cbn [flush]. unfold wr. rewrite !narrow_id by lia. reflexivity.
Qed.

Lemma cc_loop_items l w : items_text l w -> forall rest st cc,
  Forall item_ok l -> st_ok st ->
  exists st' cc', cc_loop (w ++ 93 :: rest) st cc = POk (st', cc') rest /\ st_ok st' /\
    flush st' cc' = fold_left add_range (map item_range l) (flush st cc).
Proof.
  induction 1 as [|i l t u Ht Hu IH]; intros rest st cc Hl Hst.
  - cbn [map concat app]. exists st, cc. cbn [cc_loop]. auto.
  - inversion Hl as [|? ? Hi Hl']; subst. cbn [map concat fold_left]. rewrite <- app_assoc.
    destruct (cc_loop_item i t (u ++ 93 :: rest) st cc Hi Ht Hst) as (st1 & cc1 & E1 & Hst1 & F1).
    destruct (IH rest st1 cc1 Hl' Hst1) as (st2 & cc2 & E2 & Hst2 & F2).
    exists st2, cc2. rewrite E1, E2. rewrite F2, F1. auto.
Qed.

Lemma cc_finish_flush st cc inv :
  st_ok st -> cc_finish st cc inv = Some (if inv then compl (sort_ranges (flush st cc)) else sort_ranges (flush st cc)).
Proof.
  intros H. destruct st as [|s|s]; cbn [st_ok cc_finish flush] in *; [reflexivity| |tauto].
  unfold wr. rewrite !narrow_id by lia. reflexivity.
Qed.

Definition acc (l : list item) : cclass := fold_left add_range (map item_range l) [].

Lemma item_range_proper i : item_ok i -> rs (item_range i) < re (item_range i).
Proof. destruct i; cbn [item_range rs re item_lo item_hi item_ok]; lia. Qed.

Lemma fold_add_Den l : forall c ch, Proper c -> (forall r, In r l -> rs r < re r) ->
  (Den (fold_left add_range l c) ch <-> Den c ch \/ Den l ch) /\ Proper (fold_left add_range l c).
Proof.
  induction l as [|r l IH]; intros c ch Hc Hl; cbn [fold_left].
  - rewrite Den_nil. tauto.
  - assert (rs r < re r) by (apply Hl; simpl; auto).
    destruct (IH (add_range c r) ch) as [H1 H2].
    + apply add_range_Proper; [exact Hc|lia].
    + intros; apply Hl; simpl; auto.
    + split; [|exact H2]. rewrite H1, add_range_Den, Den_cons by (auto; lia). tauto.
Qed.

Lemma acc_Den l ch : Forall item_ok l -> (Den (acc l) ch <-> exists i, In i l /\ item_den i ch).
Proof.
  intros Hl. unfold acc.
  destruct (fold_add_Den (map item_range l) [] ch) as [H _].
  - intros ? [].
  - intros r Hr. apply in_map_iff in Hr. destruct Hr as (i & <- & Hi).
    apply item_range_proper. rewrite Forall_forall in Hl. auto.
  - rewrite H, Den_nil. split.
    + intros [[]|(r & Hr & K)]. apply in_map_iff in Hr. destruct Hr as (i & <- & Hi).
      exists i. split; [exact Hi|]. destruct i; cbn [item_range rs re item_lo item_hi item_den] in *; lia.
    + intros (i & Hi & K). right. exists (item_range i). split; [apply in_map; exact Hi|].
      destruct i; cbn [item_range rs re item_lo item_hi item_den] in *; lia.
Qed.

Lemma sort_Den c ch : Den (sort_ranges c) ch <-> Den c ch.
Proof. apply Den_perm, sort_perm. Qed.

Lemma write_no_caret l w rest :
  items_text l w -> no_caret l ->
  exists h t, w ++ 93 :: rest = h :: t /\ h <> 94.
Proof.
  intros Hl Hn. destruct Hl as [|i l w u Hi Hu].
  - exists 93, rest. split; [reflexivity|lia].
  - assert (G : forall c x t, char_text c x -> c <> 94 -> exists h t', x ++ t = h :: t' /\ h <> 94).
    { intros c x t [c' _|c' _|e _|e _|e _] Hc; eexists _, _; (split; [reflexivity|lia]). }
    rewrite <- app_assoc. destruct Hi as [c x Hx|a b x y Hx Hy]; cbn [no_caret item_lo] in Hn.
    + apply (G c); assumption.
    + rewrite <- app_assoc. apply (G a); assumption.
Qed.

Lemma not_caret (text : list N) : hd 0 text <> 94 -> (match text with 94 :: t => (true, t) | _ => (false, text) end) = (false, text).
Proof.
  destruct text as [|h t]; [reflexivity|]. cbn [hd]. intros Hh. destruct h as [|p]; [reflexivity|].
  do 7 (destruct p as [p|p|]; try reflexivity). exfalso; apply Hh; reflexivity.
Qed.
Lemma cc_parse_plain l w rest :
  items_text l w -> Forall item_ok l -> no_caret l ->
  cc_parse (w ++ 93 :: rest) = POk (sort_ranges (acc l)) rest.
Proof.
  intros Hw Hl Hn. unfold cc_parse.
  destruct (write_no_caret l w rest Hw Hn) as (h & t & E & Hh).
  rewrite not_caret by (rewrite E; exact Hh).
  destruct (cc_loop_items l w Hw rest CStart [] Hl I) as (st' & cc' & E1 & Hst & F).
  rewrite E1, cc_finish_flush by exact Hst. rewrite F. reflexivity.
Qed.

Lemma cc_parse_negated l w rest :
  items_text l w -> Forall item_ok l ->
  cc_parse (94 :: w ++ 93 :: rest) = POk (compl (sort_ranges (acc l))) rest.
Proof.
  intros Hw Hl. unfold cc_parse.
  destruct (cc_loop_items l w Hw rest CStart [] Hl I) as (st' & cc' & E1 & Hst & F).
  rewrite E1, cc_finish_flush by exact Hst. rewrite F. reflexivity.
Qed.

(** ** Which texts are accepted at all *)
Lemma cc_step_char st cc c : match cc_step st cc true c with Some _ => True | None => False end.
Proof. destruct st; exact I. Qed.
Lemma cc_accepts_item i w t st cc : item_text i w -> (forall s, st <> CEnd s) ->
  exists st' cc', cc_loop (w ++ t) st cc = cc_loop t st' cc' /\ forall s, st' <> CEnd s.
Proof.
  intros Hw Hst. destruct Hw as [c w Hw|a b w u Hw Hu].
  - rewrite (cc_loop_char c) by exact Hw. destruct st as [|s|s]; cbn [cc_step negb andb]; [| |exfalso; eapply Hst; reflexivity]; do 2 eexists; (split; [reflexivity|discriminate]).
  - rewrite <- !app_assoc. cbn [app]. rewrite (cc_loop_char a) by exact Hw.
    assert (Hgo : forall cc0, cc_loop (45 :: u ++ t) (CRange a) cc0 = cc_loop t CStart (add_range cc0 (wr a (b + 1)))).
    { intros cc0. rewrite cc_loop_dash. rewrite (cc_loop_char b) by exact Hu. reflexivity. }
    destruct st as [|s|s]; cbn [cc_step negb andb]; [| |exfalso; eapply Hst; reflexivity]; rewrite Hgo; do 2 eexists; (split; [reflexivity|discriminate]).
Qed.
Lemma cc_accepts_items l w : items_text l w -> forall rest st cc, (forall s, st <> CEnd s) ->
  exists st' cc', cc_loop (w ++ 93 :: rest) st cc = POk (st', cc') rest /\ forall s, st' <> CEnd s.
Proof.
  induction 1 as [|i l t u Ht Hu IH]; intros rest st cc Hst.
  - exists st, cc. split; [reflexivity|exact Hst].
  - rewrite <- app_assoc. destruct (cc_accepts_item i t (u ++ 93 :: rest) st cc Ht Hst) as (st1 & cc1 & E1 & H1). rewrite E1. exact (IH rest st1 cc1 H1).
Qed.
Lemma cc_escape_text e c : cc_escape e = Some c -> char_text c [92; e].
Proof.
  unfold cc_escape. destruct ((e =? 92) || (e =? 45) || (e =? 91) || (e =? 93)) eqn:E1; [intros H; injection H as <-; apply ct_self; cbn; lia|].
  destruct ((e =? 116) || (e =? 84)) eqn:E2; [intros H; injection H as <-; apply ct_tab; cbn; lia|].
  destruct ((e =? 114) || (e =? 82)) eqn:E3; [intros H; injection H as <-; apply ct_cr; cbn; lia|].
  destruct ((e =? 110) || (e =? 78)) eqn:E4; [intros H; injection H as <-; apply ct_lf; cbn; lia|discriminate].
Qed.
(** What is left to read in each state of the range automaton. *)
Definition rest_ok (st : ccst) (text rest : list N) : Prop :=
  let items := fun text => exists l w, items_text l w /\ text = w ++ 93 :: rest in
  let target := fun text => exists b u l w, char_text b u /\ items_text l w /\ text = u ++ w ++ 93 :: rest in
  match st with
  | CStart => items text
  | CRange _ => items text \/ exists t, text = 45 :: t /\ target t
  | CEnd _ => target text
  end.
Lemma rest_range c w s t rest : char_text c w -> rest_ok (CRange s) t rest -> exists l v, items_text l v /\ w ++ t = v ++ 93 :: rest.
Proof.
  intros Hw [(l & v & Hl & ->)|(t' & -> & b & u & l & v & Hu & Hl & ->)].
  - exists (Single c :: l), (w ++ v). split; [constructor; [constructor; exact Hw|exact Hl]|]. rewrite app_assoc. reflexivity.
  - exists (Span c b :: l), ((w ++ 45 :: u) ++ v). split; [constructor; [constructor; assumption|exact Hl]|]. rewrite <- !app_assoc. reflexivity.
Qed.
Lemma cc_loop_accepted : forall n text st cc st' cc' rest, (length text <= n)%nat -> (forall s, st' <> CEnd s) ->
  cc_loop text st cc = POk (st', cc') rest -> rest_ok st text rest.
Proof.
  induction n as [|n IH]; intros text st cc st' cc' rest Hn Hst H.
  { destruct text; [discriminate|simpl in Hn; lia]. }
  destruct text as [|ch t]; [discriminate|]. cbn [cc_loop length] in *.
  destruct (ch =? 93) eqn:E93.
  { assert (ch = 93) as -> by lia. injection H as -> _ ->. destruct st' as [|s|s]; cbn; [exists [], []; split; [constructor|reflexivity]|left; exists [], []; split; [constructor|reflexivity]|exfalso; eapply Hst; reflexivity]. }
  destruct ((ch =? 0) || (ch =? 65535)) eqn:E0; [discriminate|].
  assert (STEP : forall c w x, char_text c w -> (length x <= n)%nat -> match cc_step st cc true c with None => PThrow | Some (st1, cc1) => cc_loop x st1 cc1 end = POk (st', cc') rest -> rest_ok st (w ++ x) rest).
  { intros c w x Hw Hx K. destruct st as [|s|s]; cbn [cc_step negb andb] in K.
    - pose proof (IH x (CRange c) cc st' cc' rest Hx Hst K) as R. exact (rest_range c w c x rest Hw R).
    - pose proof (IH x _ _ st' cc' rest Hx Hst K) as R. left. exact (rest_range c w c x rest Hw R).
    - pose proof (IH x _ _ st' cc' rest Hx Hst K) as R. cbn [rest_ok] in R |- *. destruct R as (l & v & Hl & ->). exists c, w, l, v. auto. }
  destruct (ch =? 92) eqn:E92.
  - assert (ch = 92) as -> by lia. destruct t as [|e t]; [discriminate|]. destruct (cc_escape e) as [c|] eqn:Ee; [|discriminate].
    apply (STEP c [92; e] t); [apply cc_escape_text; exact Ee|cbn [length] in Hn; lia|exact H].
  - destruct (ch =? 45) eqn:E45.
    + assert (ch = 45) as -> by lia. destruct st as [|s|s]; cbn in H; [discriminate| |discriminate].
      pose proof (IH t _ _ st' cc' rest ltac:(lia) Hst H) as R. right. exists t. split; [reflexivity|]. exact R.
    + rewrite (cc_step_esc st cc false ch) in H by (right; lia). apply (STEP ch [ch] t); [apply ct_plain; cbn; lia|lia|exact H].
Qed.
Theorem cc_parse_accepted text rest : (exists c, cc_parse text = POk c rest) <->
  exists (neg : bool) l w, items_text l w /\ text = (if neg then [94] else []) ++ w ++ 93 :: rest /\ (neg = false -> hd 0 text <> 94).
Proof.
  split.
  - intros (c & H). unfold cc_parse in H.
    destruct (N.eq_dec (hd 0 text) 94) as [E|E].
    + destruct text as [|h t]; [discriminate|]. cbn [hd] in E. subst h. destruct (cc_loop t CStart []) as [[st cc] r|] eqn:EL; [|discriminate].
      destruct (cc_finish st cc true) eqn:EF; [|discriminate]. injection H as _ ->.
      assert (NE : forall s, st <> CEnd s) by (intros s ->; discriminate).
      destruct (cc_loop_accepted (length t) t CStart [] st cc rest (le_n _) NE EL) as (l & w & Hl & ->). exists true, l, w. split; [exact Hl|]. split; [reflexivity|discriminate].
    + rewrite not_caret in H by exact E. destruct (cc_loop text CStart []) as [[st cc] r|] eqn:EL; [|discriminate].
      destruct (cc_finish st cc false) eqn:EF; [|discriminate]. injection H as _ ->.
      assert (NE : forall s, st <> CEnd s) by (intros s ->; discriminate).
      destruct (cc_loop_accepted (length text) text CStart [] st cc rest (le_n _) NE EL) as (l & w & Hl & ->). exists false, l, w. split; [exact Hl|]. split; [reflexivity|auto].
  - intros (neg & l & w & Hl & -> & Hc). destruct (cc_accepts_items l w Hl rest CStart [] ltac:(discriminate)) as (st & cc & E & NE).
    assert (F : forall b, exists c, cc_finish st cc b = Some c) by (intros b; destruct st; [eexists; reflexivity|eexists; reflexivity|exfalso; eapply NE; reflexivity]).
    unfold cc_parse. destruct neg; cbn [app] in *.
    + destruct (F true) as (c & Fc). exists c. rewrite E, Fc. reflexivity.
    + destruct (F false) as (c & Fc). exists c. rewrite not_caret by auto. rewrite E, Fc. reflexivity.
Qed.

Lemma cc_loop_unterminated text : forall st cc, ~ In 93 text -> cc_loop text st cc = PThrow.
Proof.
  assert (G : forall n text st cc, (length text <= n)%nat -> ~ In 93 text -> cc_loop text st cc = PThrow).
  { induction n as [|n IH]; intros t st cc Hn H.
    - destruct t; [reflexivity|simpl in Hn; lia].
    - destruct t as [|ch t]; [reflexivity|]. cbn [cc_loop length In] in *.
      assert (ch =? 93 = false) as -> by lia.
      destruct ((ch =? 0) || (ch =? 65535)); [reflexivity|].
      destruct (ch =? 92).
      + destruct t as [|e t]; [reflexivity|]. destruct (cc_escape e); [|reflexivity].
        destruct (cc_step st cc true n0) as [[? ?]|]; [|reflexivity].
        apply IH; [simpl in Hn; lia|simpl in H; tauto].
      + destruct (cc_step st cc false ch) as [[? ?]|]; [|reflexivity].
        apply IH; [lia|tauto]. }
  intros; eapply G; eauto.
Qed.

Lemma cc_parse_unterminated text : ~ In 93 text -> cc_parse text = PThrow.
Proof.
  intros H. unfold cc_parse.
  assert (G : exists b body, (match text with 94 :: t => (true, t) | _ => (false, text) end) = (b, body) /\ ~ In 93 body).
  { destruct text as [|h t]; [exists false, []; auto|].
    destruct (N.eq_dec h 94) as [->|Hh].
    - exists true, t. split; [reflexivity|]. simpl in H. tauto.
    - exists false, (h :: t). split; [|exact H].
      destruct h as [|p]; [reflexivity|].
      do 7 (destruct p as [p|p|]; try reflexivity). exfalso; apply Hh; reflexivity. }
  destruct G as (b & body & -> & HG). rewrite cc_loop_unterminated by exact HG. reflexivity.
Qed.

(** ** When is the accumulated class pairwise separated? *)
Lemma apart_sep i j : apart i j -> sep2 (item_range i) (item_range j).
Proof. unfold apart, sep2, r_overlaps, item_range; cbn [rs re]. lia. Qed.

Lemma fold_apart l : forall c,
  PairSep c -> Forall item_ok l -> AllApart l ->
  (forall r i, In r c -> In i l -> sep2 r (item_range i)) ->
  PairSep (fold_left add_range (map item_range l) c).
Proof.
  induction l as [|i l IH]; intros c Hc Hok HA HX; cbn [map fold_left]; [exact Hc|].
  inversion Hok as [|? ? Hi Hok']; subst. cbn [AllApart] in HA. destruct HA as [HA1 HA2].
  assert (HF : Forall (fun r => sep2 r (item_range i)) c).
  { apply Forall_forall. intros r Hr. apply HX; simpl; auto. }
  rewrite add_range_none by exact HF.
  apply IH; auto.
  - apply PairSep_snoc; auto. apply item_range_proper; auto.
  - intros r j Hr Hj. apply in_app_or in Hr. destruct Hr as [Hr|[<-|[]]].
    + apply HX; simpl; auto.
    + apply apart_sep. rewrite Forall_forall in HA1. auto.
Qed.

Lemma PairSep_nil : PairSep [].
Proof. split; [intros ? []|constructor]. Qed.

Lemma Desc_PairSep c : Desc c -> ForallOrdPairs sep2 c.
Proof.
  induction c as [|x c IH]; intros H; [constructor|].
  constructor; [|apply IH; simpl in H; tauto].
  apply Forall_forall. intros y Hy. pose proof (Desc_below x c y H Hy).
  unfold sep2, r_overlaps. simpl in H. lia.
Qed.

Lemma Separated_snoc p r : Separated (p ++ [r]) <->
  Separated p /\ rs r < re r /\ match rev p with [] => True | x :: _ => re x < rs r end.
Proof. rewrite Separated_app. simpl. destruct (rev p); tauto. Qed.

Lemma add_range_last p x r :
  Forall (fun i => sep2 i r) p -> r_overlaps x r = true ->
  add_range (p ++ [x]) r = p ++ [r_merge r x].
Proof.
  induction p as [|i p IH]; intros HF Hx; cbn [app add_range add_merge].
  - rewrite Hx. reflexivity.
  - inversion HF as [|? ? Hi HF']; subst. unfold sep2 in Hi. rewrite Hi. f_equal. auto.
Qed.

Lemma fold_asc l : forall c,
  Separated c -> Forall item_ok l -> Ascending l ->
  (match l with [] => True | i :: _ => forall r, In r c -> rs r <= item_lo i end) ->
  Separated (fold_left add_range (map item_range l) c).
Proof.
  induction l as [|i l IH]; intros c Hc Hok HA HX; cbn [map fold_left]; [exact Hc|].
  inversion Hok as [|? ? Hi Hok']; subst. cbn [Ascending] in HA. destruct HA as [HA1 HA2].
  pose proof (item_range_proper i Hi) as Hp.
  destruct (rev c) as [|x p] eqn:E.
  - assert (c = []) as -> by (rewrite <- (rev_involutive c), E; reflexivity).
    cbn [add_range]. apply IH; auto.
    + simpl. auto.
    + destruct l as [|j l]; [exact I|]. intros r [<-|[]]. cbn [item_range rs]. exact HA1.
  - assert (Ec : c = rev p ++ [x]) by (rewrite <- (rev_involutive c), E; reflexivity). clear E.
    assert (HD : Desc (x :: p)).
    { apply Desc_rev. cbn [rev]. rewrite <- Ec. exact Hc. }
    assert (Hxle : rs x <= item_lo i) by (apply HX; rewrite Ec; apply in_or_app; simpl; auto).
    assert (HF : Forall (fun r => sep2 r (item_range i)) (rev p)).
    { apply Forall_forall. intros y Hy. apply in_rev in Hy. pose proof (Desc_below x p y HD Hy).
      unfold sep2, r_overlaps, item_range. cbn [rs re]. lia. }
    rewrite Ec in Hc. apply Separated_snoc in Hc. destruct Hc as (S1 & S2 & S3).
    destruct (r_overlaps x (item_range i)) eqn:Eo.
    + rewrite Ec, add_range_last by auto. apply IH; auto.
      * apply Separated_snoc. split; [exact S1|]. unfold r_overlaps in Eo. cbn [r_merge rs re item_range] in *.
        split; [lia|]. destruct (rev (rev p)); [exact I|]. lia.
      * destruct l as [|j l]; [exact I|]. intros r Hr. apply in_app_or in Hr.
        destruct Hr as [Hr|[<-|[]]].
        -- assert (rs r <= item_lo i) by (apply HX; rewrite Ec; apply in_or_app; auto). lia.
        -- cbn [r_merge rs item_range]. lia.
    + rewrite add_range_none by (rewrite Ec; apply Forall_app; split; [exact HF|constructor; [exact Eo|constructor]]).
      apply IH; auto.
      * apply Separated_snoc. split; [rewrite Ec; apply Separated_snoc; auto|].
        split; [exact Hp|]. rewrite Ec, rev_app_distr. cbn [rev app].
        unfold r_overlaps in Eo. cbn [item_range rs re] in *. lia.
      * destruct l as [|j l]; [exact I|]. intros r Hr. apply in_app_or in Hr.
        destruct Hr as [Hr|[<-|[]]].
        -- assert (rs r <= item_lo i) by (apply HX; auto). lia.
        -- cbn [rs item_range]. exact HA1.
Qed.

Lemma Separated_PairSep c : Separated c -> PairSep c.
Proof.
  intros H. split.
  - revert H. induction c as [|x c IH]; intros H r Hr; [destruct Hr|].
    simpl in H. destruct Hr as [<-|Hr]; [tauto|]. apply IH; tauto.
  - revert H. induction c as [|x c IH]; intros H; [constructor|].
    constructor; [|apply IH; simpl in H; tauto].
    apply Forall_forall. intros y Hy.
    assert (K : SortedFrom (re x + 1) c).
    { simpl in H. apply Separated_SortedFrom; [tauto|]. destruct c; [exact I|lia]. }
    assert (Hy' : rs y < re y).
    { simpl in H. destruct H as (_ & _ & H). clear - H Hy.
      induction c as [|z c IH]; [destruct Hy|]. simpl in H. destruct Hy as [<-|Hy]; [tauto|]. apply IH; tauto. }
    assert (re x + 1 <= rs y).
    { eapply SortedFrom_Den; [exact K|]. exists y. split; [exact Hy|lia]. }
    unfold sep2, r_overlaps. simpl in H. lia.
Qed.

(** Each range of a pairwise separated class is a maximal run of the characters of the items. *)
Lemma acc_snoc l j : acc (l ++ [j]) = add_range (acc l) (item_range j).
Proof. unfold acc. rewrite map_app, fold_left_app. reflexivity. Qed.
Lemma PairSep_in c x y : PairSep c -> In x c -> In y c -> x = y \/ sep2 x y.
Proof.
  intros [_ H] Hx Hy. induction H as [|a l Ha Hl IH]; [destruct Hx|]. rewrite Forall_forall in Ha.
  destruct Hx as [<-|Hx], Hy as [<-|Hy]; auto. right. apply sep2_sym. auto.
Qed.
Lemma one_touch (c : cclass) r : PairSep c -> (forall x y, In x c -> In y c -> r_overlaps x r = true -> r_overlaps y r = true -> x = y) ->
  exists p m q, c = p ++ m ++ q /\ Forall (fun i => sep2 i r) p /\ Forall (fun i => r_overlaps i r = true) m /\ Forall (fun i => sep2 i r) q.
Proof.
  induction c as [|x c IH]; intros HP H; [exists [], [], []; repeat split; constructor|].
  assert (HP' : PairSep c). { destruct HP as [P1 P2]. split; [intros y Hy; apply P1; right; exact Hy|]. inversion P2; assumption. }
  destruct (r_overlaps x r) eqn:E.
  - exists [], [x], c. split; [reflexivity|]. split; [constructor|]. split; [constructor; [exact E|constructor]|].
    apply Forall_forall. intros y Hy. unfold sep2. destruct (r_overlaps y r) eqn:Ey; [|reflexivity]. exfalso.
    assert (x = y) by (apply H; cbn; auto). subst y. destruct HP as [P1 P2]. inversion P2 as [|? ? F _]; subst. rewrite Forall_forall in F. specialize (F x Hy).
    assert (rs x < re x) by (apply P1; cbn; auto). unfold sep2, r_overlaps in F. lia.
  - destruct (IH HP') as (p & m & q & -> & H1 & H2 & H3); [intros y z Hy Hz; apply H; right; assumption|].
    exists (x :: p), m, q. split; [reflexivity|]. split; [constructor; [exact E|exact H1]|]. auto.
Qed.
Lemma acc_PairSep l : Forall item_ok l -> NoBridge l -> PairSep (acc l).
Proof.
  induction l as [|j l IH] using rev_ind; intros Hok HN; [apply PairSep_nil|].
  apply Forall_app in Hok as [Hok Hj]. inversion Hj as [|? ? Hj' _]; subst.
  assert (HN' : NoBridge l). { intros l1 k l2 E. apply (HN l1 k (l2 ++ [j])). rewrite E, <- app_assoc. reflexivity. }
  specialize (IH Hok HN'). rewrite acc_snoc. pose proof (HN l j [] eq_refl) as NB.
  pose proof (fun ch => acc_Den l ch Hok) as HD. pose proof IH as [PR _].
  assert (X : forall x y, In x (acc l) -> In y (acc l) -> re x < rs y -> r_overlaps x (item_range j) = true -> r_overlaps y (item_range j) = true -> False).
  { intros x y Hx Hy L Ox Oy. apply NB. pose proof (PR x Hx) as Px. pose proof (PR y Hy) as Py.
    assert (G : ~ exists k, In k l /\ item_den k (re x)).
    { intros K. apply HD in K. destruct K as (z & Hz & Kz). destruct (PairSep_in (acc l) x z IH Hx Hz) as [<-|S]; [lia|]. unfold sep2, r_overlaps in S. lia. }
    assert (G2 : ~ exists k, In k l /\ item_den k (rs y - 1)).
    { intros K. apply HD in K. destruct K as (z & Hz & Kz). destruct (PairSep_in (acc l) y z IH Hy Hz) as [<-|S]; [lia|]. unfold sep2, r_overlaps in S. lia. }
    assert (A : exists i, In i l /\ item_den i (re x - 1)) by (apply HD; exists x; split; [exact Hx|lia]). destruct A as (i & Hi & Ai).
    assert (B : exists i, In i l /\ item_den i (rs y)) by (apply HD; exists y; split; [exact Hy|lia]). destruct B as (i' & Hi' & Bi).
    assert (E1 : item_hi i = re x).
    { assert (~ item_den i (re x)) by (intros K; apply G; eauto). destruct i as [c|a b]; cbn [item_den item_hi] in *; lia. }
    assert (E2 : item_lo i' = rs y).
    { assert (~ item_den i' (rs y - 1)) by (intros K; apply G2; eauto). destruct i' as [c|a b]; cbn [item_den item_lo] in *; lia. }
    exists i, i', (re x). unfold r_overlaps, item_range in Ox, Oy. cbn [rs re] in Ox, Oy. rewrite E1, E2. repeat split; auto; lia. }
  destruct (one_touch (acc l) (item_range j) IH) as (p & m & q & E & H1 & H2 & H3).
  { intros x y Hx Hy Ox Oy. destruct (PairSep_in (acc l) x y IH Hx Hy) as [E|S]; [exact E|]. exfalso.
    pose proof (PR x Hx). pose proof (PR y Hy). unfold sep2, r_overlaps in S. assert (re x < rs y \/ re y < rs x) as [L|L] by lia; [exact (X x y Hx Hy L Ox Oy)|exact (X y x Hy Hx L Oy Ox)]. }
  rewrite E in *. apply add_range_block; auto. apply item_range_proper. exact Hj'.
Qed.
Lemma apart_NoBridge l : Forall item_ok l -> AllApart l -> NoBridge l.
Proof.
  intros Hok HA l1 j l2 -> (i & i' & g & Hi & Hi' & H1 & H2 & H3 & H4 & _).
  assert (A : apart i j).
  { clear -HA Hi. induction l1 as [|x l1 IH]; [destruct Hi|]. cbn [app AllApart] in HA. destruct HA as [A1 A2]. destruct Hi as [<-|Hi]; [|exact (IH A2 Hi)]. rewrite Forall_forall in A1. apply A1. apply in_or_app. right. left. reflexivity. }
  rewrite Forall_forall in Hok. assert (O : item_ok i) by (apply Hok; apply in_or_app; auto). unfold apart in A. destruct i; cbn [item_ok item_lo item_hi] in *; lia.
Qed.
Lemma ascending_NoBridge l : Ascending l -> NoBridge l.
Proof.
  intros HA l1 j l2 -> (i & i' & g & Hi & Hi' & H1 & H2 & H3 & H4 & _).
  assert (A : item_lo i' <= item_lo j); [|lia].
  clear -HA Hi'. revert i' Hi'. induction l1 as [|x l1 IH]; intros i' Hi'; [destruct Hi'|]. cbn [app Ascending] in HA. destruct HA as [A1 A2].
  assert (B : item_lo x <= item_lo j).
  { destruct l1 as [|y l1]; cbn [app] in A1; [exact A1|]. specialize (IH A2 y (or_introl eq_refl)). lia. }
  destruct Hi' as [<-|Hi']; [exact B|]. exact (IH A2 i' Hi').
Qed.

Lemma bracket_negated l w rest :
  items_text l w -> Forall item_ok l -> NoBridge l ->
  exists c, cc_parse (94 :: w ++ 93 :: rest) = POk c rest /\ Separated c /\
    forall ch, includes c ch = true <-> 1 <= ch /\ ch < 255 /\ ~ exists i, In i l /\ item_den i ch.
Proof.
  intros Hw Hok HA. exists (compl (sort_ranges (acc l))). split; [apply cc_parse_negated; auto|].
  assert (HS : Separated (sort_ranges (acc l))) by (apply sort_Separated, acc_PairSep; auto).
  assert (HD : forall ch, Den (sort_ranges (acc l)) ch <-> exists i, In i l /\ item_den i ch).
  { intros ch. rewrite sort_Den. apply acc_Den; auto. }
  assert (H1 : SortedFrom 1 (sort_ranges (acc l))).
  { apply Separated_SortedFrom; [exact HS|].
    destruct (sort_ranges (acc l)) as [|r c] eqn:E; [exact I|].
    assert (K : Den (r :: c) (rs r)) by (apply Den_cons; left; simpl in HS; lia).
    apply HD in K. destruct K as (i & Hi & K). rewrite Forall_forall in Hok. specialize (Hok i Hi).
    destruct i; cbn [item_den item_ok] in *; lia. }
  assert (HB : Below char_max (sort_ranges (acc l))).
  { intros r Hr. assert (Hrr : rs r < re r).
    { apply (proj1 (Separated_PairSep _ HS)). exact Hr. }
    assert (K : Den (sort_ranges (acc l)) (re r - 1)) by (exists r; split; [exact Hr|lia]).
    apply HD in K. destruct K as (i & Hi & K). rewrite Forall_forall in Hok. specialize (Hok i Hi).
    unfold char_max. destruct i; cbn [item_den item_ok] in *; lia. }
  split; [apply compl_Separated; auto|].
  intros ch. rewrite includes_Den, compl_Den by auto. rewrite HD. reflexivity.
Qed.

Lemma bracket_plain l w rest :
  items_text l w -> Forall item_ok l -> no_caret l ->
  exists c, cc_parse (w ++ 93 :: rest) = POk c rest /\
    forall ch, includes c ch = true <-> exists i, In i l /\ item_den i ch.
Proof.
  intros Hw Hok Hn. exists (sort_ranges (acc l)). split; [apply cc_parse_plain; auto|].
  intros ch. rewrite includes_Den, sort_Den. apply acc_Den; auto.
Qed.
