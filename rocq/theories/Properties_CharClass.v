(** * Properties C01-C06: character classes *)
From Coq Require Import List NArith Bool Lia.
From Verif Require Import CharClass CharClassSpec CharClassProofs UnionExact CharClassParse.
Import ListNotations.
Open Scope N_scope.

(** C01 *)
Theorem C01_add_range_exact : forall (cc : cclass) (r : range) (ch : N),
  Proper cc -> rs r <= re r ->
  (includes (add_range cc r) ch = true <->
   includes cc ch = true \/ (rs r <= ch /\ ch < re r)).
Proof. intros cc r ch H1 H2. rewrite !includes_Den. exact (add_range_Den cc r ch H1 H2). Qed.
Print Assumptions C01_add_range_exact.
Example C01_hyp : Proper [mkR 97 99; mkR 48 50] /\ rs (mkR 49 98) <= re (mkR 49 98).
Proof. split; [intros r [<-|[<-|[]]]; simpl; lia|simpl; lia]. Qed.

(** C01: the ranges stay pairwise separated when those touched are neighbours in the list. *)
Theorem C01_add_range_separated : forall (before touched after : cclass) (r : range),
  (forall x, In x (before ++ touched ++ after) -> rs x < re x) ->
  ForallOrdPairs (fun x y => r_overlaps x y = false) (before ++ touched ++ after) ->
  rs r < re r ->
  Forall (fun x => r_overlaps x r = false) before ->
  Forall (fun x => r_overlaps x r = true) touched ->
  Forall (fun x => r_overlaps x r = false) after ->
  (forall x, In x (add_range (before ++ touched ++ after) r) -> rs x < re x) /\
  ForallOrdPairs (fun x y => r_overlaps x y = false) (add_range (before ++ touched ++ after) r).
Proof. intros b t a r H1 H2 H3 H4 H5 H6. exact (add_range_block b t a r (conj H1 H2) H3 H4 H5 H6). Qed.
Print Assumptions C01_add_range_separated.
Example C01_separated_hyp :
  let l := [mkR 10 12; mkR 20 22; mkR 30 32] in let r := mkR 21 31 in
  Forall (fun x => r_overlaps x r = false) [mkR 10 12] /\
  Forall (fun x => r_overlaps x r = true) [mkR 20 22; mkR 30 32] /\
  add_range l r = [mkR 10 12; mkR 20 32].
Proof. repeat split; repeat constructor. Qed.

(** C01: without that condition the list can end up with nested ranges. *)
Theorem C01_add_range_separated_refuted : exists (cc : cclass) (r : range),
  ForallOrdPairs (fun x y => r_overlaps x y = false) cc /\ rs r < re r /\
  ~ ForallOrdPairs (fun x y => r_overlaps x y = false) (add_range cc r).
Proof.
  exists [mkR 97 99; mkR 48 50; mkR 101 103], (mkR 98 123). split; [|split].
  - repeat (constructor; [repeat constructor|]). constructor.
  - reflexivity.
  - vm_compute. intros H. inversion H as [|? ? H1 H2]; subst.
    inversion H1 as [|? ? _ H3]; subst. inversion H3 as [|? ? H4 _]; subst. discriminate.
Qed.
Print Assumptions C01_add_range_separated_refuted.

(** C02: exact when the operands have no common character (the only way the
    automaton constructions call it, besides merging a label with itself). *)
Theorem C02_union_exact_partial : forall a b : cclass,
  Sorted a -> Sorted b -> (forall ch, ~ (includes a ch = true /\ includes b ch = true)) ->
  exists c, union a b = Some c /\ Sorted c /\
    forall ch, includes c ch = true <-> includes a ch = true \/ includes b ch = true.
Proof.
  intros a b Ha Hb HX. destruct (union_disjoint a b Ha Hb) as (c & H1 & H2 & H3).
  - intros ch K L. apply (HX ch). rewrite !includes_Den. auto.
  - exists c. split; [exact H1|]. split; [exact H2|]. intros ch. rewrite !includes_Den. apply H3.
Qed.
Print Assumptions C02_union_exact_partial.
Theorem C02_union_self : forall a : cclass, Sorted a -> union a a = Some a.
Proof. exact union_idem. Qed.
Print Assumptions C02_union_self.
(** C02: in general it never invents characters ... *)
Theorem C02_union_sound : forall a b : cclass,
  Sorted a -> Sorted b ->
  exists c, union a b = Some c /\
    forall ch, includes c ch = true -> includes a ch = true \/ includes b ch = true.
Proof.
  intros a b Ha Hb. destruct (union_sound a b Ha Hb) as (c & H1 & H2).
  exists c. split; [exact H1|]. intros ch. rewrite !includes_Den. apply H2.
Qed.
Print Assumptions C02_union_sound.
(** ... but it can lose some. *)
Theorem C02_union_refuted : exists (a b c : cclass) (ch : N),
  Separated a /\ Separated b /\ union a b = Some c /\
  includes a ch = true /\ includes c ch = false.
Proof.
  exists [mkR 1 3], [mkR 2 6], [mkR 2 6], 1. vm_compute. repeat split; reflexivity.
Qed.
Print Assumptions C02_union_refuted.
(** Exactly when: unless a range of one operand begins strictly inside a range of the other and reaches beyond that whole other operand
    (the second operand's: strictly beyond; the first's: at least to its end). *)
Definition overhangs (strict : bool) (b a : cclass) : Prop := exists y z, In y b /\ In z a /\ rs z < rs y /\ rs y < re z /\
  forall x, In x a -> if strict then re x < re y else re x <= re y.
Theorem C02_union_exact_iff_partial : forall a b : cclass, Sorted a -> Sorted b ->
  exists c, union a b = Some c /\
    ((forall ch, includes c ch = true <-> includes a ch = true \/ includes b ch = true) <->
     ~ overhangs true b a /\ ~ overhangs false a b).
Proof.
  intros a b Ha Hb. destruct (union_exact_iff a b Ha Hb) as (c & H1 & H2). exists c. split; [exact H1|]. unfold overhangs. rewrite <- H2. split; intros H ch; specialize (H ch); rewrite !includes_Den in *; exact H.
Qed.
Print Assumptions C02_union_exact_iff_partial.
(** Overlapping operands without loss; and one pair of the other kind. *)
Example C02_iff_hyp : Sorted [mkR 1 5; mkR 8 9] /\ Sorted [mkR 2 6] /\ ~ overhangs true [mkR 2 6] [mkR 1 5; mkR 8 9] /\ ~ overhangs false [mkR 1 5; mkR 8 9] [mkR 2 6] /\
  union [mkR 1 5; mkR 8 9] [mkR 2 6] = Some [mkR 1 6; mkR 8 9] /\ overhangs true [mkR 2 6] [mkR 1 3].
Proof.
  split; [cbn; lia|]. split; [cbn; lia|]. split.
  { intros (y & z & [<-|[]] & Z & Z1 & Z2 & X). specialize (X (mkR 8 9) (or_intror (or_introl eq_refl))). cbn in X. lia. }
  split.
  { intros (y & z & [<-|[<-|[]]] & [<-|[]] & Z1 & Z2 & X); cbn in Z1, Z2; lia. }
  split; [reflexivity|]. exists (mkR 2 6), (mkR 1 3). cbn. split; [auto|]. split; [auto|]. split; [lia|]. split; [lia|]. intros x [<-|[]]. cbn. lia.
Qed.
Example C02_hyp : Sorted [mkR 48 58; mkR 97 123] /\ Sorted [mkR 65 91; mkR 95 96] /\
  union [mkR 48 58; mkR 97 123] [mkR 65 91; mkR 95 96] = Some [mkR 48 58; mkR 65 91; mkR 95 96; mkR 97 123].
Proof. repeat split; vm_compute; congruence. Qed.

(** C03 *)
Theorem C03_complement_exact : forall cc : cclass,
  Separated cc -> SortedFrom 1 cc -> Below 255 cc ->
  Separated (compl cc) /\
  (forall ch, includes (compl cc) ch = true <-> 1 <= ch /\ ch < 255 /\ includes cc ch = false) /\
  compl (compl cc) = cc.
Proof.
  intros cc H1 H2 H3. split; [exact (compl_Separated cc H1 H2 H3)|]. split.
  - intros ch. rewrite includes_Den, (compl_Den cc ch H2 H3), <- includes_Den.
    rewrite not_true_iff_false. reflexivity.
  - exact (compl_compl cc H1 H2 H3).
Qed.
Print Assumptions C03_complement_exact.
Example C03_hyp : Separated [mkR 1 33; mkR 48 58] /\ SortedFrom 1 [mkR 1 33; mkR 48 58] /\
  Below 255 [mkR 1 33; mkR 48 58].
Proof. repeat split; try (simpl; lia). intros r [<-|[<-|[]]]; simpl; lia. Qed.

(** C04 *)
Theorem C04_intersection_exact : forall a b : cclass,
  Sorted a -> Sorted b ->
  exists c, inter a b = Some c /\ Sorted c /\
    forall ch, includes c ch = true <-> includes a ch = true /\ includes b ch = true.
Proof.
  intros a b Ha Hb.
  destruct (inter_loop_spec (length a + length b) a b 0 0 (le_n _) Ha Hb) as (c & H1 & H2 & H3).
  exists c. split; [exact H1|]. split; [exact H2|]. intros ch. rewrite !includes_Den. apply H3.
Qed.
Print Assumptions C04_intersection_exact.
Theorem C04_overlaps_exact : forall a b : cclass,
  Sorted a -> Sorted b ->
  exists t, overlaps a b = Some t /\
    (t = true <-> exists ch, includes a ch = true /\ includes b ch = true).
Proof.
  intros a b Ha Hb.
  destruct (overlaps_loop_spec (length a + length b) a b 0 0 (le_n _) Ha Hb) as (c & H1 & H2).
  exists c. split; [exact H1|]. rewrite H2.
  split; intros [ch H]; exists ch; rewrite !includes_Den in *; exact H.
Qed.
Print Assumptions C04_overlaps_exact.

(** C05 *)
Theorem C05_split_exact : forall a b : cclass,
  Sorted a -> Sorted b ->
  exists l r m, diff_and_int a b = Some (l, r, m) /\ Sorted l /\ Sorted r /\ Sorted m /\
    forall ch,
      (includes l ch = true <-> includes a ch = true /\ includes b ch = false) /\
      (includes r ch = true <-> includes b ch = true /\ includes a ch = false) /\
      (includes m ch = true <-> includes a ch = true /\ includes b ch = true).
Proof.
  intros a b Ha Hb.
  assert (F : Fits [] 0) by (split; [exact I|intros ? []]).
  destruct (dai_loop_spec (2 * (length a + length b)) a b 0 [] [] []) as (l & r & m & H & S0 & S1 & S2 & D0 & D1 & D2); auto.
  - unfold dai_measure. lia.
  - exists l, r, m. split; [exact H|]. repeat (split; [assumption|]). intros ch.
    specialize (D0 ch). specialize (D1 ch). specialize (D2 ch). rewrite Den_nil in *.
    rewrite <- !not_true_iff_false, !includes_Den. tauto.
Qed.
Print Assumptions C05_split_exact.
Example C04_C05_hyp :
  Sorted [mkR 5 10; mkR 10 12] /\ Sorted [mkR 7 11] /\
  diff_and_int [mkR 5 10; mkR 10 12] [mkR 7 11] = Some ([mkR 5 7; mkR 11 12], [], [mkR 7 11]) /\
  inter [mkR 5 10; mkR 10 12] [mkR 7 11] = Some [mkR 7 10; mkR 10 11].
Proof. repeat split; vm_compute; congruence. Qed.

(** C06: whichever way its items are written (CharClassSpec.items_text), the set contains exactly the listed characters. *)
Theorem C06_bracket_exact : forall (items : list item) (text rest : list N),
  items_text items text -> Forall item_ok items -> no_caret items ->
  exists c, cc_parse (text ++ 93 :: rest) = POk c rest /\
    forall ch, includes c ch = true <-> exists i, In i items /\ item_den i ch.
Proof. exact bracket_plain. Qed.
Print Assumptions C06_bracket_exact.
(** Exactly the texts so written are accepted (after the opening bracket: an optional caret, items, the closing bracket); all others throw. *)
Theorem C06_bracket_syntax : forall text rest : list N,
  (exists c, cc_parse text = POk c rest) <->
  exists (neg : bool) (items : list item) (w : list N), items_text items w /\
    text = (if neg then [94] else []) ++ w ++ 93 :: rest /\ (neg = false -> hd 0 text <> 94).
Proof. exact cc_parse_accepted. Qed.
Print Assumptions C06_bracket_syntax.
Theorem C06_negated_bracket_partial : forall (items : list item) (text rest : list N),
  items_text items text -> Forall item_ok items -> NoBridge items ->
  exists c, cc_parse (94 :: text ++ 93 :: rest) = POk c rest /\ Separated c /\
    forall ch, includes c ch = true <-> 1 <= ch /\ ch < 255 /\ ~ exists i, In i items /\ item_den i ch.
Proof. exact bracket_negated. Qed.
Print Assumptions C06_negated_bracket_partial.
(** In particular when the items are apart, or listed by ascending first character. *)
Theorem C06_negated_bracket_listed_partial : forall (items : list item) (text rest : list N),
  items_text items text -> Forall item_ok items -> AllApart items \/ Ascending items ->
  exists c, cc_parse (94 :: text ++ 93 :: rest) = POk c rest /\ Separated c /\
    forall ch, includes c ch = true <-> 1 <= ch /\ ch < 255 /\ ~ exists i, In i items /\ item_den i ch.
Proof. intros l w r H1 H2 [H3|H3]; apply bracket_negated; auto using apart_NoBridge, ascending_NoBridge. Qed.
Print Assumptions C06_negated_bracket_listed_partial.
(** [^a-b0-1e-fb-z] wrongly matches the listed character 'g'. *)
Theorem C06_negated_bracket_refuted : exists (items : list item) (c : cclass) (ch : N),
  Forall item_ok items /\ cc_parse (94 :: write_items items ++ [93]) = POk c [] /\
  (exists i, In i items /\ item_den i ch) /\ includes c ch = true.
Proof.
  exists [Span 97 98; Span 48 49; Span 101 102; Span 98 122].
  eexists. exists 103. split; [|split; [vm_compute; reflexivity|split]].
  - repeat constructor; simpl; lia.
  - exists (Span 98 122). simpl. split; [tauto|lia].
  - reflexivity.
Qed.
Print Assumptions C06_negated_bracket_refuted.
Theorem C06_unterminated_throws : forall text, ~ In 93 text -> cc_parse text = PThrow.
Proof. exact cc_parse_unterminated. Qed.
Print Assumptions C06_unterminated_throws.
(** A backslash before a letter that is no escape. *)
Definition str_q : list N := [97; 92; 113].
Example C06_hyp :
  let items := [Span 97 122; Single 45; Single 93; Span 48 57] in
  Forall item_ok items /\ no_caret items /\ AllApart items /\
  items_text items [97; 45; 122; 92; 45; 92; 93; 48; 45; 57] /\
  items_text [Single 13; Single 9; Span 10 91] [92; 82; 92; 116; 92; 78; 45; 91] /\
  NoBridge [Span 48 57; Span 97 102; Single 98; Span 40 50] /\
  cc_parse (str_q ++ [93]) = PThrow /\
  Ascending [Span 48 57; Span 50 122; Single 100].
Proof.
  cbv zeta. split; [repeat constructor; simpl; lia|]. split; [simpl; lia|].
  split; [repeat (split; [repeat (constructor; [unfold apart; simpl; lia|]); constructor|]); constructor|].
  split. { apply (write_items_text [Span 97 122; Single 45; Single 93; Span 48 57]). repeat constructor; simpl; lia. }
  split.
  { apply (its_cons _ _ [92; 82]); [apply it_single, ct_cr; cbn; auto|]. apply (its_cons _ _ [92; 116]); [apply it_single, ct_tab; cbn; auto|].
    apply (its_cons _ _ [92; 78; 45; 91] []); [|constructor]. apply (it_span 10 91 [92; 78] [91]); [apply ct_lf; cbn; auto|apply ct_plain; cbn; lia]. }
  split.
  { intros l1 j l2 E (i & i' & g & Hi & Hi' & H1 & H2 & H3 & H4 & _).
    destruct l1 as [|x1 l1]; [destruct Hi|]. injection E as <- E.
    destruct l1 as [|x2 l1]; [destruct Hi as [<-|[]]; destruct Hi' as [<-|[]]; cbn in *; lia|]. injection E as <- E.
    destruct l1 as [|x3 l1]; [injection E as <- _; destruct Hi as [<-|[<-|[]]]; destruct Hi' as [<-|[<-|[]]]; cbn in *; lia|]. injection E as <- E.
    destruct l1 as [|x4 l1]; [injection E as <- _; destruct Hi as [<-|[<-|[<-|[]]]]; destruct Hi' as [<-|[<-|[<-|[]]]]; cbn in *; lia|]. injection E as _ E.
    destruct l1; discriminate. }
  split; [reflexivity|]. cbn. lia.
Qed.
