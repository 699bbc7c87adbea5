(** What the reader of grammar files accepts has the form of SyntaxSpec.f_file. *)
From Coq Require Import List NArith Arith Bool Lia ZifyBool ZifyN ZifyNat.
From Verif Require Import CharClass Stream StreamSpec StreamProofs RegexSpec NFA NFABuild GrammarSpec ATN ATNSem ATNBuild ATNParse Grammar GrammarProofs SyntaxSpec SyntaxProofs.
Import ListNotations.
Local Open Scope nat_scope.

Lemma path_form f : forall t acc p r, path_loop f t acc = SOk (p, r) -> exists x, t = x ++ 34%N :: r /\ ~ In 34%N x /\ p = rev acc ++ x.
Proof.
  induction f as [|f IH]; intros t acc p r; cbn [path_loop]; [discriminate|].
  destruct t as [|c t].
  - intros E. exfalso. revert E. apply not_eq_sym. intros E. symmetry in E. rewrite path_endless in E; [discriminate|]. intros [].
  - destruct (c =? 34)%N eqn:C.
    + intros E. injection E as <- <-. assert (c = 34%N) as -> by lia. exists []. rewrite app_nil_r. split; [reflexivity|]. split; [intros []|reflexivity].
    + intros E. destruct (IH _ _ _ _ E) as (x & -> & H1 & ->). exists (c :: x). split; [reflexivity|]. split.
      * intros [K|K]; [lia|tauto].
      * cbn [rev]. rewrite <- app_assoc. reflexivity.
Qed.
Lemma same_trans g h k : same_rules g h -> same_rules h k -> same_rules g k.
Proof. intros (A & B & C) (D & E & F). unfold same_rules. rewrite A, B, C. auto. Qed.

Theorem file_forms f fs : (forall name, ~ In 0%N (deliver (fs name))) -> forall file t mid g mid' g',
  gread f fs file t mid g = SOk (mid', g') -> ~ In 0%N t ->
  exists ds, f_file (fun n => deliver (fs n)) include_path file t ds /\ g_ids g' = g_ids g ++ map fst ds /\ mid' = (mid + N.of_nat (length ds))%N /\
    ((forall name e, In (name, e) ds -> sel_pats pat_ok e) -> same_rules g' (gather g mid ds)).
Proof.
  intros HF. induction f as [|f IH]; intros file t mid g mid' g'; cbn [gread]; [discriminate|].
  destruct (lskip1 t) as [t1| |] eqn:E1; try discriminate.
  destruct (lpeek t1 =? 0)%N eqn:EZ.
  { intros E H0. injection E as <- <-. exists []. cbn [map length gather]. rewrite app_nil_r, N.add_0_r.
    split; [|split; [reflexivity|]; split; [reflexivity|]; intros _; repeat split].
    constructor. destruct (lskip_form _ _ _ E1 H0) as [(b & Hb & ->)|[_ H]]; [|exact H].
    destruct t1 as [|c t1]; [rewrite app_nil_r; left; exact Hb|]. cbn in EZ. exfalso. apply H0. apply in_or_app. right. left. lia. }
  assert (N1 : t1 <> []) by (intros ->; discriminate).
  destruct (65536 <=? mid)%N; [discriminate|].
  destruct (lident t1) as [[id t2]| |] eqn:E2; try discriminate.
  destruct (lident_form _ _ _ E2) as (-> & Hn & Hsep).
  destruct (eqname id kw_grammar) eqn:EK.
  { apply eqname_spec in EK. subst id.
    destruct (lskip1 t2) as [t3| |] eqn:E3; try discriminate.
    destruct (lident t3) as [[nm t4]| |] eqn:E4; try discriminate.
    destruct (lident_form _ _ _ E4) as (-> & Hm & _).
    destruct (lskip1 t4) as [t5| |] eqn:E5; try discriminate. destruct (lpeek t5 =? 59)%N eqn:E6; [|discriminate].
    destruct (peek_cons t5 59%N ltac:(lia) ltac:(lia)) as (r & ->). cbn [tl]. intros E H0.
    destruct (lskip1_form _ _ E1 H0 N1) as (b & Hb & ->). destruct (nz_app _ _ H0) as [_ H1]. destruct (nz_app _ _ H1) as [_ H2].
    destruct (lskip1_form _ _ E3 H2) as (b1 & Hb1 & ->); [destruct nm; [destruct Hm|discriminate]|].
    destruct (nz_app _ _ H2) as [_ H3]. destruct (nz_app _ _ H3) as [_ H4].
    destruct (lskip1_form _ _ E5 H4 ltac:(discriminate)) as (b2 & Hb2 & ->). destruct (nz_app _ _ H4) as [_ H5].
    destruct (IH _ _ _ _ _ _ E) as (ds & K1 & K2 & K3 & K4). { intros K. apply H5. right. exact K. }
    exists ds. split; [|split; [exact K2|split; [exact K3|]]].
    - change kw_grammar with word_grammar. apply ff_name; try assumption. intros ->. cbn [app] in Hsep. destruct nm as [|c nm]; [destruct Hm|].
      cbn [app] in Hsep. apply Hsep. destruct Hm as [Hm _]. unfold sym_char. tauto.
    - intros HO. eapply same_trans; [exact (K4 HO)|]. apply same_gather. repeat split. }
  destruct (eqname id kw_include) eqn:EI.
  { apply eqname_spec in EI. subst id.
    destruct (lskip1 t2) as [t3| |] eqn:E3; try discriminate. destruct (lpeek t3 =? 34)%N eqn:E4; [|discriminate].
    destruct (peek_cons t3 34%N ltac:(lia) ltac:(lia)) as (u & ->). cbn [tl].
    destruct (path_loop f u []) as [[p t4]| |] eqn:E5; try discriminate.
    destruct (path_form _ _ _ _ _ E5) as (x & -> & Hx & Ep). cbn [rev app] in Ep. subst x.
    destruct (lskip1 t4) as [t5| |] eqn:E6; try discriminate. destruct (lpeek t5 =? 59)%N eqn:E7; [|discriminate].
    destruct (peek_cons t5 59%N ltac:(lia) ltac:(lia)) as (r & ->). cbn [tl].
    destruct (gread f fs (include_path file p) (deliver (fs (include_path file p))) mid g) as [[mid1 g1]| |] eqn:E8; try discriminate.
    intros E H0.
    destruct (lskip1_form _ _ E1 H0 N1) as (b & Hb & ->). destruct (nz_app _ _ H0) as [_ H1]. destruct (nz_app _ _ H1) as [_ H2].
    destruct (lskip1_form _ _ E3 H2 ltac:(discriminate)) as (b1 & Hb1 & ->). destruct (nz_app _ _ H2) as [_ H3].
    assert (H3' : ~ In 0%N (p ++ 34%N :: t4)) by (intros K; apply H3; right; exact K). destruct (nz_app _ _ H3') as [_ H4].
    assert (H4' : ~ In 0%N t4) by (intros K; apply H4; right; exact K).
    destruct (lskip1_form _ _ E6 H4' ltac:(discriminate)) as (b2 & Hb2 & ->). destruct (nz_app _ _ H4') as [_ H5].
    destruct (IH _ _ _ _ _ _ E8 (HF _)) as (ds & K1 & K2 & K3 & K4).
    destruct (IH _ _ _ _ _ _ E) as (ds' & J1 & J2 & J3 & J4). { intros K. apply H5. right. exact K. }
    exists (ds ++ ds'). split; [change kw_include with word_include; apply ff_include; assumption|].
    split; [rewrite J2, K2, map_app, app_assoc; reflexivity|]. split; [rewrite app_length; lia|].
    intros HO. rewrite gather_app. subst mid1. eapply same_trans; [apply J4|].
    - intros name e Hi. apply (HO name). apply in_or_app. right. exact Hi.
    - apply same_gather. apply K4. intros name e Hi. apply (HO name). apply in_or_app. left. exact Hi. }
  destruct (atn_parse (0 <? mid)%N t2) as [[M t3]| |] eqn:E3; try discriminate. intros E H0.
  destruct (lskip1_form _ _ E1 H0 N1) as (b & Hb & ->). destruct (nz_app _ _ H0) as [_ H1]. destruct (nz_app _ _ H1) as [_ H2].
  destruct (atn_parse_forms _ _ _ _ E3 H2) as (e & x & -> & He & KM). destruct (nz_app _ _ H2) as [_ H3].
  destruct (IH _ _ _ _ _ _ E H3) as (ds & K1 & K2 & K3 & K4).
  exists ((id, e) :: ds). split; [|split; [|split]].
  - apply ff_rule; try assumption; intros ->; [change word_grammar with kw_grammar in EK|change word_include with kw_include in EI]; rewrite eqname_refl in *; discriminate.
  - rewrite K2. unfold define. cbn [g_ids map fst]. rewrite <- app_assoc. reflexivity.
  - cbn [length]. lia.
  - intros HO. cbn [gather]. rewrite (KM (HO id e (or_introl eq_refl))) in *. apply K4. intros name e' Hi. apply (HO name). right. exact Hi.
Qed.
