(** What the reader accepts has one of the forms of SyntaxSpec.v. *)
From Coq Require Import List NArith Arith Bool Lia ZifyBool ZifyN ZifyNat.
From Verif Require Import CharClass CharClassSpec CharClassProofs CharClassParse Stream StreamSpec StreamProofs RegexSpec NFA NFASem NFAProofs NFABuild NFAParse GrammarSpec ATN ATNSem ATNBuild ATNParse SyntaxSpec.
Import ListNotations.
Local Open Scope nat_scope.

Lemma took_refl t : took t [] t.
Proof. left. reflexivity. Qed.
Lemma took_trans t x m y r : took t x m -> took m y r -> took t (x ++ y) r.
Proof.
  intros [->|(-> & k & <-)] [E|(-> & j & E)].
  - left. subst m. apply app_assoc.
  - right. split; [reflexivity|]. exists j. rewrite <- app_assoc, E. reflexivity.
  - right. symmetry in E. apply app_eq_nil in E as [-> ->]. split; [reflexivity|]. exists k. rewrite app_nil_r. reflexivity.
  - right. split; [reflexivity|]. cbn in E. exists (k + j). rewrite repeat_app, app_assoc, E. reflexivity.
Qed.
Lemma took_get t c r : lget t = (c, r) -> took t [c] r.
Proof.
  destruct t as [|d t]; cbn; intros E; injection E as <- <-.
  - right. split; [reflexivity|]. exists 1. reflexivity.
  - left. reflexivity.
Qed.
Lemma took_exact t x r : took t x r -> r <> [] -> t = x ++ r.
Proof. intros [H|[H _]] N0; congruence. Qed.

(** ** Patterns *)
Lemma suffix_form A t B r : parse_suffix A t = (B, r) -> exists q x, t = x ++ r /\ In x (q_texts q) /\ B = quantA q A.
Proof.
  unfold parse_suffix, starA.
  assert (D : forall B r, (A, t) = (B, r) -> exists q x, t = x ++ r /\ In x (q_texts q) /\ B = quantA q A).
  { intros B0 r0 E. injection E as <- <-. exists QOne, []. cbn. auto. }
  assert (D1 : forall t1 q c, t = c :: t1 -> In [c] (q_texts q) -> (quantA q A, t1) = (B, r) -> exists q x, t = x ++ r /\ In x (q_texts q) /\ B = quantA q A).
  { intros t1 q c -> Hi E. injection E as <- <-. exists q, [c]. auto. }
  assert (D2 : forall t1 q c d, t = c :: d :: t1 -> In [c; d] (q_texts q) -> (quantA q A, t1) = (B, r) -> exists q x, t = x ++ r /\ In x (q_texts q) /\ B = quantA q A).
  { intros t1 q c d -> Hi E. injection E as <- <-. exists q, [c; d]. auto. }
  destruct t as [|c t1]; [apply D|].
  destruct (N.eq_dec c 43) as [->|N1].
  { destruct t1 as [|d t2]; [apply (D1 [] (QPlus false) 43%N); cbn; auto|].
    destruct (N.eq_dec d 43) as [->|M1]; [apply (D2 t2 (QPlus true) 43%N 43%N); cbn; auto|].
    destruct (N.eq_dec d 63) as [->|M2]; [apply (D2 t2 (QPlus false) 43%N 63%N); cbn; auto|].
    destruct (N.eq_dec d 42) as [->|M3]; [apply (D2 t2 (QPlus false) 43%N 42%N); cbn; auto|].
    intros E. apply (D1 (d :: t2) (QPlus false) 43%N); [reflexivity|cbn; auto|]. rewrite <- E. clear - M1 M2 M3.
    destruct d as [|p]; [reflexivity|]. do 6 (destruct p as [p|p|]; try reflexivity); congruence. }
  destruct (N.eq_dec c 42) as [->|N2].
  { destruct t1 as [|d t2]; [apply (D1 [] (QStar false) 42%N); cbn; auto|].
    destruct (N.eq_dec d 43) as [->|M1]; [apply (D2 t2 (QStar true) 42%N 43%N); cbn; auto|].
    destruct (N.eq_dec d 63) as [->|M2]; [apply (D2 t2 (QStar false) 42%N 63%N); cbn; auto|].
    destruct (N.eq_dec d 42) as [->|M3]; [apply (D2 t2 (QStar false) 42%N 42%N); cbn; auto|].
    intros E. apply (D1 (d :: t2) (QStar false) 42%N); [reflexivity|cbn; auto|]. rewrite <- E. clear - M1 M2 M3.
    destruct d as [|p]; [reflexivity|]. do 6 (destruct p as [p|p|]; try reflexivity); congruence. }
  destruct (N.eq_dec c 63) as [->|N3].
  { destruct t1 as [|d t2]; [apply (D1 [] QOpt 63%N); cbn; auto|].
    destruct (N.eq_dec d 63) as [->|M2]; [apply (D2 t2 QOpt 63%N 63%N); cbn; auto|].
    destruct (N.eq_dec d 42) as [->|M3]; [apply (D2 t2 QOpt 63%N 42%N); cbn; auto|].
    intros E. apply (D1 (d :: t2) QOpt 63%N); [reflexivity|cbn; auto|]. rewrite <- E. clear - M2 M3.
    destruct d as [|p]; [reflexivity|]. do 6 (destruct p as [p|p|]; try reflexivity); congruence. }
  intros E. apply D. rewrite <- E. clear - N1 N2 N3.
  destruct c as [|p]; [reflexivity|]. do 6 (destruct p as [p|p|]; try reflexivity); congruence.
Qed.

(** The class of an accepted bracket. *)
Lemma bracket_form t cc r : cc_parse t = POk cc r -> exists a x, t = x ++ r /\ f_atom a (91%N :: x) /\ (atom_ok a -> cc = atom_cc a).
Proof.
  intros H. destruct (proj1 (cc_parse_accepted t r) (ex_intro _ cc H)) as (neg & l & w & Hw & -> & Hn).
  exists (if neg then ANot l else ASet l), (f_caret neg ++ w ++ [93%N]).
  split; [destruct neg; cbn; rewrite <- ?app_assoc; reflexivity|]. split.
  - apply fa_set; [exact Hw|]. intros ->. specialize (Hn eq_refl). cbn [app] in Hn. destruct w; [cbn; lia|exact Hn].
  - destruct neg; cbn [atom_ok atom_cc app] in *.
    + intros (H1 & _). rewrite (cc_parse_negated l) in H by assumption. congruence.
    + intros (H1 & H2 & _). rewrite (cc_parse_plain l) in H by assumption. congruence.
Qed.

Lemma pattern_forms f :
  (forall A t B r, parse_pat f A t = SOk (B, r) -> forall p0 x0, f_pat p0 x0 -> (pat_ok p0 -> A = build_pat p0) ->
     exists p x e, took t (x ++ [e]) r /\ f_end e /\ f_pat p (x0 ++ x) /\ (pat_ok p -> B = build_pat p)) /\
  (forall A t B r, parse_alts f A t = SOk (B, r) -> forall s0 x0, f_sel s0 x0 -> (sel_ok s0 -> A = build_sel s0) ->
     exists s x, took t x r /\ f_sel s (x0 ++ x) /\ (sel_ok s -> B = build_sel s)) /\
  (forall c t B r, parse_unit f nfa_base c t = SOk (B, r) ->
     exists u q x y, took t (x ++ y) r /\ f_unit u (c :: x) /\ In y (q_texts q) /\ (unit_ok u -> B = quantA q (build_unit u))).
Proof.
  induction f as [|f (IHp & IHa & IHu)].
  { repeat split; intros; discriminate. }
  split; [|split].
  - intros A t B r. cbn [parse_pat]. destruct (lget t) as [c t1] eqn:EG. apply took_get in EG.
    destruct ((c =? 41) || (c =? 47) || (c =? 0))%N eqn:EC.
    { intros E. injection E as <- <-. intros p0 x0 Hp HB. exists p0, [], c. rewrite app_nil_r. split; [exact EG|].
      split; [unfold f_end; cbn; lia|]. auto. }
    destruct (parse_unit f nfa_base c t1) as [[B0 t2]| |] eqn:E1; try discriminate.
    destruct (parse_alts f B0 t2) as [[B1 t3]| |] eqn:E2; try discriminate.
    intros E3 p0 x0 Hp HB.
    destruct (IHu _ _ _ _ E1) as (u & q & x & y & K1 & Hu & Hy & KB).
    destruct (IHa _ _ _ _ E2 (SOne u q) ((c :: x) ++ y)) as (s & z & K2 & Hs & KS); [constructor; assumption|exact KB|].
    assert (HP : f_pat (PSnoc p0 s) (x0 ++ c :: (x ++ y) ++ z)).
    { apply fp_snoc; [exact Hp| |unfold f_end; cbn; lia]. cbn [app] in Hs. exact Hs. }
    destruct (IHp _ _ _ _ E3 _ _ HP) as (p & w & e & K3 & He & Hf & KP).
    { cbn [pat_ok build_pat]. intros [O1 O2]. rewrite (HB O1), (KS O2). reflexivity. }
    exists p, ((c :: (x ++ y) ++ z) ++ w), e. split; [|split; [exact He|split; [|exact KP]]].
    + replace (((c :: (x ++ y) ++ z) ++ w) ++ [e]) with ([c] ++ ((x ++ y) ++ z ++ w ++ [e])) by (cbn; rewrite <- !app_assoc; reflexivity).
      eapply took_trans; [exact EG|]. eapply took_trans; [exact K1|]. eapply took_trans; [exact K2|]. exact K3.
    + rewrite app_assoc. exact Hf.
  - intros A t B r. cbn [parse_alts]. destruct (lpeek t =? 124)%N eqn:EP.
    2:{ intros E. injection E as <- <-. intros s0 x0 Hs HB. exists s0, []. rewrite app_nil_r. split; [apply took_refl|]. auto. }
    destruct (peek_cons t 124%N ltac:(lia) ltac:(lia)) as (t' & ->). cbn [tl].
    destruct (lget t') as [c t1] eqn:EG. apply took_get in EG.
    destruct (parse_unit f nfa_base c t1) as [[B0 t2]| |] eqn:E1; try discriminate.
    intros E3 s0 x0 Hs HB.
    destruct (IHu _ _ _ _ E1) as (u & q & x & y & K1 & Hu & Hy & KB).
    destruct (IHa _ _ _ _ E3 (SAlt s0 u q) (x0 ++ 124%N :: (c :: x) ++ y)) as (s & z & K2 & Hs' & KS).
    { constructor; assumption. }
    { cbn [sel_ok build_sel]. intros [O1 O2]. rewrite (HB O1), (KB O2). reflexivity. }
    exists s, ((124%N :: (c :: x) ++ y) ++ z). split; [|split; [rewrite app_assoc; exact Hs'|exact KS]].
    replace ((124%N :: (c :: x) ++ y) ++ z) with ([124%N] ++ [c] ++ (x ++ y) ++ z) by (cbn; rewrite <- !app_assoc; reflexivity).
    eapply took_trans; [left; reflexivity|]. eapply took_trans; [exact EG|]. eapply took_trans; [exact K1|exact K2].
  - intros c t B r. cbn [parse_unit].
    match goal with |- match ?X with _ => _ end = _ -> _ =>
      assert (G : forall A1 t1, X = SOk (A1, t1) -> exists u x, took t x t1 /\ f_unit u (c :: x) /\ (unit_ok u -> A1 = build_unit u));
      [|destruct X as [[A1 t1]| |]; try discriminate] end.
    { intros A1 t1. destruct (c =? 92)%N eqn:C1.
      - destruct (lget t) as [d t2] eqn:EG. apply took_get in EG. destruct (nfa_escapable d) eqn:ED; [|discriminate].
        intros E. injection E as <- <-. exists (UAtom (AChar d)), [d]. split; [exact EG|]. split; [|auto].
        assert (c = 92%N) as -> by lia. constructor. apply fa_esc. exact ED.
      - destruct (c =? 91)%N eqn:C2.
        + destruct (cc_parse t) as [cc r0|] eqn:E; [|discriminate]. intros K. injection K as <- <-.
          destruct (bracket_form _ _ _ E) as (a & x & -> & Ha & KA). exists (UAtom a), x. split; [left; reflexivity|].
          assert (c = 91%N) as -> by lia. split; [constructor; exact Ha|]. cbn [unit_ok build_unit]. intros O1. rewrite (KA O1). reflexivity.
        + destruct (c =? 46)%N eqn:C3.
          { intros K. injection K as <- <-. exists (UAtom ADot), []. split; [apply took_refl|]. split; [|auto].
            assert (c = 46%N) as -> by lia. constructor. constructor. }
          destruct (c =? 40)%N eqn:C4.
          2:{ intros K. injection K as <- <-. exists (UAtom (AChar c)), []. split; [apply took_refl|]. split; [|auto].
              constructor. apply fa_char. cbn. lia. }
          destruct (parse_pat f nfa_base t) as [[B0 t2]| |] eqn:E; try discriminate. intros K. injection K as <- <-.
          destruct (IHp _ _ _ _ E PNil [] fp_nil (fun _ => eq_refl)) as (p & x & e & K1 & He & Hp & KP).
          exists (UGroup p), (x ++ [e]). split; [exact K1|]. assert (c = 40%N) as -> by lia.
          split; [constructor; [exact Hp|exact He]|]. cbn [unit_ok build_unit]. intros O1. rewrite (KP O1). reflexivity. }
    specialize (G A1 t1 eq_refl). destruct G as (u & x & K1 & Hu & KU). intros E.
    assert (E' : parse_suffix A1 t1 = (B, r)) by congruence.
    destruct (suffix_form _ _ _ _ E') as (q & y & -> & Hy & ->).
    exists u, q, x, y. split; [eapply took_trans; [exact K1|left; reflexivity]|]. split; [exact Hu|]. split; [exact Hy|].
    intros O1. rewrite (KU O1). reflexivity.
Qed.
Theorem nfa_parse_forms t A r : nfa_parse t = SOk (A, r) ->
  exists p x e, took t (x ++ [e]) r /\ f_end e /\ f_pat p x /\ (pat_ok p -> A = build_pat p).
Proof. intros H. exact (proj1 (pattern_forms _) _ _ _ _ H PNil [] fp_nil (fun _ => eq_refl)). Qed.

(** ** White space *)
Lemma nz_app (a b : list N) : ~ In 0%N (a ++ b) -> ~ In 0%N a /\ ~ In 0%N b.
Proof. rewrite in_app_iff. tauto. Qed.
Lemma lskip_form f : forall l r, lskip f l = SOk r -> ~ In 0%N l -> (exists b, btext b /\ l = b ++ r) \/ (r = [] /\ f_last l).
Proof.
  induction f as [|f IH]; intros l r; cbn [lskip]; [discriminate|].
  assert (D : forall l r : list N, SOk l = SOk r -> (exists b, btext b /\ l = b ++ r) \/ (r = [] /\ f_last l)).
  { intros l0 r0 E. injection E as <-. left. exists []. split; [constructor|reflexivity]. }
  destruct l as [|c t]; [intros E _; apply D; exact E|].
  destruct (isspace c) eqn:Es.
  { intros E H0. assert (Hc : (c = 32 \/ 9 <= c /\ c <= 13)%N) by (unfold isspace in Es; lia).
    destruct (IH _ _ E) as [(b & Hb & ->)|(-> & [Hb|(b0 & body & Hb & H10 & ->)])].
    - intros K. apply H0. right. exact K.
    - left. exists (c :: b). split; [constructor; assumption|reflexivity].
    - right. split; [reflexivity|]. left. constructor; assumption.
    - right. split; [reflexivity|]. right. exists (c :: b0), body. split; [constructor; assumption|]. split; [exact H10|reflexivity]. }
  destruct (c =? 47)%N eqn:Ec; [|intros E _; apply D; exact E]. assert (c = 47%N) as -> by lia.
  destruct t as [|d t]; [intros E _; apply D; exact E|].
  destruct (d =? 42)%N eqn:Ed.
  - assert (d = 42%N) as -> by lia. destruct (lskip_block t) as [x|] eqn:EB; [|discriminate]. intros E H0.
    assert (H1 : ~ In 0%N t) by (intros K; apply H0; right; right; exact K).
    pose proof (lskip_block_spec t H1) as SB. rewrite EB in SB. destruct SB as (body & -> & Ho).
    destruct (nz_app _ _ H1) as [H2 H3].
    destruct (IH _ _ E) as [(b & Hb & ->)|(-> & [Hb|(b0 & bd & Hb & H10 & ->)])].
    + intros K. apply H3. right. right. exact K.
    + left. exists (47%N :: 42%N :: body ++ 42%N :: 47%N :: b). split; [constructor; assumption|cbn; rewrite <- app_assoc; reflexivity].
    + right. split; [reflexivity|]. left. constructor; assumption.
    + right. split; [reflexivity|]. right. exists (47%N :: 42%N :: body ++ 42%N :: 47%N :: b0), bd. split; [constructor; assumption|]. split; [exact H10|].
      cbn. rewrite <- app_assoc. reflexivity.
  - destruct (d =? 47)%N eqn:Ed2; [|intros E _; apply D; exact E]. assert (d = 47%N) as -> by lia. intros E H0.
    assert (H1 : ~ In 0%N t) by (intros K; apply H0; right; right; exact K).
    destruct (lskip_line_spec t H1) as [(body & Et & H10)|(El & H10)].
    + assert (H2 : ~ In 0%N body /\ ~ In 0%N (10%N :: lskip_line t)) by (rewrite Et in H1; apply nz_app; exact H1).
      destruct (IH _ _ E) as [(b & Hb & Eb)|(-> & [Hb|(b0 & bd & Hb & H10' & Eb)])].
      * intros K. apply H2. right. exact K.
      * left. exists (47%N :: 47%N :: body ++ 10%N :: b). split; [constructor; tauto|]. cbn. do 2 f_equal. rewrite Et at 1. rewrite Eb. rewrite <- app_assoc. reflexivity.
      * right. split; [reflexivity|]. left. rewrite Et. constructor; tauto.
      * right. split; [reflexivity|]. right. exists (47%N :: 47%N :: body ++ 10%N :: b0), bd. split; [constructor; tauto|]. split; [exact H10'|].
        cbn. do 2 f_equal. rewrite Et at 1. rewrite Eb. rewrite <- app_assoc. reflexivity.
    + rewrite El in E. assert (r = []) as -> by (destruct f; cbn in E; congruence). right. split; [reflexivity|]. right.
      exists [], t. split; [constructor|]. split; [exact H10|reflexivity].
Qed.
Lemma lskip1_form t r : lskip1 t = SOk r -> ~ In 0%N t -> r <> [] -> exists b, btext b /\ t = b ++ r.
Proof. intros E H0 Hr. destruct (lskip_form _ _ _ E H0) as [H|[H _]]; [exact H|contradiction]. Qed.
Lemma lskip1_nil : lskip1 [] = SOk [].
Proof. reflexivity. Qed.
Lemma peek_nil_ne t c : lpeek t = c -> c <> 0%N -> t <> [].
Proof. intros H N0 ->. cbn in H. congruence. Qed.

(** ** Terms *)
Lemma lident_loop_form l a r : lident_loop l = (a, r) -> l = a ++ r /\ (forall x, In x a -> sym_char x) /\ match r with c :: _ => ~ sym_char c | [] => True end.
Proof.
  revert a r. induction l as [|c t IH]; intros a r; cbn [lident_loop].
  - intros E. injection E as <- <-. split; [reflexivity|]. split; [intros x []|exact I].
  - destruct (is_symchar c) eqn:E.
    + destruct (lident_loop t) as [a0 r0]. intros K. injection K as <- <-. destruct (IH _ _ eq_refl) as (-> & H1 & H2).
      split; [reflexivity|]. split; [|exact H2]. intros x [<-|Hx]; [apply symchar_spec; exact E|auto].
    + intros K. injection K as <- <-. split; [reflexivity|]. split; [intros x []|]. intros K. apply symchar_spec in K. congruence.
Qed.
Lemma lident_form l a r : lident l = SOk (a, r) -> l = a ++ r /\ is_name a /\ match r with c :: _ => ~ sym_char c | [] => True end.
Proof.
  destruct l as [|c t]; cbn [lident]; [discriminate|]. destruct (is_leader c) eqn:E; [|discriminate].
  destruct (lident_loop t) as [a0 r0] eqn:EL. intros K. injection K as <- <-. destruct (lident_loop_form _ _ _ EL) as (-> & H1 & H2).
  split; [reflexivity|]. split; [|exact H2]. split; [|exact H1]. unfold is_leader, isalpha, letter in *. lia.
Qed.
Lemma lit_loop_form q t : forall acc s r, lit_loop q t acc = SOk (s, r) -> exists x, t = x ++ q :: r /\ ~ In q x /\ ~ In 0%N x /\ s = rev acc ++ map narrow x.
Proof.
  induction t as [|c t IH]; intros acc s r; cbn [lit_loop]; [discriminate|].
  destruct (c =? q)%N eqn:E1.
  { intros E. injection E as <- <-. assert (c = q) as -> by lia. exists []. cbn. rewrite app_nil_r. auto. }
  destruct (c =? 0)%N eqn:E2; [discriminate|]. intros E. destruct (IH _ _ _ E) as (x & -> & H1 & H2 & ->).
  exists (c :: x). split; [reflexivity|]. split; [cbn; intros [K|K]; [lia|tauto]|]. split; [cbn; intros [K|K]; [lia|tauto]|].
  cbn [rev map]. rewrite <- app_assoc. reflexivity.
Qed.
Lemma digits_form t : exists d, t = d ++ digits_loop t /\ forall c, In c d -> digit c.
Proof.
  induction t as [|c t (d & E & H)]; cbn [digits_loop]; [exists []; split; [reflexivity|intros c []]|].
  destruct (isdigit c) eqn:Ec.
  - exists (c :: d). split; [cbn; f_equal; exact E|]. intros x [<-|Hx]; [unfold isdigit, digit in *; lia|auto].
  - exists []. split; [reflexivity|intros x []].
Qed.
Lemma localid_nil r : parse_localid [] = SOk r -> r = [].
Proof. cbn. congruence. Qed.
Lemma localid_form t r : parse_localid t = SOk r -> ~ In 0%N t -> r <> [] -> exists b l, btext b /\ w_local l /\ t = b ++ l ++ r.
Proof.
  unfold parse_localid. destruct (lskip1 t) as [t1| |] eqn:E1; try discriminate. intros E H0 Hr.
  destruct (lpeek t1 =? 123)%N eqn:EP.
  2:{ injection E as <-. destruct (lskip1_form _ _ E1 H0 Hr) as (b & Hb & ->). exists b, []. split; [exact Hb|]. split; [constructor|reflexivity]. }
  destruct (peek_cons t1 123%N ltac:(lia) ltac:(lia)) as (u & ->). cbn [tl] in E.
  destruct (lskip1_form _ _ E1 H0 ltac:(discriminate)) as (b & Hb & ->).
  destruct (nz_app _ _ H0) as [_ H1]. assert (H2 : ~ In 0%N u) by (intros K; apply H1; right; exact K).
  destruct (lskip1 u) as [t2| |] eqn:E2; try discriminate. destruct (lpeek t2 =? 125)%N eqn:EQ; [discriminate|].
  destruct (lskip1 (digits_loop t2)) as [t3| |] eqn:E3; try discriminate.
  destruct (lpeek t3 =? 125)%N eqn:ER; [|discriminate].
  destruct (peek_cons t3 125%N ltac:(lia) ltac:(lia)) as (v & ->). cbn [tl] in E.
  assert (N2 : t2 <> []) by (intros ->; cbn in E3; discriminate).
  destruct (lskip1_form _ _ E2 H2 N2) as (b1 & Hb1 & ->).
  destruct (digits_form t2) as (d & Ed & Hd). destruct (nz_app _ _ H2) as [_ H3].
  assert (H4 : ~ In 0%N (digits_loop t2)) by (rewrite Ed in H3; apply nz_app in H3; tauto).
  destruct (lskip1_form _ _ E3 H4 ltac:(discriminate)) as (b2 & Hb2 & Ev).
  assert (H5 : ~ In 0%N v) by (rewrite Ev in H4; apply nz_app in H4; intros K; apply (proj2 H4); right; exact K).
  destruct (lskip1_form _ _ E H5 Hr) as (b3 & Hb3 & ->).
  exists b, (123%N :: b1 ++ d ++ b2 ++ 125%N :: b3). split; [exact Hb|]. split.
  - constructor; try assumption. intros ->. cbn [app] in Ed. rewrite <- Ed in E3.
    pose proof (lskip_ok_tok _ _ _ E2) as T. rewrite (tok_skip _ T) in E3. injection E3 as ->. cbn in EQ. discriminate.
  - rewrite Ed at 1. rewrite Ev. cbn. rewrite <- !app_assoc. cbn. rewrite <- ?app_assoc. reflexivity.
Qed.
Lemma node_form t n r : parse_node t = SOk (n, r) -> ~ In 0%N t -> r <> [] ->
  exists x w b l, f_term x w /\ btext b /\ w_local l /\ t = w ++ b ++ l ++ r /\ separated x (b ++ l ++ r) /\ (atom_pats pat_ok (GTerm x) -> n = term_nty x).
Proof.
  unfold parse_node. intros E H0 Hr.
  assert (FIN : forall w t1, t = w ++ t1 -> parse_localid t1 = SOk r -> exists b l, btext b /\ w_local l /\ t1 = b ++ l ++ r).
  { intros w t1 Et El. apply localid_form; [exact El| |exact Hr]. rewrite Et in H0. apply nz_app in H0. tauto. }
  destruct (is_leader (lpeek t)) eqn:E1.
  { destruct (lident t) as [[s t1]| |] eqn:EI; try discriminate. destruct (parse_localid t1) as [t2| |] eqn:EL; try discriminate. injection E as <- ->.
    destruct (lident_form _ _ _ EI) as (-> & Hn & Hs). destruct (FIN _ _ eq_refl EL) as (b & l & Hb & Hl & ->).
    exists (TRule s), s, b, l. split; [constructor; exact Hn|]. split; [exact Hb|]. split; [exact Hl|]. split; [reflexivity|]. split; [|auto].
    unfold separated. destruct (b ++ l ++ r); [exact I|exact Hs]. }
  destruct (lpeek t =? 47)%N eqn:E2.
  { destruct (peek_cons t 47%N ltac:(lia) ltac:(lia)) as (u & ->). cbn [tl] in E.
    destruct (nfa_parse u) as [[A t1]| |] eqn:EN; try discriminate. destruct (parse_localid t1) as [t2| |] eqn:EL; try discriminate. injection E as <- ->.
    destruct (nfa_parse_forms _ _ _ EN) as (p & x & e & T & He & Hp & KA).
    assert (Nt : t1 <> []) by (intros ->; apply Hr; exact (localid_nil _ EL)).
    apply took_exact in T; [|exact Nt]. rewrite T in FIN. destruct (FIN (47%N :: x ++ [e]) t1 eq_refl EL) as (b & l & Hb & Hl & ->).
    exists (TPat p), (47%N :: x ++ [e]), b, l. split; [constructor; assumption|]. split; [exact Hb|]. split; [exact Hl|]. split; [rewrite T; reflexivity|].
    split; [exact I|]. cbn. intros O1. rewrite (KA O1). reflexivity. }
  destruct ((lpeek t =? 39) || (lpeek t =? 34))%N eqn:E3; [|discriminate].
  destruct (peek_cons t (lpeek t) eq_refl ltac:(lia)) as (u & Et). set (q := lpeek t) in *. clearbody q. subst t. cbn [tl] in E.
  destruct (lit_loop q u []) as [[s t1]| |] eqn:EL; try discriminate. destruct (parse_localid t1) as [t2| |] eqn:EL2; try discriminate. injection E as <- ->.
  destruct (lit_loop_form _ _ _ _ _ EL) as (x & -> & H1 & H2 & ->).
  destruct (FIN (q :: x ++ [q]) t1 ltac:(cbn; rewrite <- app_assoc; reflexivity) EL2) as (b & l & Hb & Hl & ->).
  exists (TLit x), (q :: x ++ [q]), b, l. split; [constructor; [lia|assumption..]|]. split; [exact Hb|]. split; [exact Hl|].
  split; [cbn; rewrite <- app_assoc; reflexivity|]. split; [exact I|auto].
Qed.
Lemma quant_form M o a t M' r : parse_quant M o a t = (M', r) -> exists q, t = gq_text q ++ r /\ M' = quantM q M o a.
Proof.
  unfold parse_quant.
  destruct (lpeek t =? 42)%N eqn:E1.
  { destruct (peek_cons t 42%N ltac:(lia) ltac:(lia)) as (u & ->). intros E. injection E as <- <-. exists GStar. auto. }
  destruct (lpeek t =? 43)%N eqn:E2.
  { destruct (peek_cons t 43%N ltac:(lia) ltac:(lia)) as (u & ->). intros E. injection E as <- <-. exists GPlus. auto. }
  destruct (lpeek t =? 63)%N eqn:E3.
  { destruct (peek_cons t 63%N ltac:(lia) ltac:(lia)) as (u & ->). intros E. injection E as <- <-. exists GOpt. auto. }
  intros E. injection E as <- <-. exists GOne. auto.
Qed.

Lemma sep_app x a rest : separated x (a ++ rest) -> separated x a.
Proof. destruct x; try (intros; exact I). destruct a; [intros; exact I|]. auto. Qed.

(** ** Rule bodies *)
Definition mergeA (x : atn * nat * list nat) : atn := let '(M, _, ts) := x in join M ts.
Lemma seq_nil f ws M r : parse_seq f ws M [] <> SOk r.
Proof.
  destruct f as [|f]; [discriminate|]. cbn [parse_seq]. rewrite lskip1_nil. cbn [lpeek]. destruct f as [|f]; [discriminate|].
  cbn. discriminate.
Qed.
Lemma body_forms f ws :
  (forall M t M' r, parse_atom f ws M t = SOk (M', r) -> ~ In 0%N t -> r <> [] ->
     exists a q x, t = x ++ r /\ (forall s y rest, r = y ++ rest -> f_seq s y -> f_seq (GCons a q s) (x ++ y)) /\
       (atom_pats pat_ok a -> M' = quantM q (batom ws a M) (length M - 1) (length M))) /\
  (forall M t M' r, parse_sel f ws M t = SOk (M', r) -> ~ In 0%N t ->
     exists e x, t = x ++ r /\ f_gsel e x /\ (lpeek r = 59%N \/ lpeek r = 41%N) /\ (sel_pats pat_ok e -> M' = bsel ws e M)) /\
  (forall M o p ts t M' r, parse_galts f ws M o p ts t = SOk (M', r) -> ~ In 0%N t -> forall mk pre M0,
     (forall s y, f_seq s y -> f_gsel (mk s) (pre ++ y)) ->
     (forall s, sel_pats pat_ok (mk s) -> seq_pats pat_ok s /\
        balts ws (mk s) M0 o = (bseq ws s (add_node M o p), p, ts ++ [length (bseq ws s (add_node M o p)) - 1])) ->
     exists e x, t = x ++ r /\ f_gsel e (pre ++ x) /\ (lpeek r = 59%N \/ lpeek r = 41%N) /\ (sel_pats pat_ok e -> M' = mergeA (balts ws e M0 o))) /\
  (forall M t M' r, parse_seq f ws M t = SOk (M', r) -> ~ In 0%N t ->
     endch r /\ exists s x, t = x ++ r /\ f_seq s x /\ (seq_pats pat_ok s -> M' = bseq ws s M)).
Proof.
  induction f as [|f (IHa & IHe & IHg & IHs)].
  { repeat split; intros; discriminate. }
  split; [|split; [|split]].
  - intros M t M' r. cbn [parse_atom]. destruct (lskip1 t) as [t1| |] eqn:E1; try discriminate.
    destruct (lpeek t1 =? 40)%N eqn:EP.
    + destruct (peek_cons t1 40%N ltac:(lia) ltac:(lia)) as (u & ->). cbn [tl].
      destruct (parse_sel f ws M u) as [[M1 t2]| |] eqn:E2; try discriminate.
      destruct (lskip1 t2) as [t3| |] eqn:E3; try discriminate. destruct (lpeek t3 =? 41)%N eqn:E4; [|discriminate].
      destruct (peek_cons t3 41%N ltac:(lia) ltac:(lia)) as (v & ->). cbn [tl].
      destruct (lskip1 v) as [t4| |] eqn:E5; try discriminate. intros E H0 Hr. assert (E' : parse_quant M1 (length M - 1) (length M) t4 = (M', r)) by congruence.
      destruct (quant_form _ _ _ _ _ _ E') as (q & -> & ->).
      destruct (lskip1_form _ _ E1 H0 ltac:(discriminate)) as (b & Hb & ->). destruct (nz_app _ _ H0) as [_ H1].
      assert (H2 : ~ In 0%N u) by (intros K; apply H1; right; exact K).
      destruct (IHe _ _ _ _ E2 H2) as (e & x & -> & He & Hh & KE).
      assert (E3' : t2 = 41%N :: v).
      { destruct t2 as [|c t2]; [cbn in Hh; lia|]. cbn [lpeek] in Hh.
        rewrite tok_skip in E3 by (apply tok_char; [unfold isspace; lia|lia]). congruence. }
      subst t2. destruct (nz_app _ _ H2) as [_ H3]. assert (H4 : ~ In 0%N v) by (intros K; apply H3; right; exact K).
      assert (N4 : gq_text q ++ r <> []) by (intros K; apply app_eq_nil in K; tauto).
      destruct (lskip1_form _ _ E5 H4 N4) as (b1 & Hb1 & ->).
      exists (GGroup e), q, (b ++ 40%N :: x ++ 41%N :: b1 ++ gq_text q). split; [cbn; rewrite <- !app_assoc; cbn; rewrite <- !app_assoc; cbn; rewrite <- !app_assoc; reflexivity|]. split.
      * intros s y rest _ Hs. rewrite <- !app_assoc. cbn. rewrite <- !app_assoc. cbn. rewrite <- !app_assoc. apply fq_group; assumption.
      * cbn [atom_pats]. intros O1. rewrite (KE O1). reflexivity.
    + destruct (parse_node t1) as [[n t2]| |] eqn:E2; try discriminate.
      destruct (lskip1 t2) as [t3| |] eqn:E3; try discriminate. intros E H0 Hr.
      match goal with H : SOk (parse_quant ?X ?Y ?Z ?W) = _ |- _ => assert (E' : parse_quant X Y Z W = (M', r)) by congruence end. clear E.
      rewrite push_term_eq in E'. destruct (quant_form _ _ _ _ _ _ E') as (q & -> & ->).
      assert (N3 : gq_text q ++ r <> []) by (intros K; apply app_eq_nil in K; tauto).
      assert (N2 : t2 <> []) by (intros ->; cbn in E3; congruence).
      assert (N1 : t1 <> []) by (intros ->; cbn in E2; discriminate).
      destruct (lskip1_form _ _ E1 H0 N1) as (b & Hb & ->). destruct (nz_app _ _ H0) as [_ H1].
      destruct (node_form _ _ _ E2 H1 N2) as (x & w & b1 & l & Hx & Hb1 & Hl & -> & Hsep & KN).
      assert (T2 : t2 = gq_text q ++ r).
      { assert (T : tok t2). { unfold parse_node in E2. clear - E2. 
          assert (G : forall t1, parse_localid t1 = SOk t2 -> tok t2).
          { intros t1. unfold parse_localid. destruct (lskip1 t1) as [a| |] eqn:A1; try discriminate.
            destruct (lpeek a =? 123)%N; [|intros E; injection E as <-; exact (lskip_ok_tok _ _ _ A1)].
            destruct (lskip1 (tl a)) as [c| |]; try discriminate. destruct (lpeek c =? 125)%N; [discriminate|].
            destruct (lskip1 (digits_loop c)) as [d| |]; try discriminate. destruct (lpeek d =? 125)%N; [|discriminate]. intros E. exact (lskip_ok_tok _ _ _ E). }
          revert E2. repeat match goal with |- context [match ?X with _ => _ end] => destruct X eqn:?; try discriminate end; intros K; injection K as _ <-; eauto. }
        rewrite (tok_skip _ T) in E3. congruence. }
      subst t2. exists (GTerm x), q, (b ++ w ++ b1 ++ l ++ gq_text q). split; [rewrite <- !app_assoc; reflexivity|]. split.
      * intros s y rest Er Hs. rewrite <- !app_assoc. apply fq_term; try assumption. subst r. apply (sep_app x _ rest).
        rewrite <- !app_assoc. exact Hsep.
      * intros O1. rewrite (KN O1). reflexivity.
  - intros M t M' r. cbn [parse_sel]. intros E H0.
    destruct (IHg _ _ _ _ _ _ _ E H0 GFirst [] (add_node M (length M - 1) 0)) as (e & x & -> & He & Hh & KE).
    + intros s y Hs. constructor. exact Hs.
    + intros s O1. split; [exact O1|reflexivity].
    + exists e, x. split; [reflexivity|]. split; [exact He|]. split; [exact Hh|]. intros O1. rewrite (KE O1). reflexivity.
  - intros M o p ts t M' r. cbn [parse_galts]. destruct (parse_seq f ws (add_node M o p) t) as [[M1 t1]| |] eqn:E1; try discriminate.
    destruct (lskip1 t1) as [t2| |] eqn:E2; try discriminate. intros E H0 mk pre M0 HF HB.
    destruct (IHs _ _ _ _ E1 H0) as (He & s & x & -> & Hs & KS). rewrite (tok_skip _ (endch_tok _ He)) in E2. injection E2 as <-.
    destruct (nz_app _ _ H0) as [_ H1]. cbv zeta in E.
    destruct ((lpeek t1 =? 59) || (lpeek t1 =? 41))%N eqn:C1.
    { injection E as <- <-. exists (mk s), x. split; [reflexivity|]. split; [apply HF; exact Hs|]. split; [lia|].
      intros O1. destruct (HB s O1) as [O2 EB]. rewrite EB. unfold mergeA. rewrite (KS O2). reflexivity. }
    destruct (lpeek t1 =? 124)%N eqn:C2; [|discriminate].
    destruct (peek_cons t1 124%N ltac:(lia) ltac:(lia)) as (u & ->). cbn [tl] in E.
    assert (H2 : ~ In 0%N u) by (intros K; apply H1; right; exact K).
    assert (G : forall (up : bool) v, u = (if up then [62%N] else []) ++ v -> ~ In 0%N v ->
      parse_galts f ws M1 o (if up then S p else p) (ts ++ [length M1 - 1]) v = SOk (M', r) ->
      exists e x0, (x ++ 124%N :: u) = x0 ++ r /\ f_gsel e (pre ++ x0) /\ (lpeek r = 59%N \/ lpeek r = 41%N) /\ (sel_pats pat_ok e -> M' = mergeA (balts ws e M0 o))).
    { intros up v -> Hv Ev.
      destruct (IHg _ _ _ _ _ _ _ Ev Hv (GAlt (mk s) up) ((pre ++ x) ++ 124%N :: (if up then [62%N] else [])) M0) as (e & y & -> & Hf & Hh & KE).
      - intros s' y Hs'. rewrite <- app_assoc. cbn [app]. apply fe_alt; [apply HF; exact Hs|exact Hs'].
      - cbn [sel_pats balts]. intros s' [O1 O2]. split; [exact O2|]. destruct (HB s O1) as [O3 EB]. rewrite EB. rewrite (KS O3). reflexivity.
      - exists e, (x ++ 124%N :: (if up then [62%N] else []) ++ y). split; [rewrite <- !app_assoc; cbn; rewrite <- ?app_assoc; reflexivity|].
        split; [|split; [exact Hh|exact KE]]. rewrite <- !app_assoc in Hf. cbn in Hf. exact Hf. }
    destruct (lpeek u =? 62)%N eqn:C3.
    + destruct (peek_cons u 62%N ltac:(lia) ltac:(lia)) as (v & ->). cbn [tl] in E. apply (G true v); [reflexivity| |exact E].
      intros K; apply H2; right; exact K.
    + apply (G false u); [reflexivity|exact H2|exact E].
  - intros M t M' r. cbn [parse_seq]. destruct (lskip1 t) as [t1| |] eqn:E1; try discriminate. cbv zeta.
    destruct ((lpeek t1 =? 124) || (lpeek t1 =? 41) || (lpeek t1 =? 59))%N eqn:EC.
    { intros E H0. injection E as <- <-. assert (N1 : t1 <> []) by (eapply peek_nil_ne; [reflexivity|lia]).
      split; [destruct t1 as [|c t1]; [congruence|]; exists c, t1; cbn in EC; split; [reflexivity|lia]|].
      destruct (lskip1_form _ _ E1 H0 N1) as (b & Hb & ->). exists GNil, b. split; [reflexivity|]. split; [constructor; exact Hb|auto]. }
    destruct (parse_atom f ws M t1) as [[M1 t2]| |] eqn:E2; try discriminate. intros E H0.
    assert (N2 : t2 <> []) by (intros ->; eapply seq_nil; exact E).
    assert (N1 : t1 <> []).
    { intros ->. destruct f; [discriminate|]. cbn in E2. discriminate. }
    destruct (lskip1_form _ _ E1 H0 N1) as (b & Hb & ->). destruct (nz_app _ _ H0) as [_ H1].
    destruct (IHa _ _ _ _ E2 H1 N2) as (a & q & x & -> & HF & KA). destruct (nz_app _ _ H1) as [_ H2].
    destruct (IHs _ _ _ _ E H2) as (He & s & y & -> & Hs & KS).
    split; [exact He|]. exists (GCons a q s), (b ++ x ++ y). split; [rewrite <- !app_assoc; reflexivity|]. split.
    + pose proof (HF s y r eq_refl Hs) as HQ. inversion HQ as [|b0 x0 t0 b1 l q0 s0 r0 B1 B2 B3 B4 B5 B6|b0 e t0 b1 q0 s0 r0 B1 B2 B3 B4]; subst.
      * rewrite app_assoc. apply fq_term; auto using btext_app.
      * rewrite app_assoc. apply fq_group; auto using btext_app.
    + cbn [seq_pats bseq]. intros [O1 O2]. rewrite (KS O2), (KA O1). reflexivity.
Qed.
Theorem atn_parse_forms ws t M r : atn_parse ws t = SOk (M, r) -> ~ In 0%N t ->
  exists e x, t = x ++ r /\ f_body e x /\ (sel_pats pat_ok e -> M = build_body ws e).
Proof.
  unfold atn_parse. destruct (lskip1 t) as [t1| |] eqn:E1; try discriminate. destruct (lpeek t1 =? 58)%N eqn:E2; [|discriminate].
  destruct (peek_cons t1 58%N ltac:(lia) ltac:(lia)) as (u & ->). cbn [tl]. set (fu := 4 * length (58%N :: u) + 4). clearbody fu.
  destruct (parse_sel fu ws [blank] u) as [[M1 t2]| |] eqn:E3; try discriminate.
  destruct (lskip1 t2) as [t3| |] eqn:E4; try discriminate. destruct (lpeek t3 =? 59)%N eqn:E5; [|discriminate].
  destruct (peek_cons t3 59%N ltac:(lia) ltac:(lia)) as (v & ->). cbn [tl]. intros E H0. injection E as <- <-.
  destruct (lskip1_form _ _ E1 H0 ltac:(discriminate)) as (b & Hb & ->). destruct (nz_app _ _ H0) as [_ H1].
  destruct (proj1 (proj2 (body_forms fu ws)) _ _ _ _ E3) as (e & x & -> & He & Hh & KE).
  { intros K. apply H1. right. exact K. }
  assert (E4' : t2 = 59%N :: v).
  { destruct t2 as [|c t2]; [cbn in Hh; lia|]. cbn [lpeek] in Hh. rewrite tok_skip in E4 by (apply tok_char; [unfold isspace; lia|lia]). congruence. }
  subst t2. exists e, (b ++ 58%N :: x ++ [59%N]). split; [rewrite <- !app_assoc; cbn; rewrite <- app_assoc; reflexivity|].
  split; [exists b, x; auto|exact KE].
Qed.
