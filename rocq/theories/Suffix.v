(** Every reader leaves a suffix of the text it is given. *)
From Coq Require Import List NArith Arith Bool Lia ZifyBool ZifyN ZifyNat.
From Verif Require Import CharClass CharClassParse Stream StreamSpec StreamProofs RegexSpec NFA NFABuild NFAParse GrammarSpec ATN ATNParse.
Import ListNotations.
Local Open Scope nat_scope.

Definition suf (r t : list N) : Prop := exists x, t = x ++ r.
Lemma suf_refl t : suf t t.
Proof. exists []. reflexivity. Qed.
Lemma suf_trans r s t : suf r s -> suf s t -> suf r t.
Proof. intros [x ->] [y ->]. exists (y ++ x). apply app_assoc. Qed.
Lemma suf_cons c r t : suf r t -> suf r (c :: t).
Proof. intros [x ->]. exists (c :: x). reflexivity. Qed.
Lemma suf_tl t : suf (tl t) t.
Proof. destruct t as [|c t]; [apply suf_refl|apply suf_cons, suf_refl]. Qed.
Lemma suf_nil t : suf [] t.
Proof. exists t. symmetry. apply app_nil_r. Qed.
Lemma suf_len r t : suf r t -> length r <= length t.
Proof. intros [x ->]. rewrite app_length. lia. Qed.
Lemma suf_in r t c : suf r t -> In c r -> In c t.
Proof. intros [x ->] H. apply in_or_app. auto. Qed.

Lemma lskip_line_suf l : suf (lskip_line l) l.
Proof. induction l as [|c t IH]; [apply suf_refl|]. cbn [lskip_line]. destruct ((c =? 0) || (c =? 10))%N; apply suf_cons; [apply suf_refl|exact IH]. Qed.
Lemma lskip_block_suf l : forall r, lskip_block l = Some r -> suf r l.
Proof.
  induction l as [|c t IH]; intros r; cbn [lskip_block]; [discriminate|]. destruct (c =? 0)%N; [discriminate|].
  assert (K : lskip_block t = Some r -> suf r (c :: t)) by (intros H; apply suf_cons, IH, H).
  destruct (c =? 42)%N; [|exact K]. destruct t as [|d t]; [exact K|].
  destruct (N.eq_dec d 47) as [->|N0]; [intros E; injection E as <-; apply suf_cons, suf_cons, suf_refl|].
  intros E. apply K. destruct d as [|d]; [exact E|]. repeat (destruct d; try exact E). congruence.
Qed.
Lemma lskip_suf f : forall l r, lskip f l = SOk r -> suf r l.
Proof.
  induction f as [|f IH]; intros l r; cbn [lskip]; [discriminate|]. destruct l as [|c t]; [intros E; injection E as <-; apply suf_refl|].
  destruct (isspace c); [intros E; apply suf_cons, IH, E|].
  destruct (c =? 47)%N; [|intros E; injection E as <-; apply suf_refl].
  destruct t as [|d t]; [intros E; injection E as <-; apply suf_refl|]. destruct (d =? 42)%N.
  - destruct (lskip_block t) as [x|] eqn:E0; [|discriminate]. intros E. apply IH in E. apply lskip_block_suf in E0. apply suf_cons, suf_cons. exact (suf_trans _ _ _ E E0).
  - destruct (d =? 47)%N; [|intros E; injection E as <-; apply suf_refl]. intros E. apply IH in E. apply suf_cons, suf_cons. exact (suf_trans _ _ _ E (lskip_line_suf t)).
Qed.
Lemma lskip1_suf t r : lskip1 t = SOk r -> suf r t.
Proof. apply lskip_suf. Qed.
Lemma lident_loop_app l : l = fst (lident_loop l) ++ snd (lident_loop l).
Proof. induction l as [|c t IH]; [reflexivity|]. cbn [lident_loop]. destruct (is_symchar c); [|reflexivity]. destruct (lident_loop t) as [a r]. cbn in *. f_equal. exact IH. Qed.
Lemma lident_split l s r : lident l = SOk (s, r) -> l = s ++ r.
Proof.
  unfold lident. destruct l as [|c t]; [discriminate|]. destruct (is_leader c); [|discriminate]. pose proof (lident_loop_app t) as H.
  destruct (lident_loop t) as [a r']. intros E. injection E as <- <-. cbn in *. f_equal. exact H.
Qed.
Lemma lit_loop_suf q t : forall acc s r, lit_loop q t acc = SOk (s, r) -> suf r t.
Proof.
  induction t as [|c t IH]; intros acc s r; cbn [lit_loop]; [discriminate|]. destruct (c =? q)%N; [intros E; injection E as _ <-; apply suf_cons, suf_refl|].
  destruct (c =? 0)%N; [discriminate|]. intros E. apply suf_cons. exact (IH _ _ _ E).
Qed.
Lemma digits_suf t : suf (digits_loop t) t.
Proof. induction t as [|c t IH]; [apply suf_refl|]. cbn [digits_loop]. destruct (isdigit c); [apply suf_cons, IH|apply suf_refl]. Qed.
Ltac chain := eauto 9 using suf_trans, suf_refl, suf_tl, suf_cons.
Lemma localid_suf t r : parse_localid t = SOk r -> suf r t.
Proof.
  unfold parse_localid. destruct (lskip1 t) as [t1| |] eqn:E1; try discriminate. apply lskip1_suf in E1.
  destruct (lpeek t1 =? 123)%N; [|intros E; injection E as <-; exact E1].
  destruct (lskip1 (tl t1)) as [t2| |] eqn:E2; try discriminate. apply lskip1_suf in E2.
  destruct (lpeek t2 =? 125)%N; [discriminate|]. destruct (lskip1 (digits_loop t2)) as [t3| |] eqn:E3; try discriminate. apply lskip1_suf in E3. pose proof (digits_suf t2) as D.
  destruct (lpeek t3 =? 125)%N; [|discriminate]. intros E4. apply lskip1_suf in E4.
  apply (suf_trans _ _ _ E4). apply (suf_trans _ _ _ (suf_tl t3)). apply (suf_trans _ _ _ E3). apply (suf_trans _ _ _ D). apply (suf_trans _ _ _ E2). exact (suf_trans _ _ _ (suf_tl t1) E1).
Qed.

Lemma cc_loop_suf text : forall st cc x rest, cc_loop text st cc = POk x rest -> suf rest text.
Proof.
  assert (G : forall n text st cc x rest, length text <= n -> cc_loop text st cc = POk x rest -> suf rest text).
  { induction n as [|n IH]; intros [|c t] st cc x rest Hn; cbn [length] in *; try (cbn; discriminate); try lia.
    cbn [cc_loop]. destruct (c =? 93)%N; [intros E; injection E as _ <-; apply suf_cons, suf_refl|].
    destruct ((c =? 0) || (c =? 65535))%N; [discriminate|]. destruct (c =? 92)%N.
    - destruct t as [|e t']; [discriminate|]. destruct (cc_escape e) as [ch'|]; [|discriminate].
      destruct (cc_step st cc true ch') as [[st' cc']|]; [|discriminate]. intros E. apply IH in E; [apply suf_cons, suf_cons; exact E|cbn [length] in *; lia].
    - destruct (cc_step st cc false c) as [[st' cc']|]; [|discriminate]. intros E. apply IH in E; [apply suf_cons; exact E|lia]. }
  intros st cc x rest. apply (G (length text)). lia.
Qed.
Lemma cc_parse_suf text c rest : cc_parse text = POk c rest -> suf rest text.
Proof.
  unfold cc_parse.
  assert (G : exists b body, (match text with 94%N :: t => (true, t) | _ => (false, text) end) = (b, body) /\ suf body text).
  { destruct text as [|h t]; [exists false, []; split; [reflexivity|apply suf_refl]|].
    destruct (N.eq_dec h 94) as [->|N0]; [exists true, t; split; [reflexivity|apply suf_cons, suf_refl]|].
    exists false, (h :: t). split; [|apply suf_refl]. destruct h as [|h]; [reflexivity|]. repeat (destruct h; try reflexivity). congruence. }
  destruct G as (b & body & -> & L). destruct (cc_loop body CStart []) as [[st cc] r|] eqn:E; [|discriminate].
  apply cc_loop_suf in E. destruct (cc_finish st cc b); [|discriminate]. intros K; injection K as _ <-. exact (suf_trans _ _ _ E L).
Qed.
Lemma suffix_suf A t : suf (snd (parse_suffix A t)) t.
Proof.
  unfold parse_suffix.
  repeat match goal with |- context [match ?x with _ => _ end] => destruct x; cbn [snd] end; repeat (first [apply suf_refl|apply suf_cons]).
Qed.
Lemma parse_suf f :
  (forall A t B r, parse_pat f A t = SOk (B, r) -> suf r t) /\
  (forall A t B r, parse_alts f A t = SOk (B, r) -> suf r t) /\
  (forall A c t B r, parse_unit f A c t = SOk (B, r) -> suf r t).
Proof.
  induction f as [|f (IHp & IHa & IHu)].
  { repeat split; intros; discriminate. }
  split; [|split].
  - intros A t B r. cbn [parse_pat]. destruct t as [|c t]; cbn [lget].
    + cbn. intros E; injection E as _ <-. apply suf_refl.
    + destruct ((c =? 41) || (c =? 47) || (c =? 0))%N; [intros E; injection E as _ <-; apply suf_cons, suf_refl|].
      destruct (parse_unit f nfa_base c t) as [[B0 t2]| |] eqn:E1; try discriminate.
      destruct (parse_alts f B0 t2) as [[B1 t3]| |] eqn:E2; try discriminate.
      intros E3. apply IHu in E1. apply IHa in E2. apply IHp in E3. apply suf_cons. exact (suf_trans _ _ _ E3 (suf_trans _ _ _ E2 E1)).
  - intros A t B r. cbn [parse_alts]. destruct (lpeek t =? 124)%N; [|intros E; injection E as _ <-; apply suf_refl].
    destruct t as [|c0 t0]; cbn [tl lget].
    + destruct (parse_unit f nfa_base 0 []) as [[B0 t2]| |] eqn:E1; try discriminate.
      intros E3. apply IHu in E1. apply IHa in E3. exact (suf_trans _ _ _ E3 E1).
    + destruct t0 as [|c t]; cbn [lget].
      * destruct (parse_unit f nfa_base 0 []) as [[B0 t2]| |] eqn:E1; try discriminate.
        intros E3. apply IHu in E1. apply IHa in E3. apply suf_cons. exact (suf_trans _ _ _ E3 E1).
      * destruct (parse_unit f nfa_base c t) as [[B0 t2]| |] eqn:E1; try discriminate.
        intros E3. apply IHu in E1. apply IHa in E3. apply suf_cons, suf_cons. exact (suf_trans _ _ _ E3 E1).
  - intros A c t B r. cbn [parse_unit].
    match goal with |- match ?X with _ => _ end = _ -> _ => assert (G : forall A1 t1, X = SOk (A1, t1) -> suf t1 t); [|destruct X as [[A1 t1]| |]; try discriminate] end.
    { intros A1 t1. destruct (c =? 92)%N.
      - destruct t as [|e t]; cbn [lget]; destruct (nfa_escapable _); try discriminate; intros E; injection E as _ <-; [apply suf_refl|apply suf_cons, suf_refl].
      - destruct (c =? 91)%N.
        + destruct (cc_parse t) as [cc r0|] eqn:E; [|discriminate]. apply cc_parse_suf in E. intros K; injection K as _ <-. exact E.
        + destruct (c =? 46)%N; [intros K; injection K as _ <-; apply suf_refl|].
          destruct (c =? 40)%N; [|intros K; injection K as _ <-; apply suf_refl].
          destruct (parse_pat f nfa_base t) as [[B0 t2]| |] eqn:E; try discriminate. apply IHp in E. intros K; injection K as _ <-. exact E. }
    specialize (G A1 t1 eq_refl). intros E. assert (E' : parse_suffix A1 t1 = (B, r)) by congruence.
    pose proof (suffix_suf A1 t1) as L. rewrite E' in L. cbn in L. exact (suf_trans _ _ _ L G).
Qed.
Lemma nfa_parse_suf t A r : nfa_parse t = SOk (A, r) -> suf r t.
Proof. apply parse_suf. Qed.
Lemma parse_node_suf t n r : parse_node t = SOk (n, r) -> suf r t.
Proof.
  unfold parse_node. destruct (is_leader (lpeek t)).
  { destruct (lident t) as [[s t1]| |] eqn:E; try discriminate. apply lident_split in E. destruct (parse_localid t1) as [t2| |] eqn:E2; try discriminate. apply localid_suf in E2. intros Q. injection Q as _ <-. apply (suf_trans _ _ _ E2). exists s. exact E. }
  destruct (lpeek t =? 47)%N.
  { destruct (nfa_parse (tl t)) as [[s t1]| |] eqn:E; try discriminate. apply nfa_parse_suf in E. destruct (parse_localid t1) as [t2| |] eqn:E2; try discriminate. apply localid_suf in E2. intros Q. injection Q as _ <-. exact (suf_trans _ _ _ E2 (suf_trans _ _ _ E (suf_tl t))). }
  destruct ((lpeek t =? 39) || (lpeek t =? 34))%N eqn:EQ; [|discriminate].
  destruct (lit_loop (lpeek t) (tl t) []) as [[s t1]| |] eqn:E; try discriminate. apply lit_loop_suf in E.
  destruct (parse_localid t1) as [t2| |] eqn:E2; try discriminate. apply localid_suf in E2. intros Q. injection Q as _ <-. exact (suf_trans _ _ _ E2 (suf_trans _ _ _ E (suf_tl t))).
Qed.
Lemma quant_suf M o a t : suf (snd (parse_quant M o a t)) t.
Proof. unfold parse_quant. pose proof (suf_tl t) as H. pose proof (suf_refl t). repeat match goal with |- context [if ?x then _ else _] => destruct x end; cbn [snd]; assumption. Qed.
Lemma atn_suf f ws :
  (forall M t B r, parse_atom f ws M t = SOk (B, r) -> suf r t) /\
  (forall M t B r, parse_sel f ws M t = SOk (B, r) -> suf r t) /\
  (forall M o p ts t B r, parse_galts f ws M o p ts t = SOk (B, r) -> suf r t) /\
  (forall M t B r, parse_seq f ws M t = SOk (B, r) -> suf r t).
Proof.
  induction f as [|f (IHa & IHs & IHg & IHq)]; [repeat split; discriminate|]. split; [|split; [|split]].
  - intros M t B r. cbn [parse_atom]. destruct (lskip1 t) as [t1| |] eqn:E1; try discriminate. apply lskip1_suf in E1.
    match goal with |- match ?x with _ => _ end = _ -> _ => destruct x as [[M1 t2]| |] eqn:E2; try discriminate end.
    assert (K0 : suf t2 t1).
    { destruct (lpeek t1 =? 40)%N eqn:E40.
      - destruct (parse_sel f ws M (tl t1)) as [[M2 t3]| |] eqn:E3; try discriminate. apply IHs in E3.
        destruct (lskip1 t3) as [t4| |] eqn:E4; try discriminate. apply lskip1_suf in E4. destruct (lpeek t4 =? 41)%N; [|discriminate]. injection E2 as _ <-.
        exact (suf_trans _ _ _ (suf_tl t4) (suf_trans _ _ _ E4 (suf_trans _ _ _ E3 (suf_tl t1)))).
      - destruct (parse_node t1) as [[n t3]| |] eqn:E3; try discriminate. apply parse_node_suf in E3. injection E2 as _ <-. exact E3. }
    destruct (lskip1 t2) as [t3| |] eqn:E3; try discriminate. apply lskip1_suf in E3. intros Q. injection Q as Q. pose proof (quant_suf M1 (length M - 1) (length M) t3) as K. rewrite Q in K. cbn in K.
    exact (suf_trans _ _ _ K (suf_trans _ _ _ E3 (suf_trans _ _ _ K0 E1))).
  - intros M t B r. cbn [parse_sel]. apply IHg.
  - intros M o p ts t B r. cbn [parse_galts]. destruct (parse_seq f ws (add_node M o p) t) as [[M1 t1]| |] eqn:E1; try discriminate. apply IHq in E1.
    destruct (lskip1 t1) as [t2| |] eqn:E2; try discriminate. apply lskip1_suf in E2. cbv zeta. pose proof (suf_trans _ _ _ E2 E1) as E3.
    destruct ((lpeek t2 =? 59) || (lpeek t2 =? 41))%N; [intros Q; injection Q as _ <-; exact E3|].
    destruct (lpeek t2 =? 124)%N; [|discriminate].
    destruct (lpeek (tl t2) =? 62)%N; intros Q; apply IHg in Q; apply (suf_trans _ _ _ Q); [apply (suf_trans _ _ _ (suf_tl _))|]; exact (suf_trans _ _ _ (suf_tl t2) E3).
  - intros M t B r. cbn [parse_seq]. destruct (lskip1 t) as [t1| |] eqn:E1; try discriminate. apply lskip1_suf in E1. cbv zeta.
    destruct ((lpeek t1 =? 124) || (lpeek t1 =? 41) || (lpeek t1 =? 59))%N; [intros Q; injection Q as _ <-; exact E1|].
    destruct (parse_atom f ws M t1) as [[M1 t2]| |] eqn:E2; try discriminate. apply IHa in E2. intros Q. apply IHq in Q. exact (suf_trans _ _ _ Q (suf_trans _ _ _ E2 E1)).
Qed.
Theorem atn_parse_suf ws t M r : atn_parse ws t = SOk (M, r) -> suf r t.
Proof.
  unfold atn_parse. destruct (lskip1 t) as [t1| |] eqn:E1; try discriminate. apply lskip1_suf in E1. destruct (lpeek t1 =? 58)%N eqn:E; [|discriminate].
  destruct (parse_sel _ ws [blank] (tl t1)) as [[M1 t2]| |] eqn:E2; try discriminate. apply (proj1 (proj2 (atn_suf _ ws))) in E2.
  destruct (lskip1 t2) as [t3| |] eqn:E3; try discriminate. apply lskip1_suf in E3. destruct (lpeek t3 =? 59)%N; [|discriminate]. intros Q. injection Q as _ <-.
  exact (suf_trans _ _ _ (suf_tl t3) (suf_trans _ _ _ E3 (suf_trans _ _ _ E2 (suf_trans _ _ _ (suf_tl t1) E1)))).
Qed.

(** What was skipped is blank text, when something is left. *)
Lemma blanks_btext l r : blanks l r -> r <> [] -> ~ In 0%N l -> exists b, btext b /\ l = b ++ r.
Proof.
  induction 1 as [t|t u r B _ IH]; intros Hr H0; [exists []; split; [constructor|reflexivity]|].
  assert (SU : suf u t) by (inversion B as [c q|body q|body|body q]; subst; [apply suf_cons, suf_refl|exists (47%N :: 47%N :: body ++ [10%N]); cbn; f_equal; f_equal; rewrite <- app_assoc; reflexivity|apply suf_nil|exists (47%N :: 42%N :: body ++ [42%N; 47%N]); cbn; f_equal; f_equal; rewrite <- app_assoc; reflexivity]).
  destruct IH as (b & Hb & ->); [exact Hr|intros K; apply H0; exact (suf_in _ _ _ SU K)|].
  inversion B as [c q Hc E1 E2|body q Hn E1 E2|body Hn E1 E2|body q Hn E1 E2]; subst.
  - exists (c :: b). split; [apply bt_space; [lia|exact Hb]|reflexivity].
  - exists (47%N :: 47%N :: body ++ 10%N :: b). split; [apply bt_line; [exact Hn| |exact Hb]|cbn; do 2 f_equal; rewrite <- app_assoc; reflexivity].
    intros K. apply H0. cbn. right. right. apply in_or_app. auto.
  - destruct b; destruct r; cbn in *; congruence.
  - exists (47%N :: 42%N :: body ++ 42%N :: 47%N :: b). split; [apply bt_block; [exact Hn| |exact Hb]|cbn; do 2 f_equal; rewrite <- app_assoc; reflexivity].
    intros K. apply H0. cbn. right. right. apply in_or_app. auto.
Qed.
Lemma lskip1_btext t r : lskip1 t = SOk r -> r <> [] -> ~ In 0%N t -> exists b, btext b /\ t = b ++ r.
Proof.
  intros E Hr H0. unfold lskip1, lskip_ws in E. pose proof (lskip_spec (S (length t)) t ltac:(lia) H0) as K. rewrite E in K. destruct K as [K _]. exact (blanks_btext _ _ K Hr H0).
Qed.
