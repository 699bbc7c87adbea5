(** Reading rule bodies: it ends, and written expressions become the networks of their trees. *)
From Coq Require Import List NArith Arith Bool Lia ZifyBool ZifyN ZifyNat.
From Verif Require Import CharClass StreamSpec Stream StreamProofs RegexSpec NFA NFABuild NFAParse GrammarSpec ATN ATNSem ATNBuild.
Import ListNotations.
Local Open Scope nat_scope.

(** ** Blanks *)
Lemma lskip_len f : forall l r, lskip f l = SOk r -> length r <= length l.
Proof.
  induction f as [|f IH]; intros l r; cbn [lskip]; [discriminate|].
  destruct l as [|c t]; [intros E; injection E as <-; lia|]. destruct (isspace c); [intros E; apply IH in E; cbn; lia|].
  destruct (c =? 47)%N; [|intros E; injection E as <-; lia].
  destruct t as [|d t]; [intros E; injection E as <-; lia|].
  destruct (d =? 42)%N.
  - destruct (lskip_block t) as [x|] eqn:E0; [|discriminate]. intros E. apply IH in E. apply lskip_block_len in E0. cbn. lia.
  - destruct (d =? 47)%N; [|intros E; injection E as <-; lia]. intros E. apply IH in E. pose proof (lskip_line_len t). cbn. lia.
Qed.
Lemma lskip1_len t r : lskip1 t = SOk r -> length r <= length t.
Proof. apply lskip_len. Qed.
Lemma lskip_total f : forall l, length l < f -> lskip f l <> SFuel.
Proof.
  induction f as [|f IH]; intros l H; [lia|]. cbn [lskip]. destruct l as [|c t]; [discriminate|]. cbn [length] in H.
  destruct (isspace c); [apply IH; lia|]. destruct (c =? 47)%N; [|discriminate]. destruct t as [|d t]; [discriminate|]. cbn [length] in H.
  destruct (d =? 42)%N.
  - destruct (lskip_block t) as [x|] eqn:E0; [|discriminate]. apply lskip_block_len in E0. apply IH. lia.
  - destruct (d =? 47)%N; [|discriminate]. pose proof (lskip_line_len t). apply IH. lia.
Qed.
Lemma lskip1_total t : lskip1 t <> SFuel.
Proof. apply lskip_total. lia. Qed.

Lemma lskip_line_app body r : ~ In 10%N body -> ~ In 0%N body -> lskip_line (body ++ 10%N :: r) = r.
Proof.
  induction body as [|c body IH]; intros H1 H2; cbn [app lskip_line]; [reflexivity|]. cbn in H1, H2.
  destruct ((c =? 0) || (c =? 10))%N eqn:E; [lia|]. apply IH; tauto.
Qed.
Lemma lskip_block_app body r : ~ occurs [42; 47]%N (body ++ [42%N]) -> ~ In 0%N body -> lskip_block (body ++ 42%N :: 47%N :: r) = Some r.
Proof.
  induction body as [|c body IH]; intros H1 H2; [reflexivity|]. cbn in H2. cbn [app] in *.
  assert (H1' : ~ occurs [42; 47]%N (body ++ [42%N])) by (intros K; apply H1; apply no_star_slash_cons; auto).
  cbn [lskip_block]. destruct (c =? 0)%N eqn:E0; [lia|]. destruct (c =? 42)%N eqn:E1; [|apply IH; tauto].
  rewrite star_match. destruct body as [|d body]; cbn [app] in *.
  - change (42 =? 47)%N with false. cbn match. apply IH; tauto.
  - destruct (d =? 47)%N eqn:E2; [|apply IH; tauto]. exfalso. apply H1. apply no_star_slash_cons. left. split; [lia|]. exists (body ++ [42%N]). f_equal. lia.
Qed.
Lemma lskip_cons_space c t : isspace c = true -> lskip1 (c :: t) = lskip1 t.
Proof.
  intros H. unfold lskip1, lskip_ws. change (lskip (S (length (c :: t))) (c :: t)) with (if isspace c then lskip (length (c :: t)) t else
    if (c =? 47)%N then match t with d :: t' => if (d =? 42)%N then match lskip_block t' with Some r => lskip (length (c :: t)) r | None => SThrow end
                     else if (d =? 47)%N then lskip (length (c :: t)) (lskip_line t') else SOk (c :: t) | [] => SOk (c :: t) end else SOk (c :: t)).
  rewrite H. apply lskip_fuel; cbn; lia.
Qed.
Lemma lskip_step f l : lskip (S f) l =
    match l with
    | c :: t =>
      if isspace c then lskip f t
      else if (c =? 47)%N then
        match t with
        | d :: t' => if (d =? 42)%N then match lskip_block t' with Some r => lskip f r | None => SThrow end
                     else if (d =? 47)%N then lskip f (lskip_line t')
                     else SOk l
        | [] => SOk l
        end
      else SOk l
    | [] => SOk l
    end.
Proof. reflexivity. Qed.
Lemma lskip_cons_line t : lskip1 (47%N :: 47%N :: t) = lskip1 (lskip_line t).
Proof.
  unfold lskip1, lskip_ws. rewrite lskip_step. change (isspace 47%N) with false. change (47 =? 47)%N with true. change (47 =? 42)%N with false. cbn match.
  apply lskip_fuel; pose proof (lskip_line_len t); cbn [length]; lia.
Qed.
Lemma lskip_cons_block t : lskip1 (47%N :: 42%N :: t) = match lskip_block t with Some r => lskip1 r | None => SThrow end.
Proof.
  unfold lskip1, lskip_ws. rewrite lskip_step. change (isspace 47%N) with false. change (47 =? 47)%N with true. change (42 =? 42)%N with true. cbn match.
  destruct (lskip_block t) as [r|] eqn:E; [|reflexivity]. apply lskip_block_len in E. apply lskip_fuel; cbn [length]; lia.
Qed.
Lemma btext_skip b : btext b -> forall r, lskip1 (b ++ r) = lskip1 r.
Proof.
  intros H. induction H as [|c b Hc Hb IH|body b H10 H0 Hb IH|body b Ho H0 Hb IH]; intros r.
  - reflexivity.
  - cbn [app]. rewrite lskip_cons_space by (apply isspace_spec; exact Hc). apply IH.
  - cbn [app]. rewrite <- app_assoc. cbn [app]. rewrite lskip_cons_line, lskip_line_app by assumption. apply IH.
  - cbn [app]. rewrite <- app_assoc. cbn [app]. rewrite lskip_cons_block, lskip_block_app by assumption. apply IH.
Qed.
(** Texts at which skipping stops. *)
Definition tok (t : list N) : Prop :=
  match t with
  | [] => True
  | c :: t => isspace c = false /\ (c <> 47%N \/ match t with d :: _ => d <> 42%N /\ d <> 47%N | [] => True end)
  end.
Lemma tok_skip t : tok t -> lskip1 t = SOk t.
Proof.
  unfold lskip1, lskip_ws. destruct t as [|c t]; [reflexivity|]. intros [H1 H2]. cbn [length lskip]. rewrite H1.
  destruct (c =? 47)%N eqn:E; [|reflexivity]. destruct t as [|d t]; [reflexivity|].
  destruct (d =? 42)%N eqn:E2; [lia|]. destruct (d =? 47)%N eqn:E3; [lia|]. reflexivity.
Qed.
Lemma tok_char c t : isspace c = false -> c <> 47%N -> tok (c :: t).
Proof. intros H1 H2. split; [exact H1|]. auto. Qed.

(** ** Lengths and termination *)
Lemma lident_loop_len l : length (snd (lident_loop l)) <= length l.
Proof. induction l as [|c t IH]; cbn; [lia|]. destruct (is_symchar c); [|cbn; lia]. destruct (lident_loop t) as [a r]. cbn in *. lia. Qed.
Lemma lident_len l s r : lident l = SOk (s, r) -> length r < length l.
Proof.
  unfold lident. destruct l as [|c t]; [discriminate|]. destruct (is_leader c); [|discriminate]. pose proof (lident_loop_len t).
  destruct (lident_loop t) as [a r']. intros E. injection E as _ <-. cbn in *. lia.
Qed.
Lemma lit_loop_len q t : forall acc s r, lit_loop q t acc = SOk (s, r) -> length r < length t.
Proof.
  induction t as [|c t IH]; intros acc s r; cbn [lit_loop]; [discriminate|]. destruct (c =? q)%N; [intros E; injection E as _ <-; cbn; lia|].
  destruct (c =? 0)%N; [discriminate|]. intros E. apply IH in E. cbn. lia.
Qed.
Lemma lit_loop_total q t : forall acc, lit_loop q t acc <> SFuel.
Proof. induction t as [|c t IH]; intros acc; cbn [lit_loop]; [discriminate|]. destruct (c =? q)%N; [discriminate|]. destruct (c =? 0)%N; [discriminate|apply IH]. Qed.
Lemma digits_len t : length (digits_loop t) <= length t.
Proof. induction t as [|c t IH]; cbn; [lia|]. destruct (isdigit c); cbn; lia. Qed.
Lemma tl_len (t : list N) : length (tl t) <= length t.
Proof. destruct t; cbn; lia. Qed.
Lemma localid_len t r : parse_localid t = SOk r -> length r <= length t.
Proof.
  unfold parse_localid. destruct (lskip1 t) as [t1| |] eqn:E1; try discriminate. apply lskip1_len in E1.
  destruct (lpeek t1 =? 123)%N; [|intros E; injection E as <-; exact E1].
  destruct (lskip1 (tl t1)) as [t2| |] eqn:E2; try discriminate. apply lskip1_len in E2. pose proof (tl_len t1).
  destruct (lpeek t2 =? 125)%N; [discriminate|]. destruct (lskip1 (digits_loop t2)) as [t3| |] eqn:E3; try discriminate. apply lskip1_len in E3. pose proof (digits_len t2).
  destruct (lpeek t3 =? 125)%N; [|discriminate]. intros E4. apply lskip1_len in E4. pose proof (tl_len t3). lia.
Qed.
Lemma localid_total t : parse_localid t <> SFuel.
Proof.
  unfold parse_localid. pose proof (lskip1_total t). destruct (lskip1 t) as [t1| |]; [|discriminate|congruence].
  destruct (lpeek t1 =? 123)%N; [|discriminate]. pose proof (lskip1_total (tl t1)). destruct (lskip1 (tl t1)) as [t2| |]; [|discriminate|congruence].
  destruct (lpeek t2 =? 125)%N; [discriminate|]. pose proof (lskip1_total (digits_loop t2)). destruct (lskip1 (digits_loop t2)) as [t3| |]; [|discriminate|congruence].
  destruct (lpeek t3 =? 125)%N; [apply lskip1_total|discriminate].
Qed.
Lemma nfa_parse_len t A r : nfa_parse t = SOk (A, r) -> length r <= length t.
Proof. apply parse_len. Qed.
Lemma peek_cons t c : lpeek t = c -> c <> 0%N -> exists t', t = c :: t'.
Proof. destruct t as [|d t]; cbn; intros E N0; [congruence|subst; eauto]. Qed.
Lemma parse_node_len t n r : parse_node t = SOk (n, r) -> length r < length t.
Proof.
  unfold parse_node. destruct (is_leader (lpeek t)).
  { destruct (lident t) as [[s t1]| |] eqn:E; try discriminate. apply lident_len in E. destruct (parse_localid t1) as [t2| |] eqn:E2; try discriminate. apply localid_len in E2. intros Q. injection Q as _ <-. lia. }
  destruct (lpeek t =? 47)%N eqn:E47.
  { destruct (peek_cons t 47%N) as [t' ->]; [lia|lia|]. cbn [tl]. destruct (nfa_parse t') as [[s t1]| |] eqn:E; try discriminate. apply nfa_parse_len in E. destruct (parse_localid t1) as [t2| |] eqn:E2; try discriminate. apply localid_len in E2. intros Q. injection Q as _ <-. cbn. lia. }
  destruct ((lpeek t =? 39) || (lpeek t =? 34))%N eqn:EQ; [|discriminate].
  destruct (peek_cons t (lpeek t) eq_refl) as [t' Ht]; [lia|]. destruct (lit_loop (lpeek t) (tl t) []) as [[s t1]| |] eqn:E; try discriminate. apply lit_loop_len in E. pose proof (tl_len t).
  destruct (parse_localid t1) as [t2| |] eqn:E2; try discriminate. apply localid_len in E2. intros Q. injection Q as _ <-. lia.
Qed.
Lemma parse_node_total t : parse_node t <> SFuel.
Proof.
  unfold parse_node. destruct (is_leader (lpeek t)).
  { unfold lident. destruct t as [|c t]; [discriminate|]. destruct (is_leader c); [|discriminate]. destruct (lident_loop t) as [a t1].
    pose proof (localid_total t1). destruct (parse_localid t1); congruence. }
  destruct (lpeek t =? 47)%N.
  { pose proof (nfa_parse_total (tl t)). destruct (nfa_parse (tl t)) as [[A t1]| |]; [|discriminate|congruence]. pose proof (localid_total t1). destruct (parse_localid t1); congruence. }
  destruct ((lpeek t =? 39) || (lpeek t =? 34))%N; [|discriminate].
  pose proof (lit_loop_total (lpeek t) (tl t) []). destruct (lit_loop (lpeek t) (tl t) []) as [[A t1]| |]; [|discriminate|congruence]. pose proof (localid_total t1). destruct (parse_localid t1); congruence.
Qed.
Lemma quant_len M o a t : length (snd (parse_quant M o a t)) <= length t.
Proof. unfold parse_quant. pose proof (tl_len t). repeat match goal with |- context [if ?x then _ else _] => destruct x end; cbn [snd]; lia. Qed.

Lemma atn_len f ws :
  (forall M t B r, parse_atom f ws M t = SOk (B, r) -> length r < length t) /\
  (forall M t B r, parse_sel f ws M t = SOk (B, r) -> length r <= length t) /\
  (forall M o p ts t B r, parse_galts f ws M o p ts t = SOk (B, r) -> length r <= length t) /\
  (forall M t B r, parse_seq f ws M t = SOk (B, r) -> length r <= length t).
Proof.
  induction f as [|f (IHa & IHs & IHg & IHq)]; [repeat split; discriminate|]. split; [|split; [|split]].
  - intros M t B r. cbn [parse_atom]. destruct (lskip1 t) as [t1| |] eqn:E1; try discriminate. apply lskip1_len in E1.
    match goal with |- match ?x with _ => _ end = _ -> _ => destruct x as [[M1 t2]| |] eqn:E2; try discriminate end.
    assert (length t2 < length t1).
    { destruct (lpeek t1 =? 40)%N eqn:E40.
      - destruct (peek_cons t1 40%N) as [t' ->]; [lia|lia|]. cbn [tl] in E2.
        destruct (parse_sel f ws M t') as [[M2 t3]| |] eqn:E3; try discriminate. apply IHs in E3.
        destruct (lskip1 t3) as [t4| |] eqn:E4; try discriminate. apply lskip1_len in E4. destruct (lpeek t4 =? 41)%N; [|discriminate]. injection E2 as _ <-. pose proof (tl_len t4). cbn. lia.
      - destruct (parse_node t1) as [[n t3]| |] eqn:E3; try discriminate. apply parse_node_len in E3. injection E2 as _ <-. exact E3. }
    destruct (lskip1 t2) as [t3| |] eqn:E3; try discriminate. apply lskip1_len in E3. intros Q. injection Q as Q. pose proof (quant_len M1 (length M - 1) (length M) t3) as K. rewrite Q in K. cbn in K. lia.
  - intros M t B r. cbn [parse_sel]. apply IHg.
  - intros M o p ts t B r. cbn [parse_galts]. destruct (parse_seq f ws (add_node M o p) t) as [[M1 t1]| |] eqn:E1; try discriminate. apply IHq in E1.
    destruct (lskip1 t1) as [t2| |] eqn:E2; try discriminate. apply lskip1_len in E2. cbv zeta.
    destruct ((lpeek t2 =? 59) || (lpeek t2 =? 41))%N; [intros Q; injection Q as _ <-; lia|].
    destruct (lpeek t2 =? 124)%N; [|discriminate]. pose proof (tl_len t2). pose proof (tl_len (tl t2)).
    destruct (lpeek (tl t2) =? 62)%N; intros Q; apply IHg in Q; lia.
  - intros M t B r. cbn [parse_seq]. destruct (lskip1 t) as [t1| |] eqn:E1; try discriminate. apply lskip1_len in E1. cbv zeta.
    destruct ((lpeek t1 =? 124) || (lpeek t1 =? 41) || (lpeek t1 =? 59))%N; [intros Q; injection Q as _ <-; lia|].
    destruct (parse_atom f ws M t1) as [[M1 t2]| |] eqn:E2; try discriminate. apply IHa in E2. intros Q. apply IHq in Q. lia.
Qed.
Lemma atn_enough f ws :
  (forall M t, 4 * length t + 1 <= f -> parse_atom f ws M t <> SFuel) /\
  (forall M t, 4 * length t + 4 <= f -> parse_sel f ws M t <> SFuel) /\
  (forall M o p ts t, 4 * length t + 3 <= f -> parse_galts f ws M o p ts t <> SFuel) /\
  (forall M t, 4 * length t + 2 <= f -> parse_seq f ws M t <> SFuel).
Proof.
  induction f as [|f (IHa & IHs & IHg & IHq)]; [repeat split; intros; lia|]. split; [|split; [|split]].
  - intros M t Hf. cbn [parse_atom]. pose proof (lskip1_total t). destruct (lskip1 t) as [t1| |] eqn:E1; [|discriminate|congruence]. apply lskip1_len in E1.
    match goal with |- match ?x with _ => _ end <> _ => assert (K : x <> SFuel); [|destruct x as [[M1 t2]| |]; [|discriminate|congruence]] end.
    + destruct (lpeek t1 =? 40)%N eqn:E40.
      * destruct (peek_cons t1 40%N) as [t' ->]; [lia|lia|]. cbn [tl length] in *. pose proof (IHs M t' ltac:(lia)) as K.
        destruct (parse_sel f ws M t') as [[M2 t3]| |]; [|discriminate|congruence]. pose proof (lskip1_total t3). destruct (lskip1 t3) as [t4| |]; [|discriminate|congruence].
        destruct (lpeek t4 =? 41)%N; discriminate.
      * pose proof (parse_node_total t1). destruct (parse_node t1) as [[n t3]| |]; [discriminate|discriminate|congruence].
    + pose proof (lskip1_total t2). destruct (lskip1 t2); [discriminate|discriminate|congruence].
  - intros M t Hf. cbn [parse_sel]. apply IHg. lia.
  - intros M o p ts t Hf. cbn [parse_galts]. pose proof (IHq (add_node M o p) t ltac:(lia)) as K. destruct (parse_seq f ws (add_node M o p) t) as [[M1 t1]| |] eqn:E1; [|discriminate|congruence].
    apply (proj2 (proj2 (proj2 (atn_len f ws)))) in E1. pose proof (lskip1_total t1). destruct (lskip1 t1) as [t2| |] eqn:E2; [|discriminate|congruence]. apply lskip1_len in E2. cbv zeta.
    destruct ((lpeek t2 =? 59) || (lpeek t2 =? 41))%N; [discriminate|]. destruct (lpeek t2 =? 124)%N eqn:E; [|discriminate].
    destruct (peek_cons t2 124%N) as [t' ->]; [lia|lia|]. cbn [tl length] in *. pose proof (tl_len t'). destruct (lpeek t' =? 62)%N; apply IHg; lia.
  - intros M t Hf. cbn [parse_seq]. pose proof (lskip1_total t). destruct (lskip1 t) as [t1| |] eqn:E1; [|discriminate|congruence]. apply lskip1_len in E1. cbv zeta.
    destruct ((lpeek t1 =? 124) || (lpeek t1 =? 41) || (lpeek t1 =? 59))%N; [discriminate|].
    pose proof (IHa M t1 ltac:(lia)) as K. destruct (parse_atom f ws M t1) as [[M1 t2]| |] eqn:E2; [|discriminate|congruence]. apply (proj1 (atn_len f ws)) in E2. apply IHq. lia.
Qed.
Theorem atn_parse_total ws t : atn_parse ws t <> SFuel.
Proof.
  unfold atn_parse. pose proof (lskip1_total t). destruct (lskip1 t) as [t1| |]; [|discriminate|congruence]. destruct (lpeek t1 =? 58)%N; [|discriminate].
  pose proof (proj1 (proj2 (atn_enough (4 * length t1 + 4) ws)) [blank] (tl t1)) as K. pose proof (tl_len t1).
  destruct (parse_sel (4 * length t1 + 4) ws [blank] (tl t1)) as [[M t2]| |]; [|discriminate|exfalso; apply K; [lia|reflexivity]].
  pose proof (lskip1_total t2). destruct (lskip1 t2) as [t3| |]; [|discriminate|congruence]. destruct (lpeek t3 =? 59)%N; discriminate.
Qed.
Theorem atn_parse_len ws t M r : atn_parse ws t = SOk (M, r) -> length r < length t.
Proof.
  unfold atn_parse. destruct (lskip1 t) as [t1| |] eqn:E1; try discriminate. apply lskip1_len in E1. destruct (lpeek t1 =? 58)%N eqn:E; [|discriminate].
  destruct (peek_cons t1 58%N) as [t' ->]; [lia|lia|]. cbn [tl].
  destruct (parse_sel _ ws [blank] t') as [[M1 t2]| |] eqn:E2; try discriminate. apply (proj1 (proj2 (atn_len _ ws))) in E2.
  destruct (lskip1 t2) as [t3| |] eqn:E3; try discriminate. apply lskip1_len in E3. destruct (lpeek t3 =? 59)%N; [|discriminate]. intros Q. injection Q as _ <-. pose proof (tl_len t3). cbn in *. lia.
Qed.

(** ** More fuel *)
Lemma atn_mono f ws :
  (forall M t x, parse_atom f ws M t = x -> x <> SFuel -> parse_atom (S f) ws M t = x) /\
  (forall M t x, parse_sel f ws M t = x -> x <> SFuel -> parse_sel (S f) ws M t = x) /\
  (forall M o p ts t x, parse_galts f ws M o p ts t = x -> x <> SFuel -> parse_galts (S f) ws M o p ts t = x) /\
  (forall M t x, parse_seq f ws M t = x -> x <> SFuel -> parse_seq (S f) ws M t = x).
Proof.
  induction f as [|f (IHa & IHs & IHg & IHq)]; [repeat split; intros; subst; cbn in *; congruence|]. split; [|split; [|split]].
  - intros M t x H N0. cbn [parse_atom] in H. cbn [parse_atom]. destruct (lskip1 t) as [t1| |]; [|exact H|exact H].
    destruct (lpeek t1 =? 40)%N; [|exact H]. destruct (parse_sel f ws M (tl t1)) as [y| |] eqn:E.
    + rewrite (IHs _ _ _ E) by discriminate. exact H.
    + rewrite (IHs _ _ _ E) by discriminate. exact H.
    + congruence.
  - intros M t x H N0. cbn [parse_sel] in H. change (parse_sel (S (S f)) ws M t) with (parse_galts (S f) ws (add_node M (length M - 1) 0) (length (add_node M (length M - 1) 0) - 1) 0 [] t). apply IHg; assumption.
  - intros M o p ts t x H N0. cbn [parse_galts] in H.
    change (parse_galts (S (S f)) ws M o p ts t) with (
      match parse_seq (S f) ws (add_node M o p) t with
      | SOk (M1, t1) =>
        let terms := ts ++ [length M1 - 1] in
        match lskip1 t1 with
        | SOk t2 =>
          let ch := lpeek t2 in
          if ((ch =? 59) || (ch =? 41))%N then SOk (join M1 terms, t2)
          else if (ch =? 124)%N then
            if (lpeek (tl t2) =? 62)%N then parse_galts (S f) ws M1 o (S p) terms (tl (tl t2))
            else parse_galts (S f) ws M1 o p terms (tl t2)
          else SThrow
        | SThrow => SThrow | SFuel => SFuel
        end
      | e => e
      end).
    destruct (parse_seq f ws (add_node M o p) t) as [[M1 t1]| |] eqn:E; [| |congruence]; rewrite (IHq _ _ _ E) by discriminate; [|exact H].
    destruct (lskip1 t1) as [t2| |]; [|exact H|exact H]. cbv zeta in *. destruct ((lpeek t2 =? 59) || (lpeek t2 =? 41))%N; [exact H|]. destruct (lpeek t2 =? 124)%N; [|exact H].
    destruct (lpeek (tl t2) =? 62)%N; apply IHg; assumption.
  - intros M t x H N0. cbn [parse_seq] in H.
    change (parse_seq (S (S f)) ws M t) with (
      match lskip1 t with
      | SOk t1 =>
        let ch := lpeek t1 in
        if ((ch =? 124) || (ch =? 41) || (ch =? 59))%N then SOk (M, t1)
        else match parse_atom (S f) ws M t1 with
             | SOk (M1, t2) => parse_seq (S f) ws M1 t2
             | e => e
             end
      | SThrow => SThrow | SFuel => SFuel
      end).
    destruct (lskip1 t) as [t1| |]; [|exact H|exact H]. cbv zeta in *. destruct ((lpeek t1 =? 124) || (lpeek t1 =? 41) || (lpeek t1 =? 59))%N; [exact H|].
    destruct (parse_atom f ws M t1) as [[M1 t2]| |] eqn:E; [| |congruence]; rewrite (IHa _ _ _ E) by discriminate; [|exact H]. apply IHq; assumption.
Qed.
Lemma atn_le f g ws : f <= g ->
  (forall M t x, parse_atom f ws M t = SOk x -> parse_atom g ws M t = SOk x) /\
  (forall M t x, parse_sel f ws M t = SOk x -> parse_sel g ws M t = SOk x) /\
  (forall M o p ts t x, parse_galts f ws M o p ts t = SOk x -> parse_galts g ws M o p ts t = SOk x) /\
  (forall M t x, parse_seq f ws M t = SOk x -> parse_seq g ws M t = SOk x).
Proof.
  induction 1 as [|g H (IHa & IHs & IHg & IHq)]; [auto|]. destruct (atn_mono g ws) as (Ma & Ms & Mg & Mq).
  split; [|split; [|split]]; intros; [apply Ma|apply Ms|apply Mg|apply Mq]; auto; discriminate.
Qed.

(** ** Written expressions *)
Lemma symchar_spec c : is_symchar c = true <-> sym_char c.
Proof. unfold is_symchar, sym_char, letter, digit, isalpha, isdigit. lia. Qed.
Lemma lident_app s r : (forall x, In x s -> sym_char x) -> match r with c :: _ => ~ sym_char c | [] => True end -> lident_loop (s ++ r) = (s, r).
Proof.
  intros H1 H2. induction s as [|c s IH]; cbn [app lident_loop].
  - destruct r as [|c r]; cbn [lident_loop]; [reflexivity|]. destruct (is_symchar c) eqn:E; [apply symchar_spec in E; tauto|reflexivity].
  - assert (is_symchar c = true) as -> by (apply symchar_spec; apply H1; left; reflexivity). rewrite IH by (intros; apply H1; right; assumption). reflexivity.
Qed.
Lemma lit_app q s r : ~ In q s -> ~ In 0%N s -> forall acc, lit_loop q (s ++ q :: r) acc = SOk (rev acc ++ map narrow s, r).
Proof.
  induction s as [|c s IH]; intros H1 H2 acc; cbn [app lit_loop map].
  - rewrite N.eqb_refl, app_nil_r. reflexivity.
  - cbn in H1, H2. destruct (c =? q)%N eqn:E1; [lia|]. destruct (c =? 0)%N eqn:E2; [lia|]. rewrite IH by tauto. cbn [rev]. rewrite <- app_assoc. reflexivity.
Qed.
Lemma digits_app d r : (forall c, In c d -> digit c) -> ~ digit (lpeek r) -> digits_loop (d ++ r) = r.
Proof.
  intros H1 H2. induction d as [|c d IH]; cbn [app].
  - destruct r as [|c r]; [reflexivity|]. cbn [digits_loop lpeek] in *. unfold digit in H2. destruct (isdigit c) eqn:E; [unfold isdigit in E; lia|reflexivity].
  - cbn [digits_loop]. assert (isdigit c = true) as -> by (specialize (H1 c (or_introl eq_refl)); unfold digit, isdigit in *; lia). apply IH. intros x Hx. apply H1. right. exact Hx.
Qed.
Lemma btext_head b : btext b -> b = [] \/ exists c b', b = c :: b' /\ (isspace c = true \/ c = 47%N).
Proof. intros [|c b' Hc Hb|body b' _ _ _|body b' _ _ _]; [auto|right; eauto..]. exists c, b'. split; [reflexivity|]. left. apply isspace_spec. exact Hc. Qed.
(** The remaining text starts with something other than '{' (and is past blanks). *)
Lemma localid_written l r : w_local l -> tok r -> lpeek r <> 123%N -> parse_localid (l ++ r) = SOk r.
Proof.
  intros Hl Ht Hr. unfold parse_localid. destruct Hl as [|b1 d b2 b3 B1 D0 D B2 B3].
  - cbn [app]. rewrite tok_skip by exact Ht. destruct (lpeek r =? 123)%N eqn:E; [lia|reflexivity].
  - cbn [app]. rewrite tok_skip by (apply tok_char; [reflexivity|discriminate]). cbn [lpeek tl]. change (123 =? 123)%N with true. cbn match.
    rewrite <- !app_assoc. cbn [app]. rewrite btext_skip by exact B1.
    destruct d as [|c d]; [congruence|]. assert (Hc : digit c) by (apply D; left; reflexivity). unfold digit in Hc.
    rewrite tok_skip by (cbn [app]; apply tok_char; [unfold isspace; lia|lia]). cbn [app lpeek]. destruct (c =? 125)%N eqn:E; [lia|].
    change (c :: d ++ b2 ++ 125%N :: b3 ++ r) with ((c :: d) ++ b2 ++ 125%N :: b3 ++ r). rewrite digits_app; [|exact D|].
    + rewrite btext_skip by exact B2. rewrite tok_skip by (apply tok_char; [reflexivity|discriminate]). cbn [lpeek tl]. change (125 =? 125)%N with true. cbn match.
      rewrite btext_skip by exact B3. apply tok_skip. exact Ht.
    + destruct (btext_head b2 B2) as [->|(x & b' & -> & Hx)]; cbn [app lpeek]; unfold digit; [lia|]. unfold isspace in Hx. lia.
Qed.
Lemma localid_blank b l r : btext b -> w_local l -> tok r -> lpeek r <> 123%N -> parse_localid (b ++ l ++ r) = SOk r.
Proof.
  intros Hb Hl Ht Hr. rewrite <- (localid_written l r Hl Ht Hr). unfold parse_localid. rewrite btext_skip by exact Hb. reflexivity.
Qed.
Lemma pat_head p t : pat_ok p -> p <> PNil -> w_pat p t -> exists c t', t = c :: t' /\ c <> 42%N /\ c <> 47%N.
Proof.
  intros Hp Hn Hw. revert Hp Hn. induction Hw as [|p s t x Hw IH Hs]; intros Hp Hn; [congruence|]. destruct Hp as [Hp Hs'].
  destruct p as [|p0 s0].
  - inversion Hw; subst. destruct (proj1 (proj2 parse_written) s Hs' x Hs) as (c & t' & -> & Hc & _). exists c, t'. unfold ustart in Hc. split; [reflexivity|]. lia.
  - destruct (IH Hp ltac:(discriminate)) as (c & t' & -> & Hc). exists c, (t' ++ x). auto.
Qed.
Lemma node_written x t b l r : w_term x t -> btext b -> w_local l -> separated x (b ++ l ++ r) -> tok r -> lpeek r <> 123%N ->
  parse_node (t ++ b ++ l ++ r) = SOk (term_nty x, r) /\ tok (t ++ b ++ l ++ r) /\ lpeek (t ++ b ++ l ++ r) <> 40%N.
Proof.
  intros Ht Hb Hl Hs Hr H123. pose proof (localid_blank b l r Hb Hl Hr H123) as HL. destruct Ht as [c s Hc Hsy|q s Hq H1 H2|p t Hp Hn Hw].
  - assert (LD : is_leader c = true) by (unfold is_leader, isalpha, letter in *; lia).
    unfold parse_node. cbn [app lpeek lident]. rewrite LD. rewrite lident_app; [|exact Hsy|exact Hs]. rewrite HL.
    split; [reflexivity|]. unfold letter in Hc. split; [apply tok_char; [unfold isspace|]; lia|lia].
  - unfold parse_node. cbn [app lpeek tl]. assert (is_leader q = false) as -> by (unfold is_leader, isalpha; lia). destruct (q =? 47)%N eqn:E47; [lia|].
    assert (((q =? 39) || (q =? 34))%N = true) as -> by lia. rewrite <- app_assoc. cbn [app]. rewrite lit_app by assumption. cbn [rev app]. rewrite HL.
    split; [reflexivity|]. split; [apply tok_char; [unfold isspace|]; lia|lia].
  - unfold parse_node. cbn [app lpeek tl]. change (is_leader 47%N) with false. change (47 =? 47)%N with true. cbn match.
    rewrite <- app_assoc. cbn [app]. rewrite (nfa_parse_written p t 47%N) by auto. rewrite HL. split; [reflexivity|].
    destruct (pat_head p t Hp Hn Hw) as (c & t' & -> & C1 & C2). split; [split; [reflexivity|right; cbn [app]; auto]|lia].
Qed.

(** What may follow a sequence. *)
Definition endch (t : list N) : Prop := exists c r, t = c :: r /\ (c = 124 \/ c = 41 \/ c = 59)%N.
Lemma endch_tok t : endch t -> tok t.
Proof. intros (c & r & -> & H). apply tok_char; [unfold isspace|]; lia. Qed.
(** The first character of a sequence that is followed by [rest]. *)
Definition okhead (t : list N) : Prop := let c := lpeek t in c <> 42%N /\ c <> 43%N /\ c <> 63%N /\ c <> 123%N /\ c <> 62%N /\ c <> 40%N \/ c = 40%N.
Lemma okhead_ne t : okhead t -> lpeek t <> 42%N /\ lpeek t <> 43%N /\ lpeek t <> 63%N /\ lpeek t <> 123%N /\ lpeek t <> 62%N.
Proof. unfold okhead. lia. Qed.
Lemma btext_okhead b t : btext b -> okhead t -> okhead (b ++ t).
Proof.
  intros Hb Ht. destruct (btext_head b Hb) as [->|(c & b' & -> & Hc)]; [exact Ht|]. unfold okhead. cbn [app lpeek]. unfold isspace in Hc. lia.
Qed.
Lemma term_okhead x t r : w_term x t -> okhead (t ++ r).
Proof. intros [c s Hc Hsy|q s Hq H1 H2|p t' Hp Hn Hw]; unfold okhead; cbn [app lpeek]; unfold letter in *; lia. Qed.
Lemma seq_okhead s t rest : w_seq s t -> endch rest -> okhead (t ++ rest).
Proof.
  intros H (c & r & -> & Hc). destruct H as [b Hb|b x t b1 l q s r' Hb Ht Hb1 Hl Hs Hsep|b e t b1 q s r' Hb He Hb1 Hs].
  - apply btext_okhead; [exact Hb|]. unfold okhead. cbn [lpeek]. lia.
  - rewrite <- app_assoc. apply btext_okhead; [exact Hb|]. rewrite <- !app_assoc. eapply term_okhead; exact Ht.
  - rewrite <- app_assoc. apply btext_okhead; [exact Hb|]. unfold okhead. cbn [app lpeek]. lia.
Qed.
Lemma quant_written q M o a t : okhead t -> parse_quant M o a (gq_text q ++ t) = (quantM q M o a, t).
Proof.
  intros H. apply okhead_ne in H. destruct q; try reflexivity. cbn [gq_text app quantM]. unfold parse_quant.
  destruct (lpeek t =? 42)%N eqn:E1; [lia|]. destruct (lpeek t =? 43)%N eqn:E2; [lia|]. destruct (lpeek t =? 63)%N eqn:E3; [lia|]. reflexivity.
Qed.
(** Skipping before a quantifier: when there is none, blanks of what follows are skipped too. *)
Lemma parse_seq_skip f ws M t t' : lskip1 t = lskip1 t' -> parse_seq (S f) ws M t = parse_seq (S f) ws M t'.
Proof. intros H. cbn [parse_seq]. rewrite H. reflexivity. Qed.
Lemma lskip_ok_tok f : forall l r, lskip f l = SOk r -> tok r.
Proof.
  induction f as [|f IH]; intros l r; cbn [lskip]; [discriminate|].
  destruct l as [|c t]; [intros E; injection E as <-; exact I|]. destruct (isspace c) eqn:Es; [apply IH|].
  destruct (c =? 47)%N eqn:Ec; [|intros E; injection E as <-; apply tok_char; [exact Es|lia]].
  destruct t as [|d t]; [intros E; injection E as <-; split; [exact Es|auto]|].
  destruct (d =? 42)%N eqn:E1; [destruct (lskip_block t) as [x|]; [apply IH|discriminate]|].
  destruct (d =? 47)%N eqn:E2; [apply IH|]. intros E; injection E as <-. split; [exact Es|right; lia].
Qed.

Lemma term_tok x t r : w_term x t -> tok (t ++ r).
Proof.
  intros [c s Hc Hsy|q s Hq H1 H2|p t' Hp Hn Hw]; cbn [app].
  - unfold letter in Hc. apply tok_char; [unfold isspace; lia|lia].
  - apply tok_char; [unfold isspace; lia|lia].
  - destruct (pat_head p t' Hp Hn Hw) as (c & t0 & -> & C1 & C2). split; [reflexivity|]. right. cbn [app]. auto.
Qed.
Lemma seq_split s t rest : w_seq s t -> endch rest -> exists b r, btext b /\ t ++ rest = b ++ r /\ tok r /\ okhead r.
Proof.
  intros H He. destruct H as [b Hb|b x t b1 l q s r' Hb Ht Hb1 Hl Hs Hsep|b e t b1 q s r' Hb Hw Hb1 Hs].
  - exists b, rest. split; [exact Hb|]. split; [reflexivity|]. split; [apply endch_tok; exact He|]. destruct He as (c & r & -> & Hc). unfold okhead. cbn. lia.
  - exists b. eexists. split; [exact Hb|]. split; [rewrite <- app_assoc; reflexivity|]. rewrite <- app_assoc. split; [eapply term_tok; eassumption|eapply term_okhead; eassumption].
  - exists b. eexists. split; [exact Hb|]. split; [rewrite <- app_assoc; reflexivity|]. split; [apply tok_char; [reflexivity|discriminate]|]. unfold okhead. cbn. auto.
Qed.
Lemma btext_app a b : btext a -> btext b -> btext (a ++ b).
Proof.
  intros Ha Hb. induction Ha as [|c a Hc Ha IH|body a H1 H2 Ha IH|body a H1 H2 Ha IH]; cbn [app]; [exact Hb| | |].
  - apply bt_space; assumption.
  - rewrite <- app_assoc. cbn [app]. apply bt_line; assumption.
  - rewrite <- app_assoc. cbn [app]. apply bt_block; assumption.
Qed.
(** Blanks after the optional number belong to it. *)
Lemma local_absorb b1 l b2 : btext b1 -> w_local l -> btext b2 -> exists b l', btext b /\ w_local l' /\ b1 ++ l ++ b2 = b ++ l'.
Proof.
  intros H1 Hl H2. destruct Hl as [|a d b c A D0 D B C].
  - exists (b1 ++ b2), []. split; [apply btext_app; assumption|]. split; [constructor|]. rewrite app_nil_r. reflexivity.
  - exists b1. eexists. split; [exact H1|]. split; [|reflexivity]. cbn [app]. rewrite <- !app_assoc. cbn [app]. apply wl_num; try assumption. apply btext_app; assumption.
Qed.
Lemma separated_app x t rest : separated x t -> endch rest -> separated x (t ++ rest).
Proof.
  intros H (c & r & -> & Hc). destruct x as [id| |]; cbn in *; auto. destruct t as [|d t]; cbn [app]; [|exact H].
  unfold sym_char, letter, digit. lia.
Qed.
Definition Patom ws M t r := exists f, parse_atom f ws M t = SOk r.
Definition Pseq ws M t r := exists f, parse_seq f ws M t = SOk r.
Definition Pgalts ws M o p ts t r := exists f, parse_galts f ws M o p ts t = SOk r.
Definition after (f : nat) (ws : bool) (M : atn) (o p : nat) (ts : list nat) (t : list N) : sres (atn * list N) :=
  match lskip1 t with
  | SOk t2 =>
    let ch := lpeek t2 in
    if ((ch =? 59) || (ch =? 41))%N then SOk (join M ts, t2)
    else if (ch =? 124)%N then
      if (lpeek (tl t2) =? 62)%N then parse_galts f ws M o (S p) ts (tl (tl t2))
      else parse_galts f ws M o p ts (tl t2)
    else SThrow
  | SThrow => SThrow | SFuel => SFuel
  end.
Lemma after_le f g ws M o p ts t x : f <= g -> after f ws M o p ts t = SOk x -> after g ws M o p ts t = SOk x.
Proof.
  intros H. unfold after. destruct (lskip1 t) as [t2| |]; auto. cbv zeta. destruct ((lpeek t2 =? 59) || (lpeek t2 =? 41))%N; auto. destruct (lpeek t2 =? 124)%N; auto.
  destruct (atn_le f g ws H) as (_ & _ & L & _). destruct (lpeek (tl t2) =? 62)%N; apply L.
Qed.
Lemma galts_step ws M o p ts t M1 t1 r f : Pseq ws (add_node M o p) t (M1, t1) -> after f ws M1 o p (ts ++ [length M1 - 1]) t1 = SOk r -> Pgalts ws M o p ts t r.
Proof.
  intros [f1 H1] H2. exists (S (Nat.max f1 f)).
  change (parse_galts (S (Nat.max f1 f)) ws M o p ts t) with (
      match parse_seq (Nat.max f1 f) ws (add_node M o p) t with
      | SOk (M1, t1) => after (Nat.max f1 f) ws M1 o p (ts ++ [length M1 - 1]) t1
      | e => e
      end).
  destruct (atn_le f1 (Nat.max f1 f) ws ltac:(lia)) as (_ & _ & _ & L). rewrite (L _ _ _ H1). eapply after_le; [|exact H2]. lia.
Qed.
Lemma seq_step ws M t t1 M1 t2 r : lskip1 t = SOk t1 -> lpeek t1 <> 124%N -> lpeek t1 <> 41%N -> lpeek t1 <> 59%N -> Patom ws M t1 (M1, t2) -> Pseq ws M1 t2 r -> Pseq ws M t r.
Proof.
  intros H N1 N2 N3 [f1 H1] [f2 H2]. exists (S (Nat.max f1 f2)). cbn [parse_seq]. rewrite H. cbv zeta.
  destruct ((lpeek t1 =? 124) || (lpeek t1 =? 41) || (lpeek t1 =? 59))%N eqn:E; [lia|].
  destruct (atn_le f1 (Nat.max f1 f2) ws ltac:(lia)) as (L & _). rewrite (L _ _ _ H1).
  destruct (atn_le f2 (Nat.max f1 f2) ws ltac:(lia)) as (_ & _ & _ & L2). apply L2. exact H2.
Qed.
Lemma Pseq_skip ws M t t' r : lskip1 t = lskip1 t' -> Pseq ws M t r -> Pseq ws M t' r.
Proof. intros H [[|f] E]; [discriminate|]. exists (S f). rewrite <- E. symmetry. apply parse_seq_skip. exact H. Qed.
Lemma gq_cases q : q = GOne \/ q <> GOne.
Proof. destruct q; [left; reflexivity|right; discriminate..]. Qed.
Lemma push_term_eq (ws : bool) M n : (match n with NLit _ | NReg _ => if ws then push_node (push_node M NWs) n else push_node M n | _ => push_node M n end) = push_term ws M n.
Proof. reflexivity. Qed.

Lemma atn_written ws :
  (forall a : gatom, match a with GTerm _ => True | GGroup e => forall t, w_sel e t -> forall M rest, endch rest -> lpeek rest <> 124%N ->
      exists f, parse_sel f ws M (t ++ rest) = SOk (batom ws (GGroup e) M, rest) end) /\
  (forall s t, w_seq s t -> forall M rest, endch rest -> Pseq ws M (t ++ rest) (bseq ws s M, rest)) /\
  (forall e t, w_sel e t -> forall M o rest r f M1 p ts, endch rest -> balts ws e M o = (M1, p, ts) -> after f ws M1 o p ts rest = SOk r -> Pgalts ws M o 0 [] (t ++ rest) r).
Proof.
  apply g_ind.
  - intros x. exact I.
  - intros e IH t Ht M rest He Hb. cbn [batom]. destruct (balts ws e (add_node M (length M - 1) 0) (length (add_node M (length M - 1) 0) - 1)) as [[A p] ts] eqn:EB.
    destruct (IH t Ht (add_node M (length M - 1) 0) (length (add_node M (length M - 1) 0) - 1) rest (join A ts, rest) 0 A p ts He EB) as [f Hf].
    { unfold after. rewrite tok_skip by (apply endch_tok; exact He). destruct He as (c & r & -> & Hc). cbn [lpeek] in *. cbv zeta.
      destruct ((c =? 59) || (c =? 41))%N eqn:E; [reflexivity|]. lia. }
    exists (S f). cbn [parse_sel]. exact Hf.
  - intros t Ht M rest He. inversion Ht as [b Hb| |]; subst. cbn [bseq]. exists 1. cbn [parse_seq]. rewrite btext_skip by exact Hb. rewrite tok_skip by (apply endch_tok; exact He).
    destruct He as (c & r & -> & Hc). cbn [lpeek]. cbv zeta. destruct ((c =? 124) || (c =? 41) || (c =? 59))%N eqn:E; [reflexivity|lia].
  - intros a IHa q s IHs t Ht M rest He. inversion Ht as [|b x t0 b1 l q' s' r Hb Hx Hb1 Hl Hs Hsep|b e t0 b1 q' s' r Hb Hw Hb1 Hs]; subst.
    + (* terminal *)
      cbn [bseq batom]. set (M1 := push_term ws M (term_nty x)).
      assert (HR : exists b1' l' r', btext b1' /\ w_local l' /\ tok r' /\ lpeek r' <> 123%N /\ b1 ++ l ++ gq_text q ++ r ++ rest = b1' ++ l' ++ r' /\
                    (exists r2, parse_quant M1 (length M - 1) (length M) r' = (quantM q M1 (length M - 1) (length M), r2) /\ lskip1 r2 = lskip1 (r ++ rest))).
      { assert (OK : okhead (r ++ rest)) by (eapply seq_okhead; eassumption).
        destruct (gq_cases q) as [Q|Q].
        - subst q. cbn [gq_text app]. destruct (seq_split s r rest Hs He) as (b' & r'' & Hb' & E & T & OK').
          destruct (local_absorb b1 l b' Hb1 Hl Hb') as (b1' & l' & H1 & H2 & E2).
          exists b1', l', r''. split; [exact H1|]. split; [exact H2|]. split; [exact T|]. split; [apply okhead_ne in OK'; lia|].
          split; [rewrite E; rewrite !app_assoc; rewrite <- (app_assoc b1 l b'), E2; reflexivity|].
          exists r''. split; [exact (quant_written GOne M1 _ _ _ OK')|]. rewrite E, btext_skip by exact Hb'. reflexivity.
        - exists b1, l, (gq_text q ++ r ++ rest). split; [exact Hb1|]. split; [exact Hl|].
          split; [destruct q; try congruence; cbn [gq_text app]; (apply tok_char; [reflexivity|discriminate])|].
          split; [destruct q; try congruence; cbn; lia|]. split; [reflexivity|]. exists (r ++ rest). split; [apply quant_written; exact OK|reflexivity]. }
      destruct HR as (b1' & l' & r' & H1 & H2 & H3 & H4 & H5 & r2 & H6 & H7).
      assert (ET : (b ++ t0 ++ b1 ++ l ++ gq_text q ++ r) ++ rest = b ++ t0 ++ b1' ++ l' ++ r').
      { rewrite <- H5. rewrite <- !app_assoc. reflexivity. }
      rewrite ET. assert (SEP : separated x (b1' ++ l' ++ r')).
      { rewrite <- H5. replace (b1 ++ l ++ gq_text q ++ r ++ rest) with ((b1 ++ l ++ gq_text q ++ r) ++ rest) by (rewrite <- !app_assoc; reflexivity). apply separated_app; assumption. }
      destruct (node_written x t0 b1' l' r' Hx H1 H2 SEP H3 H4) as (PN & TK & N40).
      eapply (seq_step ws M _ (t0 ++ b1' ++ l' ++ r') (quantM q M1 (length M - 1) (length M)) r2).
      * rewrite btext_skip by exact Hb. apply tok_skip. exact TK.
      * destruct Hx as [c s0 Hc Hsy|q0 s0 Hq H11 H12|p t' Hp Hn Hw]; cbn [app lpeek]; unfold letter in *; lia.
      * destruct Hx as [c s0 Hc Hsy|q0 s0 Hq H11 H12|p t' Hp Hn Hw]; cbn [app lpeek]; unfold letter in *; lia.
      * destruct Hx as [c s0 Hc Hsy|q0 s0 Hq H11 H12|p t' Hp Hn Hw]; cbn [app lpeek]; unfold letter in *; lia.
      * exists 1. cbn [parse_atom]. rewrite tok_skip by exact TK. destruct (lpeek (t0 ++ b1' ++ l' ++ r') =? 40)%N eqn:E; [lia|].
        rewrite PN. rewrite push_term_eq. fold M1. rewrite tok_skip by exact H3. rewrite H6. reflexivity.
      * eapply Pseq_skip; [symmetry; exact H7|]. apply IHs; assumption.
    + (* group *)
      cbn [bseq]. set (M1 := batom ws (GGroup e) M).
      assert (HR : exists r' r2, lskip1 (b1 ++ gq_text q ++ r ++ rest) = SOk r' /\ parse_quant M1 (length M - 1) (length M) r' = (quantM q M1 (length M - 1) (length M), r2) /\ lskip1 r2 = lskip1 (r ++ rest)).
      { rewrite btext_skip by exact Hb1. assert (OK : okhead (r ++ rest)) by (eapply seq_okhead; eassumption).
        destruct (gq_cases q) as [Q|Q].
        - subst q. cbn [gq_text app]. destruct (seq_split s r rest Hs He) as (b' & r'' & Hb' & E & T & OK').
          exists r'', r''. split; [rewrite E, btext_skip by exact Hb'; apply tok_skip; exact T|]. split; [exact (quant_written GOne M1 _ _ _ OK')|]. rewrite E, btext_skip by exact Hb'. reflexivity.
        - exists (gq_text q ++ r ++ rest), (r ++ rest). split; [|split; [apply quant_written; exact OK|reflexivity]].
          apply tok_skip. destruct q; try congruence; cbn [gq_text app]; (apply tok_char; [reflexivity|discriminate]). }
      destruct HR as (r' & r2 & H5 & H6 & H7).
      assert (ET : (b ++ 40%N :: t0 ++ 41%N :: b1 ++ gq_text q ++ r) ++ rest = b ++ 40%N :: t0 ++ 41%N :: b1 ++ gq_text q ++ r ++ rest).
      { rewrite <- !app_assoc. cbn [app]. rewrite <- !app_assoc. cbn [app]. rewrite <- !app_assoc. reflexivity. }
      rewrite ET.
      destruct (IHa t0 Hw M (41%N :: b1 ++ gq_text q ++ r ++ rest)) as [f Hf]; [exists 41%N; eexists; split; [reflexivity|auto]|cbn; lia|].
      eapply (seq_step ws M _ (40%N :: t0 ++ 41%N :: b1 ++ gq_text q ++ r ++ rest) (quantM q M1 (length M - 1) (length M)) r2).
      * rewrite btext_skip by exact Hb. apply tok_skip. apply tok_char; [reflexivity|discriminate].
      * cbn; lia.
      * cbn; lia.
      * cbn; lia.
      * exists (S f). cbn [parse_atom]. rewrite tok_skip by (apply tok_char; [reflexivity|discriminate]). cbn [lpeek tl]. change (40 =? 40)%N with true. cbn match.
        rewrite Hf. rewrite tok_skip by (apply tok_char; [reflexivity|discriminate]). cbn [lpeek tl]. change (41 =? 41)%N with true. cbn match. rewrite H5. fold M1. rewrite H6. reflexivity.
      * eapply Pseq_skip; [symmetry; exact H7|]. apply IHs; assumption.
  - intros s IH t Ht M o rest r f M1 p ts He EB HA. inversion Ht as [? ? Hs|]; subst. cbn [balts] in EB. injection EB as <- <- <-.
    eapply galts_step; [apply IH; eassumption|]. exact HA.
  - intros e IHe up s IHs t Ht M o rest r f M1 p ts He EB HA. inversion Ht as [|? ? ? t0 r0 Hwe Hws]; subst. cbn [balts] in EB.
    destruct (balts ws e M o) as [[M0 p0] ts0] eqn:E0. injection EB as <- <- <-.
    rewrite <- app_assoc. cbn [app].
    assert (G : Pgalts ws M0 o (if up then S p0 else p0) ts0 (r0 ++ rest) r) by (eapply galts_step; [apply IHs; eassumption|exact HA]).
    destruct G as [g Hg].
    apply (IHe t0 Hwe M o (124%N :: ((if up then [62%N] else []) ++ r0) ++ rest) r g M0 p0 ts0); [exists 124%N; eexists; split; [reflexivity|auto]|exact E0|].
    unfold after. rewrite tok_skip by (apply tok_char; [reflexivity|discriminate]). cbn [lpeek tl]. cbv zeta. change ((124 =? 59) || (124 =? 41))%N with false. change (124 =? 124)%N with true. cbn match.
    destruct up; cbn [app].
    + cbn [lpeek tl]. change (62 =? 62)%N with true. cbn match. exact Hg.
    + pose proof (seq_okhead s r0 rest Hws He) as OK. apply okhead_ne in OK. destruct (lpeek (r0 ++ rest) =? 62)%N eqn:E; [lia|]. exact Hg.
Qed.
(** A written rule body, followed by anything, is read up to its semicolon. *)
Theorem atn_parse_written ws e t rest : w_body e t -> atn_parse ws (t ++ rest) = SOk (build_body ws e, rest).
Proof.
  intros (b & r & Hb & Hw & ->). unfold atn_parse. rewrite <- app_assoc. rewrite btext_skip by exact Hb. cbn [app]. rewrite <- app_assoc. cbn [app].
  rewrite tok_skip by (apply tok_char; [reflexivity|discriminate]). cbn [lpeek tl]. change (58 =? 58)%N with true. cbn match.
  destruct (proj1 (atn_written ws) (GGroup e) r Hw [blank] (59%N :: rest)) as [f Hf]; [exists 59%N; eexists; split; [reflexivity|auto]|cbn; lia|].
  set (g := 4 * length (58%N :: r ++ 59%N :: rest) + 4).
  assert (E : parse_sel g ws [blank] (r ++ 59%N :: rest) = SOk (batom ws (GGroup e) [blank], 59%N :: rest)).
  { destruct (Nat.le_ge_cases f g) as [L|L]; [apply (atn_le f g ws L); exact Hf|].
    destruct (parse_sel g ws [blank] (r ++ 59%N :: rest)) as [x| |] eqn:Q.
    - destruct (atn_le g f ws L) as (_ & L2 & _). apply L2 in Q. rewrite Q in Hf. exact Hf.
    - exfalso. assert (T : forall k, parse_sel (k + g) ws [blank] (r ++ 59%N :: rest) = SThrow).
      { induction k as [|k IH]; [exact Q|]. apply (proj1 (proj2 (atn_mono (k + g) ws))); [exact IH|discriminate]. }
      specialize (T (f - g)). replace (f - g + g) with f in T by lia. congruence.
    - exfalso. revert Q. apply (proj1 (proj2 (atn_enough g ws))). unfold g. cbn [length]. lia. }
  rewrite E. rewrite tok_skip by (apply tok_char; [reflexivity|discriminate]). cbn [lpeek tl]. change (59 =? 59)%N with true. reflexivity.
Qed.
