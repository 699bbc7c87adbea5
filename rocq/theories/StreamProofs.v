From Coq Require Import List NArith Bool Lia ZifyBool ZifyN ZifyNat.
From Verif Require Import Stream StreamSpec.
Import ListNotations.
Open Scope N_scope.

Lemma deliver_len_aux n : forall t, (length t <= n)%nat -> (length (deliver t) <= length t)%nat.
Proof.
  induction n as [|n IH]; intros t H; destruct t as [|c t]; cbn in *; try lia.
  destruct (c =? 13).
  - destruct t as [|d t']; cbn; [lia|]. destruct (d =? 10).
    + cbn. cbn in H. specialize (IH t' ltac:(lia)). lia.
    + specialize (IH (d :: t') ltac:(lia)). cbn in *. lia.
  - cbn. specialize (IH t ltac:(lia)). lia.
Qed.
Lemma deliver_len t : (length (deliver t) <= length t)%nat.
Proof. apply (deliver_len_aux (length t)). lia. Qed.

Lemma deliver_nil t : deliver t = [] <-> t = [].
Proof.
  destruct t as [|c t]; cbn; [tauto|]. split; [|discriminate].
  destruct (c =? 13); [|discriminate]. destruct t as [|d t']; [discriminate|]. destruct (d =? 10); discriminate.
Qed.

Lemma get_deliver s :
  match deliver (rest s) with
  | [] => get s = (0, s)
  | d :: l => fst (get s) = d /\ deliver (rest (snd (get s))) = l /\ (length (rest (snd (get s))) < length (rest s))%nat
  end.
Proof.
  unfold get. destruct (rest s) as [|c t] eqn:E; cbn [deliver]; [reflexivity|].
  destruct (c =? 13) eqn:E13.
  - destruct t as [|d t'].
    + destruct (nlf s); cbn; auto.
    + destruct (d =? 10) eqn:E10; destruct (nlf s); cbn [fst snd rest length]; (split; [reflexivity|]); split; auto; lia.
  - destruct (nlf s); cbn [fst snd rest length]; auto.
Qed.

Lemma get_cons s d l : deliver (rest s) = d :: l ->
  exists s', get s = (d, s') /\ deliver (rest s') = l /\ (length (rest s') < length (rest s))%nat.
Proof.
  intros E. pose proof (get_deliver s) as G. rewrite E in G. destruct G as (G1 & G2 & G3).
  exists (snd (get s)). split; [rewrite (surjective_pairing (get s)), G1; reflexivity|auto].
Qed.
Lemma get_nil s : deliver (rest s) = [] -> get s = (0, s).
Proof. intros E. pose proof (get_deliver s) as G. rewrite E in G. exact G. Qed.

Lemma peek_deliver s : peek s = hd 0 (deliver (rest s)) \/ rest s = [13].
Proof.
  unfold peek. destruct (rest s) as [|c t]; cbn [deliver]; [left; reflexivity|].
  destruct (c =? 13) eqn:E13; [|left; reflexivity]. assert (c = 13) as -> by lia.
  destruct t as [|d t']; [right; reflexivity|]. left. destruct (d =? 10); reflexivity.
Qed.
Lemma peek_is s c : c <> 10 -> c <> 13 -> (peek s =? c) = (hd 0 (deliver (rest s)) =? c).
Proof.
  intros H1 H2. destruct (peek_deliver s) as [-> |E]; [reflexivity|].
  unfold peek. rewrite E. cbn. destruct c as [|p]; [reflexivity|]. lia.
Qed.
Lemma peek2_deliver s c : c <> 0 -> c <> 10 -> c <> 13 -> peek s = 47 ->
  (peek2 s =? c) = (hd 0 (tl (deliver (rest s))) =? c).
Proof.
  intros H0 H1 H2 HP. unfold peek2, peek in *. destruct (rest s) as [|a [|b t]] eqn:E; [discriminate| |].
  - subst a. cbn. lia.
  - subst a. cbn [deliver]. change (47 =? 13) with false. cbn iota. cbn [tl].
    destruct (b =? 13) eqn:E13; [|reflexivity]. assert (b = 13) as -> by lia.
    destruct t as [|d t']; [cbn [hd]; lia|]. destruct (d =? 10); reflexivity.
Qed.

Lemma skip_block_deliver fuel : forall s, (length (rest s) < fuel)%nat ->
  match lskip_block (deliver (rest s)) with
  | Some l => exists s', skip_block fuel s = SOk s' /\ deliver (rest s') = l /\ (length (rest s') < length (rest s))%nat
  | None => skip_block fuel s = SThrow
  end.
Proof.
  induction fuel as [|f IH]; intros s Hf; [lia|].
  cbn [skip_block]. destruct (deliver (rest s)) as [|c l] eqn:E.
  - rewrite get_nil by exact E. reflexivity.
  - destruct (get_cons s c l E) as (s1 & G & E1 & L1). rewrite G. cbn [lskip_block].
    destruct (c =? 0) eqn:E0; [reflexivity|].
    specialize (IH s1 ltac:(lia)). rewrite E1 in IH.
    rewrite (peek_is s1 47) by lia. rewrite E1.
    destruct (c =? 42) eqn:E42; cbn [andb].
    + destruct l as [|d l'].
      * cbn [hd]. change (0 =? 47) with false. cbn [lskip_block] in *. exact IH.
      * cbn [hd]. destruct (d =? 47) eqn:E47.
        -- assert (d = 47) as -> by lia. cbn [lskip_block].
           destruct (get_cons s1 47 l' E1) as (s2 & G2 & E2 & L2).
           exists (discard s1). unfold discard. rewrite G2. cbn. split; [reflexivity|]. split; [exact E2|lia].
        -- assert (X : match d :: l' with 47 :: t' => Some t' | _ => lskip_block (d :: l') end = lskip_block (d :: l')).
           { destruct d as [|p]; [reflexivity|]. clear - E47. do 6 (destruct p as [p|p|]; try reflexivity; try (cbn in E47; discriminate)). }
           rewrite X. destruct (lskip_block (d :: l')); [|exact IH].
           destruct IH as (s' & A & B & C). exists s'. split; [exact A|split; [exact B|lia]].
    + destruct (lskip_block l); [|exact IH]. destruct IH as (s' & A & B & C). exists s'. split; [exact A|split; [exact B|lia]].
Qed.

Lemma skip_line_deliver fuel : forall s, (length (rest s) < fuel)%nat ->
  exists s', skip_line fuel s = SOk s' /\ deliver (rest s') = lskip_line (deliver (rest s)) /\ (length (rest s') <= length (rest s))%nat.
Proof.
  induction fuel as [|f IH]; intros s Hf; [lia|].
  cbn [skip_line]. destruct (deliver (rest s)) as [|c l] eqn:E.
  - rewrite get_nil by exact E. change (0 =? 0) with true. cbn [orb lskip_line]. exists s. rewrite E. auto.
  - destruct (get_cons s c l E) as (s1 & G & E1 & L1). rewrite G. cbn [lskip_line].
    destruct ((c =? 0) || (c =? 10)).
    + exists s1. split; [reflexivity|split; [exact E1|lia]].
    + destruct (IH s1 ltac:(lia)) as (s' & A & B & C). rewrite E1 in B. exists s'. split; [exact A|split; [exact B|lia]].
Qed.

Lemma lskip_line_len l : (length (lskip_line l) <= length l)%nat.
Proof. induction l as [|c l IH]; cbn; [lia|]. destruct ((c =? 0) || (c =? 10)); cbn; lia. Qed.
Lemma lskip_block_len_aux n : forall l r, (length l <= n)%nat -> lskip_block l = Some r -> (length r < length l)%nat.
Proof.
  induction n as [|n IH]; intros l r Hl H; destruct l as [|c t]; cbn [lskip_block length] in *; try discriminate; try lia.
  destruct (c =? 0); [discriminate|]. assert (Q : lskip_block t = Some r -> (length r < S (length t))%nat).
  { intros Q. specialize (IH t r ltac:(lia) Q). lia. }
  destruct (c =? 42); [|auto].
  destruct t as [|d t']; [auto|]. destruct (N.eq_dec d 47) as [->|Hd]; [injection H as <-; cbn; lia|].
  apply Q. destruct d as [|p]; [exact H|]. clear - H Hd.
  do 6 (destruct p as [p|p|]; try exact H; try (exfalso; apply Hd; reflexivity)).
Qed.
Lemma lskip_block_len l r : lskip_block l = Some r -> (length r < length l)%nat.
Proof. apply (lskip_block_len_aux (length l)). lia. Qed.

Lemma lskip_fuel f : forall g l, (length l < f)%nat -> (length l < g)%nat -> lskip f l = lskip g l.
Proof.
  induction f as [|f IH]; intros [|g] l Hf Hg; try lia. cbn [lskip].
  destruct l as [|c t]; [reflexivity|]. cbn [length] in *.
  destruct (isspace c); [apply IH; lia|]. destruct (c =? 47); [|reflexivity].
  destruct t as [|d t']; [reflexivity|]. cbn [length] in *. destruct (d =? 42).
  - destruct (lskip_block t') as [r|] eqn:E; [|reflexivity]. apply lskip_block_len in E. apply IH; lia.
  - destruct (d =? 47); [|reflexivity]. pose proof (lskip_line_len t'). apply IH; lia.
Qed.

Lemma isspace_peek s : isspace (peek s) = isspace (hd 0 (deliver (rest s))).
Proof.
  destruct (peek_deliver s) as [-> |E]; [reflexivity|]. unfold peek. rewrite E. reflexivity.
Qed.

Lemma skip_f_deliver fuel : forall s, (length (rest s) < fuel)%nat ->
  match lskip fuel (deliver (rest s)) with
  | SOk l => exists s', skip_whitespace_f fuel s = SOk s' /\ deliver (rest s') = l /\ (length (rest s') <= length (rest s))%nat
  | SThrow => skip_whitespace_f fuel s = SThrow
  | SFuel => False
  end.
Proof.
  induction fuel as [|f IH]; intros s Hf; [lia|].
  cbn [skip_whitespace_f lskip]. rewrite isspace_peek, (peek_is s 47) by lia.
  destruct (deliver (rest s)) as [|c l] eqn:E.
  - cbn [hd]. change (isspace 0) with false. change (0 =? 47) with false. cbn iota. exists s. rewrite E. auto.
  - cbn [hd]. destruct (get_cons s c l E) as (s1 & G & E1 & L1).
    assert (D1 : discard s = s1) by (unfold discard; rewrite G; reflexivity).
    destruct (isspace c).
    + rewrite D1. specialize (IH s1 ltac:(lia)). rewrite E1 in IH.
      destruct (lskip f l); [|exact IH|exact IH]. destruct IH as (s' & A & B & C). exists s'. split; [exact A|split;[exact B|lia]].
    + destruct (c =? 47) eqn:E47.
      * assert (c = 47) as -> by lia. rewrite D1.
        assert (HP : peek s = 47).
        { pose proof (peek_is s 47 ltac:(lia) ltac:(lia)) as Q. rewrite E in Q. cbn in Q. lia. }
        rewrite (peek2_deliver s 42), (peek2_deliver s 47) by (try lia; exact HP). rewrite E. cbn [tl].
        destruct l as [|d l'].
        -- cbn. exists s. rewrite E. auto.
        -- cbn [hd]. destruct (get_cons s1 d l' E1) as (s2 & G2 & E2 & L2).
           assert (D2 : discard s1 = s2) by (unfold discard; rewrite G2; reflexivity).
           rewrite D2. destruct (d =? 42).
           ++ pose proof (skip_block_deliver (S (length (rest s))) s2 ltac:(lia)) as B. rewrite E2 in B.
              destruct (lskip_block l') as [r|]; [|rewrite B; reflexivity].
              destruct B as (s3 & A3 & E3 & L3). rewrite A3.
              specialize (IH s3 ltac:(lia)). rewrite E3 in IH.
              destruct (lskip f r); [|exact IH|exact IH].
              destruct IH as (s' & A & B & C). exists s'. split; [exact A|split;[exact B|lia]].
           ++ destruct (d =? 47).
              ** destruct (skip_line_deliver (S (length (rest s))) s2 ltac:(lia)) as (s3 & A3 & E3 & L3).
                 rewrite A3. specialize (IH s3 ltac:(lia)). rewrite E3, E2 in IH.
                 destruct (lskip f (lskip_line l')); [|exact IH|exact IH].
                 destruct IH as (s' & A & B & C). exists s'. split; [exact A|split;[exact B|lia]].
              ** exists s. rewrite E. auto.
      * exists s. rewrite E. auto.
Qed.

Lemma skip_deliver s :
  match lskip_ws (deliver (rest s)) with
  | SOk l => exists s', skip_whitespace s = SOk s' /\ deliver (rest s') = l /\ (length (rest s') <= length (rest s))%nat
  | SThrow => skip_whitespace s = SThrow
  | SFuel => False
  end.
Proof.
  unfold lskip_ws, skip_whitespace.
  pose proof (deliver_len (rest s)). 
  rewrite (lskip_fuel _ (S (length (rest s)))) by lia. apply skip_f_deliver. lia.
Qed.

(** ** Exactness of skipping on delivered text *)
Lemma no_star_slash_cons c l : occurs [42;47] (c :: l) <-> (c = 42 /\ exists t, l = 47 :: t) \/ occurs [42;47] l.
Proof.
  split.
  - intros (x & y & E). destruct x as [|a x]; cbn in E.
    + injection E as -> ->. left. split; [reflexivity|]. exists y. reflexivity.
    + injection E as -> ->. right. exists x, y. reflexivity.
  - intros [(-> & t & ->)|(x & y & ->)]; [exists [], t|exists (c :: x), y]; reflexivity.
Qed.

Lemma star_match (t : list N) (A : Type) (f : list N -> A) (b : A) :
  match t with 47 :: t' => f t' | _ => b end =
  match t with d :: t' => if d =? 47 then f t' else b | [] => b end.
Proof.
  destruct t as [|d t']; [reflexivity|]. destruct (d =? 47) eqn:E.
  - assert (d = 47) as -> by lia. reflexivity.
  - destruct d as [|p]; [reflexivity|]. do 6 (destruct p as [p|p|]; try reflexivity; try (cbn in E; discriminate)).
Qed.

Lemma lskip_block_spec l : ~ In 0 l ->
  match lskip_block l with
  | Some r => exists body, l = body ++ 42 :: 47 :: r /\ ~ occurs [42;47] (body ++ [42])
  | None => ~ occurs [42;47] l
  end.
Proof.
  induction l as [|c t IH]; intros H0; cbn [lskip_block].
  - intros (x & y & E). destruct x; discriminate.
  - assert (c =? 0 = false) as -> by (cbn in H0; lia).
    specialize (IH ltac:(cbn in H0; tauto)).
    assert (Q : (c = 42 -> forall t', t <> 47 :: t') ->
      match lskip_block t with
      | Some r => exists body, c :: t = body ++ 42 :: 47 :: r /\ ~ occurs [42;47] (body ++ [42])
      | None => ~ occurs [42;47] (c :: t)
      end).
    { intros Hc. destruct (lskip_block t) as [r|].
      - destruct IH as (body & -> & HB). exists (c :: body). split; [reflexivity|].
        cbn [app]. rewrite no_star_slash_cons. intros [(E & t' & Et)|K]; [|tauto].
        destruct body as [|b body']; cbn in Et; [discriminate|]. injection Et as -> _.
        eapply Hc; [exact E|reflexivity].
      - rewrite no_star_slash_cons. intros [(E & t' & Et)|K]; [|tauto]. eapply Hc; eauto. }
    destruct (c =? 42) eqn:E42.
    + assert (c = 42) as -> by lia. rewrite star_match. destruct t as [|d t']; [apply Q; discriminate|].
      destruct (d =? 47) eqn:E47.
      * assert (d = 47) as -> by lia. exists []. split; [reflexivity|].
        cbn. rewrite no_star_slash_cons. intros [(_ & t & K)|(x & y & K)]; [discriminate|]. destruct x; discriminate.
      * apply Q. intros _ t'' K. injection K as -> _. lia.
    + apply Q. intros ->. lia.
Qed.

Lemma lskip_line_spec l : ~ In 0 l ->
  (exists body, l = body ++ 10 :: lskip_line l /\ ~ In 10 body) \/ (lskip_line l = [] /\ ~ In 10 l).
Proof.
  induction l as [|c t IH]; intros H0; cbn [lskip_line]; [right; cbn; auto|].
  assert (c =? 0 = false) as -> by (cbn in H0; lia). cbn [orb].
  destruct (c =? 10) eqn:E.
  - assert (c = 10) as -> by lia. left. exists []. cbn. tauto.
  - destruct IH as [(body & E1 & H)|[E1 H]]; [cbn in H0; tauto| |].
    + left. exists (c :: body). split; [cbn; f_equal; exact E1|]. cbn. intros [->|K]; [lia|tauto].
    + right. split; [exact E1|]. cbn. intros [->|K]; [lia|tauto].
Qed.

Lemma isspace_spec c : isspace c = true <-> c = 32 \/ (9 <= c /\ c <= 13).
Proof. unfold isspace. lia. Qed.

Lemma blank1_not l c t : l = c :: t -> isspace c = false -> (c = 47 -> match t with d :: _ => d <> 42 /\ d <> 47 | [] => True end) ->
  forall r, ~ blank1 l r.
Proof.
  intros -> Hs H r B. inversion B; subst.
  - match goal with K : _ \/ _ |- _ => apply isspace_spec in K; congruence end.
  - specialize (H eq_refl). cbn in H. lia.
  - specialize (H eq_refl). cbn in H. lia.
  - specialize (H eq_refl). cbn in H. lia.
Qed.

Lemma lskip_spec f : forall l, (length l < f)%nat -> ~ In 0 l ->
  match lskip f l with
  | SOk r => blanks l r /\ forall r', ~ blank1 r r'
  | SThrow => exists c, blanks l (47 :: 42 :: c) /\ ~ occurs [42;47] c
  | SFuel => False
  end.
Proof.
  induction f as [|f IH]; intros l Hf H0; [lia|]. cbn [lskip].
  destruct l as [|c t].
  { split; [constructor|]. intros r' B. inversion B. }
  cbn [length] in Hf.
  assert (STEP : forall u, blank1 (c :: t) u -> (length u < S (length t))%nat -> (forall x, In x u -> In x (c :: t)) ->
    match lskip f u with
    | SOk r => blanks (c :: t) r /\ forall r', ~ blank1 r r'
    | SThrow => exists c0, blanks (c :: t) (47 :: 42 :: c0) /\ ~ occurs [42;47] c0
    | SFuel => False
    end).
  { intros u B Hu Hin. specialize (IH u ltac:(lia) ltac:(auto)).
    destruct (lskip f u) as [r| |]; [| |exact IH].
    - destruct IH as [IH1 IH2]. split; [|exact IH2]. econstructor; eauto.
    - destruct IH as (c0 & IH1 & IH2). exists c0. split; [|exact IH2]. econstructor; eauto. }
  destruct (isspace c) eqn:ES.
  { apply STEP; [constructor; apply isspace_spec; exact ES|lia|cbn; auto]. }
  destruct (c =? 47) eqn:E47.
  - assert (c = 47) as -> by lia. destruct t as [|d t'].
    + split; [constructor|]. eapply blank1_not; [reflexivity|exact ES|intros _; exact I].
    + destruct (d =? 42) eqn:E42; [assert (d = 42) as -> by lia|].
      * pose proof (lskip_block_spec t' ltac:(cbn in H0; tauto)) as B.
        destruct (lskip_block t') as [r|] eqn:EB.
        -- destruct B as (body & -> & HB). apply STEP.
           ++ constructor. exact HB.
           ++ apply lskip_block_len in EB. cbn [length] in *. lia.
           ++ intros x Hx. cbn. right. right. apply in_or_app. right. cbn. auto.
        -- exists t'. split; [constructor|exact B].
      * destruct (d =? 47) eqn:ED; [assert (d = 47) as -> by lia|].
        -- destruct (lskip_line_spec t' ltac:(cbn in H0; tauto)) as [(body & E1 & HB)|[E1 HB]].
           ++ apply STEP.
              ** rewrite E1 at 1. constructor. exact HB.
              ** pose proof (lskip_line_len t'). cbn [length]. lia.
              ** intros x Hx. rewrite E1. cbn. right. right. apply in_or_app. right. cbn. auto.
           ++ rewrite E1. apply STEP; [constructor; exact HB|cbn [length]; lia|intros x []].
        -- split; [constructor|]. eapply blank1_not; [reflexivity|exact ES|]. intros _. split; intros ->; lia.
  - split; [constructor|]. eapply blank1_not; [reflexivity|exact ES|]. intros ->; lia.
Qed.

(** Blanks are unambiguous. *)
Lemma app_cons_inv10 (a b : list N) x y : ~ In 10 a -> ~ In 10 b -> a ++ 10 :: x = b ++ 10 :: y -> x = y.
Proof.
  revert b. induction a as [|c a IH]; intros b Ha Hb E; destruct b as [|d b]; cbn in *.
  - congruence.
  - injection E as <- _. tauto.
  - injection E as -> _. tauto.
  - injection E as _ E. apply (IH b); tauto.
Qed.
Lemma block_inv a : forall b x y, ~ occurs [42;47] (a ++ [42]) -> ~ occurs [42;47] (b ++ [42]) ->
  a ++ 42 :: 47 :: x = b ++ 42 :: 47 :: y -> x = y.
Proof.
  induction a as [|c a IH]; intros b x y Ha Hb E; destruct b as [|d b]; cbn in *.
  - congruence.
  - exfalso. injection E as <- E. apply Hb. destruct b as [|e b]; cbn in E; [discriminate|injection E as <- E].
    exists [], (b ++ [42]). reflexivity.
  - exfalso. injection E as -> E. apply Ha. destruct a as [|e a]; cbn in E; [discriminate|injection E as -> E].
    exists [], (a ++ [42]). reflexivity.
  - injection E as _ E. apply (IH b x y); [| |exact E].
    + intros K. apply Ha. apply no_star_slash_cons. auto.
    + intros K. apply Hb. apply no_star_slash_cons. auto.
Qed.
Lemma blank1_det t u v : blank1 t u -> blank1 t v -> u = v.
Proof.
  intros H1 H2. inversion H1; subst; inversion H2; subst; try reflexivity; try lia; try congruence.
  all: try (match goal with K : 47 = 32 \/ _ |- _ => lia end).
  - symmetry. eapply app_cons_inv10; [| |eassumption]; assumption.
  - exfalso. match goal with K : ~ In 10 (_ ++ _) |- _ => apply K; apply in_or_app; right; left; reflexivity end.
  - exfalso. match goal with K : ~ In 10 (_ ++ _) |- _ => apply K; apply in_or_app; right; left; reflexivity end.
  - symmetry. eapply block_inv; [| |eassumption]; assumption.
Qed.
Lemma blanks_det t u v : blanks t u -> (forall w, ~ blank1 u w) -> blanks t v -> (forall w, ~ blank1 v w) -> u = v.
Proof.
  induction 1 as [t|t t1 u B1 _ IH]; intros Hu H2 Hv.
  - inversion H2; subst; [reflexivity|]. exfalso. eapply Hu. eassumption.
  - inversion H2; subst; [exfalso; eapply Hv; eassumption|].
    assert (t1 = u0) as -> by (eapply blank1_det; eassumption). auto.
Qed.

(** ** Identifiers *)
Lemma is_leader_spec c : is_leader c = true <-> c = 95 \/ letter c.
Proof. unfold is_leader, isalpha, letter. lia. Qed.
Lemma is_symchar_spec c : is_symchar c = true <-> c = 95 \/ letter c \/ digit c.
Proof. unfold is_symchar, isalpha, isdigit, letter, digit. lia. Qed.

Lemma lident_loop_spec l a r : lident_loop l = (a, r) ->
  l = a ++ r /\ Forall (fun c => is_symchar c = true) a /\ match r with c :: _ => is_symchar c = false | [] => True end.
Proof.
  revert a r. induction l as [|c l IH]; intros a r H; cbn in H; [injection H as <- <-; cbn; auto|].
  destruct (is_symchar c) eqn:E.
  - destruct (lident_loop l) as [a' r']. injection H as <- <-. destruct (IH a' r' eq_refl) as (-> & F & R). cbn. auto.
  - injection H as <- <-. cbn. auto.
Qed.

Lemma symchar_not_cr c : is_symchar c = true -> c <> 13 /\ c <> 10 /\ c <> 0.
Proof. unfold is_symchar, isalpha, isdigit. lia. Qed.

Lemma deliver_notcr c t : c <> 13 -> deliver (c :: t) = c :: deliver t.
Proof. intros H. cbn. assert (c =? 13 = false) as -> by lia. reflexivity. Qed.

Lemma symchar_peek s : is_symchar (peek s) = match deliver (rest s) with c :: _ => is_symchar c | [] => false end.
Proof.
  destruct (peek_deliver s) as [-> |E].
  - destruct (deliver (rest s)); reflexivity.
  - unfold peek. rewrite E. reflexivity.
Qed.

Lemma ident_loop_deliver fuel : forall s acc, (length (rest s) < fuel)%nat ->
  exists s', ident_loop fuel s acc = SOk (rev acc ++ fst (lident_loop (deliver (rest s))), s') /\
    deliver (rest s') = snd (lident_loop (deliver (rest s))) /\ rest s = fst (lident_loop (deliver (rest s))) ++ rest s'.
Proof.
  induction fuel as [|f IH]; intros s acc Hf; [lia|]. cbn [ident_loop]. rewrite symchar_peek.
  destruct (deliver (rest s)) as [|c l] eqn:E.
  - cbn. exists s. rewrite app_nil_r. auto.
  - cbn [lident_loop]. destruct (is_symchar c) eqn:ES.
    + destruct (get_cons s c l E) as (s1 & G & E1 & L1).
      assert (PK : peek s = c /\ rest s = c :: rest s1).
      { pose proof (symchar_not_cr c ES) as (N1 & N2 & N3). unfold peek, get in *. destruct (rest s) as [|x t]; [discriminate|].
        cbn [deliver] in E. destruct (x =? 13) eqn:EX.
        - destruct t as [|y t']; [|destruct (y =? 10)]; injection E as E _; congruence.
        - injection E as -> E. destruct (nlf s); injection G as <-; auto. }
      destruct PK as [PK PR]. rewrite PK. assert (D : discard s = s1) by (unfold discard; rewrite G; reflexivity). rewrite D.
      destruct (IH s1 (c :: acc) ltac:(lia)) as (s' & A & B & C). rewrite E1 in A, B, C.
      destruct (lident_loop l) as [a r]. cbn [fst snd] in *. exists s'. rewrite A. cbn [rev]. rewrite <- app_assoc.
      split; [reflexivity|]. split; [exact B|]. rewrite PR, C. reflexivity.
    + exists s. cbn [fst snd app]. rewrite app_nil_r. auto.
Qed.

Lemma ident_deliver s :
  match lident (deliver (rest s)) with
  | SOk (a, r) => exists s', ident_parse s = SOk (a, s') /\ deliver (rest s') = r /\ rest s = a ++ rest s'
  | SThrow => ident_parse s = SThrow
  | SFuel => False
  end.
Proof.
  unfold ident_parse, lident. destruct (deliver (rest s)) as [|c l] eqn:E.
  - rewrite get_nil by exact E. reflexivity.
  - destruct (get_cons s c l E) as (s1 & G & E1 & L1). rewrite G.
    destruct (is_leader c) eqn:EL; [|reflexivity].
    destruct (ident_loop_deliver (S (length (rest s1))) s1 [c] ltac:(lia)) as (s' & A & B & C).
    rewrite E1 in A, B, C. destruct (lident_loop l) as [a r]. cbn [fst snd rev app] in *.
    exists s'. split; [exact A|]. split; [exact B|].
    assert (NC : c <> 13 /\ c <> 10) by (unfold is_leader, isalpha in EL; lia).
    unfold get in G. destruct (rest s) as [|x t]; [discriminate|]. cbn [deliver] in E.
    destruct (x =? 13) eqn:EX.
    + destruct t as [|y t']; [|destruct (y =? 10)]; injection E as E _; lia.
    + injection E as -> E. assert (rest s1 = t) as R1 by (destruct (nlf s); injection G as <-; reflexivity).
      rewrite <- R1, C. reflexivity.
Qed.

Lemma deliver_nocr t : ~ In 13 t -> deliver t = t.
Proof.
  induction t as [|c t IH]; intros H; [reflexivity|]. rewrite deliver_notcr by (cbn in H; intros ->; tauto).
  f_equal. apply IH. cbn in H. tauto.
Qed.

(** ** Line numbers *)
Definition unit_char (last : bool) (u : list N) : N :=
  match u with [13] => if last then 10 else 13 | c :: _ => c | [] => 0 end.

Lemma units_nil t : units t = [] -> t = [].
Proof.
  destruct t as [|c t]; [reflexivity|]. cbn. destruct c as [|p]; [discriminate|].
  do 4 (destruct p as [p|p|]; try discriminate). destruct t as [|d t]; [discriminate|].
  destruct d as [|p]; [discriminate|]. do 4 (destruct p as [p|p|]; try discriminate).
Qed.
Lemma units_cons c t : units (c :: t) =
  if (c =? 13) && (hd 0 t =? 10) then [13;10] :: units (tl t) else [c] :: units t.
Proof.
  cbn [units]. destruct (c =? 13) eqn:E; cbn [andb].
  - assert (c = 13) as -> by lia. destruct t as [|d t']; [reflexivity|]. cbn [hd tl].
    destruct (d =? 10) eqn:E2; [assert (d = 10) as -> by lia; reflexivity|].
    destruct d as [|p]; [reflexivity|]. do 4 (destruct p as [p|p|]; try reflexivity; try (cbn in E2; discriminate)).
  - destruct c as [|p]; [reflexivity|]. do 4 (destruct p as [p|p|]; try reflexivity; try (cbn in E; discriminate)).
Qed.

Fixpoint gets (k : nat) (s : stream) : stream := match k with O => s | S k' => gets k' (snd (get s)) end.
Definition ends_lineb (u : list N) : bool :=
  match u with [c] => is_newline c | [_; _] => true | _ => false end.
Lemma ends_lineb_spec t u : In u (units t) -> (ends_lineb u = true <-> ends_line u).
Proof.
  intros H. assert (F : u = [13;10] \/ exists c, u = [c]).
  { assert (G : forall n t, (length t <= n)%nat -> In u (units t) -> u = [13;10] \/ exists c, u = [c]).
    { induction n as [|n IH]; intros t0 Hn Hi; destruct t0 as [|c t0]; cbn [length] in *; try (destruct Hi; fail); try lia.
      rewrite units_cons in Hi. destruct ((c =? 13) && (hd 0 t0 =? 10)); destruct Hi as [<-|Hi].
      - auto.
      - apply IH in Hi; [exact Hi|]. destruct t0; cbn in *; lia.
      - right. eauto.
      - apply IH in Hi; [exact Hi|lia]. }
    apply (G (length t) t); [lia|exact H]. }
  unfold ends_line. destruct F as [->|[c ->]]; cbn [ends_lineb].
  - split; auto.
  - unfold is_newline. split.
    + intros E. assert (c = 10 \/ c = 133 \/ c = 8232 \/ c = 8233) as [->|[->|[->| ->]]] by lia; tauto.
    + intros [E|[E|[E|[E|E]]]]; try discriminate; injection E as ->; reflexivity.
Qed.
Lemma get_units s u us : units (rest s) = u :: us ->
  rest (snd (get s)) = concat us /\ units (rest (snd (get s))) = us /\ nlf (snd (get s)) = ends_lineb u /\
  line (snd (get s)) = (line s + (if nlf s then 1 else 0))%nat.
Proof.
  assert (CU : forall n t, (length t <= n)%nat -> concat (units t) = t).
  { induction n as [|n IH]; intros t Hn; destruct t as [|c t]; cbn [length] in *; try reflexivity; try lia.
    rewrite units_cons. destruct ((c =? 13) && (hd 0 t =? 10)) eqn:E; cbn [concat app].
    - destruct t as [|d t]; [cbn in E; lia|]. cbn [hd tl] in *. rewrite IH by (cbn in Hn; lia). do 2 f_equal; lia.
    - rewrite IH by lia. reflexivity. }
  intros H. unfold get. destruct (rest s) as [|c t] eqn:E; [discriminate|].
  rewrite units_cons in H. destruct (c =? 13) eqn:E13; cbn [andb] in H.
  - destruct t as [|d t'].
    + cbn in H. injection H as <- <-. destruct (nlf s); cbn [snd rest nlf line ends_lineb]; repeat split; try lia;
        unfold is_newline; lia.
    + cbn [hd tl] in H. destruct (d =? 10) eqn:E10;
        pose proof (f_equal (@tl _) H) as H2; pose proof (f_equal (hd []) H) as H1; cbn [hd tl] in H1, H2; subst u us; clear H.
      * destruct (nlf s); cbn [snd rest nlf line ends_lineb]; rewrite (CU (length t')) by lia; repeat split; lia.
      * destruct (nlf s); cbn [snd rest nlf line ends_lineb]; rewrite (CU (length (d :: t'))) by lia; repeat split;
          try lia; unfold is_newline; lia.
  - injection H as <- <-. destruct (nlf s); cbn [snd rest nlf line ends_lineb]; rewrite (CU (length t)) by lia; repeat split; lia.
Qed.
Lemma concat_units t : concat (units t) = t.
Proof.
  assert (CU : forall n t, (length t <= n)%nat -> concat (units t) = t).
  { induction n as [|n IH]; intros t0 Hn; destruct t0 as [|c t0]; cbn [length] in *; try reflexivity; try lia.
    rewrite units_cons. destruct ((c =? 13) && (hd 0 t0 =? 10)) eqn:E; cbn [concat app].
    - destruct t0 as [|d t0]; [cbn in E; lia|]. cbn [hd tl] in *. rewrite IH by (cbn in Hn; lia). do 2 f_equal; lia.
    - rewrite IH by lia. reflexivity. }
  apply (CU (length t)). lia.
Qed.
Fixpoint countb (l : list (list N)) : nat := match l with [] => O | u :: r => ((if ends_lineb u then 1 else 0) + countb r)%nat end.

Lemma gets_line pre : forall u post s, units (rest s) = pre ++ u :: post ->
  let s' := gets (S (length pre)) s in
  rest s' = concat post /\ line s' = (line s + (if nlf s then 1 else 0) + countb pre)%nat.
Proof.
  induction pre as [|v pre IH]; intros u post s H.
  - cbn [gets length]. destruct (get_units s u post H) as (A & _ & _ & B). cbn [countb]. split; [exact A|lia].
  - destruct (get_units s v (pre ++ u :: post) H) as (A & B & C & D).
    specialize (IH u post (snd (get s)) B). cbn zeta in *.
    change (gets (S (length (v :: pre))) s) with (gets (S (length pre)) (snd (get s))).
    destruct IH as [I1 I2]. split; [exact I1|]. rewrite I2, C, D. cbn [countb]. lia.
Qed.

(** What is left is part of what there was. *)
Lemma get_in s x : In x (rest (snd (get s))) -> In x (rest s).
Proof.
  unfold get. destruct (rest s) as [|c t] eqn:E; [cbn; rewrite E; auto|].
  destruct (c =? 13).
  - destruct t as [|d t']; [|destruct (d =? 10)]; destruct (nlf s); cbn; auto.
  - destruct (nlf s); cbn; auto.
Qed.
Lemma skip_block_in f x : forall s s', skip_block f s = SOk s' -> In x (rest s') -> In x (rest s).
Proof.
  induction f as [|f IH]; intros s s' H Hx; cbn in H; [discriminate|].
  pose proof (get_in s x) as G. destruct (get s) as [c s1]. cbn [snd] in G. destruct (c =? 0); [discriminate|].
  destruct ((c =? 42) && (peek s1 =? 47)).
  - injection H as <-. apply G. apply get_in. exact Hx.
  - apply G. eapply IH; eassumption.
Qed.
Lemma skip_line_in f x : forall s s', skip_line f s = SOk s' -> In x (rest s') -> In x (rest s).
Proof.
  induction f as [|f IH]; intros s s' H Hx; cbn in H; [discriminate|].
  pose proof (get_in s x) as G. destruct (get s) as [c s1]. cbn [snd] in G.
  destruct ((c =? 0) || (c =? 10)).
  - injection H as <-. auto.
  - apply G. eapply IH; eassumption.
Qed.
Lemma skip_in f x : forall s s', skip_whitespace_f f s = SOk s' -> In x (rest s') -> In x (rest s).
Proof.
  induction f as [|f IH]; intros s s' H Hx; cbn [skip_whitespace_f] in H; [discriminate|].
  destruct (isspace (peek s)). { apply get_in. eapply IH; eassumption. }
  destruct (peek s =? 47); [|injection H as <-; exact Hx].
  destruct (peek2 s =? 42).
  - destruct (skip_block _ _) as [s1| |] eqn:E; try discriminate. eapply IH in H; [|exact Hx].
    eapply skip_block_in in E; [|exact H]. apply get_in in E. apply get_in in E. exact E.
  - destruct (peek2 s =? 47); [|injection H as <-; exact Hx].
    destruct (skip_line _ _) as [s1| |] eqn:E; try discriminate. eapply IH in H; [|exact Hx].
    eapply skip_line_in in E; [|exact H]. apply get_in in E. apply get_in in E. exact E.
Qed.

Lemma skip_exact s : ~ In 0 (rest s) -> ~ In 13 (rest s) ->
  match skip_whitespace s with
  | SOk s' => blanks (rest s) (rest s') /\ forall r, ~ blank1 (rest s') r
  | SThrow => exists c, blanks (rest s) (47 :: 42 :: c) /\ ~ occurs [42;47] c
  | SFuel => False
  end.
Proof.
  intros H0 H13. pose proof (skip_deliver s) as D. pose proof (lskip_spec (S (length (rest s))) (rest s) ltac:(lia) H0) as S.
  rewrite deliver_nocr in D by exact H13. unfold lskip_ws in D.
  destruct (lskip (Datatypes.S (length (rest s))) (rest s)) as [l| |].
  - destruct D as (s' & E & D & _). rewrite E.
    rewrite deliver_nocr in D; [subst l; exact S|]. intros K. apply H13. eapply skip_in; [exact E|exact K].
  - rewrite D. exact S.
  - destruct D.
Qed.

Lemma ident_exact s :
  match ident_parse s with
  | SOk (a, s') => rest s = a ++ rest s' /\
      (exists c a', a = c :: a' /\ (c = 95 \/ letter c) /\ Forall (fun x => x = 95 \/ letter x \/ digit x) a') /\
      (forall x t, rest s' = x :: t -> ~ (x = 95 \/ letter x \/ digit x))
  | SThrow => forall c t, rest s = c :: t -> ~ (c = 95 \/ letter c)
  | SFuel => False
  end.
Proof.
  pose proof (ident_deliver s) as D. unfold lident in D. destruct (deliver (rest s)) as [|c l] eqn:E.
  - rewrite D. intros x t K. rewrite K in E. apply (proj1 (deliver_nil _)) in E. discriminate.
  - destruct (is_leader c) eqn:EL.
    + destruct (lident_loop l) as [a r] eqn:EI. destruct D as (s' & E1 & E2 & E3). rewrite E1.
      apply lident_loop_spec in EI as (L1 & L2 & L3). split; [exact E3|]. split.
      * exists c, a. split; [reflexivity|]. split; [apply is_leader_spec; exact EL|].
        eapply Forall_impl; [|exact L2]. intros x. apply is_symchar_spec.
      * intros x t R. rewrite R in E2. intros K. apply is_symchar_spec in K.
        rewrite deliver_notcr in E2 by (apply symchar_not_cr; exact K). subst r. cbn in L3. congruence.
    + rewrite D. intros x t K H. rewrite K in E. apply is_leader_spec in H.
      assert (x <> 13) by (unfold is_leader, isalpha in H; lia). rewrite deliver_notcr in E by assumption. congruence.
Qed.
