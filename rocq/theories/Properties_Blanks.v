(** * C34 for every text *)
From Coq Require Import List NArith Bool Arith Lia ZifyBool ZifyN ZifyNat.
From Verif Require Import Stream StreamSpec StreamProofs BlankSpec.
Import ListNotations.
Open Scope N_scope.

Definition wfu (us : list (list N)) : Prop := Forall (fun u => (exists c, u = [c]) \/ u = [13; 10]) us.
Definition dhead (u : list N) (us : list (list N)) : N := match us with [] => if list_eq_dec N.eq_dec u [13] then 10 else hd 0 u | _ => hd 0 u end.
Fixpoint dl (us : list (list N)) : list N := match us with [] => [] | u :: us' => dhead u us' :: dl us' end.
Lemma units_crlf t : units (13 :: 10 :: t) = [13; 10] :: units t. Proof. reflexivity. Qed.
Lemma units_cons c t : ~ (c = 13 /\ exists t', t = 10 :: t') -> units (c :: t) = [c] :: units t.
Proof.
  intros H. cbn [units]. destruct (N.eq_dec c 13) as [->|N0].
  - destruct t as [|d t']; [reflexivity|]. destruct (N.eq_dec d 10) as [->|N1]; [exfalso; apply H; split; [reflexivity|eauto]|].
    destruct d as [|p]; [reflexivity|]. do 4 (destruct p as [p|p|]; try reflexivity; try lia).
  - destruct c as [|p]; [reflexivity|]. do 4 (destruct p as [p|p|]; try reflexivity; try lia).
Qed.
Lemma units_ne t : units t = [] -> t = [].
Proof.
  destruct t as [|c t]; [reflexivity|]. intros H. exfalso. destruct (N.eq_dec c 13) as [->|N0]; [destruct t as [|d t']; [|destruct (N.eq_dec d 10) as [->|N1]]|].
  - discriminate.
  - rewrite units_crlf in H. discriminate.
  - rewrite units_cons in H; [discriminate|]. intros [_ [t'' E]]. congruence.
  - rewrite units_cons in H; [discriminate|]. intros [E _]. congruence.
Qed.
Lemma units_dl t : deliver t = dl (units t) /\ wfu (units t).
Proof.
  assert (G : forall n t, (length t <= n)%nat -> deliver t = dl (units t) /\ wfu (units t)); [|exact (G _ t (le_n _))].
  clear t. induction n as [|n IH]; intros t L; [destruct t; [split; [reflexivity|constructor]|cbn in L; lia]|].
  destruct t as [|c t]; [split; [reflexivity|constructor]|]. cbn [length] in L. destruct (N.eq_dec c 13) as [->|N0].
  - destruct t as [|d t']; [split; [reflexivity|repeat constructor; eauto]|]. cbn [length] in L. destruct (N.eq_dec d 10) as [->|N1].
    + rewrite units_crlf. destruct (IH t' ltac:(lia)) as [E W]. split; [|constructor; [right; reflexivity|exact W]]. cbn [deliver dl]. rewrite E. f_equal. unfold dhead. destruct (units t'); [|reflexivity].
      destruct (list_eq_dec N.eq_dec [13; 10] [13]); [discriminate|reflexivity].
    + assert (NC : ~ (13 = 13 /\ exists t'', d :: t' = 10 :: t'')) by (intros [_ [t'' E]]; congruence). rewrite units_cons by exact NC. destruct (IH (d :: t') ltac:(cbn; lia)) as [E W]. split; [|constructor; [left; eauto|exact W]].
      change (deliver (13 :: d :: t')) with (if d =? 10 then 13 :: deliver t' else 13 :: deliver (d :: t')). replace (d =? 10) with false by lia. cbn [dl]. rewrite E. f_equal. unfold dhead. destruct (units (d :: t')) eqn:EU; [apply units_ne in EU; discriminate|reflexivity].
  - rewrite units_cons by (intros [E _]; congruence). destruct (IH t ltac:(lia)) as [E W]. split; [|constructor; [left; eauto|exact W]]. cbn [deliver dl]. replace (c =? 13) with false by lia. rewrite E. f_equal.
    unfold dhead. destruct (units t); [|reflexivity]. destruct (list_eq_dec N.eq_dec [c] [13]); [congruence|reflexivity].
Qed.
(** Characters delivered and their units. *)
Lemma dhead_is x u us : x <> 10 -> x <> 13 -> (exists c, u = [c]) \/ u = [13; 10] -> (dhead u us = x <-> u = [x]).
Proof.
  intros A B [[c ->]| ->]; unfold dhead; destruct us as [|v us]; cbn [hd]; try (destruct (list_eq_dec N.eq_dec _ _) as [E|E]); split; intros H; try congruence; try (injection H as H; congruence); try (injection E as E; subst; congruence).
Qed.
Lemma dhead_lf u us : (exists c, u = [c]) \/ u = [13; 10] -> (dhead u us = 10 <-> u = [10] \/ (u = [13] /\ us = [])).
Proof.
  intros [[c ->]| ->]; unfold dhead; destruct us as [|v us]; cbn [hd]; try (destruct (list_eq_dec N.eq_dec _ _) as [E|E]); split; intros H; try tauto; try discriminate; try (left; congruence); try (destruct H as [H|[H H']]; congruence).
Qed.
Lemma dhead_space u us : (exists c, u = [c]) \/ u = [13; 10] -> (isspace (dhead u us) = true <-> space_unit u).
Proof.
  intros W. rewrite isspace_spec. unfold space_unit. destruct W as [[c ->]| ->].
  - assert (E : dhead [c] us = c \/ (c = 13 /\ dhead [c] us = 10)).
    { unfold dhead. destruct us; [|left; reflexivity]. destruct (list_eq_dec N.eq_dec [c] [13]) as [E|E]; [right; split; [congruence|reflexivity]|left; reflexivity]. }
    split.
    + intros H. right. exists c. split; [reflexivity|]. destruct E as [E|[-> E]]; [rewrite E in H; exact H|lia].
    + intros [H|(c' & H & K)]; [discriminate|]. injection H as <-. destruct E as [E|[-> E]]; rewrite E; lia.
  - assert (E : dhead [13; 10] us = 13) by (unfold dhead; destruct us; reflexivity). rewrite E. split; [auto|lia].
Qed.
Lemma ss_cons u us : star_slash (u :: us) <-> (u = [42] /\ exists t, us = [47] :: t) \/ star_slash us.
Proof.
  split.
  - intros (x & y & E). destruct x as [|a x]; cbn in E; injection E as -> ->; [left; eauto|right; exists x, y; reflexivity].
  - intros [(-> & t & ->)|(x & y & ->)]; [exists [], t|exists (u :: x), y]; reflexivity.
Qed.
Lemma ublock us : wfu us -> match lskip_block (dl us) with
  | Some r => exists body vs, us = body ++ [42] :: [47] :: vs /\ r = dl vs /\ ~ In [0] body /\ ~ star_slash (body ++ [[42]])
  | None => forall a b, us = a ++ [42] :: [47] :: b -> In [0] a end.
Proof.
  induction us as [|u us IH]; intros W; [cbn; intros a b E; destruct a; discriminate|]. inversion W as [|? ? Wu W']; subst. specialize (IH W'). cbn [dl lskip_block].
  pose proof (dhead_is 0 u us ltac:(discriminate) ltac:(discriminate) Wu) as D0. pose proof (dhead_is 42 u us ltac:(discriminate) ltac:(discriminate) Wu) as D42.
  destruct (dhead u us =? 0) eqn:E0.
  { apply N.eqb_eq in E0. apply D0 in E0. subst u. intros a b E. destruct a as [|x a]; [discriminate|]. injection E as <- _. left; reflexivity. }
  assert (U0 : u <> [0]) by (intros K; apply D0 in K; lia).
  assert (Q : ~ (u = [42] /\ exists t, us = [47] :: t) -> match lskip_block (dl us) with
    | Some r => exists body vs, u :: us = body ++ [42] :: [47] :: vs /\ r = dl vs /\ ~ In [0] body /\ ~ star_slash (body ++ [[42]])
    | None => forall a b, u :: us = a ++ [42] :: [47] :: b -> In [0] a end).
  { intros NB. destruct (lskip_block (dl us)) as [r|].
    - destruct IH as (body & vs & -> & -> & H1 & H2). exists (u :: body), vs. split; [reflexivity|]. split; [reflexivity|]. split; [intros [K|K]; [congruence|exact (H1 K)]|].
      cbn [app]. rewrite ss_cons. intros [(E & t & Et)|K]; [|exact (H2 K)]. destruct body as [|b body']; cbn in Et; [discriminate|]. injection Et as -> _. apply NB. split; [exact E|eexists; reflexivity].
    - intros a b E. destruct a as [|x a]; [injection E as -> ->; exfalso; apply NB; eauto|]. injection E as <- E. right. exact (IH a b E). }
  destruct (dhead u us =? 42) eqn:E42.
  - apply N.eqb_eq, D42 in E42. subst u. rewrite star_match. destruct us as [|v us']; [apply Q; intros (_ & t & E); discriminate|]. cbn [dl]. inversion W' as [|? ? Wv W'']; subst.
    pose proof (dhead_is 47 v us' ltac:(discriminate) ltac:(discriminate) Wv) as D47. destruct (dhead v us' =? 47) eqn:E47.
    + apply N.eqb_eq, D47 in E47. subst v. exists [], us'. split; [reflexivity|]. split; [reflexivity|]. split; [intros []|]. cbn. rewrite ss_cons. intros [(_ & t & K)|(x & y & K)]; [discriminate|]. destruct x; discriminate.
    + apply Q. intros (_ & t & E). injection E as -> _. assert (dhead [47] us' = 47) by (apply D47; reflexivity). lia.
  - apply Q. intros (E & _). apply D42 in E. lia.
Qed.
Lemma uline us : wfu us -> exists vs, lskip_line (dl us) = dl vs /\
  ((exists body u, us = body ++ u :: vs /\ ~ In [10] body /\ ~ In [0] body /\ (u = [10] \/ u = [0])) \/ (vs = [] /\ ~ In [10] us /\ ~ In [0] us)).
Proof.
  induction us as [|u us IH]; intros W; [exists []; split; [reflexivity|right; repeat split; intros []]|]. inversion W as [|? ? Wu W']; subst. destruct (IH W') as (vs & E & H). cbn [dl lskip_line].
  pose proof (dhead_is 0 u us ltac:(discriminate) ltac:(discriminate) Wu) as D0. pose proof (dhead_lf u us Wu) as D10.
  destruct ((dhead u us =? 0) || (dhead u us =? 10)) eqn:EE.
  - exists us. split; [reflexivity|]. apply orb_true_iff in EE as [K|K]; apply N.eqb_eq in K; [apply D0 in K; left; exists [], u; repeat split; auto; intros []|].
    apply D10 in K as [K|[-> ->]]; [left; exists [], u; repeat split; auto; intros []|right; repeat split; intros [K|[]]; discriminate].
  - apply orb_false_iff in EE as [K1 K2]. assert (U0 : u <> [0]) by (intros K; apply D0 in K; lia). assert (U10 : u <> [10]) by (intros K; assert (dhead u us = 10) by (apply D10; auto); lia).
    exists vs. split; [exact E|]. destruct H as [(body & w & -> & H1 & H2 & H3)|(-> & H1 & H2)].
    + left. exists (u :: body), w. split; [reflexivity|]. split; [intros [K|K]; [congruence|auto]|]. split; [intros [K|K]; [congruence|auto]|exact H3].
    + right. split; [reflexivity|]. split; intros [K|K]; congruence || auto.
Qed.
Lemma wfu_app a b : wfu (a ++ b) -> wfu b. Proof. intros H. apply Forall_app in H. tauto. Qed.
Lemma dl_len us : length (dl us) = length us. Proof. induction us; cbn; congruence. Qed.
Lemma unot u us : (exists c, u = [c]) \/ u = [13; 10] -> ~ space_unit u -> (u = [47] -> match us with v :: _ => v <> [42] /\ v <> [47] | [] => True end) -> forall r, ~ ublank1 (u :: us) r.
Proof.
  intros W Hs H r B. inversion B; subst.
  - contradiction.
  - specialize (H eq_refl). cbn in H. destruct H; congruence.
  - specialize (H eq_refl). cbn in H. destruct H; congruence.
  - specialize (H eq_refl). cbn in H. destruct H; congruence.
Qed.
Lemma uskip f : forall us, (length us < f)%nat -> wfu us -> match lskip f (dl us) with
  | SOk r => exists vs, r = dl vs /\ ublanks us vs /\ forall w, ~ ublank1 vs w
  | SThrow => exists c, ublanks us ([47] :: [42] :: c) /\ forall a b, c = a ++ [42] :: [47] :: b -> In [0] a
  | SFuel => False end.
Proof.
  induction f as [|f IH]; intros us Hf W; [lia|]. cbn [lskip]. destruct us as [|u us].
  { cbn. exists []. split; [reflexivity|]. split; [constructor|]. intros w B. inversion B. }
  cbn [length] in Hf. inversion W as [|? ? Wu W']; subst.
  assert (STEP : forall v, ublank1 (u :: us) v -> (length v < f)%nat -> wfu v -> match lskip f (dl v) with
    | SOk r => exists vs, r = dl vs /\ ublanks (u :: us) vs /\ forall w, ~ ublank1 vs w
    | SThrow => exists c, ublanks (u :: us) ([47] :: [42] :: c) /\ forall a b, c = a ++ [42] :: [47] :: b -> In [0] a
    | SFuel => False end).
  { intros v B L Wv. specialize (IH v L Wv). destruct (lskip f (dl v)) as [r| |]; [| |exact IH].
    - destruct IH as (vs & E & H1 & H2). exists vs. split; [exact E|]. split; [econstructor; eassumption|exact H2].
    - destruct IH as (c & H1 & H2). exists c. split; [econstructor; eassumption|exact H2]. }
  pose proof (dhead_space u us Wu) as DS. pose proof (dhead_is 47 u us ltac:(discriminate) ltac:(discriminate) Wu) as D47. cbn [dl].
  destruct (isspace (dhead u us)) eqn:ES; [apply STEP; [constructor; apply DS; reflexivity|lia|exact W']|].
  assert (NS : ~ space_unit u) by (intros K; apply DS in K; congruence).
  destruct (dhead u us =? 47) eqn:E47.
  - pose proof (proj1 D47 (proj1 (N.eqb_eq _ _) E47)) as EU. destruct us as [|v us'].
    + cbn [dl]. exists [u]. split; [reflexivity|]. split; [constructor|]. apply unot; auto.
    + cbn [dl]. inversion W' as [|? ? Wv W'']; subst. cbn [length] in Hf.
      pose proof (dhead_is 42 v us' ltac:(discriminate) ltac:(discriminate) Wv) as V42. pose proof (dhead_is 47 v us' ltac:(discriminate) ltac:(discriminate) Wv) as V47.
      destruct (dhead v us' =? 42) eqn:E2.
      * apply N.eqb_eq, V42 in E2. subst v. pose proof (ublock us' W'') as B. destruct (lskip_block (dl us')) as [r|].
        -- destruct B as (body & vs & -> & -> & H1 & H2). rewrite app_length in Hf. cbn [length] in Hf. apply STEP; [constructor; assumption|lia|]. apply wfu_app in W''. inversion W'' as [|? ? _ W3]; inversion W3; assumption.
        -- exists us'. split; [constructor|exact B].
      * destruct (dhead v us' =? 47) eqn:E3.
        -- apply N.eqb_eq, V47 in E3. subst v. destruct (uline us' W'') as (vs & -> & [(body & w & -> & H1 & H2 & H3)|(-> & H1 & H2)]).
           ++ rewrite app_length in Hf. cbn [length] in Hf. apply STEP; [constructor; assumption|lia|]. apply wfu_app in W''. inversion W''; assumption.
           ++ apply STEP; [constructor; assumption|cbn; lia|constructor].
        -- exists ([47] :: v :: us'). split; [reflexivity|]. split; [constructor|]. apply unot; [left; eauto|exact NS|]. intros _. split; intros K; [assert (dhead v us' = 42) by (apply V42; exact K)|assert (dhead v us' = 47) by (apply V47; exact K)]; lia.
  - exists (u :: us). split; [reflexivity|]. split; [constructor|]. apply unot; [exact Wu|exact NS|]. intros K. apply D47 in K. lia.
Qed.
(** What is left after reading is the end of the units. *)
Lemma get_units s : exists pre, units (rest s) = pre ++ units (rest (snd (get s))).
Proof.
  unfold get. destruct (rest s) as [|c t] eqn:E; [exists []; cbn [snd]; rewrite E; reflexivity|]. destruct (if nlf s then _ else _) as [ln ps]. destruct (c =? 13) eqn:E13.
  - assert (c = 13) as -> by lia. destruct t as [|d t']; [exists [[13]]; reflexivity|]. destruct (d =? 10) eqn:E10.
    + assert (d = 10) as -> by lia. exists [[13; 10]]. reflexivity.
    + exists [[13]]. cbn [snd rest]. rewrite units_cons by (intros [_ [t'' K]]; injection K as K _; lia). reflexivity.
  - exists [[c]]. cbn [snd rest]. rewrite units_cons by (intros [K _]; lia). reflexivity.
Qed.
Definition upre (s s' : stream) : Prop := exists pre, units (rest s) = pre ++ units (rest s').
Lemma upre_refl s : upre s s. Proof. exists []. reflexivity. Qed.
Lemma upre_trans a b c : upre a b -> upre b c -> upre a c. Proof. intros [p P] [q Q]. exists (p ++ q). rewrite P, Q, app_assoc. reflexivity. Qed.
Lemma upre_get s : upre s (snd (get s)). Proof. exact (get_units s). Qed.
Lemma upre_block f : forall s s', skip_block f s = SOk s' -> upre s s'.
Proof.
  induction f as [|f IH]; intros s s' H; [discriminate|]. cbn [skip_block] in H. pose proof (upre_get s) as G. destruct (get s) as [c s1]. cbn [snd] in G. destruct (c =? 0); [discriminate|]. destruct ((c =? 42) && (peek s1 =? 47)).
  - injection H as <-. exact (upre_trans _ _ _ G (upre_get s1)).
  - exact (upre_trans _ _ _ G (IH _ _ H)).
Qed.
Lemma upre_line f : forall s s', skip_line f s = SOk s' -> upre s s'.
Proof.
  induction f as [|f IH]; intros s s' H; [discriminate|]. cbn [skip_line] in H. pose proof (upre_get s) as G. destruct (get s) as [c s1]. cbn [snd] in G. destruct ((c =? 0) || (c =? 10)).
  - injection H as <-. exact G.
  - exact (upre_trans _ _ _ G (IH _ _ H)).
Qed.
Lemma upre_skip f : forall s s', skip_whitespace_f f s = SOk s' -> upre s s'.
Proof.
  induction f as [|f IH]; intros s s' H; [discriminate|]. cbn [skip_whitespace_f] in H. cbv zeta in H.
  assert (D2 : upre s (discard (discard s))) by (exact (upre_trans _ _ _ (upre_get s) (upre_get _))).
  destruct (isspace (peek s)); [exact (upre_trans _ _ _ (upre_get s) (IH _ _ H))|]. destruct (peek s =? 47); [|injection H as <-; apply upre_refl].
  destruct (peek2 s =? 42).
  - destruct (skip_block _ _) as [s1| |] eqn:E; try discriminate. exact (upre_trans _ _ _ D2 (upre_trans _ _ _ (upre_block _ _ _ E) (IH _ _ H))).
  - destruct (peek2 s =? 47); [|injection H as <-; apply upre_refl].
    destruct (skip_line _ _) as [s1| |] eqn:E; try discriminate. exact (upre_trans _ _ _ D2 (upre_trans _ _ _ (upre_line _ _ _ E) (IH _ _ H))).
Qed.
Lemma ublank1_suffix t r : ublank1 t r -> exists p, t = p ++ r.
Proof.
  intros B. inversion B; subst; [exists [u]|exists ([47] :: [47] :: body ++ [u]); cbn [app]; rewrite <- app_assoc|exists ([47] :: [47] :: body); rewrite app_nil_r|exists ([47] :: [42] :: body ++ [[42]; [47]]); cbn [app]; rewrite <- app_assoc]; reflexivity.
Qed.
Lemma ublanks_suffix t r : ublanks t r -> exists p, t = p ++ r.
Proof. induction 1 as [t|t u r B _ [p E]]; [exists []; reflexivity|]. destruct (ublank1_suffix _ _ B) as [q ->]. exists (q ++ p). rewrite E, app_assoc. reflexivity. Qed.

(** C34 exactly, for every text: skipping advances over exactly the maximal sequence of blanks in the sense of BlankSpec.v and ends; it throws
    exactly at a block comment that is not closed before the end of the text or a NUL. *)
Theorem C34_every_text_partial : forall s : stream,
  match skip_whitespace s with
  | SOk s' => ublanks (units (rest s)) (units (rest s')) /\ forall r, ~ ublank1 (units (rest s')) r
  | SThrow => exists c, ublanks (units (rest s)) ([47] :: [42] :: c) /\ forall a b, c = a ++ [42] :: [47] :: b -> In [0] a
  | SFuel => False
  end.
Proof.
  intros s. destruct (units_dl (rest s)) as [ED W]. pose proof (skip_deliver s) as D. unfold lskip_ws in D. rewrite ED in D. rewrite dl_len in D.
  pose proof (uskip (Datatypes.S (length (units (rest s)))) (units (rest s)) ltac:(lia) W) as U. destruct (lskip _ (dl (units (rest s)))) as [l| |]; [|rewrite D; exact U|destruct D].
  destruct D as (s' & E & D & _). rewrite E. destruct U as (vs & -> & H1 & H2). destruct (upre_skip _ _ _ E) as [p P]. destruct (ublanks_suffix _ _ H1) as [q Q]. destruct (units_dl (rest s')) as [ED' _]. rewrite ED' in D.
  apply (f_equal (@length N)) in D. rewrite !dl_len in D.
  assert (V : vs = units (rest s')). { rewrite P in Q. assert (LP : length p = length q) by (apply (f_equal (@length (list N))) in Q; rewrite !app_length in Q; lia). clear - Q LP. revert q Q LP. induction p as [|x p IH]; intros [|y q] Q LP; cbn in *; try lia; [congruence|]. injection Q as _ Q. apply (IH q); [exact Q|lia]. }
  rewrite <- V. split; assumption.
Qed.
Print Assumptions C34_every_text_partial.
(** Blanks, CR LF after a line comment (which goes on), CR LF as white space, a NUL ending a line comment. *)
Example C34_every_text_hyp : exists s', skip_whitespace (open_text [13; 10; 47;47;97; 13; 10; 98; 10; 47;47;97;0; 9; 120]) = SOk s' /\ rest s' = [120] /\
  units [47;47;97; 13; 10; 98; 10; 120] = [[47]; [47]; [97]; [13; 10]; [98]; [10]; [120]].
Proof. eexists. split; [vm_compute; reflexivity|]. split; reflexivity. Qed.
(** So in a file whose line ends are all CR LF, a line comment always swallows everything behind it, whatever that is. *)
Theorem C34_crlf_file_refuted : forall t, ~ In [10] (units t) -> ~ In [0] (units t) ->
  exists s', skip_whitespace (open_text (47 :: 47 :: t)) = SOk s' /\ rest s' = [].
Proof.
  intros t H1 H2. pose proof (C34_every_text_partial (open_text (47 :: 47 :: t))) as E. cbn [rest open_text] in E.
  assert (U : units (47 :: 47 :: t) = [47] :: [47] :: units t) by (rewrite !units_cons by (intros [K _]; discriminate); reflexivity). rewrite U in E.
  assert (ONE : forall v, ublank1 ([47] :: [47] :: units t) v -> v = []).
  { intros v B. inversion B as [u r K|body u r K1 K2 K3 K4|body K1 K2|body r K1 K2]; subst; [|exfalso|reflexivity].
    - destruct K as [K|(c & K & K')]; [discriminate|]. injection K as <-. lia.
    - match goal with K : _ = units t |- _ => rewrite <- K in H1, H2 end. destruct K3 as [->| ->]; [apply H1|apply H2]; apply in_or_app; right; left; reflexivity. }
  destruct (skip_whitespace _) as [s'| |]; [| |destruct E].
  - exists s'. split; [reflexivity|]. destruct E as [B M]. apply units_ne. inversion B as [x K1 K2|x v r B1 B2 K1 K2]; subst.
    + exfalso. apply (M []). rewrite <- K2. apply ub_line_end; assumption.
    + apply ONE in B1. subst v. inversion B2 as [x K1 K2|x v r B1' B3 K1 K2]; subst; [reflexivity|inversion B1'].
  - exfalso. destruct E as (c & B & _). inversion B as [x K1 K2|x v r B1 B2 K1 K2]; subst.
    apply ONE in B1. subst v. inversion B2 as [x K1 K2|x v r B1' B3 K1 K2]; subst; inversion B1'.
Qed.
Print Assumptions C34_crlf_file_refuted.
Example C34_crlf_file_hyp : let t := [97; 13; 10; 65; 58; 59; 13; 10] in ~ In [10] (units t) /\ ~ In [0] (units t).
Proof. cbn. intuition discriminate. Qed.
