(** The decision automaton. *)
From Coq Require Import List NArith ZArith Arith Bool Lia ZifyBool ZifyN ZifyNat Permutation.
From Verif Require Import CharClass CharClassSpec CharClassProofs Stream NFA NFAProofs DFA DFADep DFAProofs DFAMin ATN Grammar CodeGen CodeGenProofs CodeGenMisc Lookahead LookSpec LookOrder LookClosure LookItems.
Import ListNotations.
Local Open Scope nat_scope.

(** Colours. *)
Lemma color_spec cl : (forall e, In e cl -> 1 <= ecol e) -> cl <> [] ->
  match closure_color 0 cl with
  | Zpos _ as k => (forall e, In e cl -> Z.of_nat (ecol e) = k)
  | _ => exists e e', In e cl /\ In e' cl /\ ecol e <> ecol e'
  end.
Proof.
  assert (G : forall cl c, 1 <= c -> (forall e, In e cl -> 1 <= ecol e) ->
    (closure_color c cl = Z.of_nat c /\ forall e, In e cl -> ecol e = c) \/ (closure_color c cl = (-1)%Z /\ exists e, In e cl /\ ecol e <> c)).
  { clear. induction cl as [|e cl IH]; intros c Hc H; cbn [closure_color]; [left; split; [reflexivity|intros ? []]|].
    destruct (c =? 0) eqn:E0; [lia|]. pose proof (H e (or_introl eq_refl)) as He. destruct (ecol e =? 0) eqn:E1; [lia|].
    destruct (c =? ecol e) eqn:E2; cbn [negb andb].
    - destruct (IH c Hc (fun x h => H x (or_intror h))) as [[K1 K2]|(K1 & x & K2 & K3)]; [left|right].
      + split; [exact K1|]. intros x [<-|Hx]; [lia|auto].
      + split; [exact K1|]. exists x. cbn. auto.
    - right. split; [reflexivity|]. exists e. cbn. split; [auto|lia]. }
  intros H Hn. destruct cl as [|e cl]; [congruence|]. cbn [closure_color Nat.eqb].
  pose proof (H e (or_introl eq_refl)) as He. destruct (G cl (ecol e) He (fun x h => H x (or_intror h))) as [[K1 K2]|(K1 & x & K2 & K3)]; rewrite K1.
  - destruct (Z.of_nat (ecol e)) eqn:Z0; try lia. intros x [<-|Hx]; [lia|]. rewrite (K2 x Hx). lia.
  - exists e, x. cbn. auto.
Qed.

Section Auto.
Variable D : list (list N * cmach).
Variable cf : nat.
(** The colours in use. *)
Variable PC : nat -> Prop.
Notation klabs := (map (fun s => map key (llab s))).
Definition ltrs_at (L : list lstate_) (i : nat) : list (cclass * Z) := ltrs (nth i L lnil).
Definition lab_ok (cl : closure) : Prop := asc (map key cl) /\ chain_ok (tag_of D) cl /\ forall e, In e cl -> PC (ecol e).
Lemma build_lab_ok s ec : build_closure D cf s = SOk ec -> chain_ok (tag_of D) s -> (forall e, In e s -> PC (ecol e)) -> lab_ok ec.
Proof.
  intros H H1 H2. destruct (build_closure_inv D cf s ec H H1) as [A B]. split; [exact A|]. split; [exact B|]. intros e He.
  apply (in_map key) in He. apply (build_closure_spec D cf s ec H) in He as (_ & q & He & _). apply in_map_iff in He as (x & E & Hx). injection E as _ E. cbn [key snd] in E. rewrite <- E. auto.
Qed.
Definition lbase (L : list lstate_) : Prop := NoDup (klabs L) /\ forall s, In s L -> lab_ok (llab s).
Definition lext (L L' : list lstate_) : Prop := exists M, map llab L' = map llab L ++ M.
Lemma lext_refl L : lext L L. Proof. exists []. rewrite app_nil_r. reflexivity. Qed.
Lemma lext_trans L1 L2 L3 : lext L1 L2 -> lext L2 L3 -> lext L1 L3.
Proof. intros [M E1] [M' E2]. exists (M ++ M'). rewrite E2, E1, app_assoc. reflexivity. Qed.
Lemma lext_length L L' : lext L L' -> length L <= length L'.
Proof. intros [M E]. apply (f_equal (@length _)) in E. rewrite app_length, !map_length in E. rewrite E. apply Nat.le_add_r. Qed.
Lemma klabs_llab L : klabs L = map (map key) (map llab L).
Proof. rewrite map_map. reflexivity. Qed.
Lemma lext_klabs L L' : lext L L' -> exists M, klabs L' = klabs L ++ M.
Proof. intros [M E]. exists (map (map key) M). rewrite !klabs_llab, E, map_app. reflexivity. Qed.
Lemma llab_nth L i : nth i (map llab L) [] = llab (nth i L lnil).
Proof. exact (map_nth llab L lnil i). Qed.
Lemma lext_label L L' i : lext L L' -> i < length L -> llab (nth i L' lnil) = llab (nth i L lnil).
Proof. intros [M E] H. rewrite <- !llab_nth, E. apply app_nth1. rewrite map_length. exact H. Qed.
Lemma llab_upd L i cc d : map llab (upd_nth L i (add_ltr cc d)) = map llab L.
Proof. revert i. induction L as [|s L IH]; intros [|i]; cbn; rewrite ?IH; reflexivity. Qed.

(** Where an item leads. *)
Definition dest_ok (L : list lstate_) (s : closure) (d : Z) : Prop :=
  let c := closure_color 0 s in
  ((0 < c)%Z /\ d = (- c)%Z) \/
  ((c <= 0)%Z /\ exists ec j, build_closure D cf s = SOk ec /\ d = Z.of_nat j /\ nth_error (klabs L) j = Some (map key ec)).
Lemma dest_ext L L' s d : lext L L' -> dest_ok L s d -> dest_ok L' s d.
Proof.
  intros HX [H|(H1 & ec & j & H2 & H3 & H4)]; [left; exact H|right]. split; [exact H1|]. exists ec, j. split; [exact H2|]. split; [exact H3|].
  destruct (lext_klabs _ _ HX) as [M E]. rewrite E. rewrite nth_error_app1; [exact H4|]. apply nth_error_Some. congruence.
Qed.
Lemma dest_fun L s d d' : NoDup (klabs L) -> dest_ok L s d -> dest_ok L s d' -> d = d'.
Proof.
  intros ND [[H1 H2]|(H1 & ec & j & H2 & H3 & H4)] [[K1 K2]|(K1 & ec' & j' & K2 & K3 & K4)]; try lia; try congruence.
  rewrite H2 in K2. injection K2 as <-. subst. f_equal. apply (proj1 (NoDup_nth_error _) ND); [apply nth_error_Some; congruence|congruence].
Qed.
Definition trs_ok (L : list lstate_) (S : list (range * closure)) (ts : list (cclass * Z)) : Prop :=
  tinv ts /\ (forall r d, pairs ts r d -> exists s, In (r, s) S /\ dest_ok L s d) /\
  (forall r s, In (r, s) S -> exists d, pairs ts r d /\ dest_ok L s d).
Lemma trs_ok_lext L L' S ts : lext L L' -> trs_ok L S ts -> trs_ok L' S ts.
Proof.
  intros HX (H1 & H2 & H3). split; [exact H1|]. split.
  - intros r d H. destruct (H2 r d H) as (s & K1 & K2). exists s. split; [exact K1|]. eapply dest_ext; eauto.
  - intros r s H. destruct (H3 r s H) as (d & K1 & K2). exists d. split; [exact K1|]. eapply dest_ext; eauto.
Qed.
(** Items of one departure set. *)
Definition items_ok' (items : list (range * closure)) : Prop :=
  (forall r s, In (r, s) items -> (rs r < re r)%N /\ s <> [] /\ chain_ok (tag_of D) s /\ forall e, In e s -> PC (ecol e)) /\
  (forall r s r' s', In (r, s) items -> In (r', s') items -> (r = r' /\ s = s') \/ (re r <= rs r')%N \/ (re r' <= rs r)%N).
Lemma trs_ok_add L S ts r s d items : items_ok' items -> (forall i, In i S -> In i items) -> In (r, s) items -> NoDup (klabs L) ->
  trs_ok L S ts -> dest_ok L s d -> trs_ok L ((r, s) :: S) (add_pair ts r d).
Proof.
  intros [I1 I2] HS Hi ND (T1 & T2 & T3) HD. destruct (I1 r s Hi) as (LR & _).
  destruct (add_pair_spec ts r d T1 LR) as [A1 A2].
  { intros x Hx. destruct (T2 x d Hx) as (s' & K1 & K2). destruct (I2 x s' r s (HS _ K1) Hi) as [[E _]|[E|E]]; [left; congruence|right; lia|right; lia]. }
  split; [exact A1|]. split.
  - intros r' d' H. apply A2 in H as [H|[-> ->]].
    + destruct (T2 _ _ H) as (s' & K1 & K2). exists s'. split; [right; exact K1|exact K2].
    + exists s. split; [left; reflexivity|exact HD].
  - intros r' s' [H|H].
    + injection H as <- <-. exists d. split; [apply A2; auto|exact HD].
    + destruct (T3 _ _ H) as (d' & K1 & K2). exists d'. split; [apply A2; auto|exact K2].
Qed.
Lemma find_closure_spec L cl : forall k,
  match find_closure L cl k with
  | Some j => exists i, j = k + i /\ nth_error (klabs L) i = Some (map key cl)
  | None => ~ In (map key cl) (klabs L)
  end.
Proof.
  induction L as [|s L IH]; intros k; cbn [find_closure map]; [intros []|].
  destruct (cl_eqb cl (llab s)) eqn:E.
  - apply cl_eqb_key in E. exists 0. split; [lia|]. cbn. congruence.
  - specialize (IH (S k)). destruct (find_closure L cl (S k)) as [j|].
    + destruct IH as (i & -> & H). exists (S i). split; [lia|exact H].
    + intros [H|H]; [|apply IH; exact H]. rewrite (proj2 (cl_eqb_key _ _) (eq_sym H)) in E. discriminate.
Qed.
Lemma l_add_state_spec L cl L1 j : lbase L -> lab_ok cl -> l_add_state L cl = (L1, j) ->
  lbase L1 /\ lext L L1 /\ nth_error (klabs L1) j = Some (map key cl) /\ forall i, ltrs_at L1 i = ltrs_at L i.
Proof.
  intros (ND & HA) Hl H. unfold l_add_state in H. pose proof (find_closure_spec L cl 0) as F. destruct (find_closure L cl 0) as [i|].
  - destruct F as (i' & E & F). cbn in E. subst i'. injection H as <- <-. split; [split; assumption|]. split; [apply lext_refl|]. split; [exact F|reflexivity].
  - injection H as <- <-. split; [|split; [|split]].
    + split.
      * rewrite map_app. cbn [map llab]. apply (Permutation_NoDup (Permutation_cons_append _ _)). constructor; assumption.
      * intros s Hs. apply in_app_or in Hs as [Hs|[<-|[]]]; [auto|exact Hl].
    + exists [cl]. rewrite map_app. reflexivity.
    + rewrite map_app. cbn [map llab]. rewrite nth_error_app2 by (rewrite map_length; lia). rewrite map_length, Nat.sub_diag. reflexivity.
    + intros k. unfold ltrs_at. destruct (Nat.lt_ge_cases k (length L)) as [Q|Q]; [rewrite app_nth1 by assumption; reflexivity|].
      rewrite (nth_overflow L) by assumption. rewrite app_nth2 by assumption. destruct (k - length L) as [|[|]]; reflexivity.
Qed.
Lemma upd_add L index r d : index < length L -> let L1 := upd_nth L index (add_ltr [r] d) in
  (lbase L -> lbase L1) /\ lext L L1 /\ ltrs_at L1 index = add_pair (ltrs_at L index) r d /\ forall i, i <> index -> ltrs_at L1 i = ltrs_at L i.
Proof.
  intros Hx L1. split; [|split; [|split]].
  - intros [ND HA]. split; [rewrite klabs_llab; unfold L1; rewrite llab_upd, <- klabs_llab; exact ND|].
    intros s Hs. apply (in_map llab) in Hs. unfold L1 in Hs. rewrite llab_upd in Hs. apply in_map_iff in Hs as (s' & E & Hs'). rewrite <- E. auto.
  - exists []. unfold L1. rewrite llab_upd, app_nil_r. reflexivity.
  - unfold ltrs_at, L1. rewrite nth_upd, Nat.eqb_refl, (proj2 (Nat.ltb_lt _ _) Hx). reflexivity.
  - intros i Hi. unfold ltrs_at, L1. rewrite nth_upd, (proj2 (Nat.eqb_neq _ _) Hi). reflexivity.
Qed.
Lemma l_items_spec index all : items_ok' all -> forall items L L' S,
  lbase L -> index < length L -> (forall i, In i items -> In i all) -> (forall i, In i S -> In i all) ->
  trs_ok L S (ltrs_at L index) -> l_items D cf L index items = SOk L' ->
  lbase L' /\ lext L L' /\ (forall i, i <> index -> ltrs_at L' i = ltrs_at L i) /\ trs_ok L' (rev items ++ S) (ltrs_at L' index).
Proof.
  intros HA. induction items as [|[r s] items IH]; intros L L' S HB Hx Hsub HS HT H; cbn [l_items] in H.
  - injection H as <-. split; [exact HB|]. split; [apply lext_refl|]. split; [reflexivity|exact HT].
  - assert (Hi : In (r, s) all) by (apply Hsub; left; reflexivity).
    assert (STEP : forall L1 d, lbase L1 -> lext L L1 -> (forall i, ltrs_at L1 i = ltrs_at L i) -> dest_ok L1 s d -> l_items D cf (upd_nth L1 index (add_ltr [r] d)) index items = SOk L' ->
       lbase L' /\ lext L L' /\ (forall i, i <> index -> ltrs_at L' i = ltrs_at L i) /\ trs_ok L' (rev ((r, s) :: items) ++ S) (ltrs_at L' index)).
    { intros L1 d HB1 HX1 HT1 HD H1. pose proof (lext_length _ _ HX1) as LL. destruct (upd_add L1 index r d ltac:(lia)) as (U1 & U2 & U3 & U4).
      destruct (IH _ L' ((r, s) :: S) (U1 HB1)) as (B & X & TO & T'); try assumption.
      - rewrite upd_length. lia.
      - intros i Hi'. apply Hsub. right. exact Hi'.
      - intros i [<-|Hi']; [exact Hi|auto].
      - rewrite U3. eapply trs_ok_lext; [exact U2|]. eapply trs_ok_add; [exact HA|exact HS|exact Hi|apply HB1| |exact HD]. rewrite HT1. eapply trs_ok_lext; [exact HX1|exact HT].
      - split; [exact B|]. split; [eapply lext_trans; [exact HX1|]; eapply lext_trans; [exact U2|exact X]|].
        split; [intros i Hn; rewrite TO by exact Hn; rewrite U4 by exact Hn; apply HT1|]. cbn [rev]. rewrite <- app_assoc. exact T'. }
    destruct (0 <? closure_color 0 s)%Z eqn:Ec.
    + apply (STEP L _ HB (lext_refl L) (fun _ => eq_refl) ltac:(left; split; [lia|reflexivity]) H).
    + destruct (build_closure D cf s) as [ec| |] eqn:Ee; try discriminate. destruct (l_add_state L ec) as [L1 j] eqn:Ed.
      destruct (proj1 HA r s Hi) as (_ & _ & Hc1 & Hc2). destruct (l_add_state_spec L ec L1 j HB (build_lab_ok s ec Ee Hc1 Hc2) Ed) as (HB1 & HX1 & Hj & HT1).
      apply (STEP L1 _ HB1 HX1 HT1 ltac:(right; split; [lia|exists ec, j; auto]) H).
Qed.

(** What a departure set looks like. *)
Lemma departure_set_inv cl items : departure_set D cf cl = SOk items -> exists ds, items = dep_items ds (dep_borders ds) /\
  (forall c k, dep c k ds <-> exists p z, K (p, snd k) cl /\ pops D p z /\ move D (Past z) [c] (At (fst k))) /\
  (chain_ok (tag_of D) cl -> forall d, In d ds -> Forall (tag_of D) (eprio (snd d))).
Proof.
  unfold departure_set. intros H. destruct (sfold _ cl []) as [ds| |] eqn:E; try discriminate. injection H as <-. exists ds. split; [reflexivity|]. split.
  - intros c k. rewrite (sfold_set (dep c) (fun e k => snd k = ecol e /\ exists z, pops D (epath e) z /\ move D (Past z) [c] (At (fst k))) _ _ _ _ E).
    + split.
      * intros [(? & ? & [] & _)|(e & H1 & H2 & z & H3 & H4)]. exists (epath e), z. split; [|auto]. unfold K. rewrite H2. exact (in_map key _ _ H1).
      * intros (p & z & H1 & H2 & H3). right. unfold K in H1. apply in_map_iff in H1 as (e & H1 & H4). injection H1 as H1 H5. exists e. rewrite H1, H5. eauto.
    + intros e b1 b2 _ Hs k'. exact (proj2 (dep_spec D c cf) _ _ _ _ _ _ Hs k').
  - intros HC. eapply (sfold_inv (fun ds => forall d, In d ds -> Forall (tag_of D) (eprio (snd d)))); [exact E|intros ? []|].
    intros e b1 b2 He H1 Hs. eapply (proj2 (dep_inv D (Forall (tag_of D)) cf)); [exact Hs|apply HC, He|exact H1].
Qed.
Lemma departure_items_ok cl items : chain_ok (tag_of D) cl -> (forall e, In e cl -> PC (ecol e)) -> departure_set D cf cl = SOk items -> items_ok' items.
Proof.
  intros HC HP H. apply departure_set_inv in H as (ds & -> & HD & HT). split.
  - intros r s H. destruct (items_char ds 0) as (H1 & _ & _). destruct (H1 r s H) as [H2 H3]. split; [exact H2|]. split; [exact H3|].
    destruct (dep_char_all_items ds r s H) as [c ->]. split; cycle 1.
    { intros e He. apply (in_map key) in He. apply dep_char_sub in He. apply HD in He as (p & z & He & _). apply in_map_iff in He as (x & E & Hx). injection E as _ E. cbn [key snd] in E. rewrite <- E. auto. }
    intros e He. revert e He. apply (dep_char_all (fun e => Forall (tag_of D) (eprio e))). exact (HT HC).
  - intros r s r' s'. apply items_disjoint.
Qed.

Definition lforked (L : list lstate_) (i : nat) : Prop := exists items, departure_set D cf (llab (nth i L lnil)) = SOk items /\ trs_ok L items (ltrs_at L i).
Definition lgood (L : list lstate_) : Prop := lbase L /\ forall i, i < length L -> ltrs_at L i = [] \/ lforked L i.
Lemma lforked_ext L L' i : lext L L' -> i < length L -> ltrs_at L' i = ltrs_at L i -> lforked L i -> lforked L' i.
Proof. intros HX Hi HT (items & H1 & H2). exists items. rewrite (lext_label L L' i HX Hi), HT. split; [exact H1|]. eapply trs_ok_lext; eauto. Qed.
Lemma trs_ok_equiv L S S' ts : (forall i, In i S <-> In i S') -> trs_ok L S ts -> trs_ok L S' ts.
Proof.
  intros HE (T1 & T2 & T3). split; [exact T1|]. split.
  - intros r d H. destruct (T2 r d H) as (s & K1 & K2). exists s. rewrite <- HE. auto.
  - intros r s H. apply T3. apply HE. exact H.
Qed.
Lemma l_items_good L index items L' : lgood L -> index < length L -> departure_set D cf (llab (nth index L lnil)) = SOk items ->
  l_items D cf L index items = SOk L' ->
  lgood L' /\ lext L L' /\ lforked L' index /\ (forall i, i < length L -> lforked L i -> lforked L' i).
Proof.
  intros [HB HG] Hx Hd H.
  assert (IO : items_ok' items) by (destruct (proj2 HB _ (nth_In L lnil Hx)) as (_ & C1 & C2); eapply departure_items_ok; [exact C1|exact C2|exact Hd]).
  assert (X0 : exists S, (forall i, In i S -> In i items) /\ trs_ok L S (ltrs_at L index)).
  { destruct (HG index Hx) as [E|(items' & E & F)].
    - exists []. split; [intros ? []|]. rewrite E. split; [split; [constructor|intros ? ? []]|]. split; [intros ? ? (? & [] & _)|intros ? ? []].
    - exists items. split; [auto|]. rewrite Hd in E. injection E as <-. exact F. }
  destruct X0 as (S & HS & HT).
  destruct (l_items_spec index items IO items L L' S HB Hx (fun i h => h) HS HT H) as (B & X & TO & T).
  assert (F : lforked L' index).
  { exists items. rewrite (lext_label L L' index X Hx). split; [exact Hd|]. eapply trs_ok_equiv; [|exact T]. intros i. rewrite in_app_iff, <- in_rev. split; [|auto]. intros [I|I]; [exact I|]. apply HS. exact I. }
  assert (KF : forall i, i < length L -> lforked L i -> lforked L' i).
  { intros i Hi Fi. destruct (Nat.eq_dec i index) as [->|Nn]; [exact F|]. apply (lforked_ext L L' i X Hi (TO i Nn) Fi). }
  split; [|auto]. split; [exact B|]. intros i Hi. destruct (Nat.eq_dec i index) as [->|Nn]; [auto|].
  rewrite (TO i Nn). destruct (Nat.lt_ge_cases i (length L)) as [Q|Q].
  - destruct (HG i Q) as [E|Fi]; [auto|right; auto].
  - left. unfold ltrs_at. rewrite nth_overflow by exact Q. reflexivity.
Qed.
Lemma l_loop_S f L i : l_loop D (S f) cf L i =
  if i <? length L then match l_fork D f cf L i with SOk L1 => l_loop D f cf L1 (S i) | SThrow => SThrow | SFuel => SFuel end else SOk L.
Proof. reflexivity. Qed.
Lemma l_fork_S f L index : l_fork D (S f) cf L index =
  match departure_set D cf (llab (nth index L lnil)) with
  | SOk items => match l_items D cf L index items with SOk L1 => l_loop D f cf L1 (length L) | SThrow => SThrow | SFuel => SFuel end
  | SThrow => SThrow | SFuel => SFuel end.
Proof. reflexivity. Qed.
Lemma l_fork_good : forall fuel,
  (forall L i L', lgood L -> i < length L -> l_fork D fuel cf L i = SOk L' ->
     lgood L' /\ lext L L' /\ (forall k, k < length L -> lforked L k -> lforked L' k) /\ lforked L' i /\ (forall k, length L <= k < length L' -> lforked L' k)) /\
  (forall L i L', lgood L -> l_loop D fuel cf L i = SOk L' ->
     lgood L' /\ lext L L' /\ (forall k, k < length L -> lforked L k -> lforked L' k) /\ (forall k, i <= k < length L' -> lforked L' k)).
Proof.
  induction fuel as [|f [IH1 IH2]]; split; intros L i L' HG; try discriminate.
  - intros Hi H. rewrite l_fork_S in H. destruct (departure_set D cf (llab (nth i L lnil))) as [items| |] eqn:Ed; try discriminate.
    destruct (l_items D cf L i items) as [L1| |] eqn:E1; try discriminate.
    destruct (l_items_good L i items L1 HG Hi Ed E1) as (G1 & X1 & F1 & K1).
    destruct (IH2 L1 (length L) L' G1 H) as (G2 & X2 & K2 & F2). pose proof (lext_length _ _ X1).
    split; [exact G2|]. split; [eapply lext_trans; eauto|]. split; [intros k Hk Fk; apply K2; [lia|auto]|].
    split; [apply K2; [lia|exact F1]|exact F2].
  - intros H. rewrite l_loop_S in H. destruct (i <? length L) eqn:E.
    + destruct (l_fork D f cf L i) as [L1| |] eqn:E1; try discriminate.
      destruct (IH1 L i L1 HG ltac:(lia) E1) as (G1 & X1 & K1 & F1 & N1).
      destruct (IH2 L1 (S i) L' G1 H) as (G2 & X2 & K2 & F2). pose proof (lext_length _ _ X1).
      split; [exact G2|]. split; [eapply lext_trans; eauto|]. split; [intros k Hk Fk; apply K2; [lia|auto]|].
      intros k Hk. destruct (Nat.eq_dec k i) as [->|Nn]; [apply K2; [lia|exact F1]|apply F2; lia].
    + injection H as <-. split; [exact HG|]. split; [apply lext_refl|]. split; [auto|]. intros k Hk. lia.
Qed.

(** ** Reading *)
Lemma runs_snoc_char x w c y : runs D x (w ++ [c]) y -> exists z q, runs D x w (Past z) /\ move D (Past z) [c] (At q) /\ runs D (At q) [] y.
Proof.
  assert (G : forall x v y, runs D x v y -> forall w c, v = w ++ [c] -> exists z q, runs D x w (Past z) /\ move D (Past z) [c] (At q) /\ runs D (At q) [] y).
  { clear. induction 1 as [x|x u y v z M R IH]; intros w c E; [destruct w; discriminate|].
    assert (Hu : u = [] \/ exists a, u = [a]) by (inversion M; subst; eauto). destruct Hu as [->|[a ->]].
    - destruct (IH w c E) as (z0 & q & H1 & H2 & H3). exists z0, q. split; [|auto]. exact (runs_step D x [] y w _ M H1).
    - destruct w as [|b w]; cbn in E; injection E as -> E.
      + subst v. inversion M; subst. eexists _, _. split; [constructor|]. split; [exact M|exact R].
      + destruct (IH w c E) as (z0 & q & H1 & H2 & H3). exists z0, q. split; [|auto]. exact (runs_step D x [b] y w _ M H1). }
  intros H. exact (G _ _ _ H w c eq_refl).
Qed.
Lemma runs_split x v w y : runs D x (v ++ w) y -> exists z, runs D x v z /\ runs D z w y.
Proof.
  assert (G : forall x u y, runs D x u y -> forall v w, u = v ++ w -> exists z, runs D x v z /\ runs D z w y).
  { clear. induction 1 as [x|x u y v z M R IH]; intros a b E.
    - symmetry in E. apply app_eq_nil in E as [-> ->]. exists x. split; constructor.
    - assert (Hu : u = [] \/ exists a, u = [a]) by (inversion M; subst; eauto). destruct Hu as [->|[c ->]].
      + destruct (IH a b E) as (z0 & H1 & H2). exists z0. split; [exact (runs_step D x [] y a _ M H1)|exact H2].
      + destruct a as [|c' a]; cbn in E.
        * exists x. split; [constructor|]. subst b. exact (runs_step D x [c] y v _ M R).
        * injection E as -> E. destruct (IH a b E) as (z0 & H1 & H2). exists z0. split; [exact (runs_step D x [c'] y a _ M H1)|exact H2]. }
  intros H. exact (G _ _ _ H v w eq_refl).
Qed.
Lemma can_read_prefix x v w : can_read D x (v ++ w) -> can_read D x v.
Proof. intros [y H]. apply runs_split in H as (z & H & _). exists z. exact H. Qed.

Variables (id : list N) (i : nat) (up : path) (n : cnode).
Notation root := ((id, i) :: up).
Hypothesis Hroot : node_at D root = Some n.
Notation br := (branch D root).
(** Configurations that alternatives can be in after w, with colours. *)
Definition conf (w : list N) (k : path * nat) : Prop :=
  terminal D (fst k) /\ exists j t, nth_error (ctrs n) j = Some t /\ snd k = S j /\ runs D (At ((id, cdest t) :: up)) w (At (fst k)).
Definition next (w : list N) (c : N) (k : path * nat) : Prop :=
  exists j t z, nth_error (ctrs n) j = Some t /\ snd k = S j /\ runs D (At ((id, cdest t) :: up)) w (Past z) /\ move D (Past z) [c] (At (fst k)).
Lemma br_iff k w : br k w <-> exists t, nth_error (ctrs n) k = Some t /\ can_read D (At ((id, cdest t) :: up)) w.
Proof. cbn [branch]. rewrite Hroot. split; [intros (n' & t & E & H); injection E as <-; eauto|intros (t & H); eauto]. Qed.
Lemma br_prefix k v w : br k (v ++ w) -> br k v.
Proof. rewrite !br_iff. intros (t & H1 & H2). exists t. split; [exact H1|]. eapply can_read_prefix; eauto. Qed.
Lemma next_branch w c j : (exists p, next w c (p, S j)) <-> br j (w ++ [c]).
Proof.
  rewrite br_iff. split.
  - intros (p & j' & t & z & H1 & H2 & H3 & H4). injection H2 as <-. exists t. split; [exact H1|]. exists (At p). eapply runs_trans; [exact H3|]. apply runs_one, H4.
  - intros (t & H1 & y & H2). apply runs_snoc_char in H2 as (z & q & H2 & H3 & _). exists q, j, t, z. auto.
Qed.
Lemma conf_next w c k : (exists p z, conf w (p, snd k) /\ pops D p z /\ move D (Past z) [c] (At (fst k))) <-> next w c k.
Proof.
  split.
  - intros (p & z & ((np & Hp1 & Hp2) & j & t & H1 & H2 & H3) & H4 & H5). exists j, t, z. cbn in H2. repeat split; auto.
    rewrite <- (app_nil_r w). eapply runs_trans; [exact H3|]. eapply runs_eps; [eapply mv_here; eauto|]. apply pops_runs, H4.
  - intros (j & t & z & H1 & H2 & H3 & H4).
    assert (G : exists p, terminal D p /\ runs D (At ((id, cdest t) :: up)) w (At p) /\ pops D p z).
    { destruct (list_eq_dec N.eq_dec w []) as [->|Nw]; [apply past_reached, H3|].
      destruct (exists_last Nw) as (w' & a & ->). apply runs_snoc_char in H3 as (z0 & q & K1 & K2 & K3).
      apply past_reached in K3 as (p & P1 & P2 & P3). exists p. split; [exact P1|]. split; [|exact P3].
      rewrite <- (app_nil_r (w' ++ [a])). eapply runs_trans; [|exact P2]. eapply runs_trans; [exact K1|]. apply runs_one, K2. }
    destruct G as (p & P1 & P2 & P3). exists p, z. split; [|auto]. split; [exact P1|]. exists j, t. auto.
Qed.
Lemma next_conf w c k : conf (w ++ [c]) k <-> terminal D (fst k) /\ exists q, next w c (q, snd k) /\ runs D (At q) [] (At (fst k)).
Proof.
  split.
  - intros (T & j & t & H1 & H2 & H3). split; [exact T|]. apply runs_snoc_char in H3 as (z & q & K1 & K2 & K3). exists q. split; [|exact K3]. exists j, t, z. auto.
  - intros (T & q & (j & t & z & H1 & H2 & H3 & H4) & H5). split; [exact T|]. exists j, t. split; [exact H1|]. split; [exact H2|].
    rewrite <- (app_nil_r (w ++ [c])). eapply runs_trans; [|exact H5]. eapply runs_trans; [exact H3|]. apply runs_one, H4.
Qed.

(** Nothing in the network is preferred to anything else. *)
Definition no_preference : Prop := forall m j nd t t', node_at D [(m, j)] = Some nd -> In t (ctrs nd) -> In t' (ctrs nd) -> ctag t = ctag t'.
Lemma prio_eq a : no_preference -> forall b, Forall (tag_of D) a -> Forall (tag_of D) b -> prio_cmp a b = Eq.
Proof.
  intros HP. induction a as [|[[x m] p] a IH]; intros [|[[y m'] q] b] Ha Hb; cbn [prio_cmp]; try reflexivity.
  inversion Ha as [|? ? A1 A2]; subst. inversion Hb as [|? ? B1 B2]; subst. destruct (eqname x y && (m =? m')) eqn:E; [|auto].
  apply andb_true_iff in E as [E1 E2]. apply GrammarProofs.eqname_spec in E1 as ->. apply Nat.eqb_eq in E2 as ->.
  destruct A1 as (n1 & t1 & A3 & A4 & A5), B1 as (n2 & t2 & B3 & B4 & B5). cbn [fst snd] in *. rewrite A3 in B3. injection B3 as <-.
  rewrite A5, B5, (HP _ _ _ t1 t2 A3 A4 B4). rewrite Nat.compare_refl. auto.
Qed.

Variable L : list lstate_.
Hypothesis HL : lbase L.
Hypothesis HF : forall k, k < length L -> lforked L k.
Definition represents (j : nat) (w : list N) : Prop := j < length L /\ forall k, K k (llab (nth j L lnil)) <-> conf w k.
(** The same for a part of the configurations, for networks with preferences. *)
Definition covers (j : nat) (w : list N) : Prop := j < length L /\ forall k, K k (llab (nth j L lnil)) -> conf w k.

Lemma klab_state j ks : nth_error (klabs L) j = Some ks -> j < length L /\ map key (llab (nth j L lnil)) = ks.
Proof.
  intros H. assert (J : j < length L) by (rewrite <- (map_length (fun s => map key (llab s)) L); apply nth_error_Some; congruence). split; [exact J|].
  rewrite nth_error_map in H. destruct (nth_error L j) as [s|] eqn:E; [|discriminate]. cbn in H. injection H as <-. rewrite (nth_error_nth _ _ _ E). reflexivity.
Qed.
(** One step of a state, from its items. *)
Lemma step_items j c : j < length L -> exists ds, 
  (forall c k, dep c k ds <-> exists p z, K (p, snd k) (llab (nth j L lnil)) /\ pops D p z /\ move D (Past z) [c] (At (fst k))) /\
  (forall d, In d ds -> Forall (tag_of D) (eprio (snd d))) /\
  match first_lab (ltrs_at L j) c with
  | None => dep_char ds c = []
  | Some d => dep_char ds c <> [] /\ dest_ok L (dep_char ds c) d
  end.
Proof.
  intros Hj. destruct (HF j Hj) as (items & Hd & T1 & T2 & T3). pose proof Hd as Hd'. apply departure_set_inv in Hd as (ds & -> & HD & HT).
  exists ds. split; [exact HD|]. split; [destruct (proj2 HL _ (nth_In L lnil Hj)) as (_ & C1 & _); exact (HT C1)|].
  destruct (items_char ds c) as (I1 & I2 & I3). pose proof (first_lab_pairs (ltrs_at L j) c) as F. destruct (first_lab (ltrs_at L j) c) as [d|].
  - destruct F as (r & P & R). destruct (T2 r d P) as (s & S1 & S2). rewrite <- (I2 r s S1 R). split; [apply (I1 r s S1)|exact S2].
  - destruct (dep_char ds c) as [|e cl] eqn:E; [reflexivity|]. destruct (I3 ltac:(discriminate)) as (r & H1 & R). destruct (T3 _ _ H1) as (d & P & _). destruct (F r d P R).
Qed.
Lemma dep_color ds j w c : covers j w -> (forall c k, dep c k ds <-> exists p z, K (p, snd k) (llab (nth j L lnil)) /\ pops D p z /\ move D (Past z) [c] (At (fst k))) ->
  forall e, In e (dep_char ds c) -> next w c (key e).
Proof.
  intros [_ HC] HD e He. apply conf_next. apply (in_map key) in He. apply dep_char_sub in He. apply HD in He as (p & z & H1 & H2). exists p, z. split; [apply HC, H1|exact H2].
Qed.
Lemma next_pos w c k : next w c k -> 1 <= snd k.
Proof. intros (j & t & z & _ & H & _). lia. Qed.
(** What a transition says. *)
Lemma step_sound j w c : covers j w -> match first_lab (ltrs_at L j) c with
  | None => True
  | Some d => if (0 <=? d)%Z then covers (Z.to_nat d) (w ++ [c]) else br (Z.to_nat (- d - 1)) (w ++ [c])
  end.
Proof.
  intros HC. destruct (step_items j c (proj1 HC)) as (ds & HD & HT & F). destruct (first_lab (ltrs_at L j) c) as [d|]; [|exact I]. destruct F as [NE HO].
  pose proof (dep_color ds j w c HC HD) as HN.
  assert (CP : forall e, In e (dep_char ds c) -> 1 <= ecol e) by (intros e He; apply (next_pos w c (key e)), HN, He).
  pose proof (color_spec _ CP NE) as CS. destruct HO as [[H1 H2]|(H1 & ec & j' & H2 & H3 & H4)].
  - destruct (0 <=? d)%Z eqn:E; [lia|]. destruct (closure_color 0 (dep_char ds c)) as [|k|k] eqn:EC; try lia.
    destruct (dep_char ds c) as [|e cl]; [congruence|]. specialize (HN e (or_introl eq_refl)). specialize (CS e (or_introl eq_refl)).
    apply next_branch. exists (epath e). replace (S (Z.to_nat (- d - 1))) with (ecol e) by lia. exact HN.
  - destruct (0 <=? d)%Z eqn:E; [|lia]. subst d. rewrite Nat2Z.id. apply klab_state in H4 as [J1 J2]. split; [exact J1|].
    intros k Hk. unfold K in Hk. rewrite J2 in Hk. apply (build_closure_spec D cf _ _ H2 k) in Hk as (T & q & Q1 & Q2).
    apply next_conf. split; [exact T|]. exists q. split; [|exact Q2]. unfold K in Q1. apply in_map_iff in Q1 as (e & E1 & E2). rewrite <- E1. apply HN, E2.
Qed.
Lemma step_exact j w c : no_preference -> represents j w -> match first_lab (ltrs_at L j) c with
  | None => forall k, ~ br k (w ++ [c])
  | Some d => if (0 <=? d)%Z then represents (Z.to_nat d) (w ++ [c]) /\ exists k k', k <> k' /\ br k (w ++ [c]) /\ br k' (w ++ [c])
              else br (Z.to_nat (- d - 1)) (w ++ [c]) /\ forall k, br k (w ++ [c]) -> k = Z.to_nat (- d - 1)
  end.
Proof.
  intros HP [HJ HC]. destruct (step_items j c HJ) as (ds & HD & HT & F).
  assert (HN : forall k, K k (dep_char ds c) <-> next w c k).
  { intros k. rewrite dep_char_full; [|intros d d' H H'; apply prio_eq; auto]. rewrite HD, <- conf_next. split; intros (p & z & H1 & H2); exists p, z; (split; [apply HC, H1|exact H2]). }
  assert (CP : forall e, In e (dep_char ds c) -> 1 <= ecol e) by (intros e He; apply (next_pos w c (key e)), HN, in_map, He).
  destruct (first_lab (ltrs_at L j) c) as [d|].
  - destruct F as [NE HO]. pose proof (color_spec _ CP NE) as CS. destruct HO as [[H1 H2]|(H1 & ec & j' & H2 & H3 & H4)].
    + destruct (0 <=? d)%Z eqn:E; [lia|]. destruct (closure_color 0 (dep_char ds c)) as [|k|k] eqn:EC; try lia. split.
      * destruct (dep_char ds c) as [|e cl] eqn:Ed; [congruence|]. specialize (CS e (or_introl eq_refl)).
        apply next_branch. exists (epath e). replace (S (Z.to_nat (- d - 1))) with (ecol e) by lia. apply HN. left. reflexivity.
      * intros k' Hk'. apply next_branch in Hk' as (p & Hp). apply HN in Hp. unfold K in Hp. apply in_map_iff in Hp as (e & E1 & E2). injection E1 as E1 E3. specialize (CS e E2). lia.
    + destruct (0 <=? d)%Z eqn:E; [|lia]. subst d. rewrite Nat2Z.id. apply klab_state in H4 as [J1 J2]. split.
      * split; [exact J1|]. intros k. unfold K. rewrite J2. rewrite next_conf. fold (K k ec). rewrite (build_closure_spec D cf _ _ H2 k).
        split; intros (T & q & Q1 & Q2); (split; [exact T|]); exists q; (split; [apply HN, Q1|exact Q2]).
      * destruct (closure_color 0 (dep_char ds c)) as [|p|p]; [|lia|]; destruct CS as (e & e' & E1 & E2 & E3);
          exists (ecol e - 1), (ecol e' - 1); pose proof (CP e E1); pose proof (CP e' E2); (split; [lia|]); split; apply next_branch.
        -- exists (epath e). replace (S (ecol e - 1)) with (ecol e) by lia. apply HN. exact (in_map key _ _ E1).
        -- exists (epath e'). replace (S (ecol e' - 1)) with (ecol e') by lia. apply HN. exact (in_map key _ _ E2).
        -- exists (epath e). replace (S (ecol e - 1)) with (ecol e) by lia. apply HN. exact (in_map key _ _ E1).
        -- exists (epath e'). replace (S (ecol e' - 1)) with (ecol e') by lia. apply HN. exact (in_map key _ _ E2).
  - intros k Hk. apply next_branch in Hk as (p & Hp). apply HN in Hp. rewrite F in Hp. destruct Hp.
Qed.
End Auto.
