(** Epsilon closures, the subset construction, its invariant and its language. *)
From Coq Require Import List NArith Arith Bool Lia ZifyBool ZifyN ZifyNat Permutation.
From Verif Require Import CharClass CharClassSpec CharClassProofs NFA NFASem NFAProofs DFA DFADep.
Import ListNotations.
Local Open Scope nat_scope.

Definition eps_path (A : nfa) (q x : nat) : Prop := path (edge A) q [] x.
Lemma eps_path_inv A q x : eps_path A q x -> x = q \/ exists d, edge A q [] d /\ eps_path A d x.
Proof. intros P. inversion P; subst; [auto|right; eauto]. Qed.

(** ** Epsilon closures *)
Fixpoint eclose_go (f : nat) (A : nfa) (l : list ntr) (cl : list nat) (lg : bool) : option (list nat * bool) :=
  match l with
  | [] => Some (cl, lg)
  | t :: l' => if teps t then match eclose_sub f A cl (tdest t) with Some (cl', lg') => eclose_go f A l' cl' (lg || lg') | None => None end
               else eclose_go f A l' cl lg
  end.
Lemma eclose_sub_S f A cl q : eclose_sub (S f) A cl q = eclose_go f A (nth q A []) (sins q cl) (existsb tlong (nth q A [])).
Proof.
  cbn [eclose_sub]. generalize (sins q cl) (existsb tlong (nth q A [])). generalize (nth q A []) as l.
  induction l as [|t l IH]; intros s b; [reflexivity|]. cbn [eclose_go]. destruct (teps t); [|apply IH].
  destruct (eclose_sub f A s (tdest t)) as [[s' b']|]; [apply IH|reflexivity].
Qed.
Lemma teps_nil t : teps t = true <-> tlab t = [].
Proof. unfold teps, is_epsilon. destruct (tlab t); split; congruence. Qed.

Lemma eclose_sub_spec f : forall A cl q r lg, ssorted cl -> eclose_sub f A cl q = Some (r, lg) ->
  ssorted r /\ forall x, In x r <-> In x cl \/ eps_path A q x.
Proof.
  induction f as [|f IH]; intros A cl q r lg HS H; [discriminate|]. rewrite eclose_sub_S in H.
  assert (G : forall l cl lg0, ssorted cl -> (forall t, In t l -> In t (nth q A [])) -> eclose_go f A l cl lg0 = Some (r, lg) ->
    ssorted r /\ forall x, In x r <-> In x cl \/ exists t, In t l /\ teps t = true /\ eps_path A (tdest t) x).
  { clear H HS cl. induction l as [|t l IHl]; intros cl lg0 HS Hl H; cbn [eclose_go] in H.
    - injection H as -> _. split; [exact HS|]. intros x. split; [auto|]. intros [H|(t & [] & _)]. exact H.
    - destruct (teps t) eqn:Et.
      + destruct (eclose_sub f A cl (tdest t)) as [[cl1 lg1]|] eqn:E1; [|discriminate].
        destruct (IH _ _ _ _ _ HS E1) as [S1 I1]. destruct (IHl _ _ S1 (fun t h => Hl t (or_intror h)) H) as [S2 I2].
        split; [exact S2|]. intros x. rewrite I2, I1. split.
        * intros [[K|K]|(t' & K & K')]; [auto|right; exists t; cbn; auto|right; exists t'; cbn; auto].
        * intros [K|(t' & [<-|K] & K1 & K2)]; [auto|auto|right; eauto].
      + destruct (IHl _ _ HS (fun t h => Hl t (or_intror h)) H) as [S2 I2]. split; [exact S2|]. intros x. rewrite I2. split.
        * intros [K|(t' & K & K')]; [auto|right; exists t'; cbn; auto].
        * intros [K|(t' & [<-|K] & K1 & K2)]; [auto|congruence|right; eauto]. }
  destruct (G _ _ _ (sins_sorted q cl HS) (fun t h => h) H) as [S1 I1]. split; [exact S1|].
  intros x. rewrite I1, sins_in. split.
  - intros [[->|K]|(t & K & K1 & K2)]; [right; constructor|auto|]. right. eapply p_eps; [|exact K2].
    exists t. apply teps_nil in K1. auto.
  - intros [K|K]; [auto|]. apply eps_path_inv in K as [->|(d & (t & Ht & L1 & L2) & K)]; [auto|].
    right. exists t. split; [exact Ht|]. split; [apply teps_nil; exact L1|]. rewrite L2. exact K.
Qed.
Lemma eclose_set_spec f A : forall qs cl lg0 r lg, ssorted cl -> eclose_set f A qs cl lg0 = Some (r, lg) ->
  ssorted r /\ forall x, In x r <-> In x cl \/ exists q, In q qs /\ eps_path A q x.
Proof.
  induction qs as [|q qs IH]; intros cl lg0 r lg HS H; cbn [eclose_set] in H.
  - injection H as -> _. split; [exact HS|]. intros x. split; [auto|]. intros [K|(q & [] & _)]. exact K.
  - destruct (eclose_sub f A cl q) as [[cl1 lg1]|] eqn:E1; [|discriminate].
    destruct (eclose_sub_spec _ _ _ _ _ _ HS E1) as [S1 I1]. destruct (IH _ _ _ _ S1 H) as [S2 I2].
    split; [exact S2|]. intros x. rewrite I2, I1. split.
    + intros [[K|K]|(q' & K & K')]; [auto|right; exists q; cbn; auto|right; exists q'; cbn; auto].
    + intros [K|(q' & [<-|K] & K')]; [auto|auto|right; eauto].
Qed.

(** ** Transition lists under construction *)
Definition ecl (ef : nat) (A : nfa) (s lab : list nat) : Prop := exists lg, eclose_set ef A s [] false = Some (lab, lg).
Lemma ecl_fun ef A s a b : ecl ef A s a -> ecl ef A s b -> a = b.
Proof. intros [x Hx] [y Hy]. congruence. Qed.

Definition trs_ok (ef : nat) (A : nfa) (L : list (list nat)) (S : list (cclass * list nat)) (trs : list ntr) : Prop :=
  NoDup (map tdest trs) /\
  (forall t, In t trs -> Sorted (tlab t) /\ tlab t <> [] /\ exists lab, nth_error L (tdest t) = Some lab /\
     forall r, In r (tlab t) <-> exists cc s, In (cc, s) S /\ ecl ef A s lab /\ In r cc) /\
  (forall cc s, In (cc, s) S -> exists t lab, In t trs /\ nth_error L (tdest t) = Some lab /\ ecl ef A s lab).
Definition items_ok (items : list (cclass * list nat)) : Prop :=
  (forall cc s, In (cc, s) items -> Sorted cc /\ cc <> []) /\
  (forall cc s cc' s', In (cc, s) items -> In (cc', s') items -> (cc, s) = (cc', s') \/ forall ch, Den cc ch -> Den cc' ch -> False).

Lemma NoDup_snd_eq {X Y} (l : list (X * Y)) a b y : NoDup (map snd l) -> In (a, y) l -> In (b, y) l -> a = b.
Proof.
  induction l as [|[c z] l IH]; intros ND Ha Hb; [destruct Ha|]. cbn in ND. inversion ND as [|? ? N1 N2]; subst.
  destruct Ha as [Ea|Ha], Hb as [Eb|Hb].
  - congruence.
  - injection Ea as -> ->. exfalso. apply N1. apply in_map_iff. exists (b, y). auto.
  - injection Eb as -> ->. exfalso. apply N1. apply in_map_iff. exists (a, y). auto.
  - auto.
Qed.
Lemma departures_items_ok ts : items_ok (departures ts).
Proof.
  destruct (departures_spec ts) as (ND & HI & _). split.
  - intros cc s H. destruct (HI cc s H) as (K1 & K2 & _). split; [apply Separated_Sorted; exact K1|exact K2].
  - intros cc s cc' s' H H'. destruct (list_eq_dec Nat.eq_dec s s') as [->|N].
    + left. f_equal. eapply NoDup_snd_eq; eauto.
    + right. intros ch D D'. apply N. apply includes_Den in D. apply includes_Den in D'.
      rewrite (proj2 (proj2 (HI _ _ H)) ch D), (proj2 (proj2 (HI _ _ H')) ch D'). reflexivity.
Qed.

Lemma Den_ranges c ch : Den c ch <-> exists r, In r c /\ (rs r <= ch < re r)%N.
Proof. reflexivity. Qed.

Lemma nth_error_ext {X} (L L' : list X) i x : (exists M, L' = L ++ M) -> nth_error L i = Some x -> nth_error L' i = Some x.
Proof. intros [M ->] H. rewrite nth_error_app1; [exact H|]. apply nth_error_Some. congruence. Qed.
Lemma trs_ok_ext ef A L L' S trs : (exists M, L' = L ++ M) -> trs_ok ef A L S trs -> trs_ok ef A L' S trs.
Proof.
  intros HM (ND & H1 & H2). split; [exact ND|]. split.
  - intros t Ht. destruct (H1 t Ht) as (K1 & K2 & lab & K3 & K4). split; [exact K1|]. split; [exact K2|]. exists lab.
    split; [eapply nth_error_ext; eauto|exact K4].
  - intros cc s Hi. destruct (H2 cc s Hi) as (t & lab & K1 & K2 & K3). exists t, lab. split; [exact K1|]. split; [eapply nth_error_ext; eauto|exact K3].
Qed.
Lemma trs_ok_equiv ef A L S S' trs : (forall i, In i S <-> In i S') -> trs_ok ef A L S trs -> trs_ok ef A L S' trs.
Proof.
  intros HE (ND & H1 & H2). split; [exact ND|]. split.
  - intros t Ht. destruct (H1 t Ht) as (K1 & K2 & lab & K3 & K4). split; [exact K1|]. split; [exact K2|]. exists lab.
    split; [exact K3|]. intros r. rewrite K4. split; intros (cc & s & I & J); exists cc, s; (split; [apply HE; exact I|exact J]).
  - intros cc s Hi. apply (H2 cc s). apply HE. exact Hi.
Qed.
Lemma merge_tr_some st cc d lg : (forall t, In t st -> teps t = false) -> NoDup (map tdest st) ->
  (exists t, In t st /\ tdest t = d) -> exists pre t post, st = pre ++ t :: post /\ tdest t = d /\
  merge_tr st cc d lg = Some (pre ++ mkT (cc_or (tlab t) cc) d (tlong t || lg) :: post).
Proof.
  induction st as [|t st IH]; intros HE ND (t0 & H0 & E0); [destruct H0|]. cbn [merge_tr].
  cbn in ND. inversion ND as [|? ? N1 N2]; subst. rewrite (HE t (or_introl eq_refl)). cbn [negb]. rewrite andb_true_r.
  destruct (tdest t =? tdest t0) eqn:E.
  - apply Nat.eqb_eq in E. exists [], t, st. split; [reflexivity|]. split; [exact E|]. rewrite E. reflexivity.
  - destruct H0 as [->|H0]; [rewrite Nat.eqb_refl in E; discriminate|].
    destruct (IH (fun t h => HE t (or_intror h)) N2 (ex_intro _ t0 (conj H0 eq_refl))) as (pre & t1 & post & -> & E1 & M).
    exists (t :: pre), t1, post. split; [reflexivity|]. split; [exact E1|]. rewrite M. reflexivity.
Qed.
Lemma range_dec (a b : range) : {a = b} + {a <> b}.
Proof. decide equality; apply N.eq_dec. Qed.
Lemma item_dec (a b : cclass * list nat) : {a = b} + {a <> b}.
Proof. decide equality; [apply (list_eq_dec Nat.eq_dec)|apply (list_eq_dec range_dec)]. Qed.

(** Adding the transition of one item. *)
Lemma trs_ok_add ef A L S trs cc s lab j items : items_ok items -> (forall i, In i S -> In i items) -> In (cc, s) items ->
  NoDup L -> trs_ok ef A L S trs -> nth_error L j = Some lab -> ecl ef A s lab ->
  trs_ok ef A L ((cc, s) :: S) (add_tr cc j false trs).
Proof.
  intros [IO1 IO2] HSub HI NL (ND & H1 & H2) Hj He.
  destruct (IO1 _ _ HI) as [Scc Ncc]. unfold add_tr.
  assert (is_epsilon cc = false) as -> by (destruct cc; [congruence|reflexivity]).
  assert (TE : forall t, In t trs -> teps t = false).
  { intros t Ht. destruct (H1 t Ht) as (_ & N & _). unfold teps, is_epsilon. destruct (tlab t); [congruence|reflexivity]. }
  assert (JU : forall i lab', nth_error L i = Some lab' -> i <> j -> ~ ecl ef A s lab').
  { intros i lab' Hi Hn K. apply Hn. rewrite (ecl_fun _ _ _ _ _ K He) in Hi. eapply NoDup_nth_error; [exact NL| |congruence].
    apply nth_error_Some. congruence. }
  destruct (in_dec Nat.eq_dec j (map tdest trs)) as [Hin|Hout].
  - apply in_map_iff in Hin as (t0 & E0 & Ht0).
    destruct (merge_tr_some trs cc j false TE ND (ex_intro _ t0 (conj Ht0 E0))) as (pre & t & post & Etrs & Et & M).
    rewrite M. clear t0 E0 Ht0. subst trs.
    assert (Hin : In t (pre ++ t :: post)) by (apply in_or_app; right; left; reflexivity).
    destruct (H1 t Hin) as (T1 & T2 & lab0 & T3 & T4). rewrite Et in T3. assert (lab0 = lab) as -> by congruence.
    assert (U : Sorted (cc_or (tlab t) cc) /\ forall r, In r (cc_or (tlab t) cc) <-> In r (tlab t) \/ In r cc).
    { destruct (in_dec item_dec (cc, s) S) as [Y|N].
      - assert (X : forall r, In r cc -> In r (tlab t)) by (intros r Hr; apply T4; exists cc, s; auto).
        rewrite cc_or_sub by assumption. split; [exact T1|]. intros r. split; [auto|]. intros [K|K]; auto.
      - apply cc_or_disjoint; [exact T1|exact Scc|]. intros ch D D'. destruct D as (r & Hr & D). apply T4 in Hr as (cc1 & s1 & I1 & _ & Hr).
        destruct (IO2 cc1 s1 cc s (HSub _ I1) HI) as [E|E]; [rewrite E in I1; contradiction|]. apply (E ch); [exists r; auto|exact D']. }
    destruct U as [U1 U2].
    split; [|split].
    + rewrite map_app in *. cbn [map tdest] in *. rewrite Et in ND. exact ND.
    + intros t' Ht'. apply in_app_or in Ht' as [Ht'|[<-|Ht']].
      * assert (Hin' : In t' (pre ++ t :: post)) by (apply in_or_app; auto). destruct (H1 t' Hin') as (K1 & K2 & lab' & K3 & K4).
        split; [exact K1|]. split; [exact K2|]. exists lab'. split; [exact K3|]. intros r. rewrite K4. split.
        -- intros (c & x & I & J). exists c, x. cbn; auto.
        -- intros (c & x & [I|I] & J & R); [|exists c, x; auto]. injection I as <- <-. exfalso. apply (JU (tdest t') lab' K3); [|exact J].
           intros Ej. rewrite map_app in ND. cbn in ND. apply NoDup_remove_2 in ND. apply ND. apply in_or_app. left. rewrite Et, <- Ej. apply in_map. exact Ht'.
      * cbn [tlab tdest]. split; [exact U1|]. split.
        { destruct (tlab t) as [|r0 l]; [congruence|]. intros E. assert (In r0 []) by (rewrite <- E; apply U2; left; left; reflexivity). assumption. }
        exists lab. split; [exact Hj|]. intros r. rewrite U2, T4. split.
        -- intros [(c & x & I & J)|R]; [exists c, x; cbn; auto|exists cc, s; cbn; auto].
        -- intros (c & x & [I|I] & J & R); [injection I as <- <-; auto|left; exists c, x; auto].
      * assert (Hin' : In t' (pre ++ t :: post)) by (apply in_or_app; cbn; auto). destruct (H1 t' Hin') as (K1 & K2 & lab' & K3 & K4).
        split; [exact K1|]. split; [exact K2|]. exists lab'. split; [exact K3|]. intros r. rewrite K4. split.
        -- intros (c & x & I & J). exists c, x. cbn; auto.
        -- intros (c & x & [I|I] & J & R); [|exists c, x; auto]. injection I as <- <-. exfalso. apply (JU (tdest t') lab' K3); [|exact J].
           intros Ej. rewrite map_app in ND. cbn in ND. apply NoDup_remove_2 in ND. apply ND. apply in_or_app. right. rewrite Et, <- Ej. apply in_map. exact Ht'.
    + intros c x [I|I].
      * injection I as <- <-. exists (mkT (cc_or (tlab t) cc) j (tlong t || false)), lab. split; [apply in_or_app; right; left; reflexivity|]. auto.
      * destruct (H2 c x I) as (t' & lab' & K1 & K2 & K3). apply in_app_or in K1 as [K1|[<-|K1]].
        -- exists t', lab'. split; [apply in_or_app; auto|auto].
        -- exists (mkT (cc_or (tlab t) cc) j (tlong t || false)), lab'. split; [apply in_or_app; right; left; reflexivity|]. rewrite Et in K2. auto.
        -- exists t', lab'. split; [apply in_or_app; cbn; auto|auto].
  - rewrite merge_tr_none by (intros t Ht E; apply Hout; rewrite <- E; apply in_map; exact Ht).
    split; [|split].
    + rewrite map_app. cbn. apply (Permutation_NoDup (Permutation_cons_append _ _)). constructor; assumption.
    + intros t Ht. apply in_app_or in Ht as [Ht|[<-|[]]].
      * destruct (H1 t Ht) as (K1 & K2 & lab' & K3 & K4).
        split; [exact K1|]. split; [exact K2|]. exists lab'. split; [exact K3|]. intros r. rewrite K4. split.
        -- intros (c & x & I & J). exists c, x. cbn; auto.
        -- intros (c & x & [I|I] & J & R); [|exists c, x; auto]. injection I as <- <-. exfalso. apply (JU (tdest t) lab' K3); [|exact J].
           intros Ej. apply Hout. rewrite <- Ej. apply in_map. exact Ht.
      * cbn [tlab tdest]. split; [exact Scc|]. split; [exact Ncc|]. exists lab. split; [exact Hj|]. intros r. split.
        -- intros R. exists cc, s. cbn; auto.
        -- intros (c & x & [I|I] & J & R); [injection I as <- <-; exact R|]. exfalso.
           destruct (H2 c x I) as (t & lab' & K1 & K2 & K3). rewrite (ecl_fun _ _ _ _ _ K3 J) in K2. apply Hout.
           assert (tdest t = j) as <- by (eapply NoDup_nth_error; [exact NL|apply nth_error_Some; congruence|congruence]).
           apply in_map. exact K1.
    + intros c x [I|I].
      * injection I as <- <-. exists (mkT cc j false), lab. split; [apply in_or_app; right; left; reflexivity|]. auto.
      * destruct (H2 c x I) as (t & lab' & K1 & K2 & K3). exists t, lab'. split; [apply in_or_app; auto|auto].
Qed.

(** ** Growing the set of states *)
Definition labs (D : dfa) : list (list nat) := map dlab D.
Definition trs_at (D : dfa) (i : nat) : list ntr := dtrs (nth i D dnil).
Definition closed (A : nfa) (l : list nat) : Prop := ssorted l /\ forall q x, In q l -> eps_path A q x -> In x l.
Definition base_ok (A : nfa) (D : dfa) : Prop :=
  NoDup (labs D) /\ (forall l, In l (labs D) -> closed A l) /\ (forall i, dacc (nth i D dnil) = false).
Definition ext (D D' : dfa) : Prop := exists M, labs D' = labs D ++ M.
Lemma ext_refl D : ext D D. Proof. exists []. rewrite app_nil_r. reflexivity. Qed.
Lemma ext_trans D1 D2 D3 : ext D1 D2 -> ext D2 D3 -> ext D1 D3.
Proof. intros [M E1] [M' E2]. exists (M ++ M'). rewrite E2, E1, app_assoc. reflexivity. Qed.
Lemma ext_length D D' : ext D D' -> length D <= length D'.
Proof. intros [M E]. apply (f_equal (@length _)) in E. unfold labs in E. rewrite app_length, !map_length in E. lia. Qed.
Lemma labs_upd D i f : (forall s, dlab (f s) = dlab s) -> labs (upd_nth D i f) = labs D.
Proof. intros H. unfold labs. revert i. induction D as [|s D IH]; intros [|i]; cbn; rewrite ?H, ?IH; reflexivity. Qed.
Lemma labs_nth D i : nth i (labs D) [] = dlab (nth i D dnil).
Proof. exact (map_nth dlab D dnil i). Qed.
Lemma ext_label D D' i : ext D D' -> i < length D -> dlab (nth i D' dnil) = dlab (nth i D dnil).
Proof. intros [M E] H. rewrite <- !labs_nth, E. apply app_nth1. unfold labs. rewrite map_length. exact H. Qed.

Lemma find_label_spec D l : forall k,
  match find_label D l k with
  | Some j => exists i, j = k + i /\ nth_error (labs D) i = Some l
  | None => ~ In l (labs D)
  end.
Proof.
  induction D as [|s D IH]; intros k; cbn [find_label labs map]; [intros []|].
  destruct (list_eqb l (dlab s)) eqn:E.
  - apply list_eqb_spec in E. subst l. exists 0. split; [lia|reflexivity].
  - specialize (IH (S k)). destruct (find_label D l (S k)) as [j|].
    + destruct IH as (i & -> & H). exists (S i). split; [lia|exact H].
    + intros [<-|H]; [|apply IH; exact H]. rewrite (proj2 (list_eqb_spec _ _) eq_refl) in E. discriminate.
Qed.
Lemma trs_at_upd_same D i f k : (forall s, dtrs (f s) = dtrs s) -> trs_at (upd_nth D i f) k = trs_at D k.
Proof. intros H. unfold trs_at. rewrite nth_upd. destruct (k =? i) eqn:E; cbn [andb]; [|reflexivity]. apply Nat.eqb_eq in E. subst. destruct (i <? length D); [apply H|reflexivity]. Qed.
Lemma add_state_dfa_spec A D l lg D1 j : base_ok A D -> closed A l -> dfa_add_state D l lg = (D1, j) ->
  base_ok A D1 /\ ext D D1 /\ nth_error (labs D1) j = Some l /\ (forall i, trs_at D1 i = trs_at D i) /\
  (length D1 = length D \/ (length D1 = S (length D) /\ ~ In l (labs D))).
Proof.
  intros (ND & HC & HA) Hl H. unfold dfa_add_state in H. pose proof (find_label_spec D l 0) as F. destruct (find_label D l 0) as [i|].
  - destruct F as (i' & E & F). cbn in E. subst i'. injection H as <- <-.
    assert (E : labs (upd_nth D i (set_long lg)) = labs D) by (apply labs_upd; reflexivity).
    repeat split.
    + rewrite E. exact ND.
    + rewrite E in H. exact (proj1 (HC l0 H)).
    + rewrite E in H. exact (proj2 (HC l0 H)).
    + intros k. rewrite nth_upd. destruct (_ && _); [|apply HA]. cbn. apply HA.
    + exists []. rewrite E, app_nil_r. reflexivity.
    + rewrite E. exact F.
    + intros k. apply trs_at_upd_same. reflexivity.
    + left. apply upd_length.
  - injection H as <- <-.
    assert (E : labs (D ++ [mkD l [] lg false]) = labs D ++ [l]) by (unfold labs; rewrite map_app; reflexivity).
    assert (LE : length (labs D) = length D) by apply map_length.
    split; [|split; [|split; [|split]]].
    + split; [|split].
      * rewrite E. apply (Permutation_NoDup (Permutation_cons_append _ _)). constructor; assumption.
      * rewrite E. intros l0 K. apply in_app_or in K as [K|[<-|[]]]; auto.
      * intros k. destruct (Nat.lt_ge_cases k (length D)); [rewrite app_nth1 by assumption; apply HA|].
        rewrite app_nth2 by assumption. destruct (k - length D) as [|[|]]; reflexivity.
    + exists [l]. exact E.
    + rewrite E. rewrite nth_error_app2 by (rewrite LE; lia). rewrite LE, Nat.sub_diag. reflexivity.
    + intros k. unfold trs_at. destruct (Nat.lt_ge_cases k (length D)); [rewrite app_nth1 by assumption; reflexivity|].
      rewrite (nth_overflow D) by assumption. rewrite app_nth2 by assumption. destruct (k - length D) as [|[|]]; reflexivity.
    + right. rewrite app_length. cbn. split; [lia|exact F].
Qed.
Lemma ecl_closed ef A s lab : ecl ef A s lab -> closed A lab /\ forall x, In x lab <-> exists q, In q s /\ eps_path A q x.
Proof.
  intros [lg H]. destruct (eclose_set_spec _ _ _ _ _ _ _ ss_nil H) as [S1 I1].
  assert (I2 : forall x, In x lab <-> exists q, In q s /\ eps_path A q x).
  { intros x. rewrite I1. split; [intros [[]|K]; exact K|auto]. }
  split; [|exact I2]. split; [exact S1|]. intros q x Hq Hx. apply I2 in Hq as (q0 & K1 & K2). apply I2. exists q0. split; [exact K1|].
  exact (path_app _ _ [] _ [] _ K2 Hx).
Qed.

Lemma fork_items_spec ef A index all : items_ok all -> forall items D D' S,
  base_ok A D -> index < length D -> (forall i, In i items -> In i all) -> (forall i, In i S -> In i all) ->
  trs_ok ef A (labs D) S (trs_at D index) -> fork_items ef A D index items = Some D' ->
  base_ok A D' /\ ext D D' /\ (forall i, i <> index -> trs_at D' i = trs_at D i) /\
  trs_ok ef A (labs D') (rev items ++ S) (trs_at D' index).
Proof.
  intros HA. induction items as [|[cc s] items IH]; intros D D' S HB Hx Hsub HS HT H; cbn [fork_items] in H.
  - injection H as <-. split; [exact HB|]. split; [apply ext_refl|]. split; [reflexivity|exact HT].
  - destruct (eclose_set ef A s [] false) as [[ec lg]|] eqn:Ee; [|discriminate].
    destruct (dfa_add_state D ec lg) as [D1 j] eqn:Ed.
    assert (He : ecl ef A s ec) by (exists lg; exact Ee).
    destruct (add_state_dfa_spec A D ec lg D1 j HB (proj1 (ecl_closed _ _ _ _ He)) Ed) as (HB1 & HX1 & Hj & HT1 & _).
    assert (EL : labs (upd_nth D1 index (dfa_add_tr cc j)) = labs D1) by (apply labs_upd; reflexivity).
    assert (T0 : trs_ok ef A (labs D1) ((cc, s) :: S) (add_tr cc j false (trs_at D index))).
    { eapply (trs_ok_add ef A (labs D1) S (trs_at D index) cc s ec j all); auto.
      - apply Hsub. left. reflexivity.
      - apply HB1.
      - eapply trs_ok_ext; [exact HX1|exact HT]. }
    assert (L1 : index < length D1) by (apply ext_length in HX1; lia).
    assert (TI : trs_at (upd_nth D1 index (dfa_add_tr cc j)) index = add_tr cc j false (trs_at D index)).
    { unfold trs_at at 1. rewrite nth_upd, Nat.eqb_refl, (proj2 (Nat.ltb_lt _ _) L1). cbn [andb dtrs dfa_add_tr]. f_equal. exact (HT1 index). }
    assert (TO : forall i, i <> index -> trs_at (upd_nth D1 index (dfa_add_tr cc j)) i = trs_at D i).
    { intros i Hi. unfold trs_at at 1. rewrite nth_upd, (proj2 (Nat.eqb_neq _ _) Hi). cbn [andb]. apply HT1. }
    destruct (IH (upd_nth D1 index (dfa_add_tr cc j)) D' ((cc, s) :: S)) as (B & X & TO' & T'); try assumption.
    + split; [rewrite EL; apply HB1|]. split; [rewrite EL; apply HB1|]. intros k. rewrite nth_upd. destruct (_ && _); [cbn|]; apply HB1.
    + rewrite upd_length. exact L1.
    + intros i Hi. apply Hsub. right. exact Hi.
    + intros i [<-|Hi]; [apply Hsub; left; reflexivity|auto].
    + rewrite EL, TI. exact T0.
    + split; [exact B|]. split.
      { eapply ext_trans; [exact HX1|]. destruct X as [M X]. exists M. rewrite X, EL. reflexivity. }
      split; [intros i Hi; rewrite TO' by exact Hi; apply TO; exact Hi|].
      cbn [rev]. rewrite <- app_assoc. exact T'.
Qed.

Definition items_at (A : nfa) (D : dfa) (i : nat) := departures (label_trs A (dlab (nth i D dnil))).
Definition forked (ef : nat) (A : nfa) (D : dfa) (i : nat) : Prop := trs_ok ef A (labs D) (items_at A D i) (trs_at D i).
Definition good (ef : nat) (A : nfa) (D : dfa) : Prop :=
  base_ok A D /\ forall i, i < length D -> trs_at D i = [] \/ forked ef A D i.
Lemma forked_ext ef A D D' i : ext D D' -> i < length D -> trs_at D' i = trs_at D i -> forked ef A D i -> forked ef A D' i.
Proof.
  intros HX Hi HT HF. unfold forked, items_at in *. rewrite (ext_label D D' i HX Hi), HT. eapply trs_ok_ext; [exact HX|exact HF].
Qed.
Lemma fork_items_good ef A D index D' : good ef A D -> index < length D ->
  fork_items ef A D index (items_at A D index) = Some D' ->
  good ef A D' /\ ext D D' /\ forked ef A D' index /\ (forall i, i < length D -> forked ef A D i -> forked ef A D' i).
Proof.
  intros [HB HG] Hx H. set (all := items_at A D index) in *.
  assert (IO : items_ok all) by apply departures_items_ok.
  assert (K : exists S, (forall i, In i S -> In i all) /\ trs_ok ef A (labs D) S (trs_at D index)).
  { destruct (HG index Hx) as [E|F].
    - exists []. split; [intros ? []|]. rewrite E. split; [constructor|]. split; [intros ? []|intros ? ? []].
    - exists all. split; [auto|exact F]. }
  destruct K as (S & HS & HT).
  destruct (fork_items_spec ef A index all IO all D D' S HB Hx (fun i h => h) HS HT H) as (B & X & TO & T).
  assert (F : forked ef A D' index).
  { unfold forked, items_at. rewrite (ext_label D D' index X Hx). eapply trs_ok_equiv; [|exact T].
    intros i. rewrite in_app_iff, <- in_rev. split; [|auto]. intros [I|I]; [exact I|]. apply HS. exact I. }
  assert (KF : forall i, i < length D -> forked ef A D i -> forked ef A D' i).
  { intros i Hi Fi. destruct (Nat.eq_dec i index) as [->|N]; [exact F|]. apply (forked_ext ef A D D' i X Hi (TO i N) Fi). }
  split; [|auto]. split; [exact B|]. intros i Hi. destruct (Nat.eq_dec i index) as [->|N]; [auto|].
  rewrite (TO i N). destruct (Nat.lt_ge_cases i (length D)) as [L|L].
  - destruct (HG i L) as [E|Fi]; [auto|right; auto].
  - left. unfold trs_at. rewrite nth_overflow by exact L. reflexivity.
Qed.

Lemma fork_good ef A : forall fuel,
  (forall D i D', good ef A D -> i < length D -> fork_states fuel ef A D i = Some D' ->
     good ef A D' /\ ext D D' /\ (forall k, k < length D -> forked ef A D k -> forked ef A D' k) /\ forked ef A D' i /\
     (forall k, length D <= k < length D' -> forked ef A D' k)) /\
  (forall D i D', good ef A D -> fork_loop fuel ef A D i = Some D' ->
     good ef A D' /\ ext D D' /\ (forall k, k < length D -> forked ef A D k -> forked ef A D' k) /\
     (forall k, i <= k < length D' -> forked ef A D' k)).
Proof.
  induction fuel as [|f [IH1 IH2]]; split; intros D i D' HG; try discriminate.
  - intros Hi H. cbn [fork_states] in H. fold (items_at A D i) in H.
    destruct (fork_items ef A D i (items_at A D i)) as [D1|] eqn:E1; [|discriminate].
    destruct (fork_items_good ef A D i D1 HG Hi E1) as (G1 & X1 & F1 & K1).
    destruct (IH2 D1 (length D) D' G1 H) as (G2 & X2 & K2 & F2). pose proof (ext_length _ _ X1).
    split; [exact G2|]. split; [eapply ext_trans; eauto|]. split; [intros k Hk Fk; apply K2; [lia|auto]|].
    split; [apply K2; [lia|exact F1]|exact F2].
  - intros H. cbn [fork_loop] in H. destruct (i <? length D) eqn:E.
    + destruct (fork_states f ef A D i) as [D1|] eqn:E1; [|discriminate].
      destruct (IH1 D i D1 HG ltac:(lia) E1) as (G1 & X1 & K1 & F1 & N1).
      destruct (IH2 D1 (S i) D' G1 H) as (G2 & X2 & K2 & F2). pose proof (ext_length _ _ X1).
      split; [exact G2|]. split; [eapply ext_trans; eauto|]. split; [intros k Hk Fk; apply K2; [lia|auto]|].
      intros k Hk. destruct (Nat.eq_dec k i) as [->|N]; [apply K2; [lia|exact F1]|apply F2; lia].
    + injection H as <-. split; [exact HG|]. split; [apply ext_refl|]. split; [auto|]. intros k Hk. lia.
Qed.

(** ** Determinism and language *)
Lemma ins_tr_perm t l : Permutation (ins_tr t l) (t :: l).
Proof. induction l as [|u l IH]; cbn [ins_tr]; [reflexivity|]. destruct (tdest t <? tdest u); [reflexivity|]. rewrite IH. constructor. Qed.
Lemma sort_trs_perm l : Permutation (sort_trs l) l.
Proof. induction l as [|t l IH]; cbn; [constructor|]. rewrite ins_tr_perm. constructor. exact IH. Qed.
Lemma in_label_trs A l t : In t (label_trs A l) <-> exists q, In q l /\ In t (nth q A []).
Proof. unfold label_trs. rewrite in_flat_map. reflexivity. Qed.

Lemma path_chr_inv A q ch w r : path (edge A) q (ch :: w) r ->
  exists q1 lab d, eps_path A q q1 /\ edge A q1 lab d /\ includes lab ch = true /\ path (edge A) d w r.
Proof.
  intros P. assert (E : exists x, x = ch :: w /\ path (edge A) q x r) by eauto. destruct E as (x & E & P'). clear P. revert ch w E.
  induction P' as [q|q d w' r He Hp IH|q lab c d w' r He Hi Hp IH]; intros ch w E; [discriminate| |].
  - destruct (IH ch w E) as (q1 & lab & d1 & K1 & K2). exists q1, lab, d1. split; [eapply p_eps; eauto|exact K2].
  - injection E as -> ->. exists q, lab, d. split; [constructor|auto].
Qed.

(** The transition of a state on a character. *)
Lemma forked_step ef A D i ch : base_ok A D -> i < length D -> forked ef A D i ->
  let l := dlab (nth i D dnil) in let succ := on_char (label_trs A l) ch in
  (forall t, In t (trs_at D i) -> includes (tlab t) ch = true ->
     tdest t < length D /\ ecl ef A succ (dlab (nth (tdest t) D dnil))) /\
  (succ <> [] -> exists t, In t (trs_at D i) /\ includes (tlab t) ch = true).
Proof.
  intros HB Hi (ND & H1 & H2) l succ.
  destruct (departures_spec (label_trs A l)) as (_ & DI & DC). split.
  - intros t Ht Hc. destruct (H1 t Ht) as (_ & _ & lab & K3 & K4). apply includes_Den in Hc as (r & Hr & Hc).
    apply K4 in Hr as (cc & s & I & J & Hr). unfold items_at in I. fold l in I.
    assert (E : s = succ) by (apply (DI cc s I); apply includes_Den; exists r; auto). subst s.
    split.
    + assert (tdest t < length (labs D)) by (apply nth_error_Some; congruence). unfold labs in *. rewrite map_length in *. assumption.
    + rewrite <- labs_nth. rewrite (nth_error_nth _ _ [] K3). exact J.
  - intros Hne. destruct (DC ch Hne) as (cc & s & I & Hc). destruct (H2 cc s I) as (t & lab & K1 & K2 & K3).
    exists t. split; [exact K1|]. destruct (H1 t K1) as (_ & _ & lab' & K4 & K5). assert (lab' = lab) as -> by congruence.
    apply includes_Den in Hc as (r & Hr & Hc). apply includes_Den. exists r. split; [|exact Hc]. apply K5. exists cc, s. auto.
Qed.
Lemma forked_det ef A D i ch t t' : base_ok A D -> i < length D -> forked ef A D i ->
  In t (trs_at D i) -> In t' (trs_at D i) -> includes (tlab t) ch = true -> includes (tlab t') ch = true -> t = t'.
Proof.
  intros HB Hi HF Ht Ht' Hc Hc'. destruct (forked_step ef A D i ch HB Hi HF) as [K _].
  destruct (K t Ht Hc) as [L1 E1]. destruct (K t' Ht' Hc') as [L2 E2].
  pose proof (ecl_fun _ _ _ _ _ E1 E2) as E.
  assert (Ed : tdest t = tdest t').
  { destruct HB as (NL & _). apply (proj1 (NoDup_nth (labs D) []) NL); unfold labs; rewrite ?map_length; try assumption.
    rewrite !labs_nth. exact E. }
  destruct HF as (ND & _). clear - Ht Ht' Ed ND. induction (trs_at D i) as [|u l IH]; [destruct Ht|]. cbn in ND. inversion ND as [|? ? N1 N2]; subst.
  destruct Ht as [->|Ht], Ht' as [->|Ht']; auto; exfalso; apply N1; [rewrite Ed|rewrite <- Ed]; apply in_map; assumption.
Qed.
Lemma first_tr_some l ch d : first_tr l ch = Some d -> exists t, In t l /\ includes (tlab t) ch = true /\ tdest t = d.
Proof.
  induction l as [|t l IH]; cbn [first_tr]; [discriminate|]. destruct (includes (tlab t) ch) eqn:E.
  - intros H. injection H as <-. exists t. cbn. auto.
  - intros H. destruct (IH H) as (u & K). exists u. cbn. tauto.
Qed.
Lemma first_tr_none l ch : first_tr l ch = None -> forall t, In t l -> includes (tlab t) ch = false.
Proof.
  induction l as [|t l IH]; cbn [first_tr]; [intros _ ? []|]. destruct (includes (tlab t) ch) eqn:E; [discriminate|].
  intros H u [<-|Hu]; auto.
Qed.

Definition all_forked (ef : nat) (A : nfa) (D : dfa) : Prop := base_ok A D /\ forall i, i < length D -> forked ef A D i.
Lemma nth_finish fin D i : i < length D -> nth i (map (finish_state fin) D) dnil = finish_state fin (nth i D dnil).
Proof. intros H. rewrite (nth_indep _ dnil (finish_state fin dnil)) by (rewrite map_length; exact H). apply map_nth. Qed.
Lemma run_spec ef A D : all_forked ef A D -> forall w i, i < length D ->
  dfa_run (map (finish_state (length A - 1)) D) i w = true <->
  exists q, In q (dlab (nth i D dnil)) /\ path (edge A) q w (length A - 1).
Proof.
  intros [HB HF]. induction w as [|ch w IH]; intros i Hi; cbn [dfa_run]; rewrite nth_finish by exact Hi; cbn [finish_state dacc dtrs].
  - rewrite (proj2 (proj2 HB)). cbn [orb]. rewrite existsb_exists. split.
    + intros (q & Hq & E). apply Nat.eqb_eq in E. subst q. exists (length A - 1). split; [exact Hq|constructor].
    + intros (q & Hq & P). exists (length A - 1). split; [|apply Nat.eqb_refl].
      destruct HB as (_ & HC & _). eapply (proj2 (HC (dlab (nth i D dnil)) ltac:(unfold labs; apply in_map; apply nth_In; exact Hi))); eauto.
  - destruct (forked_step ef A D i ch HB Hi (HF i Hi)) as [K1 K2].
    set (l := dlab (nth i D dnil)) in *. set (succ := on_char (label_trs A l) ch) in *.
    assert (Q : (exists q, In q l /\ path (edge A) q (ch :: w) (length A - 1)) <-> exists d, In d succ /\ path (edge A) d w (length A - 1)).
    { destruct (on_char_spec (label_trs A l) ch) as [_ OC]. split.
      - intros (q & Hq & P). apply path_chr_inv in P as (q1 & lab & d & P1 & (t & Ht & E1 & E2) & Hc & P2). exists d. split; [|exact P2].
        apply OC. exists t. split; [|split; [congruence|exact E2]]. apply in_label_trs. exists q1. split; [|exact Ht].
        destruct HB as (_ & HC & _). eapply (proj2 (HC l ltac:(unfold labs; apply in_map; apply nth_In; exact Hi))); eauto.
      - intros (d & Hd & P). apply OC in Hd as (t & Ht & Hc & Ed). apply in_label_trs in Ht as (q & Hq & Ht). exists q. split; [exact Hq|].
        eapply p_chr; [exists t; eauto|exact Hc|]. subst d. exact P. }
    rewrite Q. clear Q. fold (trs_at D i).
    destruct (first_tr (sort_trs (trs_at D i)) ch) as [d|] eqn:E.
    + apply first_tr_some in E as (t & Ht & Hc & Ed). apply (Permutation_in _ (sort_trs_perm _)) in Ht.
      destruct (K1 t Ht Hc) as [L1 E1]. rewrite Ed in *. rewrite IH by exact L1. destruct (ecl_closed _ _ _ _ E1) as [_ I1]. split.
      * intros (q & Hq & P). apply I1 in Hq as (q0 & Hq0 & Pe). exists q0. split; [exact Hq0|]. exact (path_app _ _ [] _ _ _ Pe P).
      * intros (q & Hq & P). exists q. split; [|exact P]. apply I1. exists q. split; [exact Hq|constructor].
    + split; [discriminate|]. intros (d & Hd & _). exfalso.
      destruct K2 as (t & Ht & Hc); [intros E0; rewrite E0 in Hd; destruct Hd|].
      rewrite (first_tr_none _ _ E t) in Hc; [discriminate|]. apply (Permutation_in _ (Permutation_sym (sort_trs_perm _))). exact Ht.
Qed.

Lemma dfa_plain_inv fuel ef A D : dfa_plain fuel ef A = Some D ->
  exists D0, D = map (finish_state (length A - 1)) D0 /\ all_forked ef A D0 /\ 0 < length D0 /\
  forall x, In x (dlab (nth 0 D0 dnil)) <-> eps_path A 0 x.
Proof.
  unfold dfa_plain. destruct (eclose_sub ef A [] 0) as [[ec lg]|] eqn:E0; [|discriminate].
  destruct (eclose_sub_spec _ _ _ _ _ _ ss_nil E0) as [S0 I0].
  destruct (fork_states fuel ef A [mkD ec [] lg false] 0) as [D0|] eqn:E1; [|discriminate]. intros H. injection H as <-.
  assert (I1 : forall x, In x ec <-> eps_path A 0 x) by (intros x; rewrite I0; split; [intros [[]|K]; exact K|auto]).
  assert (G : good ef A [mkD ec [] lg false]).
  { split.
    - split; [cbn; constructor; [intros []|constructor]|]. split.
      + intros l [<-|[]]. cbn. split; [exact S0|]. intros q x Hq Hx. apply I1 in Hq. apply I1. exact (path_app _ _ [] _ [] _ Hq Hx).
      + intros [|[|i]]; reflexivity.
    - intros i Hi. left. destruct i as [|[|]]; reflexivity. }
  destruct (proj1 (fork_good ef A fuel) _ 0 D0 G ltac:(cbn; lia) E1) as (G' & X & _ & F0 & FN).
  exists D0. split; [reflexivity|]. pose proof (ext_length _ _ X) as L. cbn in L. split; [|split; [lia|]].
  - split; [apply G'|]. intros i Hi. destruct i as [|i]; [exact F0|]. apply FN. cbn. lia.
  - intros x. rewrite (ext_label _ _ 0 X) by (cbn; lia). apply I1.
Qed.
Theorem dfa_plain_language fuel ef A D w : dfa_plain fuel ef A = Some D -> dfa_run D 0 w = true <-> accepts A w.
Proof.
  intros H. destruct (dfa_plain_inv _ _ _ _ H) as (D0 & -> & HF & L & I0). rewrite (run_spec ef A D0 HF) by exact L. split.
  - intros (q & Hq & P). apply I0 in Hq. exact (path_app _ _ [] _ _ _ Hq P).
  - intros P. exists 0. split; [apply I0; constructor|exact P].
Qed.
Theorem dfa_plain_det fuel ef A D i t t' ch : dfa_plain fuel ef A = Some D -> i < length D ->
  In t (dtrs (nth i D dnil)) -> In t' (dtrs (nth i D dnil)) -> includes (tlab t) ch = true -> includes (tlab t') ch = true -> t = t'.
Proof.
  intros H Hi. destruct (dfa_plain_inv _ _ _ _ H) as (D0 & -> & [HB HF] & L & _). rewrite map_length in Hi. rewrite nth_finish by exact Hi.
  cbn [finish_state dtrs]. intros Ht Ht'. apply (Permutation_in _ (sort_trs_perm _)) in Ht, Ht'. apply (forked_det ef A D0 i ch); auto.
Qed.
