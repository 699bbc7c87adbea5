(** Minimisation of a decision automaton changes no answer. *)
From Coq Require Import List NArith ZArith Arith Bool Lia ZifyBool ZifyN ZifyNat Permutation.
From Verif Require Import CharClass CharClassSpec CharClassProofs Stream NFA NFAProofs DFA DFADep DFAProofs DFAMin ATN Grammar CodeGen CodeGenProofs CodeGenMisc Lookahead.
Import ListNotations.
Local Open Scope nat_scope.

Lemma ltrs_eqb_spec a : forall b, ltrs_eqb a b = true <-> a = b.
Proof.
  induction a as [|[c x] a IH]; intros [|[d y] b]; cbn [ltrs_eqb]; try (split; congruence).
  rewrite !andb_true_iff, IH, cc_eqb_spec, Z.eqb_eq. split; [intros [[-> ->] ->]; reflexivity|]. intros E. injection E as -> -> ->. auto.
Qed.
Lemma l_equiv_some L reps s r : l_equiv L reps s = Some r -> In r reps /\ nth r L [] = s.
Proof.
  induction reps as [|x reps IH]; cbn [l_equiv]; [discriminate|]. destruct (ltrs_eqb (nth x L []) s) eqn:E.
  - intros H. injection H as <-. apply ltrs_eqb_spec in E. cbn. auto.
  - intros H. destruct (IH H). cbn. auto.
Qed.
Definition lsplit_ok (L : ldfa) (done reps : list nat) (remap : list (nat * nat)) : Prop :=
  (forall i, In i done <-> In i reps \/ In i (map fst remap)) /\
  NoDup (reps ++ map fst remap) /\
  (forall i r, In (i, r) remap -> In r reps /\ nth r L [] = nth i L []).
Lemma l_scan_spec L : forall todo done reps remap reps' remap',
  NoDup (done ++ todo) -> lsplit_ok L done reps remap ->
  l_scan L todo reps remap = (reps', remap') ->
  lsplit_ok L (done ++ todo) reps' remap' /\ exists l, reps' = reps ++ l.
Proof.
  induction todo as [|i todo IH]; intros done reps remap reps' remap' ND HO H; cbn [l_scan] in H.
  - injection H as <- <-. rewrite app_nil_r. split; [exact HO|]. exists []. rewrite app_nil_r. reflexivity.
  - destruct HO as (H1 & H2 & H3).
    assert (Ni : ~ In i done) by (intros K; apply NoDup_remove_2 in ND; apply ND; apply in_or_app; auto).
    assert (Ea : done ++ i :: todo = (done ++ [i]) ++ todo) by (rewrite <- app_assoc; reflexivity).
    assert (Ni1 : ~ In i reps) by (intros K; apply Ni; apply H1; auto).
    assert (Ni2 : ~ In i (map fst remap)) by (intros K; apply Ni; apply H1; auto).
    rewrite Ea. destruct (l_equiv L reps (nth i L [])) as [r|] eqn:E.
    + apply l_equiv_some in E as [E1 E2].
      refine (IH _ _ _ _ _ _ _ H).
      * rewrite <- Ea. exact ND.
      * split; [|split].
        -- intros k. rewrite in_app_iff, H1, map_app, in_app_iff. cbn. tauto.
        -- rewrite map_app. cbn. rewrite app_assoc. apply (Permutation_NoDup (Permutation_cons_append _ _)). constructor; [|exact H2].
           rewrite in_app_iff. tauto.
        -- intros k x Hk. apply in_app_or in Hk as [Hk|[Hk|[]]]; [auto|]. injection Hk as <- <-. split; [exact E1|exact E2].
    + destruct (IH (done ++ [i]) (reps ++ [i]) remap reps' remap') as (K2 & l & K3).
      * rewrite <- Ea. exact ND.
      * split; [|split].
        -- intros k. rewrite !in_app_iff, H1. cbn. tauto.
        -- rewrite <- app_assoc. cbn. apply (Permutation_NoDup (Permutation_middle _ _ _)). constructor; [|exact H2]. rewrite in_app_iff. tauto.
        -- intros k x Hk. destruct (H3 k x Hk). split; [apply in_or_app; auto|assumption].
      * exact H.
      * split; [exact K2|]. exists (i :: l). rewrite K3, <- app_assoc. reflexivity.
Qed.
(** The representative of a destination. *)
Definition zassoc (m : list (nat * nat)) (d : Z) : Z := if (d <? 0)%Z then d else Z.of_nat (assoc m (Z.to_nat d)).
Lemma l_redirect_all reps : forall remap L, (forall a b, In (a, b) remap -> ~ In a reps /\ In b reps) -> NoDup (map fst remap) ->
  forall i, let L' := fold_left (fun L p => l_redirect (fst p) (snd p) L) remap L in
  length L' = length L /\ nth i L' [] = map (fun p => (fst p, zassoc remap (snd p))) (nth i L []).
Proof.
  induction remap as [|[a b] remap IH]; intros L HR ND i; cbn [fold_left].
  - split; [reflexivity|]. symmetry. rewrite <- (map_id (nth i L [])) at 2. apply map_ext. intros [c d]. unfold zassoc. cbn [assoc fst snd].
    destruct (d <? 0)%Z eqn:E; [reflexivity|]. f_equal. lia.
  - cbn in ND. inversion ND as [|? ? N1 N2]; subst.
    destruct (IH (l_redirect a b L) (fun x y h => HR x y (or_intror h)) N2 i) as (Ln & ES). cbn zeta in *. cbn [fst snd] in *.
    split; [rewrite Ln; apply map_length|]. rewrite ES.
    assert (EN : nth i (l_redirect a b L) [] = map (fun t : cclass * Z => if (snd t =? Z.of_nat a)%Z then (fst t, Z.of_nat b) else t) (nth i L [])).
    { unfold l_redirect. exact (map_nth (map _) L [] i). }
    rewrite EN, map_map. apply map_ext. intros [c d]. cbn [fst snd]. unfold zassoc.
    destruct (d =? Z.of_nat a)%Z eqn:E; cbn [fst snd].
    + replace (Z.of_nat b <? 0)%Z with false by lia. replace (d <? 0)%Z with false by lia. rewrite Nat2Z.id. cbn [assoc].
      replace (Z.to_nat d =? a) with true by lia. do 2 f_equal.
      destruct (HR a b (or_introl eq_refl)) as [_ Hb].
      clear - Hb HR. induction remap as [|[e f] remap IH]; cbn [assoc]; [reflexivity|].
      destruct (b =? e) eqn:E; [|apply IH; intros x y [h|h]; apply HR; cbn; auto]. apply Nat.eqb_eq in E. subst e.
      exfalso. apply (proj1 (HR b f (or_intror (or_introl eq_refl)))). exact Hb.
    + destruct (d <? 0)%Z eqn:E2; [reflexivity|]. cbn [assoc]. replace (Z.to_nat d =? a) with false by lia. reflexivity.
Qed.
Definition l_in_range (L : ldfa) : Prop := forall i cc d, In (cc, d) (nth i L []) -> (d < Z.of_nat (length L))%Z.

Theorem l_minimize_go L w : 0 < length L -> l_in_range L -> ldfa_go (l_minimize L) 0 w = ldfa_go L 0 w.
Proof.
  intros L0 HR. unfold l_minimize. destruct (l_scan L (seq 0 (length L)) [] []) as [reps remap] eqn:EM.
  destruct (l_scan_spec L (seq 0 (length L)) [] [] [] reps remap) as ((P1 & P2 & P3) & _).
  { cbn. apply seq_NoDup. }
  { split; [cbn; tauto|]. split; [constructor|intros ? ? []]. }
  { exact EM. }
  cbn [app] in P1.
  assert (P1' : forall i, i < length L <-> In i reps \/ In i (map fst remap)).
  { intros i. rewrite <- P1, in_seq. lia. }
  assert (R0 : exists l, reps = 0 :: l).
  { destruct (length L) as [|n] eqn:EL; [lia|]. cbn [seq l_scan l_equiv] in EM.
    destruct (l_scan_spec L (seq 1 n) [0] [0] [] reps remap) as (_ & l & El).
    - cbn [app]. change (0 :: seq 1 n) with (seq 0 (S n)). apply seq_NoDup.
    - split; [cbn; tauto|]. split; [cbn; constructor; [intros []|constructor]|intros ? ? []].
    - exact EM.
    - exists l. exact El. }
  assert (NDf : NoDup (map fst remap)) by (clear - P2; induction reps as [|x reps IH]; [exact P2|]; cbn in P2; inversion P2; subst; auto).
  assert (RR : forall a b, In (a, b) remap -> ~ In a reps /\ In b reps).
  { intros a b Hab. split; [|apply (P3 a b Hab)]. intros Ha. clear - P2 Ha Hab. induction reps as [|x reps IH]; [destruct Ha|].
    cbn in P2. inversion P2 as [|? ? N1 N2]; subst. destruct Ha as [->|Ha]; [|auto]. apply N1. apply in_or_app. right. apply in_map_iff. exists (a, b). auto. }
  set (rho := assoc remap).
  assert (RHO : forall i, i < length L -> In (rho i) reps /\ nth (rho i) L [] = nth i L []).
  { intros i Hi. apply P1' in Hi.
    assert (G : (In (i, rho i) remap) \/ (~ In i (map fst remap) /\ rho i = i)).
    { unfold rho. clear. induction remap as [|[a b] m IH]; cbn [assoc]; [right; split; [intros []|reflexivity]|]. destruct (i =? a) eqn:E.
      - apply Nat.eqb_eq in E. subst. left. left. reflexivity.
      - destruct IH as [IH|[IH1 IH2]]; [left; right; exact IH|right]. split; [|exact IH2]. cbn. intros [->|K]; [rewrite Nat.eqb_refl in E; discriminate|auto]. }
    destruct G as [G|[G1 G2]]; [apply (P3 i); exact G|]. rewrite G2. destruct Hi as [Hi|Hi]; [auto|contradiction]. }
  set (L2 := fold_left (fun L p => l_redirect (fst p) (snd p) L) remap L).
  assert (RD := l_redirect_all reps remap L RR NDf). cbn zeta in RD. fold L2 in RD.
  assert (MAIN : forall w i, i < length L -> ldfa_go (l_filter reps L2) (index_of (rho i) reps) w = ldfa_go L i w).
  { clear w. induction w as [|ch w IH]; intros i Hi; cbn [ldfa_go]; [reflexivity|].
    destruct (RHO i Hi) as [H1 H2]. destruct (index_of_nth _ _ H1) as [L1 E1].
    assert (FS : first_lab (nth (index_of (rho i) reps) (l_filter reps L2) []) ch
               = option_map (fun d => if (d <? 0)%Z then d else Z.of_nat (index_of (rho (Z.to_nat d)) reps)) (first_lab (nth i L []) ch)).
    { unfold l_filter. rewrite (nth_map_lt _ reps 0 [] _ L1), E1. rewrite (proj2 (RD (rho i))), H2.
      assert (RG : forall cc d, In (cc, d) (nth i L []) -> (d < Z.of_nat (length L))%Z) by (intros cc d; apply HR).
      revert RG. generalize (nth i L []). induction l as [|[c d] l IHl]; intros RG; [reflexivity|].
      specialize (IHl (fun cc x h => RG cc x (or_intror h))). cbn [map fst snd]. cbn [filter fst snd].
      specialize (RG c d (or_introl eq_refl)).
      assert (Z1 : (zassoc remap d <? 0)%Z = (d <? 0)%Z) by (unfold zassoc; destruct (d <? 0)%Z eqn:Ed; lia).
      assert (Z2 : (d <? 0)%Z || existsb (Nat.eqb (Z.to_nat (zassoc remap d))) reps = true).
      { destruct (d <? 0)%Z eqn:Ed; [reflexivity|]. cbn [orb]. apply existsb_exists. exists (rho (Z.to_nat d)). split; [apply RHO; lia|].
        unfold zassoc. rewrite Ed, Nat2Z.id. fold rho. apply Nat.eqb_refl. }
      rewrite Z1, Z2. cbn [map]. cbn [fst snd]. rewrite Z1. destruct (d <? 0)%Z eqn:Ed; cbn [first_lab].
      - unfold zassoc at 1. rewrite Ed. destruct (CharClass.includes c ch); [cbn [option_map]; rewrite Ed; reflexivity|exact IHl].
      - unfold zassoc at 1. rewrite Ed, Nat2Z.id. fold rho. destruct (CharClass.includes c ch); [cbn [option_map]; rewrite Ed; reflexivity|exact IHl]. }
    rewrite FS. destruct (first_lab (nth i L []) ch) as [d|] eqn:E; [|reflexivity]. cbn [option_map].
    assert (Hd : (d < Z.of_nat (length L))%Z).
    { assert (G : exists cc, In (cc, d) (nth i L [])).
      { revert E. generalize (nth i L []). induction l as [|[c x] l IHl]; cbn [first_lab]; [discriminate|]. destruct (CharClass.includes c ch); intros E; [injection E as ->; exists c; left; reflexivity|].
        destruct (IHl E) as [cc Hc]. exists cc. right. exact Hc. }
      destruct G as [cc G]. exact (HR _ _ _ G). }
    destruct (d <? 0)%Z eqn:Ed.
    - replace (0 <=? d)%Z with false by lia. reflexivity.
    - replace (0 <=? Z.of_nat (index_of (rho (Z.to_nat d)) reps))%Z with true by lia. replace (0 <=? d)%Z with true by lia. rewrite Nat2Z.id. apply IH. lia. }
  destruct R0 as [l0 El0]. specialize (MAIN w 0 L0).
  assert (rho0 : rho 0 = 0).
  { unfold rho. destruct (in_dec Nat.eq_dec 0 (map fst remap)) as [Hi|Hi].
    - exfalso. apply in_map_iff in Hi as ([a b] & Ea & Hi). cbn in Ea. subst a. apply (RR 0 b Hi). rewrite El0. left. reflexivity.
    - clear - Hi. induction remap as [|[a b] m IH]; cbn [assoc]; [reflexivity|]. cbn in Hi. destruct (0 =? a) eqn:E; [|apply IH; tauto].
      apply Nat.eqb_eq in E. subst. tauto. }
  rewrite rho0 in MAIN. rewrite El0 in MAIN at 2. cbn [index_of Nat.eqb] in MAIN. exact MAIN.
Qed.
