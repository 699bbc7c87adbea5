(** The bank images of the Python mode: reading back what was written, and how large it is. *)
From Coq Require Import List NArith ZArith Bool Lia Arith ZifyBool ZifyN ZifyNat.
From Verif Require Import Marker MarkerProofs Reduction TreeSpec ReductionProofs PyReduction PySpec PyProofs.
Import ListNotations.
Local Open Scope nat_scope.

(** ** Packing *)
Lemma i32_u32 z : (- 2 ^ 31 <= z < 2 ^ 31)%Z -> i32 (u32 z) = z /\ (u32 z < 2 ^ 32)%N.
Proof.
  intros H. unfold i32, u32. change (2 ^ 31)%Z with 2147483648%Z in *. change (2 ^ 32)%Z with 4294967296%Z. change (2 ^ 31)%N with 2147483648%N. change (2 ^ 32)%N with 4294967296%N.
  destruct (Z_le_gt_dec 0 z).
  - rewrite Z.mod_small by lia. destruct (Z.to_N z <? 2147483648)%N eqn:E; split; lia.
  - replace (z mod 4294967296)%Z with (z + 4294967296)%Z by (rewrite <- (Z.mod_small (z + 4294967296) 4294967296) by lia; rewrite <- Z.add_mod_idemp_r by lia; rewrite Z.mod_same by lia; rewrite Z.add_0_r; reflexivity).
    destruct (Z.to_N (z + 4294967296) <? 2147483648)%N eqn:E; split; lia.
Qed.
Lemma two_ind {A} (P : list A -> Prop) : P [] -> (forall a, P [a]) -> (forall a b l, P l -> P (a :: b :: l)) -> forall l, P l.
Proof. intros H0 H1 H2. fix IH 1. intros [|a [|b l]]; [exact H0|apply H1|apply H2, IH]. Qed.
Lemma pack_length ts : forall old, length (pack ts old) = Nat.div2 (S (length ts)).
Proof. induction ts as [|a|a b ts IH] using two_ind; intros old; cbn [pack length Nat.div2]; [reflexivity|reflexivity|]. rewrite IH. cbn. reflexivity. Qed.
Lemma unpack_pack ts : (forall t, In t ts -> (- 2 ^ 31 <= t < 2 ^ 31)%Z) -> forall old junk, unpack (length ts) (pack ts old ++ junk) = Ok ts.
Proof.
  induction ts as [|a|a b ts IH] using two_ind; intros H old junk; cbn [pack length app]; [reflexivity| |].
  - destruct (i32_u32 a (H a (or_introl eq_refl))) as [E1 E2]. cbn [unpack].
    rewrite N.mul_comm, N.mod_add by (vm_compute; discriminate). rewrite N.mod_small by exact E2. rewrite E1. reflexivity.
  - destruct (i32_u32 a (H a (or_introl eq_refl))) as [E1 E2]. destruct (i32_u32 b (H b (or_intror (or_introl eq_refl)))) as [E3 E4].
    cbn [unpack]. rewrite IH by (intros t Ht; apply H; right; right; exact Ht). cbn [obind].
    rewrite N.mul_comm, N.mod_add by (vm_compute; discriminate). rewrite N.div_add by (vm_compute; discriminate).
    rewrite (N.mod_small (u32 a)) by exact E2. rewrite (N.div_small (u32 a)) by exact E2. rewrite N.add_0_l, (N.mod_small (u32 b)) by exact E4. rewrite E1, E3. reflexivity.
Qed.
Lemma take_app l r : take (length l) (l ++ r) = Ok (l, r).
Proof. unfold take. rewrite app_length. replace (length l + length r <? length l) with false by lia. rewrite firstn_app, skipn_app, firstn_all, skipn_all, Nat.sub_diag, firstn_O, app_nil_r. reflexivity. Qed.

Section V.
Context {V : Type}.
Lemma head_length (p : pst V) : length (head_words p) = length (q_starts p) + length (q_ends p) + 5.
Proof. unfold head_words. rewrite !app_length, !rev_length. cbn. lia. Qed.
Lemma needed_length (p : pst V) bank : length (head_words p) + length (tag_words p bank) = needed p.
Proof. unfold tag_words, needed. rewrite pack_length, head_length, rev_length. lia. Qed.
Lemma read_back (p : pst V) old junk : (forall t, In t (q_tags p) -> (- 2 ^ 31 <= t < 2 ^ 31)%Z) ->
  read_bank (head_words p ++ pack (rev (q_tags p)) old ++ junk) = Ok (rev (q_starts p), rev (q_ends p), [q_count p], rev (q_tags p)).
Proof.
  intros H. unfold head_words, read_bank. rewrite <- !app_assoc. cbn [app word obind]. rewrite Nat2N.id.
  rewrite <- (rev_length (q_starts p)), take_app. cbn [obind word]. rewrite Nat2N.id.
  rewrite <- (rev_length (q_ends p)), take_app. cbn [obind word]. change (N.to_nat 1) with 1.
  change (q_count p :: N.of_nat (length (q_tags p)) :: pack (rev (q_tags p)) old ++ junk) with ([q_count p] ++ N.of_nat (length (q_tags p)) :: pack (rev (q_tags p)) old ++ junk).
  change 1 with (length [q_count p]) at 1. rewrite take_app. cbn [obind word]. rewrite Nat2N.id.
  rewrite <- (rev_length (q_tags p)), unpack_pack; [reflexivity|]. intros t Ht. apply H. apply in_rev. exact Ht.
Qed.
End V.

(** ** Sizes *)
Definition S_ (s : list block) := length (bstarts s).
Definition E_ (s : list block) := length (bends s).
Definition V_ (s : list block) := length (bvalues s).
Lemma SEV_cons b s : S_ (b :: s) = (match b with BS _ => 1 | _ => 0 end) + S_ s /\ E_ (b :: s) = (match b with BE _ => 1 | _ => 0 end) + E_ s /\
  V_ (b :: s) = (match b with BV vs => length vs | _ => 0 end) + V_ s.
Proof. unfold S_, E_, V_, bstarts, bends, bvalues. cbn [flat_map]. rewrite !app_length. destruct b; cbn [length]; rewrite ?rev_length; auto. Qed.
Lemma SEV_pushb vs s : S_ (pushb vs s) = S_ s /\ E_ (pushb vs s) = E_ s /\ V_ (pushb vs s) = length vs + V_ s.
Proof.
  destruct s as [|b s]; [unfold S_, E_, V_; cbn; rewrite app_length, rev_length; cbn; auto|].
  pose proof (SEV_cons b s) as (A1 & A2 & A3).
  destruct b as [w|w|us]; cbn [pushb]; [pose proof (SEV_cons (BV vs) (BS w :: s)) as (B1 & B2 & B3)|pose proof (SEV_cons (BV vs) (BE w :: s)) as (B1 & B2 & B3)|pose proof (SEV_cons (BV (us ++ vs)) s) as (B1 & B2 & B3); rewrite app_length in B3]; lia.
Qed.
Lemma SEV_pushv v s : S_ (pushv v s) = S_ s /\ E_ (pushv v s) = E_ s /\ V_ (pushv v s) <= 1 + V_ s.
Proof. unfold pushv. destruct (v =? 0)%N; [auto|]. pose proof (SEV_pushb [v] s) as (A & B & C). cbn [length] in C. lia. Qed.

Section F.
Variable f : N -> N -> N -> list N -> N.
(** unmatched ends and open starts of a run of words *)
Definition scan1 (x : nat * nat) (w : N) : nat * nat :=
  let '(e, s) := x in if is_start_marker w then (e, S s) else match s with 0 => (S e, 0) | S s' => (e, s') end.
Definition scan (ws : list N) : nat * nat := fold_left scan1 ws (0, 0).
Lemma bstep_scan s w : Good s -> (E_ (fst (bstep f s (wblock w))), S_ (fst (bstep f s (wblock w)))) = scan1 (E_ s, S_ s) w /\
  S_ (fst (bstep f s (wblock w))) + E_ (fst (bstep f s (wblock w))) + 2 * V_ (fst (bstep f s (wblock w))) <= 1 + S_ s + E_ s + 2 * V_ s.
Proof.
  intros G. unfold wblock, scan1. destruct (is_start_marker w).
  - cbn [bstep fst]. pose proof (SEV_cons (BS w) s) as (A1 & A2 & A3). rewrite A1, A2, A3. split; [reflexivity|lia].
  - assert (NB : noBS s -> S_ s = 0) by (intros H; unfold S_; rewrite (proj2 (noBS_starts f s) H); reflexivity).
    assert (PUT : bstep f s (BE w) = (BE w :: s, []) -> S_ s = 0 -> (E_ (fst (bstep f s (BE w))), S_ (fst (bstep f s (BE w)))) = match S_ s with 0 => (S (E_ s), 0) | S s' => (E_ s, s') end /\
      S_ (fst (bstep f s (BE w))) + E_ (fst (bstep f s (BE w))) + 2 * V_ (fst (bstep f s (BE w))) <= 1 + S_ s + E_ s + 2 * V_ s).
    { intros -> Z. cbn [fst]. pose proof (SEV_cons (BE w) s) as (A1 & A2 & A3). rewrite A1, A2, A3, Z. split; [reflexivity|lia]. }
    assert (RED : forall c r st us, s = pend us (BS st :: r) -> fst (bstep f s (BE w)) = pushv c r -> (E_ (fst (bstep f s (BE w))), S_ (fst (bstep f s (BE w)))) = match S_ s with 0 => (S (E_ s), 0) | S s' => (E_ s, s') end /\
      S_ (fst (bstep f s (BE w))) + E_ (fst (bstep f s (BE w))) + 2 * V_ (fst (bstep f s (BE w))) <= 1 + S_ s + E_ s + 2 * V_ s).
    { intros c r st us Es ->. pose proof (SEV_pushv c r) as (A1 & A2 & A3). pose proof (SEV_cons (BS st) r) as (B1 & B2 & B3).
      assert (C : S_ s = S (S_ r) /\ E_ s = E_ r /\ V_ r <= V_ s).
      { subst s. destruct us as [|u us]; cbn [pend]; [lia|]. pose proof (SEV_cons (BV (u :: us)) (BS st :: r)) as (C1 & C2 & C3). lia. }
      destruct C as (C1 & C2 & C3). rewrite C1, C2, A1, A2. split; [reflexivity|lia]. }
    destruct s as [|[st|e|us] r].
    + apply PUT; reflexivity.
    + eapply (RED _ r st []); reflexivity.
    + apply PUT; [reflexivity|]. apply NB. cbn [Good] in G. intros x [K|K]; [discriminate|apply (proj1 G x K)].
    + destruct r as [|[st|e|us'] r].
      * apply PUT; reflexivity.
      * destruct us as [|u us]; [cbn [Good] in G; tauto|]. eapply (RED _ r st (u :: us)); reflexivity.
      * apply PUT; [reflexivity|]. apply NB. cbn [Good] in G. intros x [K|[K|K]]; [discriminate|discriminate|]. destruct G as (_ & _ & G & _). apply (G x K).
      * cbn [Good] in G. tauto.
Qed.
Lemma nf_scan ws : let s := fst (bsteps f [] (map wblock ws)) in (E_ s, S_ s) = scan ws /\ S_ s + E_ s + 2 * V_ s <= length ws.
Proof.
  induction ws as [|w ws IH] using rev_ind; [cbn; split; [reflexivity|auto]|]. cbn zeta in *. destruct IH as [I1 I2].
  assert (G : Good (fst (bsteps f [] (map wblock ws)))) by (apply bsteps_Good; [apply okb_wblock|exact I]).
  rewrite map_app, bsteps_app. cbn [map]. destruct (bsteps f [] (map wblock ws)) as [s l]. cbn [fst] in *. rewrite bsteps_one.
  pose proof (bstep_scan s w G) as [H1 H2]. destruct (bstep f s (wblock w)) as [s' l']. cbn [fst] in *. unfold scan in *. rewrite fold_left_app, <- I1. cbn [fold_left]. split; [exact H1|]. rewrite app_length. cbn [length]. lia.
Qed.
(** no two blocks of values are neighbours *)
Lemma Good_len s : Good s -> length s <= 2 * (S_ s + E_ s) + 1 /\ (match s with BV _ :: _ => True | _ => length s <= 2 * (S_ s + E_ s) end).
Proof.
  induction s as [|b s IH]; intros G; [cbn; lia|]. pose proof (SEV_cons b s) as (A1 & A2 & A3). rewrite A1, A2. cbn [length].
  destruct b as [w|w|us]; cbn [Good] in G.
  - destruct (IH G) as [H _]. lia.
  - destruct (IH (proj2 G)) as [H _]. lia.
  - destruct G as (_ & NV & G). destruct (IH G) as [H1 H2]. split; [|exact Logic.I]. destruct s as [|[x|x|x] s']; try contradiction; cbn [length] in *; lia.
Qed.
Lemma vsum_tags s : Good s -> vsum (map btag s) = V_ s.
Proof.
  induction s as [|b s IH]; intros G; [reflexivity|]. pose proof (SEV_cons b s) as (_ & _ & A3). rewrite A3. cbn [map]. unfold vsum. cbn [fold_right]. fold (vsum (map btag s)).
  destruct b as [w|w|us]; cbn [btag Good] in *; rewrite IH by tauto; [reflexivity|reflexivity|]. destruct us; [tauto|]. replace (Z.of_nat (length (n :: us)) <? 1)%Z with false by (cbn [length]; lia). rewrite Nat2Z.id. reflexivity.
Qed.
Lemma vsum_app a b : vsum (a ++ b) = vsum a + vsum b.
Proof. unfold vsum. induction a as [|x a IH]; [reflexivity|]. cbn [app fold_right]. rewrite IH. lia. Qed.
Lemma vsum_rev ts : vsum (rev ts) = vsum ts.
Proof. induction ts as [|t ts IH]; [reflexivity|]. cbn [rev]. rewrite vsum_app, IH. unfold vsum at 2 3. cbn [fold_right]. unfold vsum. lia. Qed.
Lemma btag_range s t : In t (map btag s) -> (-1 <= t <= Z.max 0 (Z.of_nat (V_ s)))%Z.
Proof.
  induction s as [|b s IH]; [intros []|]. pose proof (SEV_cons b s) as (_ & _ & A3). rewrite A3. intros [<-|K]; [|apply IH in K; lia].
  destruct b; cbn [btag]; unfold START_MARKER, END_MARKER; lia.
Qed.
End F.

(** ** Depth of a tree bounds what a bank leaves open *)
Definition level (ws : list N) : Z := fold_right (fun w n => ((if is_start_marker w then 1 else -1) + n)%Z) 0%Z ws.
Lemma level_app a b : level (a ++ b) = (level a + level b)%Z.
Proof. unfold level. induction a as [|x a IH]; [reflexivity|]. cbn [app fold_right]. rewrite IH. lia. Qed.
Definition between (ws : list N) (d : nat) : Prop := forall a b, ws = a ++ b -> (0 <= level a <= Z.of_nat d)%Z.
Lemma between_app a b d : between a d -> level a = 0%Z -> between b d -> between (a ++ b) d.
Proof.
  intros Ha La Hb x y E. revert x E. intros x E. apply app_eq_app in E as (l & [(E1 & E2)|(E1 & E2)]).
  - subst a. apply (Ha x l eq_refl).
  - subst x. rewrite level_app, La. apply (Hb l y E2).
Qed.
Lemma between_mono ws d d' : d <= d' -> between ws d -> between ws d'.
Proof. intros L H a b E. specialize (H a b E). lia. Qed.
Lemma between_nil d : between [] d.
Proof. intros a b E. symmetry in E. apply app_eq_nil in E as [-> _]. cbn. lia. Qed.
Lemma stream_level t : tree_ok t -> between (stream t) (depth t) /\ level (stream t) = 0%Z.
Proof.
  induction t as [id s e ch IH] using tree_ind'. intros (H1 & H2 & H3 & H4). apply tree_ok_Forall in H4.
  set (m := fold_right (fun c m => Nat.max (depth c) m) 0 ch).
  assert (G : between (concat (map stream ch)) m /\ level (concat (map stream ch)) = 0%Z).
  { unfold m. clear m. induction ch as [|c ch IHc]; [split; [apply between_nil|reflexivity]|]. inversion IH as [|? ? I1 I2]; subst. inversion H4 as [|? ? O1 O2]; subst.
    destruct (IHc I2 O2) as [B1 B2]. destruct (I1 O1) as [B3 B4]. cbn [map concat fold_right]. split; [|rewrite level_app; lia].
    apply between_app; [eapply between_mono; [|exact B3]; lia|exact B4|eapply between_mono; [|exact B1]; lia]. }
  destruct G as [G1 G2]. pose proof (marker_start id s H1 H2) as (_&_&_&WS&_). pose proof (marker_end id e H1 H3) as (_&_&_&WE&_).
  cbn [stream depth]. fold m. split.
  - intros a b E. destruct a as [|x a]; [cbn; lia|]. cbn [app] in E. injection E as <- E. unfold level. cbn [fold_right]. rewrite WS. fold (level a).
    destruct b as [|y b] using rev_ind; [|clear IHb].
    + rewrite app_nil_r in E. subst a. rewrite level_app, G2. unfold level. cbn [fold_right]. rewrite WE. lia.
    + rewrite app_assoc in E. apply app_inj_tail in E as [E _]. specialize (G1 a b E). lia.
  - cbn [app]. unfold level. cbn [fold_right]. rewrite WS. fold (level (concat (map stream ch) ++ [end_word id e])). rewrite level_app, G2. unfold level. cbn [fold_right]. rewrite WE. lia.
Qed.
Lemma scan_level ws d : forall pre post, between (pre ++ ws ++ post) d ->
  (level pre + level ws = level pre - Z.of_nat (fst (scan ws)) + Z.of_nat (snd (scan ws)) /\ Z.of_nat (fst (scan ws)) <= level pre)%Z.
Proof.
  intros pre. induction ws as [|w ws IH] using rev_ind; intros post B.
  - cbn. pose proof (B pre post eq_refl) as H. lia.
  - assert (B1 : between (pre ++ ws ++ ([w] ++ post)) d) by (rewrite <- app_assoc in B; exact B).
    destruct (IH _ B1) as [I1 I2]. pose proof (B (pre ++ ws ++ [w]) post ltac:(rewrite <- !app_assoc; reflexivity)) as L.
    rewrite !level_app in L. unfold level at 3 5 in L. cbn [fold_right] in L.
    unfold scan in *. rewrite fold_left_app. cbn [fold_left]. destruct (fold_left scan1 ws (0, 0)) as [e s]. cbn [fst snd] in *.
    rewrite level_app. unfold level at 3. cbn [fold_right]. unfold scan1. destruct (is_start_marker w); cbn [fst snd]; [lia|]. destruct s; cbn [fst snd]; lia.
Qed.
Lemma scan_depth ws pre post d : between (pre ++ ws ++ post) d -> fst (scan ws) <= d /\ snd (scan ws) <= d.
Proof.
  intros B. destruct (scan_level ws d pre post B) as [H1 H2]. pose proof (B pre (ws ++ post) eq_refl) as L1. pose proof (B (pre ++ ws) post ltac:(rewrite <- app_assoc; reflexivity)) as L2.
  rewrite level_app in L2. lia.
Qed.
