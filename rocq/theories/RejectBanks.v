(** * What the banks of a rejected parse hold, and what the reduction makes of it *)
From Coq Require Import List NArith ZArith Arith Bool Lia ZifyBool ZifyN ZifyNat.
From Verif Require Import Marker MarkerProofs Reduction TreeSpec ReductionProofs Writer WriterProofs StuckSpec.
Import ListNotations.
Local Open Scope nat_scope.

(** ** Banks of a rejected parse *)
Section Banks.
Variables (B : nat) (stale : nat -> list N).
Hypothesis Bpos : 1 <= B.
Hypothesis stale_len : forall k, length (stale k) = B.
Definition tail_old (s : wstate) : Prop := skipn (pos s) (page s) = skipn (pos s) (stale (length (released s))).
Lemma store_skipn p i w : i < length p -> skipn (S i) (store p i w) = skipn (S i) p.
Proof.
  intros H. unfold store. rewrite skipn_app, firstn_length. replace (S i - Nat.min i (length p)) with 1 by lia.
  rewrite (skipn_all2 (firstn i p)) by (rewrite firstn_length; lia). reflexivity.
Qed.
Lemma skipn_S {A} n (l m : list A) : length l = length m -> skipn n l = skipn n m -> skipn (S n) l = skipn (S n) m.
Proof. revert l m. induction n as [|n IH]; intros [|x l] [|y m] H E; try discriminate; [reflexivity| |reflexivity|]; cbn [skipn length] in *; [congruence|]. apply IH; [lia|exact E]. Qed.
Lemma put_tail s ws w s' : winv B s ws -> tail_old s -> put B B stale s w = Ok s' -> tail_old s'.
Proof.
  intros (H1 & H2 & _) HT. unfold put. destruct (pos s <? B) eqn:E; [|discriminate]. cbn [pos]. destruct (Nat.eqb_spec (S (pos s)) B) as [E2|E2]; intros K; injection K as <-; unfold tail_old, request_page; cbn [pos page released length]; [reflexivity|].
  rewrite store_skipn by lia. apply skipn_S; [rewrite stale_len; exact H1|exact HT].
Qed.
Lemma puts_tail ws2 : forall s ws, winv B s ws -> tail_old s -> (forall x, In x (ws ++ ws2) -> x <> 0%N) -> exists s', puts B B stale s ws2 = Ok s' /\ winv B s' (ws ++ ws2) /\ tail_old s'.
Proof.
  induction ws2 as [|w ws2 IH]; intros s ws Hi HT Hnz.
  - exists s. split; [reflexivity|]. rewrite app_nil_r. auto.
  - destruct (put_inv B stale Bpos stale_len s ws w Hi) as (s1 & E1 & I1 & _).
    + apply Hnz. apply in_or_app. right. left. reflexivity.
    + intros x Hx. apply Hnz. apply in_or_app. auto.
    + pose proof (put_tail s ws w s1 Hi HT E1) as T1. cbn [puts]. rewrite E1. cbn [obind]. destruct (IH s1 (ws ++ [w]) I1 T1) as (s2 & E2 & I2 & T2).
      * intros x Hx. rewrite <- app_assoc in Hx. apply Hnz. exact Hx.
      * exists s2. rewrite <- app_assoc in I2. auto.
Qed.
(** The banks hold the words written, and behind them what the last page held before. *)
Theorem write_reject_words ws : (forall w, In w ws -> w <> 0%N) -> exists banks, write_reject B B stale ws = Ok banks /\ banks <> [] /\
  List.concat (map bank_content banks) = ws ++ bank_content (skipn (length ws mod B) (stale (length ws / B))).
Proof.
  intros Hnz. unfold write_reject. destruct (puts_tail ws (winit stale) [] (winit_inv B stale Bpos stale_len) eq_refl Hnz) as (s & E & (H1 & H2 & H3 & H4 & H5) & HT). cbn [app] in H5.
  rewrite E. cbn [obind]. eexists. split; [reflexivity|]. split; [intros K; apply (f_equal (@length _)) in K; rewrite rev_length in K; discriminate|].
  cbn [rev]. rewrite map_app, concat_app. cbn [map List.concat].
  assert (HF : forall w, In w (firstn (pos s) (page s)) -> w <> 0%N) by (intros w Hw; apply Hnz; rewrite H5; apply in_or_app; auto).
  assert (HR : forall b w, In b (rev (released s)) -> In w b -> w <> 0%N) by (intros b w Hb Hw; apply in_rev in Hb; eapply H4; eauto).
  assert (HL : length (List.concat (rev (released s))) = (length (released s) * B)).
  { clear - H3. rewrite <- (rev_length (released s)). apply Forall_rev in H3. induction (rev (released s)) as [|b l IH]; [reflexivity|]. inversion H3; subst. cbn [List.concat length]. rewrite app_length, IH by assumption. lia. }
  assert (HLF : length (firstn (pos s) (page s)) = pos s) by (rewrite firstn_length; lia).
  assert (EL : length ws = pos s + length (released s) * B) by (rewrite H5, app_length, HL, HLF; lia).
  rewrite (concat_content _ HR), app_nil_r. rewrite <- (firstn_skipn (pos s) (page s)) at 1. rewrite (bank_content_nz _ _ HF), app_assoc. rewrite <- H5. f_equal. f_equal.
  assert (E1 : length ws / B = length (released s)) by (rewrite EL, Nat.div_add by lia; rewrite Nat.div_small by lia; lia).
  assert (E2 : length ws mod B = pos s) by (rewrite EL, Nat.mod_add by lia; apply Nat.mod_small; lia).
  rewrite E1, E2. exact HT.
Qed.
End Banks.
Lemma zeros_content l : (forall w, In w l -> w = 0%N) -> bank_content l = [].
Proof. destruct l as [|w l]; intros H; [reflexivity|]. cbn [bank_content]. rewrite (H w (or_introl eq_refl)). reflexivity. Qed.

(** ** Reduction of unfinished streams *)
Section Reduce.
Variable f : N -> N -> N -> list N -> N.
Theorem reduction_words z banks ws : (z < 1)%Z -> banks <> [] -> List.concat (map bank_content banks) = ws -> ~ hasBE (fst (bsteps f [] (map wblock ws))) ->
  exists logs2 log3, reduction f (Some z) banks = Ok (match rev (bvalues (fst (bsteps f [] (map wblock ws)))) with [] => 0%N | v :: _ => v end, logs2, log3) /\
    Interleave (List.concat logs2) log3 (snd (bsteps f [] (map wblock ws))).
Proof.
  intros Hz NE Hc HB. destruct banks as [|b banks]; [congruence|].
  pose proof (content_words (b :: banks) ws Hc) as HC. rewrite <- HC in *.
  unfold content in *. cbn [map List.concat] in *. fold (content banks) in *. rewrite bsteps_app in *.
  assert (EB : exists z0, Some z = Some z0 /\ isValueTag z0 = false) by (exists z; split; [reflexivity|unfold isValueTag, VALUE; apply Z.leb_gt; exact Hz]).
  unfold reduction. rewrite (reduce_banks_conc f (Some z) EB). cbn [obind map stage3].
  change (mkS (starts (conc (nf f b) (rev (nl f b)))) (ends (conc (nf f b) (rev (nl f b)))) (values (conc (nf f b) (rev (nl f b)))) (tags (conc (nf f b) (rev (nl f b)))) []) with (conc (nf f b) []).
  assert (Hnf : bsteps f [] (map wblock (bank_content b)) = (nf f b, nl f b)) by (unfold nf, nl; apply surjective_pairing).
  rewrite Hnf in *. destruct (bsteps f (nf f b) (content banks)) as [s2 l2] eqn:E2. cbn [fst snd] in *.
  destruct (merge_chunks_conc f (Some z) EB banks (nf f b) []) as (l3 & EM & PM); [apply nf_Good|rewrite E2; exact HB|].
  rewrite EM. cbn [obind]. rewrite E2 in PM. cbn [fst snd] in *. rewrite E2. cbn [fst]. rewrite app_nil_r.
  exists (nl f b :: map (nl f) banks), l3. split.
  - cbn [conc values log]. rewrite rev_involutive. rewrite map_map. cbn [log conc]. rewrite (map_ext (fun x => rev (rev (nl f x))) (nl f)) by (intros; apply rev_involutive). rewrite ?rev_involutive. reflexivity.
  - cbn [List.concat]. rewrite <- (app_nil_l l3). apply il_app; [apply il_l|exact PM].
Qed.
Lemma bsteps_forest l : Forall tree_ok l -> forall us st s,
  bsteps f (pend us (BS st :: s)) (map wblock (List.concat (map stream l))) = (pend (us ++ filter nz (map (eval f) l)) (BS st :: s), List.concat (map (calls f) l)).
Proof.
  induction l as [|c l IH]; intros HF us st s; cbn [map List.concat].
  - cbn [bsteps filter]. rewrite app_nil_r. reflexivity.
  - inversion HF as [|? ? F1 F2]; subst. rewrite map_app, bsteps_app, (bsteps_tree f c F1). rewrite pushv_pend, IH by assumption.
    change (eval f c :: map (eval f) l) with ([eval f c] ++ map (eval f) l). rewrite filter_app, app_assoc. reflexivity.
Qed.
Definition frame_ok (x : unfinished) : Prop := (1 <= fst (fst x) < 2 ^ 15)%N /\ (snd (fst x) < 2 ^ 48)%N /\ Forall tree_ok (snd x).
Lemma bsteps_open fs : Forall frame_ok fs -> forall s, exists s', bsteps f s (map wblock (List.concat (map open_words fs))) = (s', List.concat (map (calls f) (finished fs))) /\
  bvalues s' = rev (filter nz (map (eval f) (finished fs))) ++ bvalues s /\ (~ hasBE s -> ~ hasBE s').
Proof.
  induction fs as [|[[id st] ch] fs IH]; intros HF s.
  - exists s. auto.
  - inversion HF as [|? ? (K1 & K2 & K3) F2]; subst. cbn [fst snd] in *. cbn [map List.concat]. rewrite map_app, bsteps_app. unfold open_words at 1. cbn [fst snd map bsteps]. rewrite wblock_start by assumption. cbn [bstep].
    pose proof (bsteps_forest ch K3 [] (start_word id st) s) as G. cbn [pend app] in G. rewrite G. destruct (IH F2 (pend (filter nz (map (eval f) ch)) (BS (start_word id st) :: s))) as (s' & E1 & E2 & E3).
    rewrite E1. exists s'. cbn [finished map List.concat snd app]. fold (finished fs). split; [rewrite map_app, concat_app; reflexivity|]. split.
    + rewrite E2, map_app, filter_app, rev_app_distr, <- app_assoc. f_equal. destruct (filter nz (map (eval f) ch)); reflexivity.
    + intros NB. apply E3. intros [w K]. apply NB. exists w. destruct (filter nz (map (eval f) ch)); cbn [pend In] in K; repeat (destruct K as [K|K]; [discriminate|]); exact K.
Qed.
Theorem reduction_open z banks fs : (z < 1)%Z -> fs <> [] -> Forall frame_ok fs -> List.concat (map bank_content banks) = List.concat (map open_words fs) ->
  exists logs2 log3, reduction f (Some z) banks = Ok (hd 0%N (filter (fun v => negb (v =? 0)%N) (map (eval f) (finished fs))), logs2, log3) /\
    Interleave (List.concat logs2) log3 (List.concat (map (calls f) (finished fs))).
Proof.
  intros Hz NE HF HC. destruct (bsteps_open fs HF []) as (s' & E1 & E2 & E3). cbn [bvalues flat_map] in E2. rewrite app_nil_r in E2.
  destruct (reduction_words z banks (List.concat (map open_words fs)) Hz) as (l2 & l3 & R1 & R2); [|exact HC| |].
  - intros ->. destruct fs as [|[[id st] ch] fs]; [congruence|]. discriminate.
  - rewrite E1. apply E3. intros [w []].
  - rewrite E1 in R1, R2. cbn [fst snd] in *. rewrite E2, rev_involutive in R1. exists l2, l3. split; [|exact R2]. rewrite R1. unfold nz. destruct (filter _ _); reflexivity.
Qed.
End Reduce.
