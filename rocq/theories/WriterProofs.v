From Coq Require Import List NArith Arith Bool Lia.
From Verif Require Import Reduction Writer.
Import ListNotations.

Section W.
Variable B : nat.
Variable stale : nat -> list N.
Hypothesis Bpos : (1 <= B)%nat.
Hypothesis stale_len : forall k, length (stale k) = B.

Lemma store_length p i w : (i < length p)%nat -> length (store p i w) = length p.
Proof.
  intros H. unfold store. rewrite app_length, firstn_length. cbn [length]. rewrite skipn_length. lia.
Qed.
Lemma store_firstn p i w : (i < length p)%nat -> firstn (S i) (store p i w) = firstn i p ++ [w].
Proof.
  intros H. unfold store. rewrite firstn_app, firstn_length.
  replace (S i - Nat.min i (length p))%nat with 1%nat by lia.
  rewrite firstn_firstn. replace (Nat.min (S i) i) with i by lia. reflexivity.
Qed.

Lemma bank_content_nz ws r : (forall w, In w ws -> w <> 0%N) -> bank_content (ws ++ r) = ws ++ bank_content r.
Proof.
  induction ws as [|w ws IH]; intros H; [reflexivity|]. cbn [app bank_content].
  destruct (N.eqb_spec w 0) as [E|E]; [exfalso; apply (H w); simpl; auto|].
  rewrite IH; [reflexivity|]. intros; apply H; simpl; auto.
Qed.

(** Invariant: released banks are full of markers; current page starts with the rest. *)
Definition winv (s : wstate) (ws : list N) : Prop :=
  length (page s) = B /\ (pos s < B)%nat /\
  Forall (fun b => length b = B) (released s) /\
  (forall b w, In b (released s) -> In w b -> w <> 0%N) /\
  ws = concat (rev (released s)) ++ firstn (pos s) (page s).

Lemma put_inv s ws w : winv s ws -> w <> 0%N -> (forall x, In x ws -> x <> 0%N) ->
  exists s', put B B stale s w = Ok s' /\ winv s' (ws ++ [w]) /\
    (length (released s') = length (released s) \/ length (released s') = S (length (released s))).
Proof.
  intros (H1 & H2 & H3 & H4 & H5) Hw Hws. unfold put.
  assert ((pos s <? B)%nat = true) as -> by (apply Nat.ltb_lt; lia).
  cbn [pos]. destruct (Nat.eqb_spec (S (pos s)) B) as [E|E].
  - eexists. split; [reflexivity|]. unfold request_page; cbn [released page pos]. split; [|right; reflexivity].
    assert (FS : store (page s) (pos s) w = firstn (pos s) (page s) ++ [w]).
    { rewrite <- store_firstn by lia. rewrite E. symmetry. apply firstn_all2. rewrite store_length; lia. }
    split; [apply stale_len|]. split; [cbn [pos]; lia|]. split; [|split].
    + constructor; [rewrite store_length; lia|exact H3].
    + intros b x [<-|Hb] Hx.
      * rewrite FS in Hx. apply in_app_or in Hx. destruct Hx as [Hx|[<-|[]]]; [|exact Hw].
        apply Hws. rewrite H5. apply in_or_app; auto.
      * eapply H4; eauto.
    + cbn [rev firstn page pos released]. rewrite concat_app. cbn [concat]. rewrite !app_nil_r.
      rewrite FS, H5, <- app_assoc. reflexivity.
  - eexists. split; [reflexivity|]. split; [|left; reflexivity].
    unfold winv; cbn [released page pos]. split; [rewrite store_length; lia|]. split; [lia|]. split; [exact H3|].
    split; [exact H4|]. rewrite store_firstn by lia. rewrite H5, <- app_assoc. reflexivity.
Qed.

Lemma puts_inv ws2 : forall s ws, winv s ws -> (forall x, In x (ws ++ ws2) -> x <> 0%N) ->
  exists s', puts B B stale s ws2 = Ok s' /\ winv s' (ws ++ ws2).
Proof.
  induction ws2 as [|w ws2 IH]; intros s ws Hi Hnz.
  - exists s. split; [reflexivity|]. rewrite app_nil_r. exact Hi.
  - destruct (put_inv s ws w Hi) as (s1 & E1 & I1 & _).
    + apply Hnz. apply in_or_app; simpl; auto.
    + intros x Hx. apply Hnz. apply in_or_app; auto.
    + cbn [puts]. rewrite E1. cbn [obind]. destruct (IH s1 (ws ++ [w]) I1) as (s2 & E2 & I2).
      * intros x Hx. rewrite <- app_assoc in Hx. apply Hnz. exact Hx.
      * exists s2. split; [exact E2|]. rewrite <- app_assoc in I2. exact I2.
Qed.

Lemma landfill_spec n : forall s, (B - pos s <= n)%nat -> (pos s < B)%nat -> length (page s) = B ->
  exists s', landfill B B n s = Ok s' /\ released s' = released s /\
    page s' = firstn (pos s) (page s) ++ repeat 0%N (B - pos s).
Proof.
  induction n as [|n IH]; intros s Hn Hp Hl; [lia|].
  cbn [landfill]. assert ((pos s <? B)%nat = true) as -> by (apply Nat.ltb_lt; lia). cbn [pos].
  destruct (Nat.eqb_spec (S (pos s)) B) as [E|E].
  - eexists. split; [reflexivity|]. cbn [released page]. split; [reflexivity|].
    replace (B - pos s)%nat with 1%nat by lia. cbn [repeat].
    rewrite <- store_firstn by lia. rewrite E. symmetry. apply firstn_all2. rewrite store_length; lia.
  - destruct (IH (mkW (released s) (store (page s) (pos s) 0%N) (S (pos s)))) as (s' & E1 & E2 & E3);
      [cbn [pos]; lia|cbn [pos]; lia|cbn [page]; rewrite store_length; lia|].
    exists s'. split; [exact E1|]. cbn [released page pos] in *. split; [exact E2|].
    rewrite E3, store_firstn by lia. rewrite <- app_assoc.
    replace (B - pos s)%nat with (S (B - S (pos s)))%nat by lia. reflexivity.
Qed.

Lemma winit_inv : winv (winit stale) [].
Proof.
  unfold winv, winit; cbn [released page pos]. repeat split; auto; try lia.
Qed.

Lemma concat_content bs : (forall b w, In b bs -> In w b -> w <> 0%N) -> map bank_content bs = bs.
Proof.
  induction bs as [|b bs IH]; intros H; [reflexivity|]. cbn [map]. f_equal.
  - rewrite <- (app_nil_r b) at 1. rewrite bank_content_nz; [cbn; apply app_nil_r|]. intros; eapply H; simpl; eauto.
  - apply IH. intros; eapply H; simpl; eauto.
Qed.

(** The banks word for word: full ones, then the rest padded with zeros. *)
Theorem write_accept_exact ws : (forall w, In w ws -> w <> 0%N) ->
  exists full last, write_accept B B stale ws = Ok (full ++ [last ++ repeat 0%N (B - length last)]) /\
    Forall (fun b => length b = B) full /\ (length last < B)%nat /\ concat full ++ last = ws.
Proof.
  intros Hnz. unfold write_accept.
  destruct (puts_inv ws (winit stale) [] winit_inv) as (s & E & I); [exact Hnz|]. cbn [app] in I.
  rewrite E. cbn [obind]. destruct I as (H1 & H2 & H3 & H4 & H5).
  destruct (landfill_spec (S B) s) as (s' & E1 & E2 & E3); try lia.
  rewrite E1. cbn [obind]. rewrite E2, E3. exists (rev (released s)), (firstn (pos s) (page s)).
  assert (HLF : length (firstn (pos s) (page s)) = pos s) by (rewrite firstn_length; lia).
  rewrite HLF. split; [reflexivity|]. split; [apply Forall_rev; exact H3|]. split; [exact H2|]. symmetry; exact H5.
Qed.

Theorem write_accept_correct ws : (forall w, In w ws -> w <> 0%N) ->
  exists banks, write_accept B B stale ws = Ok banks /\
    concat (map bank_content banks) = ws /\
    Forall (fun b => length b = B) banks /\
    length banks = S (length ws / B) /\
    (ws <> [] -> exists b r, banks = b :: r /\ bank_content b <> []).
Proof.
  intros Hnz. unfold write_accept.
  destruct (puts_inv ws (winit stale) [] winit_inv) as (s & E & I); [exact Hnz|]. cbn [app] in I.
  rewrite E. cbn [obind]. destruct I as (H1 & H2 & H3 & H4 & H5).
  destruct (landfill_spec (S B) s) as (s' & E1 & E2 & E3); try lia.
  rewrite E1. cbn [obind]. eexists. split; [reflexivity|]. rewrite E2, E3.
  assert (HF : forall w, In w (firstn (pos s) (page s)) -> w <> 0%N).
  { intros w Hw. apply Hnz. rewrite H5. apply in_or_app; auto. }
  assert (HR : forall b w, In b (rev (released s)) -> In w b -> w <> 0%N).
  { intros b w Hb Hw. apply in_rev in Hb. eapply H4; eauto. }
  assert (HC : bank_content (firstn (pos s) (page s) ++ repeat 0%N (B - pos s)) = firstn (pos s) (page s)).
  { rewrite bank_content_nz by exact HF. replace (B - pos s)%nat with (S (B - pos s - 1)) by lia. cbn. apply app_nil_r. }
  assert (HL : length (concat (rev (released s))) = (length (released s) * B)%nat).
  { clear - H3. rewrite <- (rev_length (released s)). apply Forall_rev in H3.
    induction (rev (released s)) as [|b l IH]; [reflexivity|].
    inversion H3; subst. cbn [concat length]. rewrite app_length, IH by assumption. lia. }
  assert (HLF : length (firstn (pos s) (page s)) = pos s) by (rewrite firstn_length; lia).
  cbn [rev]. split; [|split; [|split]].
  - rewrite map_app, concat_app. cbn [map concat]. rewrite HC, app_nil_r.
    rewrite concat_content by exact HR. symmetry; exact H5.
  - apply Forall_app. split; [apply Forall_rev; exact H3|]. constructor; [|constructor].
    rewrite app_length, repeat_length, HLF. lia.
  - rewrite app_length, rev_length. cbn [length]. rewrite H5, app_length, HL, HLF.
    rewrite Nat.add_comm, (Nat.add_comm _ (pos s)), Nat.div_add by lia. rewrite Nat.div_small by lia. lia.
  - intros Hne. destruct (rev (released s)) as [|b l] eqn:ER.
    + eexists _, _. split; [reflexivity|]. rewrite HC. cbn [concat app] in H5. rewrite <- H5. exact Hne.
    + eexists _, _. split; [reflexivity|].
      assert (Hb : length b = B).
      { apply Forall_rev in H3. rewrite ER in H3. inversion H3; assumption. }
      pose proof (HR b) as HRb. specialize (HRb).
      rewrite <- (app_nil_r b). rewrite bank_content_nz.
      * destruct b; [simpl in Hb; lia|discriminate].
      * intros w Hw. apply (HR b w); [simpl; auto|exact Hw].
Qed.
End W.
