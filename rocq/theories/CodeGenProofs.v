(** Correctness of the generated matching code. *)
From Coq Require Import List NArith ZArith Arith Bool Lia ZifyBool ZifyN ZifyNat.
From Verif Require Import CharClass CharClassSpec NFA DFA DFAProofs X86 CodeGen.
Import ListNotations.
Local Open Scope N_scope.

(** ** Labels *)
Lemma label_eqb_eq a : forall b, label_eqb a b = true <-> a = b.
Proof.
  induction a as [|x a IH]; intros [|y b]; cbn [label_eqb]; try (split; congruence).
  rewrite andb_true_iff, Nat.eqb_eq, IH. split; [intros [-> ->]; reflexivity|intros E; injection E as -> ->; auto].
Qed.
Fixpoint binds (P : code) : list label :=
  match P with
  | [] => []
  | i :: P' => match i with IBind l => l :: binds P' | _ => binds P' end
  end.
Lemma binds_app a b : binds (a ++ b) = binds a ++ binds b.
Proof. induction a as [|i a IH]; cbn; [reflexivity|]. destruct i; cbn; rewrite IH; reflexivity. Qed.
Lemma find_at a l b : NoDup (binds (a ++ IBind l :: b)) -> find_lab (a ++ IBind l :: b) l = Some b.
Proof.
  induction a as [|i a IH]; intros H.
  - cbn. rewrite (proj2 (label_eqb_eq l l) eq_refl). reflexivity.
  - destruct i; cbn [app binds find_lab] in *; try exact (IH H).
    inversion H as [|? ? N1 N2]; subst. destruct (label_eqb l l0) eqn:E.
    + apply label_eqb_eq in E. subst. exfalso. apply N1. rewrite binds_app. apply in_or_app. right. left. reflexivity.
    + exact (IH N2).
Qed.

Lemma find_at' P a l b : P = a ++ IBind l :: b -> NoDup (binds P) -> find_lab P l = Some b.
Proof. intros -> H. apply find_at. exact H. Qed.

(** ** Execution *)
Definition frame (s s' : st) : Prop :=
  rg s' RDX = rg s RDX /\ rg s' RDI = rg s RDI /\ rg s' RBP = rg s RBP /\ rg s' R8 = rg s R8 /\
  stk s' = stk s /\ sav s' = sav s /\ out s' = out s /\ obase s' = obase s.
Lemma frame_refl s : frame s s. Proof. repeat split. Qed.
Lemma frame_trans a b c : frame a b -> frame b c -> frame a c.
Proof. intros (?&?&?&?&?&?&?&?) (?&?&?&?&?&?&?&?). repeat split; congruence. Qed.
Lemma star_trans P e a b c : star P e a b -> star P e b c -> star P e a c.
Proof. induction 1; intros; [assumption|]. econstructor; eauto. Qed.
Lemma star_one P e a b : step P e a = Next b -> star P e a b.
Proof. intros H. econstructor; [exact H|constructor]. Qed.

Lemma w64_small x : x < 2 ^ 64 -> w64 x = x.
Proof. intros. apply N.mod_small. assumption. Qed.
Lemma sub64_le a b : b <= a -> a < 2 ^ 64 -> sub64 a b = a - b.
Proof.
  intros H L. unfold sub64. change (2 ^ 64) with 18446744073709551616 in *.
  replace (a + 18446744073709551616 - b) with ((a - b) + 1 * 18446744073709551616) by lia. rewrite N.mod_add by lia. apply N.mod_small. lia.
Qed.
Lemma sub64_gt a b : a < b -> b <= 2 ^ 64 -> sub64 a b = a + 2 ^ 64 - b.
Proof. intros H L. unfold sub64. apply N.mod_small. change (2 ^ 64) with 18446744073709551616 in *. lia. Qed.

(** Ranges as the code generator sees them. *)
Definition proper (cc : cclass) : Prop := forall r, In r cc -> rs r < re r /\ re r <= 256.

Section Exec.
Variables (P : code) (e : env).
Hypothesis HP : NoDup (binds P).

Ltac stp := eapply star_step; [cbn; reflexivity|].

Lemma jump_at s a l b : P = a ++ IBind l :: b -> jump P s l = Next (goto s b).
Proof. intros E. unfold jump. rewrite E at 1. rewrite find_at by (rewrite <- E; exact HP). reflexivity. Qed.

(** One range. *)
Lemma range_run r l kl k s c : rs r < re r -> re r <= 256 -> c < 256 ->
  find_lab P l = Some kl -> pc s = emit_range r l ++ k -> rg s RAX = c -> rg s RCX = c ->
  exists s', star P e s s' /\ frame s s' /\ rg s' RSI = rg s RSI /\ rg s' RBX = rg s RBX /\
    (if (rs r <=? c) && (c <? re r) then pc s' = kl else pc s' = k /\ rg s' RAX = c /\ rg s' RCX = c).
Proof.
  intros H1 H2 Hc HL HPC HA HC. destruct s as [pc0 rg0 fl0 xl0 xp0 stk0 sav0 out0 ob0]. cbn [pc rg] in *. subst pc0.
  unfold emit_range. destruct (rs r + 1 =? re r) eqn:E.
  - cbn [app]. assert (B : (rs r <=? c) && (c <? re r) = (c =? rs r)) by lia. rewrite B.
    destruct (c =? rs r) eqn:Q.
    + eexists. split; [eapply star_step; [cbn; reflexivity|]; eapply star_step; [cbn [step pc fl set_fl eval_cond]; rewrite HA, Q; unfold jump; rewrite HL; reflexivity|constructor]|].
      cbn. repeat split.
    + eexists. split; [eapply star_step; [cbn; reflexivity|]; eapply star_step; [cbn [step pc fl set_fl eval_cond]; rewrite HA, Q; reflexivity|constructor]|].
      cbn. repeat split; assumption.
  - cbn [app].
    assert (S1 : sub64 (re r) (rs r) = re r - rs r) by (apply sub64_le; [lia|change (2^64) with 18446744073709551616; lia]).
    assert (B : ((rs r <=? c) && (c <? re r)) = (sub64 c (rs r) <? sub64 (re r) (rs r))).
    { rewrite S1. destruct (N.le_gt_cases (rs r) c) as [L|L].
      - rewrite sub64_le by (try change (2^64) with 18446744073709551616; lia). lia.
      - rewrite sub64_gt by (try change (2^64) with 18446744073709551616; lia). change (2^64) with 18446744073709551616. lia. }
    rewrite B. destruct (sub64 c (rs r) <? sub64 (re r) (rs r)) eqn:Q.
    + eexists. split.
      { eapply star_step; [cbn; reflexivity|]. eapply star_step; [cbn [step pc set_reg rg setr reg_eqb]; reflexivity|].
        eapply star_step; [cbn [step pc fl set_fl eval_cond]; rewrite HA; unfold setr; cbn [reg_eqb]; rewrite Q; unfold jump; rewrite HL; reflexivity|constructor]. }
      cbn. repeat split.
    + eexists. split.
      { eapply star_step; [cbn; reflexivity|]. eapply star_step; [cbn [step pc set_reg rg setr reg_eqb]; reflexivity|].
        eapply star_step; [cbn [step pc fl set_fl eval_cond]; rewrite HA; unfold setr; cbn [reg_eqb]; rewrite Q; reflexivity|].
        eapply star_step; [cbn; reflexivity|constructor]. }
      cbn. repeat split; assumption.
Qed.
Lemma ranges_run cc l kl k : forall s c, proper cc -> c < 256 ->
  find_lab P l = Some kl -> pc s = emit_ranges cc l ++ k -> rg s RAX = c -> rg s RCX = c ->
  exists s', star P e s s' /\ frame s s' /\ rg s' RSI = rg s RSI /\ rg s' RBX = rg s RBX /\
    (if includes cc c then pc s' = kl else pc s' = k /\ rg s' RAX = c /\ rg s' RCX = c).
Proof.
  induction cc as [|r cc IH]; intros s c HO Hc HL HPC HA HC.
  - cbn in HPC. exists s. split; [constructor|]. split; [apply frame_refl|]. cbn. auto.
  - cbn [emit_ranges flat_map] in HPC. rewrite <- app_assoc in HPC.
    destruct (HO r (or_introl eq_refl)) as [Hr1 Hr2].
    destruct (range_run r l kl _ s c Hr1 Hr2 Hc HL HPC HA HC) as (s1 & S1 & F1 & I1 & B1 & R1).
    cbn [includes existsb]. destruct ((rs r <=? c) && (c <? re r)) eqn:E; cbn [orb].
    + exists s1. auto.
    + destruct R1 as (K1 & A1 & C1).
      destruct (IH s1 c (fun x h => HO x (or_intror h)) Hc HL K1 A1 C1) as (s2 & S2 & F2 & I2 & B2 & R2).
      exists s2. split; [eapply star_trans; eauto|]. split; [eapply frame_trans; eauto|]. split; [congruence|]. split; [congruence|]. exact R2.
Qed.

(** A list of labelled ranges: jump to the first that matches, or fall through. *)
Fixpoint first_lab {A} (ts : list (cclass * A)) (c : N) : option A :=
  match ts with
  | [] => None
  | (cc, l) :: ts' => if includes cc c then Some l else first_lab ts' c
  end.
Lemma tests_run ts k : forall s c, (forall cc l, In (cc, l) ts -> proper cc /\ find_lab P l <> None) -> c < 256 ->
  pc s = flat_map (fun t => emit_ranges (fst t) (snd t)) ts ++ k -> rg s RAX = c -> rg s RCX = c ->
  exists s', star P e s s' /\ frame s s' /\ rg s' RSI = rg s RSI /\ rg s' RBX = rg s RBX /\
    match first_lab ts c with Some l => find_lab P l = Some (pc s') | None => pc s' = k end.
Proof.
  induction ts as [|[cc l] ts IH]; intros s c HO Hc HPC HA HC.
  - cbn in HPC. exists s. split; [constructor|]. split; [apply frame_refl|]. cbn. auto.
  - cbn [flat_map fst snd] in HPC. rewrite <- app_assoc in HPC.
    destruct (HO cc l (or_introl eq_refl)) as [Hr1 Hr2]. destruct (find_lab P l) as [kl|] eqn:HL; [|congruence].
    destruct (ranges_run cc l kl _ s c Hr1 Hc HL HPC HA HC) as (s1 & S1 & F1 & I1 & B1 & R1).
    cbn [first_lab]. destruct (includes cc c) eqn:E.
    + exists s1. repeat (split; [assumption|]). rewrite HL, R1. reflexivity.
    + destruct R1 as (K1 & A1 & C1).
      destruct (IH s1 c (fun x y h => HO x y (or_intror h)) Hc K1 A1 C1) as (s2 & S2 & F2 & I2 & B2 & R2).
      exists s2. split; [eapply star_trans; eauto|]. split; [eapply frame_trans; eauto|]. split; [congruence|]. split; [congruence|]. exact R2.
Qed.
End Exec.
