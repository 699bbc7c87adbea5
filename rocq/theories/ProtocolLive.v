From Coq Require Import List Arith Bool Lia Permutation.
From Verif Require Import Protocol ProtocolInv.
Import ListNotations.

Fixpoint sumW (f : nat -> nat) (W : nat) : nat := match W with 0 => 0 | S k => sumW f k + f k end.
Lemma sumW_upd f g W i : i < W -> (forall j, j <> i -> f j = g j) -> sumW f W + g i = sumW g W + f i.
Proof.
  induction W as [|W IH]; intros Hi H; [lia|]. cbn [sumW]. destruct (Nat.eq_dec i W) as [->|N].
  - assert (E : sumW f W = sumW g W).
    { clear IH Hi. assert (K : forall k, k <= W -> sumW f k = sumW g k).
      { induction k as [|k IH]; intros Hk; [reflexivity|]. cbn. rewrite IH, (H k) by lia. reflexivity. }
      apply K; lia. }
    lia.
  - rewrite (H W) by lia. specialize (IH ltac:(lia) H). lia.
Qed.

Section L.
Context {P R : Type}.
Variables n W K : nat.
Variable page : nat -> P.
Variable red : P -> R.
Hypothesis Kpos : 1 <= K.
Notation state := (state P R).
Notation stOf s i := (st (banks s i)).
Notation numOf s i := (num (banks s i)).
Notation Inv := (Inv n W K page red).
Notation step := (step n W K page red).

Definition wt2 (p : pc2 (R:=R)) : nat :=
  match p with Wait => 0 | Scan _ => 4 | Read2 _ => 3 | Write2 _ _ => 2 | Rel2 _ => 1 | End2 => 0 | Err2 => 0 end.
Definition wt3 (p : pc3) : nat :=
  match p with Scan3 _ | ScanD3 _ | Num3 _ | Lock3 _ => 1 | Merge3 _ => 3 | Rel3 _ => 2 | End3 => 0 | Err3 => 0 end.
Definition wt1 (p : pc1) (c : nat) : nat :=
  let E := 7 * n + 2 in
  match p with
  | Reset i => (S n - i) + 11 * (K - c) + E
  | Acq _ => 11 * (K - c) + E
  | Fill _ => 10 + 11 * (K - S c) + E
  | Fill2 _ => 9 + 11 * (K - S c) + E
  | RelNum _ => 8 + 11 * (K - S c) + E
  | RelSt _ => 7 + 11 * (K - c) + E
  | Post => 6 + 11 * (K - c) + E
  | ExScan _ _ => E
  | ExSt i => 1 + 7 * (n - i)
  | ExPost i => 7 * (n - i)
  | End1 => 0
  end.
Definition M (s : state) : nat :=
  wt1 (p1 s) (cnt1 s) + 5 * sem s + sumW (fun w => wt2 (p2 s w)) W + 3 * (K - cnt3 s) + wt3 (p3 s).

(** A step that changes nothing but the scan position of the thread that made it. *)
Record idle (t : thread) (s s' : state) : Prop := mkIdle {
  idb : banks s' = banks s; ids : sem s' = sem s; idc1 : cnt1 s' = cnt1 s; idc3 : cnt3 s' = cnt3 s;
  id1 : t <> T1 -> p1 s' = p1 s; id2 : forall w, t <> T2 w -> p2 s' w = p2 s w;
  id3 : t <> T3 -> p3 s' = p3 s; idM : M s' = M s }.

Lemma idle_refl t s : idle t s s.
Proof. constructor; auto. Qed.

Lemma wsum_upd (p : nat -> pc2 (R:=R)) w q : w < W ->
  sumW (fun v => wt2 (upd p w q v)) W + wt2 (p w) = sumW (fun v => wt2 (p v)) W + wt2 q.
Proof.
  intros Hw. pose proof (sumW_upd (fun v => wt2 (upd p w q v)) (fun v => wt2 (p v)) W w Hw) as U.
  cbn beta in U. rewrite upd_eq in U. apply U. intros j Hj. rewrite upd_ne by exact Hj. reflexivity.
Qed.

Lemma idle1 s i : M (set1 s (banks s) (sem s) i (cnt1 s)) = M s -> idle T1 s (set1 s (banks s) (sem s) i (cnt1 s)).
Proof. intros H. constructor; cbn; auto. congruence. Qed.
Lemma idle2 s w q : w < W -> wt2 q = wt2 (p2 s w) -> idle (T2 w) s (set2 s w (banks s) (sem s) q (processed s)).
Proof.
  intros Hw H. constructor; cbn; auto.
  - intros v Hv. apply upd_ne. congruence.
  - unfold M. cbn. pose proof (wsum_upd (p2 s) w q Hw). lia.
Qed.
Lemma idle3 s q : wt3 q = wt3 (p3 s) -> idle T3 s (set3 s (banks s) q (cnt3 s) (merged s)).
Proof. intros H. constructor; cbn; auto; try congruence. unfold M. cbn. lia. Qed.

Ltac mm1 E := unfold M, set1; cbn [p1 cnt1 sem p2 cnt3 p3]; rewrite E; unfold wt1.
Ltac mm3 E := unfold M, set3; cbn [p1 cnt1 sem p2 cnt3 p3]; rewrite E; unfold wt3.

Lemma progress t sp s : Inv s -> M (step t sp s) < M s \/ idle t s (step t sp s).
Proof.
  intros HI. pose proof (i1 _ _ _ _ _ _ HI) as J1. pose proof (i3 _ _ _ _ _ _ HI) as J3. pose proof (iC _ _ _ _ _ _ HI) as JC.
  destruct t as [|w|]; cbn [Protocol.step].
  - unfold step1. cbn zeta. unfold inv1 in J1.
    destruct (p1 s) as [i|i|b|b|b|b| |i c|i|i|] eqn:E1.
    + destruct (i <? n) eqn:Hi; left; mm1 E1;
        [apply Nat.ltb_lt in Hi|apply Nat.ltb_ge in Hi]; lia.
    + destruct (i <? n) eqn:Hi; [destruct (_ && _)|].
      * left. mm1 E1. lia.
      * right. apply idle1. unfold M; cbn; rewrite E1; reflexivity.
      * right. apply idle1. unfold M; cbn; rewrite E1; reflexivity.
    + left. mm1 E1. lia.
    + left. mm1 E1. lia.
    + left. mm1 E1. lia.
    + left. mm1 E1. lia.
    + left. mm1 E1. destruct (cnt1 s <? K); lia.
    + destruct (i <? n) eqn:Hi; [|destruct (c =? 0)].
      * right. apply idle1. unfold M; cbn; rewrite E1; reflexivity.
      * left. mm1 E1. lia.
      * right. apply idle1. unfold M; cbn; rewrite E1; reflexivity.
    + left. destruct (i <? n) eqn:Hi; mm1 E1; lia.
    + left. mm1 E1. lia.
    + right. apply idle_refl.
  - destruct (w <? W) eqn:Hw; [|right; apply idle_refl]. apply Nat.ltb_lt in Hw.
    unfold step2. cbn zeta. pose proof (fun q => wsum_upd (p2 s) w q Hw) as SU.
    destruct (p2 s w) as [|i|b|b r|b| |] eqn:E2; cbn [wt2] in SU.
    + destruct (sem s) as [|k] eqn:Es; [right; apply idle_refl|]. left.
      unfold M, set2; cbn [p1 cnt1 sem p2 cnt3 p3]. specialize (SU (Scan 0)). cbn [wt2] in SU. lia.
    + destruct (i <? n) eqn:Hi; [destruct (_ && _); [|destruct (bst_eqb _ Done)]|].
      * left. unfold M, set2; cbn [p1 cnt1 sem p2 cnt3 p3]. specialize (SU (Read2 i)). cbn [wt2] in SU. lia.
      * left. unfold M, set2; cbn [p1 cnt1 sem p2 cnt3 p3]. specialize (SU End2). cbn [wt2] in SU. lia.
      * right. apply idle2; [exact Hw|rewrite E2; reflexivity].
      * right. apply idle2; [exact Hw|rewrite E2; reflexivity].
    + left. destruct (data (banks s b)) as [|p|r]; unfold M, set2; cbn [p1 cnt1 sem p2 cnt3 p3].
      * specialize (SU Err2). cbn [wt2] in SU. lia.
      * specialize (SU (Write2 b (red p))). cbn [wt2] in SU. lia.
      * specialize (SU Err2). cbn [wt2] in SU. lia.
    + left. unfold M, set2; cbn [p1 cnt1 sem p2 cnt3 p3]. specialize (SU (Rel2 b)). cbn [wt2] in SU. lia.
    + left. unfold M, set2; cbn [p1 cnt1 sem p2 cnt3 p3]. specialize (SU Wait). cbn [wt2] in SU. lia.
    + right. apply idle_refl.
    + right. apply idle_refl.
  - unfold step3. cbn zeta. unfold inv3 in J3. destruct (p3 s) as [i|i|i|i|b|b| |] eqn:E3.
    + destruct (i <? n); [destruct (bst_eqb _ S2U)|]; right; apply idle3; rewrite E3; reflexivity.
    + destruct (bst_eqb _ Done); [left; mm3 E3; lia|].
      right; apply idle3; rewrite E3; reflexivity.
    + destruct (_ =? _); right; apply idle3; rewrite E3; reflexivity.
    + left. mm3 E3.
      destruct J3 as (A & B & C). pose proof (iB _ _ _ _ _ _ HI i A) as JB. rewrite B in JB. lia.
    + left. destruct (data (banks s b)); mm3 E3; lia.
    + left. mm3 E3; lia.
    + right. apply idle_refl.
    + right. apply idle_refl.
Qed.

(** ** A thread that will make progress if left alone *)
Definition dist (i j : nat) : nat := if i <=? j then j - i else if i <? n then (n - i) + 1 + j else S j.
Lemma dist_next i j : i < n -> j < n -> i <> j -> dist (S i) j < dist i j.
Proof.
  intros Hi Hj N. unfold dist.
  destruct (Nat.leb_spec i j), (Nat.leb_spec (S i) j), (Nat.ltb_spec i n), (Nat.ltb_spec (S i) n); lia.
Qed.
Lemma dist_wrap i j : n <= i -> j < n -> dist 0 j < dist i j.
Proof.
  intros Hi Hj. unfold dist. destruct (Nat.leb_spec i j), (Nat.leb_spec 0 j), (Nat.ltb_spec i n); lia.
Qed.
Lemma dist_self i : dist i i = 0.
Proof. unfold dist. rewrite Nat.leb_refl. lia. Qed.

Definition tgt3 (s : state) (j : nat) : Prop := stOf s j = Done \/ (stOf s j = S2U /\ numOf s j = cnt3 s).
Definition helps (t : thread) (r : nat) (s : state) : Prop :=
  match t with
  | T1 => match p1 s with
          | Acq i => exists j, j < n /\ stOf s j = Free /\ r = dist i j
          | ExScan i c => (forall j, j < n -> stOf s j = Free) /\ r = (if c =? 0 then n - i else (n - i) + S n)
          | End1 => False
          | _ => True
          end
  | T2 w => w < W /\
          match p2 s w with
          | Wait => sem s > 0
          | Scan i => exists j, j < n /\ (stOf s j = S1U \/ stOf s j = Done) /\ r = dist i j
          | End2 | Err2 => False
          | _ => True
          end
  | T3 => match p3 s with
          | Scan3 i => exists j, j < n /\ tgt3 s j /\ r = 3 * dist i j + 2
          | ScanD3 i => i < n /\ exists j, j < n /\ tgt3 s j /\ r = (if bst_eqb (stOf s i) Done then 1 else 3 * dist (S i) j + 3)
          | Num3 i => i < n /\ exists j, j < n /\ tgt3 s j /\ r = (if numOf s i =? cnt3 s then 1 else 3 * dist (S i) j + 3)
          | Lock3 i => r = 0
          | End3 | Err3 => False
          | _ => True
          end
  end.

Lemma helps_frozen t t' r s s' : t <> t' -> idle t' s s' -> helps t r s -> helps t r s'.
Proof.
  intros N [B S C1 C3 A1 A2 A3 _] H. destruct t as [|w|]; cbn [helps] in *.
  - rewrite A1 by congruence. rewrite B. exact H.
  - rewrite A2 by congruence. rewrite B, S. exact H.
  - unfold tgt3 in *. rewrite A3 by congruence. rewrite B, C3. exact H.
Qed.

Lemma bst_eqb_spec a b : Bool.reflect (a = b) (bst_eqb a b).
Proof. destruct (bst_eqb a b) eqn:E; constructor; [apply bst_eqb_true|apply bst_eqb_false]; exact E. Qed.

Ltac nouse1 ID E := let X := fresh in pose proof (idM _ _ _ ID) as X; unfold M, set1 in X; cbn [p1 cnt1 sem p2 cnt3 p3] in X;
  rewrite E in X; unfold wt1 in X; lia.

Lemma helps_step t r s : Inv s -> helps t r s ->
  M (step t false s) < M s \/ exists r', r' < r /\ helps t r' (step t false s).
Proof.
  intros HI H. destruct (progress t false s HI) as [L|ID]; [auto|].
  destruct t as [|w|]; cbn [helps Protocol.step] in *.
  - unfold step1 in *. cbn zeta in *. pose proof (i1 _ _ _ _ _ _ HI) as J1. unfold inv1 in J1.
    destruct (p1 s) as [i|i|b|b|b|b| |i c|i|i|] eqn:E1; try contradiction.
    + exfalso. destruct (i <? n); nouse1 ID E1.
    + destruct H as (j & Hj & Sj & ->). destruct (i <? n) eqn:Hi.
      * apply Nat.ltb_lt in Hi. rewrite andb_true_r in *. destruct (bst_eqb_spec (stOf s i) Free) as [E|E].
        -- exfalso. pose proof (idb _ _ _ ID) as X. cbn [banks set1] in X.
           assert (Y : set_st (banks s) i S1L i = banks s i) by (rewrite X; reflexivity).
           unfold set_st in Y. rewrite upd_eq in Y. rewrite <- Y in E. discriminate.
        -- right. exists (dist (S i) j). split; [apply dist_next; auto; intros ->; contradiction|].
           cbn. exists j. auto.
      * apply Nat.ltb_ge in Hi. right. exists (dist 0 j). split; [apply dist_wrap; auto|]. cbn. exists j. auto.
    + exfalso. nouse1 ID E1.
    + exfalso. nouse1 ID E1.
    + exfalso. nouse1 ID E1.
    + exfalso. nouse1 ID E1.
    + exfalso. destruct (cnt1 s <? K); nouse1 ID E1.
    + destruct H as [AF ->]. destruct (i <? n) eqn:Hi.
      * apply Nat.ltb_lt in Hi. rewrite (AF i Hi) in *. cbn [bst_eqb] in *. right.
        eexists. split; [|cbn; split; [exact AF|reflexivity]]. destruct (c =? 0); lia.
      * apply Nat.ltb_ge in Hi. destruct (c =? 0) eqn:Hc.
        -- exfalso. pose proof (idM _ _ _ ID) as X. unfold M, set1 in X. cbn [p1 cnt1 sem p2 cnt3 p3] in X. rewrite E1 in X.
           unfold wt1 in X. lia.
        -- right. eexists. split; [|cbn; split; [exact AF|reflexivity]]. cbn. lia.
    + exfalso. destruct (i <? n); nouse1 ID E1.
    + exfalso. nouse1 ID E1.
  - destruct H as [Hw H]. assert (Hw' : (w <? W) = true) by (apply Nat.ltb_lt; exact Hw). rewrite Hw' in *.
    unfold step2 in *. cbn zeta in *. pose proof (fun q => wsum_upd (p2 s) w q Hw) as SU.
    destruct (p2 s w) as [|i|b|b r0|b| |] eqn:E2; try contradiction; cbn [wt2] in SU.
    + destruct (sem s) as [|k] eqn:Es; [lia|]. exfalso. pose proof (ids _ _ _ ID) as X. cbn in X. lia.
    + destruct H as (j & Hj & Sj & ->). destruct (i <? n) eqn:Hi.
      * apply Nat.ltb_lt in Hi. rewrite andb_true_r in *. destruct (bst_eqb_spec (stOf s i) S1U) as [E|E].
        -- exfalso. pose proof (idb _ _ _ ID) as X. cbn [banks set2] in X.
           assert (Y : set_st (banks s) i S2L i = banks s i) by (rewrite X; reflexivity).
           unfold set_st in Y. rewrite upd_eq in Y. rewrite <- Y in E. discriminate.
        -- destruct (bst_eqb_spec (stOf s i) Done) as [E'|E'].
           ++ exfalso. pose proof (idM _ _ _ ID) as X. unfold M, set2 in X; cbn [p1 cnt1 sem p2 cnt3 p3] in X.
              specialize (SU End2). cbn [wt2] in SU. lia.
           ++ right. exists (dist (S i) j). split; [apply dist_next; auto; intros ->; intuition|].
              cbn. rewrite upd_eq. split; [exact Hw|]. exists j. auto.
      * apply Nat.ltb_ge in Hi. right. exists (dist 0 j). split; [apply dist_wrap; auto|].
        cbn. rewrite upd_eq. split; [exact Hw|]. exists j. auto.
    + exfalso. pose proof (idM _ _ _ ID) as X. destruct (data (banks s b)) as [|p|r1]; unfold M, set2 in X; cbn [p1 cnt1 sem p2 cnt3 p3] in X;
        [specialize (SU Err2)|specialize (SU (Write2 b (red p)))|specialize (SU Err2)]; cbn [wt2] in SU; lia.
    + exfalso. pose proof (idM _ _ _ ID) as X. unfold M, set2 in X; cbn [p1 cnt1 sem p2 cnt3 p3] in X. specialize (SU (Rel2 b)). cbn [wt2] in SU. lia.
    + exfalso. pose proof (idM _ _ _ ID) as X. unfold M, set2 in X; cbn [p1 cnt1 sem p2 cnt3 p3] in X. specialize (SU Wait). cbn [wt2] in SU. lia.
  - unfold step3 in *. cbn zeta in *. pose proof (i3 _ _ _ _ _ _ HI) as J3. unfold inv3 in J3.
    destruct (p3 s) as [i|i|i|i|b|b| |] eqn:E3; try contradiction.
    + destruct H as (j & Hj & Tj & ->). destruct (i <? n) eqn:Hi.
      * apply Nat.ltb_lt in Hi. right. destruct (bst_eqb_spec (stOf s i) S2U) as [E|E].
        -- eexists. split; [|cbn [helps set3 p3 banks cnt3]; split; [exact Hi|]; exists j; split; [exact Hj|]; split; [exact Tj|reflexivity]].
           destruct (Nat.eqb_spec (numOf s i) (cnt3 s)) as [Q|Q]; [lia|].
           assert (i <> j) by (intros ->; destruct Tj as [X|X]; [congruence|tauto]).
           pose proof (dist_next i j Hi Hj H). lia.
        -- eexists. split; [|cbn [helps set3 p3 banks cnt3]; split; [exact Hi|]; exists j; split; [exact Hj|]; split; [exact Tj|reflexivity]].
           destruct (bst_eqb_spec (stOf s i) Done) as [Q|Q]; [lia|].
           assert (i <> j) by (intros ->; destruct Tj as [X|X]; [congruence|tauto]).
           pose proof (dist_next i j Hi Hj H). lia.
      * apply Nat.ltb_ge in Hi. right. eexists. split; [|cbn [helps set3 p3 banks cnt3]; exists j; split; [exact Hj|]; split; [exact Tj|reflexivity]].
        pose proof (dist_wrap i j Hi Hj). lia.
    + destruct H as (Hi & j & Hj & Tj & ->). destruct (bst_eqb_spec (stOf s i) Done) as [E|E].
      * exfalso. pose proof (idM _ _ _ ID) as X. unfold M, set3 in X; cbn [p1 cnt1 sem p2 cnt3 p3] in X. rewrite E3 in X. cbn [wt3] in X. lia.
      * right. eexists. split; [|cbn [helps set3 p3 banks cnt3]; exists j; split; [exact Hj|]; split; [exact Tj|reflexivity]]. lia.
    + destruct H as (Hi & j & Hj & Tj & ->). destruct (Nat.eqb_spec (numOf s i) (cnt3 s)) as [E|E].
      * right. exists 0. cbn. split; [lia|reflexivity].
      * right. eexists. split; [|cbn [helps set3 p3 banks cnt3]; exists j; split; [exact Hj|]; split; [exact Tj|reflexivity]]. lia.
    + exfalso. pose proof (idc3 _ _ _ ID) as X. cbn in X. lia.
    + exfalso. pose proof (idM _ _ _ ID) as X. destruct (data (banks s b)); unfold M, set3 in X; cbn [p1 cnt1 sem p2 cnt3 p3] in X; rewrite E3 in X; cbn [wt3] in X; lia.
    + exfalso. pose proof (idM _ _ _ ID) as X. unfold M, set3 in X; cbn [p1 cnt1 sem p2 cnt3 p3] in X. rewrite E3 in X. cbn [wt3] in X. lia.
Qed.

Lemma all_or_ex (f : nat -> bool) k : (forall i, i < k -> f i = true) \/ exists i, i < k /\ f i = false.
Proof.
  induction k as [|k [IH|(i & Hi & IH)]].
  - left. intros; lia.
  - destruct (f k) eqn:E; [left|right; exists k; auto]. intros i Hi. destruct (Nat.eq_dec i k) as [->|]; [exact E|apply IH; lia].
  - right. exists i; auto.
Qed.

Definition isEnd (p : pc2 (R:=R)) : bool := match p with End2 => true | _ => false end.
Lemma final_dec (s : state) : final W s \/ ~ final W s.
Proof.
  unfold final. destruct (p1 s); try (right; intros (H & _); discriminate).
  destruct (p3 s); try (right; intros (_ & _ & H); discriminate).
  destruct (all_or_ex (fun w => isEnd (p2 s w)) W) as [H|(w & Hw & H)].
  - left. split; [reflexivity|]. split; [|reflexivity]. intros w Hw. specialize (H w Hw). cbn in H. destruct (p2 s w); try discriminate. reflexivity.
  - right. intros (_ & A & _). cbn in H. rewrite (A w Hw) in H. discriminate.
Qed.

Hypothesis Wpos : 1 <= W.
Hypothesis Wn : W <= n.

Lemma helper_exists s : Inv s -> ~ final W s -> exists t r, helps t r s.
Proof.
  intros HI NF. pose proof HI as [J1 J2 J2d J3 JB JE JD JF JC JG1 JG2 JG3 JJ JJ2].
  (* a worker that owns a bank *)
  destruct (all_or_ex (fun w => match p2 s w with Read2 _ | Write2 _ _ | Rel2 _ => false | _ => true end) W) as [NW|(w & Hw & OW)].
  2:{ exists (T2 w), 0. cbn. split; [exact Hw|]. destruct (p2 s w); try discriminate; exact I. }
  (* stage 3 active *)
  assert (C3 : (exists r, helps T3 r s) \/ ((forall i, i < n -> stOf s i <> S3L) /\
     (forall j, j < n -> tgt3 s j -> p3 s <> End3 -> exists r, helps T3 r s))).
  { cbn [helps]. unfold inv3 in J3. destruct (p3 s) as [i3|i3|i3|i3|b3|b3| |] eqn:E3; try (left; exists 0; exact I); try contradiction.
    4: left; exists 0; reflexivity.
    all: right; split; [intros i Hi E; specialize (JB i Hi); rewrite E in JB; cbn [owns] in JB; rewrite E3 in JB; destruct JB; discriminate|].
    all: intros j Hj Tj NE; try congruence; eexists.
    - exists j; split; [exact Hj|]; split; [exact Tj|reflexivity].
    - split; [exact J3|]; exists j; split; [exact Hj|]; split; [exact Tj|reflexivity].
    - split; [exact (proj1 J3)|]; exists j; split; [exact Hj|]; split; [exact Tj|reflexivity]. }
  destruct C3 as [[r C3]|[NO3 H3]]; [exists T3, r; exact C3|].
  assert (NO2 : forall i, i < n -> stOf s i <> S2L).
  { intros i Hi E; specialize (JB i Hi); rewrite E in JB; destruct JB as [(w & Hw & A) _]; specialize (NW w Hw); cbn in NW;
     destruct A as [A|[[r A]|A]]; rewrite A in NW; discriminate. }
  (* workers once something is visible to them *)
  assert (HW : (exists j, j < n /\ (stOf s j = S1U \/ stOf s j = Done)) ->
     sem s + count (isScan (p2 s)) W > 0 -> (exists w, w < W /\ p2 s w = Wait) \/ count (isScan (p2 s)) W > 0 -> exists t r, helps t r s).
  { intros (j & Hj & Sj) HS HX. destruct (Nat.eq_dec (count (isScan (p2 s)) W) 0) as [Z|Z].
    - destruct HX as [(w & Hw & E)|X]; [|lia]. exists (T2 w), 0. cbn. rewrite E. split; [exact Hw|lia].
    - destruct (count_pos (isScan (p2 s)) W) as (w & Hw & E); [lia|]. unfold isScan in E.
      exists (T2 w). cbn. destruct (p2 s w) as [|i| | | | |] eqn:E2; try discriminate.
      eexists. split; [exact Hw|]. exists j. auto. }
  assert (HN : forall w, w < W -> p2 s w = Wait \/ (exists i, p2 s w = Scan i) \/ p2 s w = End2).
  { intros w Hw. specialize (NW w Hw). specialize (J2 w Hw). cbn in NW. destruct (p2 s w); try discriminate; eauto; contradiction. }
  assert (NE0 : ~ exiting s -> (exists i, i < n /\ stOf s i = S1U) -> p1 s <> Post -> exists t r, helps t r s).
  { intros NX (i & Hi & Si) NP. apply HW.
    - exists i. auto.
    - assert (count (isS1U s) n > 0).
      { destruct (count (isS1U s) n) eqn:Z; [|lia]. rewrite count_zero in Z. specialize (Z i Hi). unfold isS1U in Z. rewrite Si in Z. discriminate. }
      destruct (count (isEnd2 (p2 s)) W) eqn:Z; [|exfalso; apply NX; apply JJ2; lia].
      unfold exiting in NX. destruct (p1 s); try congruence; try lia; exfalso; apply NX; exact I.
    - destruct (HN 0) as [E|[[x E]|E]]; [lia|left; exists 0; split; [lia|exact E]| |].
      + right. destruct (count (isScan (p2 s)) W) eqn:Z; [|lia]. rewrite count_zero in Z. specialize (Z 0 ltac:(lia)). unfold isScan in Z. rewrite E in Z. discriminate.
      + exfalso. apply NX. apply JJ2. destruct (count (isEnd2 (p2 s)) W) eqn:Z; [|lia]. rewrite count_zero in Z.
        specialize (Z 0 ltac:(lia)). unfold isEnd2 in Z. rewrite E in Z. discriminate. }
  assert (N3 : ~ exiting s -> p3 s <> End3) by (intros NX E; apply NX; unfold inv3 in J3; rewrite E in J3; exact J3).
  (* before the exit phase, with stage 1 scanning *)
  assert (G : (match p1 s with Acq _ | ExScan _ _ => True | _ => False end) -> (forall i, i < n -> stOf s i = Free) \/ exists t r, helps t r s).
  { intros Q. assert (NX : ~ exiting s) by (unfold exiting; destruct (p1 s); auto).
    destruct (all_or_ex (fun i => bst_eqb (stOf s i) Free) n) as [AF|(i & Hi & NFi)].
    { left. intros i Hi. apply bst_eqb_true. apply AF; exact Hi. }
    right. cbn in NFi. apply bst_eqb_false in NFi.
    destruct (all_or_ex (fun i => negb (bst_eqb (stOf s i) S1U)) n) as [AU|(u & Hu & NU)].
    - assert (S2 : forall j, j < n -> stOf s j = Free \/ stOf s j = S2U).
      { intros j Hj. specialize (AU j Hj). specialize (NO2 j Hj). specialize (NO3 j Hj). specialize (JB j Hj). cbn in AU.
        destruct (stOf s j); cbn in AU; try discriminate; try congruence; auto.
        cbn [owns] in JB. destruct JB as [X|[X|[X|X]]]; rewrite X in Q; destruct Q. }
      destruct (S2 i Hi) as [E|E]; [congruence|]. pose proof (JB i Hi) as JBi. rewrite E in JBi.
      destruct (JE (cnt3 s)) as (j & Hj & Pj & Nj); [lia|].
      destruct (H3 j Hj) as [r Hr]; [|apply N3; exact NX|exists T3, r; exact Hr].
      right. split; [|exact Nj]. destruct (S2 j Hj) as [X|X]; [|exact X]. exfalso.
      unfold pend in Pj. rewrite X in Pj. destruct Pj as [Y|[Y|[Y|Y]]]; try discriminate. rewrite Y in Q. exact Q.
    - cbn in NU. apply negb_false_iff, bst_eqb_true in NU. apply NE0; [exact NX|eauto|].
      intros E. rewrite E in Q. exact Q. }
  destruct (p1 s) as [i|i|b|b|b|b| |i c|i|i|] eqn:E1; try (exists T1, 0; cbn; rewrite E1; exact I).
  - destruct (G I) as [AF|X]; [|exact X]. exists T1. cbn. rewrite E1. eexists. exists 0. split; [lia|]. split; [apply AF; lia|reflexivity].
  - destruct (G I) as [AF|X]; [|exact X]. exists T1. cbn. rewrite E1. eexists. split; [exact AF|reflexivity].
  - (* End1 *)
    unfold inv1 in J1. rewrite E1 in J1. destruct J1 as [_ AD].
    assert (D3 : p3 s = End3 \/ exists t r, helps t r s).
    { destruct (p3 s) eqn:E3; try (right; destruct (H3 0) as [r Hr]; [lia|left; apply AD; lia|congruence|exists T3, r; exact Hr]).
      left. reflexivity. }
    destruct D3 as [D3|X]; [|exact X].
    destruct (all_or_ex (fun w => isEnd (p2 s w)) W) as [AE|(w & Hw & NEw)].
    { exfalso. apply NF. split; [exact E1|]. split; [|exact D3]. intros w Hw. specialize (AE w Hw). cbn in AE.
      destruct (p2 s w); try discriminate. reflexivity. }
    apply HW.
    + exists 0. split; [lia|]. right. apply AD. lia.
    + assert (count (isEnd2 (p2 s)) W < W).
      { clear -Hw NEw. assert (L : forall k, w < k -> count (isEnd2 (p2 s)) k < k).
        { induction k as [|k IH]; intros Hk; [lia|]. rewrite count_S. destruct (Nat.eq_dec w k) as [->|N].
          - unfold isEnd2 at 2. unfold isEnd in NEw. rewrite NEw. pose proof (count_le (isEnd2 (p2 s)) k). lia.
          - specialize (IH ltac:(lia)). destruct (isEnd2 (p2 s) k); lia. }
        apply L; exact Hw. }
      lia.
    + destruct (HN w Hw) as [E|[[x E]|E]]; [left; eauto| |rewrite E in NEw; discriminate].
      right. destruct (count (isScan (p2 s)) W) eqn:Z; [|lia]. rewrite count_zero in Z. specialize (Z w Hw). unfold isScan in Z. rewrite E in Z. discriminate.
Qed.

(** ** Fair schedules terminate *)
Variable sched : nat -> thread.
Hypothesis fair : forall t, (match t with T2 w => w < W | _ => True end) -> forall i, exists j, i <= j /\ sched j = t.
Fixpoint trace (s0 : state) (i : nat) : state :=
  match i with 0 => s0 | S k => step (sched k) false (trace s0 k) end.

Lemma thread_eq_dec (a b : thread) : {a = b} + {a <> b}.
Proof. decide equality. apply Nat.eq_dec. Qed.

Lemma trace_inv s0 i : Inv s0 -> Inv (trace s0 i).
Proof. intros H. induction i; [exact H|]. cbn [trace]. apply step_inv; assumption. Qed.

Lemma wait_sched s0 t d : forall i r, Inv s0 -> sched (i + d) = t -> helps t r (trace s0 i) ->
  exists k, i <= k /\ (M (trace s0 k) < M (trace s0 i) \/ (M (trace s0 k) = M (trace s0 i) /\ exists r', r' < r /\ helps t r' (trace s0 k))).
Proof.
  induction d as [|d IH]; intros i r H0 Hs Hh.
  - rewrite Nat.add_0_r in Hs. pose proof (trace_inv s0 i H0) as HI.
    exists (S i). split; [lia|]. cbn [trace]. rewrite Hs.
    destruct (progress t false _ HI) as [L|ID]; [auto|].
    destruct (helps_step t r _ HI Hh) as [L|L]; [auto|]. right. split; [apply (idM _ _ _ ID)|exact L].
  - pose proof (trace_inv s0 i H0) as HI. destruct (thread_eq_dec (sched i) t) as [E|E].
    + exists (S i). split; [lia|]. cbn [trace]. rewrite E.
      destruct (progress t false _ HI) as [L|ID]; [auto|].
      destruct (helps_step t r _ HI Hh) as [L|L]; [auto|]. right. split; [apply (idM _ _ _ ID)|exact L].
    + destruct (progress (sched i) false _ HI) as [L|ID]; [exists (S i); cbn [trace]; auto|].
      destruct (IH (S i) r H0) as (k & Hk & X).
      * replace (S i + d) with (i + S d) by lia. exact Hs.
      * cbn [trace]. eapply helps_frozen; [|exact ID|exact Hh]. congruence.
      * exists k. split; [lia|]. change (trace s0 (S i)) with (step (sched i) false (trace s0 i)) in X.
        rewrite (idM _ _ _ ID) in X. exact X.
Qed.

Lemma helped s0 t r : forall i, Inv s0 -> helps t r (trace s0 i) -> exists k, i <= k /\ M (trace s0 k) < M (trace s0 i).
Proof.
  induction r as [r IH] using (well_founded_induction lt_wf). intros i H0 Hh.
  destruct (fair t) with (i := i) as (j & Hj & Hs).
  { destruct t as [|w|]; auto. exact (proj1 Hh). }
  destruct (wait_sched s0 t (j - i) i r H0) as (k & Hk & X); [replace (i + (j - i)) with j by lia; exact Hs|exact Hh|].
  destruct X as [L|(E & r' & Hr & Hh')]; [exists k; auto|].
  destruct (IH r' Hr k H0 Hh') as (k' & Hk' & L). exists k'. split; [lia|]. lia.
Qed.

Theorem terminates s0 : Inv s0 -> exists N, final W (trace s0 N).
Proof.
  intros H0. assert (X : forall m i, M (trace s0 i) <= m -> exists N, final W (trace s0 N)).
  { induction m as [|m IH]; intros i Hm.
    - destruct (final_dec (trace s0 i)) as [F|F]; [eauto|].
      destruct (helper_exists _ (trace_inv s0 i H0) F) as (t & r & Hh).
      destruct (helped s0 t r i H0 Hh) as (k & _ & L). lia.
    - destruct (final_dec (trace s0 i)) as [F|F]; [eauto|].
      destruct (helper_exists _ (trace_inv s0 i H0) F) as (t & r & Hh).
      destruct (helped s0 t r i H0 Hh) as (k & _ & L). apply (IH k). lia. }
  apply (X (M (trace s0 0)) 0). lia.
Qed.
End L.
