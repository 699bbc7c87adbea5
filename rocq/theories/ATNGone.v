(** * Which nodes drop_passthrough removes, and which priorities are lost with them (proofs for C31) *)
From Coq Require Import List NArith Arith Bool Lia.
From Verif Require Import CharClass NFA NFAProofs GrammarSpec ATN ATNSem ATNBuild ATNOpt DrawAtnNet.
Import ListNotations.
Local Open Scope nat_scope.

(** ** Sums *)
Fixpoint sumf (f : nat -> nat) (n : nat) : nat := match n with O => 0 | S n => sumf f n + f n end.
Lemma sumf_ext f g n : (forall i, i < n -> f i = g i) -> sumf f n = sumf g n.
Proof. induction n as [|n IH]; intros H; [reflexivity|]. cbn [sumf]. rewrite IH by (intros; apply H; lia). rewrite (H n) by lia. reflexivity. Qed.
Lemma sumf_point f g n o : o < n -> (forall i, i <> o -> f i = g i) -> sumf f n + g o = sumf g n + f o.
Proof.
  induction n as [|n IH]; intros H E; [lia|]. cbn [sumf]. destruct (Nat.eq_dec o n) as [->|NE].
  - rewrite (sumf_ext f g n) by (intros i Hi; apply E; lia). lia.
  - specialize (IH ltac:(lia) E). rewrite (E n) by lia. lia.
Qed.
Lemma sumf_two f g n o k : o < n -> k < n -> o <> k -> (forall i, i <> o -> i <> k -> f i = g i) -> sumf f n + g o + g k = sumf g n + f o + f k.
Proof.
  intros Ho Hk NE E. set (h := fun i => if i =? o then g i else f i).
  pose proof (sumf_point f h n o Ho) as A. pose proof (sumf_point h g n k Hk) as B. unfold h in *. rewrite Nat.eqb_refl in A.
  rewrite (proj2 (Nat.eqb_neq k o)) in B by lia. specialize (A ltac:(intros i Hi; rewrite (proj2 (Nat.eqb_neq i o)) by exact Hi; reflexivity)).
  specialize (B ltac:(intros i Hi; destruct (i =? o) eqn:X; [apply Nat.eqb_eq in X; subst i; reflexivity|apply Nat.eqb_neq in X; apply E; assumption])). lia.
Qed.
Lemma sumf_list f n : sumf f n = list_sum (map f (seq 0 n)).
Proof. induction n as [|n IH]; [reflexivity|]. cbn [sumf]. rewrite seq_S, map_app, list_sum_app, IH. cbn. lia. Qed.
Lemma sumf_in f n i : i < n -> f i <= sumf f n.
Proof. induction n as [|n IH]; intros H; [lia|]. cbn [sumf]. destruct (Nat.eq_dec i n) as [->|N0]; [lia|]. specialize (IH ltac:(lia)). lia. Qed.
Lemma sumf_pos f n : 0 < sumf f n -> exists i, i < n /\ 0 < f i.
Proof. induction n as [|n IH]; intros H; [cbn in H; lia|]. cbn [sumf] in H. destruct (f n) eqn:E; [destruct (IH ltac:(lia)) as (i & A & B); exists i; split; [lia|exact B]|exists n; lia]. Qed.

(** ** How many transitions enter a node *)
Definition into (M : atn) (i p : nat) : nat := length (filter (fun t : nat * nat => fst t =? i) (edges M p)).
Definition indeg (M : atn) (i : nat) : nat := sumf (into M i) (length M).
Lemma into_pos M i p : 0 < into M i p <-> exists t, In (i, t) (edges M p).
Proof.
  unfold into. split.
  - destruct (filter _ _) as [|[d t] l] eqn:E; [cbn; lia|]. intros _. exists t. assert (H : In (d, t) (filter (fun t => fst t =? i) (edges M p))) by (rewrite E; left; reflexivity).
    apply filter_In in H as [H1 H2]. cbn in H2. apply Nat.eqb_eq in H2. subst d. exact H1.
  - intros [t H]. assert (K : In (i, t) (filter (fun t => fst t =? i) (edges M p))) by (apply filter_In; split; [exact H|apply Nat.eqb_refl]). destruct (filter _ _); [destruct K|cbn; lia].
Qed.
Lemma incoming_indeg M i : length (incoming M i) = indeg M i.
Proof.
  unfold incoming, indeg. rewrite sumf_list. induction (seq 0 (length M)) as [|p l IH]; [reflexivity|]. cbn [flat_map map list_sum fold_right]. rewrite app_length, map_length, IH. reflexivity.
Qed.
Lemma sole M i p : incoming M i = [p] <-> indeg M i = 1 /\ exists t, In (i, t) (edges M p).
Proof.
  rewrite <- incoming_indeg. split.
  - intros E. split; [rewrite E; reflexivity|]. apply in_incoming. rewrite E. left. reflexivity.
  - intros [L H]. apply in_incoming in H. destruct (incoming M i) as [|x [|y l]]; try discriminate. destruct H as [->|[]]. reflexivity.
Qed.
Lemma edge_lt M p e : In e (edges M p) -> p < length M.
Proof. intros H. destruct (Nat.lt_ge_cases p (length M)); [assumption|]. rewrite to_out in H by assumption. destruct H. Qed.
Lemma indeg_upd M q d t i : q < length M -> indeg (upd_nth M q (add_atr d t)) i = indeg M i + (if i =? d then 1 else 0).
Proof.
  intros H. unfold indeg. rewrite upd_len. pose proof (sumf_point (into (upd_nth M q (add_atr d t)) i) (into M i) (length M) q H) as P.
  assert (E : forall p, into (upd_nth M q (add_atr d t)) i p = into M i p + (if p =? q then if i =? d then 1 else 0 else 0)).
  { intros p. unfold into. rewrite edges_upd by exact H. rewrite filter_app, app_length. f_equal. destruct (p =? q); [|reflexivity]. cbn. rewrite (Nat.eqb_sym d i). destruct (i =? d); reflexivity. }
  specialize (P ltac:(intros p Hp; rewrite E, (proj2 (Nat.eqb_neq p q) Hp); lia)). rewrite E, Nat.eqb_refl in P. lia.
Qed.
Lemma indeg_snoc M n i : indeg (M ++ [mkA n []]) i = indeg M i.
Proof.
  unfold indeg. rewrite app_length, Nat.add_1_r. cbn [sumf]. unfold into at 2. rewrite edges_snoc, to_out by lia. cbn [blank atrs filter length]. rewrite Nat.add_0_r. apply sumf_ext. intros p _. unfold into. rewrite edges_snoc. reflexivity.
Qed.
Lemma indeg_add M q t i : q < length M -> indeg (add_node M q t) i = indeg M i + (if i =? length M then 1 else 0).
Proof. intros H. unfold add_node. change blank with (mkA NBlank []). rewrite indeg_snoc. apply indeg_upd. exact H. Qed.
Lemma indeg_push M n i : 1 <= length M -> indeg (push_node M n) i = indeg M i + (if i =? length M then 1 else 0).
Proof. intros H. unfold push_node. rewrite indeg_snoc. apply indeg_upd. lia. Qed.
Lemma indeg_out M i : closed M -> length M <= i -> indeg M i = 0.
Proof.
  intros C H. destruct (indeg M i) eqn:E; [reflexivity|]. exfalso. destruct (sumf_pos (into M i) (length M)) as (p & _ & P); [unfold indeg in E; lia|]. apply into_pos in P as [t P].
  specialize (C p i ltac:(apply in_dests; eauto)). lia.
Qed.

(** ** Network level *)
(** A node is gone if it does nothing, one transition enters it, and its predecessor is not gone; the last node stays. *)
Definition gone_in (M : atn) (g : nat -> bool) : Prop :=
  forall i, g i = true <-> 1 <= i < length M - 1 /\ nt (tonode M i) = NBlank /\ exists p, incoming M i = [p] /\ g p = false.
Section Gone.
Variables (M : atn) (g : nat -> bool).
Hypothesis HB : backed M.
Hypothesis HC : closed M.
Hypothesis HG : gone_in M g.
Lemma pred_lt i p : 1 <= i < length M -> incoming M i = [p] -> p < i.
Proof. intros Hi E. destruct (HB i Hi) as (j & J1 & J2). apply in_dests in J2. apply in_incoming in J2. rewrite E in J2. destruct J2 as [->|[]]. exact J1. Qed.
(** Transitions with tag t, from nodes that stay to nodes that stay. *)
Definition tcount (N : atn) (m : nat -> bool) (t p : nat) : nat := if m p then length (filter (fun e : nat * nat => (snd e =? t) && m (fst e)) (edges N p)) else 0.
Definition total (N : atn) (m : nat -> bool) (t : nat) : nat := sumf (tcount N m t) (length N).
(** Those into gone nodes smaller than k. *)
Definition lost (t k : nat) : nat := sumf (fun i => if g i then sumf (fun p => length (filter (fun e : nat * nat => (fst e =? i) && (snd e =? t)) (edges M p))) (length M) else 0) k.
Definition stays (k p : nat) : bool := (p <? length M) && negb ((p <? k) && g p).
Record at_step (k : nat) (N : atn) (mask : list bool) : Prop := {
  as_len : length N = length M; as_mlen : length mask = length M; as_mask : forall p, maskf mask p = stays k p;
  as_nt : forall i, nt (tonode N i) = nt (tonode M i);
  as_in : forall i p, k <= i -> (incoming N i = [p] <-> incoming M i = [p] /\ (k <= p \/ g p = false));
  as_old : forall p e, In e (edges M p) -> In e (edges N p);
  as_new : forall p j t, In (j, t) (edges N p) -> exists q, In (j, t) (edges M q);
  as_cnt : forall t, total M (stays 0) t = total N (stays k) t + lost t k }.
Lemma filter_len_split {A} (f h : A -> bool) l : length (filter f l) = length (filter (fun x => f x && h x) l) + length (filter (fun x => f x && negb (h x)) l).
Proof. induction l as [|x l IH]; [reflexivity|]. cbn [filter]. destruct (f x), (h x); cbn [andb negb length]; lia. Qed.
Lemma filter_len_ext {A} (f h : A -> bool) l : (forall x, In x l -> f x = h x) -> length (filter f l) = length (filter h l).
Proof.
  induction l as [|x l IH]; intros H; [reflexivity|]. cbn [filter]. rewrite (H x (or_introl eq_refl)). specialize (IH (fun y Hy => H y (or_intror Hy))). destruct (h x); cbn [length]; congruence.
Qed.
Lemma single_edge N i p t : indeg N i = 1 -> In (i, t) (edges N p) -> forall u q, In (i, u) (edges N q) -> q = p /\ u = t.
Proof.
  intros D H u q K. assert (X : incoming N i = [p]) by (apply sole; split; [exact D|eauto]). assert (q = p) as ->.
  { assert (Y : In q (incoming N i)) by (apply in_incoming; eauto). rewrite X in Y. destruct Y as [Y|[]]. auto. }
  split; [reflexivity|]. assert (L : into N i p <= 1) by (rewrite <- D; apply (sumf_in (into N i)); eapply edge_lt; exact H).
  unfold into in L. assert (A : In (i, t) (filter (fun t => fst t =? i) (edges N p))) by (apply filter_In; split; [exact H|apply Nat.eqb_refl]).
  assert (B : In (i, u) (filter (fun t => fst t =? i) (edges N p))) by (apply filter_In; split; [exact K|apply Nat.eqb_refl]).
  destruct (filter _ _) as [|x [|y l]]; [destruct A| |cbn in L; lia]. destruct A as [->|[]]. destruct B as [B|[]]. congruence.
Qed.
Lemma at_start : at_step 1 M (repeat true (length M)).
Proof.
  assert (G0 : g 0 = false) by (destruct (g 0) eqn:E; [apply HG in E; lia|reflexivity]).
  assert (S1 : forall p, stays 1 p = stays 0 p).
  { intros p. unfold stays. destruct p as [|p]; [rewrite G0; reflexivity|reflexivity]. }
  split; auto.
  - apply repeat_length.
  - intros p. rewrite S1. unfold stays. change (p <? 0) with false. cbn [andb negb]. rewrite andb_true_r. unfold maskf. destruct (p <? length M) eqn:Ep; [apply Nat.ltb_lt in Ep|apply Nat.ltb_ge in Ep; apply nth_overflow; rewrite repeat_length; exact Ep].
    revert p Ep. generalize (length M). intros n. induction n as [|n IH]; intros p Ep; [lia|]. destruct p as [|p]; [reflexivity|]. cbn. apply IH. lia.
  - intros i p Hi. split; [|tauto]. intros E. split; [exact E|]. destruct p; [right; exact G0|left; lia].
  - intros p j t H. exists p. exact H.
  - intros t. unfold lost. cbn [sumf]. rewrite G0, !Nat.add_0_r. unfold total. apply sumf_ext. intros p _. unfold tcount. rewrite S1. destruct (stays 0 p); [|reflexivity]. apply filter_len_ext. intros e _. rewrite S1. reflexivity.
Qed.
Lemma step_next k N mask : at_step k N mask -> 1 <= k -> k < length M - 1 ->
  exists N' mask', drop_step (Some (N, mask)) k = Some (N', mask') /\ at_step (S k) N' mask'.
Proof.
  intros [L ML MK NT IN OLD NEW CNT] K1 K2. cbn [drop_step]. fold (tonode N k).
  assert (KEEP : g k = false -> at_step (S k) N mask).
  { intros GK. assert (SS : forall p, stays (S k) p = stays k p).
    { intros p. unfold stays. destruct (Nat.eq_dec p k) as [->|NE]; [rewrite GK, !andb_false_r; reflexivity|]. replace (p <? S k) with (p <? k); [reflexivity|]. destruct (Nat.ltb_spec p k), (Nat.ltb_spec p (S k)); try reflexivity; lia. }
    split; auto.
    - intros p. rewrite SS. apply MK.
    - intros i p Hi. rewrite IN by lia. split; intros [A B]; (split; [exact A|]).
      + destruct B as [B|B]; [|auto]. destruct (Nat.eq_dec p k) as [->|NE]; [auto|left; lia].
      + destruct B as [B|B]; [left; lia|auto].
    - intros t. rewrite CNT. unfold lost. cbn [sumf]. rewrite GK, Nat.add_0_r. f_equal. unfold total. apply sumf_ext. intros p _. unfold tcount. rewrite SS. destruct (stays k p); [|reflexivity]. apply filter_len_ext. intros e _. rewrite SS. reflexivity. }
  assert (GN : nt (tonode N k) = NBlank -> g k = true <-> exists o, incoming N k = [o]).
  { intros EN. split.
    - intros GK. apply HG in GK as (_ & _ & p & E & GP). exists p. apply IN; auto.
    - intros [o E0]. destruct (proj1 (IN k o (le_n k)) E0) as [E [O|O]]; [pose proof (pred_lt k o ltac:(lia) E); lia|]. apply HG. rewrite NT in EN. split; [lia|]. split; [exact EN|]. exists o. auto. }
  assert (ST : g k = false -> exists N' mask', Some (N, mask) = Some (N', mask') /\ at_step (S k) N' mask') by (intros GK; exists N, mask; auto).
  destruct (nt (tonode N k)) eqn:EN; try (apply ST; destruct (g k) eqn:GK; [apply HG in GK as (_ & GK & _); rewrite NT in EN; congruence|reflexivity]).
  specialize (GN eq_refl). destruct (incoming N k) as [|o [|o' r]] eqn:EI.
  - apply ST. destruct (g k); [|reflexivity]. destruct (proj1 GN eq_refl) as [o E]. discriminate.
  - assert (GK : g k = true) by (apply GN; eauto). clear ST KEEP.
    pose proof (proj1 (IN k o (le_n k)) EI) as [EM GO]. pose proof (pred_lt k o ltac:(lia) EM) as LO. assert (GO' : g o = false) by (destruct GO; [lia|assumption]).
    destruct (o =? k) eqn:OK; [apply Nat.eqb_eq in OK; lia|]. apply Nat.eqb_neq in OK. eexists; eexists; split; [reflexivity|].
    set (f := fun n => mkA (nt n) (atrs n ++ edges N k)). set (N' := upd_nth N o f).
    assert (HN : forall p, tonode N' p = if p =? o then f (tonode N p) else tonode N p) by (intros p; apply to_upd; right; lia).
    assert (HE : forall p, edges N' p = edges N p ++ (if p =? o then edges N k else [])) by (intros p; rewrite HN; destruct (p =? o); [reflexivity|rewrite app_nil_r; reflexivity]).
    pose proof (proj1 (sole N k o) EI) as [DN (t0 & HT0)].
    assert (SELF : forall t, ~ In (k, t) (edges N k)) by (intros t H; destruct (single_edge N k o t0 DN HT0 _ _ H); lia).
    assert (SK : stays k k = true) by (unfold stays; rewrite (proj2 (Nat.ltb_lt k (length M))) by lia; rewrite Nat.ltb_irrefl; reflexivity).
    assert (SO : stays k o = true) by (unfold stays; rewrite (proj2 (Nat.ltb_lt o (length M))) by lia; rewrite GO', andb_false_r; reflexivity).
    assert (SS : forall p, stays (S k) p = if p =? k then false else stays k p).
    { intros p. unfold stays. destruct (Nat.eqb_spec p k) as [->|NE]; [rewrite GK, (proj2 (Nat.ltb_lt k (S k))) by lia; apply andb_false_r|]. replace (p <? S k) with (p <? k); [reflexivity|]. destruct (Nat.ltb_spec p k), (Nat.ltb_spec p (S k)); try reflexivity; lia. }
    assert (LEN : length N' = length M) by (unfold N'; rewrite upd_len; exact L).
    split; auto.
    + rewrite upd_len. exact ML.
    + intros p. rewrite maskf_upd by lia. rewrite SS, MK. reflexivity.
    + intros i. rewrite HN. destruct (i =? o); apply NT.
    + intros i p Hi.
      assert (IE : indeg N' i = indeg N i + into N i k).
      { unfold indeg. rewrite LEN, <- L. pose proof (sumf_point (into N' i) (into N i) (length N) o ltac:(lia)) as P.
        assert (E : forall q, into N' i q = into N i q + (if q =? o then into N i k else 0)) by (intros q; unfold into; rewrite HE, filter_app, app_length; destruct (q =? o); reflexivity).
        specialize (P ltac:(intros q Hq; rewrite E, (proj2 (Nat.eqb_neq q o) Hq); lia)). rewrite E, Nat.eqb_refl in P. lia. }
      split.
      * intros E. apply sole in E as [E (t & H)]. 
        assert (Z : into N i k = 0).
        { destruct (into N i k) eqn:X; [reflexivity|]. assert (Y : 0 < indeg N i). { pose proof (sumf_in (into N i) (length N) k ltac:(lia)). unfold indeg. lia. } lia. }
        rewrite HE in H. apply in_app_or in H as [H|H].
        -- assert (Q : incoming N i = [p]) by (apply sole; split; [lia|eauto]). apply IN in Q as [Q1 Q2]; [|lia]. split; [exact Q1|].
           destruct Q2 as [Q2|Q2]; [|auto]. destruct (Nat.eq_dec p k) as [->|NE]; [|left; lia]. exfalso. assert (0 < into N i k) by (apply into_pos; eauto). lia.
        -- exfalso. destruct (p =? o); [|destruct H]. assert (0 < into N i k) by (apply into_pos; eauto). lia.
      * intros [E Q]. assert (Q' : k <= p \/ g p = false) by (destruct Q; [left; lia|auto]). pose proof (proj2 (IN i p ltac:(lia)) (conj E Q')) as E2. apply sole in E2 as [D2 (t & H)].
        assert (Z : into N i k = 0).
        { destruct (into N i k) eqn:X; [reflexivity|]. assert (Y : 0 < into N i k) by lia. apply into_pos in Y as [t1 Y]. destruct (single_edge N i p t D2 H _ _ Y) as [-> _]. destruct Q as [Q|Q]; [lia|congruence]. }
        apply sole. split; [lia|]. exists t. rewrite HE. apply in_or_app. auto.
    + intros p e He. rewrite HE. apply in_or_app. left. apply OLD. exact He.
    + intros p j t H. rewrite HE in H. apply in_app_or in H as [H|H]; [exact (NEW _ _ _ H)|]. destruct (p =? o); [exact (NEW _ _ _ H)|destruct H].
    + intros t. rewrite CNT. unfold lost. cbn [sumf]. rewrite GK. rewrite Nat.add_assoc. rewrite (Nat.add_comm (total N' _ _)), <- Nat.add_assoc, Nat.add_comm. f_equal.
      (* the edge into k is the same in N and in M *)
      assert (EK : sumf (fun p => length (filter (fun e : nat * nat => (fst e =? k) && (snd e =? t)) (edges M p))) (length M) = length (filter (fun e : nat * nat => (fst e =? k) && (snd e =? t)) (edges N o))).
      { destruct (proj1 (sole M k o) EM) as [DM (tm & HM)]. destruct (single_edge N k o t0 DN HT0 tm o (OLD _ _ HM)) as [_ ->].
        assert (C1 : forall (Q : atn) p, (forall q u, In (k, u) (edges Q q) -> q = o /\ u = t0) -> into Q k p <= 1 -> In (k, t0) (edges Q o) -> length (filter (fun e : nat * nat => (fst e =? k) && (snd e =? t)) (edges Q p)) = if p =? o then if t0 =? t then 1 else 0 else 0).
        { intros Q p U LI HO. assert (FE : length (filter (fun e : nat * nat => (fst e =? k) && (snd e =? t)) (edges Q p)) = if t0 =? t then into Q k p else 0).
          { destruct (t0 =? t) eqn:TT.
            - unfold into. apply filter_len_ext. intros [d u] He. cbn. destruct (Nat.eqb_spec d k) as [->|]; [|reflexivity]. destruct (U _ _ He) as [_ ->]. exact TT.
            - rewrite (filter_len_ext _ (fun _ => false)); [induction (edges Q p); [reflexivity|assumption]|]. intros [d u] He. cbn. destruct (Nat.eqb_spec d k) as [->|]; [|reflexivity]. destruct (U _ _ He) as [_ ->]. exact TT. }
          rewrite FE. destruct (Nat.eqb_spec p o) as [->|NE].
          - assert (0 < into Q k o) by (apply into_pos; eauto). destruct (t0 =? t); lia.
          - destruct (t0 =? t); [|reflexivity]. destruct (into Q k p) eqn:X; [reflexivity|]. assert (Y : 0 < into Q k p) by lia. apply into_pos in Y as [u Y]. destruct (U _ _ Y). congruence. }
        rewrite (C1 N o); [|intros q u Hq; exact (single_edge N k o t0 DN HT0 u q Hq)|rewrite <- DN; apply (sumf_in (into N k)); lia|exact HT0]. rewrite Nat.eqb_refl.
        transitivity (sumf (fun p => if p =? o then if t0 =? t then 1 else 0 else 0) (length M)).
        - apply sumf_ext. intros p Hp. apply C1; [intros q u Hq; exact (single_edge M k o t0 DM HM u q Hq)|rewrite <- DM; apply (sumf_in (into M k)); lia|exact HM].
        - pose proof (sumf_point (fun p => if p =? o then if t0 =? t then 1 else 0 else 0) (fun _ => 0) (length M) o ltac:(lia)) as P. specialize (P ltac:(intros q Hq; cbv beta; rewrite (proj2 (Nat.eqb_neq q o) Hq); reflexivity)). cbv beta in P. rewrite Nat.eqb_refl in P.
          assert (Z0 : forall n, sumf (fun _ => 0) n = 0) by (induction n as [|n IHn]; [reflexivity|cbn [sumf]; lia]). rewrite Z0 in P. lia. }
      rewrite EK. unfold total. rewrite LEN, L. pose proof (sumf_two (tcount N' (stays (S k)) t) (tcount N (stays k) t) (length M) o k ltac:(lia) ltac:(lia) OK) as P.
      assert (OTHER : forall p, p <> o -> p <> k -> tcount N' (stays (S k)) t p = tcount N (stays k) t p).
      { intros p H1 H2. unfold tcount. rewrite SS, (proj2 (Nat.eqb_neq p k) H2). destruct (stays k p); [|reflexivity]. rewrite HE, (proj2 (Nat.eqb_neq p o) H1), app_nil_r. apply filter_len_ext. intros [d u] He. cbn [fst snd]. rewrite SS.
        destruct (Nat.eqb_spec d k) as [->|]; [|reflexivity]. destruct (single_edge N k o t0 DN HT0 _ _ He). congruence. }
      specialize (P OTHER).
      assert (TK : tcount N' (stays (S k)) t k = 0) by (unfold tcount; rewrite SS, Nat.eqb_refl; reflexivity).
      assert (TO : tcount N' (stays (S k)) t o + length (filter (fun e : nat * nat => (fst e =? k) && (snd e =? t)) (edges N o)) = tcount N (stays k) t o + tcount N (stays k) t k).
      { unfold tcount. rewrite SS, (proj2 (Nat.eqb_neq o k) OK), SO, SK, HE, Nat.eqb_refl, filter_app, app_length.
        rewrite (filter_len_split (fun e : nat * nat => (snd e =? t) && stays k (fst e)) (fun e => negb (fst e =? k)) (edges N o)).
        replace (length (filter (fun e : nat * nat => (snd e =? t) && stays (S k) (fst e)) (edges N k))) with (length (filter (fun e : nat * nat => (snd e =? t) && stays k (fst e)) (edges N k))).
        2:{ apply filter_len_ext. intros [d u] He. cbn [fst snd]. rewrite SS. destruct (Nat.eqb_spec d k) as [->|]; [|reflexivity]. destruct (SELF _ He). }
        replace (length (filter (fun e : nat * nat => (snd e =? t) && stays (S k) (fst e)) (edges N o))) with (length (filter (fun x : nat * nat => (snd x =? t) && stays k (fst x) && negb (fst x =? k)) (edges N o))).
        2:{ apply filter_len_ext. intros [d u] He. cbn [fst snd]. rewrite SS. destruct (d =? k); cbn [negb]; rewrite ?andb_true_r, ?andb_false_r; reflexivity. }
        replace (length (filter (fun x : nat * nat => (snd x =? t) && stays k (fst x) && negb (negb (fst x =? k))) (edges N o))) with (length (filter (fun e : nat * nat => (fst e =? k) && (snd e =? t)) (edges N o))); [lia|].
        apply filter_len_ext. intros [d u] He. cbn [fst snd]. rewrite negb_involutive. destruct (Nat.eqb_spec d k) as [->|]; [rewrite SK; cbn; rewrite !andb_true_r; reflexivity|rewrite andb_false_r; reflexivity]. }
      lia.
  - apply ST. destruct (g k); [|reflexivity]. destruct (proj1 GN eq_refl) as [x E]. discriminate.
Qed.
Lemma step_loop n : forall k N mask, at_step k N mask -> 1 <= k -> k + n <= length M - 1 ->
  exists N' mask', fold_left drop_step (seq k n) (Some (N, mask)) = Some (N', mask') /\ at_step (k + n) N' mask'.
Proof.
  induction n as [|n IH]; intros k N mask A K1 K2; [exists N, mask; rewrite Nat.add_0_r; auto|].
  change (fold_left drop_step (seq k (S n)) (Some (N, mask))) with (fold_left drop_step (seq (S k) n) (drop_step (Some (N, mask)) k)).
  destruct (step_next k N mask A K1 ltac:(lia)) as (N1 & mask1 & E & A1). rewrite E. replace (k + S n) with (S k + n) by lia. apply IH; [exact A1|lia|lia].
Qed.
(** No transition with a priority into a gone node: the paths keep their priorities. *)
Theorem gone_paths M' : 1 <= length M -> (forall i p t, g i = true -> In (i, S t) (edges M p) -> False) -> drop_passthrough M = Some M' ->
  forall w, ppath M' 0 w (length M' - 1) <-> ppath M 0 w (length M - 1).
Proof.
  intros H1 HL HD.
  assert (GI : forall i N mask o, i < length N - 1 -> 1 <= i -> at_step i N mask -> nt (tonode N i) = NBlank -> incoming N i = [o] -> g i = true).
  { intros i N mask o Li Hi A Hb Ei. pose proof (proj1 (as_in _ _ _ A i o (le_n i)) Ei) as [E O]. rewrite (as_len _ _ _ A) in Li. apply HG. split; [lia|]. rewrite (as_nt _ _ _ A) in Hb. split; [exact Hb|]. exists o. split; [exact E|].
    destruct O as [O|O]; [|exact O]. pose proof (pred_lt i o ltac:(lia) E). lia. }
  apply (drop_preserves _ plab preads eq_refl (fun k N => 1 <= k /\ exists mask, at_step k N mask)); auto.
  - intros N i o Li (Hi & mask & A) Hb Ei tag Ht. destruct (as_new _ _ _ A _ _ _ Ht) as [q Hq]. destruct tag as [|tag]; [reflexivity|]. exfalso. eapply HL; [eapply GI; eassumption|exact Hq].
  - intros N i Li (Hi & mask & A) Q. split; [lia|]. exists mask. pose proof Li as Li2. rewrite (as_len _ _ _ A) in Li2. destruct (step_next i N mask A Hi Li2) as (N' & mask' & E & A'). cbn [drop_step] in E. fold (tonode N i) in E.
    destruct (nt (tonode N i)); try (injection E as <- <-; exact A'). destruct (incoming N i) as [|o [|o' r]]; try (injection E as <- <-; exact A'). exfalso. destruct Q as [Q|Q]; [apply Q; reflexivity|exact (Q o eq_refl)].
  - intros N i o Li (Hi & mask & A) Hb Ei. split; [lia|]. pose proof Li as Li2. rewrite (as_len _ _ _ A) in Li2. destruct (step_next i N mask A Hi Li2) as (N' & mask' & E & A'). cbn [drop_step] in E. fold (tonode N i) in E.
    rewrite Hb, Ei in E. destruct (o =? i); [discriminate|]. injection E as <- <-. eexists. exact A'.
  - split; [lia|]. eexists. exact at_start.
Qed.

(** ** Counting tags *)
Definition tags (N : atn) : list nat := flat_map (fun n => map snd (atrs n)) N.
Lemma count_snd (l : list (nat * nat)) t : count_occ Nat.eq_dec (map snd l) t = length (filter (fun e => snd e =? t) l).
Proof. induction l as [|[d u] l IH]; [reflexivity|]. cbn [map snd count_occ filter]. destruct (Nat.eq_dec u t) as [->|NE]; [rewrite Nat.eqb_refl; cbn [length]; congruence|rewrite (proj2 (Nat.eqb_neq u t) NE); exact IH]. Qed.
Lemma count_seq {A} (h : nat -> A) (f : A -> list nat) t n : count_occ Nat.eq_dec (flat_map f (map h (seq 0 n))) t = sumf (fun i => count_occ Nat.eq_dec (f (h i)) t) n.
Proof. induction n as [|n IH]; [reflexivity|]. rewrite seq_S, map_app, flat_map_app, count_occ_app, IH. cbn [sumf map flat_map]. rewrite app_nil_r. reflexivity. Qed.
Lemma count_tags N t : count_occ Nat.eq_dec (tags N) t = sumf (fun p => length (filter (fun e : nat * nat => snd e =? t) (edges N p))) (length N).
Proof.
  unfold tags. assert (E : N = map (tonode N) (seq 0 (length N))).
  { apply nth_ext with (d := blank) (d' := tonode N 0); [rewrite map_length, seq_length; reflexivity|]. intros i Hi. rewrite map_nth, seq_nth by exact Hi. reflexivity. }
  rewrite E at 1. rewrite count_seq. apply sumf_ext. intros i Hi. apply count_snd.
Qed.
Lemma count_filter N mask t : count_occ Nat.eq_dec (tags (filter_atn N mask)) t = total N (maskf mask) t.
Proof.
  unfold tags, filter_atn, total. generalize (length N). intros n. induction n as [|n IH]; [reflexivity|]. rewrite seq_S, !flat_map_app, count_occ_app, IH. cbn [sumf]. f_equal. cbn [flat_map plus]. rewrite app_nil_r. unfold tcount, maskf.
  destruct (nth n mask false); [|reflexivity]. cbn [flat_map atrs]. rewrite app_nil_r, map_map. cbn [snd]. change (fun x : nat * nat => snd x) with (@snd nat nat). rewrite count_snd. fold (tonode N n).
  induction (edges N n) as [|[d u] l IHl]; [reflexivity|]. cbn [filter fst snd]. destruct (nth d mask false), (u =? t) eqn:X; cbn [filter andb snd]; rewrite ?X; cbn [length]; rewrite ?IHl; auto.
Qed.
Theorem gone_counts : 2 <= length M -> exists M', drop_passthrough M = Some M' /\ forall t, count_occ Nat.eq_dec (tags M) t = count_occ Nat.eq_dec (tags M') t + lost t (length M - 1).
Proof.
  intros L2. unfold drop_passthrough. destruct (step_loop (length M - 2) 1 M _ at_start ltac:(lia) ltac:(lia)) as (N & mask & E & A). rewrite E. eexists. split; [reflexivity|]. intros t.
  replace (1 + (length M - 2)) with (length M - 1) in A by lia. rewrite count_filter.
  transitivity (total M (stays 0) t).
  - rewrite count_tags. unfold total. apply sumf_ext. intros p Hp. unfold tcount. unfold stays at 1. rewrite (proj2 (Nat.ltb_lt p (length M)) Hp). cbn [Nat.ltb Nat.leb andb negb]. apply filter_len_ext. intros [d u] He. cbn [fst snd]. unfold stays.
    rewrite (proj2 (Nat.ltb_lt d (length M))). 2:{ apply (HC p). apply in_dests. eauto. } cbn [Nat.ltb Nat.leb andb negb]. rewrite andb_true_r. reflexivity.
  - rewrite (as_cnt _ _ _ A). f_equal. unfold total. apply sumf_ext. intros p _. unfold tcount. rewrite (as_mask _ _ _ A). destruct (stays _ p); [|reflexivity]. apply filter_len_ext. intros e _. rewrite (as_mask _ _ _ A). reflexivity.
Qed.
(** The transitions that stay are those into nodes that stay. *)
Definition keepn (N : atn) (h : nat -> bool) (t : nat) : nat := sumf (fun p => length (filter (fun e : nat * nat => (snd e =? t) && negb (h (fst e))) (edges N p))) (length N).
Lemma sumf_plus f h n : sumf (fun i => f i + h i) n = sumf f n + sumf h n.
Proof. induction n as [|n IH]; [reflexivity|]. cbn [sumf]. rewrite IH. lia. Qed.
Lemma sumf_zero n : sumf (fun _ => 0) n = 0.
Proof. induction n as [|n IH]; [reflexivity|]. cbn [sumf]. lia. Qed.
Lemma sumf_swap f n m : sumf (fun i => sumf (f i) m) n = sumf (fun j => sumf (fun i => f i j) n) m.
Proof. induction n as [|n IH]; [cbn [sumf]; rewrite sumf_zero; reflexivity|]. cbn [sumf]. rewrite IH. rewrite <- sumf_plus. reflexivity. Qed.
Lemma lost_total t : 2 <= length M -> sumf (fun p => length (filter (fun e : nat * nat => (snd e =? t) && g (fst e)) (edges M p))) (length M) = lost t (length M - 1).
Proof.
  intros L2. assert (GL : g (length M - 1) = false) by (destruct (g (length M - 1)) eqn:X; [apply HG in X; lia|reflexivity]).
  transitivity (lost t (length M)).
  2:{ assert (Q : forall n, 1 <= n -> g (n - 1) = false -> lost t n = lost t (n - 1)) by (intros [|n] Hn Gn; [lia|]; replace (S n - 1) with n in * by lia; unfold lost; cbn [sumf]; rewrite Gn; lia). apply Q; [lia|exact GL]. }
  unfold lost. transitivity (sumf (fun i => sumf (fun p => if g i then length (filter (fun e : nat * nat => (fst e =? i) && (snd e =? t)) (edges M p)) else 0) (length M)) (length M)).
  2:{ apply sumf_ext. intros i _. destruct (g i); [reflexivity|apply sumf_zero]. }
  rewrite sumf_swap. apply sumf_ext. intros p Hp.
  assert (CL : forall e, In e (edges M p) -> fst e < length M) by (intros [d u] He; apply (HC p); apply in_dests; eauto). revert CL. generalize (edges M p). intros l.
  induction l as [|[d u] l IH]; intros CL; [cbn [filter length]; rewrite (sumf_ext _ (fun _ => 0)); [symmetry; apply sumf_zero|intros i _; destruct (g i); reflexivity]|].
  specialize (IH (fun e He => CL e (or_intror He))). pose proof (CL _ (or_introl eq_refl)) as Ld. cbn [fst] in Ld.
  transitivity (sumf (fun i => (if i =? d then if g d && (u =? t) then 1 else 0 else 0) + (if g i then length (filter (fun e : nat * nat => (fst e =? i) && (snd e =? t)) l) else 0)) (length M)).
  2:{ apply sumf_ext. intros i _. cbn [filter fst snd]. rewrite (Nat.eqb_sym d i). destruct (Nat.eqb_spec i d) as [->|NE]; cbn [andb]; [|reflexivity]. destruct (g d); [|reflexivity]. destruct (u =? t); reflexivity. }
  rewrite sumf_plus, <- IH. pose proof (sumf_point (fun i => if i =? d then if g d && (u =? t) then 1 else 0 else 0) (fun _ => 0) (length M) d Ld) as P. specialize (P ltac:(intros q Hq; cbv beta; rewrite (proj2 (Nat.eqb_neq q d) Hq); reflexivity)). cbv beta in P. rewrite Nat.eqb_refl, sumf_zero in P.
  rewrite Nat.add_0_r in P. rewrite P. cbn [filter fst snd]. rewrite (andb_comm (g d)). destruct ((u =? t) && g d); reflexivity.
Qed.
Theorem gone_kept : 2 <= length M -> exists M', drop_passthrough M = Some M' /\ forall t, count_occ Nat.eq_dec (tags M') t = keepn M g t.
Proof.
  intros L2. destruct (gone_counts L2) as (M' & D & C). exists M'. split; [exact D|]. intros t. specialize (C t). rewrite count_tags in C. rewrite <- (lost_total t L2) in C. unfold keepn.
  rewrite (sumf_ext _ (fun p => length (filter (fun e : nat * nat => (snd e =? t) && g (fst e)) (edges M p)) + length (filter (fun e : nat * nat => (snd e =? t) && negb (g (fst e))) (edges M p)))) in C.
  - rewrite sumf_plus in C. lia.
  - intros p _. apply (filter_len_split (fun e : nat * nat => snd e =? t) (fun e => g (fst e))).
Qed.
End Gone.
