(** * Which transitions of a rule body's network enter nodes that optimisation removes (proofs for C31) *)
From Coq Require Import List NArith Arith Bool Lia Permutation.
From Verif Require Import CharClass NFA NFAProofs GrammarSpec BarSpec ATN ATNSem ATNBuild ATNOpt DrawAtnNet ATNGone.
Import ListNotations.
Local Open Scope nat_scope.

(** [g]: the nodes to be removed; [P]: nodes that will get one more transition. *)
Record W (N : atn) (g P : nat -> bool) : Prop := {
  w_len : 1 <= length N; w_closed : closed N; w_backed : backed N; w_zero : g 0 = false;
  w_out : forall i, length N <= i -> P i = false;
  w_g : forall i, 1 <= i < length N -> (g i = true <-> P i = false /\ nt (tonode N i) = NBlank /\ indeg N i = 1 /\ exists p t, In (i, t) (edges N p) /\ g p = false) }.
Lemma W_ext N g P P' : (forall i, P' i = P i) -> W N g P -> W N g P'.
Proof. intros E [A B C D F G]. split; auto; intros i Hi; rewrite E; auto. Qed.
Definition grown (N N' : atn) (q t : nat) (n : nty) : Prop :=
  length N' = S (length N) /\ (forall j, edges N' j = edges N j ++ (if j =? q then [(length N, t)] else [])) /\
  (forall j, nt (tonode N' j) = if j =? length N then n else nt (tonode N j)).
Lemma nt_upd N q d t j : q < length N -> nt (tonode (upd_nth N q (add_atr d t)) j) = nt (tonode N j).
Proof. intros H. rewrite to_upd by auto. destruct (j =? q); reflexivity. Qed.
Lemma nt_snoc N n j : nt (tonode (N ++ [mkA n []]) j) = if j =? length N then n else nt (tonode N j).
Proof.
  rewrite to_app. destruct (Nat.ltb_spec j (length N)) as [L|L]; [rewrite (proj2 (Nat.eqb_neq j (length N))) by lia; reflexivity|].
  destruct (Nat.eqb_spec j (length N)) as [->|NE]; [rewrite Nat.sub_diag; reflexivity|]. rewrite (to_out N j L). destruct (j - length N) as [|[|k]] eqn:X; [lia|reflexivity|reflexivity].
Qed.
Lemma grown_add N q t : q < length N -> grown N (add_node N q t) q t NBlank.
Proof.
  intros H. split; [apply add_node_len|]. split; [intros j; apply edges_add; exact H|]. intros j. unfold add_node. change blank with (mkA NBlank []). rewrite nt_snoc, upd_len. destruct (j =? length N); [reflexivity|apply nt_upd; exact H].
Qed.
Lemma grown_push N n : 1 <= length N -> grown N (push_node N n) (length N - 1) 0 n.
Proof.
  intros H. split; [apply push_node_len|]. split; [intros j; apply edges_push; exact H|]. intros j. unfold push_node. rewrite nt_snoc, upd_len. destruct (j =? length N); [reflexivity|apply nt_upd; lia].
Qed.
Lemma into_app N N' i p l : edges N' p = edges N p ++ l -> into N' i p = into N i p + length (filter (fun t : nat * nat => fst t =? i) l).
Proof. intros E. unfold into. rewrite E, filter_app, app_length. reflexivity. Qed.
Definition isblank (n : nty) : bool := match n with NBlank => true | _ => false end.
Lemma isblank_spec n : isblank n = true <-> n = NBlank.
Proof. destruct n; cbn; split; intros; congruence. Qed.
Definition mark (f : nat -> bool) (i : nat) (b : bool) : nat -> bool := fun j => if j =? i then b else f j.
Lemma mark_eq f i b : mark f i b i = b. Proof. unfold mark. rewrite Nat.eqb_refl. reflexivity. Qed.
Lemma mark_ne f i b j : j <> i -> mark f i b j = f j. Proof. intros H. unfold mark. rewrite (proj2 (Nat.eqb_neq j i) H). reflexivity. Qed.
Lemma grow_indeg N N' q t n i : q < length N -> grown N N' q t n -> indeg N' i = indeg N i + (if i =? length N then 1 else 0).
Proof.
  intros Hq (L & E & _). unfold indeg. rewrite L. cbn [sumf]. rewrite (into_app _ _ _ _ _ (E (length N))). rewrite (proj2 (Nat.eqb_neq (length N) q)) by lia. cbn [filter length]. rewrite Nat.add_0_r.
  assert (Z : into N i (length N) = 0) by (unfold into; rewrite to_out by lia; reflexivity). rewrite Z, Nat.add_0_r.
  pose proof (sumf_point (into N' i) (into N i) (length N) q Hq) as P.
  specialize (P ltac:(intros p Hp; rewrite (into_app _ _ _ _ _ (E p)), (proj2 (Nat.eqb_neq p q) Hp); cbn [filter length]; lia)).
  rewrite (into_app _ _ _ _ _ (E q)), Nat.eqb_refl in P. cbn [filter fst] in P. rewrite (Nat.eqb_sym (length N) i) in P. destruct (i =? length N); cbn [length] in P; lia.
Qed.
Lemma grow_W N N' q t n g P b : W N g P -> q < length N -> grown N N' q t n ->
  W N' (mark g (length N) (negb b && isblank n && negb (g q))) (mark P (length N) b).
Proof.
  intros [A C B Z O G] Hq GR. pose proof GR as (L & E & T). set (v := negb b && isblank n && negb (g q)).
  assert (IN : forall i u p, In (i, u) (edges N' p) <-> In (i, u) (edges N p) \/ (p = q /\ i = length N /\ u = t)).
  { intros i u p. rewrite E, in_app_iff. destruct (Nat.eqb_spec p q) as [->|NE]; cbn; split; intros [H|H]; auto; try tauto; [destruct H as [H|[]]; injection H as <- <-; auto|destruct H as (_ & -> & ->); auto]. }
  split.
  - lia.
  - intros p d Hd. apply in_dests in Hd as [u Hd]. apply IN in Hd as [Hd|(-> & -> & _)]; [|lia]. assert (d < length N) by (apply (C p); apply in_dests; eauto). lia.
  - intros i Hi. destruct (Nat.eq_dec i (length N)) as [->|NE].
    + exists q. split; [exact Hq|]. apply in_dests. exists t. apply IN. auto.
    + destruct (B i ltac:(lia)) as (j & J1 & J2). exists j. split; [exact J1|]. apply in_dests in J2 as [u J2]. apply in_dests. exists u. apply IN. auto.
  - rewrite mark_ne by lia. exact Z.
  - intros i Hi. rewrite mark_ne by lia. apply O. lia.
  - intros i Hi. destruct (Nat.eq_dec i (length N)) as [->|NE].
    + rewrite !mark_eq, T, Nat.eqb_refl. rewrite (grow_indeg N N' q t n _ Hq GR), Nat.eqb_refl, (indeg_out N _ C (le_n _)). unfold v. rewrite !andb_true_iff, isblank_spec, !negb_true_iff. split.
      * intros [[H1 H2] H3]. repeat split; auto. exists q, t. split; [apply IN; auto|]. rewrite mark_ne by lia. exact H3.
      * intros (H1 & H2 & _ & p & u & H3 & H4). repeat split; auto. apply IN in H3 as [H3|(-> & _ & _)].
        -- exfalso. assert (length N < length N) by (apply (C p); apply in_dests; eauto). lia.
        -- rewrite mark_ne in H4 by lia. exact H4.
    + rewrite !mark_ne by exact NE. rewrite T, (proj2 (Nat.eqb_neq i (length N)) NE). rewrite (grow_indeg N N' q t n _ Hq GR), (proj2 (Nat.eqb_neq i (length N)) NE), Nat.add_0_r. rewrite G by lia.
      assert (Q : (exists p u, In (i, u) (edges N' p) /\ mark g (length N) v p = false) <-> (exists p u, In (i, u) (edges N p) /\ g p = false)).
      { split; intros (p & u & H1 & H2); exists p, u.
        - apply IN in H1 as [H1|(_ & H1 & _)]; [|lia]. split; [exact H1|]. rewrite mark_ne in H2; [exact H2|]. pose proof (edge_lt _ _ _ H1). lia.
        - split; [apply IN; auto|]. rewrite mark_ne; [exact H2|]. pose proof (edge_lt _ _ _ H1). lia. }
      tauto.
Qed.
Lemma edge_W N q d g P : W N g P -> q < length N -> 1 <= d < length N -> g d = false ->
  W (upd_nth N q (add_atr d 0)) g (mark P d false).
Proof.
  intros [A C B Z O G] Hq Hd Gd.
  assert (IN : forall i u p, In (i, u) (edges (upd_nth N q (add_atr d 0)) p) <-> In (i, u) (edges N p) \/ (p = q /\ i = d /\ u = 0)).
  { intros i u p. rewrite edges_upd by exact Hq. rewrite in_app_iff. destruct (Nat.eqb_spec p q) as [->|NE]; cbn; split; intros [H|H]; auto; try tauto; [destruct H as [H|[]]; injection H as <- <-; auto|destruct H as (_ & -> & ->); auto]. }
  assert (DP : 1 <= indeg N d).
  { destruct (B d Hd) as (j & J1 & J2). apply in_dests in J2. apply into_pos in J2. pose proof (sumf_in (into N d) (length N) j ltac:(lia)). unfold indeg. lia. }
  split.
  - rewrite upd_len. exact A.
  - intros p x Hx. rewrite upd_len. apply in_dests in Hx as [u Hx]. apply IN in Hx as [Hx|(_ & -> & _)]; [|lia]. apply (C p). apply in_dests. eauto.
  - intros i Hi. rewrite upd_len in Hi. destruct (B i Hi) as (j & J1 & J2). exists j. split; [exact J1|]. apply in_dests in J2 as [u J2]. apply in_dests. exists u. apply IN. auto.
  - exact Z.
  - intros i Hi. rewrite upd_len in Hi. rewrite mark_ne by lia. apply O. exact Hi.
  - intros i Hi. rewrite upd_len in Hi. rewrite nt_upd, indeg_upd by exact Hq. destruct (Nat.eqb_spec i d) as [->|NE].
    + rewrite Gd. split; [discriminate|]. intros (_ & _ & H & _). lia.
    + rewrite mark_ne by exact NE. rewrite Nat.add_0_r, G by lia.
      assert (Q : (exists p u, In (i, u) (edges (upd_nth N q (add_atr d 0)) p) /\ g p = false) <-> (exists p u, In (i, u) (edges N p) /\ g p = false)).
      { split; intros (p & u & H1 & H2); exists p, u; (split; [|exact H2]); [apply IN in H1 as [H1|(_ & H1 & _)]; [exact H1|congruence]|apply IN; auto]. }
      tauto.
Qed.

(** ** Counting *)
Notation cntp x l := (count_occ Nat.eq_dec l x).
Lemma keepn_ext N g g' t : closed N -> (forall i, i < length N -> g i = g' i) -> keepn N g t = keepn N g' t.
Proof.
  intros C E. unfold keepn. apply sumf_ext. intros p _. apply filter_len_ext. intros [d u] He. cbn [fst snd]. rewrite E; [reflexivity|]. apply (C p). apply in_dests. eauto.
Qed.
Lemma keepn_grow N N' q t n g x : q < length N -> grown N N' q t n -> keepn N' g x = keepn N g x + (if (t =? x) && negb (g (length N)) then 1 else 0).
Proof.
  intros Hq (L & E & _). unfold keepn. rewrite L. cbn [sumf]. rewrite (E (length N)), (proj2 (Nat.eqb_neq (length N) q)) by lia. rewrite to_out by lia. cbn [blank atrs app filter length]. rewrite Nat.add_0_r.
  pose proof (sumf_point (fun p => length (filter (fun e : nat * nat => (snd e =? x) && negb (g (fst e))) (edges N' p))) (fun p => length (filter (fun e : nat * nat => (snd e =? x) && negb (g (fst e))) (edges N p))) (length N) q Hq) as P.
  specialize (P ltac:(intros p Hp; cbv beta; rewrite E, (proj2 (Nat.eqb_neq p q) Hp), app_nil_r; reflexivity)). cbv beta in P. rewrite (E q), Nat.eqb_refl, filter_app, app_length in P. cbn [filter fst snd] in P. destruct ((t =? x) && negb (g (length N))); cbn [length] in P; lia.
Qed.
Lemma keepn_edge N q d g x : q < length N -> 0 < x -> keepn (upd_nth N q (add_atr d 0)) g x = keepn N g x.
Proof.
  intros Hq Hx. unfold keepn. rewrite upd_len. apply sumf_ext. intros p _. rewrite edges_upd by exact Hq. rewrite filter_app, app_length. destruct (p =? q); [|cbn; lia]. cbn [filter snd]. destruct (Nat.eqb_spec 0 x); [lia|]. cbn. lia.
Qed.
(** What an extension of a network by a piece of a rule body does: [k] are the priorities kept, [a] all. *)
Record ext (N : atn) (g : nat -> bool) (N' : atn) (g' : nat -> bool) (k a : list nat) : Prop := {
  x_len : length N <= length N'; x_same : forall i, i < length N -> g' i = g i;
  x_keep : forall x, 0 < x -> keepn N' g' x = keepn N g x + cntp x k;
  x_all : forall x, 0 < x -> keepn N' (fun _ => false) x = keepn N (fun _ => false) x + cntp x a }.
Lemma ext_refl N g : ext N g N g [] [].
Proof. split; auto; intros; cbn; lia. Qed.
Lemma ext_trans N0 g0 N1 g1 N2 g2 k1 a1 k2 a2 : ext N0 g0 N1 g1 k1 a1 -> ext N1 g1 N2 g2 k2 a2 -> ext N0 g0 N2 g2 (k1 ++ k2) (a1 ++ a2).
Proof.
  intros [A B C D] [A' B' C' D']. split; [lia| | |].
  - intros i Hi. rewrite B' by lia. apply B. exact Hi.
  - intros x Hx. rewrite C', C, count_occ_app by exact Hx. lia.
  - intros x Hx. rewrite D', D, count_occ_app by exact Hx. lia.
Qed.
Definition ptag (t : nat) : list nat := if t =? 0 then [] else [t].
Lemma ptag_count t x : 0 < x -> cntp x (ptag t) = if t =? x then 1 else 0.
Proof.
  intros Hx. unfold ptag. destruct (Nat.eqb_spec t 0) as [->|N0]; [destruct (Nat.eqb_spec 0 x); [lia|reflexivity]|]. cbn [count_occ]. destruct (Nat.eq_dec t x) as [->|NE]; [rewrite Nat.eqb_refl; reflexivity|rewrite (proj2 (Nat.eqb_neq t x) NE); reflexivity].
Qed.
Lemma ext_grow N N' q t n g P v : W N g P -> q < length N -> grown N N' q t n -> ext N g N' (mark g (length N) v) (if v then [] else ptag t) (ptag t).
Proof.
  intros HW Hq GR. pose proof GR as (L & _ & _). split.
  - lia.
  - intros i Hi. apply mark_ne. lia.
  - intros x Hx. rewrite (keepn_grow N N' q t n _ x Hq GR), mark_eq. rewrite (keepn_ext N (mark g (length N) v) g) by (apply (w_closed _ _ _ HW) || (intros i Hi; apply mark_ne; lia)).
    destruct v; cbn [negb]; rewrite ?andb_false_r, ?andb_true_r; [cbn; lia|]. rewrite ptag_count by exact Hx. reflexivity.
  - intros x Hx. rewrite (keepn_grow N N' q t n _ x Hq GR). cbn [negb]. rewrite andb_true_r, ptag_count by exact Hx. reflexivity.
Qed.
Lemma ext_edge N q d g : q < length N -> ext N g (upd_nth N q (add_atr d 0)) g [] [].
Proof. intros Hq. split; auto; [rewrite upd_len; lia| |]; intros x Hx; rewrite keepn_edge by assumption; cbn; lia. Qed.

(** ** Pieces *)
(** [N'] extends [N], is in order with [g'], and its last node melts iff [b]. *)
Record piece (N : atn) (g : nat -> bool) (N' : atn) (P' : nat -> bool) (b : bool) (k a : list nat) (g' : nat -> bool) : Prop := {
  pc_w : W N' g' P'; pc_x : ext N g N' g' k a; pc_end : g' (length N' - 1) = b }.
Lemma grow_piece N N' q t n g P b : W N g P -> q < length N -> grown N N' q t n ->
  let v := negb b && isblank n && negb (g q) in
  piece N g N' (mark P (length N) b) v (if v then [] else ptag t) (ptag t) (mark g (length N) v).
Proof.
  intros HW Hq GR v. pose proof GR as (L & _ & _). split; [apply (grow_W N N' q t n); assumption|eapply ext_grow; eassumption|].
  rewrite L. replace (S (length N) - 1) with (length N) by lia. apply mark_eq.
Qed.
Lemma quant_piece q M N g g0 P : W M g0 P -> forall k a r, piece M g0 N (mark P (length M) (repeats q)) r k a g -> length M < length N -> (repeats q = true -> g (length M) = false) ->
  exists g', piece M g0 (quantM q N (length M - 1) (length M)) P (quant_end q r) k a g'.
Proof.
  intros HM k a r [HW HX HE] HL HR. pose proof (w_len _ _ _ HM) as L1.
  assert (CL : forall f b, b = false -> forall j, mark (mark P (length M) b) f false j = mark P f false j).
  { intros f b -> j. unfold mark. destruct (j =? f); [reflexivity|]. destruct (Nat.eqb_spec j (length M)) as [->|]; [symmetry; apply (w_out _ _ _ HM); lia|reflexivity]. }
  assert (PF : forall j, j = length M \/ length N <= j -> P j = false) by (intros j Hj; apply (w_out _ _ _ HM); lia).
  destruct q; cbn [quantM quant_end repeats] in *.
  - exists g. split; auto. apply (W_ext _ _ (mark P (length M) false)); [|exact HW]. intros i. unfold mark. destruct (Nat.eqb_spec i (length M)) as [->|]; [apply PF; auto|reflexivity].
  - (* star *)
    set (N1 := add_node N (length N - 1) 0). assert (G1 : grown N N1 (length N - 1) 0 NBlank) by (apply grown_add; lia). pose proof G1 as (L1' & _ & _).
    destruct (grow_piece N N1 (length N - 1) 0 NBlank g _ false HW ltac:(lia) G1) as [W1 X1 E1]. cbn [negb isblank andb] in W1, X1, E1. set (g1 := mark g (length N) _) in *.
    assert (GA1 : g1 (length M) = false) by (unfold g1; rewrite mark_ne by lia; apply HR; reflexivity).
    pose proof (edge_W N1 (length N1 - 1) (length M) g1 _ W1 ltac:(lia) ltac:(lia) GA1) as W2. set (N2 := upd_nth N1 (length N1 - 1) (add_atr (length M) 0)) in *. assert (L2 : length N2 = length N1) by apply upd_len.
    set (N3 := add_node N2 (length N2 - 1) 0). assert (G3 : grown N2 N3 (length N2 - 1) 0 NBlank) by (apply grown_add; lia). pose proof G3 as (L3' & _ & _).
    destruct (grow_piece N2 N3 (length N2 - 1) 0 NBlank g1 _ true W2 ltac:(lia) G3) as [W3 X3 E3]. cbn [negb isblank andb] in W3, X3, E3. set (g3 := mark g1 (length N2) false) in *.
    assert (GY : g3 (length N3 - 1) = false) by exact E3.
    pose proof (edge_W N3 (length M - 1) (length N3 - 1) g3 _ W3 ltac:(lia) ltac:(lia) GY) as W4.
    exists g3. split.
    + eapply W_ext; [|exact W4]. intros i. unfold mark. destruct (Nat.eqb_spec i (length N3 - 1)) as [->|]; [apply PF; lia|]. destruct (Nat.eqb_spec i (length N2)); [lia|]. destruct (Nat.eqb_spec i (length M)) as [->|]; [apply PF; lia|]. destruct (Nat.eqb_spec i (length N)) as [->|]; [apply PF; lia|reflexivity].
    + pose proof (ext_trans _ _ _ _ _ _ _ _ _ _ HX (ext_trans _ _ _ _ _ _ _ _ _ _ X1 (ext_trans _ _ _ _ _ _ _ _ _ _ (ext_edge N1 (length N1 - 1) (length M) g1 ltac:(lia)) (ext_trans _ _ _ _ _ _ _ _ _ _ X3 (ext_edge N3 (length M - 1) (length N3 - 1) g3 ltac:(lia)))))) as Q.
      destruct (negb (g (length N - 1))); cbn [ptag Nat.eqb app] in Q; rewrite !app_nil_r in Q; exact Q.
    + rewrite upd_len. exact GY.
  - (* plus *)
    set (N1 := add_node N (length N - 1) 0). assert (G1 : grown N N1 (length N - 1) 0 NBlank) by (apply grown_add; lia). pose proof G1 as (L1' & _ & _).
    destruct (grow_piece N N1 (length N - 1) 0 NBlank g _ false HW ltac:(lia) G1) as [W1 X1 E1]. cbn [negb isblank andb] in W1, X1, E1. set (g1 := mark g (length N) _) in *.
    assert (GA1 : g1 (length M) = false) by (unfold g1; rewrite mark_ne by lia; apply HR; reflexivity).
    pose proof (edge_W N1 (length N1 - 1) (length M) g1 _ W1 ltac:(lia) ltac:(lia) GA1) as W2.
    exists g1. split.
    + eapply W_ext; [|exact W2]. intros i. unfold mark. destruct (Nat.eqb_spec i (length M)) as [->|]; [apply PF; lia|]. destruct (Nat.eqb_spec i (length N)) as [->|]; [apply PF; lia|reflexivity].
    + pose proof (ext_trans _ _ _ _ _ _ _ _ _ _ HX (ext_trans _ _ _ _ _ _ _ _ _ _ X1 (ext_edge N1 (length N1 - 1) (length M) g1 ltac:(lia)))) as Q.
      destruct (negb (g (length N - 1))); cbn [ptag Nat.eqb app] in Q; rewrite !app_nil_r in Q; exact Q.
    + rewrite upd_len, E1, HE. reflexivity.
  - (* opt *)
    set (N1 := add_node N (length N - 1) 0). assert (G1 : grown N N1 (length N - 1) 0 NBlank) by (apply grown_add; lia). pose proof G1 as (L1' & _ & _).
    destruct (grow_piece N N1 (length N - 1) 0 NBlank g _ true HW ltac:(lia) G1) as [W1 X1 E1]. cbn [negb isblank andb] in W1, X1, E1. set (g1 := mark g (length N) _) in *.
    pose proof (edge_W N1 (length M - 1) (length N1 - 1) g1 _ W1 ltac:(lia) ltac:(lia) E1) as W2.
    exists g1. split.
    + eapply W_ext; [|exact W2]. intros i. unfold mark. destruct (Nat.eqb_spec i (length N1 - 1)) as [->|]; [apply PF; lia|]. destruct (Nat.eqb_spec i (length N)); [lia|]. destruct (Nat.eqb_spec i (length M)) as [->|]; [apply PF; lia|reflexivity].
    + pose proof (ext_trans _ _ _ _ _ _ _ _ _ _ HX (ext_trans _ _ _ _ _ _ _ _ _ _ X1 (ext_edge N1 (length M - 1) (length N1 - 1) g1 ltac:(lia)))) as Q.
      cbn [ptag Nat.eqb app] in Q; rewrite !app_nil_r in Q; exact Q.
    + rewrite upd_len. exact E1.
Qed.
Lemma join_first A t ts : t < length A -> join A (t :: ts) = fold_left (fun M from => upd_nth M from (add_atr (length M - 1) 0)) ts (add_node A t 0).
Proof.
  intros H. unfold join. cbn [fold_left]. f_equal. rewrite app_length. cbn [length]. replace (length A + 1 - 1) with (length A) by lia. unfold add_node.
  assert (G : forall (f : anode -> anode) (B : atn) u, u < length B -> upd_nth (B ++ [blank]) u f = upd_nth B u f ++ [blank]).
  { intros f. induction B as [|x B IH]; intros u Hu; [cbn in Hu; lia|]. destruct u as [|u]; [reflexivity|]. cbn. f_equal. apply IH. cbn in Hu. lia. }
  apply G. exact H.
Qed.
Lemma join_piece A g P t ts : W A g P -> t < length A -> (forall u, In u ts -> u < length A) ->
  exists g', piece A g (join A (t :: ts)) P (match ts with [] => negb (g t) | _ => false end) [] [] g'.
Proof.
  intros HW Ht Hts. rewrite join_first by exact Ht. assert (PF : P (length A) = false) by (apply (w_out _ _ _ HW); lia).
  set (N1 := add_node A t 0). assert (G1 : grown A N1 t 0 NBlank) by (apply grown_add; lia). pose proof G1 as (L1 & _ & _).
  destruct ts as [|u ts].
  - destruct (grow_piece A N1 _ _ _ g P false HW Ht G1) as [W1 X1 E1]. cbn [negb isblank andb] in W1, X1, E1. eexists. split; [| |exact E1].
    + eapply W_ext; [|exact W1]. intros i. unfold mark. destruct (Nat.eqb_spec i (length A)) as [->|]; [exact PF|reflexivity].
    + cbn [fold_left]. destruct (negb (g t)); exact X1.
  - destruct (grow_piece A N1 _ _ _ g P true HW Ht G1) as [W1 X1 E1]. cbn [negb isblank andb] in W1, X1, E1. set (g1 := mark g (length A) false) in *. exists g1.
    cbn [fold_left]. assert (Hu : u < length A) by (apply Hts; left; reflexivity). specialize (Hts : forall v, In v (u :: ts) -> v < length A).
    pose proof (edge_W N1 u (length N1 - 1) g1 _ W1 ltac:(lia) ltac:(pose proof (w_len _ _ _ HW); lia) E1) as W2. pose proof (ext_edge N1 u (length N1 - 1) g1 ltac:(lia)) as X2.
    assert (W2' : W (upd_nth N1 u (add_atr (length N1 - 1) 0)) g1 P).
    { eapply W_ext; [|exact W2]. intros i. unfold mark. destruct (Nat.eqb_spec i (length N1 - 1)) as [->|]; [rewrite L1; replace (S (length A) - 1) with (length A) by lia; exact PF|]. destruct (Nat.eqb_spec i (length A)); [lia|reflexivity]. }
    pose proof (ext_trans _ _ _ _ _ _ _ _ _ _ X1 X2) as X3. cbn [ptag Nat.eqb app] in X3.
    assert (L2 : length (upd_nth N1 u (add_atr (length N1 - 1) 0)) = length N1) by apply upd_len. set (N2 := upd_nth N1 u (add_atr (length N1 - 1) 0)) in *. rewrite <- L2 in E1.
    assert (LL : length N2 = S (length A)) by congruence. assert (Hts' : forall v, In v ts -> v < length A) by (intros v Hv; apply Hts; right; exact Hv).
    clearbody N2. clear Hts W1 W2 X1 X2 L2. revert N2 E1 W2' X3 LL. induction ts as [|v ts IH]; intros N2 E1 W2 X3 LL; [split; assumption|]. cbn [fold_left]. apply IH.
    + intros w Hw. apply Hts'. right. exact Hw.
    + rewrite upd_len. exact E1.
    + pose proof (Hts' v (or_introl eq_refl)) as Hv. pose proof (edge_W N2 v (length N2 - 1) g1 _ W2 ltac:(lia) ltac:(pose proof (w_len _ _ _ HW); lia) E1) as W3. eapply W_ext; [|exact W3].
      intros i. unfold mark. destruct (Nat.eqb_spec i (length N2 - 1)) as [->|]; [rewrite LL; replace (S (length A) - 1) with (length A) by lia; exact PF|reflexivity].
    + pose proof (Hts' v (or_introl eq_refl)) as Hv. exact (ext_trans _ _ _ _ _ _ _ _ _ _ X3 (ext_edge N2 v (length N2 - 1) g1 ltac:(lia))).
    + rewrite upd_len. exact LL.
Qed.
Lemma ext_count N g N' g' k a k' a' : (forall x, cntp x k = cntp x k') -> (forall x, cntp x a = cntp x a') -> ext N g N' g' k a -> ext N g N' g' k' a'.
Proof. intros E1 E2 [A B C D]. split; auto; intros x Hx; [rewrite <- E1|rewrite <- E2]; auto. Qed.

(** ** Rule bodies *)
Definition alts_fit (ws : bool) (e : gsel) (M : atn) (g P : nat -> bool) : Prop :=
  let '(A, prio, terms) := balts ws e M (length M - 1) in let o := g (length M - 1) in
  prio = level e /\ exists g', W A g' P /\ ext M g A g' ((if o then own e else []) ++ sel_kept (negb o) e) (own e ++ sel_written e) /\
    (forall t, In t terms -> t < length A) /\
    match e with GFirst s => exists t, terms = [t] /\ g' t = seq_end (negb o) s | GAlt _ _ _ => exists t u ts, terms = t :: u :: ts end.
Lemma build_bars ws :
  (forall a M g P b, W M g P -> exists g', piece M g (batom ws a M) (mark P (length M) b) (atom_end (g (length M - 1)) b a) (atom_kept (g (length M - 1)) b a) (atom_written a) g' /\
     length M < length (batom ws a M) /\ (b = true -> g' (length M) = false)) /\
  (forall s M g P, W M g P -> exists g', piece M g (bseq ws s M) P (seq_end (g (length M - 1)) s) (seq_kept (g (length M - 1)) s) (seq_written s) g') /\
  (forall e M g P, W M g P -> alts_fit ws e M g P).
Proof.
  apply g_ind.
  - (* term *)
    intros x M g P b HW. pose proof (w_len _ _ _ HW) as L1. cbn [batom atom_end atom_kept atom_written].
    assert (ONE : forall n, n <> NBlank -> exists g', piece M g (push_node M n) (mark P (length M) b) false [] [] g' /\ length M < length (push_node M n) /\ (b = true -> g' (length M) = false)).
    { intros n Hn. assert (BN : isblank n = false) by (destruct (isblank n) eqn:X; [apply isblank_spec in X; congruence|reflexivity]).
      assert (Hq : length M - 1 < length M) by lia. pose proof (grow_piece M _ _ _ _ g P b HW Hq (grown_push M n L1)) as Q. cbv zeta in Q. rewrite BN, andb_false_r in Q. cbn [andb ptag Nat.eqb] in Q.
      eexists. split; [exact Q|]. split; [rewrite push_node_len; lia|]. intros _. apply mark_eq. }
    assert (TWO : forall n, n <> NBlank -> exists g', piece M g (push_node (push_node M NWs) n) (mark P (length M) b) false [] [] g' /\ length M < length (push_node (push_node M NWs) n) /\ (b = true -> g' (length M) = false)).
    { intros n Hn. destruct (ONE NWs ltac:(discriminate)) as (g1 & [W1 X1 E1] & L2 & B1). assert (BN : isblank n = false) by (destruct (isblank n) eqn:X; [apply isblank_spec in X; congruence|reflexivity]).
      set (M1 := push_node M NWs) in *. pose proof (w_len _ _ _ W1) as L3.
      assert (Hq : length M1 - 1 < length M1) by lia. pose proof (grow_piece M1 _ _ _ _ g1 _ false W1 Hq (grown_push M1 n L3)) as Q. cbv zeta in Q. rewrite BN, andb_false_r in Q. cbn [andb ptag Nat.eqb] in Q. destruct Q as [W2 X2 E2].
      eexists. split; [split; [| |exact E2]|].
      - eapply W_ext; [|exact W2]. intros i. unfold mark at 2. destruct (Nat.eqb_spec i (length M1)) as [->|]; [|reflexivity]. rewrite mark_ne by lia. apply (w_out _ _ _ HW). lia.
      - exact (ext_trans _ _ _ _ _ _ _ _ _ _ X1 X2).
      - split; [rewrite push_node_len; lia|]. intros Hb. rewrite mark_ne by lia. apply B1. exact Hb. }
    unfold push_term. destruct (term_nty x) eqn:EX; try (apply ONE; discriminate); try (destruct ws; [apply TWO|apply ONE]; discriminate). destruct x; discriminate.
  - (* group *)
    intros e IH M g P b HW. pose proof (w_len _ _ _ HW) as L1. cbn [batom atom_end atom_kept atom_written].
    set (M1 := add_node M (length M - 1) 0). assert (Hq : length M - 1 < length M) by lia. pose proof (grown_add M (length M - 1) 0 Hq) as G1. fold M1 in G1. pose proof G1 as (LM & _ & _).
    pose proof (grow_piece M M1 _ _ _ g P b HW Hq G1) as Q. cbv zeta in Q. cbn [isblank ptag Nat.eqb] in Q. rewrite andb_true_r in Q. fold (entrance_melts (g (length M - 1)) b) in Q. set (o := entrance_melts _ _) in *.
    destruct Q as [W1 X1 E1]. replace (if o then [] else []) with (@nil nat) in X1 by (destruct o; reflexivity). set (g1 := mark g (length M) o) in *.
    specialize (IH M1 g1 _ W1). unfold alts_fit in IH. destruct (balts ws e M1 (length M1 - 1)) as [[A prio] terms]. cbv zeta in IH. rewrite E1 in IH. destruct IH as (_ & g2 & W2 & X2 & HT & SH).
    pose proof (x_len _ _ _ _ _ _ X2) as L2.
    destruct terms as [|t ts]; [destruct e; [destruct SH as (? & ? & _); discriminate|destruct SH as (? & ? & ? & ?); discriminate]|].
    destruct (join_piece A g2 _ t ts W2 (HT t (or_introl eq_refl)) (fun u Hu => HT u (or_intror Hu))) as (g3 & [W3 X3 E3]).
    exists g3. pose proof (x_len _ _ _ _ _ _ X3) as L3. split; [split|split; [lia|]].
    + exact W3.
    + pose proof (ext_trans _ _ _ _ _ _ _ _ _ _ X1 (ext_trans _ _ _ _ _ _ _ _ _ _ X2 X3)) as Q. cbn [app] in Q. rewrite !app_nil_r in Q. exact Q.
    + rewrite E3. destruct e as [s|e up s]; cbn [sel_end].
      * destruct SH as (t' & E & GT). injection E as -> ->. rewrite GT. reflexivity.
      * destruct SH as (t' & u & ts' & E). injection E as -> ->. reflexivity.
    + intros ->. rewrite (x_same _ _ _ _ _ _ X3) by lia. rewrite (x_same _ _ _ _ _ _ X2) by lia. apply mark_eq.
  - (* empty sequence *)
    intros M g P HW. exists g. cbn [bseq seq_end seq_kept seq_written]. split; [exact HW|apply ext_refl|reflexivity].
  - (* atom, then a sequence *)
    intros a IHa q s IHs M g P HW. cbn [bseq seq_end seq_kept seq_written].
    destruct (IHa M g P (repeats q) HW) as (g1 & P1 & L1 & B1). destruct (quant_piece q M _ g1 g P HW _ _ _ P1 L1 B1) as (g2 & [W2 X2 E2]).
    destruct (IHs _ g2 P W2) as (g3 & [W3 X3 E3]). rewrite E2 in *. exists g3. split; [exact W3|exact (ext_trans _ _ _ _ _ _ _ _ _ _ X2 X3)|exact E3].
  - (* first alternative *)
    intros s IH M g P HW. unfold alts_fit. cbn [balts level own sel_kept sel_written]. cbv zeta. split; [reflexivity|]. pose proof (w_len _ _ _ HW) as L1.
    assert (Hq : length M - 1 < length M) by lia. pose proof (grown_add M (length M - 1) 0 Hq) as G1. set (M1 := add_node M (length M - 1) 0) in *.
    pose proof (grow_piece M M1 _ _ _ g P false HW Hq G1) as Q. cbv zeta in Q. cbn [isblank ptag Nat.eqb negb andb] in Q. destruct Q as [W1 X1 E1]. set (o := g (length M - 1)) in *.
    replace (if negb o then [] else []) with (@nil nat) in X1 by (destruct o; reflexivity). replace (if o then [] else []) with (@nil nat) by (destruct o; reflexivity).
    assert (W1' : W M1 (mark g (length M) (negb o)) P).
    { eapply W_ext; [|exact W1]. intros i. unfold mark. destruct (Nat.eqb_spec i (length M)) as [->|]; [apply (w_out _ _ _ HW); lia|reflexivity]. }
    destruct (IH M1 _ P W1') as (g2 & [W2 X2 E2]). rewrite E1 in *. exists g2. split; [exact W2|]. split; [exact (ext_trans _ _ _ _ _ _ _ _ _ _ X1 X2)|]. pose proof (w_len _ _ _ W2). split; [intros t [<-|[]]; lia|]. eauto.
  - (* one more alternative *)
    intros e IHe up s IHs M g P HW. unfold alts_fit. specialize (IHe M g P HW). unfold alts_fit in IHe. cbn [balts]. destruct (balts ws e M (length M - 1)) as [[A prio] terms]. cbv zeta in IHe |- *. pose proof (w_len _ _ _ HW) as L1.
    destruct IHe as (-> & g1 & W1 & X1 & HT & SH). set (k := if up then S (level e) else level e) in *. split; [reflexivity|]. pose proof (x_len _ _ _ _ _ _ X1) as L2.
    assert (Hq : length M - 1 < length A) by lia. pose proof (grown_add A (length M - 1) k Hq) as G1. set (A1 := add_node A (length M - 1) k) in *. pose proof G1 as (LA & _ & _).
    pose proof (grow_piece A A1 _ _ _ g1 P false W1 Hq G1) as Q. cbv zeta in Q. cbn [isblank negb andb] in Q. rewrite (x_same _ _ _ _ _ _ X1) in Q by lia. set (o := g (length M - 1)) in *. destruct Q as [W2 X2 E2].
    assert (W2' : W A1 (mark g1 (length A) (negb o)) P).
    { eapply W_ext; [|exact W2]. intros i. unfold mark. destruct (Nat.eqb_spec i (length A)) as [->|]; [apply (w_out _ _ _ W1); lia|reflexivity]. }
    destruct (IHs A1 _ P W2') as (g3 & [W3 X3 E3]). rewrite E2 in *. exists g3. split; [exact W3|]. split; [|split].
    + eapply ext_count; [| |exact (ext_trans _ _ _ _ _ _ _ _ _ _ X1 (ext_trans _ _ _ _ _ _ _ _ _ _ X2 X3))]; intros x; cbn [own sel_kept sel_written]; fold k; fold (ptag k); [destruct o; cbn [negb]|]; rewrite ?count_occ_app; cbn [count_occ]; lia.
    + pose proof (x_len _ _ _ _ _ _ X3). intros t Ht. apply in_app_or in Ht as [Ht|[<-|[]]]; [specialize (HT t Ht); lia|]. pose proof (w_len _ _ _ W3). lia.
    + destruct e as [s0|e0 up0 s0]; [destruct SH as (t & -> & _); cbn [app]; eauto|destruct SH as (t & u & ts & ->); cbn [app]; eauto].
Qed.
Lemma kept_written :
  (forall a d r, atom_kept d r a = atom_written a \/ length (atom_kept d r a) < length (atom_written a)) /\
  (forall s d, seq_kept d s = seq_written s \/ length (seq_kept d s) < length (seq_written s)) /\
  (forall e h, sel_kept h e = sel_written e \/ length (sel_kept h e) < length (sel_written e)).
Proof.
  assert (APP : forall (a b a' b' : list nat), a = a' \/ length a < length a' -> b = b' \/ length b < length b' -> a ++ b = a' ++ b' \/ length (a ++ b) < length (a' ++ b')).
  { intros a b a' b' [->|A] [->|B]; [auto| | |]; right; rewrite !app_length; lia. }
  apply g_ind; cbn [atom_kept atom_written seq_kept seq_written sel_kept sel_written]; auto.
  intros e IH d r. apply APP; [|apply IH]. destruct (entrance_melts d r); [auto|]. destruct (own e); [auto|right; cbn; lia].
Qed.
Definition priorities (M : atn) : list nat := filter (fun k => negb (k =? 0)) (flat_map (fun n => map snd (atrs n)) M).
Lemma count_priorities M x : cntp x (priorities M) = if x =? 0 then 0 else cntp x (tags M).
Proof.
  unfold priorities, tags. induction (flat_map _ M) as [|y l IH]; [destruct (x =? 0); reflexivity|]. cbn [filter count_occ]. destruct (Nat.eqb_spec y 0) as [->|N0]; cbn [negb].
  - rewrite IH. destruct (Nat.eqb_spec x 0) as [->|]; [reflexivity|]. destruct (Nat.eq_dec 0 x); [congruence|reflexivity].
  - cbn [count_occ]. rewrite IH. destruct (Nat.eq_dec y x) as [->|]; [|reflexivity]. rewrite (proj2 (Nat.eqb_neq x 0) N0). reflexivity.
Qed.
Lemma own_pos e x : In x (own e) -> 0 < x.
Proof.
  induction e as [s|e up s IH] using gsel_list_ind; cbn [own]; [intros []|]. rewrite in_app_iff. cbv zeta. intros [H|H]; [exact (IH H)|].
  destruct (if up then S (level e) else level e); [destruct H|destruct H as [<-|[]]; lia].
Qed.
Lemma written_pos : (forall a x, In x (atom_written a) -> 0 < x) /\ (forall s x, In x (seq_written s) -> 0 < x) /\ (forall e x, In x (sel_written e) -> 0 < x).
Proof.
  apply g_ind; cbn [atom_written seq_written sel_written].
  - intros ? ? [].
  - intros e IH x Hx. apply in_app_or in Hx as [Hx|Hx]; [eapply own_pos; exact Hx|eauto].
  - intros ? [].
  - intros a IHa q s IHs x Hx. apply in_app_or in Hx as [Hx|Hx]; eauto.
  - eauto.
  - intros e IHe up s IHs x Hx. apply in_app_or in Hx as [Hx|Hx]; eauto.
Qed.
Lemma kept_pos : (forall a d r x, In x (atom_kept d r a) -> 0 < x) /\ (forall s d x, In x (seq_kept d s) -> 0 < x) /\ (forall e h x, In x (sel_kept h e) -> 0 < x).
Proof.
  apply g_ind; cbn [atom_kept seq_kept sel_kept].
  - intros ? ? ? ? [].
  - intros e IH d r x Hx. apply in_app_or in Hx as [Hx|Hx]; [|eauto]. destruct (entrance_melts d r); [eapply own_pos; exact Hx|destruct Hx].
  - intros ? ? [].
  - intros a IHa q s IHs d x Hx. apply in_app_or in Hx as [Hx|Hx]; eauto.
  - eauto.
  - intros e IHe up s IHs h x Hx. apply in_app_or in Hx as [Hx|Hx]; eauto.
Qed.
Lemma perm_pos l l' : (forall x, In x l -> 0 < x) -> (forall x, In x l' -> 0 < x) -> (forall x, 0 < x -> cntp x l = cntp x l') -> Permutation l l'.
Proof.
  intros A B C. apply (Permutation_count_occ Nat.eq_dec). intros [|x]; [|apply C; lia].
  assert (Z : forall k, (forall x, In x k -> 0 < x) -> cntp 0 k = 0) by (intros k K; apply count_occ_not_In; intros H; specialize (K 0 H); lia). rewrite !Z by assumption. reflexivity.
Qed.
Lemma priorities_pos M x : In x (priorities M) -> 0 < x.
Proof. unfold priorities. intros H. apply filter_In in H as [_ H]. destruct x; [discriminate|lia]. Qed.
Theorem body_bars ws e : exists M', drop_passthrough (build_body ws e) = Some M' /\
  Permutation (priorities (build_body ws e)) (body_written e) /\ Permutation (priorities M') (body_kept e) /\
  (body_kept e = body_written e -> forall w, ppath M' 0 w (length M' - 1) <-> ppath (build_body ws e) 0 w (length (build_body ws e) - 1)).
Proof.
  set (g0 := fun _ : nat => false).
  assert (W0 : W [blank] g0 g0).
  { destruct body_base as (B1 & B2 & _). split; auto; [intros i Hi; cbn in Hi; lia|intros i Hi; cbn in Hi; lia]. }
  destruct (proj1 (build_bars ws) (GGroup e) [blank] g0 g0 false W0) as (g & [HW HX _] & LL & _). fold (bsel ws e [blank]) in *. fold (build_body ws e) in *.
  assert (LAST : edges (build_body ws e) (length (build_body ws e) - 1) = [] /\ forall p k, ~ In (length (build_body ws e) - 1, S k) (edges (build_body ws e) p)).
  { unfold build_body, bsel. cbn [batom]. set (M1 := add_node [blank] (length [blank] - 1) 0).
    assert (Hq : length [blank] - 1 < length [blank]) by (cbn; lia). pose proof (grow_W _ _ _ _ _ _ _ false W0 Hq (grown_add [blank] (length [blank] - 1) 0 Hq)) as W1. fold M1 in W1.
    pose proof (proj2 (proj2 (build_bars ws)) e M1 _ _ W1) as Q. unfold alts_fit in Q. destruct (balts ws e M1 (length M1 - 1)) as [[A prio] terms]. cbv zeta in Q. destruct Q as (_ & g2 & W2 & _ & HT & _).
    destruct (join_facts A terms HT) as (J1 & _ & J3 & _). rewrite J1. replace (S (length A) - 1) with (length A) by lia. split.
    - assert (D : dests (join A terms) (length A) = []) by (rewrite J3; [unfold dests; rewrite to_out by lia; reflexivity|intros H; specialize (HT _ H); lia]). unfold dests in D. destruct (edges (join A terms) (length A)); [reflexivity|discriminate].
    - intros p k H. apply (proj2 (notag_join A terms HT)) in H. assert (length A < length A) by (apply (w_closed _ _ _ W2 p); apply in_dests; eauto). lia. }
  destruct LAST as [LO LT]. cbn [length] in LL. set (M := build_body ws e) in *. set (h := fun i => g i && (i <? length M - 1)).
  assert (HG : gone_in M h).
  { intros i. unfold h. rewrite andb_true_iff, Nat.ltb_lt. split.
    - intros [G1 G2]. assert (1 <= i) by (destruct i; [rewrite (w_zero _ _ _ HW) in G1; discriminate|lia]). apply (w_g _ _ _ HW) in G1; [|lia]. destruct G1 as (_ & B & D & p & t & E & Gp). split; [lia|]. split; [exact B|].
      exists p. split; [apply sole; eauto|]. rewrite Gp. reflexivity.
    - intros (Hi & B & p & E & Gp). split; [|lia]. apply sole in E as [D (t & E)]. apply (w_g _ _ _ HW); [lia|]. split; [unfold mark, g0; destruct (i =? _); reflexivity|]. split; [exact B|]. split; [exact D|]. exists p, t. split; [exact E|].
      apply andb_false_iff in Gp as [Gp|Gp]; [exact Gp|]. apply Nat.ltb_ge in Gp. pose proof (edge_lt _ _ _ E). replace p with (length M - 1) in E by lia. rewrite LO in E. destruct E. }
  assert (KH : forall x, 0 < x -> keepn M h x = keepn M g x).
  { intros x Hx. unfold keepn. apply sumf_ext. intros p _. apply filter_len_ext. intros [d u] He. cbn [fst snd]. destruct (Nat.eqb_spec u x) as [->|]; [|reflexivity]. cbn [andb]. f_equal. unfold h.
    assert (d < length M - 1); [|rewrite (proj2 (Nat.ltb_lt _ _)) by assumption; apply andb_true_r].
    assert (d < length M) by (apply (w_closed _ _ _ HW p); apply in_dests; eauto). destruct (Nat.eq_dec d (length M - 1)) as [->|]; [|lia]. destruct x as [|x]; [lia|]. destruct (LT _ _ He). }
  assert (ALL : forall x, cntp x (tags M) = keepn M (fun _ => false) x).
  { intros x. rewrite count_tags. unfold keepn. apply sumf_ext. intros p _. apply filter_len_ext. intros y _. cbn [negb]. rewrite andb_true_r. reflexivity. }
  assert (B0 : forall f x, keepn [blank] f x = 0) by reflexivity.
  destruct (gone_kept M h (w_backed _ _ _ HW) (w_closed _ _ _ HW) HG ltac:(lia)) as (M' & D & C). exists M'. split; [exact D|]. split; [|split].
  - apply perm_pos; [intros x; apply priorities_pos|exact (proj1 written_pos (GGroup e))|]. intros x Hx. rewrite count_priorities, (proj2 (Nat.eqb_neq x 0)) by lia. rewrite ALL, (x_all _ _ _ _ _ _ HX) by exact Hx. rewrite B0. reflexivity.
  - apply perm_pos; [intros x; apply priorities_pos|exact (proj1 kept_pos (GGroup e) false false)|]. intros x Hx. rewrite count_priorities, (proj2 (Nat.eqb_neq x 0)) by lia. rewrite C, KH, (x_keep _ _ _ _ _ _ HX) by exact Hx. rewrite B0. reflexivity.
  - intros EQ. apply (gone_paths M h (w_backed _ _ _ HW) HG); [lia| |exact D]. intros i p t Hi He.
    pose proof (x_keep _ _ _ _ _ _ HX (S t) ltac:(lia)) as K. pose proof (x_all _ _ _ _ _ _ HX (S t) ltac:(lia)) as K2. rewrite B0 in K, K2. unfold body_kept, body_written in EQ. change (g0 (length [blank] - 1)) with false in K. rewrite EQ in K. rewrite <- KH in K by lia.
    (* the edge is counted in one sum and not in the other *)
    assert (LT1 : keepn M h (S t) < keepn M (fun _ => false) (S t)); [|lia]. unfold keepn. pose proof (edge_lt _ _ _ He) as Lp. clear - Hi He Lp.
    set (a := fun p => length (filter (fun e => (snd e =? S t) && negb (h (fst e))) (edges M p))). set (b := fun p => length (filter (fun e => (snd e =? S t) && negb false) (edges M p))).
    assert (LE : forall q, a q <= b q).
    { intros q. unfold a, b. rewrite (filter_len_split (fun e : nat * nat => (snd e =? S t) && negb false) (fun e => negb (h (fst e)))).
      rewrite (filter_len_ext (fun e : nat * nat => (snd e =? S t) && negb (h (fst e))) (fun x => (snd x =? S t) && negb false && negb (h (fst x)))); [lia|]. intros x _. rewrite andb_true_r. reflexivity. }
    assert (LTp : a p < b p).
    { unfold a, b. rewrite (filter_len_split (fun e : nat * nat => (snd e =? S t) && negb false) (fun e => negb (h (fst e)))).
      rewrite (filter_len_ext (fun e : nat * nat => (snd e =? S t) && negb (h (fst e))) (fun x => (snd x =? S t) && negb false && negb (h (fst x)))) by (intros x _; rewrite andb_true_r; reflexivity).
      assert (In (i, S t) (filter (fun x : nat * nat => (snd x =? S t) && negb false && negb (negb (h (fst x)))) (edges M p))) by (apply filter_In; split; [exact He|]; cbn [fst snd]; rewrite Nat.eqb_refl, Hi; reflexivity).
      destruct (filter (fun x : nat * nat => (snd x =? S t) && negb false && negb (negb (h (fst x)))) (edges M p)); [destruct H|cbn [length]; lia]. }
    assert (G : forall n, sumf a n <= sumf b n) by (induction n as [|n IHn]; [cbn; lia|cbn [sumf]; specialize (LE n); lia]).
    clear - Lp LTp G LE. revert Lp. generalize (length M). intros n. induction n as [|n IHn]; intros L; [lia|]. cbn [sumf]. destruct (Nat.eq_dec p n) as [->|NE]; [specialize (G n); lia|]. specialize (IHn ltac:(lia)). specialize (LE n). lia.
Qed.
Lemma plain_none : (forall a, plain_atom a -> atom_written a = []) /\ (forall s, plain_seq s -> seq_written s = []) /\ (forall e, plain_sel e -> own e = [] /\ level e = 0 /\ sel_written e = []).
Proof.
  apply g_ind; cbn [plain_atom plain_seq plain_sel atom_written seq_written sel_written own level]; auto.
  - intros e IH H. destruct (IH H) as (-> & _ & ->). reflexivity.
  - intros a IHa q s IHs [H1 H2]. rewrite IHa, IHs by assumption. reflexivity.
  - intros e IHe up s IHs (-> & H1 & H2). destruct (IHe H1) as (-> & E & ->). rewrite E, IHs by assumption. auto.
Qed.
Lemma top_kept e : top_bars e -> body_kept e = body_written e.
Proof.
  unfold body_kept, body_written. cbn [atom_kept atom_written]. change (entrance_melts false false) with true. cbv iota. intros H. f_equal. 
  assert (NIL : forall l : list nat, length l = 0 -> l = []) by (intros [|? ?]; [reflexivity|discriminate]).
  assert (Z : forall s h, plain_seq s -> seq_kept h s = [] /\ seq_written s = []).
  { intros s h Hs. pose proof (proj1 (proj2 plain_none) s Hs) as E. split; [|exact E]. destruct (proj1 (proj2 kept_written) s h) as [Q|Q]; rewrite E in Q; [exact Q|cbn in Q; lia]. }
  induction e as [s|e up s IH] using gsel_list_ind; cbn [top_bars sel_kept sel_written] in *; [destruct (Z s (negb true) H) as [-> ->]; reflexivity|].
  destruct H as [H1 H2]. destruct (Z s (negb true) H2) as [-> ->]. rewrite IH by exact H1. reflexivity.
Qed.
