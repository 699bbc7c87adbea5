(** The network the parser builds for a syntax tree, and its exact language. *)
From Coq Require Import List NArith Arith Bool Lia.
From Verif Require Import CharClass NFA NFAProofs NFABuild RegexSpec GrammarSpec ATN ATNSem.
Import ListNotations.
Local Open Scope nat_scope.

(** ** Construction *)
Definition term_nty (x : term) : nty :=
  match x with TRule id => NInv id | TLit s => NLit (map narrow s) | TPat p => NReg (build_pat p) end.
Definition push_term (ws : bool) (M : atn) (n : nty) : atn :=
  match n with
  | NLit _ | NReg _ => if ws then push_node (push_node M NWs) n else push_node M n
  | _ => push_node M n
  end.
Definition quantM (q : gquant) (M : atn) (origin anchor : nat) : atn :=
  match q with
  | GOne => M
  | GStar =>
    let M1 := add_node M (length M - 1) 0 in
    let M2 := upd_nth M1 (length M1 - 1) (add_atr anchor 0) in
    let M3 := add_node M2 (length M2 - 1) 0 in
    upd_nth M3 origin (add_atr (length M3 - 1) 0)
  | GPlus =>
    let M1 := add_node M (length M - 1) 0 in
    upd_nth M1 (length M1 - 1) (add_atr anchor 0)
  | GOpt =>
    let M1 := add_node M (length M - 1) 0 in
    upd_nth M1 origin (add_atr (length M1 - 1) 0)
  end.
Fixpoint batom (ws : bool) (a : gatom) (M : atn) : atn :=
  match a with
  | GTerm x => push_term ws M (term_nty x)
  | GGroup e => let M1 := add_node M (length M - 1) 0 in
                let '(M2, _, terms) := balts ws e M1 (length M1 - 1) in join M2 terms
  end
with bseq (ws : bool) (s : gseq) (M : atn) : atn :=
  match s with
  | GNil => M
  | GCons a q s => bseq ws s (quantM q (batom ws a M) (length M - 1) (length M))
  end
with balts (ws : bool) (e : gsel) (M : atn) (origin : nat) : atn * nat * list nat :=
  match e with
  | GFirst s => let M1 := bseq ws s (add_node M origin 0) in (M1, 0, [length M1 - 1])
  | GAlt e up s =>
    let '(M1, prio, terms) := balts ws e M origin in
    let prio := if up then S prio else prio in
    let M2 := bseq ws s (add_node M1 origin prio) in
    (M2, prio, terms ++ [length M2 - 1])
  end.
Definition bsel (ws : bool) (e : gsel) (M : atn) : atn := batom ws (GGroup e) M.
Definition build_body (ws : bool) (e : gsel) : atn := bsel ws e [blank].
(** What a terminal contributes to a path: patterns and literals are preceded by white space. *)
Definition term_word (ws : bool) (x : term) : list nty :=
  match x with TRule _ => [term_nty x] | _ => if ws then [NWs; term_nty x] else [term_nty x] end.

(** ** Nodes of modified networks *)
Lemma to_upd M i f j : f blank = blank \/ i < length M -> tonode (upd_nth M i f) j = if j =? i then f (tonode M j) else tonode M j.
Proof.
  unfold tonode. revert i j. induction M as [|n M IH]; intros i j H.
  - cbn in H. assert (f blank = blank) by (destruct H; [assumption|lia]). destruct i, j; cbn; try congruence; destruct (_ =? _); congruence.
  - destruct i as [|i], j as [|j]; cbn; try reflexivity. apply IH. cbn in H. destruct H; [auto|right; lia].
Qed.
Lemma to_app M N j : tonode (M ++ N) j = if j <? length M then tonode M j else tonode N (j - length M).
Proof. unfold tonode. destruct (j <? length M) eqn:E; [apply app_nth1; apply Nat.ltb_lt; exact E|apply app_nth2; apply Nat.ltb_ge in E; lia]. Qed.
Lemma upd_len {A} (l : list A) i f : length (upd_nth l i f) = length l.
Proof. revert i. induction l as [|x l IH]; intros [|i]; cbn; auto. Qed.
Lemma to_out M j : length M <= j -> tonode M j = blank.
Proof. apply nth_overflow. Qed.
Lemma dests_add n d t : map fst (atrs (add_atr d t n)) = map fst (atrs n) ++ [d].
Proof. cbn. rewrite map_app. reflexivity. Qed.

Lemma add_node_len M from tag : length (add_node M from tag) = S (length M).
Proof. unfold add_node. rewrite app_length, upd_len. cbn. lia. Qed.
Lemma add_node_dests M from tag j : from < length M -> dests (add_node M from tag) j = dests M j ++ (if j =? from then [length M] else []).
Proof.
  intros H. unfold dests, add_node. rewrite to_app, upd_len. destruct (j <? length M) eqn:E.
  - rewrite to_upd by auto. destruct (j =? from); [apply dests_add|rewrite app_nil_r; reflexivity].
  - apply Nat.ltb_ge in E. rewrite (to_out M j E). destruct (j =? from) eqn:E2; [apply Nat.eqb_eq in E2; lia|]. cbn.
    destruct (j - length M) as [|[|k]]; reflexivity.
Qed.
Lemma add_node_rd M from tag j : rd (add_node M from tag) j = rd M j.
Proof.
  unfold rd, add_node. rewrite to_app, upd_len. destruct (j <? length M) eqn:E.
  - assert (K : nt (tonode (upd_nth M from (add_atr (length M) tag)) j) = nt (tonode M j)); [|rewrite K; reflexivity].
    destruct (Nat.lt_ge_cases from (length M)) as [L|L]; [rewrite to_upd by auto; destruct (j =? from); reflexivity|].
    assert (Z : forall (l : atn) i f, length l <= i -> upd_nth l i f = l) by (induction l as [|x l IH]; intros [|i] f H; cbn in *; try lia; f_equal; auto; apply IH; lia).
    rewrite Z by exact L. reflexivity.
  - apply Nat.ltb_ge in E. rewrite (to_out M j E). destruct (j - length M) as [|[|k]]; reflexivity.
Qed.
Lemma upd_dests M i d t j : i < length M -> dests (upd_nth M i (add_atr d t)) j = dests M j ++ (if j =? i then [d] else []).
Proof. intros H. unfold dests. rewrite to_upd by auto. destruct (j =? i); [apply dests_add|rewrite app_nil_r; reflexivity]. Qed.
Lemma upd_rd M i d t j : i < length M -> rd (upd_nth M i (add_atr d t)) j = rd M j.
Proof. intros H. unfold rd. rewrite to_upd by auto. destruct (j =? i); reflexivity. Qed.
Lemma push_node_len M n : length (push_node M n) = S (length M).
Proof. unfold push_node. rewrite app_length, upd_len. cbn. lia. Qed.
Lemma push_node_dests M n j : 1 <= length M -> dests (push_node M n) j = dests M j ++ (if j =? length M - 1 then [length M] else []).
Proof.
  intros H. unfold dests, push_node. rewrite to_app, upd_len. destruct (j <? length M) eqn:E.
  - rewrite to_upd by lia. destruct (j =? length M - 1); [apply dests_add|rewrite app_nil_r; reflexivity].
  - apply Nat.ltb_ge in E. rewrite (to_out M j E). destruct (j =? length M - 1) eqn:E2; [apply Nat.eqb_eq in E2; lia|]. cbn.
    destruct (j - length M) as [|[|k]]; reflexivity.
Qed.
Lemma push_node_rd M n j : 1 <= length M -> rd (push_node M n) j = if j =? length M then reads n else rd M j.
Proof.
  intros H. unfold rd, push_node. rewrite to_app, upd_len. destruct (j <? length M) eqn:E.
  - apply Nat.ltb_lt in E. rewrite to_upd by lia. destruct (j =? length M) eqn:E2; [apply Nat.eqb_eq in E2; lia|]. destruct (j =? length M - 1); reflexivity.
  - apply Nat.ltb_ge in E. rewrite (to_out M j E). destruct (j =? length M) eqn:E2.
    + apply Nat.eqb_eq in E2. subst j. rewrite Nat.sub_diag. reflexivity.
    + apply Nat.eqb_neq in E2. destruct (j - length M) as [|[|k]] eqn:E3; [lia|reflexivity|reflexivity].
Qed.

(** ** Extensions *)
Definition closed (M : atn) : Prop := forall i d, In d (dests M i) -> d < length M.
Definition sub (M M' : atn) : Prop :=
  1 <= length M <= length M' /\
  (forall i, i < length M -> rd M' i = rd M i) /\
  (forall i, i < length M - 1 -> dests M' i = dests M i) /\
  (forall d, In d (dests M (length M - 1)) -> In d (dests M' (length M - 1))) /\
  (forall d, In d (dests M' (length M - 1)) -> In d (dests M (length M - 1)) \/ length M <= d) /\
  (forall i d, length M <= i -> In d (dests M' i) -> length M <= d).
Lemma sub_refl M : 1 <= length M -> sub M M.
Proof.
  intros H. repeat split; auto; try lia. intros i d Hi Hd. unfold dests in Hd. rewrite to_out in Hd by exact Hi. destruct Hd.
Qed.
Lemma sub_dests M M' i d : sub M M' -> i < length M -> In d (dests M i) -> In d (dests M' i).
Proof.
  intros (_ & _ & H1 & H2 & _) Hi Hd. destruct (Nat.eq_dec i (length M - 1)) as [->|E]; [auto|]. rewrite H1 by lia. exact Hd.
Qed.
Lemma sub_dests_inv M M' i d : sub M M' -> i < length M -> In d (dests M' i) -> In d (dests M i) \/ (i = length M - 1 /\ length M <= d).
Proof.
  intros (_ & _ & H1 & _ & H3 & _) Hi Hd. destruct (Nat.eq_dec i (length M - 1)) as [->|E].
  - destruct (H3 d Hd); auto.
  - rewrite H1 in Hd by lia. auto.
Qed.
Lemma sub_trans A B C : closed B -> sub A B -> sub B C -> sub A C.
Proof.
  intros HB HAB HBC. pose proof HAB as (L1 & R1 & D1 & K1 & N1 & Z1). pose proof HBC as (L2 & R2 & D2 & K2 & N2 & Z2).
  split; [lia|]. split; [intros i Hi; rewrite R2 by lia; apply R1; exact Hi|]. split; [|split; [|split]].
  - intros i Hi. rewrite D2 by lia. apply D1. exact Hi.
  - intros d Hd. apply (sub_dests B C); [exact HBC|lia|auto].
  - intros d Hd. apply (sub_dests_inv B C) in Hd; [|exact HBC|lia]. destruct Hd as [Hd|[_ Hd]]; [auto|right; lia].
  - intros i d Hi Hd. destruct (Nat.lt_ge_cases i (length B)) as [Q|Q].
    + apply (sub_dests_inv B C) in Hd; [|exact HBC|exact Q]. destruct Hd as [Hd|[_ Hd]]; [eauto|lia].
    + specialize (Z2 i d Q Hd). lia.
Qed.
Lemma path_keep M M' p w q : sub M M' -> closed M -> p < length M -> apath M p w q -> apath M' p w q.
Proof.
  intros HS HC. intros Hp H. induction H as [p|p q w r Hq H IH]; [constructor|].
  assert (q < length M) by (eapply HC; eauto). destruct HS as (L & R & HS). rewrite <- R by assumption.
  apply ap_step; [apply (sub_dests M M'); [split; [exact L|split; [exact R|exact HS]]|exact Hp|exact Hq]|auto].
Qed.
Lemma path_stay M M' p w q : sub M M' -> length M <= p -> apath M' p w q -> length M <= q.
Proof. intros HS Hp H. induction H as [p|p q w r Hq H IH]; [exact Hp|]. apply IH. destruct HS as (_ & _ & _ & _ & _ & Z). eapply Z; eauto. Qed.
Lemma path_old M M' p w q : sub M M' -> p < length M -> q < length M -> apath M' p w q -> apath M p w q.
Proof.
  intros HS Hp Hq H. induction H as [p|p d w r Hd H IH]; [constructor|].
  destruct (Nat.lt_ge_cases d (length M)) as [Q|Q].
  - apply (sub_dests_inv M M') in Hd; [|exact HS|exact Hp]. destruct Hd as [Hd|[_ Hd]]; [|lia].
    pose proof (proj1 (proj2 HS)) as R. rewrite R by exact Q. apply ap_step; auto.
  - pose proof (path_stay M M' _ _ _ HS Q H). lia.
Qed.
Lemma path_app M p u q v r : apath M p u q -> apath M q v r -> apath M p (u ++ v) r.
Proof. intros H K. induction H as [p|p q' w r' Hq H IH]; [exact K|]. rewrite <- app_assoc. apply ap_step; auto. Qed.
(** A path from the old part to the new part crosses at the last old node. *)
Lemma path_cross M M' p w q : sub M M' -> closed M -> p < length M -> length M <= q ->
  apath M' p w q <-> exists u d v, w = u ++ rd M' d ++ v /\ apath M p u (length M - 1) /\ In d (dests M' (length M - 1)) /\ length M <= d /\ apath M' d v q.
Proof.
  intros HS HC Hp Hq. split.
  - intros H. induction H as [p|p d w r Hd H IH]; [lia|].
    destruct (Nat.lt_ge_cases d (length M)) as [Q|Q].
    + destruct (IH Q Hq) as (u & d' & v & -> & U & D & L & V).
      exists (rd M' d ++ u), d', v. rewrite <- app_assoc. split; [reflexivity|]. split; [|auto].
      apply (sub_dests_inv M M') in Hd; [|exact HS|exact Hp]. destruct Hd as [Hd|[_ Hd]]; [|lia].
      pose proof (proj1 (proj2 HS)) as R. rewrite R by exact Q. apply ap_step; auto.
    + apply (sub_dests_inv M M') in Hd as Hd'; [|exact HS|exact Hp]. destruct Hd' as [Hd'|[E _]]; [apply HC in Hd'; lia|]. subst p.
      exists [], d, w. split; [reflexivity|]. split; [constructor|auto].
  - intros (u & d & v & -> & U & D & L & V). eapply path_app; [eapply path_keep; eauto|]. apply ap_step; assumption.
Qed.

Definition cat (F G : list nty -> Prop) (w : list nty) : Prop := exists u v, w = u ++ v /\ F u /\ G v.
Definition adds (M M' : atn) (F : list nty -> Prop) : Prop :=
  closed M' /\ sub M M' /\ forall p w, p < length M -> apath M' p w (length M' - 1) <-> cat (fun u => apath M p u (length M - 1)) F w.
Lemma adds_refl M : 1 <= length M -> closed M -> adds M M (fun w => w = []).
Proof.
  intros H C. split; [exact C|]. split; [apply sub_refl; exact H|]. intros p w Hp. split.
  - intros K. exists w, []. rewrite app_nil_r. auto.
  - intros (u & v & -> & U & ->). rewrite app_nil_r. exact U.
Qed.
Lemma adds_trans A B C F G : adds A B F -> adds B C G -> adds A C (cat F G).
Proof.
  intros (C1 & S1 & L1) (C2 & S2 & L2). split; [exact C2|]. split; [exact (sub_trans A B C C1 S1 S2)|]. intros p w Hp.
  rewrite L2 by (destruct S1 as [? _]; lia). split.
  - intros (u & v & -> & U & V). apply L1 in U; [|exact Hp]. destruct U as (x & y & -> & X & Y). exists x, (y ++ v). rewrite app_assoc. split; [reflexivity|]. split; [exact X|]. exists y, v. auto.
  - intros (u & v & -> & U & (x & y & -> & X & Y)). exists (u ++ x), y. rewrite app_assoc. split; [reflexivity|]. split; [|exact Y]. apply L1; [exact Hp|]. exists u, x. auto.
Qed.
Lemma adds_ext M M' F G : (forall w, F w <-> G w) -> adds M M' F -> adds M M' G.
Proof.
  intros H (C & S & L). split; [exact C|]. split; [exact S|]. intros p w Hp. rewrite L by exact Hp. split; intros (u & v & -> & U & V); exists u, v; (split; [reflexivity|]); (split; [exact U|]); apply H; exact V.
Qed.
(** An extension entered through one transition, to its first node. *)
Definition atomic (M M' : atn) (F : list nty -> Prop) : Prop :=
  closed M' /\ sub M M' /\ length M < length M' /\
  dests M' (length M - 1) = dests M (length M - 1) ++ [length M] /\
  forall w, F w <-> exists v, w = rd M' (length M) ++ v /\ apath M' (length M) v (length M' - 1).
Lemma atomic_adds M M' F : closed M -> atomic M M' F -> adds M M' F.
Proof.
  intros HC (C & S & L & D & H). split; [exact C|]. split; [exact S|]. intros p w Hp.
  rewrite (path_cross M M' p w (length M' - 1) S HC Hp ltac:(lia)). split.
  - intros (u & d & v & -> & U & Hd & Ld & V). exists u, (rd M' d ++ v). split; [reflexivity|]. split; [exact U|]. apply H.
    rewrite D in Hd. apply in_app_or in Hd as [Hd|[<-|[]]]; [apply HC in Hd; lia|]. eauto.
  - intros (u & v & -> & U & V). apply H in V as (v' & -> & V). exists u, (length M), v'. split; [reflexivity|]. split; [exact U|].
    split; [rewrite D; apply in_or_app; right; left; reflexivity|]. auto.
Qed.

(** ** One node *)
Lemma push_node_closed M n : 1 <= length M -> closed M -> closed (push_node M n).
Proof.
  intros H C i d Hd. rewrite push_node_len. rewrite push_node_dests in Hd by exact H. apply in_app_or in Hd as [Hd|Hd]; [apply C in Hd; lia|].
  destruct (i =? length M - 1); cbn in Hd; lia.
Qed.
Lemma push_node_sub M n : 1 <= length M -> closed M -> sub M (push_node M n).
Proof.
  intros H C. split; [rewrite push_node_len; lia|]. split; [|split; [|split; [|split]]].
  - intros i Hi. rewrite push_node_rd by exact H. destruct (i =? length M) eqn:E; [apply Nat.eqb_eq in E; lia|reflexivity].
  - intros i Hi. rewrite push_node_dests by exact H. destruct (i =? length M - 1) eqn:E; [apply Nat.eqb_eq in E; lia|apply app_nil_r].
  - intros d Hd. rewrite push_node_dests by exact H. apply in_or_app. auto.
  - intros d Hd. rewrite push_node_dests in Hd by exact H. rewrite Nat.eqb_refl in Hd. apply in_app_or in Hd as [Hd|[Hd|[]]]; [auto|right; lia].
  - intros i d Hi Hd. rewrite push_node_dests in Hd by exact H. unfold dests in Hd. rewrite to_out in Hd by exact Hi. cbn in Hd.
    destruct (i =? length M - 1) eqn:E; cbn in Hd; [lia|destruct Hd].
Qed.
Lemma path_dead M p w q : dests M p = [] -> apath M p w q -> w = [] /\ p = q.
Proof. intros H K. destruct K as [p|p q w r Hq K]; [auto|]. rewrite H in Hq. destruct Hq. Qed.
Lemma push_node_atomic M n : 1 <= length M -> closed M -> atomic M (push_node M n) (fun w => w = reads n).
Proof.
  intros H C. split; [apply push_node_closed; assumption|]. split; [apply push_node_sub; assumption|]. rewrite push_node_len. split; [lia|].
  split; [rewrite push_node_dests, Nat.eqb_refl by exact H; reflexivity|]. intros w. rewrite push_node_rd, Nat.eqb_refl by exact H.
  replace (S (length M) - 1) with (length M) by lia. split.
  - intros ->. exists []. rewrite app_nil_r. split; [reflexivity|constructor].
  - intros (v & -> & K). apply path_dead in K; [destruct K as [-> _]; apply app_nil_r|].
    rewrite push_node_dests by exact H. unfold dests. rewrite to_out by lia. destruct (length M =? length M - 1) eqn:E; [apply Nat.eqb_eq in E; lia|reflexivity].
Qed.
Lemma atomic_ext M M' F G : (forall w, F w <-> G w) -> atomic M M' F -> atomic M M' G.
Proof. intros H (A & B & C & D & E). repeat (split; [assumption|]). intros w. rewrite <- H. apply E. Qed.
Lemma atomic_then A B C F G : closed A -> closed B -> length A < length B -> atomic A B F -> adds B C G -> atomic A C (cat F G).
Proof.
  intros HA HB _ (C1 & S1 & L1 & D1 & H1) (C2 & S2 & H2). pose proof S2 as (L2 & R2 & E2 & _). pose proof S1 as (LL1 & _). split; [exact C2|]. split; [exact (sub_trans A B C C1 S1 S2)|].
  split; [lia|]. split; [rewrite E2 by lia; exact D1|]. intros w. rewrite R2 by lia. split.
  - intros (u & v & -> & U & V). apply H1 in U as (u' & -> & U). exists (u' ++ v). rewrite app_assoc. split; [reflexivity|]. apply H2; [lia|]. exists u', v. auto.
  - intros (x & -> & X). apply H2 in X; [|lia]. destruct X as (u & v & -> & U & V). exists (rd B (length A) ++ u), v. rewrite app_assoc. split; [reflexivity|]. split; [|exact V]. apply H1. eauto.
Qed.
Lemma atomic_closed M M' F : atomic M M' F -> closed M' /\ length M < length M' /\ 1 <= length M'.
Proof. intros (A & B & C & _). repeat split; auto; lia. Qed.
Lemma push_term_atomic ws M x : 1 <= length M -> closed M -> atomic M (push_term ws M (term_nty x)) (fun w => w = term_word ws x).
Proof.
  intros H C. assert (T : forall n, n <> NBlank -> atomic M (push_node (push_node M NWs) n) (fun w => w = [NWs; n])).
  { intros n Hn. pose proof (push_node_atomic M NWs H C) as A. destruct (atomic_closed _ _ _ A) as (B1 & B2 & B3).
    pose proof (atomic_then _ _ _ _ _ C B1 B2 A (atomic_adds _ _ _ B1 (push_node_atomic _ n B3 B1))) as T.
    eapply atomic_ext; [|exact T]. intros w. unfold cat. cbn [reads]. split.
    - intros (u & v & -> & -> & ->). destruct n; try congruence; reflexivity.
    - intros ->. exists [NWs], [n]. destruct n; try congruence; auto. }
  destruct x as [id|s|p]; cbn [term_nty push_term term_word].
  - eapply atomic_ext; [|apply (push_node_atomic M _ H C)]. intros w. cbn. tauto.
  - destruct ws; [apply T; congruence|]. eapply atomic_ext; [|apply (push_node_atomic M _ H C)]. intros w. cbn. tauto.
  - destruct ws; [apply T; congruence|]. eapply atomic_ext; [|apply (push_node_atomic M _ H C)]. intros w. cbn. tauto.
Qed.

(** ** Quantifiers *)
Definition plusL (F : list nty -> Prop) (w : list nty) : Prop := exists u v, w = u ++ v /\ F u /\ GStarL nty F v.
Lemma plus_dests M1 anchor j : 1 <= length M1 -> 
  dests (upd_nth (add_node M1 (length M1 - 1) 0) (length (add_node M1 (length M1 - 1) 0) - 1) (add_atr anchor 0)) j =
  dests M1 j ++ (if j =? length M1 - 1 then [length M1] else []) ++ (if j =? length M1 then [anchor] else []).
Proof.
  intros H. rewrite upd_dests by (rewrite add_node_len; lia). rewrite add_node_len, add_node_dests by lia. rewrite <- app_assoc.
  replace (S (length M1) - 1) with (length M1) by lia. reflexivity.
Qed.
Lemma plus_rd M1 anchor j : 1 <= length M1 -> 
  rd (upd_nth (add_node M1 (length M1 - 1) 0) (length (add_node M1 (length M1 - 1) 0) - 1) (add_atr anchor 0)) j = rd M1 j.
Proof. intros H. rewrite upd_rd by (rewrite add_node_len; lia). apply add_node_rd. Qed.
Lemma rd_out M j : length M <= j -> rd M j = [].
Proof. intros H. unfold rd. rewrite to_out by exact H. reflexivity. Qed.
Lemma dests_out M j : length M <= j -> dests M j = [].
Proof. intros H. unfold dests. rewrite to_out by exact H. reflexivity. Qed.
Lemma plus_atomic M M1 F o : 1 <= length M -> closed M -> atomic M M1 F -> atomic M (quantM GPlus M1 o (length M)) (plusL F).
Proof.
  intros H C (C1 & S1 & L1 & D1 & H1). pose proof S1 as (Z1 & R1 & E1 & K1 & N1 & Y1). cbn [quantM].
  set (M2 := upd_nth _ _ _). assert (HD : forall j, dests M2 j = dests M1 j ++ (if j =? length M1 - 1 then [length M1] else []) ++ (if j =? length M1 then [length M] else [])) by (intros j; apply plus_dests; lia).
  assert (HR : forall j, rd M2 j = rd M1 j) by (intros j; apply plus_rd; lia).
  assert (HL : length M2 = S (length M1)) by (unfold M2; rewrite upd_len, add_node_len; reflexivity).
  clearbody M2.
  assert (IN : forall j d, In d (dests M2 j) <-> In d (dests M1 j) \/ (j = length M1 - 1 /\ d = length M1) \/ (j = length M1 /\ d = length M)).
  { intros j d. rewrite HD, !in_app_iff. destruct (j =? length M1 - 1) eqn:Q1, (j =? length M1) eqn:Q2; rewrite ?Nat.eqb_eq, ?Nat.eqb_neq in *; cbn; split; intros HH; try lia; intuition lia. }
  split; [intros i d Hd; apply IN in Hd as [Hd|[Hd|Hd]]; [apply C1 in Hd|..]; lia|].
  split.
  { split; [lia|]. split; [intros i Hi; rewrite HR; auto|]. split; [|split; [|split]].
    - intros i Hi. rewrite HD. destruct (i =? length M1 - 1) eqn:Q1, (i =? length M1) eqn:Q2; rewrite ?Nat.eqb_eq, ?Nat.eqb_neq in *; try lia. cbn. rewrite app_nil_r. apply E1. exact Hi.
    - intros d Hd. apply IN. left. apply K1. exact Hd.
    - intros d Hd. apply IN in Hd as [Hd|[Hd|Hd]]; [apply N1; exact Hd|lia|lia].
    - intros i d Hi Hd. apply IN in Hd as [Hd|[Hd|Hd]]; [eauto|lia|lia]. }
  split; [lia|]. split.
  { rewrite HD. destruct (length M - 1 =? length M1 - 1) eqn:Q1, (length M - 1 =? length M1) eqn:Q2; rewrite ?Nat.eqb_eq, ?Nat.eqb_neq in *; try lia. cbn. rewrite app_nil_r. exact D1. }
  rewrite HL, HR. replace (S (length M1) - 1) with (length M1) by lia.
  assert (P1 : forall p v, apath M2 p v (length M1) -> p <= length M1 ->
             (p < length M1 -> exists u s, v = u ++ s /\ apath M1 p u (length M1 - 1) /\ GStarL nty F s) /\
             (p = length M1 -> GStarL nty F v)).
  { assert (G : forall p v X, apath M2 p v X -> X = length M1 -> p <= length M1 ->
             (p < length M1 -> exists u s, v = u ++ s /\ apath M1 p u (length M1 - 1) /\ GStarL nty F s) /\
             (p = length M1 -> GStarL nty F v)); [|intros; eauto].
    intros p v X K. induction K as [p|p d w r Hd K IH]; intros EX Hp.
    - split; [lia|]. intros _. constructor.
    - specialize (IH EX). apply IN in Hd as [Hd|[[-> ->]|[-> ->]]].
      + assert (p < length M1) by (destruct (Nat.lt_ge_cases p (length M1)); [assumption|rewrite dests_out in Hd by assumption; destruct Hd]).
        pose proof (C1 _ _ Hd). split; [|lia]. intros _. destruct IH as [IH _]; [lia|]. destruct IH as (u & s & -> & U & S); [lia|].
        exists (rd M2 d ++ u), s. rewrite <- app_assoc. split; [reflexivity|]. split; [|exact S]. rewrite HR. apply ap_step; assumption.
      + split; [|lia]. intros _. destruct IH as [_ IH]; [lia|]. exists [], w. rewrite HR, rd_out by lia. split; [reflexivity|]. split; [constructor|auto].
      + split; [lia|]. intros _. destruct IH as [IH _]; [lia|]. destruct IH as (u & s & -> & U & S); [lia|].
        rewrite app_assoc. apply gs_app; [|exact S]. apply H1. exists u. rewrite HR. auto. }
  assert (P0 : forall p u, p < length M1 -> apath M1 p u (length M1 - 1) -> apath M2 p u (length M1)).
  { assert (G : forall p u t, apath M1 p u t -> t = length M1 - 1 -> p < length M1 -> apath M2 p u (length M1)); [|intros; eauto].
    intros p u t K. induction K as [p|p d w r Hd K IH]; intros Et Hp.
    - replace (@nil nty) with (rd M2 (length M1) ++ []) by (rewrite HR, rd_out by lia; reflexivity). apply ap_step; [apply IN; subst; auto|constructor].
    - rewrite <- HR. apply ap_step; [apply IN; auto|]. apply IH; [exact Et|]. exact (C1 _ _ Hd). }
  assert (P2 : forall s, GStarL nty F s -> apath M2 (length M1) s (length M1)).
  { intros s K. induction K as [|u v U K IH]; [constructor|]. eapply path_app; [|exact IH]. apply H1 in U as (u' & -> & U).
    rewrite <- HR. apply ap_step; [apply IN; auto|]. apply P0; [lia|exact U]. }
  intros w. split.
  - intros (u & v & -> & U & V). apply H1 in U as (u' & -> & U). exists (u' ++ v). rewrite app_assoc. split; [reflexivity|].
    eapply path_app; [apply P0; [lia|exact U]|apply P2; exact V].
  - intros (v & -> & V). apply P1 in V as [V _]; [|lia]. destruct V as (u & s & -> & U & S); [lia|]. exists (rd M1 (length M) ++ u), s. rewrite app_assoc. split; [reflexivity|]. split; [apply H1; eauto|exact S].
Qed.
Definition optL (F : list nty -> Prop) (w : list nty) : Prop := w = [] \/ F w.
Lemma opt_adds M M1 F a : 1 <= length M -> closed M -> atomic M M1 F -> adds M (quantM GOpt M1 (length M - 1) a) (optL F).
Proof.
  intros H C (C1 & S1 & L1 & D1 & H1). pose proof S1 as (Z1 & R1 & E1 & K1 & N1 & Y1). cbn [quantM].
  set (M2 := upd_nth _ _ _).
  assert (IN : forall j d, In d (dests M2 j) <-> In d (dests M1 j) \/ ((j = length M1 - 1 \/ j = length M - 1) /\ d = length M1)).
  { intros j d. unfold M2. rewrite upd_dests by (rewrite add_node_len; lia). rewrite add_node_len, add_node_dests by lia. rewrite !in_app_iff.
    replace (S (length M1) - 1) with (length M1) by lia.
    destruct (j =? length M1 - 1) eqn:Q1, (j =? length M - 1) eqn:Q2; rewrite ?Nat.eqb_eq, ?Nat.eqb_neq in *; cbn; intuition lia. }
  assert (HE : forall j, j <> length M1 - 1 -> j <> length M - 1 -> dests M2 j = dests M1 j).
  { intros j J1 J2. unfold M2. rewrite upd_dests by (rewrite add_node_len; lia). rewrite add_node_dests by lia.
    destruct (j =? length M1 - 1) eqn:Q1, (j =? length M - 1) eqn:Q2; rewrite ?Nat.eqb_eq, ?Nat.eqb_neq in *; try lia. rewrite !app_nil_r. reflexivity. }
  assert (HR : forall j, rd M2 j = rd M1 j) by (intros j; unfold M2; rewrite upd_rd by (rewrite add_node_len; lia); apply add_node_rd).
  assert (HL : length M2 = S (length M1)) by (unfold M2; rewrite upd_len, add_node_len; reflexivity).
  clearbody M2.
  assert (C2 : closed M2) by (intros i d Hd; apply IN in Hd as [Hd|Hd]; [apply C1 in Hd|]; lia).
  assert (S2 : sub M M2).
  { split; [lia|]. split; [intros i Hi; rewrite HR; auto|]. split; [|split; [|split]].
    - intros i Hi. rewrite HE by lia. apply E1. exact Hi.
    - intros d Hd. apply IN. left. apply K1. exact Hd.
    - intros d Hd. apply IN in Hd as [Hd|Hd]; [apply N1; exact Hd|lia].
    - intros i d Hi Hd. apply IN in Hd as [Hd|Hd]; [eauto|lia]. }
  assert (P1 : forall p v, apath M2 p v (length M1) -> length M <= p < length M1 -> apath M1 p v (length M1 - 1)).
  { assert (G : forall p v X, apath M2 p v X -> X = length M1 -> length M <= p < length M1 -> apath M1 p v (length M1 - 1)); [|intros; eauto].
    intros p v X K. induction K as [p|p d w r Hd K IH]; intros EX Hp; [lia|]. specialize (IH EX).
    apply IN in Hd as [Hd|[[->|E] ->]]; [|..|lia].
    - pose proof (C1 _ _ Hd). assert (length M <= d) by (eapply Y1; [|exact Hd]; lia). rewrite HR. apply ap_step; [exact Hd|]. apply IH. lia.
    - apply path_dead in K; [|rewrite HE by lia; apply dests_out; lia]. destruct K as [-> _]. rewrite HR, rd_out by lia. constructor. }
  assert (P0 : forall p u, p < length M1 -> apath M1 p u (length M1 - 1) -> apath M2 p u (length M1)).
  { assert (G : forall p u t, apath M1 p u t -> t = length M1 - 1 -> p < length M1 -> apath M2 p u (length M1)); [|intros; eauto].
    intros p u t K. induction K as [p|p d w r Hd K IH]; intros Et Hp.
    - replace (@nil nty) with (rd M2 (length M1) ++ []) by (rewrite HR, rd_out by lia; reflexivity). apply ap_step; [apply IN; subst; auto|constructor].
    - rewrite <- HR. apply ap_step; [apply IN; auto|]. apply IH; [exact Et|]. exact (C1 _ _ Hd). }
  split; [exact C2|]. split; [exact S2|]. intros p w Hp. rewrite HL. replace (S (length M1) - 1) with (length M1) by lia.
  rewrite (path_cross M M2 p w (length M1) S2 C Hp ltac:(lia)). split.
  - intros (u & d & v & -> & U & Hd & Ld & V). exists u, (rd M2 d ++ v). split; [reflexivity|]. split; [exact U|].
    apply IN in Hd as [Hd|[_ ->]].
    + rewrite D1 in Hd. apply in_app_or in Hd as [Hd|[<-|[]]]; [apply C in Hd; lia|]. right. apply H1. exists v. rewrite HR. split; [reflexivity|]. apply P1; [exact V|lia].
    + left. apply path_dead in V; [|rewrite HE by lia; apply dests_out; lia]. destruct V as [-> _]. rewrite HR, rd_out by lia. reflexivity.
  - intros (u & v & -> & U & [->|V]).
    + exists u, (length M1), []. rewrite HR, rd_out by lia. split; [reflexivity|]. split; [exact U|]. split; [apply IN; right; auto|]. split; [lia|constructor].
    + apply H1 in V as (v' & -> & V). exists u, (length M), v'. rewrite HR. split; [reflexivity|]. split; [exact U|].
      split; [apply IN; left; rewrite D1; apply in_or_app; right; left; reflexivity|]. split; [lia|]. apply P0; [lia|exact V].
Qed.
Lemma gstar_opt F w : GStarL nty F w <-> optL (plusL F) w.
Proof.
  split.
  - intros [|u v U V]; [left; reflexivity|right; exists u, v; auto].
  - intros [->|(u & v & -> & U & V)]; [constructor|apply gs_app; assumption].
Qed.
Lemma quant_adds q M M1 F : 1 <= length M -> closed M -> atomic M M1 F -> adds M (quantM q M1 (length M - 1) (length M)) (gquantL nty q F).
Proof.
  intros H C A. destruct q.
  - apply atomic_adds; assumption.
  - change (quantM GStar M1 (length M - 1) (length M)) with (quantM GOpt (quantM GPlus M1 (length M - 1) (length M)) (length M - 1) (length M)).
    eapply adds_ext; [|apply opt_adds; [exact H|exact C|apply plus_atomic; eassumption]]. intros w. symmetry. apply gstar_opt.
  - apply atomic_adds; [exact C|]. apply plus_atomic; assumption.
  - apply opt_adds; assumption.
Qed.

(** ** Selections *)
Lemma add_node_closed M from tag : from < length M -> closed M -> closed (add_node M from tag).
Proof.
  intros H C i d Hd. rewrite add_node_len. rewrite add_node_dests in Hd by exact H. apply in_app_or in Hd as [Hd|Hd]; [apply C in Hd; lia|].
  destruct (i =? from); cbn in Hd; lia.
Qed.
Lemma add_node_last M : 1 <= length M -> add_node M (length M - 1) 0 = push_node M NBlank.
Proof. reflexivity. Qed.
(** The state after some alternatives: [B] ends with the origin of the selection. *)
Definition altinv (B A : atn) (terms : list nat) (L : list nty -> Prop) : Prop :=
  closed A /\ sub B A /\ (forall t, In t terms -> length B <= t < length A) /\
  forall w, L w <-> exists t, In t terms /\ apath A (length B - 1) w t.
Lemma altinv_step B A terms L prio A' G : closed B -> dests B (length B - 1) = [] -> altinv B A terms L ->
  adds (add_node A (length B - 1) prio) A' G -> altinv B A' (terms ++ [length A' - 1]) (fun w => L w \/ G w).
Proof.
  intros CB DB (CA & SA & HT & HL) (C' & S' & H'). pose proof SA as (LA & RA & EA & KA & NA & YA).
  set (o := length B - 1) in *. set (A1 := add_node A o prio) in *.
  assert (LA1 : length A1 = S (length A)) by apply add_node_len.
  assert (IN : forall j d, In d (dests A1 j) <-> In d (dests A j) \/ (j = o /\ d = length A)).
  { intros j d. unfold A1. rewrite add_node_dests by lia. rewrite in_app_iff. destruct (j =? o) eqn:Q; rewrite ?Nat.eqb_eq, ?Nat.eqb_neq in *; cbn; intuition lia. }
  assert (R1 : forall j, rd A1 j = rd A j) by (intros j; apply add_node_rd).
  assert (C1 : closed A1) by (apply add_node_closed; [lia|exact CA]).
  assert (S1 : sub B A1).
  { split; [lia|]. split; [intros i Hi; rewrite R1; auto|]. split; [|split; [|split]].
    - intros i Hi. unfold A1. rewrite add_node_dests by lia. destruct (i =? o) eqn:Q; rewrite ?Nat.eqb_eq, ?Nat.eqb_neq in *; [lia|]. rewrite app_nil_r. apply EA. exact Hi.
    - intros d Hd. apply IN. left. auto.
    - intros d Hd. apply IN in Hd as [Hd|[_ ->]]; [auto|right; lia].
    - intros i d Hi Hd. apply IN in Hd as [Hd|[-> _]]; [eauto|lia]. }
  pose proof (sub_trans B A1 A' C1 S1 S') as SB. pose proof S' as (L' & R' & _).
  assert (T1 : forall p w t, t < length A -> apath A1 p w t <-> apath A p w t).
  { intros p w t Ht. split; intros K.
    - induction K as [p|p d w r Hd K IH]; [constructor|]. rewrite R1. apply IN in Hd as [Hd|[-> ->]]; [apply ap_step; auto|].
      apply path_dead in K as [_ ?]; [lia|]. unfold A1. rewrite add_node_dests, dests_out by lia. destruct (length A =? o) eqn:Q; [apply Nat.eqb_eq in Q; lia|reflexivity].
    - induction K as [p|p d w r Hd K IH]; [constructor|]. rewrite <- R1. apply ap_step; [apply IN; auto|auto]. }
  assert (T2 : forall p w, apath A p w o -> o <= p -> p = o /\ w = []).
  { assert (G0 : forall p w q, apath A p w q -> q = o -> o <= p -> p = o /\ w = []); [|intros; eauto].
    intros p w q K. induction K as [p|p d w r Hd K IH]; intros Eo Hp; [auto|]. subst r. assert (o < d) by
      (destruct (Nat.eq_dec p o) as [->|N]; [destruct (NA _ Hd) as [Hd'|]; [fold o in DB; rewrite DB in Hd'; destruct Hd'|lia]|assert (length B <= d) by (eapply YA; [|exact Hd]; lia); lia]).
    destruct IH as [-> _]; [reflexivity|lia|lia]. }
  split; [exact C'|]. split; [exact SB|]. split.
  { intros t Ht. apply in_app_or in Ht as [Ht|[<-|[]]]; [specialize (HT t Ht)|]; lia. }
  assert (Q1 : forall w, apath A1 o w (length A) <-> w = []).
  { intros w. split.
    - intros K. assert (G0 : forall p v q, apath A1 p v q -> q = length A -> p < length A -> exists u, v = u /\ apath A p u o).
      { intros p v q K'. induction K' as [p|p d v r Hd K' IH]; intros Eq Hp; [lia|]. subst r. apply IN in Hd as [Hd|[-> ->]].
        - destruct IH as (u & -> & U); [reflexivity|eapply CA; eauto|]. eexists. split; [reflexivity|]. rewrite R1. apply ap_step; assumption.
        - apply path_dead in K' as [-> _]; [|unfold A1; rewrite add_node_dests, dests_out by lia; destruct (length A =? o) eqn:Q; [apply Nat.eqb_eq in Q; lia|reflexivity]].
          exists []. rewrite R1, rd_out by lia. split; [reflexivity|constructor]. }
      destruct (G0 _ _ _ K eq_refl) as (u & -> & U); [lia|]. apply T2 in U; [apply U|lia].
    - intros ->. replace (@nil nty) with (rd A1 (length A) ++ []) by (rewrite R1, rd_out by lia; reflexivity). apply ap_step; [apply IN; auto|constructor]. }
  intros w. rewrite HL. split.
  - intros [(t & Ht & K)|K].
    + exists t. split; [apply in_or_app; auto|]. specialize (HT t Ht). apply (path_keep A1 A'); [exact S'|exact C1|lia|]. apply T1; [lia|exact K].
    + exists (length A' - 1). split; [apply in_or_app; right; left; reflexivity|]. apply H'; [lia|]. exists [], w. split; [reflexivity|]. split; [|exact K].
      rewrite LA1. replace (S (length A) - 1) with (length A) by lia. apply Q1. reflexivity.
  - intros (t & Ht & K). apply in_app_or in Ht as [Ht|[<-|[]]].
    + left. exists t. split; [exact Ht|]. specialize (HT t Ht). apply T1; [lia|]. apply (path_old A1 A'); [exact S'|lia|lia|exact K].
    + right. apply H' in K; [|lia]. destruct K as (u & v & -> & U & V). rewrite LA1 in U. replace (S (length A) - 1) with (length A) in U by lia. apply Q1 in U. subst u. exact V.
Qed.
Lemma join_facts A terms : (forall t, In t terms -> t < length A) -> 
  length (join A terms) = S (length A) /\ (forall j, rd (join A terms) j = rd A j) /\
  (forall j, ~ In j terms -> dests (join A terms) j = dests A j) /\
  (forall j d, In d (dests (join A terms) j) <-> In d (dests A j) \/ (In j terms /\ d = length A)).
Proof.
  intros HT. unfold join.
  assert (G : forall ts (A1 : atn), (forall t, In t ts -> t < length A) -> length A1 = S (length A) ->
    let J := fold_left (fun M from => upd_nth M from (add_atr (length M - 1) 0)) ts A1 in
    length J = S (length A) /\ (forall j, rd J j = rd A1 j) /\ (forall j, ~ In j ts -> dests J j = dests A1 j) /\
    (forall j d, In d (dests J j) <-> In d (dests A1 j) \/ (In j ts /\ d = length A))).
  { intros ts. induction ts as [|t ts IH]; intros A1 Hts L1; cbn zeta; cbn [fold_left].
    - repeat split; auto; intros; try tauto. destruct H as [H|[[] _]]. exact H.
    - assert (Ht : t < length A1) by (rewrite L1; specialize (Hts t (or_introl eq_refl)); lia).
      destruct (IH (upd_nth A1 t (add_atr (length A1 - 1) 0))) as (J1 & J2 & J3 & J4); [intros x Hx; apply Hts; right; exact Hx|rewrite upd_len; exact L1|].
      split; [exact J1|]. split; [intros j; rewrite J2; apply upd_rd; exact Ht|]. split.
      + intros j Hj. rewrite J3 by (intros K; apply Hj; right; exact K). rewrite upd_dests by exact Ht.
        destruct (j =? t) eqn:Q; [apply Nat.eqb_eq in Q; subst; exfalso; apply Hj; left; reflexivity|apply app_nil_r].
      + intros j d. rewrite J4, upd_dests by exact Ht. rewrite in_app_iff. rewrite L1. replace (S (length A) - 1) with (length A) by lia.
        destruct (j =? t) eqn:Q; rewrite ?Nat.eqb_eq, ?Nat.eqb_neq in *; cbn [In]; intuition (try congruence; auto). }
  destruct (G terms (A ++ [blank]) HT) as (J1 & J2 & J3 & J4); [rewrite app_length; cbn; lia|].
  assert (K1 : forall j, tonode (A ++ [blank]) j = tonode A j).
  { intros j. rewrite to_app. destruct (j <? length A) eqn:E; [reflexivity|]. apply Nat.ltb_ge in E. rewrite (to_out A j E). destruct (j - length A) as [|[|k]]; reflexivity. }
  assert (K2 : forall j, dests (A ++ [blank]) j = dests A j) by (intros j; unfold dests; rewrite K1; reflexivity).
  split; [exact J1|]. split; [intros j; rewrite J2; unfold rd; rewrite K1; reflexivity|]. split; [intros j Hj; rewrite J3 by exact Hj; apply K2|].
  intros j d. rewrite J4, K2. tauto.
Qed.
Lemma join_atomic M A terms L : 1 <= length M -> closed M ->
  altinv (push_node M NBlank) A terms L -> atomic M (join A terms) L.
Proof.
  intros H C (CA & SA & HT & HL). set (B := push_node M NBlank) in *.
  assert (LB : length B = S (length M)) by apply push_node_len.
  assert (SB : sub M B) by (apply push_node_sub; assumption). assert (CB : closed B) by (apply push_node_closed; assumption).
  pose proof (sub_trans M B A CB SB SA) as SM. pose proof SM as (Z1 & R1 & E1 & K1 & N1 & Y1).
  pose proof SA as (ZA & RA & EA & _).
  destruct (join_facts A terms) as (J1 & J2 & J3 & J4); [intros t Ht; specialize (HT t Ht); lia|].
  set (J := join A terms) in *.
  split; [intros i d Hd; apply J4 in Hd as [Hd|[_ ->]]; [apply CA in Hd|]; lia|].
  split.
  { split; [lia|]. split; [intros i Hi; rewrite J2; auto|]. split; [|split; [|split]].
    - intros i Hi. rewrite J3; [apply E1; exact Hi|]. intros K. specialize (HT i K). lia.
    - intros d Hd. apply J4. auto.
    - intros d Hd. apply J4 in Hd as [Hd|[K ->]]; [auto|right; lia].
    - intros i d Hi Hd. apply J4 in Hd as [Hd|[K ->]]; [eauto|lia]. }
  split; [lia|]. split.
  { rewrite J3; [|intros K; specialize (HT _ K); lia]. rewrite EA by lia. unfold B. rewrite push_node_dests, Nat.eqb_refl by exact H. reflexivity. }
  rewrite J1, J2. replace (S (length A) - 1) with (length A) by lia.
  assert (RO : rd A (length M) = []).
  { rewrite RA by lia. unfold B. rewrite push_node_rd, Nat.eqb_refl by exact H. reflexivity. }
  rewrite RO. cbn [app]. replace (length B - 1) with (length M) in HL by lia.
  assert (P : forall p v, p < length A -> apath J p v (length A) <-> exists t, In t terms /\ apath A p v t).
  { intros p v Hp. split.
    - revert p v Hp. assert (G : forall p v X, apath J p v X -> X = length A -> p < length A -> exists t, In t terms /\ apath A p v t); [|intros; eauto].
      intros p v X K. induction K as [p|p d v r Hd K IH]; intros EX Hp; [lia|]. subst r. apply J4 in Hd as [Hd|[Hd ->]].
      + destruct IH as (t & Ht & U); [reflexivity|exact (CA _ _ Hd)|]. exists t. split; [exact Ht|]. rewrite J2. apply ap_step; assumption.
      + apply path_dead in K as [-> _]; [|rewrite J3; [apply dests_out; lia|intros Q; specialize (HT _ Q); lia]]. rewrite J2, rd_out by lia. exists p. split; [exact Hd|constructor].
    - intros (t & Ht & K). induction K as [p|p d v r Hd K IH].
      + replace (@nil nty) with (rd J (length A) ++ []) by (rewrite J2, rd_out by lia; reflexivity). apply ap_step; [apply J4; auto|constructor].
      + rewrite <- J2. apply ap_step; [apply J4; auto|]. apply IH; [eapply CA; eauto|exact Ht]. }
  intros w. rewrite HL. split.
  - intros (t & Ht & K). exists w. split; [reflexivity|]. apply P; [lia|]. eauto.
  - intros (v & -> & K). apply P in K; [exact K|lia].
Qed.

(** ** The construction *)
Lemma adds_closed M M' F : adds M M' F -> closed M' /\ 1 <= length M'.
Proof. intros (A & (B & _) & _). split; [exact A|lia]. Qed.
Theorem build_exact ws :
  (forall a M, 1 <= length M -> closed M -> atomic M (batom ws a M) (gatomL nty (term_word ws) a)) /\
  (forall s M, 1 <= length M -> closed M -> adds M (bseq ws s M) (gseqL nty (term_word ws) s)) /\
  (forall e M, 1 <= length M -> closed M -> dests M (length M - 1) = [] ->
     altinv M (fst (fst (balts ws e M (length M - 1)))) (snd (balts ws e M (length M - 1))) (gselL nty (term_word ws) e)).
Proof.
  apply g_ind.
  - intros x M H C. apply push_term_atomic; assumption.
  - intros e IH M H C. cbn [batom]. rewrite add_node_last by exact H.
    specialize (IH (push_node M NBlank)). destruct (balts ws e (push_node M NBlank) (length (push_node M NBlank) - 1)) as [[A prio] terms]. cbn [fst snd] in IH.
    apply join_atomic; [exact H|exact C|]. apply IH; [rewrite push_node_len; lia|apply push_node_closed; assumption|].
    rewrite push_node_len. replace (S (length M) - 1) with (length M) by lia. rewrite push_node_dests, dests_out by lia.
    destruct (length M =? length M - 1) eqn:E; [apply Nat.eqb_eq in E; lia|reflexivity].
  - intros M H C. cbn [bseq]. apply adds_refl; assumption.
  - intros a IHa q s IHs M H C. cbn [bseq gseqL]. pose proof (quant_adds q M _ _ H C (IHa M H C)) as Q. destruct (adds_closed _ _ _ Q) as [Q1 Q2].
    exact (adds_trans _ _ _ _ _ Q (IHs _ Q2 Q1)).
  - intros s IH M H C D. cbn [balts fst snd gselL].
    assert (I0 : altinv M M [] (fun _ => False)).
    { split; [exact C|]. split; [apply sub_refl; exact H|]. split; [intros t []|]. intros w. split; [intros []|intros (t & [] & _)]. }
    assert (N1 : length M - 1 < length M) by lia.
    assert (Q := IH (add_node M (length M - 1) 0) ltac:(rewrite add_node_len; lia) (add_node_closed M _ 0 N1 C)).
    destruct (altinv_step M M [] _ 0 _ _ C D I0 Q) as (G1 & G2 & G3 & G4). split; [exact G1|]. split; [exact G2|]. split; [exact G3|].
    intros w. rewrite <- G4. tauto.
  - intros e IHe up s IHs M H C D. cbn [balts gselL]. specialize (IHe M H C D). destruct (balts ws e M (length M - 1)) as [[A prio] terms]. cbn [fst snd] in *.
    set (pr := if up then S prio else prio). pose proof IHe as (CA & (LA & _) & _).
    assert (N1 : length M - 1 < length A) by lia.
    assert (Q := IHs (add_node A (length M - 1) pr) ltac:(rewrite add_node_len; lia) (add_node_closed A _ pr N1 CA)).
    exact (altinv_step M A terms _ pr _ _ C D IHe Q).
Qed.
Theorem build_body_language ws e w : atn_accepts (build_body ws e) w <-> gselL nty (term_word ws) e w.
Proof.
  assert (H : 1 <= length [blank]) by (cbn; lia). assert (C : closed [blank]) by (intros [|[|i]] d []).
  pose proof (proj1 (build_exact ws) (GGroup e) [blank] H C) as A. apply atomic_adds in A; [|exact C]. destruct A as (_ & _ & A).
  unfold atn_accepts, build_body, bsel. rewrite A by exact H. cbn [gatomL]. split.
  - intros (u & v & -> & U & V). apply path_dead in U; [destruct U as [-> _]; exact V|reflexivity].
  - intros V. exists [], w. split; [reflexivity|]. split; [constructor|exact V].
Qed.
