(** The networks made from a grammar file are fit for the decision automata. *)
From Coq Require Import List NArith ZArith Arith Bool Lia.
From Verif Require Import CharClass NFA NFASem NFAProofs NFABuild RegexSpec GrammarSpec ATN ATNSem ATNBuild ATNOpt ATNLive Grammar ParserTree Lookahead LookImport LookRead.
Import ListNotations.
Local Open Scope nat_scope.

(** ** White space and literals *)
Definition winv (M : atn) : Prop :=
  (forall i, nt (tonode M i) = NWs -> edges M i = [(S i, 0)] /\ nt (tonode M (S i)) <> NBlank) /\
  (forall i d t s, In (d, t) (edges M i) -> nt (tonode M d) = NLit s -> d = S i /\ nt (tonode M i) = NWs).
Lemma reads_inj a b : reads a = reads b -> a = b.
Proof. destruct a, b; cbn; intros H; try discriminate; try reflexivity; injection H; intros; subst; reflexivity. Qed.
Lemma rd_nt M M' i j : rd M i = rd M' j -> nt (tonode M i) = nt (tonode M' j).
Proof. apply reads_inj. Qed.
Lemma upd_edges M k d t j : k < length M -> edges (upd_nth M k (add_atr d t)) j = if j =? k then edges M j ++ [(d, t)] else edges M j.
Proof. intros H. rewrite edges_upd by exact H. destruct (j =? k); [reflexivity|apply app_nil_r]. Qed.
Lemma winv_upd M k d t : k < length M -> nt (tonode M k) <> NWs -> (forall s, nt (tonode M d) <> NLit s) -> winv M -> winv (upd_nth M k (add_atr d t)).
Proof.
  intros Hk Nk Nd [W1 W2].
  assert (NT : forall j, nt (tonode (upd_nth M k (add_atr d t)) j) = nt (tonode M j)) by (intros j; apply rd_nt, upd_rd, Hk).
  split.
  - intros i. rewrite !NT, upd_edges by exact Hk. intros E. destruct (i =? k) eqn:Q; [apply Nat.eqb_eq in Q; subst; congruence|]. apply W1, E.
  - intros i x g s. rewrite !NT, upd_edges by exact Hk. intros H E. destruct (i =? k) eqn:Q; [|exact (W2 _ _ _ _ H E)]. apply in_app_or in H as [H|[H|[]]]; [exact (W2 _ _ _ _ H E)|]. injection H as <- <-. destruct (Nd _ E).
Qed.
Lemma snoc_nt M n j : nt (tonode (M ++ [n]) j) = if j =? length M then nt n else nt (tonode M j).
Proof.
  rewrite to_app. destruct (j <? length M) eqn:E; [apply Nat.ltb_lt in E|apply Nat.ltb_ge in E]; destruct (j =? length M) eqn:Q; rewrite ?Nat.eqb_eq, ?Nat.eqb_neq in Q; try lia; try reflexivity.
  - subst j. rewrite Nat.sub_diag. reflexivity.
  - rewrite (to_out M j) by lia. destruct (j - length M) as [|[|k]] eqn:X; [lia|reflexivity..].
Qed.
Lemma snoc_edges M n j : atrs n = [] -> edges (M ++ [n]) j = edges M j.
Proof. destruct n as [n a]. cbn. intros ->. apply edges_snoc. Qed.
(** Adding a node that is neither white space nor a literal nor behind white space, with an edge to it. *)
Lemma winv_link M k n t : k < length M -> nt (tonode M k) <> NWs -> n <> NWs -> (forall s, n <> NLit s) -> winv M -> closed M -> winv (upd_nth M k (add_atr (length M) t) ++ [mkA n []]).
Proof.
  intros Hk Nk N1 N2 HW HC.
  assert (W : winv (upd_nth M k (add_atr (length M) t))) by (apply winv_upd; [exact Hk|exact Nk|rewrite to_out by lia; discriminate|exact HW]).
  destruct W as [W1 W2]. set (M1 := upd_nth M k (add_atr (length M) t)) in *. assert (L : length M1 = length M) by apply upd_len.
  split.
  - intros i. rewrite !snoc_nt, snoc_edges by reflexivity. cbn [nt]. destruct (i =? length M1); [congruence|]. intros E. destruct (W1 i E) as [A B]. split; [exact A|]. destruct (S i =? length M1) eqn:Q; [|exact B].
    apply Nat.eqb_eq in Q. rewrite to_out in B by lia. destruct (B eq_refl).
  - intros i d g s. rewrite !snoc_nt, snoc_edges by reflexivity. cbn [nt]. destruct (d =? length M1); [intros _ E; destruct (N2 _ E)|]. intros H E. destruct (W2 _ _ _ _ H E) as [A B]. split; [exact A|].
    destruct (i =? length M1) eqn:Q; [|exact B]. apply Nat.eqb_eq in Q. subst i. rewrite to_out in B by lia. discriminate.
Qed.
Lemma winv_add M from tag : from < length M -> nt (tonode M from) <> NWs -> winv M -> closed M -> winv (add_node M from tag).
Proof. intros. apply winv_link; try assumption; discriminate. Qed.
Lemma winv_push M n : 1 <= length M -> nt (tonode M (length M - 1)) <> NWs -> n <> NWs -> (forall s, n <> NLit s) -> winv M -> closed M -> winv (push_node M n).
Proof. intros. apply winv_link; try assumption. lia. Qed.
(** White space and what stands behind it come together. *)
Lemma winv_push2 M n : 1 <= length M -> nt (tonode M (length M - 1)) <> NWs -> n <> NWs -> n <> NBlank -> winv M -> closed M -> winv (push_node (push_node M NWs) n).
Proof.
  intros HL NL N1 N2 [W1 W2] HC. set (M1 := push_node M NWs). assert (L1 : length M1 = S (length M)) by apply push_node_len.
  assert (NT : forall j, nt (tonode (push_node M1 n) j) = if j =? S (length M) then n else if j =? length M then NWs else nt (tonode M j)).
  { intros j. pose proof (push_node_rd M1 n j ltac:(lia)) as R. rewrite L1 in R. destruct (j =? S (length M)) eqn:Q; [apply reads_inj, R|].
    pose proof (push_node_rd M NWs j HL) as R2. fold M1 in R2. rewrite R2 in R. destruct (j =? length M) eqn:Q2; [apply reads_inj, R|]. apply rd_nt, R. }
  assert (ED : forall j, edges (push_node M1 n) j = edges M j ++ (if j =? length M - 1 then [(length M, 0)] else []) ++ (if j =? length M then [(S (length M), 0)] else [])).
  { intros j. rewrite edges_push by lia. pose proof (edges_push M NWs j HL) as E2. fold M1 in E2. rewrite E2, L1. replace (S (length M) - 1) with (length M) by lia. rewrite <- app_assoc. reflexivity. }
  split.
  - intros i. rewrite !NT, ED. destruct (i =? S (length M)) eqn:Q1; [congruence|]. destruct (i =? length M) eqn:Q2.
    + intros _. apply Nat.eqb_eq in Q2. subst i. replace (length M =? length M - 1) with false by (symmetry; apply Nat.eqb_neq; lia). rewrite to_out by lia. cbn [blank atrs app]. split; [reflexivity|]. rewrite Nat.eqb_refl. exact N2.
    + intros E. destruct (W1 i E) as [A B]. assert (Hi : S i < length M) by (apply (HC i); unfold dests; rewrite A; left; reflexivity). destruct (i =? length M - 1) eqn:Q3; [apply Nat.eqb_eq in Q3; lia|]. cbn [app]. rewrite app_nil_r. split; [exact A|].
      destruct (S i =? S (length M)) eqn:Q4; [apply Nat.eqb_eq in Q4; lia|]. destruct (S i =? length M) eqn:Q5; [apply Nat.eqb_eq in Q5; lia|exact B].
  - intros i d t s. rewrite !NT, ED. intros H E. apply in_app_or in H as [H|H].
    + assert (Hd : d < length M) by (apply (HC i); apply in_dests; eauto). assert (Hi : i < length M) by (destruct (Nat.lt_ge_cases i (length M)); [assumption|rewrite to_out in H by assumption; destruct H]).
      destruct (d =? S (length M)) eqn:Q1; [apply Nat.eqb_eq in Q1; lia|]. destruct (d =? length M) eqn:Q2; [discriminate|]. destruct (W2 _ _ _ _ H E) as [A B]. split; [exact A|].
      destruct (i =? S (length M)) eqn:Q3; [apply Nat.eqb_eq in Q3; lia|]. destruct (i =? length M) eqn:Q4; [apply Nat.eqb_eq in Q4; lia|exact B].
    + apply in_app_or in H as [H|H].
      * destruct (i =? length M - 1); [|destruct H]. destruct H as [H|[]]. injection H as <- <-. destruct (length M =? S (length M)) eqn:Q; [apply Nat.eqb_eq in Q; lia|]. rewrite Nat.eqb_refl in E. discriminate.
      * destruct (i =? length M) eqn:Q; [|destruct H]. apply Nat.eqb_eq in Q. subst i. destruct H as [H|[]]. injection H as <- <-. split; [reflexivity|]. destruct (length M =? S (length M)) eqn:Q; [apply Nat.eqb_eq in Q; lia|reflexivity].
Qed.
Definition fine (M : atn) : Prop := winv M /\ nt (tonode M (length M - 1)) <> NWs.
Lemma push_nt M n j : 1 <= length M -> nt (tonode (push_node M n) j) = if j =? length M then n else nt (tonode M j).
Proof.
  intros H. pose proof (push_node_rd M n j H) as R. destruct (j =? length M); [apply reads_inj, R|]. apply rd_nt, R.
Qed.
Lemma add_nt M from tag j : nt (tonode (add_node M from tag) j) = nt (tonode M j).
Proof. apply rd_nt, add_node_rd. Qed.
Lemma upd_nt M i d t j : i < length M -> nt (tonode (upd_nth M i (add_atr d t)) j) = nt (tonode M j).
Proof. intros H. apply rd_nt, upd_rd, H. Qed.
Lemma last_add M from tag : nt (tonode (add_node M from tag) (length (add_node M from tag) - 1)) = NBlank.
Proof. rewrite add_nt, add_node_len. replace (S (length M) - 1) with (length M) by lia. rewrite to_out by lia. reflexivity. Qed.
Lemma closed_upd M k d t : k < length M -> d < length M -> closed M -> closed (upd_nth M k (add_atr d t)).
Proof. intros Hk Hd C i x Hx. rewrite upd_len. rewrite upd_dests in Hx by exact Hk. apply in_app_or in Hx as [Hx|Hx]; [exact (C i x Hx)|]. destruct (i =? k); [|destruct Hx]. destruct Hx as [<-|[]]. exact Hd. Qed.
Lemma fine_quant q M o a : o < length M -> a < length M -> nt (tonode M o) <> NWs -> (forall s, nt (tonode M a) <> NLit s) -> closed M -> fine M -> fine (quantM q M o a).
Proof.
  intros Ho Ha No Na C [W NL].
  assert (W1 := winv_add M (length M - 1) 0 ltac:(lia) NL W C). assert (L1 := add_node_len M (length M - 1) 0). assert (C1 := add_node_closed M (length M - 1) 0 ltac:(lia) C). assert (B1 := last_add M (length M - 1) 0).
  assert (T1 := add_nt M (length M - 1) 0).
  destruct q; cbn [quantM]; [split; assumption|..].
  - set (M1 := add_node M (length M - 1) 0) in *. assert (K1 : length M1 - 1 < length M1) by lia.
    assert (W2 : winv (upd_nth M1 (length M1 - 1) (add_atr a 0))) by (apply winv_upd; [exact K1|rewrite B1; discriminate|intros s; rewrite T1; apply Na|exact W1]).
    assert (T2 := upd_nt M1 (length M1 - 1) a 0). assert (C2 : closed (upd_nth M1 (length M1 - 1) (add_atr a 0))) by (apply closed_upd; [exact K1|lia|exact C1]).
    assert (L2 : length (upd_nth M1 (length M1 - 1) (add_atr a 0)) = length M1) by apply upd_len. set (M2 := upd_nth M1 _ _) in *.
    assert (N2 : nt (tonode M2 (length M2 - 1)) <> NWs) by (rewrite T2, L2, B1 by exact K1; discriminate).
    assert (W3 := winv_add M2 (length M2 - 1) 0 ltac:(lia) N2 W2 C2). assert (L3 := add_node_len M2 (length M2 - 1) 0). assert (B3 := last_add M2 (length M2 - 1) 0). assert (T3 := add_nt M2 (length M2 - 1) 0). set (M3 := add_node M2 _ 0) in *.
    assert (Ho3 : o < length M3) by lia.
    split; [apply winv_upd; [exact Ho3|rewrite T3, T2, T1 by exact K1; exact No|intros s; rewrite B3; discriminate|exact W3]|].
    rewrite upd_len, upd_nt, B3 by exact Ho3. discriminate.
  - set (M1 := add_node M (length M - 1) 0) in *. assert (K1 : length M1 - 1 < length M1) by lia.
    split; [apply winv_upd; [exact K1|rewrite B1; discriminate|intros s; rewrite T1; apply Na|exact W1]|]. rewrite upd_len, upd_nt, B1 by exact K1. discriminate.
  - set (M1 := add_node M (length M - 1) 0) in *. assert (Ho3 : o < length M1) by lia.
    split; [apply winv_upd; [exact Ho3|rewrite T1; exact No|intros s; rewrite B1; discriminate|exact W1]|]. rewrite upd_len, upd_nt, B1 by exact Ho3. discriminate.
Qed.
Lemma winv_join A terms : (forall t, In t terms -> t < length A /\ nt (tonode A t) <> NWs) -> winv A -> closed A -> winv (join A terms) /\ nt (tonode (join A terms) (length (join A terms) - 1)) = NBlank.
Proof.
  intros HT W C. unfold join.
  assert (S0 : forall j, nt (tonode (A ++ [blank]) j) = nt (tonode A j)) by (intros j; rewrite snoc_nt; destruct (j =? length A) eqn:Q; [apply Nat.eqb_eq in Q; subst; rewrite to_out by lia; reflexivity|reflexivity]).
  assert (W0 : winv (A ++ [blank])).
  { destruct W as [W1 W2]. split.
    - intros i. rewrite !S0, snoc_edges by reflexivity. apply W1.
    - intros i d t s. rewrite !S0, snoc_edges by reflexivity. apply W2. }
  assert (G : forall ts (B : atn), (forall t, In t ts -> t < length B /\ nt (tonode B t) <> NWs) -> nt (tonode B (length B - 1)) = NBlank -> winv B ->
    let J := fold_left (fun M from => upd_nth M from (add_atr (length M - 1) 0)) ts B in winv J /\ nt (tonode J (length J - 1)) = NBlank).
  { induction ts as [|t ts IH]; intros B HB LB WB; cbn [fold_left]; [auto|]. destruct (HB t (or_introl eq_refl)) as [Bt Nt]. apply IH.
    - intros x Hx. rewrite upd_len, upd_nt by exact Bt. apply HB. right. exact Hx.
    - rewrite upd_len, upd_nt by exact Bt. exact LB.
    - apply winv_upd; [exact Bt|exact Nt|intros s; rewrite LB; discriminate|exact WB]. }
  apply G; [|rewrite S0, app_length; cbn [length]; replace (length A + 1 - 1) with (length A) by lia; rewrite to_out by lia; reflexivity|exact W0].
  intros t Ht. rewrite app_length, S0. destruct (HT t Ht). cbn [length]. split; [lia|assumption].
Qed.
Lemma sub_nt M M' i : sub M M' -> i < length M -> nt (tonode M' i) = nt (tonode M i).
Proof. intros (_ & R & _) Hi. apply rd_nt, R, Hi. Qed.
Lemma build_fine :
  (forall a M, 1 <= length M -> closed M -> fine M -> fine (batom true a M) /\ forall s, nt (tonode (batom true a M) (length M)) <> NLit s) /\
  (forall s M, 1 <= length M -> closed M -> fine M -> fine (bseq true s M)) /\
  (forall e M, 1 <= length M -> closed M -> dests M (length M - 1) = [] -> fine M ->
     let r := balts true e M (length M - 1) in winv (fst (fst r)) /\ forall t, In t (snd r) -> nt (tonode (fst (fst r)) t) <> NWs).
Proof.
  apply g_ind.
  - intros x M H C [W NL]. cbn [batom]. destruct x as [id|s|p]; cbn [term_nty push_term].
    + split; [split; [apply winv_push; try assumption; discriminate|]|]; [rewrite push_nt, push_node_len by exact H; replace (S (length M) - 1) with (length M) by lia; rewrite Nat.eqb_refl; discriminate|].
      intros s. rewrite push_nt, Nat.eqb_refl by exact H. discriminate.
    + assert (H1 : 1 <= length (push_node M NWs)) by (rewrite push_node_len; lia).
      split; [split; [apply winv_push2; try assumption; discriminate|]|].
      * rewrite push_nt, !push_node_len by exact H1. replace (S (S (length M)) - 1) with (S (length M)) by lia. rewrite Nat.eqb_refl. discriminate.
      * intros s0. rewrite push_nt, push_node_len by exact H1. destruct (length M =? S (length M)) eqn:Q; [apply Nat.eqb_eq in Q; lia|]. rewrite push_nt, Nat.eqb_refl by exact H. discriminate.
    + assert (H1 : 1 <= length (push_node M NWs)) by (rewrite push_node_len; lia).
      split; [split; [apply winv_push2; try assumption; discriminate|]|].
      * rewrite push_nt, !push_node_len by exact H1. replace (S (S (length M)) - 1) with (S (length M)) by lia. rewrite Nat.eqb_refl. discriminate.
      * intros s0. rewrite push_nt, push_node_len by exact H1. destruct (length M =? S (length M)) eqn:Q; [apply Nat.eqb_eq in Q; lia|]. rewrite push_nt, Nat.eqb_refl by exact H. discriminate.
  - intros e IH M H C [W NL]. cbn [batom]. rewrite add_node_last by exact H.
    assert (L : length (push_node M NBlank) = S (length M)) by apply push_node_len.
    assert (CB : closed (push_node M NBlank)) by (apply push_node_closed; assumption).
    assert (DB : dests (push_node M NBlank) (length (push_node M NBlank) - 1) = []).
    { rewrite L. replace (S (length M) - 1) with (length M) by lia. rewrite push_node_dests, dests_out by lia.
      destruct (length M =? length M - 1) eqn:E; [apply Nat.eqb_eq in E; lia|reflexivity]. }
    pose proof (proj2 (proj2 (build_exact true)) e (push_node M NBlank) ltac:(lia) CB DB) as (CA & SA & HT & _).
    assert (FB : fine (push_node M NBlank)).
    { split; [apply winv_push; try assumption; discriminate|]. rewrite L, push_nt by exact H. replace (S (length M) - 1) with (length M) by lia. rewrite Nat.eqb_refl. discriminate. }
    specialize (IH (push_node M NBlank) ltac:(lia) CB DB FB).
    destruct (balts true e (push_node M NBlank) (length (push_node M NBlank) - 1)) as [[A prio] terms]. cbn [fst snd] in *. destruct IH as [IH1 IH2].
    assert (HT' : forall t, In t terms -> t < length A /\ nt (tonode A t) <> NWs) by (intros t Ht; split; [specialize (HT t Ht); lia|apply IH2, Ht]).
    destruct (winv_join A terms HT' IH1 CA) as [J1 J2]. split; [split; [exact J1|rewrite J2; discriminate]|].
    destruct (join_facts A terms (fun t h => proj1 (HT' t h))) as (_ & R & _). intros s. rewrite (rd_nt _ A (length M) (length M) (R _)). rewrite (sub_nt _ _ (length M) SA) by lia. rewrite push_nt, Nat.eqb_refl by exact H. discriminate.
  - intros M H C F. exact F.
  - intros a IHa q s IHs M H C F. cbn [bseq].
    pose proof (proj1 (build_exact true) a M H C) as A. pose proof (quant_adds q M _ _ H C A) as Q. destruct (adds_closed _ _ _ Q) as [Q1 Q2]. destruct A as (CA & SA & L & _).
    destruct (IHa M H C F) as [FA NA]. apply IHs; [exact Q2|exact Q1|]. apply fine_quant; [lia|exact L|rewrite (sub_nt _ _ _ SA) by lia; apply F|exact NA|exact CA|exact FA].
  - intros s IH M H C D F. cbn [balts fst snd]. assert (F1 : fine (bseq true s (add_node M (length M - 1) 0))).
    { apply IH; [rewrite add_node_len; lia|apply add_node_closed; [lia|exact C]|]. split; [apply winv_add; [lia|apply F|apply F|exact C]|rewrite last_add; discriminate]. }
    split; [apply F1|]. intros t [<-|[]]. apply F1.
  - intros e IHe up s IHs M H C D F. cbn [balts]. pose proof (proj2 (proj2 (build_exact true)) e M H C D) as (CA & SA & HT & _). specialize (IHe M H C D F).
    destruct (balts true e M (length M - 1)) as [[A prio] terms]. cbn [fst snd] in *. destruct IHe as [W1 N1]. set (pr := if up then S prio else prio).
    assert (LA : length M <= length A) by apply SA.
    assert (HA : 1 <= length (add_node A (length M - 1) pr)) by (rewrite add_node_len; lia). assert (C1 : closed (add_node A (length M - 1) pr)) by (apply add_node_closed; [lia|exact CA]).
    assert (F1 : fine (add_node A (length M - 1) pr)).
    { split; [apply winv_add; [lia|rewrite (sub_nt _ _ _ SA) by lia; apply F|exact W1|exact CA]|rewrite last_add; discriminate]. }
    assert (F2 := IHs _ HA C1 F1). pose proof (proj1 (proj2 (build_exact true)) s _ HA C1) as (_ & S2 & _).
    split; [apply F2|]. intros t Ht. apply in_app_or in Ht as [Ht|[<-|[]]]; [|apply F2].
    specialize (HT t Ht). rewrite (sub_nt _ _ t S2) by (rewrite add_node_len; lia). rewrite add_nt. apply N1, Ht.
Qed.
Lemma body_winv e : winv (build_body true e) /\ nt (tonode (build_body true e) (length (build_body true e) - 1)) = NBlank.
Proof.
  destruct body_base as (B1 & B2 & _ & _). assert (F0 : fine [blank]).
  { split; [split|cbn; discriminate]; [intros [|[|i]]; cbn; discriminate|intros [|[|i]] d t s; cbn; contradiction]. }
  unfold build_body, bsel. cbn [batom]. rewrite add_node_last by exact B1.
  assert (CB : closed (push_node [blank] NBlank)) by (apply push_node_closed; assumption).
  pose proof (proj2 (proj2 (build_exact true)) e (push_node [blank] NBlank) ltac:(cbn; lia) CB eq_refl) as (CA & SA & HT & _).
  assert (FB : fine (push_node [blank] NBlank)) by (split; [apply winv_push; try (apply F0); try assumption; discriminate|cbn; discriminate]).
  pose proof (proj2 (proj2 build_fine) e (push_node [blank] NBlank) ltac:(cbn; lia) CB eq_refl FB) as IH.
  destruct (balts true e (push_node [blank] NBlank) (length (push_node [blank] NBlank) - 1)) as [[A prio] terms]. cbn [fst snd] in *. destruct IH as [IH1 IH2].
  apply winv_join; [intros t Ht; split; [specialize (HT t Ht); lia|apply IH2, Ht]|exact IH1|exact CA].
Qed.

(** ** Removing pass-through nodes *)
Notation gp := (gpath nty (fun _ => []) ATNSem.reads).
Record dok (n : nat) (M : atn) (mask : list bool) : Prop := {
  d_len : length M = n; d_mlen : length mask = n; d_winv : winv M; d_last : nt (tonode M (n - 1)) = NBlank; d_kl : maskf mask (n - 1) = true; d_k0 : maskf mask 0 = true;
  d_closed : closed M; d_gone : forall p, p < n -> maskf mask p = false -> nt (tonode M p) = NBlank; d_reach : forall q, maskf mask q = true -> exists w, gp M (maskf mask) 0 w q }.
Lemma dok_step n M mask i M' mask' : dok n M mask -> 1 <= i -> i < n - 1 -> drop_step (Some (M, mask)) i = Some (M', mask') -> dok n M' mask'.
Proof.
  intros HD H1 Hi. pose proof HD as [L1 L2 [W1 W2] LB KL K0 CL GO RE]. cbn [drop_step]. fold (tonode M i).
  destruct (nt (tonode M i)) eqn:En; try (intros E; injection E as <- <-; exact HD).
  destruct (incoming M i) as [|o [|o' rest]] eqn:Ei; try (intros E; injection E as <- <-; exact HD).
  destruct (o =? i) eqn:Eo; [discriminate|]. apply Nat.eqb_neq in Eo. intros E. injection E as <- <-.
  assert (IN : forall p tag, In (i, tag) (atrs (tonode M p)) -> p = o) by (intros p tag H; assert (In p (incoming M i)) as Q by (apply in_incoming; eauto); rewrite Ei in Q; destruct Q as [Q|[]]; auto).
  assert (EX : exists tag, In (i, tag) (atrs (tonode M o))) by (apply in_incoming; rewrite Ei; left; reflexivity).
  pose proof (incoming_lt _ _ _ Ei) as Ho. set (f := fun n => mkA (nt n) (atrs n ++ atrs (tonode M i))).
  assert (HN : forall p, tonode (upd_nth M o f) p = if p =? o then f (tonode M p) else tonode M p) by (intros p; apply to_upd; right; exact Ho).
  assert (NT : forall p, nt (tonode (upd_nth M o f) p) = nt (tonode M p)) by (intros p; rewrite HN; destruct (p =? o); reflexivity).
  assert (ED : forall p e, In e (edges (upd_nth M o f) p) <-> In e (edges M p) \/ (p = o /\ In e (edges M i))) by (apply drop_edges; exact Ho).
  assert (MK : forall p, maskf (upd_nth mask i (fun _ => false)) p = if p =? i then false else maskf mask p) by (intros p; unfold maskf; rewrite upd_nth_nth by lia; destruct (p =? i); reflexivity).
  assert (NO : nt (tonode M o) <> NWs).
  { intros X. destruct (W1 o X) as [A B]. destruct EX as [tag EX]. rewrite A in EX. destruct EX as [EX|[]]. injection EX as <- _. congruence. }
  split.
  - rewrite upd_len. exact L1.
  - rewrite upd_len. exact L2.
  - split.
    + intros p. rewrite !NT. intros X. destruct (W1 p X) as [A B]. split; [|exact B]. rewrite HN. destruct (p =? o) eqn:Q; [apply Nat.eqb_eq in Q; subst; contradiction|exact A].
    + intros p d t s. rewrite !NT, ED. intros [H|[-> H]] X; [exact (W2 _ _ _ _ H X)|]. destruct (W2 _ _ _ _ H X) as [_ A]. congruence.
  - rewrite NT. exact LB.
  - rewrite MK. destruct (n - 1 =? i) eqn:Q; [apply Nat.eqb_eq in Q; lia|exact KL].
  - rewrite MK. destruct (0 =? i) eqn:Q; [apply Nat.eqb_eq in Q; lia|exact K0].
  - intros p d Hd. rewrite upd_len. apply in_dests in Hd as [t Hd]. apply ED in Hd as [Hd|[_ Hd]]; eapply CL; apply in_dests; eauto.
  - intros p Hp. rewrite MK, NT. destruct (p =? i) eqn:Q; [apply Nat.eqb_eq in Q; subst; auto|apply GO, Hp].
  - intros q Hq. rewrite MK in Hq. destruct (q =? i) eqn:Q; [discriminate|]. apply Nat.eqb_neq in Q. destruct (RE q Hq) as [w P]. exists w.
    apply (drop_fwd nty (fun _ => []) ATNSem.reads eq_refl M (upd_nth M o f) (maskf mask) (maskf (upd_nth mask i (fun _ => false))) i o) in P; [apply P; lia|..].
    + intros x. rewrite HN. destruct (x =? o); cbn [f atrs]; [reflexivity|rewrite app_nil_r; reflexivity].
    + exact NT.
    + exact MK.
    + exact En.
    + intros x tag H0. split; [eauto|reflexivity].
    + exact Eo.
    + exact Q.
Qed.
Lemma dok_loop n k : forall i M mask M' mask', dok n M mask -> 1 <= i -> i + k <= n - 1 -> fold_left drop_step (seq i k) (Some (M, mask)) = Some (M', mask') -> dok n M' mask'.
Proof.
  induction k as [|k IH]; intros i M mask M' mask' HD H1 Hl H; [cbn in H; injection H as <- <-; exact HD|].
  change (fold_left drop_step (seq i (S k)) (Some (M, mask))) with (fold_left drop_step (seq (S i) k) (drop_step (Some (M, mask)) i)) in H.
  destruct (drop_step (Some (M, mask)) i) as [[M1 mask1]|] eqn:E; [|rewrite drop_none in H; discriminate].
  apply (IH (S i) M1 mask1 M' mask'); [eapply dok_step; [exact HD|exact H1|lia|exact E]|lia|lia|exact H].
Qed.
Lemma index_onto mask : forall n, n <= length mask -> forall j, j < new_index mask n -> exists p, maskf mask p = true /\ p < n /\ j = new_index mask p.
Proof.
  induction n as [|n IH]; intros Hn j Hj; [destruct mask; cbn in Hj; lia|]. rewrite new_index_S in Hj by lia. destruct (maskf mask n) eqn:Q.
  - destruct (Nat.eq_dec j (new_index mask n)) as [->|N0]; [exists n; auto|]. destruct (IH ltac:(lia) j ltac:(lia)) as (p & ? & ? & ?). exists p. auto.
  - destruct (IH ltac:(lia) j ltac:(lia)) as (p & ? & ? & ?). exists p. auto.
Qed.
(** What the decision automata need of one network. *)
Record good_net (M : atn) : Prop := {
  gn_winv : winv M; gn_reach : forall i, i < length M -> LookRead.reach M i; gn_end : forall i, i < length M -> edges M i = [] -> nt (tonode M i) = NBlank }.
Lemma gp_reach M m p w q : gp M m p w q -> LookRead.reach M p -> LookRead.reach M q.
Proof. induction 1 as [p|p d tag w q Hd Hm H IH]; intros R; [exact R|]. apply IH. econstructor; [exact R|exact Hd]. Qed.
Lemma dok_filter n M mask : 1 <= n -> dok n M mask -> wf_net (filter_atn M mask) -> good_net (filter_atn M mask).
Proof.
  intros Hn HD HW. pose proof HD as [L1 L2 [W1 W2] LB KL K0 CL GO RE].
  pose proof (proj1 (filter_path nty (fun _ => []) ATNSem.reads (fun _ _ => True) (fun _ _ _ _ _ _ _ _ _ => eq_refl) (fun _ _ _ _ _ => I) (fun _ _ _ _ _ _ _ => I) M mask ltac:(lia))) as FP.
  rewrite filter_eq in *. destruct (filter_prefix M mask (length M) ltac:(lia)) as [F1 F2]. cbv zeta in F1, F2. set (F := flat_map _ _) in *.
  assert (inr : forall p, maskf mask p = true -> p < length M) by (intros p H; destruct (Nat.lt_ge_cases p (length mask)); [lia|unfold maskf in H; rewrite nth_overflow in H by assumption; discriminate]).
  assert (FN : forall p, maskf mask p = true -> tonode F (new_index mask p) = fnode M mask p) by (intros p Hp; apply F2; [apply inr; exact Hp|exact Hp]).
  assert (ON : forall j, j < length F -> exists p, maskf mask p = true /\ j = new_index mask p) by (intros j Hj; rewrite F1 in Hj; destruct (index_onto mask (length M) ltac:(lia) j Hj) as (p & P1 & _ & P2); eauto).
  assert (NX : forall p, maskf mask p = true -> new_index mask (S p) = S (new_index mask p)) by (intros p Hp; rewrite new_index_S by (pose proof (inr p Hp); lia); rewrite Hp; lia).
  split.
  - split.
    + intros j Hj. destruct (Nat.lt_ge_cases j (length F)) as [Lj|Lj]; [|rewrite to_out in Hj by exact Lj; discriminate]. destruct (ON j Lj) as (p & Kp & ->). rewrite FN in * by exact Kp. cbn [fnode nt atrs] in *. destruct (W1 p Hj) as [A B]. rewrite A. cbn [filter fst].
      assert (Ks : maskf mask (S p) = true).
      { destruct (maskf mask (S p)) eqn:X; [reflexivity|]. destruct (B (GO (S p) ltac:(rewrite <- L1; apply (CL p); unfold dests; rewrite A; left; reflexivity) X)). }
      rewrite Ks. cbn [map fst snd]. rewrite <- NX by exact Kp. rewrite FN by exact Ks. split; [reflexivity|exact B].
    + intros j d t s Hd Hs. destruct (Nat.lt_ge_cases j (length F)) as [Lj|Lj]; [|rewrite to_out in Hd by exact Lj; destruct Hd]. destruct (ON j Lj) as (p & Kp & ->). rewrite FN in * by exact Kp. cbn [fnode nt atrs] in *.
      apply in_map_iff in Hd as ([x g] & E & Hd). cbn [fst snd] in E. injection E as <- <-. apply filter_In in Hd as [Hd Kx]. cbn [fst] in Kx. rewrite FN in Hs by exact Kx. cbn [fnode nt] in Hs. destruct (W2 _ _ _ _ Hd Hs) as [-> A]. split; [apply NX, Kp|exact A].
  - intros j Lj. destruct (ON j Lj) as (p & Kp & ->). destruct (RE p Kp) as [w P]. apply FP in P; [|exact K0]. eapply gp_reach; [exact P|]. replace (new_index mask 0) with 0 by (destruct mask; reflexivity). constructor.
  - intros j Lj Hj. assert (j = length F - 1).
    { destruct (Nat.eq_dec j (length F - 1)) as [E|E]; [exact E|]. destruct (wn_go _ HW j ltac:(lia)). unfold dests. rewrite Hj. reflexivity. }
    subst j. assert (EL : length F - 1 = new_index mask (n - 1)).
    { rewrite F1. replace (length M) with (S (n - 1)) by lia. rewrite NX by exact KL. lia. }
    rewrite EL, FN by exact KL. cbn [fnode nt]. exact LB.
Qed.
Lemma backed_reach M : backed M -> forall i, i < length M -> LookRead.reach M i.
Proof.
  intros B. assert (G : forall n i, i < n -> i < length M -> LookRead.reach M i).
  { induction n as [|n IH]; intros i Hi L; [lia|]. destruct i as [|i]; [constructor|]. destruct (B (S i) ltac:(lia)) as (j & Lj & Hj). apply in_dests in Hj as [t Hj]. econstructor; [apply (IH j); lia|exact Hj]. }
  intros i Hi. exact (G (S i) i ltac:(lia) Hi).
Qed.
Lemma body_backed e : backed (build_body true e).
Proof. destruct body_base as (B1 & B2 & _). apply (proj1 (build_backed true) (GGroup e) [blank] B1 B2). intros i Hi. cbn in Hi. lia. Qed.
Theorem net_good e M : net_for e M -> good_net M.
Proof.
  pose proof (body_wf true e) as WF. destruct (body_winv e) as [W LB]. intros [->|HD].
  - split; [exact W|apply backed_reach, body_backed|]. intros i Hi Hd. destruct (Nat.eq_dec i (length (build_body true e) - 1)) as [->|N0]; [exact LB|]. destruct (wn_go _ WF i ltac:(lia)). unfold dests. rewrite Hd. reflexivity.
  - pose proof (body_drop_wf true e M HD) as WM. unfold drop_passthrough in HD. destruct (fold_left _ _ _) as [[M1 mask]|] eqn:E; [|discriminate]. injection HD as <-.
    pose proof (wn_ne _ WF) as L1. set (B := build_body true e) in *.
    assert (D0 : dok (length B) B (repeat true (length B))).
    { split; try exact W; try exact LB; try (apply (wn_closed _ WF)); [reflexivity|apply repeat_length|rewrite maskf_repeat; apply Nat.ltb_lt; lia|rewrite maskf_repeat; apply Nat.ltb_lt; lia| |].
      - intros p Hp. rewrite maskf_repeat. intros X. apply Nat.ltb_ge in X. lia.
      - intros q Hq. rewrite maskf_repeat in Hq. apply Nat.ltb_lt in Hq. pose proof (backed_reach B (body_backed e) q Hq) as R.
        assert (SN : forall p w a, gp B (maskf (repeat true (length B))) p w a -> forall d t, In (d, t) (edges B a) -> d < length B -> exists w', gp B (maskf (repeat true (length B))) p w' d).
        { induction 1 as [p|p d tag w a Hd Hm H IH]; intros x t Hx Lx.
          - eexists. eapply gp_step; [exact Hx|rewrite maskf_repeat; apply Nat.ltb_lt; exact Lx|constructor].
          - destruct (IH x t Hx Lx) as [w' P]. eexists. eapply gp_step; [exact Hd|exact Hm|exact P]. }
        clear Hq. induction R as [|i d t R IH Hd]; [exists []; constructor|]. destruct IH as [w P]. eapply SN; [exact P|exact Hd|]. apply (wn_closed _ WF i). apply in_dests. eauto. }
    apply (dok_filter (length B)); [exact L1| |exact WM]. destruct (Nat.le_gt_cases 2 (length B)) as [L2|L2].
    + eapply (dok_loop (length B) (length B - 2) 1); [exact D0|lia|lia|exact E].
    + replace (length B - 2) with 0 in E by lia. cbn in E. injection E as <- <-. exact D0.
Qed.
(** Tags. *)
Definition untagged (M : atn) : Prop := forall i d t, In (d, t) (edges M i) -> t = 0.
Theorem net_untagged e M : plain_sel e -> net_for e M -> untagged M.
Proof.
  intros HP. destruct body_base as (B1 & B2 & _).
  assert (U0 : untagged (build_body true e)).
  { intros i d [|k] H; [reflexivity|]. destruct (proj1 (build_notag true) (GGroup e) HP [blank] B1 B2) as [_ G]. apply G in H. destruct i as [|[|i]]; destruct H. }
  intros [->|HD]; [exact U0|]. unfold drop_passthrough in HD. destruct (fold_left _ _ _) as [[M1 mask]|] eqn:E; [|discriminate]. injection HD as <-.
  assert (G : forall l A m A' m', untagged A -> fold_left drop_step l (Some (A, m)) = Some (A', m') -> untagged A').
  { clear. induction l as [|i l IH]; intros A m A' m' U H; [injection H as <- <-; exact U|].
    change (fold_left drop_step (i :: l) (Some (A, m))) with (fold_left drop_step l (drop_step (Some (A, m)) i)) in H.
    destruct (drop_step (Some (A, m)) i) as [[A1 m1]|] eqn:E; [|rewrite drop_none in H; discriminate]. refine (IH A1 m1 A' m' _ H). clear H.
    revert E. cbn [drop_step]. fold (tonode A i). destruct (nt (tonode A i)); try (intros E; injection E as <- <-; exact U). destruct (incoming A i) as [|o [|? ?]] eqn:Ei; try (intros E; injection E as <- <-; exact U).
    destruct (o =? i); [discriminate|]. intros E. injection E as <- <-. intros p d t Hp. apply (drop_edges A i o (incoming_lt _ _ _ Ei)) in Hp as [Hp|[_ Hp]]; eapply U; exact Hp. }
  assert (U1 := G _ _ _ _ _ U0 E). intros j d t Hj. rewrite filter_eq in Hj.
  assert (L := drop_len_loop _ _ _ _ _ E). rewrite repeat_length in L.
  destruct (filter_prefix M1 mask (length M1) ltac:(lia)) as [F1 F2]. cbv zeta in F1, F2. set (F := flat_map _ _) in *.
  destruct (Nat.lt_ge_cases j (length F)) as [Lj|Lj]; [|rewrite to_out in Hj by exact Lj; destruct Hj]. rewrite F1 in Lj. destruct (index_onto mask (length M1) ltac:(lia) j Lj) as (p & Kp & Lp & ->).
  unfold tonode in Hj. rewrite F2 in Hj by assumption. cbn [fnode atrs] in Hj. apply in_map_iff in Hj as ([x g] & E1 & Hj). cbn [fst snd] in E1. injection E1 as _ <-. apply filter_In in Hj as [Hj _]. eapply U1. exact Hj.
Qed.

(** ** Patterns *)
Definition live (A : nfa) : Prop := forall q, q < length A -> exists v, NFASem.path (edge A) q v (length A - 1).
Definition lively (A : nfa) : Prop := wf A /\ live A.
Lemma live_base : live nfa_base.
Proof. intros [|[|q]] Hq; cbn in Hq; [|exists []; constructor|lia]. exists []. eapply p_eps; [apply edge_base; repeat split|constructor]. Qed.
(** Every state reaches r, and r reaches the end. *)
Lemma live_via A r : (exists v, NFASem.path (edge A) r v (length A - 1)) -> (forall q, q < length A -> q <> length A - 1 -> exists v, NFASem.path (edge A) q v r) -> live A.
Proof.
  intros [v P] H q Hq. destruct (Nat.eq_dec q (length A - 1)) as [->|N0]; [exists []; constructor|]. destruct (H q Hq N0) as [u Q]. exists (u ++ v). eapply NFAProofs.path_app; eassumption.
Qed.
Lemma live_add_state A cc : wf A -> live A -> (cc = [] \/ exists c, includes cc c = true) -> live (add_state A cc).
Proof.
  intros W L Hc. pose proof W as [LA _].
  assert (M : forall q w r, NFASem.path (edge A) q w r -> NFASem.path (edge (add_state A cc)) q w r) by (intros q w r; apply NFAProofs.path_mono; intros a l b H; apply edge_add_state; auto).
  apply (live_via _ (length A - 1)).
  - rewrite add_state_length. replace (S (length A) - 1) with (length A) by lia. assert (E : edge (add_state A cc) (length A - 1) cc (length A)) by (apply edge_add_state; auto).
    destruct Hc as [->|[c Hc]]; [exists []; eapply p_eps; [exact E|constructor]|exists [c]; eapply p_chr; [exact E|exact Hc|constructor]].
  - rewrite add_state_length. intros q Hq N0. destruct (L q ltac:(lia)) as [v P]. exists v. apply M, P.
Qed.
Lemma live_add_to A x lg : 1 <= length A -> live A -> live (add_to A [] x lg).
Proof. intros H L q Hq. assert (E : length (add_to A [] x lg) = length A) by apply upd_length. rewrite E in *. destruct (L q Hq) as [v P]. exists v. revert P. apply NFAProofs.path_mono. intros a l b Hab. apply edge_add_to; auto. Qed.
Lemma live_add_from A x : x < length A -> live A -> live (add_from A [] x).
Proof. intros H L q Hq. assert (E : length (add_from A [] x) = length A) by apply upd_length. rewrite E in *. destruct (L q Hq) as [v P]. exists v. revert P. apply NFAProofs.path_mono. intros a l b Hab. apply edge_add_from; auto. Qed.
Lemma live_concat A B : wf A -> wf B -> live A -> live B -> live (NFA.concat A B).
Proof.
  intros WA WB LA LB q Hq. pose proof WA as [NA _]. pose proof WB as [NB _]. rewrite concat_length in * by lia.
  assert (PB : forall p v, NFASem.path (edge B) p v (length B - 1) -> NFASem.path (edge (NFA.concat A B)) (p + (length A - 1)) v (length A + length B - 1 - 1)).
  { intros p v P. replace (length A + length B - 1 - 1) with (length B - 1 + (length A - 1)) by lia. revert P. apply (NFAProofs.path_iso (edge B) (edge (NFA.concat A B)) (fun x => x + (length A - 1))). intros a l b H. apply edge_concat; [exact WA|]. right. exists a, b. auto. }
  destruct (Nat.lt_ge_cases q (length A)) as [H|H].
  - destruct (LA q H) as [u P]. destruct (LB 0 ltac:(lia)) as [v Q]. exists (u ++ v). eapply NFAProofs.path_app; [|exact (PB 0 v Q)]. revert P. apply NFAProofs.path_mono. intros a l b Hab. apply edge_concat; auto.
  - destruct (LB (q - (length A - 1)) ltac:(lia)) as [v Q]. exists v. apply PB in Q. replace (q - (length A - 1) + (length A - 1)) with q in Q by lia. exact Q.
Qed.
Lemma live_select A B : wf A -> wf B -> live A -> live B -> live (select A B).
Proof.
  intros WA WB LA LB. pose proof WA as [NA EA]. pose proof WB as [NB EB]. destruct (select_spec A B WA WB) as (LS & WS & ES).
  assert (MA : forall q v, NFASem.path (edge A) q v (length A - 1) -> exists w, NFASem.path (edge (select A B)) q w (length A + length B - 1)).
  { intros q v P. exists (v ++ []). apply (NFAProofs.path_app _ _ _ (length A - 1)); [revert P; apply NFAProofs.path_mono; intros a l b H; apply ES; left; exact H|]. eapply p_eps; [apply ES; unfold selectE; do 5 right; repeat split|constructor]. }
  intros q Hq. rewrite LS in *. destruct (Nat.lt_ge_cases q (length A)) as [H|H]; [destruct (LA q H) as [v P]; eapply MA; exact P|].
  destruct (Nat.eq_dec q (length A + length B - 1)) as [->|N0]; [exists []; constructor|].
  destruct (LB (q - (length A - 1)) ltac:(lia)) as [v Q].
  assert (MB : forall p v r, NFASem.path (edge B) p v r -> 1 <= p -> r = length B - 1 -> NFASem.path (edge (select A B)) (p + (length A - 1)) v (length A + length B - 2)).
  { induction 1 as [p|p d w r He Hp IH|p lab ch d w r He Hi Hp IH]; intros H1 Hr.
    - subst p. replace (length B - 1 + (length A - 1)) with (length A + length B - 2) by lia. constructor.
    - eapply p_eps; [|apply IH; [apply (EB _ _ _ He)|exact Hr]]. apply ES. unfold selectE. do 3 right. left. exists p, d. auto.
    - eapply p_chr; [|exact Hi|apply IH; [apply (EB _ _ _ He)|exact Hr]]. apply ES. unfold selectE. do 3 right. left. exists p, d. auto. }
  exists (v ++ []). apply (NFAProofs.path_app _ _ _ (length A + length B - 2)); [replace q with (q - (length A - 1) + (length A - 1)) by lia; eapply MB; [exact Q|lia|reflexivity]|]. eapply p_eps; [apply ES; unfold selectE; do 4 right; left; repeat split|constructor].
Qed.
Lemma live_quant q A : wf A -> 2 <= length A -> live A -> live (quantA q A).
Proof.
  intros W H L. assert (H1 : 1 < length A) by lia. assert (W2 : forall lg, wf (add_to A [] 1 lg)) by (intros lg; apply wf_add_to; [exact W|lia|lia]).
  destruct q as [|lg|lg|]; cbn [quantA]; [exact L|apply live_add_to; [lia|exact L]| |apply live_add_from; [lia|exact L]].
  unfold starA. apply live_add_from; [rewrite add_state_length; unfold add_to; rewrite upd_length; lia|]. apply live_add_state; [apply W2|apply live_add_to; [lia|exact L]|auto].
Qed.
Lemma build_live :
  (forall u, unit_ok u -> live (build_unit u)) /\ (forall s, sel_ok s -> live (build_sel s)) /\ (forall p, pat_ok p -> live (build_pat p)).
Proof.
  apply regex_ind; cbn [unit_ok sel_ok pat_ok build_unit build_sel build_pat].
  - intros a Ha. apply live_add_state; [apply wf_base|apply live_base|]. right. destruct (atom_cc_ok a Ha) as [_ D].
    destruct a as [c| |l|l]; cbn [atom_ok] in Ha.
    + exists c. apply D. reflexivity.
    + exists 1%N. apply D. cbn. lia.
    + destruct Ha as (H1 & _ & H3). destruct l as [|i l]; [congruence|]. inversion H1; subst. exists (CharClassSpec.item_lo i). apply D. exists i. split; [left; reflexivity|]. destruct i; cbn in *; lia.
    + destruct Ha as (_ & _ & ch & H). exists ch. apply D. exact H.
  - intros p IH Hp. apply live_concat; [apply wf_base|apply (proj2 (proj2 build_spec) p Hp)|apply live_base|apply IH, Hp].
  - intros u IH q Hu. pose proof (proj1 build_spec u Hu) as ((W & L3 & _) & _). apply live_quant; [exact W|lia|apply IH, Hu].
  - intros s IHs u IHu q [Hs Hu]. pose proof (proj1 build_spec u Hu) as (HU & HB & HT). pose proof HU as (W & L3 & _). destruct (quantA_spec q _ _ _ HU HB HT) as (WQ & _). apply live_select; [apply (proj1 (proj2 build_spec) s Hs)|exact WQ|apply IHs, Hs|apply live_quant; [exact W|lia|apply IHu, Hu]].
  - intros _. apply live_base.
  - intros p IHp s IHs [Hp Hs]. apply live_concat; [apply (proj2 (proj2 build_spec) p Hp)|apply (proj1 (proj2 build_spec) s Hs)|apply IHp, Hp|apply IHs, Hs].
Qed.
Theorem pat_live p : pat_ok p -> live_nfa (build_pat p).
Proof.
  intros Hp. pose proof (proj2 (proj2 build_spec) p Hp) as ((L & E) & _). split; [intros X; rewrite X in L; cbn in L; lia|]. split; [intros q lab d H; apply (E _ _ _ H)|apply build_live, Hp].
Qed.
