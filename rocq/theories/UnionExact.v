(** * Exactly when operator|(CharClass) loses characters *)
From Coq Require Import List NArith Bool Lia ZifyBool ZifyN.
From Verif Require Import CharClass CharClassSpec CharClassProofs.
Import ListNotations.
Open Scope N_scope.

Lemma SortedFrom_In lo l r : SortedFrom lo l -> In r l -> lo <= rs r /\ rs r < re r.
Proof.
  revert lo. induction l as [|x l IH]; intros lo H HI; [destruct HI|]. cbn [SortedFrom] in H. destruct H as (H1 & H2 & H3). destruct HI as [<-|HI]; [lia|]. destruct (IH _ H3 HI). lia.
Qed.
(** The current range and the rest of the list. *)
Definition curok (r : range) (l : cclass) : Prop := match l with [] => True | x :: l' => rs r <= rs x /\ re r = re x /\ rs x < re x /\ SortedFrom (re x) l' end.
Definition cur (r : range) (l : cclass) : cclass := match l with [] => [] | _ :: l' => r :: l' end.
Lemma cur_next l r : cur (next_r l r) l = l. Proof. destruct l; reflexivity. Qed.
Lemma curok_next x l r : SortedFrom x l -> curok (next_r l r) l.
Proof. destruct l; [exact (fun _ => I)|]. cbn [SortedFrom next_r curok]. intros (H1 & H2 & H3). repeat split; try lia. exact H3. Qed.
(** Moved: the start of the current range has been moved to the left. *)
Definition moved (r : range) (l : cclass) (y : range) : Prop := exists l', l = y :: l' /\ rs r < rs y.
Lemma moved_next l r y : ~ moved (next_r l r) l y. Proof. intros (l' & -> & H). cbn [next_r] in H. lia. Qed.
Definition LA (ri : range) (li : cclass) (rj : range) (lj : cclass) : Prop :=
  exists y, In y lj /\ (forall x, In x li -> re x < re y) /\ ((exists z, In z li /\ rs z < rs y /\ rs y < re z) \/ moved rj lj y).
Definition LB (ri : range) (li : cclass) (rj : range) (lj : cclass) : Prop :=
  exists y, In y li /\ (forall x, In x lj -> re x <= re y) /\ ((exists z, In z lj /\ rs z < rs y /\ rs y < re z) \/ moved ri li y).
Definition apart1 (ri : range) (li : cclass) (rj : range) (lj : cclass) : Prop :=
  match li, lj with i :: _, j :: _ => (rs ri < rs i -> rs i < rs j /\ rs rj = rs j) /\ (rs rj < rs j -> rs j < rs i /\ rs ri = rs i) | _, _ => True end.

Section Step.
Variables (ri : range) (i : range) (li : cclass) (rj : range) (j : range) (lj : cclass).
Hypothesis HI : curok ri (i :: li).
Hypothesis HJ : curok rj (j :: lj).
Hypothesis HA : apart1 ri (i :: li) rj (j :: lj).
Lemma gei x : In x li -> re i <= rs x /\ rs x < re x. Proof. intros H. destruct HI as (_ & _ & _ & S). exact (SortedFrom_In _ _ _ S H). Qed.
Lemma gej x : In x lj -> re j <= rs x /\ rs x < re x. Proof. intros H. destruct HJ as (_ & _ & _ & S). exact (SortedFrom_In _ _ _ S H). Qed.
(** ri lies before rj and is put out. *)
Lemma step_lt : re ri <= rs rj -> (LA (next_r li ri) li rj (j :: lj) \/ LB (next_r li ri) li rj (j :: lj) <-> LA ri (i :: li) rj (j :: lj) \/ LB ri (i :: li) rj (j :: lj)) /\ apart1 (next_r li ri) li rj (j :: lj).
Proof.
  intros E. destruct HI as (A1 & A2 & A3 & A4), HJ as (B1 & B2 & B3 & B4), HA as (C1 & C2). split; [split|].
  - intros [(y & Y1 & Y2 & Y3)|(y & Y1 & Y2 & Y3)].
    + left. exists y. split; [exact Y1|]. split.
      * intros x [<-|Hx]; [|auto]. destruct Y1 as [<-|Y1]; [lia|]. apply gej in Y1. lia.
      * destruct Y3 as [(z & Z1 & Z2)|M]; [left; exists z; split; [right; exact Z1|exact Z2]|right; exact M].
    + right. exists y. split; [right; exact Y1|]. split; [exact Y2|]. destruct Y3 as [Z|M]; [left; exact Z|destruct (moved_next _ _ _ M)].
  - intros [(y & Y1 & Y2 & Y3)|(y & Y1 & Y2 & Y3)].
    + left. exists y. split; [exact Y1|]. split; [intros x Hx; apply Y2; right; exact Hx|]. destruct Y3 as [(z & [<-|Z1] & Z2)|M]; [|left; exists z; auto|right; exact M].
      exfalso. destruct Y1 as [<-|Y1]; [lia|apply gej in Y1; lia].
    + destruct Y1 as [<-|Y1]; [specialize (Y2 j (or_introl eq_refl)); lia|]. right. exists y. split; [exact Y1|]. split; [exact Y2|]. left. destruct Y3 as [Z|(l' & M & _)]; [exact Z|]. injection M as M _. rewrite <- M in Y1. apply gei in Y1. lia.
  - destruct li as [|i' li']; [exact I|]. cbn [next_r apart1]. split; [lia|]. intros X. specialize (C2 X). lia.
Qed.
(** rj lies before ri and is put out. *)
Lemma step_gt : re rj <= rs ri -> (LA ri (i :: li) (next_r lj rj) lj \/ LB ri (i :: li) (next_r lj rj) lj <-> LA ri (i :: li) rj (j :: lj) \/ LB ri (i :: li) rj (j :: lj)) /\ apart1 ri (i :: li) (next_r lj rj) lj.
Proof.
  intros E. destruct HI as (A1 & A2 & A3 & A4), HJ as (B1 & B2 & B3 & B4), HA as (C1 & C2). split; [split|].
  - intros [(y & Y1 & Y2 & Y3)|(y & Y1 & Y2 & Y3)].
    + left. exists y. split; [right; exact Y1|]. split; [exact Y2|]. destruct Y3 as [Z|M]; [left; exact Z|destruct (moved_next _ _ _ M)].
    + right. exists y. split; [exact Y1|]. split.
      * intros x [<-|Hx]; [|auto]. destruct Y1 as [<-|Y1]; [lia|]. apply gei in Y1. lia.
      * destruct Y3 as [(z & Z1 & Z2)|M]; [left; exists z; split; [right; exact Z1|exact Z2]|right; exact M].
  - intros [(y & Y1 & Y2 & Y3)|(y & Y1 & Y2 & Y3)].
    + destruct Y1 as [<-|Y1]; [specialize (Y2 i (or_introl eq_refl)); lia|]. left. exists y. split; [exact Y1|]. split; [exact Y2|]. left. destruct Y3 as [Z|(l' & M & _)]; [exact Z|]. injection M as M _. rewrite <- M in Y1. apply gej in Y1. lia.
    + right. exists y. split; [exact Y1|]. split; [intros x Hx; apply Y2; right; exact Hx|]. destruct Y3 as [(z & [<-|Z1] & Z2)|M]; [|left; exists z; auto|right; exact M].
      exfalso. destruct Y1 as [<-|Y1]; [lia|apply gei in Y1; lia].
  - destruct lj as [|j' lj']; [exact I|]. cbn [next_r apart1]. split; [|lia]. intros X. specialize (C1 X). lia.
Qed.
(** ri is absorbed by rj. *)
Lemma step_absorb_i : rs rj < re ri -> rs ri < re rj -> re ri < re rj ->
  (LA (next_r li ri) li (r_merge rj ri) (j :: lj) \/ LB (next_r li ri) li (r_merge rj ri) (j :: lj) <-> LA ri (i :: li) rj (j :: lj) \/ LB ri (i :: li) rj (j :: lj)) /\ apart1 (next_r li ri) li (r_merge rj ri) (j :: lj).
Proof.
  intros E1 E2 E3. destruct HI as (A1 & A2 & A3 & A4), HJ as (B1 & B2 & B3 & B4), HA as (C1 & C2). split; [split|].
  - intros [(y & Y1 & Y2 & Y3)|(y & Y1 & Y2 & Y3)].
    + left. exists y. split; [exact Y1|]. split.
      * intros x [<-|Hx]; [|auto]. destruct Y1 as [<-|Y1]; [lia|]. apply gej in Y1. lia.
      * destruct Y3 as [(z & Z1 & Z2)|(l' & M1 & M2)]; [left; exists z; split; [right; exact Z1|exact Z2]|]. injection M1 as <- <-. cbn [r_merge rs] in M2.
        destruct (N.lt_ge_cases (rs rj) (rs j)) as [L|L]; [right; exists lj; auto|left]. exists i. split; [left; reflexivity|]. lia.
    + right. exists y. split; [right; exact Y1|]. split; [exact Y2|]. destruct Y3 as [Z|M]; [left; exact Z|destruct (moved_next _ _ _ M)].
  - intros [(y & Y1 & Y2 & Y3)|(y & Y1 & Y2 & Y3)].
    + left. exists y. split; [exact Y1|]. split; [intros x Hx; apply Y2; right; exact Hx|]. destruct Y3 as [(z & [<-|Z1] & Z2)|(l' & M1 & M2)]; [|left; exists z; auto|].
      * destruct Y1 as [<-|Y1]; [|apply gej in Y1; lia]. right. exists lj. split; [reflexivity|]. cbn [r_merge rs]. lia.
      * injection M1 as <- <-. right. exists lj. split; [reflexivity|]. cbn [r_merge rs]. lia.
    + destruct Y1 as [<-|Y1]; [specialize (Y2 j (or_introl eq_refl)); lia|]. right. exists y. split; [exact Y1|]. split; [exact Y2|]. left. destruct Y3 as [Z|(l' & M & _)]; [exact Z|]. injection M as M _. rewrite <- M in Y1. apply gei in Y1. lia.
  - destruct li as [|i' li']; [exact I|]. cbn [next_r apart1]. cbn [SortedFrom] in A4. cbn [r_merge rs]. split; [lia|]. intros X. lia.
Qed.
(** rj is absorbed by ri. *)
Lemma step_absorb_j : rs rj < re ri -> rs ri < re rj -> re rj <= re ri ->
  (LA (r_merge ri rj) (i :: li) (next_r lj rj) lj \/ LB (r_merge ri rj) (i :: li) (next_r lj rj) lj <-> LA ri (i :: li) rj (j :: lj) \/ LB ri (i :: li) rj (j :: lj)) /\ apart1 (r_merge ri rj) (i :: li) (next_r lj rj) lj.
Proof.
  intros E1 E2 E3. destruct HI as (A1 & A2 & A3 & A4), HJ as (B1 & B2 & B3 & B4), HA as (C1 & C2). split; [split|].
  - intros [(y & Y1 & Y2 & Y3)|(y & Y1 & Y2 & Y3)].
    + left. exists y. split; [right; exact Y1|]. split; [exact Y2|]. destruct Y3 as [Z|M]; [left; exact Z|destruct (moved_next _ _ _ M)].
    + right. exists y. split; [exact Y1|]. split.
      * intros x [<-|Hx]; [|auto]. destruct Y1 as [<-|Y1]; [lia|]. apply gei in Y1. lia.
      * destruct Y3 as [(z & Z1 & Z2)|(l' & M1 & M2)]; [left; exists z; split; [right; exact Z1|exact Z2]|]. injection M1 as <- <-. cbn [r_merge rs] in M2.
        destruct (N.lt_ge_cases (rs ri) (rs i)) as [L|L]; [right; exists li; auto|left]. exists j. split; [left; reflexivity|]. lia.
  - intros [(y & Y1 & Y2 & Y3)|(y & Y1 & Y2 & Y3)].
    + destruct Y1 as [<-|Y1]; [specialize (Y2 i (or_introl eq_refl)); lia|]. left. exists y. split; [exact Y1|]. split; [exact Y2|]. left. destruct Y3 as [Z|(l' & M & _)]; [exact Z|]. injection M as M _. rewrite <- M in Y1. apply gej in Y1. lia.
    + right. exists y. split; [exact Y1|]. split; [intros x Hx; apply Y2; right; exact Hx|]. destruct Y3 as [(z & [<-|Z1] & Z2)|(l' & M1 & M2)]; [|left; exists z; auto|].
      * destruct Y1 as [<-|Y1]; [|apply gei in Y1; lia]. right. exists li. split; [reflexivity|]. cbn [r_merge rs]. lia.
      * injection M1 as <- <-. right. exists li. split; [reflexivity|]. cbn [r_merge rs]. lia.
  - destruct lj as [|j' lj']; [exact I|]. cbn [next_r apart1]. cbn [SortedFrom] in B4. cbn [r_merge rs]. split; [|lia]. intros X. lia.
Qed.
End Step.

Lemma Den_lt lo l ch : SortedFrom lo l -> ch < lo -> ~ Den l ch.
Proof. intros H L D. pose proof (SortedFrom_Den _ _ _ H D). lia. Qed.
Theorem union_loop_exact fuel : forall ri li rj lj, (length li + length lj <= fuel)%nat -> curok ri li -> curok rj lj -> apart1 ri li rj lj ->
  exists c, union_loop fuel ri li rj lj = Some c /\
    (~ (LA ri li rj lj \/ LB ri li rj lj) -> forall ch, Den (cur ri li) ch \/ Den (cur rj lj) ch -> Den c ch) /\
    (LA ri li rj lj \/ LB ri li rj lj -> exists ch, (Den (cur ri li) ch \/ Den (cur rj lj) ch) /\ ~ Den c ch).
Proof.
  induction fuel as [|f IH]; intros ri li rj lj Hf HI HJ HA.
  { destruct li, lj; cbn [length] in Hf; try lia. exists []. split; [reflexivity|]. cbn [cur]. split; [intros _ ch [H|H]; exact H|]. intros [(y & [] & _)|(y & [] & _)]. }
  destruct li as [|i li].
  { exists lj. split; [reflexivity|]. cbn [cur]. split.
    - intros NB ch [H|H]; [apply Den_nil in H; destruct H|]. destruct lj as [|j lj]; [exact H|]. cbn [cur] in H. apply Den_cons in H. apply Den_cons. destruct H as [H|H]; [left|right; exact H]. destruct HJ as (B1 & B2 & B3 & B4).
      destruct (N.lt_ge_cases (rs rj) (rs j)) as [L|L]; [|lia]. destruct NB. left. exists j. split; [left; reflexivity|]. split; [intros x []|]. right. exists lj. auto.
    - intros [(y & Y1 & _ & [(z & [] & _)|(l' & -> & M)])|(y & [] & _)]. exists (rs rj). destruct HJ as (B1 & B2 & B3 & B4). split; [right; apply Den_cons; left; lia|]. rewrite Den_cons. intros [H|H]; [lia|]. apply (fun L => Den_lt _ _ _ B4 L H); lia. }
  destruct lj as [|j lj].
  { exists (i :: li). split; [reflexivity|]. cbn [cur]. destruct HI as (A1 & A2 & A3 & A4). split.
    - intros NB ch [H|H]; [|apply Den_nil in H; destruct H]. apply Den_cons in H. apply Den_cons. destruct H as [H|H]; [left|right; exact H].
      destruct (N.lt_ge_cases (rs ri) (rs i)) as [L|L]; [|lia]. destruct NB. right. exists i. split; [left; reflexivity|]. split; [intros x []|]. right. exists li. auto.
    - intros [(y & [] & _)|(y & Y1 & _ & [(z & [] & _)|(l' & E & M)])]. injection E as <- <-. exists (rs ri). split; [left; apply Den_cons; left; lia|]. rewrite Den_cons. intros [H|H]; [lia|]. apply (fun L => Den_lt _ _ _ A4 L H); lia. }
  cbn [union_loop length] in *. pose proof HI as (A1 & A2 & A3 & A4). pose proof HJ as (B1 & B2 & B3 & B4).
  unfold r_lt, r_gt. destruct (re ri <=? rs rj) eqn:E1; [|destruct (re rj <=? rs ri) eqn:E2; [|destruct (re ri <? re rj) eqn:E3]].
  - destruct (step_lt ri i li rj j lj HI HJ HA ltac:(lia)) as [EQ AP]. destruct (IH (next_r li ri) li rj (j :: lj)) as (c & Hc & P1 & P2); [cbn [length]; lia|exact (curok_next _ _ _ A4)|exact HJ|exact AP|].
    rewrite Hc. exists (ri :: c). split; [reflexivity|]. rewrite cur_next in P1, P2. cbn [cur] in *. rewrite EQ in P1, P2. split.
    + intros NB ch H. apply Den_cons. rewrite Den_cons in H. destruct H as [[H|H]|H]; [left; exact H|right; apply P1; auto..].
    + intros B. destruct (P2 B) as (ch & H & NC). exists ch. rewrite !Den_cons in *. split; [tauto|]. intros [K|K]; [|exact (NC K)]. destruct H as [H|[H|H]]; [apply (fun L => Den_lt _ _ _ A4 L H); lia|lia|apply (fun L => Den_lt _ _ _ B4 L H); lia].
  - destruct (step_gt ri i li rj j lj HI HJ HA ltac:(lia)) as [EQ AP]. destruct (IH ri (i :: li) (next_r lj rj) lj) as (c & Hc & P1 & P2); [cbn [length]; lia|exact HI|exact (curok_next _ _ _ B4)|exact AP|].
    rewrite Hc. exists (rj :: c). split; [reflexivity|]. rewrite cur_next in P1, P2. cbn [cur] in *. rewrite EQ in P1, P2. split.
    + intros NB ch H. apply Den_cons. rewrite !Den_cons in H. destruct H as [H|[H|H]]; [right; apply P1; [exact NB|left; apply Den_cons; exact H]|left; exact H|right; apply P1; auto].
    + intros B. destruct (P2 B) as (ch & H & NC). exists ch. rewrite !Den_cons in *. split; [tauto|]. intros [K|K]; [|exact (NC K)]. destruct H as [[H|H]|H]; [lia|apply (fun L => Den_lt _ _ _ A4 L H); lia|apply (fun L => Den_lt _ _ _ B4 L H); lia].
  - destruct (step_absorb_i ri i li rj j lj HI HJ HA ltac:(lia) ltac:(lia) ltac:(lia)) as [EQ AP]. destruct (IH (next_r li ri) li (r_merge rj ri) (j :: lj)) as (c & Hc & P1 & P2); [cbn [length]; lia|exact (curok_next _ _ _ A4)| |exact AP|].
    { cbn [curok r_merge rs re]. split; [lia|]. split; [lia|]. auto. }
    rewrite Hc. exists c. split; [reflexivity|]. rewrite cur_next in P1, P2. cbn [cur] in *. rewrite EQ in P1, P2. split.
    + intros NB ch H. apply (P1 NB). rewrite !Den_cons in *. cbn [r_merge rs re]. destruct H as [[H|H]|[H|H]]; [right; left; lia|left; exact H|right; left; lia|right; right; exact H].
    + intros B. destruct (P2 B) as (ch & H & NC). exists ch. split; [|exact NC]. rewrite !Den_cons in *. cbn [r_merge rs re] in H. destruct H as [H|[H|H]]; [left; right; exact H| |right; right; exact H].
      destruct (N.lt_ge_cases ch (re ri)); [destruct (N.lt_ge_cases ch (rs ri)); [right; left; lia|left; left; lia]|right; left; lia].
  - destruct (step_absorb_j ri i li rj j lj HI HJ HA ltac:(lia) ltac:(lia) ltac:(lia)) as [EQ AP]. destruct (IH (r_merge ri rj) (i :: li) (next_r lj rj) lj) as (c & Hc & P1 & P2); [cbn [length]; lia| |exact (curok_next _ _ _ B4)|exact AP|].
    { cbn [curok r_merge rs re]. split; [lia|]. split; [lia|]. auto. }
    rewrite Hc. exists c. split; [reflexivity|]. rewrite cur_next in P1, P2. cbn [cur] in *. rewrite EQ in P1, P2. split.
    + intros NB ch H. apply (P1 NB). rewrite !Den_cons in *. cbn [r_merge rs re]. destruct H as [[H|H]|[H|H]]; [left; left; lia|left; right; exact H|left; left; lia|right; exact H].
    + intros B. destruct (P2 B) as (ch & H & NC). exists ch. split; [|exact NC]. rewrite !Den_cons in *. cbn [r_merge rs re] in H. destruct H as [[H|H]|H]; [|left; right; exact H|right; right; exact H].
      destruct (N.lt_ge_cases ch (re rj)); [destruct (N.lt_ge_cases ch (rs rj)); [left; left; lia|right; left; lia]|left; left; lia].
Qed.
Theorem union_exact_iff a b : Sorted a -> Sorted b -> exists c, union a b = Some c /\
  ((forall ch, Den c ch <-> Den a ch \/ Den b ch) <->
   ~ (exists y z, In y b /\ In z a /\ rs z < rs y /\ rs y < re z /\ forall x, In x a -> re x < re y) /\
   ~ (exists y z, In y a /\ In z b /\ rs z < rs y /\ rs y < re z /\ forall x, In x b -> re x <= re y)).
Proof.
  intros Sa Sb. unfold union. destruct (union_loop_exact (length a + length b) (next_r a (mkR 0 0)) a (next_r b (mkR 0 0)) b) as (c & Hc & P1 & P2); [lia|exact (curok_next _ _ _ Sa)|exact (curok_next _ _ _ Sb)| |].
  { destruct a, b; try exact I. cbn [next_r apart1]. lia. }
  exists c. split; [exact Hc|]. destruct (union_sound a b Sa Sb) as (c' & Hc' & SO). unfold union in Hc'. rewrite Hc in Hc'. injection Hc' as <-. rewrite !cur_next in P1, P2. split.
  - intros E. split; intros (y & z & Y & Z & Z1 & Z2 & X); (destruct P2 as (ch & D & ND); [|apply ND, E, D]); [left|right]; exists y; (split; [exact Y|]); (split; [exact X|]); left; exists z; auto.
  - intros [N1 N2] ch. split; [apply SO|]. apply P1. intros [(y & Y & X & [(z & Z & Z1 & Z2)|M])|(y & Y & X & [(z & Z & Z1 & Z2)|M])]; [|destruct (moved_next _ _ _ M)| |destruct (moved_next _ _ _ M)].
    + apply N1. exists y, z. auto.
    + apply N2. exists y, z. auto.
Qed.
