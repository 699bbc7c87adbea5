(** Stage 2 evaluates whole subtrees, in order: the calls made for one bank are
    the concatenated sequential calls of a list of trees. *)
From Coq Require Import List NArith ZArith Bool Lia.
From Verif Require Import Marker Reduction TreeSpec ReductionProofs.
Import ListNotations.

Section G.
Variable f : N -> N -> N -> list N -> N.
Inductive gitem := GS (w : N) | GE (w : N) | GT (t : tree).
Fixpoint erase (g : list gitem) : list block :=
  match g with
  | [] => []
  | GS w :: r => BS w :: erase r
  | GE w :: r => BE w :: erase r
  | GT t :: r => pushv (eval f t) (erase r)
  end.
Fixpoint gtrees (g : list gitem) : list tree :=
  match g with [] => [] | GT t :: r => t :: gtrees r | _ :: r => gtrees r end.
Definition nzv (v : N) : bool := negb (v =? 0)%N.

Lemma peel g : exists us rest, g = map GT us ++ rest /\ (forall t r, rest <> GT t :: r).
Proof.
  induction g as [|[w|w|t] g IH].
  - exists [], []. split; [reflexivity|discriminate].
  - exists [], (GS w :: g). split; [reflexivity|discriminate].
  - exists [], (GE w :: g). split; [reflexivity|discriminate].
  - destruct IH as (us & rest & -> & H). exists (t :: us), rest. split; [reflexivity|exact H].
Qed.
Definition notV (s : list block) : Prop := match s with BV _ :: _ => False | _ => True end.
Definition addv (vs : list N) (s : list block) := match vs with [] => s | _ => BV vs :: s end.
Lemma erase_trees us rest : notV (erase rest) ->
  erase (map GT us ++ rest) = addv (filter nzv (map (eval f) (rev us))) (erase rest).
Proof.
  intros H. induction us as [|u us IH]; [reflexivity|]. cbn [map app erase rev]. rewrite IH.
  rewrite map_app, filter_app. cbn [map filter]. unfold pushv. change (nzv (eval f u)) with (negb (eval f u =? 0)%N).
  destruct (eval f u =? 0)%N; cbn [negb]; [rewrite app_nil_r; reflexivity|].
  set (l := filter nzv (map (eval f) (rev us))).
  destruct l as [|v l]; cbn [addv app].
  - destruct (erase rest) as [|[w|w|vs] r]; cbn in *; try reflexivity. contradiction.
  - reflexivity.
Qed.
Lemma gtrees_app us rest : gtrees (map GT us ++ rest) = us ++ gtrees rest.
Proof. induction us; cbn; [reflexivity|f_equal; assumption]. Qed.

Lemma ghost xs : (forall x, In x xs -> match x with BV _ => False | _ => True end) ->
  exists g, fst (bsteps f [] xs) = erase g /\
    snd (bsteps f [] xs) = concat (map (calls f) (rev (gtrees g))).
Proof.
  induction xs as [|x xs IH] using rev_ind; intros Hx.
  - exists []. auto.
  - destruct IH as (g & E1 & E2); [intros y Hy; apply Hx; apply in_or_app; auto|].
    rewrite bsteps_snoc. destruct (bsteps f [] xs) as [s l]. cbn [fst snd] in *. subst s l.
    assert (Hxx : match x with BV _ => False | _ => True end) by (apply Hx; apply in_or_app; simpl; auto).
    destruct x as [w|w|vs]; [|  |contradiction].
    + exists (GS w :: g). cbn. rewrite app_nil_r. auto.
    + destruct (peel g) as (us & rest & -> & Hr).
      assert (NV : notV (erase rest)).
      { destruct rest as [|[a|a|t] r]; cbn; auto. exfalso; eapply Hr; reflexivity. }
      rewrite erase_trees by exact NV.
      assert (D : (exists st r, rest = GS st :: r) \/
        bstep f (addv (filter nzv (map (eval f) (rev us))) (erase rest)) (BE w) =
          (BE w :: addv (filter nzv (map (eval f) (rev us))) (erase rest), [])).
      { destruct rest as [|[a|a|t] r]; [right|left; eauto|right|exfalso; eapply Hr; reflexivity];
          destruct (filter nzv (map (eval f) (rev us))); reflexivity. }
      destruct D as [(st & r & ->)|D].
      * exists (GT (Node (get_machine_id w) (get_offset st) (get_offset w) (rev us)) :: r).
        cbn [erase gtrees]. rewrite gtrees_app. cbn [gtrees rev].
        rewrite rev_app_distr, !map_app, !concat_app. cbn [map concat calls]. rewrite app_nil_r.
        change (fun v => negb (v =? 0)%N) with nzv. cbn [eval]. change (fun v => negb (v =? 0)%N) with nzv.
        set (vs := filter nzv (map (eval f) (rev us))). destruct vs; cbn [addv bstep fst snd]; rewrite ?app_assoc; split; reflexivity.
      * exists (GE w :: map GT us ++ rest). rewrite D. cbn [fst snd erase gtrees].
        rewrite erase_trees by exact NV. rewrite app_nil_r. auto.
Qed.

Lemma wblock_notV ws x : In x (map wblock ws) -> match x with BV _ => False | _ => True end.
Proof.
  intros H. apply in_map_iff in H as (w & <- & _). unfold wblock. destruct (is_start_marker w); exact I.
Qed.

Variable eb : option Z.
Hypothesis eb_ok : exists z, eb = Some z /\ isValueTag z = false.
Lemma reduce_banks_forests banks l : reduce_banks f eb banks = Ok l ->
  Forall (fun s => exists ts, rev (log s) = concat (map (calls f) ts)) l.
Proof.
  intros H. rewrite (reduce_banks_conc f eb eb_ok) in H. injection H as <-.
  apply Forall_forall. intros s Hs. apply in_map_iff in Hs as (b & <- & _).
  cbn [log conc]. rewrite rev_involutive. unfold nl.
  destruct (ghost (map wblock (bank_content b)) (wblock_notV _)) as (g & _ & E). eauto.
Qed.
Theorem stage2_forests banks v l2 l3 : reduction f eb banks = Ok (v, l2, l3) ->
  length l2 = length banks /\ Forall (fun l => exists ts, l = concat (map (calls f) ts)) l2.
Proof.
  unfold reduction. destruct (reduce_banks f eb banks) as [chunks|] eqn:E; [|discriminate].
  cbn [obind]. destruct (stage3 f eb chunks) as [[v' s]|]; [|discriminate]. cbn [obind].
  intros H. injection H as <- <- <-. split.
  - rewrite map_length. rewrite (reduce_banks_conc f eb eb_ok) in E. injection E as <-. apply map_length.
  - apply reduce_banks_forests in E. rewrite Forall_forall in *. intros l Hl.
    apply in_map_iff in Hl as (c & <- & Hc). apply E; exact Hc.
Qed.
End G.
