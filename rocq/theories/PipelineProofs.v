(** Composition: writer, protocol and reduction. *)
From Coq Require Import List Arith Bool Lia Permutation NArith ZArith.
From Verif Require Import Marker Reduction TreeSpec ReductionProofs Writer WriterProofs Protocol ProtocolInv ProtocolLive ProtocolFacts.
Import ListNotations.

Lemma map_nth_seq {A} (l : list A) d : map (fun k => nth k l d) (seq 0 (length l)) = l.
Proof.
  induction l as [|x l IH] using rev_ind; [reflexivity|].
  rewrite app_length. cbn [length]. rewrite Nat.add_1_r, seq_S, map_app. cbn [map].
  rewrite app_nth2, Nat.sub_diag by lia. cbn [nth plus]. f_equal.
  rewrite <- IH at 2. apply map_ext_in. intros k Hk. apply in_seq in Hk. apply app_nth1. lia.
Qed.

Lemma reduce_banks_map f eb banks chunks : reduce_banks f eb banks = Ok chunks -> map (reduce_bank f eb) banks = map Ok chunks.
Proof.
  revert chunks. induction banks as [|b r IH]; intros chunks H; cbn in *; [injection H as <-; reflexivity|].
  destruct (reduce_bank f eb b) as [s|]; [|discriminate]. cbn [obind] in H.
  destruct (reduce_banks f eb r) as [l|]; [|discriminate]. injection H as <-. cbn [map]. f_equal. apply IH. reflexivity.
Qed.

Theorem pipeline f t B stale n W sched :
  tree_ok t -> (1 <= B)%nat -> (forall k, length (stale k) = B) ->
  (1 <= W)%nat -> (W <= n)%nat ->
  (forall th, match th with T2 w => (w < W)%nat | _ => True end -> forall i, exists j, (i <= j)%nat /\ sched j = th) ->
  exists banks, write_accept B B stale (stream t) = Ok banks /\
  exists N chunks,
    let s := trace n W (length banks) (fun k => nth k banks []) (reduce_bank f (Some 0%Z)) sched init N in
    final W s /\
    rev (merged s) = map Ok chunks /\
    Permutation (map snd (processed s)) banks /\
    exists log3, stage3 f (Some 0%Z) chunks = Ok (eval f t, log3) /\
      Permutation (concat (map (fun c => rev (log c)) chunks) ++ rev (log log3)) (calls f t).
Proof.
  intros Hok HB HL HW Hn Hf.
  destruct (write_accept_correct B stale HB HL (stream t) (stream_nonzero t Hok)) as (banks & E & C & _ & _ & NE).
  exists banks. split; [exact E|].
  assert (K1 : (1 <= length banks)%nat).
  { destruct banks; [|cbn; lia]. cbn in C. destruct t; discriminate. }
  set (pg := fun k => nth k banks []). set (rd := reduce_bank f (Some 0%Z)).
  pose proof (inv_init n W (length banks) pg rd K1) as H0.
  destruct (terminates n W (length banks) pg rd K1 HW Hn sched Hf init H0) as [N HF].
  assert (eb_ok : exists z, Some 0%Z = Some z /\ isValueTag z = false) by (exists 0%Z; auto).
  destruct (reduction_correct f (Some 0%Z) eb_ok t banks Hok C) as (l2 & l3 & ER & IL).
  unfold reduction in ER. destruct (reduce_banks f (Some 0%Z) banks) as [chunks|] eqn:EB; [|discriminate].
  cbn [obind] in ER. destruct (stage3 f (Some 0%Z) chunks) as [[v s3]|] eqn:E3; [|discriminate].
  cbn [obind] in ER. injection ER as -> <- <-.
  exists N, chunks. cbn zeta. set (s := trace n W (length banks) pg rd sched init N) in *.
  assert (HI : Inv n W (length banks) pg rd s) by (apply trace_inv; assumption).
  split; [exact HF|]. destruct HF as (F1 & F2 & F3).
  destruct (end3_complete n W (length banks) pg rd K1 s HI F3) as [EM _].
  split; [|split].
  - rewrite EM, rev_involutive. rewrite <- (reduce_banks_map _ _ _ _ EB).
    unfold rd, pg. rewrite <- (map_map (fun k => nth k banks []) (reduce_bank f (Some 0%Z))). rewrite map_nth_seq. reflexivity.
  - assert (EX : cnt3 s = length banks).
    { pose proof (i3 _ _ _ _ _ _ HI) as J. unfold inv3 in J. rewrite F3 in J. apply (exiting_cnt n W (length banks) pg rd K1 s HI J). }
    pose proof (processed_perm n W (length banks) pg rd K1 s HI EX) as PP.
    apply (Permutation_map snd) in PP. rewrite map_map in PP. cbn [snd] in PP. unfold pg in PP. rewrite map_nth_seq in PP. exact PP.
  - exists s3. split; [exact E3|]. apply il_perm. exact IL.
Qed.
