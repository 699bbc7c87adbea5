(** * Properties C15, C19, C20, C21, C25 (sequential part), C33: markers, banks, reduction *)
From Coq Require Import List NArith ZArith Bool Lia ZifyBool ZifyN Permutation.
From Verif Require Import Marker MarkerProofs Reduction TreeSpec ReductionProofs ReductionStrict Stage2Forest Writer WriterProofs.
Import ListNotations.
Open Scope N_scope.

(** C15: decoding an encoded marker gives back flag, id and offset; the word is
    64 bits wide, is not the terminator, and is classified as what it is. *)
Theorem C15_roundtrip : forall id off : N, 1 <= id < 2 ^ 15 -> off < 2 ^ 48 ->
  (get_machine_id (start_word id off) = id /\ get_offset (start_word id off) = off /\
   get_sign_bit (start_word id off) = true /\ is_start_marker (start_word id off) = true /\
   is_end_marker (start_word id off) = false /\ is_sv_marker (start_word id off) = false /\
   start_word id off < 2 ^ 64 /\ start_word id off <> 0) /\
  (get_machine_id (end_word id off) = id /\ get_offset (end_word id off) = off /\
   get_sign_bit (end_word id off) = false /\ is_start_marker (end_word id off) = false /\
   is_end_marker (end_word id off) = true /\ is_sv_marker (end_word id off) = false /\
   end_word id off < 2 ^ 64 /\ end_word id off <> 0).
Proof. intros id off H1 H2. exact (conj (marker_start id off H1 H2) (marker_end id off H1 H2)). Qed.
Print Assumptions C15_roundtrip.
Theorem C15_injective : forall (b b' : bool) (id off id' off' : N),
  1 <= id < 2 ^ 15 -> off < 2 ^ 48 -> 1 <= id' < 2 ^ 15 -> off' < 2 ^ 48 ->
  (if b then start_word id off else end_word id off) = (if b' then start_word id' off' else end_word id' off') ->
  b = b' /\ id = id' /\ off = off'.
Proof. intros b b' id off id' off' H1 H2 H3 H4 E. exact (word_injective b id off b' id' off' H1 H2 H3 H4 E). Qed.
Print Assumptions C15_injective.
(** C15, the other way: every 64-bit word that is classified as a start marker, an end marker or a semantic value is the encoding of
    something (a rule number from 1 to 32767 and an offset below 2^48; for a value: bit 63 and an offset, Stage2Runner.hpp:85), and the remaining words are
    the plain numbers below 2^48, the terminator among them. *)
Theorem C15_classified : forall w : N, w < 2 ^ 64 ->
  (is_start_marker w = true <-> exists id off, 1 <= id < 2 ^ 15 /\ off < 2 ^ 48 /\ w = start_word id off) /\
  (is_end_marker w = true <-> exists id off, 1 <= id < 2 ^ 15 /\ off < 2 ^ 48 /\ w = end_word id off) /\
  (is_sv_marker w = true <-> exists off, off < 2 ^ 48 /\ w = 2 ^ 63 + off) /\
  (is_start_marker w = false /\ is_end_marker w = false /\ is_sv_marker w = false <-> w < 2 ^ 48).
Proof.
  intros w Hw. set (off := w mod 2 ^ 48). set (x := w / 2 ^ 48). assert (Ho : off < 2 ^ 48) by (apply N.mod_lt; discriminate).
  assert (Ew : w = off + x * 2 ^ 48) by (unfold off, x; rewrite N.add_comm, N.mul_comm; apply N.div_mod; discriminate).
  assert (Hx : x < 2 ^ 16) by (unfold x; apply N.div_lt_upper_bound; [discriminate|]; rewrite <- N.pow_add_r; exact Hw).
  set (id := x mod 2 ^ 15). set (b := x / 2 ^ 15). assert (Hi : id < 2 ^ 15) by (apply N.mod_lt; discriminate).
  assert (Ex : x = id + b * 2 ^ 15) by (unfold id, b; rewrite N.add_comm, N.mul_comm; apply N.div_mod; discriminate).
  assert (Hb : b < 2) by (unfold b; apply N.div_lt_upper_bound; [discriminate|]; change (2 ^ 15 * 2) with (2 ^ 16); exact Hx).
  assert (G1 : get_machine_id w = id) by (rewrite Ew; apply get_id_word; exact Ho).
  assert (G2 : get_sign_bit w = (b =? 1)).
  { rewrite Ew, get_sign_word by exact Ho. assert (b = 0 \/ b = 1) as [E|E] by lia; rewrite E in Ex |- *.
    - rewrite N.add_0_r in Ex. rewrite Ex. apply (testbit_high id 15 15 Hi). reflexivity.
    - rewrite N.mul_1_l in Ex. rewrite Ex, <- lor_bit15 by exact Hi. rewrite N.lor_spec, N.pow2_bits_true. apply orb_true_r. }
  assert (S : forall i o, 1 <= i < 2 ^ 15 -> o < 2 ^ 48 -> w = start_word i o -> b = 1 /\ id = i /\ off = o).
  { intros i o H1 H2 E. destruct (marker_start i o H1 H2) as (A1 & A2 & A3 & _). rewrite <- E in *. rewrite G1 in A1. rewrite G2 in A3. split; [lia|]. split; [exact A1|]. rewrite <- A2. unfold off, get_offset. rewrite land_ones_mod. reflexivity. }
  assert (En : forall i o, 1 <= i < 2 ^ 15 -> o < 2 ^ 48 -> w = end_word i o -> b = 0 /\ id = i /\ off = o).
  { intros i o H1 H2 E. destruct (marker_end i o H1 H2) as (A1 & A2 & A3 & _). rewrite <- E in *. rewrite G1 in A1. rewrite G2 in A3. split; [lia|]. split; [exact A1|]. rewrite <- A2. unfold off, get_offset. rewrite land_ones_mod. reflexivity. }
  assert (VX : b = 1 -> id = 0 -> w = 2 ^ 63 + off) by (intros B I; rewrite Ew, Ex, B, I; change (2 ^ 63) with ((0 + 1 * 2 ^ 15) * 2 ^ 48); lia).
  assert (XV : forall o, o < 2 ^ 48 -> w = 2 ^ 63 + o -> b = 1 /\ id = 0).
  { intros o H2 E. change (2 ^ 63) with (2 ^ 15 * 2 ^ 48) in E. rewrite N.add_comm in E. assert (X : x = 2 ^ 15) by (unfold x; rewrite E; apply div48; exact H2). unfold b, id. rewrite X. split; reflexivity. }
  unfold is_start_marker, is_end_marker, is_sv_marker. rewrite G1, G2. split; [|split; [|split]].
  - split.
    + intros H. exists id, off. assert (b = 1 /\ id <> 0) as [B I] by lia. split; [lia|]. split; [exact Ho|]. rewrite start_word_eq by (try exact Ho; lia). rewrite Ew, Ex, B. lia.
    + intros (i & o & H1 & H2 & E). destruct (S i o H1 H2 E) as (B & I & _). lia.
  - split.
    + intros H. exists id, off. assert (b = 0 /\ id <> 0) as [B I] by lia. split; [lia|]. split; [exact Ho|]. rewrite end_word_eq by (try exact Ho; lia). rewrite Ew, Ex, B. lia.
    + intros (i & o & H1 & H2 & E). destruct (En i o H1 H2 E) as (B & I & _). lia.
  - split.
    + intros H. exists off. split; [exact Ho|]. apply VX; lia.
    + intros (o & H1 & H2). destruct (XV o H1 H2) as [B I]. lia.
  - split.
    + intros (A & B & V). assert (b = 0 /\ id = 0) as [B' I] by lia. rewrite Ew, Ex, B', I. lia.
    + intros H. assert (X : x = 0) by (unfold x; apply N.div_small; exact H). assert (b = 0) by (unfold b; rewrite X; reflexivity). assert (id = 0) by (unfold id; rewrite X; reflexivity). lia.
Qed.
Print Assumptions C15_classified.
(** Outside the 15-bit id range (the grammar reader admits ids up to 65535) it fails:
    the end marker of rule 32769 is the start marker of rule 1. *)
Theorem C15_large_id_refuted :
  end_word 32769 5 = start_word 1 5 /\ is_end_marker (end_word 32769 5) = false /\
  get_machine_id (start_word 32769 5) = 1.
Proof. vm_compute. auto. Qed.
Print Assumptions C15_large_id_refuted.
Example C15_hyp : 1 <= 32767 < 2 ^ 15 /\ 2 ^ 48 - 1 < 2 ^ 48 /\ start_word 32767 (2 ^ 48 - 1) = 2 ^ 64 - 1.
Proof. repeat split; vm_compute; congruence. Qed.

(** C19: when the bank size equals the parser's page size (the only configuration
    Context::parse uses), splitting is exact whatever the size and the stale contents. *)
Theorem C19_split_exact : forall (B : nat) (stale : nat -> list N) (markers : list N),
  (1 <= B)%nat -> (forall k, length (stale k) = B) ->
  (forall w, In w markers -> w <> 0) ->
  exists banks, write_accept B B stale markers = Ok banks /\
    concat (map bank_content banks) = markers /\
    Forall (fun b => length b = B) banks /\
    length banks = S (length markers / B) /\
    (markers <> [] -> exists b r, banks = b :: r /\ bank_content b <> []).
Proof. exact (fun B stale ws H1 H2 H3 => write_accept_correct B stale H1 H2 ws H3). Qed.
Print Assumptions C19_split_exact.
(** Word for word: full banks, and one last bank with the rest of the markers and zeros behind them. *)
Theorem C19_layout : forall (B : nat) (stale : nat -> list N) (markers : list N),
  (1 <= B)%nat -> (forall k, length (stale k) = B) -> (forall w, In w markers -> w <> 0) ->
  exists full last, write_accept B B stale markers = Ok (full ++ [last ++ repeat 0 (B - length last)]) /\
    Forall (fun b => length b = B) full /\ (length last < B)%nat /\ concat full ++ last = markers.
Proof. exact (fun B stale ws H1 H2 H3 => write_accept_exact B stale H1 H2 ws H3). Qed.
Print Assumptions C19_layout.
Example C19_hyp :
  write_accept 2 2 (fun _ => [7;7]) [1;2;3;4] = Ok [[1;2];[3;4];[0;0]] /\
  write_accept 3 3 (fun _ => [7;7;7]) [1;2;3;4] = Ok [[1;2;3];[4;0;0]].
Proof. split; reflexivity. Qed.
(** For a bank smaller than the built-in page size the parser writes past the bank. *)
Theorem C19_small_bank_refuted : exists (B M : nat) (stale : nat -> list N) (markers : list N),
  (M < B)%nat /\ (forall k, length (stale k) = M) /\ (forall w, In w markers -> w <> 0) /\
  write_accept B M stale markers = UB.
Proof.
  exists 4%nat, 2%nat, (fun _ => [0;0]), [1]. repeat split; try lia; try reflexivity.
  intros w [<-|[]]; discriminate.
Qed.
Print Assumptions C19_small_bank_refuted.
(** For a larger one the words behind the page are scanned too, so old markers re-appear. *)
Theorem C19_large_bank_refuted : exists (B M : nat) (stale : nat -> list N) (markers : list N) banks,
  (B < M)%nat /\ (forall k, length (stale k) = M) /\ (forall w, In w markers -> w <> 0) /\
  write_accept B M stale markers = Ok banks /\ concat (map bank_content banks) <> markers.
Proof.
  exists 2%nat, 3%nat, (fun _ => [0;0;9]), [1;2]. eexists. repeat split; try lia; try reflexivity.
  - intros w [<-|[<-|[]]]; discriminate.
  - discriminate.
Qed.
Print Assumptions C19_large_bank_refuted.

(** C20/C21: for every tree and every division of its marker stream into banks the
    result is the sequential value, and the calls of stage 2 (bank by bank) and
    stage 3 are together exactly the sequential calls, each stage in sequential order.
    Hypothesis on [eb]: back() of an empty but allocated vector<int> reads some word
    that is not a positive tag (see C20_strict_refuted). *)
Theorem C20_parallel_reduction_partial : forall f eb z t banks,
  eb = Some z -> (z < 1)%Z ->
  tree_ok t -> concat (map bank_content banks) = stream t ->
  exists logs2 log3,
    reduction f eb banks = Ok (eval f t, logs2, log3) /\
    Interleave (concat logs2) log3 (calls f t).
Proof.
  intros f eb z t banks E Hz. apply reduction_correct. exists z. split; [exact E|].
  unfold isValueTag, VALUE. apply Z.leb_gt. exact Hz.
Qed.
Print Assumptions C20_parallel_reduction_partial.
Example C20_hyp :
  let t := Node 1 0 9 [Node 2 0 3 []; Node 2 4 9 [Node 3 5 6 []]] in
  let f := fun id s e args => id * 100 + e + fold_right N.add 0 args in
  let ws := stream t in
  let banks := [firstn 2 ws; firstn 3 (skipn 2 ws) ++ [0; 55]; [0]; skipn 5 ws] in
  tree_ok t /\ concat (map bank_content banks) = stream t /\
  reduction f (Some 0%Z) banks = Ok (eval f t, [[]; []; []; []], calls f t) /\
  reduction f (Some 0%Z) [ws] = Ok (827, [calls f t], []).
Proof. repeat split; vm_compute; congruence. Qed.
(** Without reading out of bounds the code cannot even evaluate a single node whose
    callback returns a value: back() is called on an empty vector. *)
Theorem C20_strict_refuted : exists f t banks,
  tree_ok t /\ concat (map bank_content banks) = stream t /\ reduction f None banks = UB.
Proof.
  exists (fun _ _ _ _ => 1), (Node 1 0 5 []), [[start_word 1 0; end_word 1 5; 0]].
  repeat split; try (vm_compute; congruence).
Qed.
Print Assumptions C20_strict_refuted.
(** Callbacks that never return a value (the side-effect-only style) are free of it. *)
Theorem C20_strict_no_values : forall t banks,
  tree_ok t -> concat (map bank_content banks) = stream t ->
  exists logs2 log3,
    reduction (fun _ _ _ _ => 0) None banks = Ok (0, logs2, log3) /\
    Interleave (concat logs2) log3 (calls (fun _ _ _ _ => 0) t).
Proof.
  intros t banks H1 H2. rewrite reduction_zero by reflexivity.
  destruct (C20_parallel_reduction_partial (fun _ _ _ _ => 0) (Some 0%Z) 0%Z t banks eq_refl ltac:(lia) H1 H2)
    as (l2 & l3 & E & I).
  exists l2, l3. split; [|exact I]. rewrite E. destruct t; reflexivity.
Qed.
Print Assumptions C20_strict_no_values.
(** Exactly when, without any assumption on back() of an empty vector: unless the value of the whole tree is 0 and every bank that begins with
    complete subtrees begins with ones of value 0 only, the behaviour is undefined; otherwise the result and the calls are the sequential ones. *)
Definition begins_with_value (f : N -> N -> N -> list N -> N) (ws : list N) : Prop := exists ts t' rest,
  ws = concat (map stream ts) ++ stream t' ++ rest /\ Forall tree_ok ts /\ tree_ok t' /\
  Forall (fun t => eval f t = 0) ts /\ eval f t' <> 0.
Theorem C20_strict_exactly_partial : forall f t banks,
  tree_ok t -> concat (map bank_content banks) = stream t ->
  (reduction f None banks = UB <-> eval f t <> 0 \/ exists b, In b banks /\ begins_with_value f (bank_content b)) /\
  (reduction f None banks <> UB -> exists logs2 log3, reduction f None banks = Ok (0, logs2, log3) /\ Interleave (concat logs2) log3 (calls f t)).
Proof.
  intros f t banks H1 H2. split; [exact (strict_exact f t banks H1 H2)|]. intros H. rewrite (reduction_none f t banks H1 H2) in *.
  destruct (negb (eval f t =? 0) || existsb (fun b => botV (nf f b)) banks) eqn:E; [congruence|].
  apply orb_false_iff in E as [E _]. apply negb_false_iff, N.eqb_eq in E.
  destruct (C20_parallel_reduction_partial f (Some 0%Z) 0%Z t banks eq_refl ltac:(lia) H1 H2) as (l2 & l3 & R & Il). rewrite E in R. exists l2, l3. split; [exact R|exact Il].
Qed.
Print Assumptions C20_strict_exactly_partial.
(** A listener that keeps values inside the tree and returns 0 for the root: with one bank the behaviour is defined, and cutting the same
    stream before the first inner node makes it undefined. *)
Example C20_strict_hyp :
  let t := Node 1 0 9 [Node 2 0 3 []; Node 2 4 9 []] in
  let f := fun id s e (args : list N) => if id =? 1 then 0 else 7 in
  tree_ok t /\ eval f t = 0 /\ reduction f None [stream t] = Ok (0, [calls f t], []) /\
  concat (map bank_content [firstn 1 (stream t); skipn 1 (stream t)]) = stream t /\
  begins_with_value f (bank_content (skipn 1 (stream t))) /\ reduction f None [firstn 1 (stream t); skipn 1 (stream t)] = UB.
Proof.
  cbv zeta. split; [cbn; lia|]. split; [reflexivity|]. split; [vm_compute; reflexivity|]. split; [vm_compute; reflexivity|]. split.
  - exists [], (Node 2 0 3 []), (skipn 3 (stream (Node 1 0 9 [Node 2 0 3 []; Node 2 4 9 []]))). split; [vm_compute; reflexivity|].
    split; [constructor|]. split; [cbn; lia|]. split; [constructor|]. vm_compute. discriminate.
  - vm_compute. reflexivity.
Qed.

(** C21: as a multiset, the callback invocations are those of the sequential evaluation. *)
Theorem C21_calls_exact_partial : forall f eb z t banks,
  eb = Some z -> (z < 1)%Z ->
  tree_ok t -> concat (map bank_content banks) = stream t ->
  exists v logs2 log3,
    reduction f eb banks = Ok (v, logs2, log3) /\
    Permutation (concat logs2 ++ log3) (calls f t).
Proof.
  intros f eb z t banks E Hz H1 H2.
  destruct (C20_parallel_reduction_partial f eb z t banks E Hz H1 H2) as (l2 & l3 & E1 & I).
  exists (eval f t), l2, l3. split; [exact E1|]. apply il_perm. exact I.
Qed.
Print Assumptions C21_calls_exact_partial.

(** C21: what stage 2 does to one bank is evaluate a list of complete trees one after
    the other, so a child's callback runs before its parent's and in the same worker. *)
Theorem C21_stage2_whole_subtrees : forall f z banks v logs2 log3,
  (z < 1)%Z -> reduction f (Some z) banks = Ok (v, logs2, log3) ->
  length logs2 = length banks /\
  Forall (fun l => exists ts, l = concat (map (calls f) ts)) logs2.
Proof.
  intros f z banks v l2 l3 Hz. apply stage2_forests. exists z. split; [reflexivity|].
  unfold isValueTag, VALUE. apply Z.leb_gt. exact Hz.
Qed.
Print Assumptions C21_stage2_whole_subtrees.

(** C25 (data part): writing with any page size and reducing gives the sequential value;
    in particular two page sizes give the same value and the same multiset of calls. *)
Theorem C25_page_size_irrelevant_partial : forall f t B1 B2 stale1 stale2,
  tree_ok t -> (1 <= B1)%nat -> (1 <= B2)%nat ->
  (forall k, length (stale1 k) = B1) -> (forall k, length (stale2 k) = B2) ->
  exists banks1 banks2 l1 m1 l2 m2,
    write_accept B1 B1 stale1 (stream t) = Ok banks1 /\
    write_accept B2 B2 stale2 (stream t) = Ok banks2 /\
    reduction f (Some 0%Z) banks1 = Ok (eval f t, l1, m1) /\
    reduction f (Some 0%Z) banks2 = Ok (eval f t, l2, m2) /\
    Permutation (concat l1 ++ m1) (concat l2 ++ m2).
Proof.
  intros f t B1 B2 st1 st2 Hok HB1 HB2 HL1 HL2.
  pose proof (stream_nonzero t Hok) as Hnz.
  destruct (write_accept_correct B1 st1 HB1 HL1 (stream t) Hnz) as (b1 & E1 & C1 & _).
  destruct (write_accept_correct B2 st2 HB2 HL2 (stream t) Hnz) as (b2 & E2 & C2 & _).
  destruct (C20_parallel_reduction_partial f (Some 0%Z) 0%Z t b1 eq_refl ltac:(lia) Hok C1) as (l1 & m1 & R1 & I1).
  destruct (C20_parallel_reduction_partial f (Some 0%Z) 0%Z t b2 eq_refl ltac:(lia) Hok C2) as (l2 & m2 & R2 & I2).
  exists b1, b2, l1, m1, l2, m2. repeat (split; [assumption|]).
  apply Permutation_trans with (calls f t); [apply il_perm; exact I1|].
  apply Permutation_sym, il_perm; exact I2.
Qed.
Print Assumptions C25_page_size_irrelevant_partial.

(** C33: after a rejected parse the reduction still runs; if the page holds the markers
    of an earlier parse, a result of that parse is presented as this one's. *)
Theorem C33_stale_result_refuted : exists (B : nat) (stale : nat -> list N) banks f,
  (forall k, length (stale k) = B) /\
  write_reject B B stale [start_word 1 0] = Ok banks /\
  reduction f (Some 0%Z) banks = Ok (42, [[mkCall 1 0 7 []]], []).
Proof.
  exists 3%nat, (fun _ => [start_word 1 3; end_word 1 7; 0]). eexists. exists (fun _ _ _ _ => 42).
  split; [reflexivity|]. split; [reflexivity|]. vm_compute. reflexivity.
Qed.
Print Assumptions C33_stale_result_refuted.
