From Coq Require Import List NArith Bool Lia ZifyN ZifyBool.
From Verif Require Import Marker.
Import ListNotations.
Open Scope N_scope.

Lemma testbit_high a n m : a < 2 ^ n -> n <= m -> N.testbit a m = false.
Proof.
  intros Ha Hm. destruct (N.eq_dec a 0) as [->|Hn]; [apply N.bits_0|].
  apply N.bits_above_log2. apply N.log2_lt_pow2 in Ha; lia.
Qed.

Lemma lor_add_shift a b n : a < 2 ^ n -> N.lor a (N.shiftl b n) = a + b * 2 ^ n.
Proof.
  intros Ha. rewrite N.shiftl_mul_pow2. rewrite <- N.lxor_lor, <- N.add_nocarry_lxor; auto.
  - apply N.bits_inj. intros m. rewrite N.land_spec, N.bits_0, <- N.shiftl_mul_pow2.
    destruct (N.lt_ge_cases m n).
    + rewrite N.shiftl_spec_low by assumption. apply andb_false_r.
    + rewrite (testbit_high a n m) by assumption. reflexivity.
  - apply N.bits_inj. intros m. rewrite N.land_spec, N.bits_0, <- N.shiftl_mul_pow2.
    destruct (N.lt_ge_cases m n).
    + rewrite N.shiftl_spec_low by assumption. apply andb_false_r.
    + rewrite (testbit_high a n m) by assumption. reflexivity.
Qed.

Lemma land_ones_mod a n : N.land a (2 ^ n - 1) = a mod 2 ^ n.
Proof. rewrite N.sub_1_r, <- N.ones_equiv. apply N.land_ones. Qed.

Lemma lor_bit15 id : id < 2 ^ 15 -> N.lor id (2 ^ 15) = id + 2 ^ 15.
Proof.
  intros H. change (2 ^ 15) with (N.shiftl 1 15) at 1. rewrite lor_add_shift by exact H. lia.
Qed.

Lemma word_eq x off : x < 2 ^ 16 -> off < 2 ^ 48 ->
  N.lor (u64 off) (u64 (N.shiftl x 48)) = off + x * 2 ^ 48.
Proof.
  intros Hx Ho. unfold u64. rewrite (N.mod_small off) by (change (2^64) with (2^16*2^48); nia).
  rewrite N.mod_small.
  - apply lor_add_shift; exact Ho.
  - rewrite N.shiftl_mul_pow2. change (2^64) with (2^16*2^48). nia.
Qed.

Lemma start_word_eq id off : id < 2 ^ 15 -> off < 2 ^ 48 ->
  start_word id off = off + (id + 2 ^ 15) * 2 ^ 48.
Proof.
  intros Hi Ho. unfold start_word. rewrite lor_bit15 by exact Hi. apply word_eq; [|exact Ho].
  change (2^16) with (2^15+2^15). lia.
Qed.
Lemma end_word_eq id off : id < 2 ^ 15 -> off < 2 ^ 48 ->
  end_word id off = off + id * 2 ^ 48.
Proof.
  intros Hi Ho. apply word_eq; [|exact Ho]. change (2^16) with (2^15+2^15). lia.
Qed.

Lemma div48 off x : off < 2 ^ 48 -> (off + x * 2 ^ 48) / 2 ^ 48 = x.
Proof. intros H. rewrite N.div_add by discriminate. rewrite N.div_small by exact H. lia. Qed.
Lemma mod48 off x : off < 2 ^ 48 -> (off + x * 2 ^ 48) mod 2 ^ 48 = off.
Proof. intros H. rewrite N.mod_add by discriminate. apply N.mod_small; exact H. Qed.

Lemma get_offset_word off x : off < 2 ^ 48 -> get_offset (off + x * 2 ^ 48) = off.
Proof. intros H. unfold get_offset. rewrite land_ones_mod. apply mod48; exact H. Qed.
Lemma get_id_word off x : off < 2 ^ 48 -> get_machine_id (off + x * 2 ^ 48) = x mod 2 ^ 15.
Proof.
  intros H. unfold get_machine_id. rewrite land_ones_mod, N.shiftr_div_pow2, div48 by exact H. reflexivity.
Qed.
Lemma get_sign_testbit w : get_sign_bit w = N.testbit w 63.
Proof.
  unfold get_sign_bit. destruct (N.testbit w 63) eqn:E.
  - destruct (N.land w (2 ^ 63) =? 0) eqn:Q; [|reflexivity].
    apply N.eqb_eq in Q. exfalso.
    assert (K : N.testbit (N.land w (2 ^ 63)) 63 = true) by (rewrite N.land_spec, E, N.pow2_bits_true; reflexivity).
    rewrite Q in K. discriminate.
  - assert (N.land w (2 ^ 63) = 0) as ->; [|reflexivity].
    apply N.bits_inj. intros m. rewrite N.land_spec, N.bits_0.
    destruct (N.eq_dec m 63) as [->|Hm]; [rewrite E; reflexivity|].
    rewrite N.pow2_bits_false by (intros K; apply Hm; symmetry; exact K). apply andb_false_r.
Qed.
Lemma get_sign_word off x : off < 2 ^ 48 -> get_sign_bit (off + x * 2 ^ 48) = N.testbit x 15.
Proof.
  intros H. rewrite get_sign_testbit. change 63 with (15 + 48).
  rewrite <- N.shiftr_spec by lia. rewrite N.shiftr_div_pow2, div48 by exact H. reflexivity.
Qed.

Lemma marker_start id off : 1 <= id < 2 ^ 15 -> off < 2 ^ 48 ->
  get_machine_id (start_word id off) = id /\ get_offset (start_word id off) = off /\
  get_sign_bit (start_word id off) = true /\ is_start_marker (start_word id off) = true /\
  is_end_marker (start_word id off) = false /\ is_sv_marker (start_word id off) = false /\
  start_word id off < 2 ^ 64 /\ start_word id off <> 0.
Proof.
  intros Hi Ho. rewrite start_word_eq by (try exact Ho; lia).
  assert (Q : (id + 2 ^ 15) mod 2 ^ 15 = id).
  { rewrite <- (N.mul_1_l (2 ^ 15)) at 1. rewrite N.mod_add by discriminate. apply N.mod_small; lia. }
  assert (S : N.testbit (id + 2 ^ 15) 15 = true).
  { rewrite <- lor_bit15 by lia. rewrite N.lor_spec, N.pow2_bits_true. apply orb_true_r. }
  assert (E1 := get_id_word off (id + 2 ^ 15) Ho). rewrite Q in E1.
  assert (E2 := get_sign_word off (id + 2 ^ 15) Ho). rewrite S in E2.
  unfold is_start_marker, is_end_marker, is_sv_marker. rewrite E1, E2, get_offset_word by exact Ho.
  assert (id =? 0 = false) as -> by lia. repeat split; auto.
  - change (2 ^ 64) with (2 ^ 16 * 2 ^ 48). change (2 ^ 16) with (2 ^ 15 + 2 ^ 15). nia.
  - assert (0 < (id + 2 ^ 15) * 2 ^ 48) by (apply N.mul_pos_pos; lia). lia.
Qed.

Lemma marker_end id off : 1 <= id < 2 ^ 15 -> off < 2 ^ 48 ->
  get_machine_id (end_word id off) = id /\ get_offset (end_word id off) = off /\
  get_sign_bit (end_word id off) = false /\ is_start_marker (end_word id off) = false /\
  is_end_marker (end_word id off) = true /\ is_sv_marker (end_word id off) = false /\
  end_word id off < 2 ^ 64 /\ end_word id off <> 0.
Proof.
  intros Hi Ho. rewrite end_word_eq by (try exact Ho; lia).
  assert (Q : id mod 2 ^ 15 = id) by (apply N.mod_small; lia).
  assert (S : N.testbit id 15 = false) by (apply (testbit_high id 15); lia).
  assert (E1 := get_id_word off id Ho). rewrite Q in E1.
  assert (E2 := get_sign_word off id Ho). rewrite S in E2.
  unfold is_start_marker, is_end_marker, is_sv_marker. rewrite E1, E2, get_offset_word by exact Ho.
  assert (id =? 0 = false) as -> by lia. repeat split; auto.
  - change (2 ^ 64) with (2 ^ 16 * 2 ^ 48). change (2 ^ 16) with (2 ^ 15 + 2 ^ 15). nia.
  - assert (0 < id * 2 ^ 48) by (apply N.mul_pos_pos; lia). lia.
Qed.

Definition word (b : bool) (id off : N) : N := if b then start_word id off else end_word id off.

Lemma word_injective b id off b' id' off' :
  1 <= id < 2 ^ 15 -> off < 2 ^ 48 -> 1 <= id' < 2 ^ 15 -> off' < 2 ^ 48 ->
  word b id off = word b' id' off' -> b = b' /\ id = id' /\ off = off'.
Proof.
  intros H1 H2 H3 H4 E.
  assert (S : get_sign_bit (word b id off) = b /\ get_machine_id (word b id off) = id /\ get_offset (word b id off) = off).
  { destruct b; cbn [word]; [destruct (marker_start id off H1 H2) as (?&?&?&_)|destruct (marker_end id off H1 H2) as (?&?&?&_)]; auto. }
  assert (S' : get_sign_bit (word b' id' off') = b' /\ get_machine_id (word b' id' off') = id' /\ get_offset (word b' id' off') = off').
  { destruct b'; cbn [word]; [destruct (marker_start id' off' H3 H4) as (?&?&?&_)|destruct (marker_end id' off' H3 H4) as (?&?&?&_)]; auto. }
  destruct S as (A1 & A2 & A3), S' as (B1 & B2 & B3). rewrite E in A1, A2, A3.
  repeat split; congruence.
Qed.
