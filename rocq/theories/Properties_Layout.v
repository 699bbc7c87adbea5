(** * Properties C36, C38 *)
From Coq Require Import List NArith Bool Lia ZifyBool ZifyN ZifyNat.
From Verif Require Import Layout.
Import ListNotations.
Open Scope N_scope.

Lemma align_ge x a : 0 < a -> x <= align_next x a.
Proof.
  intros Ha. unfold align_next. pose proof (N.div_mod (x + a - 1) a ltac:(lia)) as D.
  pose proof (N.mod_lt (x + a - 1) a ltac:(lia)). nia.
Qed.
Lemma align_mult x a : 0 < a -> (align_next x a) mod a = 0.
Proof. intros. unfold align_next. apply N.mod_mul. lia. Qed.

(** C38: the entry table and the banks are inside the shared object and no byte belongs to
    two of them. *)
Theorem C38_regions_disjoint : forall bank_size bank_num i j,
  i < bank_num -> j < bank_num ->
  (* every table entry lies before every bank *)
  entry_at i + entry_size <= bank_at bank_size bank_num j /\
  (* banks and entries are inside the object *)
  bank_at bank_size bank_num i + bank_size <= window_size bank_size bank_num /\
  (* different banks, and different entries, do not overlap *)
  (i <> j -> bank_at bank_size bank_num i + bank_size <= bank_at bank_size bank_num j \/
             bank_at bank_size bank_num j + bank_size <= bank_at bank_size bank_num i) /\
  (i <> j -> entry_at i + entry_size <= entry_at j \/ entry_at j + entry_size <= entry_at i) /\
  (* the main window starts on an 8 MiB boundary, as mmap requires of file offsets *)
  sub_window_size bank_num mod ipc_page = 0.
Proof.
  intros bs n i j Hi Hj.
  pose proof (align_ge (entry_size * n) ipc_page ltac:(unfold ipc_page; lia)) as A.
  pose proof (align_ge bs ipc_page ltac:(unfold ipc_page; lia)) as B.
  assert (E : entry_size * i + entry_size <= entry_size * n) by (unfold entry_size; lia).
  assert (M : bs * i + bs <= align_next bs ipc_page * n) by nia.
  unfold window_size, main_window_size, bank_at, entry_at, sub_window_size.
  split; [lia|]. split; [lia|]. split; [|split].
  - intros Hne. destruct (N.lt_ge_cases i j); [left|right]; nia.
  - intros Hne. unfold entry_size. lia.
  - apply align_mult. unfold ipc_page; lia.
Qed.
Print Assumptions C38_regions_disjoint.
Example C38_hyp : 1 < 4 /\ 3 < 4 /\ window_size (8 * 1024 * 1024) 4 = 5 * 8 * 1024 * 1024.
Proof. vm_compute. auto. Qed.
(** Offset and contents of a bank stay inside the main window mapping. *)
Theorem C38_bank_in_main_window : forall bank_size bank_num i, i < bank_num ->
  bank_size * i + bank_size <= main_window_size bank_size bank_num.
Proof.
  intros bs n i Hi. pose proof (align_ge bs ipc_page ltac:(unfold ipc_page; lia)) as B.
  unfold main_window_size. nia.
Qed.
Print Assumptions C38_bank_in_main_window.
(** Table entries are aligned for the integers in them, and banks of whole 64-bit markers for the markers. *)
Theorem C38_aligned : forall bank_size bank_num i,
  entry_at i mod 8 = 0 /\ (bank_size mod 8 = 0 -> bank_at bank_size bank_num i mod 8 = 0).
Proof.
  intros bs n i. split.
  - unfold entry_at, entry_size. rewrite N.mul_comm. apply N.mod_mul. lia.
  - intros H. unfold bank_at, sub_window_size, align_next.
    assert (E : ipc_page = 1048576 * 8) by reflexivity.
    rewrite E at 3. rewrite (N.mul_assoc _ 1048576 8). pose proof (N.div_mod bs 8 ltac:(lia)) as D. rewrite H, N.add_0_r in D. rewrite D.
    set (a := (entry_size * n + ipc_page - 1) / ipc_page * 1048576). replace (a * 8 + 8 * (bs / 8) * i) with ((a + bs / 8 * i) * 8) by lia. apply N.mod_mul. lia.
Qed.
Print Assumptions C38_aligned.

Lemma find_last_from_none p : forall i last, ~ In 47 p -> find_last_from p i last = last.
Proof.
  induction p as [|c p IH]; intros i last H; cbn; [reflexivity|].
  assert (c =? 47 = false) as -> by (cbn in H; lia). apply IH. cbn in H. tauto.
Qed.
Lemma find_last_from_some d f : forall i last, ~ In 47 f ->
  find_last_from (d ++ 47 :: f) i last = i + N.of_nat (length d).
Proof.
  induction d as [|c d IH]; intros i last H; cbn [app find_last_from length].
  - rewrite find_last_from_none by exact H. cbn. lia.
  - rewrite IH by exact H. lia.
Qed.

(** C36: included from file D/f, a relative path x means D/x; included from a file name
    without a directory it means x; an absolute path is used as is.  (File names shorter
    than 2^63 bytes.) *)
Theorem C36_relative_to_includer : forall d f x, ~ In 47 f ->
  N.of_nat (length (d ++ 47 :: f)) < 2 ^ 63 -> hd 0 x <> 47 ->
  make_include_path (d ++ 47 :: f) x = d ++ 47 :: x.
Proof.
  intros d f x Hf HL Hx. unfold make_include_path, find_last_slash. rewrite find_last_from_some by exact Hf.
  rewrite app_length in *. cbn [length] in *.
  assert (0 + N.of_nat (length d) =? N.of_nat (length d + S (length f)) = false) as -> by lia.
  assert (E : firstn (N.to_nat ((0 + N.of_nat (length d) + 1) mod 2 ^ 64)) (d ++ 47 :: f) = d ++ [47]).
  { rewrite N.mod_small by lia. replace (N.to_nat (0 + N.of_nat (length d) + 1)) with (length d + 1)%nat by lia.
    rewrite firstn_app_2. reflexivity. }
  rewrite E. destruct x as [|c x]; [rewrite <- app_assoc; reflexivity|].
  cbn in Hx. assert (c =? 47 = false) as -> by lia. rewrite <- app_assoc. reflexivity.
Qed.
Print Assumptions C36_relative_to_includer.
Theorem C36_no_directory : forall f x, ~ In 47 f -> N.of_nat (length f) < 2 ^ 63 ->
  make_include_path f x = x.
Proof.
  intros f x Hf HL. unfold make_include_path, find_last_slash. rewrite find_last_from_none by exact Hf.
  assert (npos =? N.of_nat (length f) = false) as -> by (unfold npos; lia).
  change ((npos + 1) mod 2 ^ 64) with 0. cbn [N.to_nat firstn app]. destruct x as [|c x]; [reflexivity|].
  destruct (c =? 47); reflexivity.
Qed.
Print Assumptions C36_no_directory.
Theorem C36_absolute : forall base x, N.of_nat (length base) < 2 ^ 63 ->
  make_include_path base (47 :: x) = 47 :: x.
Proof.
  intros base x HL. unfold make_include_path. destruct (_ =? _); reflexivity.
Qed.
Print Assumptions C36_absolute.
(* "a/b/c.cgr" including "d.cgr" *)
Example C36_hyp : make_include_path [97;47;98;47;99;46;99] [100;46;99] = [97;47;98;47;100;46;99].
Proof. reflexivity. Qed.
