(** * Properties C27 and C28: the Python (separate process) mode of the reduction *)
From Coq Require Import List NArith ZArith Bool Arith Lia Permutation ZifyN ZifyNat.
From Verif Require Import Marker MarkerProofs Reduction TreeSpec ReductionProofs Writer WriterProofs PyReduction PySpec PyProofs PyBank PyMain Protocol ProtocolInv ProtocolLive ProtocolFacts PyChannel PyChannelProofs.
Import ListNotations.
Local Open Scope nat_scope.

(** [a] is a window of the words [l]. *)
Definition part_of {A} (a l : list A) : Prop := exists pre post, l = pre ++ a ++ post.

Lemma part_banks {A} (f : A -> list N) (b : A) : forall bs, In b bs -> part_of (f b) (concat (map f bs)).
Proof.
  induction bs as [|c bs IH]; intros H; [destruct H|]. destruct H as [->|H]; cbn [map concat].
  - exists [], (concat (map f bs)). reflexivity.
  - destruct (IH H) as (pre & post & E). exists (f c ++ pre), post. rewrite E, <- app_assoc. reflexivity.
Qed.
Lemma roomy_depth t b : tree_ok t -> part_of (bank_content b) (stream t) -> 4 * depth t + 6 <= length b -> (Z.of_nat (length b) < 2 ^ 31)%Z -> roomy b.
Proof.
  intros Hok (pre & post & E) H1 H2. destruct (stream_level t Hok) as [BT _]. rewrite E in BT. pose proof (scan_depth _ pre post _ BT) as SD.
  unfold roomy. destruct (scan (bank_content b)) as [e s]. cbn [fst snd] in SD. lia.
Qed.

(** ** C27 *)
(** Exactly when the reduced stacks do not fit: with S open start markers, E unmatched end markers and T stack entries left
    by the content of the bank, they take S + E + 5 words and half a word for each entry. *)
Theorem C27_exact : forall (V : Type) (h : N -> N -> N -> list V -> option V) eb bank,
  match p_words h eb (bank_content bank) p_empty with
  | UB => p_bank h eb bank = UB
  | Ok s => let room := length (q_starts s) + length (q_ends s) + 5 + Nat.div2 (S (length (q_tags s))) in
            (length bank < room -> p_bank h eb bank = UB) /\
            (room <= length bank -> exists image vals log, p_bank h eb bank = Ok (image, vals, log) /\ length image = length bank)
  end.
Proof.
  intros V h eb bank. unfold p_bank. destruct (p_words h eb (bank_content bank) p_empty) as [s|]; cbn [obind]; [|reflexivity].
  fold (needed s). cbn zeta. split; intros H.
  - destruct (Nat.ltb_spec (length bank) (needed s)); [reflexivity|lia].
  - destruct (Nat.ltb_spec (length bank) (needed s)); [lia|]. eexists _, _, _. split; [reflexivity|].
    rewrite !app_length, skipn_length. pose proof (needed_length s bank). lia.
Qed.
Print Assumptions C27_exact.
(** For banks that have room for four words per level of nesting, and six more, it never happens: whatever part of the
    marker stream of a tree the bank holds, the stacks fit, and the bank keeps its size. *)
Theorem C27_fits_partial : forall (V : Type) (h : N -> N -> N -> list V -> option V) z t bank,
  isValueTag z = false -> tree_ok t -> part_of (bank_content bank) (stream t) ->
  4 * depth t + 6 <= length bank -> (Z.of_nat (length bank) < 2 ^ 31)%Z ->
  exists image vals log, p_bank h (Some z) bank = Ok (image, vals, log) /\ length image = length bank.
Proof.
  intros V h z t bank Hz Hok Hp H1 H2. pose proof (roomy_depth t bank Hok Hp H1 H2) as HR.
  destruct (bank_image h (fcode h) (Rc h) (Rc_ok h) (Some z) ltac:(eauto) bank HR) as (p & img & W & _ & R).
  pose proof (C27_exact V h (Some z) bank) as E. rewrite W in E. cbn zeta in E. destruct E as [_ E]. apply E.
  fold (needed p). pose proof R as R'. unfold p_bank in R. rewrite W in R. cbn [obind] in R.
  destruct (Nat.ltb_spec (length bank) (needed p)); [|lia]. exfalso. destruct R as [R _]. discriminate R.
Qed.
Print Assumptions C27_fits_partial.
Example C27_fits_hyp :
  let t := Node 1 0 9 [Node 2 0 3 []; Node 2 4 9 [Node 3 5 6 []]] in
  let bank := firstn 5 (stream t) ++ repeat 0%N 13 in
  tree_ok t /\ part_of (bank_content bank) (stream t) /\ depth t = 3 /\ length bank = 18 /\
  p_bank (fun id s e (args : list N) => Some 7%N) (Some 0%Z) bank =
    Ok ([3; start_word 1 0; start_word 2 4; start_word 3 5; 0; 1; 0; 4; 8589934591; 18446744073709551615]%N ++ repeat 0%N 8, [7%N], [mkPCall 2%N 0%N 3%N []]).
Proof.
  cbn zeta. split; [vm_compute; repeat split; congruence|]. split; [exists [], (skipn 5 (stream (Node 1 0 9 [Node 2 0 3 []; Node 2 4 9 [Node 3 5 6 []]]))); reflexivity|].
  repeat split; vm_compute; reflexivity.
Qed.

(** For every bank size there is an input whose first bank overruns: n levels of nesting that begin one after the other. *)
Fixpoint nest (n : nat) : tree := Node 1 0 0 (match n with O => [] | S m => [nest m] end).
Lemma nest_ok n : tree_ok (nest n).
Proof. induction n; cbn; repeat split; try reflexivity; try lia; auto. all: cbn; auto. Qed.
Lemma nest_stream n : stream (nest n) = repeat (start_word 1 0) (S n) ++ repeat (end_word 1 0) (S n).
Proof.
  induction n as [|n IH]; [reflexivity|]. cbn [nest stream map concat]. rewrite IH, app_nil_r.
  change (repeat (start_word 1 0) (S (S n))) with (start_word 1 0 :: repeat (start_word 1 0) (S n)).
  rewrite <- app_comm_cons, <- app_assoc. f_equal. f_equal.
  change (repeat (end_word 1 0) (S (S n))) with (end_word 1 0 :: repeat (end_word 1 0) (S n)). symmetry. apply repeat_cons.
Qed.
Lemma starts_words {V} (h : N -> N -> N -> list V -> option V) eb n : forall s, exists s', p_words h eb (repeat (start_word 1 0) n) s = Ok s' /\
  length (q_starts s') = n + length (q_starts s) /\ length (q_ends s') = length (q_ends s).
Proof.
  induction n as [|n IH]; intros s; [exists s; repeat split|]. cbn [repeat p_words]. unfold p_word. change (is_start_marker (start_word 1 0)) with true. cbn [obind].
  destruct (IH (p_push_start (start_word 1 0) s)) as (s' & E & H1 & H2). exists s'. split; [exact E|]. cbn [p_push_start q_starts q_ends length] in *. lia.
Qed.
Lemma content_repeat n : bank_content (repeat (start_word 1 0) n) = repeat (start_word 1 0) n.
Proof. induction n; [reflexivity|]. cbn [repeat bank_content]. change (start_word 1 0 =? 0)%N with false. cbn iota. f_equal. exact IHn. Qed.
Theorem C27_refuted : forall (V : Type) (h : N -> N -> N -> list V -> option V) eb B (stale : nat -> list N),
  1 <= B -> (forall k, length (stale k) = B) ->
  exists t banks, tree_ok t /\ write_accept B B stale (stream t) = Ok banks /\ concat (map bank_content banks) = stream t /\
    p_bank h eb (hd [] banks) = UB /\ p_reduction h eb banks = UB.
Proof.
  intros V h eb B stale HB HS. exists (nest (B - 1)). pose proof (nest_ok (B - 1)) as OK.
  destruct (write_accept_exact B stale HB HS _ (stream_nonzero _ OK)) as (full & last & E & L & LL & C).
  destruct (write_accept_correct B stale HB HS _ (stream_nonzero _ OK)) as (banks & E' & C' & _). rewrite E in E'. injection E' as <-.
  eexists. split; [exact OK|]. split; [exact E|]. split; [exact C'|].
  rewrite nest_stream in C. replace (S (B - 1)) with B in C by lia.
  destruct full as [|b full]; [exfalso; cbn [concat app] in C; subst last; rewrite app_length, !repeat_length in LL; lia|].
  inversion L as [|? ? Lb Lr]; subst B. cbn [concat] in C. rewrite <- app_assoc in C.
  assert (Hb : b = repeat (start_word 1 0) (length b)).
  { apply (f_equal (firstn (length b))) in C. rewrite firstn_app, Nat.sub_diag, firstn_O, app_nil_r, firstn_all in C.
    rewrite firstn_app, repeat_length, Nat.sub_diag, firstn_O, app_nil_r in C. rewrite C at 1. rewrite <- (repeat_length (start_word 1 0) (length b)) at 1. apply firstn_all. }
  assert (U : p_bank h eb b = UB).
  { pose proof (C27_exact V h eb b) as X. assert (BC : bank_content b = repeat (start_word 1 0) (length b)) by (rewrite Hb at 1; apply content_repeat). rewrite BC in X. destruct (starts_words h eb (length b) p_empty) as (s' & W & S1 & _). rewrite W in X. apply X.
    cbn [p_empty q_starts length] in S1. rewrite S1. lia. }
  cbn [app hd]. split; [exact U|]. unfold p_reduction. cbn [p_banks]. rewrite U. reflexivity.
Qed.
Print Assumptions C27_refuted.

(** ** C28 *)
(** Every tree, every handler, every division of the marker stream into banks of one size that have room for four words per
    level of nesting (and six more), the first not empty: the Python mode hands out the value of the sequential evaluation,
    and the handler calls of stage 2 and stage 3 are together its calls, each stage in its order. *)
Theorem C28_python_reduction_partial : forall (V : Type) (h : N -> N -> N -> list V -> option V) z B t banks,
  (z < 1)%Z -> tree_ok t -> concat (map bank_content banks) = stream t -> bank_content (hd [] banks) <> [] ->
  Forall (fun b => length b = B) banks -> 4 * depth t + 6 <= B -> (Z.of_nat B < 2 ^ 31)%Z ->
  exists logs2 log3, p_reduction h (Some z) banks = Ok (py_eval h t, logs2, log3) /\
    Interleave (concat logs2) log3 (py_calls h t).
Proof.
  intros V h z B t banks Hz Hok Hc Hne HB HD H31. apply py_reduction_correct; auto.
  - exists z. split; [reflexivity|]. unfold isValueTag, VALUE. apply Z.leb_gt. exact Hz.
  - rewrite Forall_forall in HB. apply Forall_forall. intros b Hb. pose proof (HB b Hb). subst B. apply (roomy_depth t); auto.
    rewrite <- Hc. apply (part_banks bank_content). exact Hb.
Qed.
Print Assumptions C28_python_reduction_partial.
(** With the banks that the parser really fills (page size = bank size). *)
Theorem C28_parse_partial : forall (V : Type) (h : N -> N -> N -> list V -> option V) z B (stale : nat -> list N) t,
  (z < 1)%Z -> tree_ok t -> 4 * depth t + 6 <= B -> (Z.of_nat B < 2 ^ 31)%Z -> (forall k, length (stale k) = B) ->
  exists banks logs2 log3, write_accept B B stale (stream t) = Ok banks /\
    p_reduction h (Some z) banks = Ok (py_eval h t, logs2, log3) /\ Interleave (concat logs2) log3 (py_calls h t).
Proof.
  intros V h z B stale t Hz Hok HD H31 HS.
  destruct (write_accept_correct B stale ltac:(lia) HS _ (stream_nonzero _ Hok)) as (banks & E & C & L & _ & NE). exists banks.
  assert (Hne : bank_content (hd [] banks) <> []) by (destruct NE as (b & r & -> & Hb); [destruct t; discriminate|exact Hb]).
  destruct (C28_python_reduction_partial V h z B t banks Hz Hok C Hne L HD H31) as (l2 & l3 & R). exists l2, l3. split; [exact E|exact R].
Qed.
Print Assumptions C28_parse_partial.
(** A handler that adds up the values of the children and 1, and has no value for rule 3; three banks, calls in both stages. *)
Definition sum_handler (id s e : N) (args : list N) : option N := if (id =? 3)%N then None else Some (1 + fold_right N.add 0 args)%N.
Example C28_hyp :
  let t := Node 1 0 9 [Node 2 0 3 [Node 3 0 1 []; Node 2 1 3 []]; Node 2 4 9 [Node 3 5 6 []]; Node 2 9 9 []] in
  let ws := stream t in
  let bank l := l ++ repeat 0%N (18 - length l) in
  let banks := [bank (firstn 5 ws); bank (firstn 4 (skipn 5 ws)); bank (skipn 9 ws)] in
  tree_ok t /\ concat (map bank_content banks) = ws /\ bank_content (hd [] banks) <> [] /\ Forall (fun b => length b = 18) banks /\
  4 * depth t + 6 <= 18 /\ py_eval sum_handler t = Some 5%N /\
  p_reduction sum_handler (Some 0%Z) banks =
    Ok (Some 5%N, [[mkPCall 3%N 0%N 1%N []]; []; [mkPCall 2%N 9%N 9%N []]], [mkPCall 2%N 1%N 3%N []; mkPCall 2%N 0%N 3%N [1%N]; mkPCall 3%N 5%N 6%N []; mkPCall 2%N 4%N 9%N []; mkPCall 1%N 0%N 9%N [2; 1; 1]%N]).
Proof. cbn zeta. repeat split; try (vm_compute; congruence); try (vm_compute; lia). repeat constructor. Qed.

(** The values a handler sees by index: for the positions 0 .. argc-1 of a call they are the values it iterates over, whatever lies
    below them on the stack ([below]). *)
Theorem C28_index : forall (V : Type) (below args : list V) (i : nat), i < length args ->
  getitem (below ++ args) (length args) (Z.of_nat i) = nth_error args i.
Proof.
  intros V below args i H. unfold getitem, py_nth. rewrite app_length.
  replace (Z.of_nat (length below + length args) - Z.of_nat (length args) + Z.of_nat i)%Z with (Z.of_nat (length below + i)) by lia.
  replace (0 <=? Z.of_nat (length below + i))%Z with true by lia. rewrite Nat2Z.id, nth_error_app2 by lia. f_equal. lia.
Qed.
Print Assumptions C28_index.
(** Other positions are not refused: ctx[-1] is not the last child, as it is for a Python sequence, but the value of a node that is
    no child at all; which one depends on what else the bank happens to hold, so the result depends on the chunking. *)
Theorem C28_negative_index_refuted : forall (V : Type) (below args : list V) (x : V),
  getitem ((below ++ [x]) ++ args) (length args) (-1) = Some x.
Proof.
  intros V below args x. unfold getitem, py_nth. rewrite !app_length. cbn [length].
  replace (Z.of_nat (length below + 1 + length args) - Z.of_nat (length args) + -1)%Z with (Z.of_nat (length below)) by lia.
  replace (0 <=? Z.of_nat (length below))%Z with true by lia. rewrite Nat2Z.id, nth_error_app1 by (rewrite app_length; cbn; lia).
  rewrite nth_error_app2 by lia. rewrite Nat.sub_diag. reflexivity.
Qed.
Print Assumptions C28_negative_index_refuted.
(** ... and if nothing lies below them, ctx[-1] is the last child after all, as Python counts from the end; ctx[-argc-1] is refused. *)
Theorem C28_negative_index_at_bottom : forall (V : Type) (args : list V) (j : nat),
  getitem args (length args) (- Z.of_nat (S j)) = if j <? length args then nth_error args (length args - S j) else None.
Proof.
  intros V args j. unfold getitem, py_nth. replace (Z.of_nat (length args) - Z.of_nat (length args) + - Z.of_nat (S j))%Z with (- Z.of_nat (S j))%Z by lia.
  replace (0 <=? - Z.of_nat (S j))%Z with false by lia. destruct (j <? length args) eqn:E.
  - apply Nat.ltb_lt in E. replace (0 <=? Z.of_nat (length args) + - Z.of_nat (S j))%Z with true by lia. f_equal. lia.
  - apply Nat.ltb_ge in E. replace (0 <=? Z.of_nat (length args) + - Z.of_nat (S j))%Z with false by lia. reflexivity.
Qed.
Print Assumptions C28_negative_index_at_bottom.
(** If the first bank were empty (the parser never fills banks this way) the result would be lost. *)
Theorem C28_empty_first_bank_refuted : exists t banks, tree_ok t /\ concat (map bank_content banks) = stream t /\
  Forall (fun b => length b = 10) banks /\ 4 * depth t + 6 <= 10 /\
  py_eval sum_handler t = Some 1%N /\ exists l2 l3, p_reduction sum_handler (Some 0%Z) banks = Ok (None, l2, l3).
Proof.
  exists (Node 1 0 5 []), [repeat 0%N 10; [start_word 1 0; end_word 1 5] ++ repeat 0%N 8]. repeat split; try (vm_compute; congruence); try (cbn; lia); try (repeat constructor).
  eexists _, _. vm_compute. reflexivity.
Qed.
Print Assumptions C28_empty_first_bank_refuted.
(** As in C20: if reading back() of the empty tag vector is not granted, even one node with a value is undefined. *)
Theorem C28_strict_refuted : exists t banks, tree_ok t /\ concat (map bank_content banks) = stream t /\
  Forall (fun b => length b = 10) banks /\ p_reduction sum_handler None banks = UB.
Proof.
  exists (Node 1 0 5 []), [[start_word 1 0; end_word 1 5] ++ repeat 0%N 8]. repeat split; try (vm_compute; congruence). repeat constructor.
Qed.
Print Assumptions C28_strict_refuted.

(** *** The channels: every schedule of the parser, the workers, the merger and the queues' feeder threads *)
(** The protocol part of a run is a run of the protocol, so C22 to C24 hold of the Python mode too. *)
Theorem C28_channels_protocol : forall (P R Vs : Type) n W K (page : nat -> P) (red : P -> R) (val : R -> Vs) x,
  xreachable n W K page red val x -> reachable n W K page red (base x).
Proof. intros. eapply xreachable_base; eauto. Qed.
Print Assumptions C28_channels_protocol.
(** Whatever the feeder threads do: what the merger has received are the values of the pages it has merged, each with its own,
    in page order; no channel ever holds more than one list (pipe and feeders together), ... *)
Theorem C28_channels_in_order : forall (P R Vs : Type) n W K (page : nat -> P) (red : P -> R) (val : R -> Vs) x,
  1 <= K -> xreachable n W K page red val x ->
  (exists m, m <= K /\ rev (merged (base x)) = map (fun k => red (page k)) (seq 0 m) /\ rev (got x) = map (fun k => val (red (page k))) (seq 0 m)) /\
  (forall b, (pipe x b = [] /\ forall w, buf x w b = []) \/
     exists v, (pipe x b = [v] /\ forall w, buf x w b = []) \/ (exists w, buf x w b = [v] /\ pipe x b = [] /\ forall w', w' <> w -> buf x w' b = [])).
Proof.
  intros P R Vs n W K page red val x HK HR. pose proof (xreachable_inv n W K page red val HK x HR) as HC. split.
  - pose proof (c_inv _ _ _ _ _ _ _ HC) as HI. exists (mcount (base x)). pose proof (iC _ _ _ _ _ _ HI) as JC. split; [unfold mcount; destruct (p3 (base x)); lia|].
    rewrite (c_got _ _ _ _ _ _ _ HC), (iF _ _ _ _ _ _ HI), map_rev, !rev_involutive, map_map. split; reflexivity.
  - intros b. destruct (Nat.lt_ge_cases b n) as [Hb|Hb]; [|left; apply (c_not _ _ _ _ _ _ _ HC); lia].
    assert (D : has W (base x) b \/ ~ has W (base x) b).
    { unfold has. destruct (all_or_ex K HK (fun w => match p2 (base x) w with Rel2 c => negb (c =? b) | _ => true end) W) as [A|(w & Hw & A)].
      - destruct (bst_eqb (st (banks (base x) b)) S2U) eqn:E; [apply bst_eqb_true in E; auto|]. apply bst_eqb_false in E.
        destruct (p3 (base x)) as [i|i|i|i|c|c| |] eqn:E3; try (right; intros [(w & Hw & H)|[H|H]]; [specialize (A w Hw); cbn in A; rewrite H in A; rewrite Nat.eqb_refl in A; discriminate|congruence|congruence]).
        destruct (Nat.eq_dec c b) as [->|N]; [auto|]. right; intros [(w & Hw & H)|[H|H]]; [specialize (A w Hw); cbn in A; rewrite H in A; rewrite Nat.eqb_refl in A; discriminate|congruence|congruence].
      - left. left. exists w. split; [exact Hw|]. cbn in A. destruct (p2 (base x) w); try discriminate. apply negb_false_iff, Nat.eqb_eq in A. congruence. }
    destruct D as [D|D]; [right; eexists; apply (c_has _ _ _ _ _ _ _ HC b Hb D)|left; apply (c_not _ _ _ _ _ _ _ HC b); auto].
Qed.
Print Assumptions C28_channels_in_order.
(** ... and when the merger waits for the values of a bank, they are in the pipe or in one feeder thread, so it cannot wait for ever. *)
Theorem C28_channels_never_empty_handed : forall (P R Vs : Type) n W K (page : nat -> P) (red : P -> R) (val : R -> Vs) x b,
  1 <= K -> xreachable n W K page red val x -> p3 (base x) = Merge3 b -> pipe x b <> [] \/ exists w, buf x w b <> [].
Proof.
  intros P R Vs n W K page red val x b HK HR E. pose proof (xreachable_inv n W K page red val HK x HR) as HC.
  pose proof (i3 _ _ _ _ _ _ (c_inv _ _ _ _ _ _ _ HC)) as J. unfold inv3 in J. rewrite E in J.
  destruct (c_has _ _ _ _ _ _ _ HC b (proj1 J) ltac:(right; right; exact E)) as [[O _]|(w & O & _)]; [left; rewrite O; discriminate|right; exists w; rewrite O; discriminate].
Qed.
Print Assumptions C28_channels_never_empty_handed.

(** From the marker stream to the value: for every tree, every handler, any number of workers not above the number of banks, every
    schedule in which every thread and feeder keeps moving, all of them return, every list of values has been received with its
    own bank, and the merger's result and the handler calls are those of the sequential evaluation. *)
Definition chan {V} (r : outc (list N * list V * list (pcall V))) : list V := match r with Ok (_, vs, _) => vs | UB => [] end.
Theorem C28_end_to_end_partial : forall (V : Type) (h : N -> N -> N -> list V -> option V) z B (stale : nat -> list N) t nb W (sched : nat -> xthread),
  (z < 1)%Z -> tree_ok t -> 4 * depth t + 6 <= B -> (Z.of_nat B < 2 ^ 31)%Z -> (forall k, length (stale k) = B) ->
  1 <= W -> W <= nb ->
  (forall th, match th with T2 w => w < W | _ => True end -> forall i, exists j, i <= j /\ sched j = XT th) ->
  (forall w b, w < W -> b < nb -> forall i, exists j, i <= j /\ sched j = Flush w b) ->
  exists banks N cs, write_accept B B stale (stream t) = Ok banks /\
    let x := xtrace nb W (length banks) (fun k => nth k banks []) (p_bank h (Some z)) chan sched xinit N in
    final W (base x) /\ rev (merged (base x)) = map Ok cs /\ Permutation (map snd (processed (base x))) banks /\
    (forall b, pipe x b = [] /\ forall w, buf x w b = []) /\
    exists s, p_stage3 h (Some z) (combine (map (fun c => fst (fst c)) cs) (rev (got x))) = Ok (py_eval h t, s) /\
      Permutation (concat (map snd cs) ++ rev (q_log s)) (py_calls h t).
Proof.
  intros V h z B stale t nb W sched Hz Hok HD H31 HS HW HWn Hf HfF.
  destruct (C28_parse_partial V h z B stale t Hz Hok HD H31 HS) as (banks & l2 & l3 & E & PR & IL). exists banks.
  assert (HK : 1 <= length banks).
  { destruct (write_accept_correct B stale ltac:(lia) HS _ (stream_nonzero _ Hok)) as (banks' & E' & _ & _ & L & _). rewrite E in E'. injection E' as <-. rewrite L. lia. }
  unfold p_reduction in PR. destruct (p_banks h (Some z) banks) as [cs|] eqn:EB; cbn [obind] in PR; [|discriminate].
  destruct (p_stage3 h (Some z) (map fst cs)) as [[v s]|] eqn:E3; cbn [obind] in PR; [|discriminate]. injection PR as -> <- <-.
  set (page := fun k => nth k banks []) in *.
  destruct (xterminates nb W (length banks) page (p_bank h (Some z)) chan HK HW HWn sched Hf HfF xinit) as [N HF].
  { apply cinit; exact HK. } { reflexivity. }
  exists N, cs. split; [exact E|]. cbn zeta. set (x := xtrace nb W (length banks) page (p_bank h (Some z)) chan sched xinit N) in *.
  assert (HC : CInv nb W (length banks) page (p_bank h (Some z)) chan x) by (apply xtrace_inv; [exact HK|apply cinit; exact HK]).
  pose proof (c_inv _ _ _ _ _ _ _ HC) as HI. split; [exact HF|].
  destruct HF as (F1 & F2 & F3). destruct (end3_complete nb W (length banks) page (p_bank h (Some z)) HK _ HI F3) as [EM EB2].
  assert (MC : map (fun k => p_bank h (Some z) (page k)) (seq 0 (length banks)) = map Ok cs).
  { assert (Q : map (fun k => p_bank h (Some z) (page k)) (seq 0 (length banks)) = map (p_bank h (Some z)) banks).
    { rewrite <- (map_map page). f_equal. apply (nth_ext _ _ [] []); [rewrite map_length, seq_length; reflexivity|]. intros k Hk. rewrite map_length, seq_length in Hk.
      rewrite (nth_indep _ [] (page (length banks))) by (rewrite map_length, seq_length; exact Hk). rewrite (map_nth page), seq_nth by exact Hk. reflexivity. }
    rewrite Q. clear - EB. revert cs EB. induction banks as [|b r IH]; intros cs EB; cbn [p_banks map] in *; [injection EB as <-; reflexivity|].
    destruct (p_bank h (Some z) b) as [c|]; cbn [obind] in EB; [|discriminate]. destruct (p_banks h (Some z) r) as [l|]; cbn [obind] in EB; [|discriminate]. injection EB as <-. cbn [map]. f_equal. apply IH; reflexivity. }
  split; [rewrite EM, rev_involutive; exact MC|]. split.
  { assert (PP : Permutation (processed (base x)) (map (fun k => (k, page k)) (seq 0 (length banks)))).
    { apply processed_perm with (n := nb) (W := W) (red := p_bank h (Some z)); [exact HK|exact HI|].
      pose proof (i3 _ _ _ _ _ _ HI) as J. unfold inv3 in J. rewrite F3 in J. apply (exiting_cnt nb W (length banks) page (p_bank h (Some z)) HK _ HI J). }
    apply (Permutation_map snd) in PP. rewrite map_map in PP. cbn [snd] in PP.
    replace (map (fun k => page k) (seq 0 (length banks))) with banks in PP; [exact PP|].
    apply (nth_ext _ _ [] []); [rewrite map_length, seq_length; reflexivity|]. intros k Hk.
    rewrite (nth_indep (map _ _) [] (page (length banks))) by (rewrite map_length, seq_length; exact Hk). rewrite (map_nth page), seq_nth by exact Hk. reflexivity. }
  split.
  { intros b. apply (c_not _ _ _ _ _ _ _ HC). intros Hb [(w & Hw & H)|[H|H]]; [rewrite (F2 w Hw) in H; discriminate|destruct (EB2 b Hb); congruence|congruence]. }
  exists s. split.
  - rewrite (c_got _ _ _ _ _ _ _ HC), EM, map_rev, rev_involutive, MC, map_map. cbn [chan].
    replace (combine _ _) with (map fst cs); [exact E3|]. clear. induction cs as [|[[i v] l] r IH]; cbn; [reflexivity|]. f_equal. exact IH.
  - apply il_perm. exact IL.
Qed.
Print Assumptions C28_end_to_end_partial.
(** A round over all threads and feeders, for ever, is such a schedule: one worker, two banks. *)
Example C28_fair_hyp : let sched := fun k => match k mod 5 with 0 => XT T1 | 1 => XT (T2 0) | 2 => XT T3 | 3 => Flush 0 0 | _ => Flush 0 1 end in
  (forall th, match th with T2 w => w < 1 | _ => True end -> forall i, exists j, i <= j /\ sched j = XT th) /\
  (forall w b, w < 1 -> b < 2 -> forall i, exists j, i <= j /\ sched j = Flush w b).
Proof.
  assert (H : forall r i, r < 5 -> exists j, i <= j /\ j mod 5 = r).
  { intros r i Hr. exists (r + i * 5). split; [lia|]. rewrite Nat.mod_add by lia. apply Nat.mod_small; exact Hr. }
  cbn zeta. split.
  - intros [|w|] Hw i.
    + destruct (H 0 i ltac:(lia)) as (j & Hj & E). exists j. rewrite E. auto.
    + assert (w = 0) as -> by lia. destruct (H 1 i ltac:(lia)) as (j & Hj & E). exists j. rewrite E. auto.
    + destruct (H 2 i ltac:(lia)) as (j & Hj & E). exists j. rewrite E. auto.
  - intros w b Hw Hb i. assert (w = 0) as -> by lia. destruct b as [|[|]]; [| |lia].
    + destruct (H 3 i ltac:(lia)) as (j & Hj & E). exists j. rewrite E. auto.
    + destruct (H 4 i ltac:(lia)) as (j & Hj & E). exists j. rewrite E. auto.
Qed.
