(** C08-C10: from the NFA to the DFA. *)
From Coq Require Import List NArith Arith Bool Lia.
From Verif Require Import CharClass CharClassSpec Stream RegexSpec NFA NFASem NFAProofs NFABuild NFAParse DFA DFADep DFAProofs DFATerm DFAPattern DFAMin.
Import ListNotations.
Local Open Scope nat_scope.

(** C08.  Whatever the NFA: if the construction ends (no matter how much depth and how many steps
    it was given), running the DFA on a string answers whether the NFA accepts it. *)
Theorem C08_dfa_exact : forall (fuel ef : nat) (A : nfa) (D : dfa), dfa_plain fuel ef A = Some D ->
  forall w : list N, dfa_run D 0 w = true <-> accepts A w.
Proof. intros fuel ef A D H w. exact (dfa_plain_language fuel ef A D w H). Qed.
Print Assumptions C08_dfa_exact.
(** It is deterministic: two transitions of a state never share a character; and well formed:
    every transition leads to an existing state and has a non-empty label. *)
Theorem C08_dfa_deterministic : forall (fuel ef : nat) (A : nfa) (D : dfa), dfa_plain fuel ef A = Some D ->
  forall i, i < length D ->
  (forall t t' ch, In t (dtrs (nth i D dnil)) -> In t' (dtrs (nth i D dnil)) ->
     includes (tlab t) ch = true -> includes (tlab t') ch = true -> t = t') /\
  (forall t, In t (dtrs (nth i D dnil)) -> tdest t < length D /\ tlab t <> []).
Proof.
  intros fuel ef A D H i Hi. split; [intros t t' ch; eapply dfa_plain_det; eauto|].
  intros t Ht. destruct (dfa_plain_range fuel ef A D H) as (_ & R & S). split; [eapply R; eauto|apply (S i t Ht)].
Qed.
Print Assumptions C08_dfa_deterministic.
(** From the text of a pattern to the answers of the DFA. *)
Theorem C08_pattern_to_dfa : forall (p : pat) (t : list N) (fuel ef : nat) (A : nfa) (rest : list N) (D : dfa),
  pat_ok p -> pat_safe p -> w_pat p t -> nfa_parse (t ++ 47%N :: rest) = SOk (A, rest) -> dfa_plain fuel ef A = Some D ->
  forall w, dfa_run D 0 w = true <-> patL p w.
Proof.
  intros p t fuel ef A rest D Hp Hs Hw HP HD w.
  rewrite (nfa_parse_written p t 47%N rest Hp Hw (or_intror eq_refl)) in HP. injection HP as <-.
  rewrite (dfa_plain_language _ _ _ _ w HD). destruct (proj2 (proj2 build_spec) p Hp) as (_ & HA & _). rewrite HA. split.
  - apply (proj2 (proj2 sound) p Hs).
  - apply (proj2 (proj2 complete)).
Qed.
Print Assumptions C08_pattern_to_dfa.

(** C09.  Minimisation (on by default) keeps the language when no accepting and non-accepting
    state have the same transitions ... *)
Theorem C09_minimize_partial : forall (fuel ef : nat) (A : nfa) (D : dfa), dfa_plain fuel ef A = Some D ->
  (forall i j, i < length D -> j < length D -> trs_eqb (dtrs (nth i D dnil)) (dtrs (nth j D dnil)) = true ->
     dacc (nth i D dnil) = dacc (nth j D dnil)) ->
  exists M, dfa_build fuel ef A = Some M /\ forall w, dfa_run M 0 w = dfa_run D 0 w.
Proof.
  intros fuel ef A D H HC. exists (minimize D). split; [unfold dfa_build; rewrite H; reflexivity|].
  intros w. destruct (dfa_plain_range fuel ef A D H) as (L & R & _). apply minimize_language; [exact L|exact R|exact HC].
Qed.
Print Assumptions C09_minimize_partial.
(** ... and only then: some string tells the two automata apart as soon as an accepting and a
    non-accepting state have the same transitions (every state is reached by some string). *)
Theorem C09_minimize_exactly_when : forall (fuel ef : nat) (A : nfa) (D M : dfa), dfa_plain fuel ef A = Some D -> dfa_build fuel ef A = Some M ->
  (forall w, dfa_run M 0 w = dfa_run D 0 w) <->
  (forall i j, i < length D -> j < length D -> trs_eqb (dtrs (nth i D dnil)) (dtrs (nth j D dnil)) = true ->
     dacc (nth i D dnil) = dacc (nth j D dnil)).
Proof.
  intros fuel ef A D M H HM. unfold dfa_build in HM. rewrite H in HM. injection HM as <-.
  destruct (dfa_plain_range fuel ef A D H) as (L & R & _). split.
  - intros E. apply minimize_language_conv; [exact L|exact R|exact (dfa_plain_reach fuel ef A D H)|exact E].
  - intros E w. apply minimize_language; assumption.
Qed.
Print Assumptions C09_minimize_exactly_when.
(** The answer of the optimised automaton on every string, whether or not the condition holds: the
    string is accepted iff the state it leads to in the original automaton has an accepting
    representative, a state with the same transitions. *)
Theorem C09_minimize_answer : forall (fuel ef : nat) (A : nfa) (D M : dfa), dfa_plain fuel ef A = Some D -> dfa_build fuel ef A = Some M ->
  exists rho : nat -> nat,
  (forall i, i < length D -> rho i < length D /\ trs_eqb (dtrs (nth (rho i) D dnil)) (dtrs (nth i D dnil)) = true) /\
  (forall i j, i < length D -> j < length D -> trs_eqb (dtrs (nth i D dnil)) (dtrs (nth j D dnil)) = true -> rho i = rho j) /\
  forall w, dfa_run M 0 w = true <-> exists j, walk D 0 w = Some j /\ dacc (nth (rho j) D dnil) = true.
Proof.
  intros fuel ef A D M H HM. unfold dfa_build in HM. rewrite H in HM. injection HM as <-.
  destruct (dfa_plain_range fuel ef A D H) as (L & R & _). destruct (minimize_walk D L R) as (rho & H1 & H2 & H3). exists rho.
  split; [intros i Hi; destruct (H1 i Hi); split; [assumption|apply trs_eqb_spec; assumption]|].
  split; [intros i j Hi Hj E; apply H2; [exact Hi|exact Hj|apply trs_eqb_spec; exact E]|].
  intros w. rewrite H3. split.
  - destruct (walk D 0 w) as [j|]; [intros E; exists j; auto|discriminate].
  - intros (j & -> & E). exact E.
Qed.
Print Assumptions C09_minimize_answer.
(** The pattern a+ — the optimised DFA accepts nothing at all. *)
Lemma first_tr_loop D w : dacc (nth 0 D dnil) = false -> (forall t, In t (dtrs (nth 0 D dnil)) -> tdest t = 0) -> dfa_run D 0 w = false.
Proof.
  intros HA HT. induction w as [|ch w IH]; cbn [dfa_run]; [exact HA|].
  destruct (first_tr (dtrs (nth 0 D dnil)) ch) as [d|] eqn:E; [|reflexivity].
  apply first_tr_some in E as (t & Ht & _ & <-). rewrite (HT t Ht). exact IH.
Qed.
Theorem C09_minimize_refuted : exists (p : pat) (t : list N) (A : nfa) (D M : dfa),
  pat_ok p /\ pat_safe p /\ w_pat p t /\ nfa_parse (t ++ [47%N]) = SOk (A, []) /\
  dfa_plain 100 20 A = Some D /\ dfa_build 100 20 A = Some M /\
  patL p [97%N] /\ dfa_run D 0 [97%N] = true /\ forall w, dfa_run M 0 w = false.
Proof.
  exists (PSnoc PNil (SOne (UAtom (AChar 97)) (QPlus false))), ([] ++ [97%N] ++ [43%N]). eexists. eexists. eexists.
  split; [cbn; lia|]. split; [cbn; repeat split; discriminate|].
  split; [apply wp_snoc; [constructor|]; apply ws_one; [constructor; constructor; [reflexivity|discriminate]|cbn; auto]|].
  split; [vm_compute; reflexivity|]. split; [vm_compute; reflexivity|]. split; [vm_compute; reflexivity|].
  split; [|split; [vm_compute; reflexivity|]].
  - cbn. exists [], [97%N]. split; [reflexivity|]. split; [reflexivity|]. exists [97%N], []. split; [reflexivity|].
    split; [exists 97%N; auto|constructor].
  - intros w. apply first_tr_loop; [reflexivity|]. cbn. intros t [<-|[]]. reflexivity.
Qed.
Print Assumptions C09_minimize_refuted.
(** Non-trivial case of the hypothesis of C09_minimize_partial: ab|cb  (two states merged). *)
Definition C09_example_text : list N := [40;97;98;41;124;40;99;98;41;47]%N.
Example C09_hyp : exists A D M, nfa_parse C09_example_text = SOk (A, []) /\ dfa_plain 100 20 A = Some D /\ dfa_build 100 20 A = Some M /\
  (forall i j, i < length D -> j < length D -> trs_eqb (dtrs (nth i D dnil)) (dtrs (nth j D dnil)) = true ->
     dacc (nth i D dnil) = dacc (nth j D dnil)) /\ length M < length D /\ dfa_run M 0 [99;98]%N = true.
Proof.
  eexists. eexists. eexists. split; [vm_compute; reflexivity|]. split; [vm_compute; reflexivity|]. split; [vm_compute; reflexivity|].
  split; [|split; [cbn; lia|vm_compute; reflexivity]].
  intros i j Hi Hj. cbn [length] in Hi, Hj.
  do 5 (destruct i as [|i]; [do 5 (destruct j as [|j]; [vm_compute; intros XX; (reflexivity || discriminate XX)|]); lia|]); lia.
Qed.

(** C10.  For a pattern with no '*' or '+' behind something that matches the empty text, the
    construction ends: with enough recursion depth [ef] and steps [f] for the model's bounds there
    is a result and larger bounds do not change it ... *)
Theorem C10_terminates_partial : forall (p : pat) (t rest : list N), pat_ok p -> pat_nl p -> w_pat p t ->
  exists A, nfa_parse (t ++ 47%N :: rest) = SOk (A, rest) /\
  exists ef0, forall ef, ef0 <= ef -> exists f0 D M, forall f, f0 <= f -> dfa_plain f ef A = Some D /\ dfa_build f ef A = Some M.
Proof.
  intros p t rest Hp Hn Hw. exists (build_pat p). split; [exact (nfa_parse_written p t 47%N rest Hp Hw (or_intror eq_refl))|].
  destruct (build_terminates p Hp Hn) as [ef0 H]. exists ef0. intros ef He. destruct (H ef He) as (f0 & D & HD).
  exists f0, D, (minimize D). intros f Hf. specialize (HD f Hf). split; [exact HD|]. unfold dfa_build. rewrite HD. reflexivity.
Qed.
Print Assumptions C10_terminates_partial.
(** ... and for every other pattern it never does: whatever the bounds, they are exceeded. *)
Theorem C10_empty_loop_refuted : forall (p : pat) (t rest : list N), pat_ok p -> ~ pat_nl p -> w_pat p t ->
  exists A, nfa_parse (t ++ 47%N :: rest) = SOk (A, rest) /\ forall f ef, dfa_plain f ef A = None /\ dfa_build f ef A = None.
Proof.
  intros p t rest Hp Hn Hw. exists (build_pat p). split; [exact (nfa_parse_written p t 47%N rest Hp Hw (or_intror eq_refl))|].
  intros f ef. assert (E := build_diverges p Hp Hn f ef). split; [exact E|]. unfold dfa_build. rewrite E. reflexivity.
Qed.
Print Assumptions C10_empty_loop_refuted.
(** For an arbitrary automaton: it ends iff no reachable state starts an infinite epsilon path. *)
Theorem C10_exact_condition : forall A : nfa, wf A -> reach A ->
  ((forall q, Acc (fun d q => edge A q [] d) q) <-> exists f ef D, dfa_plain f ef A = Some D).
Proof.
  intros A HW HR. split.
  - intros H. destruct (dfa_plain_total A HW H) as [ef0 K]. destruct (K ef0 (le_n _)) as (f0 & D & HD). exists f0, ef0, D. apply HD. lia.
  - intros (f & ef & D & H) q. destruct (Nat.lt_ge_cases q (length A)) as [L|L].
    + destruct (HR q L) as [w P]. exact (dfa_plain_acc _ _ _ _ H w q P).
    + apply (acc_sink A). intros d Hd. apply edge_lt in Hd. lia.
Qed.
Print Assumptions C10_exact_condition.
(** The hypotheses are met: (a|b)+c by the first; a star over a group that is itself a star, and a plus over an optional group, by the second. *)
Example C10_hyp : let ab := UGroup (PSnoc PNil (SAlt (SOne (UAtom (AChar 97)) QOne) (UAtom (AChar 98)) QOne)) in
  let p := PSnoc (PSnoc PNil (SOne ab (QPlus false))) (SOne (UAtom (AChar 99)) QOne) in pat_ok p /\ pat_nl p.
Proof.
  cbn. split; [repeat split; lia|]. repeat split; try discriminate.
  intros _ (u & v & E & -> & H). cbn in E. subst v. destruct H as [(ch & E & _)|(ch & E & _)]; discriminate.
Qed.
Example C10_hyp_refuted : let q := fun x y => PSnoc PNil (SOne (UGroup (PSnoc PNil (SOne (UAtom (AChar 97)) x))) y) in
  let p := q (QStar false) (QStar false) in let p' := q QOpt (QPlus false) in
  (pat_ok p /\ ~ pat_nl p /\ w_pat p [40;97;42;41;42]%N) /\ (pat_ok p' /\ ~ pat_nl p' /\ w_pat p' [40;97;63;41;43]%N).
Proof.
  cbn. split.
  - split; [lia|]. split.
    + intros (_ & _ & H). apply H; [reflexivity|]. exists [], []. split; [reflexivity|]. split; [reflexivity|]. constructor.
    + apply (wp_snoc PNil _ [] [40;97;42;41;42]%N); [constructor|]. apply (ws_one _ _ [40;97;42;41]%N [42]%N); [|cbn; auto].
      apply (wu_group _ [97;42]%N). apply (wp_snoc PNil _ [] [97;42]%N); [constructor|]. apply (ws_one _ _ [97]%N [42]%N); [|cbn; auto].
      constructor. constructor; [reflexivity|discriminate].
  - split; [lia|]. split.
    + intros (_ & _ & H). apply H; [reflexivity|]. exists [], []. split; [reflexivity|]. split; [reflexivity|]. left. reflexivity.
    + apply (wp_snoc PNil _ [] [40;97;63;41;43]%N); [constructor|]. apply (ws_one _ _ [40;97;63;41]%N [43]%N); [|cbn; auto].
      apply (wu_group _ [97;63]%N). apply (wp_snoc PNil _ [] [97;63]%N); [constructor|]. apply (ws_one _ _ [97]%N [63]%N); [|cbn; auto].
      constructor. constructor; [reflexivity|discriminate].
Qed.
(** The hypothesis of C08 is met by the automaton of digits with an optional fraction. *)
Example C08_hyp : exists A D, nfa_parse ([91;48;45;57;93;43;40;92;46;91;48;45;57;93;42;41;63;47]%N) = SOk (A, []) /\ dfa_plain 100 50 A = Some D /\
  dfa_run D 0 [49;46;53]%N = true /\ dfa_run D 0 [46]%N = false.
Proof. eexists. eexists. split; [vm_compute; reflexivity|]. split; [vm_compute; reflexivity|]. split; vm_compute; reflexivity. Qed.
