(** C07: the automaton built for a pattern. *)
From Coq Require Import List NArith Bool Lia.
From Verif Require Import CharClassParse CharClass CharClassSpec Stream RegexSpec NFA NFASem NFAProofs NFABuild NFAParse TailSpec.
Import ListNotations.
Open Scope N_scope.

(** C07.  The text [t] of any pattern [p], followed by its closing slash or parenthesis, is read
    up to and including that terminator, and the automaton built accepts exactly the language of
    [p] — unless a question mark follows a group ending in a '+' item ([pat_safe]). *)
Theorem C07_pattern_exact_partial : forall (p : pat) (t : list N) (e : N) (rest : list N),
  pat_ok p -> pat_safe p -> w_pat p t -> (e = 41 \/ e = 47) ->
  exists A, nfa_parse (t ++ e :: rest) = SOk (A, rest) /\ forall w, accepts A w <-> patL p w.
Proof.
  intros p t e rest Hp Hs Hw He. exists (build_pat p). split; [exact (nfa_parse_written p t e rest Hp Hw He)|].
  intros w. destruct (proj2 (proj2 build_spec) p Hp) as (_ & HA & _). rewrite HA. split.
  - apply (proj2 (proj2 sound) p Hs).
  - apply (proj2 (proj2 complete)).
Qed.
Print Assumptions C07_pattern_exact_partial.
(** Without that restriction: nothing of the language is ever lost. *)
Theorem C07_nothing_lost : forall (p : pat) (t : list N) (e : N) (rest : list N),
  pat_ok p -> w_pat p t -> (e = 41 \/ e = 47) ->
  exists A, nfa_parse (t ++ e :: rest) = SOk (A, rest) /\ forall w, patL p w -> accepts A w.
Proof.
  intros p t e rest Hp Hw He. exists (build_pat p). split; [exact (nfa_parse_written p t e rest Hp Hw He)|].
  intros w. destruct (proj2 (proj2 build_spec) p Hp) as (_ & HA & _). rewrite HA.
  apply (proj2 (proj2 complete)).
Qed.
Print Assumptions C07_nothing_lost.
(** The same when the text simply ends. *)
Theorem C07_pattern_to_end_partial : forall (p : pat) (t : list N),
  pat_ok p -> pat_safe p -> w_pat p t ->
  exists A, nfa_parse t = SOk (A, []) /\ forall w, accepts A w <-> patL p w.
Proof.
  intros p t Hp Hs Hw. exists (build_pat p). split; [exact (nfa_parse_written_eof p t Hp Hw)|].
  intros w. destruct (proj2 (proj2 build_spec) p Hp) as (_ & HA & _). rewrite HA. split.
  - apply (proj2 (proj2 sound) p Hs).
  - apply (proj2 (proj2 complete)).
Qed.
Print Assumptions C07_pattern_to_end_partial.
(** Reading a pattern ends, with an automaton or an exception, on every text. *)
(** Every pattern, also those outside [pat_safe]: exactly the language of TailSpec.v. *)
Lemma lang_built : (forall u, unit_lang u = uI u /\ unit_more u = uT u) /\ (forall s, sel_lang s = sI s /\ sel_more s = sT s) /\ (forall p, pat_lang p = pI p /\ pat_more p = pT p).
Proof.
  apply regex_ind; cbn [unit_lang unit_more sel_lang sel_more pat_lang pat_more uI uT sI sT pI pT].
  - auto.
  - auto.
  - intros u [-> ->] q. auto.
  - intros s [-> _] u [-> ->] q. auto.
  - auto.
  - intros p [-> _] s [-> ->]. auto.
Qed.
Theorem C07_language : forall (p : pat) (t : list N), pat_ok p -> w_pat p t ->
  exists A, nfa_parse t = SOk (A, []) /\ (forall e rest, e = 41 \/ e = 47 -> nfa_parse (t ++ e :: rest) = SOk (A, rest)) /\ forall w, accepts A w <-> pat_lang p w.
Proof.
  intros p t Hp Hw. exists (build_pat p). split; [exact (nfa_parse_written_eof p t Hp Hw)|]. split; [intros e rest He; exact (nfa_parse_written p t e rest Hp Hw He)|].
  intros w. destruct (proj2 (proj2 build_spec) p Hp) as (_ & HA & _). rewrite HA, (proj1 (proj2 (proj2 lang_built) p)). reflexivity.
Qed.
Print Assumptions C07_language.
(** With the question mark as it is meant the two languages are the same; the other words are those the unsafe question mark adds. *)
Theorem C07_language_safe : forall p, pat_safe p -> forall w, pat_lang p w <-> patL p w.
Proof. intros p Hs w. rewrite (proj1 (proj2 (proj2 lang_built) p)). split; [apply (proj2 (proj2 sound) p Hs)|apply (proj2 (proj2 complete))]. Qed.
Print Assumptions C07_language_safe.
Theorem C07_reading_ends : forall t : list N, nfa_parse t <> SFuel.
Proof. exact nfa_parse_total. Qed.
Print Assumptions C07_reading_ends.
(** NFA::run: an answer is the right answer. *)
Theorem C07_run_sound : forall (fuel : nat) (A : nfa) (w : list N),
  (nfa_run fuel A w 0 0 = RunTrue -> accepts A w) /\ (nfa_run fuel A w 0 0 = RunFalse -> ~ accepts A w).
Proof.
  intros f A w. split.
  - exact (nfa_run_true f A w 0 0 (PeanoNat.Nat.le_0_l _)).
  - exact (nfa_run_false f A w 0 0 (PeanoNat.Nat.le_0_l _)).
Qed.
Print Assumptions C07_run_sound.

(** The pattern (ab+)?, its automaton accepts "b". *)
Theorem C07_optional_group_refuted : exists (p : pat) (t : list N) (A : nfa) (w : list N),
  pat_ok p /\ w_pat p t /\ nfa_parse (t ++ [47]) = SOk (A, []) /\ accepts A w /\ ~ patL p w.
Proof.
  set (g := PSnoc (PSnoc PNil (SOne (UAtom (AChar 97)) QOne)) (SOne (UAtom (AChar 98)) (QPlus false))).
  exists (PSnoc PNil (SOne (UGroup g) QOpt)), ([] ++ (40 :: (([] ++ [97] ++ []) ++ [98] ++ [43]) ++ [41]) ++ [63]).
  eexists. exists [98]. split; [cbn; lia|]. split.
  { constructor; [constructor|]. constructor; [|cbn; auto]. constructor. unfold g.
    repeat first [constructor; reflexivity | constructor; discriminate | constructor | cbn; auto]; cbn; auto; try discriminate. }
  split; [vm_compute; reflexivity|]. split.
  - apply (nfa_run_true 20 _ [98] 0 0); [apply PeanoNat.Nat.le_0_l|]. vm_compute. reflexivity.
  - intros (u & v & E & Hu & Hv). cbn in Hu. subst u. cbn in E. subst v. cbn [selL quantL unitL] in Hv. destruct Hv as [Hv|Hv]; [discriminate Hv|].
    unfold g in Hv. cbn [patL selL quantL unitL] in Hv.
    destruct Hv as (u & v & E & (u1 & v1 & E1 & -> & (ch & -> & Ec)) & _). cbn in *. subst. discriminate E.
Qed.
Print Assumptions C07_optional_group_refuted.
(** NFA::run of the pattern .. on the empty string reads past the string's terminating zero. *)
Theorem C07_run_overrun_refuted : exists (t : list N) (A : nfa),
  nfa_parse t = SOk (A, []) /\ nfa_run 20 A [] 0 0 = RunUB.
Proof. exists [46; 46; 47]. eexists. split; vm_compute; reflexivity. Qed.
Print Assumptions C07_run_overrun_refuted.

(** Hypotheses are met, e.g. by ([a-z]|\.)*x?([0-9]+)? *)
Definition C07_example : pat :=
  PSnoc (PSnoc (PSnoc PNil
    (SOne (UGroup (PSnoc PNil (SAlt (SOne (UAtom (ASet [Span 97 122])) QOne) (UAtom (AChar 46)) QOne))) (QStar false)))
    (SOne (UAtom (AChar 120)) QOpt))
    (SOne (UGroup (PSnoc PNil (SOne (UAtom (ASet [Span 48 57])) (QPlus false)))) QOpt).
Definition C07_example_text : list N :=
  (([] ++ (40 :: ([] ++ (((91 :: [97; 45; 122] ++ [93]) ++ []) ++ 124 :: [92; 46] ++ [])) ++ [41]) ++ [42]) ++ ([120] ++ [63])) ++
  ((40 :: ([] ++ ((91 :: [48; 45; 57] ++ [93]) ++ [43])) ++ [41]) ++ [63]).
Example C07_hyp : pat_ok C07_example /\ pat_safe C07_example /\ w_pat C07_example C07_example_text /\
  patL C07_example [97; 46; 120; 49; 50].
Proof.
  split; [|split; [|split]].
  - cbn. repeat split; try lia; try discriminate; repeat constructor; try lia.
  - cbn. repeat split; try (intros; discriminate); auto.
  - unfold C07_example, C07_example_text.
    apply wp_snoc; [apply wp_snoc; [apply wp_snoc; [constructor|]|]|].
    + apply ws_one; [|cbn; auto]. apply wu_group. apply wp_snoc; [constructor|]. apply ws_alt; [|constructor; constructor; reflexivity|cbn; auto].
      apply ws_one; [|cbn; auto]. constructor. exact (wa_set [Span 97 122] _ (CharClassParse.write_items_text [Span 97 122] ltac:(repeat constructor; cbn; lia))).
    + apply ws_one; [|cbn; auto]. constructor. constructor; [reflexivity|discriminate].
    + apply ws_one; [|cbn; auto]. apply wu_group. apply wp_snoc; [constructor|]. apply ws_one; [|cbn; auto]. constructor. exact (wa_set [Span 48 57] _ (CharClassParse.write_items_text [Span 48 57] ltac:(repeat constructor; cbn; lia))).
  - exists [97; 46; 120], [49; 50]. split; [reflexivity|]. split.
    + exists [97; 46], [120]. split; [reflexivity|]. split; [|right; exists 120; split; reflexivity].
      exists [], [97; 46]. split; [reflexivity|]. split; [reflexivity|].
      apply (star_app _ [97] [46]); [|apply (star_app _ [46] []); [|constructor]].
      * exists [], [97]. split; [reflexivity|]. split; [reflexivity|]. left. exists 97. split; [reflexivity|]. exists (Span 97 122). cbn. split; [auto|lia].
      * exists [], [46]. split; [reflexivity|]. split; [reflexivity|]. right. exists 46. split; reflexivity.
    + right. exists [], [49; 50]. split; [reflexivity|]. split; [reflexivity|].
      exists [49], [50]. split; [reflexivity|]. split; [|apply (star_app _ [50] []); [|constructor]].
      * exists 49. split; [reflexivity|]. exists (Span 48 57). cbn. split; [auto|lia].
      * exists 50. split; [reflexivity|]. exists (Span 48 57). cbn. split; [auto|lia].
Qed.
