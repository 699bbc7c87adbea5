(** C11-C14: the generated machine code. *)
From Coq Require Import List NArith ZArith Arith Bool Lia ZifyBool ZifyN ZifyNat.
From Verif Require Import CharClass CharClassSpec Stream RegexSpec NFA NFASem NFAProofs NFABuild NFAParse DFA DFAProofs DFAMin Writer X86 X86Step CodeGen CodeGenProofs CodeGenSimd CodeGenDfa CodeGenMisc CodeGenRoutine CodeGenPlain CodeGenMem CodeGenMemLit CodeGenMemLoop LookWf.
Import ListNotations.
Local Open Scope N_scope.

(** What a matcher for the language [L] called on the text [u] at address [a] has to return: the
    address behind the longest prefix in [L], or null if there is none. *)
Definition match_result (L : list N -> Prop) (u : list N) (a v : N) : Prop :=
  (exists n, (n <= length u)%nat /\ L (firstn n u) /\ (forall m, (n < m <= length u)%nat -> ~ L (firstn m u)) /\ v = a + N.of_nat n) \/
  ((forall m, (m <= length u)%nat -> ~ L (firstn m u)) /\ v = 0).
(** The text [u], a NUL and the bytes [pad] are in memory at the address passed as argument 1;
    nothing is said about any other byte: reading one that is not mapped is a fault, and
    [returns] excludes faults. *)
Example text_meaning e r u pad : input_at e r u pad <->
  0 < r RDI /\
  ((forall i c, nth_error (u ++ 0 :: pad) i = Some c -> mem e (r RDI + N.of_nat i) = Some c) /\
   (forall c, In c (u ++ 0 :: pad) -> c < 256) /\ r RDI + N.of_nat (length (u ++ 0 :: pad)) < 2 ^ 64) /\
  forall c, In c u -> c <> 0.
Proof. reflexivity. Qed.
(** Memory holding nothing but [w] at [a]. *)
Definition only (a : N) (w : list N) : env :=
  mkE (fun x => if a <=? x then nth_error w (N.to_nat (x - a)) else None) 0 1 (fun _ => []) (fun _ => 0) (fun _ _ => 0).
Definition arg (a : N) : reg -> N := fun x => match x with RDI => a | _ => 7 end.
Lemma only_text a w : (forall c, In c w -> c < 256) -> a + N.of_nat (length w) < 2 ^ 64 -> text_at (mem (only a w)) a w.
Proof.
  intros H1 H2. split; [|auto]. intros i c Hi. cbn. replace (a <=? a + N.of_nat i) with true by lia.
  replace (N.to_nat (a + N.of_nat i - a)) with i by lia. exact Hi.
Qed.

(** Running is deterministic: an observed end or fault contradicts any other. *)
Lemma run_more P e : forall n s x, run P e n s = Some x -> forall m, (n <= m)%nat -> run P e m s = Some x.
Proof.
  induction n as [|n IH]; intros s x H m Hm; [discriminate|]. destruct m as [|m]; [lia|]. cbn [run] in *.
  destruct (step P e s); try exact H. apply IH; [exact H|lia].
Qed.
Lemma star_run P e s s' : star P e s s' -> pc s' = [] -> exists n, run P e n s = Some (Stop s').
Proof.
  induction 1 as [s|s s1 s2 H1 H2 IH]; intros H.
  - exists 1%nat. cbn [run]. unfold step. rewrite H. reflexivity.
  - destruct (IH H) as [n Hn]. exists (S n). cbn [run]. rewrite H1. exact Hn.
Qed.
Lemma returns_run R e r v : returns R e r v -> forall n x, run R e n (call_state R r [] [] [] [] (mkW [] [] 0) 0) = Some x -> exists s, x = Stop s /\ rg s RAX = v.
Proof.
  intros H n x Hx. destruct (H [] [] [] [] (mkW [] [] 0) 0) as (s & S & E & V & _). exists s. split; [|exact V].
  destruct (star_run _ _ _ _ S E) as [m Hm].
  pose proof (run_more _ _ _ _ _ Hx (n + m) ltac:(lia)) as A. pose proof (run_more _ _ _ _ _ Hm (n + m) ltac:(lia)) as B. congruence.
Qed.

(** ** C11 *)
Lemma longest_result D u a : match_result (fun w => dfa_run D 0 w = true) u a (match longest D 0 u with Some n => a + N.of_nat n | None => 0 end).
Proof.
  pose proof (longest_spec D u 0%nat) as H. destruct (longest D 0 u) as [n|].
  - left. exists n. destruct H as (H1 & H2 & H3). split; [exact H1|]. split; [exact H2|]. split; [|reflexivity]. intros m Hm. rewrite H3 by exact Hm. discriminate.
  - right. split; [|reflexivity]. intros m Hm. rewrite H by exact Hm. discriminate.
Qed.
Lemma match_ext L L' u a v : (forall w, L w <-> L' w) -> match_result L u a v -> match_result L' u a v.
Proof.
  intros H [(n & H1 & H2 & H3 & H4)|[H1 H2]].
  - left. exists n. split; [exact H1|]. split; [apply H; exact H2|]. split; [|exact H4]. intros m Hm K. apply (H3 m Hm). apply H. exact K.
  - right. split; [|exact H2]. intros m Hm K. apply (H1 m Hm). apply H. exact K.
Qed.
(** Every DFA whose labels hold no NUL and whose possessive loops fit the vector instruction
    ([codable]): the generated function returns, without a fault, the end of the longest accepted
    prefix or null, and preserves the registers and the stack.  The bytes behind the NUL have
    to be readable only if there are possessive loops. *)
Theorem C11_matcher_partial : forall (D : dfa) (e : env) (r : reg -> N) (u pad : list N),
  codable D -> input_at e r u pad -> ((exists q, self_loop D q) -> (15 <= length pad)%nat) ->
  exists v, returns (dfa_routine D) e r v /\ match_result (fun w => dfa_run D 0 w = true) u (r RDI) v.
Proof.
  intros D e r u pad H1 H2 H3. eexists. split; [apply (dfa_routine_run D e r u pad H1 H2 H3)|]. apply longest_result.
Qed.
Print Assumptions C11_matcher_partial.
(** From the pattern: no dot, no possessive quantifier.  Then memory may end with the NUL. *)
Theorem C11_pattern_partial : forall (p : pat) (t : list N) (fuel ef : nat) (A : nfa) (rest : list N) (D : dfa),
  pat_ok p -> pat_safe p -> pat_nodot p -> pat_short p ->
  w_pat p t -> nfa_parse (t ++ 47 :: rest) = SOk (A, rest) -> dfa_plain fuel ef A = Some D ->
  forall (e : env) (r : reg -> N) (u : list N), input_at e r u [] ->
  exists v, returns (dfa_routine D) e r v /\ match_result (patL p) u (r RDI) v.
Proof.
  intros p t fuel ef A rest D Hp Hs Hd Hq Hw HP HD e r u HI.
  rewrite (nfa_parse_written p t 47%N rest Hp Hw (or_intror eq_refl)) in HP. injection HP as <-.
  assert (NL : nolongD D) by (eapply plain_nolong; [exact HD|apply pat_no_long; assumption]).
  destruct (C11_matcher_partial D e r u []) as (v & V & M).
  - eapply plain_codable; [exact HD|apply pat_text; assumption|apply nolong_fits; exact NL].
  - exact HI.
  - apply (nolong_enough D [] NL).
  - exists v. split; [exact V|]. eapply match_ext; [|exact M]. intros w. cbn beta.
    rewrite (dfa_plain_language _ _ _ _ w HD). destruct (proj2 (proj2 build_spec) p Hp) as (_ & HA & _). rewrite HA. split.
    + apply (proj2 (proj2 sound) p Hs).
    + apply (proj2 (proj2 complete)).
Qed.
Print Assumptions C11_pattern_partial.
(** With possessive quantifiers: fifteen readable bytes behind the NUL, at most eight ranges
    in the label of a possessive loop. *)
Theorem C11_possessive_partial : forall (p : pat) (t : list N) (fuel ef : nat) (A : nfa) (rest : list N) (D : dfa),
  pat_ok p -> pat_safe p -> pat_nodot p ->
  w_pat p t -> nfa_parse (t ++ 47 :: rest) = SOk (A, rest) -> dfa_plain fuel ef A = Some D ->
  (forall q x, dlong (nth q D dnil) = true -> In x (dtrs (nth q D dnil)) -> tdest x = q -> (length (tlab x) <= 8)%nat) ->
  forall (e : env) (r : reg -> N) (u pad : list N), input_at e r u pad -> (15 <= length pad)%nat ->
  exists v, returns (dfa_routine D) e r v /\ match_result (patL p) u (r RDI) v.
Proof.
  intros p t fuel ef A rest D Hp Hs Hd Hw HP HD HF e r u pad HI HL.
  rewrite (nfa_parse_written p t 47%N rest Hp Hw (or_intror eq_refl)) in HP. injection HP as <-.
  destruct (C11_matcher_partial D e r u pad) as (v & V & M).
  - eapply plain_codable; [exact HD|apply pat_text; assumption|exact HF].
  - exact HI.
  - intros _. exact HL.
  - exists v. split; [exact V|]. eapply match_ext; [|exact M]. intros w. cbn beta.
    rewrite (dfa_plain_language _ _ _ _ w HD). destruct (proj2 (proj2 build_spec) p Hp) as (_ & HA & _). rewrite HA. split.
    + apply (proj2 (proj2 sound) p Hs).
    + apply (proj2 (proj2 complete)).
Qed.
Print Assumptions C11_possessive_partial.
(** The optimised automaton (what the parser generator uses), under C09's condition. *)
Theorem C11_default_partial : forall (p : pat) (t : list N) (fuel ef : nat) (A : nfa) (rest : list N) (D M : dfa),
  pat_ok p -> pat_safe p -> pat_nodot p -> pat_short p ->
  w_pat p t -> nfa_parse (t ++ 47 :: rest) = SOk (A, rest) -> dfa_plain fuel ef A = Some D -> dfa_build fuel ef A = Some M ->
  (forall i j, (i < length D)%nat -> (j < length D)%nat -> trs_eqb (dtrs (nth i D dnil)) (dtrs (nth j D dnil)) = true ->
     dacc (nth i D dnil) = dacc (nth j D dnil)) ->
  forall (e : env) (r : reg -> N) (u : list N), input_at e r u [] ->
  exists v, returns (dfa_routine M) e r v /\ match_result (patL p) u (r RDI) v.
Proof.
  intros p t fuel ef A rest D M Hp Hs Hd Hq Hw HP HD HM HC e r u HI.
  rewrite (nfa_parse_written p t 47%N rest Hp Hw (or_intror eq_refl)) in HP. injection HP as <-.
  assert (NL : nolongD D) by (eapply plain_nolong; [exact HD|apply pat_no_long; assumption]).
  assert (CD : codable D) by (eapply plain_codable; [exact HD|apply pat_text; assumption|apply nolong_fits; exact NL]).
  unfold dfa_build in HM. rewrite HD in HM. cbn in HM. injection HM as <-.
  destruct (minimize_codable D CD NL) as [CM NM].
  destruct (C11_matcher_partial (minimize D) e r u []) as (v & V & R); [exact CM|exact HI|apply (nolong_enough _ [] NM)|].
  exists v. split; [exact V|]. eapply match_ext; [|exact R]. intros w. cbn beta.
  destruct (dfa_plain_range fuel ef _ D HD) as (L & G & _). rewrite (minimize_language D w L G HC).
  rewrite (dfa_plain_language _ _ _ _ w HD). destruct (proj2 (proj2 build_spec) p Hp) as (_ & HA & _). rewrite HA. split.
  - apply (proj2 (proj2 sound) p Hs).
  - apply (proj2 (proj2 complete)).
Qed.
Print Assumptions C11_default_partial.


(** Running an example: Some (Some v) = returned v, Some None = faulted. *)
Definition outcome (R : code) (e : env) (a : N) (n : nat) : option (option N) :=
  match run R e n (call_state R (arg a) [] [] [] [] (mkW [] [] 0) 0) with
  | Some (Stop s) => Some (Some (rg s RAX))
  | Some Fault => Some None
  | _ => None
  end.
Lemma outcome_value R e a n v v' : outcome R e a n = Some (Some v) -> returns R e (arg a) v' -> v' = v.
Proof.
  unfold outcome. intros H V. destruct (run R e n _) as [x|] eqn:E; [|discriminate].
  destruct (returns_run _ _ _ _ V n x E) as (s & -> & <-). injection H as H. exact H.
Qed.
Lemma outcome_fault R e a n : outcome R e a n = Some None -> forall v, ~ returns R e (arg a) v.
Proof.
  unfold outcome. intros H v V. destruct (run R e n _) as [x|] eqn:E; [|discriminate].
  destruct (returns_run _ _ _ _ V n x E) as (s & -> & _). discriminate H.
Qed.
Ltac text_tac := split; [reflexivity|]; split; [apply (only_text 1000); [intros c Hc; cbn in Hc; lia|reflexivity]|]; intros c Hc; cbn in Hc; lia.
Definition nfa_of (t : list N) : nfa := match nfa_parse (t ++ [47]) with SOk (A, _) => A | _ => [] end.
Definition dfa_of (t : list N) : dfa := match dfa_plain 100 20 (nfa_of t) with Some D => D | None => [] end.

(** The hypotheses are met: (a|b)*c , on "abcb". *)
Definition C11_pat : pat := PSnoc (PSnoc PNil (SOne (UGroup (PSnoc PNil (SAlt (SOne (UAtom (AChar 97)) QOne) (UAtom (AChar 98)) QOne))) (QStar false))) (SOne (UAtom (AChar 99)) QOne).
Definition C11_text : list N := [40; 97; 124; 98; 41; 42; 99].
Definition C11_nfa : nfa := Eval vm_compute in nfa_of C11_text.
Definition C11_dfa : dfa := Eval vm_compute in dfa_of C11_text.
Definition C11_mem : env := only 1000 [97; 98; 99; 98; 0].
Example C11_hyp : pat_ok C11_pat /\ pat_safe C11_pat /\ pat_nodot C11_pat /\ pat_short C11_pat /\ w_pat C11_pat C11_text /\
  nfa_parse (C11_text ++ [47]) = SOk (C11_nfa, []) /\ dfa_plain 100 20 C11_nfa = Some C11_dfa /\
  (forall i j, (i < length C11_dfa)%nat -> (j < length C11_dfa)%nat -> trs_eqb (dtrs (nth i C11_dfa dnil)) (dtrs (nth j C11_dfa dnil)) = true ->
     dacc (nth i C11_dfa dnil) = dacc (nth j C11_dfa dnil)) /\
  input_at C11_mem (arg 1000) [97; 98; 99; 98] [] /\
  returns (dfa_routine C11_dfa) C11_mem (arg 1000) 1003 /\ returns (dfa_routine (minimize C11_dfa)) C11_mem (arg 1000) 1003.
Proof.
  assert (H1 : pat_ok C11_pat) by (cbn; repeat split; try discriminate).
  assert (H2 : pat_safe C11_pat) by (cbn; repeat split; discriminate).
  assert (H3 : pat_nodot C11_pat) by (cbn; repeat split; discriminate).
  assert (H4 : pat_short C11_pat) by (cbn; unfold qshort; repeat split; discriminate).
  assert (H5 : w_pat C11_pat C11_text).
  { unfold C11_text, C11_pat. change [40; 97; 124; 98; 41; 42; 99] with (([] ++ (40 :: ([] ++ ([97] ++ []) ++ 124 :: [98] ++ []) ++ [41]) ++ [42]) ++ [99] ++ []).
    constructor; [constructor; [constructor|]|].
    - apply (ws_one (UGroup _) (QStar false) (40 :: ([] ++ ([97] ++ []) ++ 124 :: [98] ++ []) ++ [41]) [42]); [|cbn; auto]. apply wu_group. constructor; [constructor|].
      apply ws_alt; [|constructor; constructor; [reflexivity|discriminate]|left; reflexivity].
      apply ws_one; [constructor; constructor; [reflexivity|discriminate]|left; reflexivity].
    - apply ws_one; [constructor; constructor; [reflexivity|discriminate]|left; reflexivity]. }
  assert (EP : nfa_parse (C11_text ++ [47]) = SOk (C11_nfa, [])) by (vm_compute; reflexivity).
  assert (ED : dfa_plain 100 20 C11_nfa = Some C11_dfa) by (vm_compute; reflexivity).
  assert (HC : forall i j, (i < length C11_dfa)%nat -> (j < length C11_dfa)%nat -> trs_eqb (dtrs (nth i C11_dfa dnil)) (dtrs (nth j C11_dfa dnil)) = true -> dacc (nth i C11_dfa dnil) = dacc (nth j C11_dfa dnil)).
  { cbn [length C11_dfa]. intros i j Hi Hj. destruct i as [|[|[|[|i]]]]; try lia; destruct j as [|[|[|[|j]]]]; try lia; vm_compute; intros X; (reflexivity || discriminate X). }
  assert (HI : input_at C11_mem (arg 1000) [97; 98; 99; 98] []) by text_tac.
  assert (HM : dfa_build 100 20 C11_nfa = Some (minimize C11_dfa)) by (unfold dfa_build; rewrite ED; reflexivity).
  split; [exact H1|]. split; [exact H2|]. split; [exact H3|]. split; [exact H4|]. split; [exact H5|].
  split; [exact EP|]. split; [exact ED|]. split; [exact HC|]. split; [exact HI|]. split.
  - destruct (C11_pattern_partial C11_pat C11_text 100 20 _ [] _ H1 H2 H3 H4 H5 EP ED _ _ _ HI) as (v & V & _).
    assert (O : outcome (dfa_routine C11_dfa) C11_mem 1000 500 = Some (Some 1003)) by (vm_compute; reflexivity).
    rewrite <- (outcome_value _ _ _ _ _ _ O V). exact V.
  - destruct (C11_default_partial C11_pat C11_text 100 20 _ [] _ _ H1 H2 H3 H4 H5 EP ED HM HC _ _ _ HI) as (v & V & _).
    assert (O : outcome (dfa_routine (minimize C11_dfa)) C11_mem 1000 500 = Some (Some 1003)) by (vm_compute; reflexivity).
    rewrite <- (outcome_value _ _ _ _ _ _ O V). exact V.
Qed.
(** [ab]++c on "abbaabbaabbaabbaabbac" (two rounds of the vector loop). *)
Definition C11_long : list N := [91; 97; 98; 93; 43; 43; 99].
Definition C11_long_dfa : dfa := Eval vm_compute in dfa_of C11_long.
Definition C11_long_in : list N := [97; 98; 98; 97; 97; 98; 98; 97; 97; 98; 98; 97; 97; 98; 98; 97; 97; 98; 98; 97; 99].
Example C11_possessive_hyp : dfa_plain 100 20 (nfa_of C11_long) = Some C11_long_dfa /\ codable C11_long_dfa /\ (exists q, self_loop C11_long_dfa q) /\
  input_at (only 1000 (C11_long_in ++ 0 :: repeat 98 15)) (arg 1000) C11_long_in (repeat 98 15) /\
  returns (dfa_routine C11_long_dfa) (only 1000 (C11_long_in ++ 0 :: repeat 98 15)) (arg 1000) 1021.
Proof.
  assert (ED : dfa_plain 100 20 (nfa_of C11_long) = Some C11_long_dfa) by (vm_compute; reflexivity).
  assert (HC : codable C11_long_dfa).
  { eapply plain_codable; [exact ED| |].
    - intros q u ch Hu Hi. assert (F : Forall (fun st => Forall (fun t => forall ch, includes (tlab t) ch = true -> 1 <= ch < 256) st) (nfa_of C11_long)).
      { vm_compute nfa_of. repeat constructor; cbn; intros; try discriminate; unfold includes in *; cbn in *; lia. }
      rewrite Forall_forall in F. destruct (nth_in_or_default q (nfa_of C11_long) []) as [K|K]; [|rewrite K in Hu; destruct Hu].
      specialize (F _ K). rewrite Forall_forall in F. exact (F u Hu ch Hi).
    - intros q t _ Ht _. cbn in q. destruct q as [|[|[|[|q]]]]; cbn in Ht; try (destruct Ht as [<-|Ht]; [cbn; lia|]); try (destruct Ht as [<-|Ht]; [cbn; lia|]); try destruct Ht. }
  assert (HI : input_at (only 1000 (C11_long_in ++ 0 :: repeat 98 15)) (arg 1000) C11_long_in (repeat 98 15)) by text_tac.
  split; [exact ED|]. split; [exact HC|]. split; [exists 1%nat; split; [reflexivity|]; cbn; eexists; split; [left; reflexivity|reflexivity]|]. split; [exact HI|].
  destruct (C11_matcher_partial C11_long_dfa _ _ _ _ HC HI) as (v & V & _); [intros _; cbn; lia|].
  assert (O : outcome (dfa_routine C11_long_dfa) (only 1000 (C11_long_in ++ 0 :: repeat 98 15)) 1000 500 = Some (Some 1021)) by (vm_compute; reflexivity).
  rewrite <- (outcome_value _ _ _ _ _ _ O V). exact V.
Qed.

(** ** C11 with the dot: what the matcher does on any memory *)
(** Some initial part of [w], possibly all of it, cannot be prolonged to a word of [L]: whoever
    looks for the longest match has to read no further than [w]. *)
Definition settled (L : list N -> Prop) (w : list N) : Prop := exists k, (k <= length w)%nat /\ forall c z, ~ L (firstn k w ++ c :: z).
(** Every DFA without possessive loops whose labels are sets of bytes, NUL allowed, on memory
    holding [w] at the argument, with anything or nothing behind it.  If reading [w] brings the
    automaton to a halt, the function returns the end of the longest accepted prefix of [w] or
    null and reads no byte behind [w]; if not, and the byte behind [w] is not mapped, it faults. *)
Theorem C11_memory_exact : forall (D : dfa) (e : env) (r : reg -> N) (w : list N),
  bytecode D -> 0 < r RDI -> text_at (mem e) (r RDI) w ->
  (halts D 0 w = true -> exists v, returns (dfa_routine D) e r v /\ match_result (fun w => dfa_run D 0 w = true) w (r RDI) v) /\
  (halts D 0 w = false -> mem e (r RDI + N.of_nat (length w)) = None -> forall v, ~ returns (dfa_routine D) e r v).
Proof.
  intros D e r w HD Ha HT. split.
  - intros HH. eexists. split; [exact (dfa_routine_mem D e r w HD Ha HT HH)|]. apply longest_result.
  - intros HH HM. exact (dfa_routine_fault D e r w HD Ha HT HH HM).
Qed.
Print Assumptions C11_memory_exact.
Lemma returns_fun R e r v v' : returns R e r v -> returns R e r v' -> v = v'.
Proof.
  intros H H'. destruct (H [] [] [] [] (mkW [] [] 0) 0) as (s & S & E & V & _). destruct (star_run _ _ _ _ S E) as [m Hm].
  destruct (returns_run _ _ _ _ H' m _ Hm) as (s' & E' & V'). injection E' as <-. congruence.
Qed.
Lemma build_language p : pat_ok p -> pat_safe p -> forall w, accepts (build_pat p) w <-> patL p w.
Proof.
  intros Hp Hs w. destruct (proj2 (proj2 build_spec) p Hp) as (_ & HA & _). rewrite HA. split.
  - apply (proj2 (proj2 sound) p Hs).
  - apply (proj2 (proj2 complete)).
Qed.
(** From the pattern, dot or not: where exactly [w] is mapped, the function returns iff [w] is
    settled, and it then returns the end of the longest match in [w].  The first clause holds
    whatever follows [w]. *)
Definition matches_memory (R : code) (L : list N -> Prop) : Prop := forall (e : env) (r : reg -> N) (w : list N),
  0 < r RDI -> text_at (mem e) (r RDI) w ->
  (settled L w -> exists v, returns R e r v /\ match_result L w (r RDI) v) /\
  (~ settled L w -> mem e (r RDI + N.of_nat (length w)) = None -> forall v, ~ returns R e r v).
Theorem C11_dot_exact : forall (p : pat) (t : list N) (fuel ef : nat) (A : nfa) (rest : list N) (D : dfa),
  pat_ok p -> pat_safe p -> pat_short p ->
  w_pat p t -> nfa_parse (t ++ 47 :: rest) = SOk (A, rest) -> dfa_plain fuel ef A = Some D ->
  matches_memory (dfa_routine D) (patL p).
Proof.
  intros p t fuel ef A rest D Hp Hs Hq Hw HP HD e r w Ha HT.
  rewrite (nfa_parse_written p t 47%N rest Hp Hw (or_intror eq_refl)) in HP. injection HP as <-.
  pose proof (plain_bytecode _ _ _ _ Hp Hq HD) as HB. pose proof (build_language p Hp Hs) as BL.
  assert (HS : settled (patL p) w <-> halts D 0 w = true).
  { rewrite (plain_halts _ _ _ _ w HD (pat_live p Hp)). unfold settled. split; intros (k & Hk & K); exists k; (split; [exact Hk|]); intros c z; specialize (K c z); rewrite BL in *; exact K. }
  destruct (C11_memory_exact D e r w HB Ha HT) as [M1 M2]. split.
  - intros H. apply HS in H. destruct (M1 H) as (v & V & M). exists v. split; [exact V|]. eapply match_ext; [|exact M]. intros x. cbn beta.
    rewrite (dfa_plain_language _ _ _ _ x HD). apply BL.
  - intros H. apply M2. destruct (halts D 0 w); [|reflexivity]. destruct H. apply HS. reflexivity.
Qed.
Print Assumptions C11_dot_exact.
(** The same of the optimised automaton, under C09's condition. *)
Theorem C11_dot_default_exact : forall (p : pat) (t : list N) (fuel ef : nat) (A : nfa) (rest : list N) (D M : dfa),
  pat_ok p -> pat_safe p -> pat_short p ->
  w_pat p t -> nfa_parse (t ++ 47 :: rest) = SOk (A, rest) -> dfa_plain fuel ef A = Some D -> dfa_build fuel ef A = Some M ->
  (forall i j, (i < length D)%nat -> (j < length D)%nat -> trs_eqb (dtrs (nth i D dnil)) (dtrs (nth j D dnil)) = true ->
     dacc (nth i D dnil) = dacc (nth j D dnil)) ->
  matches_memory (dfa_routine M) (patL p).
Proof.
  intros p t fuel ef A rest D M Hp Hs Hq Hw HP HD HM HC e r w Ha HT.
  rewrite (nfa_parse_written p t 47%N rest Hp Hw (or_intror eq_refl)) in HP. injection HP as <-.
  pose proof (minimize_bytecode D (plain_bytecode _ _ _ _ Hp Hq HD)) as HB. pose proof (build_language p Hp Hs) as BL.
  unfold dfa_build in HM. rewrite HD in HM. cbn in HM. injection HM as <-.
  destruct (dfa_plain_range _ _ _ _ HD) as (L & G & _).
  assert (HS : settled (patL p) w <-> halts (minimize D) 0 w = true).
  { rewrite (minimize_halts D w L G), (plain_halts _ _ _ _ w HD (pat_live p Hp)). unfold settled. split; intros (k & Hk & K); exists k; (split; [exact Hk|]); intros c z; specialize (K c z); rewrite BL in *; exact K. }
  destruct (C11_memory_exact (minimize D) e r w HB Ha HT) as [M1 M2]. split.
  - intros H. apply HS in H. destruct (M1 H) as (v & V & M). exists v. split; [exact V|]. eapply match_ext; [|exact M]. intros x. cbn beta.
    rewrite (minimize_language D x L G HC), (dfa_plain_language _ _ _ _ x HD). apply BL.
  - intros H. apply M2. destruct (halts (minimize D) 0 w); [|reflexivity]. destruct H. apply HS. reflexivity.
Qed.
Print Assumptions C11_dot_default_exact.
(** So on a NUL-terminated text at the end of mapped memory the matcher gives what the property
    demands exactly if the text with its NUL is settled and is not itself a match. *)
Lemma match_snoc L u c a v : ~ L (u ++ [c]) -> match_result L (u ++ [c]) a v <-> match_result L u a v.
Proof.
  intros N. assert (F : forall n, (n <= length u)%nat -> firstn n (u ++ [c]) = firstn n u).
  { intros n Hn. rewrite firstn_app. replace (n - length u)%nat with 0%nat by lia. cbn. apply app_nil_r. }
  assert (G : forall n, (n <= length (u ++ [c]))%nat -> L (firstn n (u ++ [c])) -> (n <= length u)%nat).
  { intros n Hn Hl. rewrite app_length in Hn. cbn in Hn. destruct (Nat.eq_dec n (length u + 1)) as [->|Q]; [|lia]. exfalso. apply N.
    rewrite firstn_all2 in Hl by (rewrite app_length; cbn; lia). exact Hl. }
  split; (intros [(n & H1 & H2 & H3 & H4)|[H1 H2]]; [left; exists n|right; split; [|exact H2]]).
  - pose proof (G n H1 H2) as Q. rewrite F in H2 by exact Q. split; [exact Q|]. split; [exact H2|]. split; [|exact H4].
    intros m Hm. specialize (H3 m ltac:(rewrite app_length; lia)). rewrite F in H3 by lia. exact H3.
  - intros m Hm. specialize (H1 m ltac:(rewrite app_length; lia)). rewrite F in H1 by lia. exact H1.
  - split; [rewrite app_length; lia|]. rewrite F by exact H1. split; [exact H2|]. split; [|exact H4]. intros m Hm K. pose proof (G m ltac:(lia) K) as Q. rewrite F in K by exact Q. apply (H3 m); [lia|exact K].
  - intros m Hm K. pose proof (G m Hm K) as Q. rewrite F in K by exact Q. exact (H1 m Q K).
Qed.
Lemma terminated : forall (R : code) (L : list N -> Prop) (e : env) (r : reg -> N) (u : list N),
  matches_memory R L -> (settled L (u ++ [0]) \/ ~ settled L (u ++ [0])) -> (L (u ++ [0]) \/ ~ L (u ++ [0])) ->
  input_at e r u [] -> mem e (r RDI + N.of_nat (length (u ++ [0]))) = None ->
  (exists v, returns R e r v /\ match_result L u (r RDI) v) <-> settled L (u ++ [0]) /\ ~ L (u ++ [0]).
Proof.
  intros R L e r u HM DS DL (Ha & HT & HU) HE. destruct (HM e r (u ++ [0]) Ha HT) as [M1 M2]. split.
  - intros (v & V & K). destruct DS as [DS|DS]; [|destruct (M2 DS HE v V)]. split; [exact DS|]. intros HL.
    destruct (M1 DS) as (v' & V' & K'). rewrite (returns_fun _ _ _ _ _ V' V) in K'.
    assert (E : v = r RDI + N.of_nat (length u + 1)).
    { destruct K' as [(n & H1 & H2 & H3 & H4)|[H1 H2]].
      - destruct (Nat.eq_dec n (length u + 1)) as [->|Q]; [exact H4|]. rewrite app_length in H1, H3. cbn in H1, H3. destruct (H3 (length u + 1)%nat ltac:(lia)).
        rewrite firstn_all2 by (rewrite app_length; cbn; lia). exact HL.
      - destruct (H1 (length u + 1)%nat); [rewrite app_length; cbn; lia|]. rewrite firstn_all2 by (rewrite app_length; cbn; lia). exact HL. }
    destruct K as [(n & H1 & _ & _ & H4)|[_ H2]]; lia.
  - intros [HS HL]. destruct (M1 HS) as (v & V & K). exists v. split; [exact V|]. apply (match_snoc L u 0 (r RDI) v HL), K.
Qed.
Lemma pat_decided p fuel ef D : pat_ok p -> pat_safe p -> dfa_plain fuel ef (build_pat p) = Some D -> forall w,
  (settled (patL p) w \/ ~ settled (patL p) w) /\ (patL p w \/ ~ patL p w).
Proof.
  intros Hp Hs HD w. pose proof (build_language p Hp Hs) as BL. split.
  - assert (HS : settled (patL p) w <-> halts D 0 w = true).
    { rewrite (plain_halts _ _ _ _ w HD (pat_live p Hp)). unfold settled. split; intros (k & Hk & K); exists k; (split; [exact Hk|]); intros c z; specialize (K c z); rewrite BL in *; exact K. }
    rewrite HS. destruct (halts D 0 w); [left; reflexivity|right; discriminate].
  - rewrite <- BL, <- (dfa_plain_language _ _ _ _ w HD). destruct (dfa_run D 0 w); [left; reflexivity|right; discriminate].
Qed.
Theorem C11_terminated_exact : forall (p : pat) (t : list N) (fuel ef : nat) (A : nfa) (rest : list N) (D M : dfa),
  pat_ok p -> pat_safe p -> pat_short p ->
  w_pat p t -> nfa_parse (t ++ 47 :: rest) = SOk (A, rest) -> dfa_plain fuel ef A = Some D -> dfa_build fuel ef A = Some M ->
  forall (e : env) (r : reg -> N) (u : list N), input_at e r u [] -> mem e (r RDI + N.of_nat (length (u ++ [0]))) = None ->
  ((exists v, returns (dfa_routine D) e r v /\ match_result (patL p) u (r RDI) v) <-> settled (patL p) (u ++ [0]) /\ ~ patL p (u ++ [0])) /\
  ((forall i j, (i < length D)%nat -> (j < length D)%nat -> trs_eqb (dtrs (nth i D dnil)) (dtrs (nth j D dnil)) = true ->
     dacc (nth i D dnil) = dacc (nth j D dnil)) ->
   (exists v, returns (dfa_routine M) e r v /\ match_result (patL p) u (r RDI) v) <-> settled (patL p) (u ++ [0]) /\ ~ patL p (u ++ [0])).
Proof.
  intros p t fuel ef A rest D M Hp Hs Hq Hw HP HD HM e r u HI HE. pose proof HP as HP'.
  rewrite (nfa_parse_written p t 47%N rest Hp Hw (or_intror eq_refl)) in HP'. injection HP' as EA. pose proof HD as HD'. rewrite <- EA in HD'.
  destruct (pat_decided p fuel ef D Hp Hs HD' (u ++ [0])) as [D1 D2]. split; [|intros HC]; apply terminated; auto.
  - exact (C11_dot_exact p t fuel ef A rest D Hp Hs Hq Hw HP HD).
  - exact (C11_dot_default_exact p t fuel ef A rest D M Hp Hs Hq Hw HP HD HM HC).
Qed.
Print Assumptions C11_terminated_exact.
(** Met: the pattern 'a quote, any byte, a quote', on memory that ends with the closing quote, and
    with a NUL for the byte; the whole of that memory is settled.  On a text ending after the
    first quote the NUL is taken for the byte in between and the function runs on. *)
Definition quoted : pat := PSnoc (PSnoc (PSnoc PNil (SOne (UAtom (AChar 39)) QOne)) (SOne (UAtom ADot) QOne)) (SOne (UAtom (AChar 39)) QOne).
Definition quoted_text : list N := [39; 46; 39].
Definition quoted_dfa : dfa := Eval vm_compute in dfa_of quoted_text.
Lemma quoted_lang w : patL quoted w <-> exists c, c < 255 /\ w = [39; c; 39].
Proof.
  cbn [quoted patL selL unitL quantL]. split.
  - intros (x & y & -> & (x1 & y1 & -> & (x2 & y2 & -> & -> & c2 & -> & H2) & c1 & -> & H1) & c & -> & H). cbn in *. subst c c2. exists c1. split; [lia|reflexivity].
  - intros (c & H & ->). exists [39; c], [39]. split; [reflexivity|]. split; [|exists 39; split; [reflexivity|reflexivity]].
    exists [39], [c]. split; [reflexivity|]. split; [|exists c; split; [reflexivity|cbn; lia]].
    exists [], [39]. split; [reflexivity|]. split; [reflexivity|exists 39; split; reflexivity].
Qed.
Example C11_dot_hyp : pat_ok quoted /\ pat_safe quoted /\ pat_short quoted /\ w_pat quoted quoted_text /\
  nfa_parse (quoted_text ++ [47]) = SOk (nfa_of quoted_text, []) /\ dfa_plain 100 20 (nfa_of quoted_text) = Some quoted_dfa /\
  settled (patL quoted) [39; 0; 39] /\ returns (dfa_routine quoted_dfa) (only 1000 [39; 0; 39]) (arg 1000) 1003 /\
  returns (dfa_routine quoted_dfa) (only 1000 [39; 120; 39]) (arg 1000) 1003 /\
  returns (dfa_routine quoted_dfa) (only 1000 [120]) (arg 1000) 0 /\
  ~ settled (patL quoted) [39; 0] /\ forall v, ~ returns (dfa_routine quoted_dfa) (only 1000 [39; 0]) (arg 1000) v.
Proof.
  assert (H1 : pat_ok quoted) by (cbn; repeat split; try discriminate; lia).
  assert (H2 : pat_safe quoted) by (cbn; repeat split; discriminate).
  assert (H3 : pat_short quoted) by (cbn; repeat split; discriminate).
  assert (H4 : w_pat quoted quoted_text).
  { apply (wp_snoc _ _ [39; 46] [39]); [apply (wp_snoc _ _ [39] [46]); [apply (wp_snoc _ _ [] [39]); [constructor|]|]|].
    - apply (ws_one (UAtom (AChar 39)) QOne [39] []); [apply wu_atom, wa_plain; [reflexivity|discriminate]|left; reflexivity].
    - apply (ws_one (UAtom ADot) QOne [46] []); [constructor; constructor|left; reflexivity].
    - apply (ws_one (UAtom (AChar 39)) QOne [39] []); [apply wu_atom, wa_plain; [reflexivity|discriminate]|left; reflexivity]. }
  assert (H5 : nfa_parse (quoted_text ++ [47]) = SOk (nfa_of quoted_text, [])) by (vm_compute; reflexivity).
  assert (H6 : dfa_plain 100 20 (nfa_of quoted_text) = Some quoted_dfa) by (vm_compute; reflexivity).
  pose proof (C11_dot_exact quoted quoted_text 100 20 _ [] quoted_dfa H1 H2 H3 H4 H5 H6) as MM.
  assert (S3 : forall c, settled (patL quoted) [39; c; 39]).
  { intros c. exists 3%nat. split; [cbn; lia|]. intros x z K. apply quoted_lang in K as (y & _ & K). discriminate. }
  assert (R3 : forall c, c < 255 -> returns (dfa_routine quoted_dfa) (only 1000 [39; c; 39]) (arg 1000) 1003).
  { intros c Hc. destruct (MM (only 1000 [39; c; 39]) (arg 1000) [39; c; 39]) as [M1 _]; [reflexivity|apply (only_text 1000); [intros x Hx; cbn in Hx; lia|reflexivity]|].
    destruct (M1 (S3 c)) as (v & V & [(n & A1 & A2 & A3 & A4)|[A1 A2]]).
    - apply quoted_lang in A2 as (y & Hy & A2). destruct n as [|[|[|[|n]]]]; cbn in A1, A2; try discriminate; try lia. subst v. exact V.
    - destruct (A1 3%nat); [cbn; lia|]. apply quoted_lang. exists c. auto. }
  split; [exact H1|]. split; [exact H2|]. split; [exact H3|]. split; [exact H4|]. split; [exact H5|]. split; [exact H6|]. split; [apply S3|].
  split; [apply R3; lia|]. split; [apply R3; lia|]. split.
  - destruct (MM (only 1000 [120]) (arg 1000) [120]) as [M1 _]; [reflexivity|apply (only_text 1000); [intros x Hx; cbn in Hx; lia|reflexivity]|].
    destruct M1 as (v & V & [(n & A1 & A2 & A3 & A4)|[A1 A2]]); [exists 1%nat; split; [cbn; lia|]; intros x z K; apply quoted_lang in K as (y & _ & K); discriminate| |].
    + apply quoted_lang in A2 as (y & Hy & A2). destruct n as [|[|n]]; cbn in A1, A2; try discriminate; lia.
    + subst v. exact V.
  - assert (NS : ~ settled (patL quoted) [39; 0]).
    { intros (k & Hk & K). cbn in Hk. destruct k as [|[|[|k]]]; [apply (K 39 [0; 39])|apply (K 0 [39])|apply (K 39 [])|lia]; apply quoted_lang; exists 0; split; [lia|reflexivity|lia|reflexivity|lia|reflexivity]. }
    split; [exact NS|]. destruct (MM (only 1000 [39; 0]) (arg 1000) [39; 0]) as [_ M2]; [reflexivity|apply (only_text 1000); [intros x Hx; cbn in Hx; lia|reflexivity]|].
    apply M2; [exact NS|reflexivity].
Qed.

(** Refuted in general, 1: the dot stands for the characters 0..254 and so matches the NUL.
    .* on "a": with "b" and a byte 255 in memory behind the NUL it returns an address behind the
    b; with nothing mapped behind the NUL it faults. *)
Definition dotstar : pat := PSnoc PNil (SOne (UAtom ADot) (QStar false)).
Definition dot_dfa : dfa := Eval vm_compute in dfa_of [46; 42].
Theorem C11_dot_refuted : exists (p : pat) (t : list N) (A : nfa) (D : dfa),
  pat_ok p /\ pat_safe p /\ w_pat p t /\ nfa_parse (t ++ [47]) = SOk (A, []) /\ dfa_plain 100 20 A = Some D /\
  input_at (only 1000 [97; 0; 98; 255]) (arg 1000) [97] [98; 255] /\
  input_at (only 1000 [97; 0]) (arg 1000) [97] [] /\
  outcome (dfa_routine D) (only 1000 [97; 0; 98; 255]) 1000 200 = Some (Some 1003) /\
  outcome (dfa_routine D) (only 1000 [97; 0]) 1000 200 = Some None /\
  (forall v, returns (dfa_routine D) (only 1000 [97; 0; 98; 255]) (arg 1000) v -> v = 1003) /\
  (forall v, ~ returns (dfa_routine D) (only 1000 [97; 0]) (arg 1000) v).
Proof.
  exists dotstar, [46; 42], (nfa_of [46; 42]), dot_dfa.
  split; [cbn; auto|]. split; [cbn; repeat split; discriminate|].
  split; [apply (wp_snoc PNil _ []); [constructor|]; apply (ws_one (UAtom ADot) (QStar false) [46] [42]); [constructor; constructor|cbn; auto]|].
  split; [vm_compute; reflexivity|]. split; [vm_compute; reflexivity|]. split; [text_tac|]. split; [text_tac|].
  assert (O1 : outcome (dfa_routine dot_dfa) (only 1000 [97; 0; 98; 255]) 1000 200 = Some (Some 1003)) by (vm_compute; reflexivity).
  assert (O2 : outcome (dfa_routine dot_dfa) (only 1000 [97; 0]) 1000 200 = Some None) by (vm_compute; reflexivity).
  split; [exact O1|]. split; [exact O2|]. split; [intros v V; exact (outcome_value _ _ _ _ _ _ O1 V)|exact (outcome_fault _ _ _ _ O2)].
Qed.
Print Assumptions C11_dot_refuted.
(** Refuted in general, 2: a possessive loop reads sixteen bytes at a time and so past the NUL;
    [ab]++c on "ab" at the end of mapped memory faults, although the same pattern without
    possessive loop returns null as it should. *)
Definition C11_short_dfa : dfa := Eval vm_compute in dfa_of [91; 97; 98; 93; 43; 99].
Theorem C11_overread_refuted :
  dfa_plain 100 20 (nfa_of C11_long) = Some C11_long_dfa /\ codable C11_long_dfa /\
  dfa_plain 100 20 (nfa_of [91; 97; 98; 93; 43; 99]) = Some C11_short_dfa /\
  input_at (only 1000 [97; 98; 0]) (arg 1000) [97; 98] [] /\
  outcome (dfa_routine C11_long_dfa) (only 1000 [97; 98; 0]) 1000 200 = Some None /\
  (forall v, ~ returns (dfa_routine C11_long_dfa) (only 1000 [97; 98; 0]) (arg 1000) v) /\
  outcome (dfa_routine C11_short_dfa) (only 1000 [97; 98; 0]) 1000 200 = Some (Some 0).
Proof.
  destruct C11_possessive_hyp as (H1 & H2 & _). split; [exact H1|]. split; [exact H2|]. split; [vm_compute; reflexivity|]. split; [text_tac|].
  assert (O2 : outcome (dfa_routine C11_long_dfa) (only 1000 [97; 98; 0]) 1000 200 = Some None) by (vm_compute; reflexivity).
  split; [exact O2|]. split; [exact (outcome_fault _ _ _ _ O2)|vm_compute; reflexivity].
Qed.
Print Assumptions C11_overread_refuted.

(** ** C12 *)
(** The vector loop in isolation: wherever it stands in a program, from any machine state at its
    start, it ends without a fault at the instruction behind it, the input pointer having moved
    over exactly the maximal run of bytes of the class; nothing else but scratch registers has changed. *)
Theorem C12_vector_loop_partial : forall (P : code) (e : env) (pre k : code) (l : label) (cc : cclass) (u pad : list N) (s : st),
  NoDup (binds P) -> P = pre ++ emit_loop cc l ++ k ->
  (length cc <= 8)%nat -> (forall r, In r cc -> 1 <= rs r /\ rs r < re r /\ re r <= 256) ->
  text_at (mem e) (rg s INPUT) (u ++ 0 :: pad) -> (15 <= length pad)%nat -> pc s = emit_loop cc l ++ k ->
  exists s' n, star P e s s' /\ pc s' = k /\ rg s' INPUT = rg s INPUT + N.of_nat n /\
    (n <= length u)%nat /\ (forall i c, (i < n)%nat -> nth_error u i = Some c -> includes cc c = true) /\
    (forall c, nth_error u n = Some c -> includes cc c = false) /\
    rg s' BACKUP = rg s BACKUP /\ stk s' = stk s /\ sav s' = sav s /\ out s' = out s.
Proof.
  intros P e pre k l cc u pad s HN EP H8 HR HT HL HPC.
  destruct s as [c r f xl xp sk sv o b]. cbn [pc rg stk sav out] in *. subst c. cbn [emit_loop app].
  destruct (loop_run P e HN cc l k pre (conj H8 HR) EP (length u) u pad (r INPUT)
     (mkS ([ILoadX INPUT; IPcmpP 20; IAdd INPUT INDEX; ICmpI INDEX 15; IJcc JG l] ++ k) r f xl (pack_charclass cc) sk sv o b) (le_n _) HL HT
     ltac:(exists k; split; reflexivity) eq_refl eq_refl) as (s' & S & F & K1 & K2 & K3).
  exists s', (run_len cc u). split.
  { eapply star_step; [reflexivity|]. eapply star_step; [reflexivity|]. exact S. }
  split; [exact K2|]. split; [exact K3|]. destruct (run_len_spec cc u) as [R1 R2]. split.
  { clear. induction u as [|x u IH]; cbn [run_len length]; [lia|]. destruct (includes cc x); lia. }
  split; [exact R1|]. split; [exact R2|]. split; [exact K1|].
  destruct F as (_ & _ & _ & _ & F1 & F2 & F3 & _). cbn in *. auto.
Qed.
Print Assumptions C12_vector_loop_partial.

(** On any memory and for any class, exactly.  The sixteen bytes of the pattern hold the first
    eight ranges at most, and none behind a range that is empty or begins with NUL. *)
Definition holds (cc h : cclass) : Prop := (length h <= 8)%nat /\ (forall r, In r h -> 1 <= rs r /\ rs r < re r) /\
  exists rest, cc = h ++ rest /\ (rest = [] \/ length h = 8%nat \/ exists r rest', rest = r :: rest' /\ (rs r = 0 \/ re r <= rs r)).
(** [n] is the length of the maximal run of bytes of the class at the beginning of [w]. *)
Definition run_of (h : cclass) (w : list N) (n : nat) : Prop := (n <= length w)%nat /\
  (forall i c, (i < n)%nat -> nth_error w i = Some c -> includes h c = true) /\ (forall c, nth_error w n = Some c -> includes h c = false).
Lemma holds_held cc h : holds cc h -> h = held_of 8 cc.
Proof.
  intros (L & H & rest & -> & R). revert L R. generalize 8%nat as n. induction h as [|r h IH]; intros n L R.
  - cbn [app]. destruct R as [->|[R|(r & rest' & -> & R)]]; [destruct n; reflexivity|cbn in R; subst n; reflexivity|].
    destruct n; [reflexivity|]. cbn [held_of]. replace ((1 <=? rs r) && (rs r <? re r)) with false by lia. reflexivity.
  - destruct n as [|n]; [cbn in L; lia|]. destruct (H r (or_introl eq_refl)). cbn [held_of app]. replace ((1 <=? rs r) && (rs r <? re r)) with true by lia.
    f_equal. apply IH; [intros y Hy; apply H; right; exact Hy|cbn in L; lia|]. destruct R as [R|[R|R]]; [auto|right; left; cbn in R; lia|auto].
Qed.
Lemma held_holds cc : holds cc (held_of 8 cc).
Proof.
  unfold holds. generalize 8%nat as n. intros n. revert cc. induction n as [|n IH]; intros [|r cc]; cbn [held_of].
  - split; [cbn; lia|]. split; [intros r []|]. exists []. auto.
  - split; [cbn; lia|]. split; [intros x []|]. exists (r :: cc). auto.
  - split; [cbn; lia|]. split; [intros r []|]. exists []. auto.
  - destruct ((1 <=? rs r) && (rs r <? re r)) eqn:E.
    + destruct (IH cc) as (L & H & rest & E1 & R). split; [cbn; lia|]. split; [intros y [<-|Hy]; [lia|exact (H y Hy)]|].
      exists rest. split; [cbn; rewrite <- E1; reflexivity|]. destruct R as [R|[R|R]]; [auto|right; left; cbn; lia|auto].
    + split; [cbn; lia|]. split; [intros y []|]. exists (r :: cc). split; [reflexivity|]. right. right. exists r, cc. split; [reflexivity|]. lia.
Qed.
Lemma run_of_len h w n : run_of h w n -> n = run_len h w.
Proof.
  revert n. induction w as [|x w IH]; intros n (A & B & C); cbn [run_len].
  - cbn in A. lia.
  - destruct n as [|n].
    + rewrite (C x eq_refl). reflexivity.
    + rewrite (B 0%nat x ltac:(lia) eq_refl). f_equal. apply IH. split; [cbn in A; lia|]. split.
      * intros i c Hi Hc. apply (B (S i) c); [lia|exact Hc].
      * intros c Hc. apply C. exact Hc.
Qed.
Lemma run_of_ex h w : run_of h w (run_len h w).
Proof. split; [apply run_len_le|apply run_len_spec]. Qed.
(** The loop passes the maximal run of the ranges held, if the blocks of sixteen bytes up to the one
    in which the run ends are mapped; if they are not, it faults. *)
Theorem C12_vector_loop_exact : forall (P : code) (e : env) (pre k : code) (l : label) (cc h : cclass) (w : list N) (n : nat) (s : st),
  NoDup (binds P) -> P = pre ++ emit_loop cc l ++ k -> (forall r, In r cc -> rs r <= re r /\ re r <= 256) ->
  text_at (mem e) (rg s INPUT) w -> pc s = emit_loop cc l ++ k -> holds cc h -> run_of h w n ->
  ((16 * (n / 16) + 16 <= length w)%nat ->
     exists s', star P e s s' /\ pc s' = k /\ rg s' INPUT = rg s INPUT + N.of_nat n /\ rg s' BACKUP = rg s BACKUP /\ stk s' = stk s /\ sav s' = sav s /\ out s' = out s) /\
  ((length w < 16 * (n / 16) + 16)%nat -> mem e (rg s INPUT + N.of_nat (length w)) = None -> exists s', star P e s s' /\ step P e s' = Fault).
Proof.
  intros P e pre k l cc h w n s HN EP HR HT HPC HH Hn. apply holds_held in HH. apply run_of_len in Hn. subst h n.
  destruct s as [c r f xl xp sk sv o b]. cbn [pc rg stk sav out] in *. subst c. cbn [emit_loop app].
  assert (G : (16 * (run_len (held_of 8 cc) w / 16) + 16 <= length w)%nat \/ mem e (r INPUT + N.of_nat (length w)) = None -> _) by
   (intros HM; exact (loop_mem P e HN cc l k pre HR EP (length w) w (r INPUT)
     (mkS ([ILoadX INPUT; IPcmpP 20; IAdd INPUT INDEX; ICmpI INDEX 15; IJcc JG l] ++ k) r f xl (pack_charclass cc) sk sv o b) (le_n _) HT HM eq_refl eq_refl eq_refl)).
  split.
  - intros HL. destruct (G (or_introl HL)) as (s' & S & K). replace (16 * (run_len (held_of 8 cc) w / 16) + 16 <=? length w)%nat with true in K by lia. destruct K as (F & K1 & K2 & K3).
    exists s'. split; [eapply star_step; [reflexivity|]; eapply star_step; [reflexivity|]; exact S|]. split; [exact K2|]. split; [exact K3|]. split; [exact K1|].
    destruct F as (_ & _ & _ & _ & F1 & F2 & F3 & _). cbn in *. auto.
  - intros HL HM. destruct (G (or_intror HM)) as (s' & S & K). replace (16 * (run_len (held_of 8 cc) w / 16) + 16 <=? length w)%nat with false in K by lia.
    exists s'. split; [eapply star_step; [reflexivity|]; eapply star_step; [reflexivity|]; exact S|exact K].
Qed.
Print Assumptions C12_vector_loop_exact.
Lemma star_end_unique P e s a : star P e s a -> forall b, star P e s b -> pc a = [] -> pc b = [] -> a = b.
Proof.
  induction 1 as [s|s s1 a E _ IH]; intros b Hb PA PB.
  - destruct Hb as [|s0 s1 b E _]; [reflexivity|]. unfold step in E. rewrite PA in E. discriminate.
  - destruct Hb as [s0|s0 s2 b E2 Hb]; [unfold step in E; rewrite PB in E; discriminate|]. rewrite E in E2. injection E2 as <-. exact (IH b Hb PA PB).
Qed.
(** So it does what the byte-wise loop would, on all memories with enough bytes, if and only if the class
    has at most eight ranges and not the NUL (a class in order, that some byte does not belong to). *)
Theorem C12_loop_iff : forall (cc : cclass) (l : label), Sorted cc -> (forall r, In r cc -> re r <= 256) -> (exists y, y < 256 /\ includes cc y = false) ->
  ((forall (e : env) (s : st) (w : list N) (n : nat), text_at (mem e) (rg s INPUT) w -> pc s = emit_loop cc l -> run_of cc w n -> (16 * (n / 16) + 16 <= length w)%nat ->
      exists s', star (emit_loop cc l) e s s' /\ pc s' = [] /\ rg s' INPUT = rg s INPUT + N.of_nat n) <->
   (length cc <= 8)%nat /\ includes cc 0 = false).
Proof.
  intros cc l HS H256 (y & Y1 & Y2). assert (ND : NoDup (binds (emit_loop cc l))) by (cbn; repeat constructor; intros []).
  assert (HR : forall r, In r cc -> rs r <= re r /\ re r <= 256) by (intros r Hr; destruct (sorted_above _ _ HS r Hr); specialize (H256 r Hr); lia).
  assert (EP : emit_loop cc l = [] ++ emit_loop cc l ++ []) by (rewrite app_nil_r; reflexivity). split.
  - intros H.
    assert (SAME : forall x, includes (held_of 8 cc) x = includes cc x).
    { intros x. destruct (includes cc x) eqn:E1.
      2:{ destruct (includes (held_of 8 cc) x) eqn:E2; [|reflexivity]. unfold includes in E1, E2. apply existsb_exists in E2 as (r & Hr & E2). apply held_incl in Hr.
          rewrite (proj2 (existsb_exists _ cc)) in E1; [discriminate|eauto]. }
      destruct (includes (held_of 8 cc) x) eqn:E2; [reflexivity|]. exfalso.
      assert (X : x < 256) by (unfold includes in E1; apply existsb_exists in E1 as (r & Hr & E1); specialize (H256 r Hr); lia).
      set (w := x :: repeat y 31). set (s := mkS (emit_loop cc l) (fun _ => 1000) None [] [] [] [] (mkW [] [] 0) 0).
      assert (TX : text_at (mem (only 1000 w)) 1000 w).
      { apply only_text; [|reflexivity]. intros c [<-|Hc]; [exact X|]. apply repeat_spec in Hc. subst c. exact Y1. }
      destruct (H (only 1000 w) s w 1%nat TX eq_refl) as (s1 & S1 & P1 & I1); [|cbn; lia|].
      { split; [cbn; lia|]. split; [intros [|i] c Hi Hc; [cbn in Hc; injection Hc as <-; exact E1|lia]|]. intros c Hc. cbn in Hc. injection Hc as <-. exact Y2. }
      destruct (C12_vector_loop_exact (emit_loop cc l) (only 1000 w) [] [] l cc (held_of 8 cc) w 0%nat s ND EP HR TX) as [K _].
      { rewrite app_nil_r. reflexivity. } { apply held_holds. } { split; [lia|]. split; [intros i c Hi; lia|]. intros c Hc. cbn in Hc. injection Hc as <-. exact E2. }
      destruct K as (s2 & S2 & P2 & I2 & _); [cbn; lia|]. rewrite (star_end_unique _ _ _ _ S1 s2 S2 P1 P2) in I1. rewrite I1 in I2. cbn in I2. discriminate. }
    destruct (held_exact 8 cc 0 HS SAME) as [A B]. split; [exact A|]. apply includes_nz. exact B.
  - intros [L Z] e s w n HT HPC Hn HL.
    assert (HH : holds cc cc).
    { split; [exact L|]. split; [|exists []; rewrite app_nil_r; auto]. intros r Hr. destruct (sorted_above _ _ HS r Hr) as [_ R]. split; [|exact R].
      destruct (N.eq_dec (rs r) 0) as [E|E]; [|lia]. unfold includes in Z. rewrite (proj2 (existsb_exists _ cc)) in Z; [discriminate|]. exists r. split; [exact Hr|lia]. }
    destruct (C12_vector_loop_exact (emit_loop cc l) e [] [] l cc cc w n s ND EP HR HT) as [K _]; [rewrite app_nil_r; exact HPC|exact HH|exact Hn|].
    destruct (K HL) as (s' & S & P1 & I1 & _). eauto.
Qed.
Print Assumptions C12_loop_iff.
(** Met: the nine ranges of [acegikmoq] (eight are held), and the dot (none is held). *)
Example C12_exact_hyp : let cc := map (fun c => mkR c (c + 1)) [97; 99; 101; 103; 105; 107; 109; 111; 113] in
  Sorted cc /\ (forall r, In r cc -> re r <= 256) /\ includes cc 98 = false /\ holds cc (firstn 8 cc) /\ holds make_star [] /\ Sorted make_star /\
  run_of (firstn 8 cc) [97; 99; 113; 97] 2 /\ run_of cc [97; 99; 113; 97] 4.
Proof.
  cbn zeta. split; [cbn; repeat (split; [lia|]); exact Logic.I|]. split; [intros r Hr; cbn in Hr; repeat (destruct Hr as [<-|Hr]; [cbn; lia|]); destruct Hr|]. split; [reflexivity|].
  split; [split; [cbn; lia|]; split; [intros r Hr; cbn in Hr; repeat (destruct Hr as [<-|Hr]; [cbn; lia|]); destruct Hr|]; eexists; split; [cbn; reflexivity|auto]|].
  split; [split; [cbn; lia|]; split; [intros r []|]; exists make_star; split; [reflexivity|]; right; right; eexists; eexists; split; [reflexivity|left; reflexivity]|].
  split; [cbn; repeat (split; [lia|]); exact Logic.I|].
  split; (split; [cbn; lia|]; split; [intros [|[|[|[|i]]]] c Hi Hc; try lia; cbn in Hc; injection Hc as <-; reflexivity|intros c Hc; cbn in Hc; try discriminate; injection Hc as <-; reflexivity]).
Qed.

(** The possessive code of an automaton and the byte-wise code of the same automaton return the same. *)
Definition bytewise (D : dfa) : dfa := map (fun s => mkD (dlab s) (dtrs s) false (dacc s)) D.
Lemma bytewise_nth D q : nth q (bytewise D) dnil = mkD (dlab (nth q D dnil)) (dtrs (nth q D dnil)) false (dacc (nth q D dnil)).
Proof. unfold bytewise. change dnil with ((fun s => mkD (dlab s) (dtrs s) false (dacc s)) dnil) at 1. apply map_nth. Qed.
Lemma bytewise_longest D : forall u q, longest (bytewise D) q u = longest D q u.
Proof.
  induction u as [|c u IH]; intros q; cbn [longest]; rewrite bytewise_nth; cbn [dtrs dacc]; [reflexivity|].
  destruct (first_tr (dtrs (nth q D dnil)) c) as [d|]; [rewrite IH|]; reflexivity.
Qed.
Theorem C12_same_as_bytewise_partial : forall (D : dfa) (e : env) (r : reg -> N) (u pad : list N),
  codable D -> input_at e r u pad -> (15 <= length pad)%nat ->
  exists v, returns (dfa_routine D) e r v /\ returns (dfa_routine (bytewise D)) e r v.
Proof.
  intros D e r u pad HD HI HL. eexists. split; [apply (dfa_routine_run D e r u pad HD HI); intros _; exact HL|].
  assert (HB : codable (bytewise D)).
  { destruct HD as [N T _]. split.
    - destruct D; [congruence|discriminate].
    - intros q t Ht. rewrite bytewise_nth in Ht. cbn in Ht. unfold bytewise. rewrite map_length. exact (T q t Ht).
    - intros q Hq. rewrite bytewise_nth in Hq. discriminate. }
  rewrite <- (bytewise_longest D u 0). apply (dfa_routine_run (bytewise D) e r u pad HB HI). intros _; exact HL.
Qed.
Print Assumptions C12_same_as_bytewise_partial.
(** Met: the automaton and input of [C11_possessive_hyp]; the first state behind its start has the loop. *)
Example C12_hyp : codable C11_long_dfa /\ (exists q, self_loop C11_long_dfa q) /\
  input_at (only 1000 (C11_long_in ++ 0 :: repeat 98 15)) (arg 1000) C11_long_in (repeat 98 15) /\ (15 <= length (repeat 98 15))%nat /\
  packable [mkR 48 58; mkR 65 91; mkR 95 96; mkR 97 123].
Proof.
  destruct C11_possessive_hyp as (_ & H2 & H3 & H4 & _). split; [exact H2|]. split; [exact H3|]. split; [exact H4|]. split; [cbn; lia|].
  split; [cbn; lia|]. intros r Hr. cbn in Hr. repeat (destruct Hr as [<-|Hr]; [cbn; lia|]). destruct Hr.
Qed.

(** Refuted in general, 1: a class of nine ranges is cut to eight.  [acegikmoq]*+ on "qq" stops after the first q. *)
Definition nine : list N := [91; 97; 99; 101; 103; 105; 107; 109; 111; 113; 93; 42; 43].
Definition nine_dfa : dfa := Eval vm_compute in dfa_of nine.
Theorem C12_nine_ranges_refuted :
  dfa_plain 100 20 (nfa_of nine) = Some nine_dfa /\ dfa_run nine_dfa 0 [113; 113] = true /\
  input_at (only 1000 (113 :: 113 :: 0 :: repeat 0 15)) (arg 1000) [113; 113] (repeat 0 15) /\
  outcome (dfa_routine nine_dfa) (only 1000 (113 :: 113 :: 0 :: repeat 0 15)) 1000 200 = Some (Some 1001) /\
  outcome (dfa_routine (bytewise nine_dfa)) (only 1000 (113 :: 113 :: 0 :: repeat 0 15)) 1000 200 = Some (Some 1002).
Proof. split; [vm_compute; reflexivity|]. split; [vm_compute; reflexivity|]. split; [text_tac|]. split; vm_compute; reflexivity. Qed.
Print Assumptions C12_nine_ranges_refuted.
(** Refuted in general, 2: a class containing NUL.  In .*+ the first byte of the range list is
    0, which the instruction takes for the end of the list: the loop consumes nothing. *)
Definition dotlong_dfa : dfa := Eval vm_compute in dfa_of [46; 42; 43].
Theorem C12_dot_refuted :
  dfa_plain 100 20 (nfa_of [46; 42; 43]) = Some dotlong_dfa /\ dfa_run dotlong_dfa 0 [97; 98] = true /\
  input_at (only 1000 (97 :: 98 :: 0 :: repeat 255 15)) (arg 1000) [97; 98] (repeat 255 15) /\
  outcome (dfa_routine dotlong_dfa) (only 1000 (97 :: 98 :: 0 :: repeat 255 15)) 1000 200 = Some (Some 1001) /\
  outcome (dfa_routine (bytewise dotlong_dfa)) (only 1000 (97 :: 98 :: 0 :: repeat 255 15)) 1000 200 = Some (Some 1003).
Proof. split; [vm_compute; reflexivity|]. split; [vm_compute; reflexivity|]. split; [text_tac|]. split; vm_compute; reflexivity. Qed.
Print Assumptions C12_dot_refuted.
(** Refuted in general, 3: merging equivalent states can give a state two loops.  The optimised
    automaton of c(a|b)*+ skips the run of a's, then the run of b's, and stops: on "cabab" it
    returns the end of "cab". *)
Definition two : list N := [99; 40; 97; 124; 98; 41; 42; 43].
Definition two_dfa : dfa := Eval vm_compute in minimize (dfa_of two).
Theorem C12_two_loops_refuted :
  dfa_build 100 20 (nfa_of two) = Some two_dfa /\ dfa_run two_dfa 0 [99; 97; 98; 97; 98] = true /\
  input_at (only 1000 (99 :: 97 :: 98 :: 97 :: 98 :: 0 :: repeat 0 15)) (arg 1000) [99; 97; 98; 97; 98] (repeat 0 15) /\
  outcome (dfa_routine two_dfa) (only 1000 (99 :: 97 :: 98 :: 97 :: 98 :: 0 :: repeat 0 15)) 1000 200 = Some (Some 1003) /\
  outcome (dfa_routine (bytewise two_dfa)) (only 1000 (99 :: 97 :: 98 :: 97 :: 98 :: 0 :: repeat 0 15)) 1000 200 = Some (Some 1005).
Proof. split; [vm_compute; reflexivity|]. split; [vm_compute; reflexivity|]. split; [text_tac|]. split; vm_compute; reflexivity. Qed.
Print Assumptions C12_two_loops_refuted.

(** ** C13 *)
(** The code for a literal (bytes 1..255), whatever the uninitialised rest of its constants:
    succeeds iff the text starts with the literal and then returns the address behind it. *)
Theorem C13_literal_partial : forall (junk : N -> N) (s : list N) (e : env) (r : reg -> N) (u pad : list N),
  (forall c, In c s -> 1 <= c < 256) -> input_at e r u pad -> ((8 <= length s)%nat -> (15 <= length pad)%nat) ->
  exists v, returns (match_routine junk s) e r v /\
    ((exists w, u = s ++ w) -> v = r RDI + N.of_nat (length s)) /\ ((~ exists w, u = s ++ w) -> v = 0).
Proof.
  intros junk s e r u pad Hs HI HL. eexists. split; [apply (match_routine_run junk s e r u pad); [|exact HI|exact HL]|].
  - intros c Hc. specialize (Hs c Hc). split; lia.
  - split; intros H.
    + apply prefixb_spec in H. rewrite H. reflexivity.
    + destruct (prefixb s u) eqn:E; [|reflexivity]. apply prefixb_spec in E. contradiction.
Qed.
Print Assumptions C13_literal_partial.
Example C13_hyp : let s := [102; 117; 110; 99; 116; 105; 111; 110] in
  input_at (only 1000 ((s ++ [32]) ++ 0 :: repeat 0 15)) (arg 1000) (s ++ [32]) (repeat 0 15) /\
  returns (match_routine (fun _ => 9) s) (only 1000 ((s ++ [32]) ++ 0 :: repeat 0 15)) (arg 1000) 1008.
Proof.
  cbn zeta. assert (HI : input_at (only 1000 (([102; 117; 110; 99; 116; 105; 111; 110] ++ [32]) ++ 0 :: repeat 0 15)) (arg 1000) ([102; 117; 110; 99; 116; 105; 111; 110] ++ [32]) (repeat 0 15)) by text_tac.
  split; [exact HI|]. destruct (C13_literal_partial (fun _ => 9) [102; 117; 110; 99; 116; 105; 111; 110] _ _ _ _ ltac:(intros c Hc; cbn in Hc; lia) HI ltac:(cbn; lia)) as (v & V & K & _).
  rewrite K in V; [exact V|]. exists [32]. reflexivity.
Qed.
(** On any memory holding [w] at the argument, whatever follows.  A literal of less than eight bytes
    is compared byte by byte: [w] is enough unless the literal goes on where [w] ends.  A longer one is
    compared in blocks: if the blocks before it are there, sixteen bytes are read for block j.  With
    enough memory the answer is right; with less, and nothing mapped behind [w], the function faults. *)
Definition enough_for (s w : list N) : Prop :=
  if (length s <? 8)%nat then ~ exists z, z <> [] /\ s = w ++ z
  else forall j, (16 * j < length s)%nat -> (exists z, w = firstn (16 * j) s ++ z) -> (16 * j + 16 <= length w)%nat.
Theorem C13_memory_exact : forall (junk : N -> N) (s : list N) (e : env) (r : reg -> N) (w : list N),
  (forall c, In c s -> 1 <= c < 256) -> text_at (mem e) (r RDI) w ->
  (enough_for s w -> exists v, returns (match_routine junk s) e r v /\
     ((exists z, w = s ++ z) -> v = r RDI + N.of_nat (length s)) /\ ((~ exists z, w = s ++ z) -> v = 0)) /\
  (~ enough_for s w -> mem e (r RDI + N.of_nat (length w)) = None -> forall v, ~ returns (match_routine junk s) e r v).
Proof.
  intros junk s e r w Hs HT. assert (Hs' : forall c, In c s -> c <> 0 /\ c < 256) by (intros c Hc; specialize (Hs c Hc); lia).
  assert (ES : seen s w = true <-> enough_for s w).
  { unfold seen, enough_for. destruct (length s <? 8)%nat; [|apply blocks_seen_spec; lia]. rewrite <- lit_seen_spec. destruct (lit_seen s w); intuition congruence. }
  split.
  - intros HE. apply ES in HE. eexists. split; [exact (match_routine_mem junk s e r w Hs' HT HE)|]. split; intros H.
    + apply prefixb_spec in H. rewrite H. reflexivity.
    + destruct (prefixb s w) eqn:E; [|reflexivity]. apply prefixb_spec in E. contradiction.
  - intros HE HM. apply (match_routine_fault junk s e r w Hs' HT); [|exact HM]. destruct (seen s w); [destruct HE; apply ES; reflexivity|reflexivity].
Qed.
Print Assumptions C13_memory_exact.
(** Met, both ways: function on sixteen bytes that start with it; on fun at the end of memory; fun on fu. *)
Example C13_memory_hyp : let s := [102; 117; 110; 99; 116; 105; 111; 110] in
  enough_for s (s ++ repeat 255 8) /\ returns (match_routine (fun _ => 9) s) (only 1000 (s ++ repeat 255 8)) (arg 1000) 1008 /\
  ~ enough_for s [102; 117; 110] /\ ~ enough_for [102; 117; 110] [102; 117] /\ enough_for [102; 117; 110] [102; 120] /\
  returns (match_routine (fun _ => 9) [102; 117; 110]) (only 1000 [102; 120]) (arg 1000) 0.
Proof.
  cbn zeta. set (s := [102; 117; 110; 99; 116; 105; 111; 110]).
  assert (E1 : enough_for s (s ++ repeat 255 8)) by (intros j Hj _; cbn in Hj; cbn [length app s repeat]; lia).
  assert (E2 : enough_for [102; 117; 110] [102; 120]) by (intros (z & _ & E); discriminate).
  split; [exact E1|]. split; [|split; [|split; [|split; [exact E2|]]]].
  - destruct (C13_memory_exact (fun _ => 9) s (only 1000 (s ++ repeat 255 8)) (arg 1000) (s ++ repeat 255 8)) as [H _];
      [intros c Hc; cbn in Hc; lia|apply (only_text 1000); [intros c Hc; cbn in Hc; lia|reflexivity]|]. destruct (H E1) as (v & V & K & _). rewrite K in V; [exact V|eexists; reflexivity].
  - intros H. specialize (H 0%nat ltac:(cbn; lia) (ex_intro _ _ eq_refl)). cbn in H. lia.
  - intros H. apply H. exists [110]. split; [discriminate|reflexivity].
  - destruct (C13_memory_exact (fun _ => 9) [102; 117; 110] (only 1000 [102; 120]) (arg 1000) [102; 120]) as [H _];
      [intros c Hc; cbn in Hc; lia|apply (only_text 1000); [intros c Hc; cbn in Hc; lia|reflexivity]|]. destruct (H E2) as (v & V & _ & K). rewrite K in V; [exact V|]. intros [z Z]. discriminate.
Qed.
(** Refuted for literals of eight or more bytes near the end of mapped memory: sixteen bytes are
    read whatever the text is. *)
Theorem C13_overread_refuted : let s := [102; 117; 110; 99; 116; 105; 111; 110] in
  input_at (only 1000 (s ++ [0])) (arg 1000) s [] /\ forall v, ~ returns (match_routine (fun _ => 0) s) (only 1000 (s ++ [0])) (arg 1000) v.
Proof.
  cbn zeta. split; [text_tac|].
  assert (O : outcome (match_routine (fun _ => 0) [102; 117; 110; 99; 116; 105; 111; 110]) (only 1000 ([102; 117; 110; 99; 116; 105; 111; 110] ++ [0])) 1000 100 = Some None) by (vm_compute; reflexivity).
  exact (outcome_fault _ _ _ _ O).
Qed.
Print Assumptions C13_overread_refuted.

(** ** C14 *)
(** The skip routine returns the address of the first byte that is not white space, reading
    nothing past the NUL. *)
Definition white (c : N) : Prop := c = 32 \/ c = 9 \/ c = 13 \/ c = 10.
Lemma is_ws_white c : is_ws c = true <-> white c.
Proof. unfold is_ws, white. lia. Qed.
Theorem C14_skip_exact : forall (e : env) (r : reg -> N) (u pad : list N), input_at e r u pad ->
  exists n, returns skip_routine e r (r RDI + N.of_nat n) /\ (n <= length u)%nat /\
    (forall i c, (i < n)%nat -> nth_error u i = Some c -> white c) /\ (forall c, nth_error u n = Some c -> ~ white c).
Proof.
  intros e r u pad HI. exists (ws_len u). split; [exact (skip_routine_run e r u pad HI)|].
  clear. induction u as [|x u (I1 & I2 & I3)]; cbn [ws_len length].
  - split; [lia|]. split; [intros i c Hi; lia|]. intros c Hc. discriminate.
  - destruct (is_ws x) eqn:E.
    + split; [lia|]. split; [|exact I3]. intros [|i] c Hi Hc; cbn in Hc; [injection Hc as <-; apply is_ws_white; exact E|]. apply (I2 i); [lia|exact Hc].
    + split; [lia|]. split; [intros i c Hi; lia|]. intros c Hc K. cbn in Hc. injection Hc as <-. apply is_ws_white in K. congruence.
Qed.
Print Assumptions C14_skip_exact.
Example C14_hyp : input_at (only 1000 [32; 9; 13; 10; 97; 32; 0]) (arg 1000) [32; 9; 13; 10; 97; 32] [] /\
  returns skip_routine (only 1000 [32; 9; 13; 10; 97; 32; 0]) (arg 1000) 1004.
Proof.
  assert (HI : input_at (only 1000 [32; 9; 13; 10; 97; 32; 0]) (arg 1000) [32; 9; 13; 10; 97; 32] []) by text_tac.
  split; [exact HI|]. exact (skip_routine_run _ _ _ _ HI).
Qed.
