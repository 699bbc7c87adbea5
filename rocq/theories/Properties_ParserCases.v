(** * Concrete grammars: the hypotheses of Properties_Parser hold; rejected inputs; long texts; left recursion *)
From Coq Require Import List NArith ZArith Arith Bool Lia ZifyBool ZifyN ZifyNat Permutation.
From Verif Require Import CharClass CharClassSpec Stream NFA NFASem NFABuild NFAParse DFA DFAProofs DFAMin RegexSpec GrammarSpec Marker Reduction ReductionProofs TreeSpec ParseSpec Writer WriterProofs X86 CodeGen CodeGenProofs CodeGenSimd CodeGenDfa CodeGenMisc CodeGenRoutine ATN ATNSem ATNBuild ATNOpt ATNLive Grammar GrammarProofs ParserGen ParserRun ParserSim ParserTree ParserTop ParserTerm SymCtx Properties_CodeGen Properties_Parser.
Import ListNotations.
Local Open Scope nat_scope.

(** ** S : 'a' S | /b/ ; *)
Definition ab_pat : pat := PSnoc PNil (SOne (UAtom (AChar 98)) QOne).
Definition ab_body : gsel := GAlt (GFirst (GCons (GTerm (TLit [97%N])) GOne (GCons (GTerm (TRule [83%N])) GOne GNil))) false (GCons (GTerm (TPat ab_pat)) GOne GNil).
Definition ab_rules := rules_of [([83%N], ab_body)].
Definition ab_net : atn := Eval vm_compute in build_body true ab_body.
Definition ab_dfa : dfa := Eval vm_compute in match dfa_build 10 10 (build_pat ab_pat) with Some D => D | None => [] end.
(** a: first alternative, b: second.  (The table the generator computes is the subject of C32.) *)
Definition ab_look : ldfa := [[([mkR 97 98], -1); ([mkR 98 99], -2)]]%Z.
Definition ab_C : compiled := mkC [([83%N], (1%N, ab_net))] (fun _ => ab_dfa) (fun _ _ => ab_look) (fun _ _ _ => 0%N) 64.
(** The text at address 1000, pages of 8 words. *)
Definition at1000 (w : list N) (old : nat -> list N) : env :=
  mkE (mem (only 1000 w)) 5 8 old (fun k => (4096 + 64 * (N.of_nat k mod 4))%N) (fun _ _ => 77%N).
Lemma ab_gen npad : gen_ok ab_C npad.
Proof.
  assert (NETS : forall name id M, In (name, (id, M)) (c_nets ab_C) -> M = ab_net) by (intros name id M [H|[]]; congruence).
  split.
  - intros name id M H. rewrite (NETS _ _ _ H). discriminate.
  - intros name id M n t H Hn Ht. rewrite (NETS _ _ _ H) in *. assert (F : forallb (fun n => forallb (fun t => fst t <? length ab_net) (atrs n)) ab_net = true) by reflexivity.
    rewrite forallb_forall in F. specialize (F n Hn). rewrite forallb_forall in F. specialize (F t Ht). lia.
  - intros name id M n s H Hn E. rewrite (NETS _ _ _ H) in *. assert (F : forallb (fun n => match nt n with NLit s => eqname s [97%N] | _ => true end) ab_net = true) by reflexivity.
    rewrite forallb_forall in F. specialize (F n Hn). rewrite E in F. apply eqname_spec in F as ->. split; [intros c [<-|[]]; split; [discriminate|reflexivity]|cbn [length]; lia].
  - intros name id M n A H Hn E. split.
    + split; [discriminate| |].
      * intros q t. destruct q as [|[|[|q]]]; cbn; try tauto. intros [<-|[]]. cbn. split; [lia|]. split; [|reflexivity]. intros r [<-|[]]; cbn; lia.
      * intros q. destruct q as [|[|[|q]]]; discriminate.
    + intros [q [E2 _]]. destruct q as [|[|[|q]]]; discriminate.
  - intros m name id M i H Hi Hl. destruct m as [|m]; [|destruct m; discriminate]. injection H as <- <- <-. cbn [ab_net length] in Hi.
    destruct (Nat.eq_dec i 1) as [->|NE]; [|do 10 (destruct i as [|i]; [cbn in Hl; lia|]); lia]. cbn. split; [discriminate|]. intros q cc d. destruct q as [|[|q]]; cbn; try tauto.
    intros [E|[E|[]]]; injection E as <- <-; cbn; (split; [intros r [<-|[]]; cbn; lia|lia]).
Qed.
Lemma ab_linked : linked ab_C.
Proof.
  split.
  - intros name id M n x [H|[]] Hn E. injection H as <- <- <-. assert (F : forallb (fun n => match nt n with NInv s => eqname s [83%N] | _ => true end) ab_net = true) by reflexivity.
    rewrite forallb_forall in F. specialize (F n Hn). rewrite E in F. apply eqname_spec in F as ->. exists 0. reflexivity.
  - intros m i q cc d. destruct q as [|[|q]]; cbn; try tauto. intros [E|[E|[]]]; injection E as <- <-; reflexivity.
Qed.
Lemma ab_nets : nets_of ab_rules ab_C.
Proof.
  split.
  - intros name. unfold ab_rules, rules_of. cbn [c_nets ab_C net_index rules_from fst]. destruct (list_eq_dec N.eq_dec [83%N] name) as [<-|NE]; [discriminate|reflexivity].
  - intros name id M [H|[]]. injection H as <- <- <-. exists ab_body. split; [reflexivity|left; vm_compute; reflexivity].
Qed.
Lemma ab_exact : pattern_exact ab_C ab_pat.
Proof.
  split; [vm_compute; intuition discriminate|]. split; [vm_compute; tauto|]. exists 10, 10. eexists. split; [vm_compute; reflexivity|]. split; [vm_compute; reflexivity|].
  intros i j Hi Hj. cbn [length] in *. destruct i as [|[|i]], j as [|[|j]]; try lia; vm_compute; (reflexivity || discriminate).
Qed.
Lemma ab_pats : pats_sound ab_rules patL ab_C.
Proof.
  intros name id e p t HR HI H. unfold ab_rules, rules_of in HR. cbn [rules_from] in HR. destruct (list_eq_dec N.eq_dec [83%N] name); [|discriminate]. injection HR as <- <-.
  cbn in HI. destruct HI as [HI|[HI|[HI|[]]]]; try discriminate. injection HI as <-. apply (pattern_exact_lang ab_C ab_pat ab_exact t). exact H.
Qed.
Lemma ab_fit : numbers_fit ab_rules.
Proof. intros name id e HR. unfold ab_rules, rules_of in HR. cbn [rules_from] in HR. destruct (list_eq_dec N.eq_dec [83%N] name); [|discriminate]. injection HR as <- <-. lia. Qed.
Lemma ab_env u pad old : (forall c, In c (u ++ 0%N :: pad) -> (c < 256)%N) -> (forall c, In c u -> c <> 0%N) -> (N.of_nat (length (u ++ 0%N :: pad)) < 2 ^ 48)%N -> (forall k, length (old k) = 8) ->
  parser_env ab_C (at1000 (u ++ 0%N :: pad) old) 1000 u pad 8.
Proof.
  intros H1 H2 H3 H4. split; cbn [at1000 page_words page_addr stale c_buf ab_C]; [apply ab_gen| |lia|exact H2|lia|reflexivity|reflexivity| |exact H4].
  - apply (only_text 1000); [exact H1|]. change (2 ^ 48)%N with 281474976710656%N in H3. change (2 ^ 64)%N with 18446744073709551616%N. lia.
  - intros k. change (2 ^ 64)%N with 18446744073709551616%N. pose proof (N.mod_lt (N.of_nat k) 4 ltac:(lia)). lia.
Qed.
(** The hypotheses of C18, C25 and C26 hold: the text aab; the parser returns the address behind it. *)
Definition aab : list N := [97; 97; 98]%N.
Definition zeros : nat -> list N := fun _ => repeat 0%N 8.
Definition aab_page : list N := Eval vm_compute in match write_accept 8 8 zeros [start_word 1 0; start_word 1 1; start_word 1 2; end_word 1 3; end_word 1 3; end_word 1 3] with Ok [x] => x | _ => [] end.
Example C18_hyp : parser_env ab_C (at1000 (aab ++ [0%N]) zeros) 1000 aab [] 8 /\ linked ab_C /\ nets_of ab_rules ab_C /\ pats_sound ab_rules patL ab_C /\ numbers_fit ab_rules /\
  ab_rules [83%N] <> None /\ returned ab_C [83%N] (at1000 (aab ++ [0%N]) zeros) 1000 1003 [aab_page] /\
  bank_content aab_page = stream (Node 1 0 3 [Node 1 1 3 [Node 1 2 3 []]]).
Proof.
  assert (HE : parser_env ab_C (at1000 (aab ++ [0%N]) zeros) 1000 aab [] 8) by (apply ab_env; [intros c Hc; cbn in Hc; lia|intros c Hc; cbn in Hc; lia|reflexivity|reflexivity]).
  split; [exact HE|]. split; [apply ab_linked|]. split; [apply ab_nets|]. split; [apply ab_pats|]. split; [apply ab_fit|]. split; [discriminate|]. split; [|vm_compute; reflexivity].
  apply (returned_iff ab_C [83%N] _ _ _ _ _ 0 HE eq_refl ab_linked). exists 40. vm_compute. split; reflexivity.
Qed.
(** ** C33: rejected inputs *)
Lemma ab_words w : gselL term (fun x => [x]) ab_body w -> w = [TLit [97%N]; TRule [83%N]] \/ w = [TPat ab_pat].
Proof.
  cbn. intros [(x & y & -> & -> & x2 & y2 & -> & -> & ->)|(x & y & -> & -> & ->)]; [left|right]; reflexivity.
Qed.
Lemma ab_pat_text t : patL ab_pat t -> t = [98%N].
Proof. cbn. intros (x & y & -> & -> & (c & -> & E)). cbn in E. rewrite E. reflexivity. Qed.
Lemma slice_nth u p q i c : nth_error (slice u p q) i = Some c -> nth_error u (p + i) = Some c.
Proof.
  unfold slice. intros H. assert (L : i < q - p). { assert (i < length (firstn (q - p) (skipn p u))) by (apply nth_error_Some; congruence). rewrite firstn_length in *. lia. }
  revert H. generalize (q - p) as k, L. intros k L'. intros H. assert (H2 : nth_error (skipn p u) i = Some c).
  { rewrite <- (firstn_skipn k (skipn p u)). rewrite nth_error_app1; [exact H|]. apply nth_error_Some. congruence. }
  clear - H2. revert p H2. induction u as [|x u IH]; intros [|p] H2; cbn in *; try assumption; [destruct i; discriminate|]. apply IH. exact H2.
Qed.
(** A text of this grammar contains a b. *)
Lemma ab_has_b u : forall name p q t, derives ab_rules patL u name p q t -> In 98%N u.
Proof.
  assert (G : (forall name p q t, derives ab_rules patL u name p q t -> In 98%N u) /\ (forall w p q ch, matched ab_rules patL u w p q ch -> (In (TRule [83%N]) w \/ In (TPat ab_pat) w) -> In 98%N u)).
  { apply (parse_ind ab_rules patL u (fun _ _ _ _ _ => In 98%N u) (fun w _ _ _ _ => (In (TRule [83%N]) w \/ In (TPat ab_pat) w) -> In 98%N u)).
    - intros name id e w p q ch HR HG HM IH. apply IH. unfold ab_rules, rules_of in HR. cbn [rules_from] in HR. destruct (list_eq_dec N.eq_dec [83%N] name); [|discriminate]. injection HR as <- <-.
      destruct (ab_words w HG) as [->| ->]; cbn; auto.
    - intros p _ [[]|[]].
    - auto.
    - intros s w p b m q ch _ _ _ _ _ IH [[H|H]|[H|H]]; try discriminate; auto.
    - intros x w p b m q ch _ _ _ HP _ IH [[H|H]|[H|H]]; try discriminate; auto. injection H as ->. apply ab_pat_text in HP.
      assert (N0 : nth_error (slice u b m) 0 = Some 98%N) by (rewrite HP; reflexivity). apply slice_nth in N0. eapply nth_error_In. exact N0. }
  exact (proj1 G).
Qed.
(** Context::parse (Context.hpp:90-126) runs the parser, the workers and the last stage; the parser's
    return value (Stage1Runner.hpp: thread_runner_impl drops it) has no influence.  What a parse computes: *)
Definition parse_value f (v : N) (bs : list (list N)) := reduction f (Some 0%Z) bs.
(** The input aac has no derivation; the parser returns 0; but when its page holds what the earlier
    parse of aab left there, the parse computes what the parse of aab computed, for every callback. *)
Theorem C33_rejected_input_refuted : exists u e bs,
  parser_env ab_C e 1000 u [] 8 /\ (forall name n t, ~ derives ab_rules patL u name 0 n t) /\ returned ab_C [83%N] e 1000 0 bs /\
  (exists v, returned ab_C [83%N] (at1000 (aab ++ [0%N]) zeros) 1000 v [stale e 0] /\ v <> 0%N /\ forall f, parse_value f 0 bs = parse_value f v [stale e 0]) /\
  parse_value (fun id s en vs => (en - s)%N) 0 bs = Ok (3%N, [[mkCall 1 2 3 []; mkCall 1 1 3 [1]; mkCall 1 0 3 [2]]], [])%N.
Proof.
  pose (u := [97; 97; 99]%N). pose (e := at1000 (u ++ [0%N]) (fun _ => aab_page)). exists u, e, [aab_page].
  assert (HE : parser_env ab_C e 1000 u [] 8) by (apply ab_env; [intros c Hc; cbn in Hc; lia|intros c Hc; cbn in Hc; lia|reflexivity|reflexivity]).
  split; [exact HE|]. split; [intros name n t D; apply ab_has_b in D; cbn in D; intuition discriminate|]. split.
  - apply (returned_iff ab_C [83%N] _ _ _ _ _ 0 HE eq_refl ab_linked). exists 40. vm_compute. split; reflexivity.
  - split; [|vm_compute; reflexivity]. exists 1003%N. split; [apply C18_hyp|]. split; [discriminate|]. intros f. reflexivity.
Qed.
Print Assumptions C33_rejected_input_refuted.
(** Every rejection: no marker ends the page, so the words behind it, whatever they are, are read as
    markers; on fresh (zero) pages the reduction sees an unfinished stream. *)
(** Text behind what the root rule matches is ignored: the input b!, which has no derivation as a whole, is accepted. *)
Theorem C33_trailing_text_refuted : exists u e v bs, parser_env ab_C e 1000 u [] 8 /\ (forall t, ~ derives ab_rules patL u [83%N] 0 (length u) t) /\ v <> 0%N /\ v <> (1000 + N.of_nat (length u))%N /\ returned ab_C [83%N] e 1000 v bs.
Proof.
  pose (u := [98; 33]%N). pose (e := at1000 (u ++ [0%N]) zeros). exists u, e, 1001%N. eexists.
  assert (HE : parser_env ab_C e 1000 u [] 8) by (apply ab_env; [intros c Hc; cbn in Hc; lia|intros c Hc; cbn in Hc; lia|reflexivity|reflexivity]).
  split; [exact HE|]. split; [|split; [discriminate|split; [discriminate|apply (returned_iff ab_C [83%N] _ _ _ _ _ 0 HE eq_refl ab_linked); exists 40; vm_compute; split; reflexivity]]].
  assert (G : (forall name p q t, derives ab_rules patL u name p q t -> q = 2 -> p = 2) /\ (forall w p q ch, matched ab_rules patL u w p q ch -> (forall s, In (TLit s) w -> s = [97%N]) -> (forall x, In (TPat x) w -> x = ab_pat) -> q = 2 -> p = 2)).
  { apply (parse_ind ab_rules patL u (fun _ p q _ _ => q = 2 -> p = 2) (fun w p q _ _ => (forall s, In (TLit s) w -> s = [97%N]) -> (forall x, In (TPat x) w -> x = ab_pat) -> q = 2 -> p = 2)).
    - intros name id e0 w p q ch HR HG HM IH. apply IH; unfold ab_rules, rules_of in HR; cbn [rules_from] in HR; (destruct (list_eq_dec N.eq_dec [83%N] name); [|discriminate]); injection HR as <- <-; destruct (ab_words w HG) as [->| ->]; cbn; intros x [H|[H|[]]] || intros x [H|[]]; congruence.
    - auto.
    - intros name w p m q t ch _ IH1 _ IH2 H1 H2 E. apply IH1, IH2; [intros s Hs; apply H1; right; exact Hs|intros x Hx; apply H2; right; exact Hx|exact E].
    - intros s w p b m q ch HS1 HS2 HS3 HS4 _ IH H1 H2 E. exfalso. assert (M2 : m = 2) by (apply IH; [intros s' Hs; apply H1; right; exact Hs|intros x Hx; apply H2; right; exact Hx|exact E]).
      rewrite (H1 s (or_introl eq_refl)) in HS4. subst m. destruct HS3 as [HS3 _]. destruct b as [|[|[|b]]]; [discriminate HS4|discriminate HS4|discriminate HS4|lia].
    - intros x w p b m q ch HS1 HS2 HS3 HS4 _ IH H1 H2 E. exfalso. assert (M2 : m = 2) by (apply IH; [intros s' Hs; apply H1; right; exact Hs|intros y Hy; apply H2; right; exact Hy|exact E]).
      rewrite (H2 x (or_introl eq_refl)) in HS4. apply ab_pat_text in HS4. subst m. destruct HS3 as [HS3 _]. destruct b as [|[|[|b]]]; [discriminate HS4|discriminate HS4|discriminate HS4|lia]. }
  intros t D. apply (proj1 G) in D; [discriminate|reflexivity].
Qed.
Print Assumptions C33_trailing_text_refuted.
(** An input no prefix of which the root rule derives is never accepted: the return value, which
    Context::parse ignores, is 0. *)
Theorem C33_underivable_partial : forall rules matches C root e a u pad B v bs,
  parser_env C e a u pad B -> linked C -> nets_of rules C -> pats_sound rules matches C -> numbers_fit rules -> (N.of_nat (length u) < 2 ^ 48)%N ->
  rules root <> None -> (forall n t, ~ derives rules matches u root 0 n t) -> returned C root e a v bs -> v = 0%N.
Proof.
  intros rules matches C root e a u pad B v bs HE HK HN HP HF HU HR HX HV. destruct (N.eq_dec v 0) as [E|NE]; [exact E|]. exfalso.
  destruct (C18_marker_stream rules matches C root e a u pad B v bs HE HK HN HP HF HU HR HV NE) as (n & t & _ & _ & D & _). exact (HX n t D).
Qed.
Print Assumptions C33_underivable_partial.

(** ** C26: texts of 2^31 characters; S : /a*/ ; *)
Definition as_pat : pat := PSnoc PNil (SOne (UAtom (AChar 97)) (QStar false)).
Definition as_body : gsel := GFirst (GCons (GTerm (TPat as_pat)) GOne GNil).
Definition as_net : atn := Eval vm_compute in build_body true as_body.
Definition as_dfa : dfa := Eval vm_compute in match dfa_build 10 10 (build_pat as_pat) with Some D => D | None => [] end.
Definition as_C : compiled := mkC [([83%N], (1%N, as_net))] (fun _ => as_dfa) (fun _ _ => []) (fun _ _ _ => 0%N) 64.
Definition as_rules := rules_of [([83%N], as_body)].
(** n times a at address 1000, then a NUL. *)
Definition as_env (n : N) : env :=
  mkE (fun x => if (x <? 1000)%N then None else if (x <? 1000 + n)%N then Some 97%N else if (x =? 1000 + n)%N then Some 0%N else None) 5 8 zeros (fun k => (4096 + 64 * (N.of_nat k mod 4))%N) (fun _ _ => 77%N).
Lemma as_gen npad : gen_ok as_C npad.
Proof.
  assert (NETS : forall name id M, In (name, (id, M)) (c_nets as_C) -> M = as_net) by (intros name id M [H|[]]; congruence).
  split.
  - intros name id M H. rewrite (NETS _ _ _ H). discriminate.
  - intros name id M n t H Hn Ht. rewrite (NETS _ _ _ H) in *. assert (F : forallb (fun n => forallb (fun t => fst t <? length as_net) (atrs n)) as_net = true) by reflexivity.
    rewrite forallb_forall in F. specialize (F n Hn). rewrite forallb_forall in F. specialize (F t Ht). lia.
  - intros name id M n s H Hn E. rewrite (NETS _ _ _ H) in *. assert (F : forallb (fun n => match nt n with NLit s => false | _ => true end) as_net = true) by reflexivity.
    rewrite forallb_forall in F. specialize (F n Hn). rewrite E in F. discriminate.
  - intros name id M n A H Hn E. split.
    + split; [discriminate| |].
      * intros q t. destruct q as [|[|q]]; cbn; try tauto. intros [<-|[]]. cbn. split; [lia|]. split; [|reflexivity]. intros r [<-|[]]; cbn; lia.
      * intros q. destruct q as [|[|q]]; discriminate.
    + intros [q [E2 _]]. destruct q as [|[|q]]; discriminate.
  - intros m name id M i H Hi Hl. destruct m as [|m]; [|destruct m; discriminate]. injection H as <- <- <-. cbn [as_net length] in Hi.
    do 6 (destruct i as [|i]; [cbn in Hl; lia|]); lia.
Qed.
Lemma as_linked : linked as_C.
Proof.
  split.
  - intros name id M n x [H|[]] Hn E. injection H as <- <- <-. assert (F : forallb (fun n => match nt n with NInv s => false | _ => true end) as_net = true) by reflexivity.
    rewrite forallb_forall in F. specialize (F n Hn). rewrite E in F. discriminate.
  - intros m i q cc d. destruct q; cbn; tauto.
Qed.
Lemma nth_error_repeat' (c : N) n i x : nth_error (repeat c n) i = Some x -> x = c /\ i < n.
Proof. intros H. split; [apply (repeat_spec n c); eapply nth_error_In; exact H|]. assert (i < length (repeat c n)) by (apply nth_error_Some; congruence). rewrite repeat_length in *. assumption. Qed.
Lemma as_at n : (n < 2 ^ 48)%N -> parser_env as_C (as_env n) 1000 (repeat 97%N (N.to_nat n)) [] 8.
Proof.
  intros HN. change (2 ^ 48)%N with 281474976710656%N in HN. split; cbn [as_env page_words page_addr stale c_buf as_C]; [apply as_gen| |lia| |lia|reflexivity|reflexivity| |reflexivity].
  - split; [|split].
    + intros i c H. cbn [mem as_env]. destruct (Nat.lt_ge_cases i (N.to_nat n)) as [L|L].
      * rewrite nth_error_app1 in H by (rewrite repeat_length; exact L). apply nth_error_repeat' in H as [-> _]. replace (1000 + N.of_nat i <? 1000)%N with false by lia. replace (1000 + N.of_nat i <? 1000 + n)%N with true by lia. reflexivity.
      * rewrite nth_error_app2 in H by (rewrite repeat_length; exact L). rewrite repeat_length in H. destruct (i - N.to_nat n) as [|j] eqn:E; [|destruct j; discriminate]. injection H as <-.
        replace (1000 + N.of_nat i <? 1000)%N with false by lia. replace (1000 + N.of_nat i <? 1000 + n)%N with false by lia. replace (1000 + N.of_nat i =? 1000 + n)%N with true by lia. reflexivity.
    + intros c H. apply in_app_or in H as [H|[<-|[]]]; [apply repeat_spec in H; lia|lia].
    + rewrite app_length, repeat_length. cbn [length]. change (2 ^ 64)%N with 18446744073709551616%N. lia.
  - intros c H. apply repeat_spec in H. lia.
  - intros k. change (2 ^ 64)%N with 18446744073709551616%N. pose proof (N.mod_lt (N.of_nat k) 4 ltac:(lia)). lia.
Qed.
Lemma as_longest n : longest as_dfa 0 (repeat 97%N n) = Some n.
Proof. induction n as [|n IH]; [reflexivity|]. cbn [repeat longest]. change (first_tr (dtrs (nth 0 as_dfa dnil)) 97) with (Some 0). cbn [option_map]. rewrite IH. reflexivity. Qed.
Lemma as_run n : run_machine as_C (repeat 97%N n) 10 0 0 = POk n [start_word 1 0; end_word 1 (N.of_nat n)].
Proof.
  unfold run_machine. change (fst (net_of as_C 0)) with 1%N.
  assert (W : ws_len (repeat 97%N n) = 0) by (destruct n; reflexivity).
  assert (ST : forall f i n1 n2, atrs (node_of as_C 0 i) = [(S i, 0)] -> (forall x, nt (node_of as_C 0 i) <> NInv x) -> term_step as_C (repeat 97%N n) n1 (nt (node_of as_C 0 i)) = Some n2 -> run_node as_C (repeat 97%N n) (S f) 0 i n1 = run_node as_C (repeat 97%N n) f 0 (S i) n2).
  { intros f i n1 n2 H1 H2 H3. rewrite run_node_S. unfold next_res. rewrite H1. destruct (nt (node_of as_C 0 i)) as [|x| | |] eqn:E; rewrite ?H3; try reflexivity. destruct (H2 x eq_refl). }
  rewrite (ST 9 0 0 0) by (reflexivity || discriminate). rewrite (ST 8 1 0 0) by (reflexivity || discriminate). rewrite (ST 7 2 0 0) by (reflexivity || discriminate).
  rewrite (ST 6 3 0 0) by (reflexivity || discriminate || (cbn [node_of]; change (nt (node_of as_C 0 3)) with NWs; cbn [term_step skipn]; rewrite W; reflexivity)).
  rewrite (ST 5 4 0 n); [| reflexivity|discriminate|].
  - rewrite run_node_S. reflexivity.
  - match goal with |- term_step _ _ _ ?t = _ => let t' := eval vm_compute in t in change t with t' end. cbn [term_step skipn]. change (c_dfa as_C) with (fun _ : nfa => as_dfa). cbv beta. rewrite as_longest. reflexivity.
Qed.
(** The input of n times a is accepted; the only node is the whole input. *)
Lemma as_parse n : (n < 2 ^ 47)%N -> exists bs, parser_env as_C (as_env n) 1000 (repeat 97%N (N.to_nat n)) [] 8 /\ linked as_C /\ nets_of as_rules as_C /\ returned as_C [83%N] (as_env n) 1000 (1000 + n) bs /\
  List.concat (map bank_content bs) = stream (Node 1 0 n []).
Proof.
  intros Hn. change (2 ^ 47)%N with 140737488355328%N in Hn.
  assert (HE : parser_env as_C (as_env n) 1000 (repeat 97%N (N.to_nat n)) [] 8) by (apply as_at; change (2 ^ 48)%N with 281474976710656%N; lia).
  pose proof (write_accept_correct 8 (stale (as_env n)) (pe_page _ _ _ _ _ _ HE) (pe_stale _ _ _ _ _ _ HE) (stream (Node 1 0 n []))) as W.
  destruct W as (bs & W1 & W2 & _). { apply stream_nonzero. cbn. repeat split; lia. }
  exists bs. split; [exact HE|]. split; [apply as_linked|]. split.
  { split.
    - intros name. unfold as_rules, rules_of. cbn [c_nets as_C net_index rules_from fst]. destruct (list_eq_dec N.eq_dec [83%N] name) as [<-|NE]; [discriminate|reflexivity].
    - intros name id M [H|[]]. injection H as <- <- <-. exists as_body. split; [reflexivity|left; vm_compute; reflexivity]. }
  split; [|exact W2]. apply (returned_iff as_C [83%N] _ _ _ _ _ 0 HE eq_refl as_linked). exists 10. rewrite as_run, N2Nat.id. split; [reflexivity|]. exact W1.
Qed.
(** With 2^31 times a its read() throws. *)
Theorem C26_long_text_refuted : exists u e v bs,
  parser_env as_C e 1000 u [] 8 /\ linked as_C /\ nets_of as_rules as_C /\ returned as_C [83%N] e 1000 v bs /\ v = (1000 + N.of_nat (length u))%N /\
  (N.of_nat (length u) < 2 ^ 48)%N /\ List.concat (map bank_content bs) = stream (Node 1 0 (N.of_nat (length u)) []) /\ sym_read (mem e) 1000 0 (N.of_nat (length u)) = ReadThrows.
Proof.
  pose (n := (2 ^ 31)%N). destruct (as_parse n ltac:(reflexivity)) as (bs & H1 & H2 & H3 & H4 & H5). exists (repeat 97%N (N.to_nat n)), (as_env n), (1000 + n)%N, bs.
  rewrite repeat_length, N2Nat.id. do 4 (split; [assumption|]). split; [reflexivity|]. split; [reflexivity|]. split; [exact H5|]. vm_compute. reflexivity.
Qed.
Print Assumptions C26_long_text_refuted.
(** With 2^32 + 1 times a its read() answers a single a, without an exception. *)
Theorem C26_cut_text_refuted : exists u e v bs,
  parser_env as_C e 1000 u [] 8 /\ linked as_C /\ nets_of as_rules as_C /\ returned as_C [83%N] e 1000 v bs /\ v = (1000 + N.of_nat (length u))%N /\
  N.of_nat (length u) = (2 ^ 32 + 1)%N /\ List.concat (map bank_content bs) = stream (Node 1 0 (N.of_nat (length u)) []) /\ sym_read (mem e) 1000 0 (N.of_nat (length u)) = ReadOk [97%N].
Proof.
  pose (n := (2 ^ 32 + 1)%N). destruct (as_parse n ltac:(reflexivity)) as (bs & H1 & H2 & H3 & H4 & H5). exists (repeat 97%N (N.to_nat n)), (as_env n), (1000 + n)%N, bs.
  rewrite repeat_length, N2Nat.id. do 4 (split; [assumption|]). split; [reflexivity|]. split; [reflexivity|]. split; [exact H5|]. vm_compute. reflexivity.
Qed.
Print Assumptions C26_cut_text_refuted.

(** ** C41: termination *)
(** Without left recursion and without repetition of something empty the parser returns, on every input. *)
Theorem C41_terminates_partial : forall C root e a u pad B, parser_env C e a u pad B -> linked C -> (exists m, net_index (c_nets C) root = Some m) ->
  no_endless_walk C -> exists v bs, returned C root e a v bs.
Proof.
  intros C root e a u pad B HE HK [m HM] HW.
  assert (HL : forall k i, 2 <= length (atrs (node_of C k i)) -> lcodable (c_look C k i) (length (atrs (node_of C k i)))).
  { intros k i H2. destruct (Nat.lt_ge_cases k (length (c_nets C))) as [L|L].
    - pose proof (nth_error_nth' (c_nets C) ([], (0%N, [])) L) as E. unfold node_of, net_of in *. destruct (nth k (c_nets C) ([], (0%N, []))) as [name [id M]]. cbn [snd] in *.
      destruct (Nat.lt_ge_cases i (length M)) as [Li|Li]; [exact (ok_look _ _ (pe_gen _ _ _ _ _ _ HE) k name id M i E Li H2)|rewrite nth_overflow in H2 by exact Li; cbn in H2; lia].
    - unfold node_of, net_of in H2. rewrite (nth_overflow (c_nets C)) in H2 by exact L. cbn [snd] in H2. rewrite nth_overflow in H2 by (cbn; lia). cbn in H2. lia. }
  destruct (terminates C u HL HW m 0 0 ltac:(lia)) as [f Hf]. pose proof (machine_no_wild C root e a u pad B m HE HM HK f) as NW. unfold run_machine in NW.
  destruct (run_node C u f m 0 0) as [n ws|ws| |] eqn:E; cbn [pre] in NW; try congruence.
  - exists (a + N.of_nat n)%N. pose proof (parser_run C root e a u pad B (pe_gen _ _ _ _ _ _ HE) (pe_text _ _ _ _ _ _ HE) (pe_addr _ _ _ _ _ _ HE) (pe_nul _ _ _ _ _ _ HE) (pe_page _ _ _ _ _ _ HE) (pe_words _ _ _ _ _ _ HE) (pe_buf _ _ _ _ _ _ HE) (pe_fit _ _ _ _ _ _ HE)) as RUN.
    specialize (RUN (fun x => match x with RDI => ctx e | RSI => a | RDX => page_addr e 0 | _ => 0%N end) [] [] [] [] m HM eq_refl eq_refl eq_refl f). unfold run_machine in RUN. rewrite E in RUN. cbn [pre] in RUN.
    destruct RUN as (s' & S' & PC' & RA' & W & _). exists (banks s'). exists (fun x => match x with RDI => ctx e | RSI => a | RDX => page_addr e 0 | _ => 0%N end), [], [], [], [], s'. repeat split; assumption.
  - exists 0%N. pose proof (parser_run C root e a u pad B (pe_gen _ _ _ _ _ _ HE) (pe_text _ _ _ _ _ _ HE) (pe_addr _ _ _ _ _ _ HE) (pe_nul _ _ _ _ _ _ HE) (pe_page _ _ _ _ _ _ HE) (pe_words _ _ _ _ _ _ HE) (pe_buf _ _ _ _ _ _ HE) (pe_fit _ _ _ _ _ _ HE)) as RUN.
    specialize (RUN (fun x => match x with RDI => ctx e | RSI => a | RDX => page_addr e 0 | _ => 0%N end) [] [] [] [] m HM eq_refl eq_refl eq_refl f). unfold run_machine in RUN. rewrite E in RUN. cbn [pre] in RUN.
    destruct RUN as (s' & S' & PC' & RA' & W & _). exists (banks s'). exists (fun x => match x with RDI => ctx e | RSI => a | RDX => page_addr e 0 | _ => 0%N end), [], [], [], [], s'. repeat split; assumption.
Qed.
Print Assumptions C41_terminates_partial.
Lemma ab_far m i : 1 <= m \/ 10 <= i -> node_of ab_C m i = blank.
Proof.
  intros [H|H]; unfold node_of, net_of.
  - rewrite (nth_overflow (c_nets ab_C)) by (cbn; lia). cbn [snd]. apply nth_overflow. cbn. lia.
  - destruct m as [|m]; [apply nth_overflow; cbn; lia|]. rewrite (nth_overflow (c_nets ab_C)) by (cbn; lia). apply nth_overflow. cbn. lia.
Qed.
(** The grammar S : 'a' S | /b/ has no endless walk. *)
Example C41_hyp : no_endless_walk ab_C.
Proof.
  assert (G : (forall m i, silent ab_C m i -> 1 <= m \/ 9 <= i) /\ (forall m i, passes ab_C m i -> 1 <= m \/ (i <> 4 /\ i <> 5 /\ i <> 8))).
  { apply (silent_passes_ind ab_C (fun m i _ => 1 <= m \/ 9 <= i) (fun m i _ => 1 <= m \/ (i <> 4 /\ i <> 5 /\ i <> 8))).
    - intros m i E _ _. destruct m as [|m]; [|left; lia]. right. do 9 (destruct i as [|i]; [discriminate E|]). lia.
    - intros m i t Ht _ IH1 _ IH2. destruct m as [|m]; [|left; lia]. right. destruct IH2 as [?|IH2]; [lia|]. destruct IH1 as [?|IH1]; [lia|].
      do 9 (destruct i as [|i]; [first [cbn in Ht; repeat (destruct Ht as [<-|Ht]; [cbn in IH2; lia|]); destruct Ht]|]). lia.
    - intros m i E. destruct m as [|m]; [|left; lia]. right. do 9 (destruct i as [|i]; [first [lia|exfalso; cbn in E; discriminate E|exfalso; exact E]|]). lia.
    - intros m i x m' E EI _ IH. exfalso. destruct m as [|m]; [|rewrite ab_far in E by lia; discriminate]. do 10 (destruct i as [|i]; [first [discriminate E|injection E as <-; injection EI as <-; lia]|]). rewrite ab_far in E by lia. discriminate. }
  destruct G as [_ GP].
  pose (rk := fun c : nat * nat => match c with (0, i) => nth i [20; 19; 18; 17; 16; 25; 12; 11; 10; 3] 0 | _ => 0 end).
  assert (DEC : forall c d, walk ab_C c d -> rk d < rk c).
  { intros c d H. destruct H as [m i t HP Ht|m i x m' E EI].
    - destruct m as [|m]; [|rewrite ab_far in Ht by lia; destruct Ht]. apply GP in HP. do 10 (destruct i as [|i]; [first [lia|cbn in Ht; repeat (destruct Ht as [<-|Ht]; [cbn; lia|]); destruct Ht]|]). rewrite ab_far in Ht by lia. destruct Ht.
    - destruct m as [|m]; [|rewrite ab_far in E by lia; discriminate]. do 10 (destruct i as [|i]; [first [discriminate E|injection E as <-; injection EI as <-; cbn; lia]|]). rewrite ab_far in E by lia. discriminate. }
  intros c. remember (rk c) as r eqn:ER. revert c ER. induction r as [r IH] using (well_founded_induction lt_wf). intros c ->. constructor. intros d Hd. exact (IH (rk d) (DEC _ _ Hd) d eq_refl).
Qed.
(** ** Left recursion: S : S 'a' ; *)
Definition lr_body : gsel := GFirst (GCons (GTerm (TRule [83%N])) GOne (GCons (GTerm (TLit [97%N])) GOne GNil)).
Definition lr_net : atn := Eval vm_compute in build_body true lr_body.
Definition lr_C : compiled := mkC [([83%N], (1%N, lr_net))] (fun _ => []) (fun _ _ => []) (fun _ _ _ => 0%N) 64.
Lemma lr_gen npad : gen_ok lr_C npad.
Proof.
  assert (NETS : forall name id M, In (name, (id, M)) (c_nets lr_C) -> M = lr_net) by (intros name id M [H|[]]; congruence).
  split.
  - intros name id M H. rewrite (NETS _ _ _ H). discriminate.
  - intros name id M n t H Hn Ht. rewrite (NETS _ _ _ H) in *. assert (F : forallb (fun n => forallb (fun t => fst t <? length lr_net) (atrs n)) lr_net = true) by reflexivity.
    rewrite forallb_forall in F. specialize (F n Hn). rewrite forallb_forall in F. specialize (F t Ht). lia.
  - intros name id M n s H Hn E. rewrite (NETS _ _ _ H) in *. assert (F : forallb (fun n => match nt n with NLit s => eqname s [97%N] | _ => true end) lr_net = true) by reflexivity.
    rewrite forallb_forall in F. specialize (F n Hn). rewrite E in F. apply eqname_spec in F as ->. split; [intros c [<-|[]]; split; [discriminate|reflexivity]|cbn [length]; lia].
  - intros name id M n A H Hn E. rewrite (NETS _ _ _ H) in *. assert (F : forallb (fun n => match nt n with NReg s => false | _ => true end) lr_net = true) by reflexivity.
    rewrite forallb_forall in F. specialize (F n Hn). rewrite E in F. discriminate.
  - intros m name id M i H Hi Hl. destruct m as [|m]; [|destruct m; discriminate]. injection H as <- <- <-. cbn [lr_net length] in Hi.
    do 7 (destruct i as [|i]; [cbn in Hl; lia|]); lia.
Qed.
(** Whatever the input, the parser of this grammar never returns, though it never leaves its code or memory either: it writes markers for ever. *)
Theorem C41_left_recursion_refuted : rules_of [([83%N], lr_body)] [83%N] <> None /\ nets_of (rules_of [([83%N], lr_body)]) lr_C /\ linked lr_C /\
  forall e a u pad B, parser_env lr_C e a u pad B -> forall v bs, ~ returned lr_C [83%N] e a v bs.
Proof.
  assert (LK : linked lr_C).
  { split.
    - intros name id M n x [H|[]] Hn E. injection H as <- <- <-. assert (F : forallb (fun n => match nt n with NInv s => eqname s [83%N] | _ => true end) lr_net = true) by reflexivity.
      rewrite forallb_forall in F. specialize (F n Hn). rewrite E in F. apply eqname_spec in F as ->. exists 0. reflexivity.
    - intros m i q cc d. destruct q; cbn; tauto. }
  split; [discriminate|]. split.
  { split.
    - intros name. unfold rules_of. cbn [c_nets lr_C net_index rules_from fst]. destruct (list_eq_dec N.eq_dec [83%N] name) as [<-|NE]; [discriminate|reflexivity].
    - intros name id M [H|[]]. injection H as <- <- <-. exists lr_body. split; [reflexivity|left; vm_compute; reflexivity]. }
  split; [exact LK|]. intros e a u pad B HE v bs H. apply (returned_iff lr_C [83%N] _ _ _ _ _ 0 HE eq_refl LK) in H as [f H].
  assert (R : forall f i n, i <= 3 -> run_node lr_C u f 0 i n = PFuel).
  { clear. induction f as [|f IH]; intros i n Hi; [reflexivity|]. rewrite run_node_S. destruct i as [|[|[|[|i]]]]; [| | | |lia].
    1,2,3: cbn [node_of net_of c_nets lr_C lr_net nth snd nt term_step]; unfold next_res; cbn [node_of net_of c_nets lr_C lr_net nth snd nt atrs fst]; apply IH; lia.
    change (nt (node_of lr_C 0 3)) with (NInv [83%N]). cbv iota beta. change (net_index (c_nets lr_C) [83%N]) with (Some 0). cbv iota beta. rewrite IH by lia. reflexivity. }
  unfold run_machine in H. rewrite R in H by lia. exact H.
Qed.
Print Assumptions C41_left_recursion_refuted.
Example C41_left_recursion_hyp : parser_env lr_C (at1000 (aab ++ [0%N]) zeros) 1000 aab [] 8.
Proof.
  destruct (proj1 C18_hyp) as [_ H2 H3 H4 H5 H6 H7 H8 H9]. split; try assumption. apply lr_gen.
Qed.
