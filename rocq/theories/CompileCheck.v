(** * Checking the hypotheses of Properties_Compile on concrete grammar files
    A function that computes the tables of a grammar and checks the conditions of [grammar_ok], and the proof that its
    yes is right.  Only used for examples; no code is modelled here. *)
From Coq Require Import List NArith ZArith Arith Bool Lia ZifyBool ZifyN ZifyNat Permutation.
From Verif Require Import CharClass CharClassSpec Stream StreamSpec NFA NFASem NFAProofs NFABuild NFAParse DFA DFAProofs DFAMin RegexSpec GrammarSpec Marker TreeSpec ParseSpec Reduction ReductionProofs Writer WriterProofs X86 X86Step CodeGen CodeGenProofs CodeGenSimd CodeGenDfa CodeGenPlain CodeGenMisc CodeGenRoutine ATN ATNSem ATNBuild ATNOpt ATNLive Grammar GrammarProofs Properties_CodeGen Properties_Grammar ParserGen ParserRun ParserSim ParserTree ParserTop Properties_Parser Properties_ParserCases
  Lookahead LookSpec LookImport LookGrammarSpec LookRead LookSim LookGrammar LookWf LookFit LookNul Properties_Look Properties_Compile GrammarCheck.
Import ListNotations.
Local Open Scope nat_scope.

(** The tables of a grammar; B words per page. *)
Section Tables.
Variables (g : gstate) (fuel B : nat).
Definition g_comp : list (list N * cmach) := match composite (g_nets g) with Some D => D | None => [] end.
Definition g_looks : list (list ldfa) :=
  map (fun x => map (fun i => if 2 <=? length (atrs (nth i (snd (snd x)) blank)) then match decision g_comp fuel fuel (fst x) i with SOk T => T | _ => [] end else []) (seq 0 (length (snd (snd x))))) (g_nets g).
Definition g_compiled (looks : list (list ldfa)) : compiled :=
  mkC (g_nets g) (fun A => match dfa_build fuel fuel A with Some D => D | None => [] end) (fun m i => nth i (nth m looks []) []) (fun _ _ _ => 0%N) (8 * N.of_nat B).
End Tables.

Definition disjr (a b : range) : bool := (re a <=? rs b)%N || (re b <=? rs a)%N.
Definition disjt (t t' : ntr) : bool := forallb (fun a => forallb (disjr a) (tlab t')) (tlab t).
Fixpoint disjb (ts : list ntr) : bool := match ts with [] => true | t :: ts => forallb (disjt t) ts && disjb ts end.
Lemma disjt_spec t t' c : disjt t t' = true -> CharClass.includes (tlab t) c = true -> CharClass.includes (tlab t') c = true -> False.
Proof.
  unfold disjt, CharClass.includes. intros H H1 H2. apply existsb_exists in H1 as (a & A1 & A2), H2 as (b & B1 & B2). rewrite forallb_forall in H. specialize (H a A1). rewrite forallb_forall in H. specialize (H b B1). unfold disjr in H. lia.
Qed.
Lemma disjb_spec ts : disjb ts = true -> disjoint_labels ts.
Proof.
  induction ts as [|t ts IH]; cbn [disjb]; [intros _ x y c []|]. intros H. apply andb_true_iff in H as [H1 H2]. rewrite forallb_forall in H1. intros x y c [<-|Hx] [<-|Hy] C1 C2; [reflexivity| | |exact (IH H2 x y c Hx Hy C1 C2)].
  - destruct (disjt_spec _ _ c (H1 y Hy) C1 C2).
  - destruct (disjt_spec _ _ c (H1 x Hx) C2 C1).
Qed.
Fixpoint nodupb (l : list nat) : bool := match l with [] => true | x :: l => negb (existsb (Nat.eqb x) l) && nodupb l end.
Lemma nodupb_spec l : nodupb l = true -> NoDup l.
Proof.
  induction l as [|x l IH]; cbn; [constructor|]. intros H. apply andb_true_iff in H as [H1 H2]. constructor; [|auto]. intros K. assert (X : existsb (Nat.eqb x) l = true) by (apply existsb_exists; exists x; split; [exact K|apply Nat.eqb_refl]). rewrite X in H1. discriminate.
Qed.
Definition properb (cc : cclass) : bool := forallb (fun r => (rs r <? re r)%N && (re r <=? 256)%N) cc.
Definition codableb (D : dfa) : bool :=
  negb (length D =? 0) && forallb (fun q => let s := nth q D dnil in
    forallb (fun t => (tdest t <? length D) && properb (tlab t) && negb (CharClass.includes (tlab t) 0)) (dtrs s) &&
    (negb (dlong s) || nodupb (map tdest (dtrs s)) && disjb (dtrs s) && forallb (fun t => negb (tdest t =? q) || (length (tlab t) <=? 8)) (dtrs s))) (seq 0 (length D)).
Lemma codableb_spec D : codableb D = true -> codable D.
Proof.
  unfold codableb. intros H. apply andb_true_iff in H as [H0 H]. rewrite forallb_forall in H.
  pose proof (fun q (Hq : q < length D) => H q (proj2 (in_seq (length D) 0 q) (conj (Nat.le_0_l q) Hq))) as K. cbn zeta in K.
  split.
  - intros ->. discriminate.
  - intros q t Ht. destruct (Nat.lt_ge_cases q (length D)) as [L|L]; [|rewrite nth_overflow in Ht by exact L; destruct Ht]. specialize (K q L). apply andb_true_iff in K as [K _]. rewrite forallb_forall in K. specialize (K t Ht).
    apply andb_true_iff in K as [K K3]. apply andb_true_iff in K as [K1 K2]. split; [lia|]. split; [|destruct (CharClass.includes (tlab t) 0); [discriminate|reflexivity]].
    unfold properb in K2. rewrite forallb_forall in K2. intros r Hr. specialize (K2 r Hr). apply andb_true_iff in K2 as [A1 A2]. apply N.ltb_lt in A1. apply N.leb_le in A2. lia.
  - intros q HQ. destruct (Nat.lt_ge_cases q (length D)) as [L|L]; [|rewrite nth_overflow in HQ by exact L; discriminate]. specialize (K q L). apply andb_true_iff in K as [_ K]. rewrite HQ in K. cbn [negb orb] in K. apply andb_true_iff in K as [K K3]. apply andb_true_iff in K as [K1 K2].
    split; [apply nodupb_spec; exact K1|]. split; [apply disjb_spec; exact K2|]. rewrite forallb_forall in K3. intros t Ht E. specialize (K3 t Ht). rewrite E, Nat.eqb_refl in K3. cbn in K3. lia.
Qed.
(** A pattern: well formed, its automaton exists and its states can be merged. *)
Definition mergeb (D : dfa) : bool := forallb (fun i => forallb (fun j => negb (trs_eqb (dtrs (nth i D dnil)) (dtrs (nth j D dnil))) || Bool.eqb (dacc (nth i D dnil)) (dacc (nth j D dnil))) (seq 0 (length D))) (seq 0 (length D)).
Definition pat_check (fuel : nat) (p : pat) : bool :=
  pat_fine p && match dfa_plain fuel fuel (build_pat p) with Some D => mergeb D | None => false end && match dfa_build fuel fuel (build_pat p) with Some D => codableb D | None => false end.
Definition term_check (fuel : nat) (names : list (list N)) (x : term) : bool :=
  match x with
  | TRule s => existsb (eqname s) names
  | TLit s => negb (length s =? 0) && forallb (fun c => (1 <=? c)%N && (c <? 255)%N) s
  | TPat p => pat_check fuel p
  end.
Definition node_check (look : ldfa) (n : anode) : bool := (length (atrs n) <? 2) || negb (length look =? 0) && match nt n with NReg _ => false | _ => true end.
Definition grammar_check (fuel : nat) (title : option (list N)) (text : list N) (ds : list (list N * gsel)) (g : gstate) (looks : list (list ldfa)) : bool :=
  check_file title ds text && (1 <=? length ds) && (length ds <? 1000) &&
  forallb (fun d => forallb (term_check fuel (map fst ds)) (gsel_terms (snd d))) ds &&
  match composite (g_nets g) with Some _ => true | None => false end &&
  forallb (fun m => forallb (fun i => node_check (nth i (nth m looks []) []) (nth i (snd (snd (nth m (g_nets g) ([], (0%N, []))))) blank)) (seq 0 (length (snd (snd (nth m (g_nets g) ([], (0%N, [])))))))) (seq 0 (length (g_nets g))).

Lemma fine_nodot : (forall u, unit_fine u = true -> unit_nodot u) /\ (forall s, sel_fine s = true -> sel_nodot s) /\ (forall p, pat_fine p = true -> pat_nodot p).
Proof.
  apply regex_ind; cbn [unit_fine sel_fine pat_fine unit_nodot sel_nodot pat_nodot]; auto.
  - intros a H ->. discriminate.
  - intros u IH q H. apply andb_true_iff in H as [H1 H2]. auto.
  - intros s IHs u IH q H. apply andb_true_iff in H as [H H2]. apply andb_true_iff in H as [H0 H1]. auto.
  - intros p IHp s IHs H. apply andb_true_iff in H as [H0 H1]. auto.
Qed.
Section Check.
Variables (fuel B : nat) (title : option (list N)) (text : list N) (fs : list N -> list N) (file : list N) (ds : list (list N * gsel)) (g : gstate) (mid : N) (looks : list (list ldfa)).
Hypothesis HT : deliver (fs file) = text.
Hypothesis HR : read_grammar fuel fs file = SOk (mid, g).
Hypothesis HK : looks = g_looks g fuel.
Hypothesis HC : grammar_check fuel title text ds g looks = true.
Notation C := (g_compiled g fuel B looks).
Lemma check_parts : check_file title ds text = true /\ 1 <= length ds < 1000 /\ (forall name b x, In (name, b) ds -> In x (gsel_terms b) -> term_check fuel (map fst ds) x = true) /\ composite (g_nets g) = Some (g_comp g) /\
  (forall m name id M i, nth_error (g_nets g) m = Some (name, (id, M)) -> i < length M -> node_check (c_look C m i) (nth i M blank) = true).
Proof.
  unfold grammar_check in HC. repeat (apply andb_true_iff in HC as [HC ?H]). split; [exact HC|]. split; [lia|]. split; [|split].
  - intros name b x Hd Hx. rewrite forallb_forall in H1. specialize (H1 _ Hd). cbn [snd] in H1. rewrite forallb_forall in H1. exact (H1 x Hx).
  - unfold g_comp. destruct (composite (g_nets g)); [reflexivity|discriminate].
  - intros m name id M i E Hi. rewrite forallb_forall in H. assert (L : m < length (g_nets g)) by (apply nth_error_Some; congruence). specialize (H m ltac:(apply in_seq; lia)).
    rewrite (nth_error_nth _ _ ([], (0%N, [])) E) in H. cbn [snd] in H. rewrite forallb_forall in H. exact (H i ltac:(apply in_seq; lia)).
Qed.
Lemma look_entry m i : c_look C m i = [] \/ exists name id M, nth_error (g_nets g) m = Some (name, (id, M)) /\ decision (g_comp g) fuel fuel name i = SOk (c_look C m i).
Proof.
  cbn [c_look g_compiled]. rewrite HK. unfold g_looks. destruct (nth_error (g_nets g) m) as [[name [id M]]|] eqn:E.
  - set (F := fun x : list N * (N * atn) => _). rewrite (nth_indep _ [] (F ([], (0%N, [])))) by (rewrite map_length; apply nth_error_Some; congruence). rewrite map_nth. rewrite (nth_error_nth _ _ _ E). unfold F. cbn [fst snd].
    destruct (Nat.lt_ge_cases i (length M)) as [L|L]; [|left; apply nth_overflow; rewrite map_length, seq_length; exact L].
    set (G := fun i : nat => _). rewrite (nth_indep _ [] (G 0)) by (rewrite map_length, seq_length; exact L). rewrite map_nth, seq_nth by exact L. unfold G. cbn [Nat.add]. destruct (2 <=? length (atrs (nth i M blank))); [|auto].
    destruct (decision (g_comp g) fuel fuel name i) as [T| |] eqn:ED; auto. right. exists name, id, M. auto.
  - left. rewrite (nth_overflow (map _ _)); [destruct i; reflexivity|]. rewrite map_length. apply nth_error_None. exact E.
Qed.
Lemma check_pat_ok name b p : In (name, b) ds -> In (TPat p) (gsel_terms b) -> pattern_exact C p /\ codable (c_dfa C (build_pat p)) /\ pat_nodot p.
Proof.
  intros Hd Hp. destruct check_parts as (_ & _ & K & _). specialize (K _ _ _ Hd Hp). cbn in K. unfold pat_check in K. apply andb_true_iff in K as [K K3]. apply andb_true_iff in K as [K1 K2].
  destruct (proj2 (proj2 fine_spec) p K1) as [P1 P2]. cbn [c_dfa g_compiled]. destruct (dfa_build fuel fuel (build_pat p)) as [Q|] eqn:EB; [|discriminate]. destruct (dfa_plain fuel fuel (build_pat p)) as [D|] eqn:ED; [|discriminate].
  split; [|split; [apply codableb_spec; exact K3|apply (proj2 (proj2 fine_nodot)); exact K1]]. split; [exact P1|]. split; [exact P2|]. exists fuel, fuel, D. split; [exact ED|]. split; [cbn [c_dfa g_compiled]; rewrite EB; reflexivity|].
  intros i j Hi Hj E. unfold mergeb in K2. rewrite forallb_forall in K2. specialize (K2 i ltac:(apply in_seq; lia)). rewrite forallb_forall in K2. specialize (K2 j ltac:(apply in_seq; lia)). rewrite E in K2. cbn in K2. apply Bool.eqb_prop. exact K2.
Qed.
Theorem grammar_check_ok : grammar_ok fs file ds g C.
Proof.
  destruct check_parts as (K1 & K2 & K3 & K4 & K5). split.
  - split; [unfold declares; rewrite HT; apply (check_file_spec _ _ _ title); exact K1|]. split.
    + intros name ri e x Hd Hx. apply rules_from_in in Hd as [Hd _]. specialize (K3 _ _ _ Hd Hx). cbn in K3. apply existsb_exists in K3 as (y & Hy & E). apply eqname_spec in E as ->. exact Hy.
    + split; [change (2 ^ 15)%N with 32768%N; lia|]. split; [exists fuel, mid; exact HR|]. exists (g_nets g). split; [apply Permutation_refl|left; reflexivity].
  - intros name b x Hd Hx. pose proof (K3 _ _ _ Hd Hx) as K. destruct x as [s|s|p]; cbn in *; [exact I| |].
    + apply andb_true_iff in K as [A1 A2]. split; [intros ->; discriminate|]. rewrite forallb_forall in A2. intros c Hc. specialize (A2 c Hc). lia.
    + unfold pat_check in K. apply andb_true_iff in K as [K _]. apply andb_true_iff in K as [K _]. apply (proj2 (proj2 fine_spec) p K).
  - intros name b p Hd Hp. apply (check_pat_ok name b p Hd Hp).
  - intros name b p Hd Hp. apply (check_pat_ok name b p Hd Hp).
  - split.
    + exists (g_comp g). split; [exact K4|]. intros m i. destruct (look_entry m i) as [E|(name & id & M & E & ED)]; [left; exact E|]. right. exists name, id, M, fuel, fuel. auto.
    + intros m name id M i E Hi H2 E0. pose proof (K5 _ _ _ _ _ E Hi) as K. unfold node_check in K. rewrite E0 in K. cbn in K. lia.
  - intros name id M n HM Hn H2 p E. destruct (In_nth_error _ _ HM) as [m EM]. destruct (In_nth M n blank Hn) as (i & Hi & EI). pose proof (K5 _ _ _ _ _ EM Hi) as K. unfold node_check in K. rewrite EI in K. rewrite E in K. rewrite andb_false_r, orb_false_r in K. lia.
Qed.
(** A text at address a with 15 characters of room. *)
Lemma check_env (u pad : list N) (old : nat -> list N) : 1 <= B -> (N.of_nat B < 2 ^ 32)%N -> 15 <= length pad -> (forall c, In c (u ++ 0%N :: pad) -> (c < 256)%N) -> (forall c, In c u -> c <> 0%N) -> (N.of_nat (length (u ++ 0%N :: pad)) < 2 ^ 48)%N -> (forall k, length (old k) = B) ->
  call_env C ds (X86.mkE (mem (only 1000 (u ++ 0%N :: pad))) 5 B old (fun k => 4096%N) (fun _ _ => 77%N)) 1000 u pad B.
Proof.
  intros B1 B2 HP H1 H2 H3 H4. change (2 ^ 32)%N with 4294967296%N in B2. split; cbn [mem page_words page_addr stale c_buf g_compiled]; [|lia|exact H2| | | |exact B1|reflexivity|reflexivity| |exact H4].
  - apply (only_text 1000); [exact H1|]. change (2 ^ 48)%N with 281474976710656%N in H3. change (2 ^ 64)%N with 18446744073709551616%N. lia.
  - rewrite app_length in H3. lia.
  - intros name b s _ _ _. exact HP.
  - intros name b p Hd Hp. right. split; [apply (check_pat_ok name b p Hd Hp)|exact HP].
  - intros k. change (2 ^ 64)%N with 18446744073709551616%N. lia.
Qed.
End Check.
