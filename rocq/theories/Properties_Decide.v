(** * The construction of the decision tables ends (C43) *)
From Coq Require Import String Ascii.
From Coq Require Import List NArith ZArith Arith Bool Lia ZifyBool ZifyN ZifyNat Permutation.
From Verif Require Import CharClass Stream NFA NFABuild DFA DFAMin DFATerm DFAPattern RegexSpec GrammarSpec Marker TreeSpec ParseSpec EmptySpec CodeGen CodeGenMisc ATN ATNSem ATNBuild Grammar GrammarProofs Properties_Grammar ParserGen ATNLive ParserTree ParserTop Properties_Parser
  Lookahead LookSpec LookGrammarSpec LookRead LookFuel LookEnds LookEmpty Properties_Look Properties_Compile GrammarCheck CompileCheck Properties_CompileCases EmptyCheck Properties_Ends Properties_CompleteCases.
Import ListNotations.
Local Open Scope nat_scope.

(** Within patterns too, nothing that can be empty stands under a star or a plus. *)
Definition patterns_no_empty_repetition (ds : list (list N * gsel)) : Prop := forall name b p, In (name, b) ds -> In (TPat p) (gsel_terms b) -> pat_nl p.

(** C43, for every grammar file: if nothing under a star or a plus can be empty (in rules and within patterns), the construction
    of the decision tables ends: there is a number of steps k such that, at every node of every rule, k steps are enough,
    and the answer - a table, or an exception - is the same with any more.
    Left recursion is allowed here. *)
Theorem C43_ends_partial : forall fs file ds g C D,
  compiled_from fs file ds g C -> rules_plain ds -> composite (c_nets C) = Some D ->
  no_empty_repetition (rules_of ds) patL -> patterns_no_empty_repetition ds ->
  exists k, forall name i, decision D k k name i <> SFuel /\
    forall f cf, k <= f -> k <= cf -> decision D f cf name i = decision D k k name i.
Proof.
  intros fs file ds g C D HF HP HD H1 H2.
  destruct (decisions_end (c_nets C) D (file_lookable _ _ _ _ _ HF HP) HD (rules_of ds)) as (f0 & cf0 & G); [|exact H1|].
  - intros r gn M I. destruct (file_net _ _ _ _ _ HF _ _ _ I) as (b & Ib & NF & R). exists b. split; [exact R|]. split; [exact NF|]. intros p Hp. split; [exact (HP _ _ _ Ib Hp)|exact (H2 _ _ _ Ib Hp)].
  - exists (max f0 cf0). intros name i. assert (K : done (decision D (max f0 cf0) (max f0 cf0) name i)) by (apply G; lia). split; [exact K|].
    intros f cf Hf Hcf. exact (decision_more D _ f _ cf name i Hf Hcf K).
Qed.
Print Assumptions C43_ends_partial.

(** ** Cases *)
Fixpoint unlb (u : unit_) : bool := match u with UAtom _ => true | UGroup p => pnlb p end
with snlb (s : sel) : bool := match s with SOne u q => unlb u && (negb (loops q) || negb (unull u)) | SAlt s u q => snlb s && unlb u && (negb (loops q) || negb (unull u)) end
with pnlb (p : pat) : bool := match p with PNil => true | PSnoc p s => pnlb p && snlb s end.
Lemma pnlb_spec : (forall u, unlb u = true -> unit_nl u) /\ (forall s, snlb s = true -> sel_nl s) /\ (forall p, pnlb p = true -> pat_nl p).
Proof.
  assert (Q : forall u q, negb (loops q) || negb (unull u) = true -> loops q = true -> ~ unitL u []).
  { intros u q H L E. apply (proj1 pnull_spec) in E. rewrite L, E in H. discriminate. }
  apply regex_ind.
  - intros a _. exact I.
  - intros p IH H. exact (IH H).
  - intros u IH q H. cbn [snlb] in H. apply andb_true_iff in H as [A B]. exact (conj (IH A) (Q u q B)).
  - intros s IHs u IH q H. cbn [snlb] in H. apply andb_true_iff in H as [A B]. apply andb_true_iff in A as [A0 A]. exact (conj (IHs A0) (conj (IH A) (Q u q B))).
  - intros _. exact I.
  - intros p IHp s IHs H. cbn [pnlb] in H. apply andb_true_iff in H as [A B]. exact (conj (IHp A) (IHs B)).
Qed.
Definition pats_check (ds : list (list N * gsel)) : bool := forallb (fun d => forallb (fun x => match x with TPat p => pnlb p | _ => true end) (gsel_terms (snd d))) ds.
Lemma pats_check_ok ds : pats_check ds = true -> patterns_no_empty_repetition ds.
Proof.
  intros F name b p Hd Hp. unfold pats_check in F. rewrite forallb_forall in F. specialize (F _ Hd). cbn [snd] in F. rewrite forallb_forall in F. specialize (F _ Hp). apply pnlb_spec. exact F.
Qed.
(** grammars/json.cgr of the repository meets the hypotheses; all its decisions have tables. *)
Example C43_hyp : compiled_from (fun _ => json_text) [] json_ds json_g json_C /\ rules_plain json_ds /\ composite (c_nets json_C) = Some (g_comp json_g) /\
  no_empty_repetition (rules_of json_ds) patL /\ patterns_no_empty_repetition json_ds /\ exists T, decision (g_comp json_g) 100 100 (str "Object"%string) 1 = SOk T.
Proof.
  split; [exact (go_file _ _ _ _ _ json_ok)|]. split; [exact (go_plain _ _ _ _ _ json_ok)|]. split; [vm_compute; reflexivity|]. split; [exact (proj2 json_ends)|]. split; [apply pats_check_ok; vm_compute; reflexivity|]. eexists. vm_compute. reflexivity.
Qed.
(** So does grammars/calc.cgr; one of its answers is an exception (C43_calc_refuted). *)
Local Open Scope string_scope.
Definition calc_order : list (list N) := map str ["FACT"; "TERM"; "EXPR"].
Local Close Scope string_scope.
Example C43_calc_hyp : compiled_from (fun _ => calc_text) [] calc_ds calc_g calc_C /\ rules_plain calc_ds /\ composite (c_nets calc_C) = Some (g_comp calc_g) /\
  no_empty_repetition (rules_of calc_ds) patL /\ patterns_no_empty_repetition calc_ds /\ exists i, decision (g_comp calc_g) 100 100 (str "EXPR"%string) i = SThrow.
Proof.
  split; [exact calc_from|]. split; [exact calc_simple|]. split; [vm_compute; reflexivity|]. split; [|split; [apply pats_check_ok; vm_compute; reflexivity|]].
  - apply (ends_ok [] calc_order calc_ds); [intros name id e R; apply (rules_from_in _ _ _ _ _ R)|vm_compute; reflexivity].
  - exists 3. vm_compute. reflexivity.
Qed.
