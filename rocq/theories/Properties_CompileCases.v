(** * Grammar files for which the hypotheses of Properties_Look and Properties_Compile hold *)
From Coq Require Import String Ascii.
From Coq Require Import List NArith ZArith Arith Bool Lia ZifyBool ZifyN ZifyNat Permutation.
From Verif Require Import CharClass CharClassSpec Stream StreamSpec NFA NFASem NFAProofs NFABuild NFAParse DFA DFAProofs DFAMin RegexSpec GrammarSpec Marker TreeSpec ParseSpec Reduction ReductionProofs Writer WriterProofs X86 X86Step CodeGen CodeGenProofs CodeGenSimd CodeGenDfa CodeGenPlain CodeGenMisc CodeGenRoutine ATN ATNSem ATNBuild ATNOpt ATNLive Grammar GrammarProofs Properties_CodeGen Properties_Grammar ParserGen ParserRun ParserSim ParserTree ParserTop Properties_Parser Properties_ParserCases
  Lookahead LookSpec LookImport LookGrammarSpec LookRead LookSim LookGrammar LookWf LookFit LookNul Properties_Look Properties_Compile GrammarCheck CompileCheck.
Import ListNotations.
Local Open Scope nat_scope.

Definition str (s : string) : list N := map N_of_ascii (list_ascii_of_string s).
Local Open Scope string_scope.
(** ** grammars/json.cgr of the repository *)
(** The file, character by character, and what it says. *)
Definition json_text : list N := (str "grammar JSON;

Object : Number | String | List | Dict | False | True | Null ;
Number : /-?[0-9]++[.]?[0-9]*+/ ;
String : /""([^\\""]|(\\[""]))*+""/ ;
List : '[' (']' | Object (',' Object)* ']') ;
DictEntry : String ':' Object ;
Dict : '{' ('}' | DictEntry (',' DictEntry)* '}') ;
False: 'false' ;
True : 'true' ;
Null : 'null' ;
").
Definition json_title : option (list N) := Some (str "JSON").
Definition json_ds : list (list N * gsel) :=
  [((str "Object"%string), GAlt (GAlt (GAlt (GAlt (GAlt (GAlt (GFirst (GCons (GTerm (TRule (str "Number"))) GOne (GNil))) false (GCons (GTerm (TRule (str "String"))) GOne (GNil))) false (GCons (GTerm (TRule (str "List"))) GOne (GNil))) false (GCons (GTerm (TRule (str "Dict"))) GOne (GNil))) false (GCons (GTerm (TRule (str "False"))) GOne (GNil))) false (GCons (GTerm (TRule (str "True"))) GOne (GNil))) false (GCons (GTerm (TRule (str "Null"))) GOne (GNil)));
   ((str "Number"), GFirst (GCons (GTerm (TPat (PSnoc (PSnoc (PSnoc (PSnoc (PNil) (SOne (UAtom (AChar 45)) QOpt)) (SOne (UAtom (ASet [Span 48 57])) (QPlus true))) (SOne (UAtom (ASet [Single 46])) QOpt)) (SOne (UAtom (ASet [Span 48 57])) (QStar true))))) GOne (GNil)));
   ((str "String"), GFirst (GCons (GTerm (TPat (PSnoc (PSnoc (PSnoc (PNil) (SOne (UAtom (AChar 34)) QOne)) (SOne (UGroup (PSnoc (PNil) (SAlt (SOne (UAtom (ANot [Single 92; Single 34])) QOne) (UGroup (PSnoc (PSnoc (PNil) (SOne (UAtom (AChar 92)) QOne)) (SOne (UAtom (ASet [Single 34])) QOne))) QOne))) (QStar true))) (SOne (UAtom (AChar 34)) QOne)))) GOne (GNil)));
   ((str "List"), GFirst (GCons (GTerm (TLit (str "["))) GOne (GCons (GGroup (GAlt (GFirst (GCons (GTerm (TLit (str "]"))) GOne (GNil))) false (GCons (GTerm (TRule (str "Object"%string))) GOne (GCons (GGroup (GFirst (GCons (GTerm (TLit (str ","))) GOne (GCons (GTerm (TRule (str "Object"%string))) GOne (GNil))))) GStar (GCons (GTerm (TLit (str "]"))) GOne (GNil)))))) GOne (GNil))));
   ((str "DictEntry"), GFirst (GCons (GTerm (TRule (str "String"))) GOne (GCons (GTerm (TLit (str ":"))) GOne (GCons (GTerm (TRule (str "Object"%string))) GOne (GNil)))));
   ((str "Dict"), GFirst (GCons (GTerm (TLit (str "{"))) GOne (GCons (GGroup (GAlt (GFirst (GCons (GTerm (TLit (str "}"))) GOne (GNil))) false (GCons (GTerm (TRule (str "DictEntry"))) GOne (GCons (GGroup (GFirst (GCons (GTerm (TLit (str ","))) GOne (GCons (GTerm (TRule (str "DictEntry"))) GOne (GNil))))) GStar (GCons (GTerm (TLit (str "}"))) GOne (GNil)))))) GOne (GNil))));
   ((str "False"), GFirst (GCons (GTerm (TLit (str "false"))) GOne (GNil)));
   ((str "True"), GFirst (GCons (GTerm (TLit (str "true"))) GOne (GNil)));
   ((str "Null"), GFirst (GCons (GTerm (TLit (str "null"))) GOne (GNil)))].

Local Close Scope string_scope.
Definition json_g : gstate := Eval vm_compute in match read_grammar 100 (fun _ => json_text) [] with SOk (_, g) => g | _ => empty_grammar end.
Definition json_looks : list (list ldfa) := Eval vm_compute in g_looks json_g 100.
Definition json_C : compiled := g_compiled json_g 100 64 json_looks.
Lemma json_read : exists mid, read_grammar 100 (fun _ => json_text) [] = SOk (mid, json_g).
Proof. eexists. vm_compute. reflexivity. Qed.
Lemma json_checked : grammar_check 100 json_title json_text json_ds json_g json_looks = true.
Proof. vm_compute. reflexivity. Qed.
Lemma json_ok : grammar_ok (fun _ => json_text) [] json_ds json_g json_C.
Proof. destruct json_read as [mid E]. apply (grammar_check_ok 100 64 json_title json_text (fun _ => json_text) [] json_ds json_g mid json_looks); [vm_compute; reflexivity|exact E|vm_compute; reflexivity|exact json_checked]. Qed.
(** The text  {"a" : [1, 2.5, true]}  *)
Definition json_in : list N := str "{""a"" : [1, 2.5, true]}"%string.
Definition json_pad : list N := repeat 0%N 15.
Definition json_old : nat -> list N := fun _ => repeat 0%N 64.
Definition json_env : env := X86.mkE (mem (only 1000 (json_in ++ 0%N :: json_pad))) 5 64 json_old (fun k => 4096%N) (fun _ _ => 77%N).
Lemma json_call : call_env json_C json_ds json_env 1000 json_in json_pad 64.
Proof.
  destruct json_read as [mid E]. apply (check_env 100 64 json_title json_text json_ds json_g mid json_looks json_checked json_in json_pad json_old); [lia|reflexivity|cbn; lia| | |reflexivity|reflexivity].
  - intros c Hc. assert (F : forallb (fun c => (c <? 256)%N) (json_in ++ 0%N :: json_pad) = true) by (vm_compute; reflexivity). rewrite forallb_forall in F. specialize (F c Hc). lia.
  - intros c Hc. assert (F : forallb (fun c => negb (c =? 0)%N) json_in = true) by (vm_compute; reflexivity). rewrite forallb_forall in F. specialize (F c Hc). lia.
Qed.
(** Object(1), Number(2), String(3), List(4), DictEntry(5), Dict(6), False(7), True(8), Null(9). *)
Definition json_tree : tree := Node 1 0 22 [Node 6 0 22 [Node 5 1 21 [Node 3 1 4 []; Node 1 6 21 [Node 4 6 21 [Node 1 8 9 [Node 2 8 9 []]; Node 1 10 14 [Node 2 10 14 []]; Node 1 15 20 [Node 8 15 20 []]]]]]].
Definition json_page : list N := Eval vm_compute in match write_accept 64 64 json_old (stream json_tree) with Ok [x] => x | _ => [] end.
(** The hypotheses of C18_compiled_file hold, for a text whose tree has thirteen nodes. *)
Example C18_compiled_hyp : grammar_ok (fun _ => json_text) [] json_ds json_g json_C /\ call_env json_C json_ds json_env 1000 json_in json_pad 64 /\
  returned json_C (g_root json_g) json_env 1000 1022 [json_page] /\ bank_content json_page = stream json_tree.
Proof.
  split; [exact json_ok|]. split; [exact json_call|]. split; [|vm_compute; reflexivity]. destruct (grammar_env _ _ _ _ _ _ _ _ _ _ json_ok json_call) as [PE LI].
  apply (returned_iff json_C (g_root json_g) json_env 1000 json_in json_pad 64 0 PE eq_refl LI). exists 200. vm_compute. split; reflexivity.
Qed.
(** Rule Object, node 1, has seven ways on; on the letter t it is decided that it is the sixth, on a blank nothing is decided. *)
Definition json_object : atn := Eval vm_compute in snd (snd (nth 0 (g_nets json_g) ([], (0%N, [])))).
Definition json_T : ldfa := Eval vm_compute in nth 1 (nth 0 json_looks []) [].
Example C32_hyp : compiled_from (fun _ => json_text) [] json_ds json_g json_C /\ rules_plain json_ds /\ no_preferences json_ds /\ composite (c_nets json_C) = Some (g_comp json_g) /\
  In (str "Object"%string, (1%N, json_object)) (c_nets json_C) /\ 1 < length json_object /\ length (atrs (nth 1 json_object blank)) = 7 /\ not_after_plus (nth 1 json_object blank) /\
  decision (g_comp json_g) 100 100 (str "Object"%string) 1 = SOk json_T /\
  ldfa_go json_T 0 (str " t"%string) = LExit 5 /\ only_alt (c_nets json_C) (str "Object"%string) 1 5 (str " t"%string) /\ two_alts (c_nets json_C) (str "Object"%string) 1 (str " "%string).
Proof.
  assert (E1 : composite (c_nets json_C) = Some (g_comp json_g)) by (vm_compute; reflexivity). assert (E2 : In (str "Object"%string, (1%N, json_object)) (c_nets json_C)) by (left; reflexivity).
  assert (E3 : decision (g_comp json_g) 100 100 (str "Object"%string) 1 = SOk json_T) by (vm_compute; reflexivity). assert (E4 : no_preferences json_ds). { intros name b H. cbn in H. repeat (destruct H as [H|H]; [injection H as <- <-; cbn; tauto|]). destruct H. }
  assert (E5 : not_after_plus (nth 1 json_object blank)) by (intros p; discriminate).
  split; [exact (go_file _ _ _ _ _ json_ok)|]. split; [exact (go_plain _ _ _ _ _ json_ok)|]. split; [exact E4|]. split; [exact E1|]. split; [exact E2|]. split; [cbn; lia|]. split; [reflexivity|]. split; [exact E5|]. split; [exact E3|]. split; [reflexivity|].
  destruct (C32_decision_partial _ _ _ _ _ _ _ _ _ 1 _ _ _ (go_file _ _ _ _ _ json_ok) (go_plain _ _ _ _ _ json_ok) E4 E1 E2 ltac:(cbn; lia) ltac:(cbn; lia) E5 E3) as [_ K]. specialize (K (str " t"%string)).
  change (ldfa_go json_T 0 (str " t"%string)) with (LExit 5) in K. destruct K as (m & M1 & M2 & M3). cbn in M1. destruct m as [|[|[|m]]]; [lia| |split; [exact M2|exact (M3 1 ltac:(lia))]|lia].
  exfalso. pose proof (C32_decision_partial _ _ _ _ _ _ _ _ _ 1 _ _ _ (go_file _ _ _ _ _ json_ok) (go_plain _ _ _ _ _ json_ok) E4 E1 E2 ltac:(cbn; lia) ltac:(cbn; lia) E5 E3) as [_ Q]. specialize (Q (str " "%string)). change (ldfa_go json_T 0 (str " "%string)) with LMore in Q.
  destruct (Q 1 ltac:(cbn; lia)) as (a & b & NE & A & B). apply M2 in A, B. congruence.
Qed.
