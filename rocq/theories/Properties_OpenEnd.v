(** * Rules that end in an open repetition *)
From Coq Require Import String Ascii.
From Coq Require Import List NArith ZArith Arith Bool Lia ZifyBool ZifyN ZifyNat Permutation.
From Verif Require Import CharClass CharClassSpec Stream StreamSpec NFA NFASem NFAProofs NFABuild NFAParse DFA DFAProofs DFAMin RegexSpec GrammarSpec Marker TreeSpec ParseSpec Reduction ReductionProofs Writer WriterProofs X86 X86Step CodeGen CodeGenProofs CodeGenSimd CodeGenDfa CodeGenPlain CodeGenMisc CodeGenRoutine ATN ATNSem ATNBuild ATNOpt ATNLive Grammar GrammarProofs Properties_CodeGen Properties_Grammar ParserGen ParserRun ParserSim ParserTree ParserTop Properties_Parser Properties_ParserCases
  EmptySpec EmptyCheck ParserComplete Lookahead LookSpec LookImport LookRead LookSim LookGrammar LookWf LookFit LookNul LookFuel Properties_Look Properties_Compile Properties_Ends LookGrammarSpec ClearSpec OpenEndSpec Properties_Complete GrammarCheck CompileCheck Properties_CompileCases.
Import ListNotations.
Local Open Scope nat_scope.

Lemma open_end_never nets u r : open_end nets r -> forall p q ch, ~ clear_from nets u r 0 p q ch.
Proof.
  intros (Z & Z0 & ZS & ZE & Z1) p q ch H. apply Z0. clear Z0.
  refine (proj1 (clear_ind nets u (fun r' i p q ch _ => r' = r -> Z i) (fun _ _ _ _ _ => True)
    (fun r' i ts p q ch _ => r' = r -> forall n, node_of nets [(r, i)] = Some n -> atrs n = ts -> Z i) _ _ _ _ _ _ _ _ _) _ _ _ _ _ H eq_refl); try (intros; exact Logic.I).
  - intros r' i n p0 m q0 ch1 ch2 HN _ _ _ IH ->. exact (IH eq_refl n HN eq_refl).
  - intros r' i p0 -> n HN HE. exact (ZE i n HN HE).
  - intros r' i d t p0 q0 ch0 _ IH -> n HN HE. exact (Z1 i n d t HN HE (IH eq_refl)).
  - intros r' i ts k d t p0 m q0 ch0 HL HK HM HO _ IH -> n HN HE. exfalso. destruct (proj2 (HO k) eq_refl) as (n' & d' & t' & HN' & HK' & v & y & HT).
    rewrite HN in HN'. injection HN' as <-. rewrite HE, HK in HK'. injection HK' as <- <-. apply (ZS d (IH eq_refl)) in HT. apply app_eq_nil in HT as [HT _].
    apply (f_equal (@List.length N)) in HT. unfold slice in HT. rewrite firstn_length, skipn_length in HT. cbn [List.length] in HT. lia.
Qed.
(** C42, C33: if the first rule of a grammar file ends in an open repetition, the generated parser accepts no text at all. *)
Theorem C42_open_end_partial : forall fs file ds g C e a u pad B v bs,
  grammar_ok fs file ds g C -> no_preferences ds -> call_env C ds e a u pad B ->
  open_end (c_nets C) (hd [] (map fst ds)) -> returned C (g_root g) e a v bs -> v = 0%N.
Proof.
  intros fs file ds g C e a u pad B v bs HG HP HE HO HR. destruct (N.eq_dec v 0) as [E|NZ]; [exact E|]. exfalso.
  destruct (C42_accepted_clear_partial _ _ _ _ _ _ _ _ _ _ _ _ HG HP HE HR NZ) as (n & id & M & ch & _ & _ & K & _).
  exact (open_end_never _ _ _ HO _ _ _ K).
Qed.
Print Assumptions C42_open_end_partial.

(** ** Finding such rules.  Only used for examples; no code is modelled here. *)
Definition is_blank (n : nty) : bool := match n with NBlank => true | _ => false end.
Definition mem_nat (x : nat) (l : list nat) : bool := existsb (Nat.eqb x) l.
Definition refers (r : list N) (n : nty) : bool := match n with NInv s => eqname s r | _ => false end.
Definition open_check (nets : list (list N * (N * atn))) (r : list N) (Z : list nat) : bool :=
  match lookup nets r with
  | None => false
  | Some (_, M) =>
    negb (mem_nat 0 Z) &&
    forallb (fun i => match nth_error M i with
      | None => false
      | Some n => is_blank (nt n) && forallb (fun e => mem_nat (fst e) Z) (atrs n)
      end) Z &&
    forallb (fun i => match nth_error M i with
      | None => true
      | Some n => match atrs n with [] => mem_nat i Z | [(d, _)] => negb (mem_nat d Z) || mem_nat i Z | _ => true end
      end) (seq 0 (List.length M)) &&
    forallb (fun x => forallb (fun n => negb (refers r (nt n))) (snd (snd x))) nets
  end.
Lemma mem_nat_in x l : mem_nat x l = true <-> In x l.
Proof. unfold mem_nat. rewrite existsb_exists. split; [intros (y & H & E); apply Nat.eqb_eq in E; subst; exact H|intros H; exists x; split; [exact H|apply Nat.eqb_refl]]. Qed.
Lemma open_check_ok nets r Z : open_check nets r Z = true -> open_end nets r.
Proof.
  unfold open_check. destruct (lookup nets r) as [[id M]|] eqn:EL; [|discriminate]. intros H.
  apply andb_true_iff in H as [H H4]. apply andb_true_iff in H as [H H3]. apply andb_true_iff in H as [H1 H2].
  rewrite forallb_forall in H2, H3, H4.
  assert (NO : forall i, node_of nets [(r, i)] = nth_error M i) by (intros i; unfold node_of; rewrite EL; reflexivity).
  exists (fun i => In i Z). split.
  { intros K. apply mem_nat_in in K. rewrite K in H1. discriminate. }
  split.
  { assert (G : forall x v y, texts nets x v y -> forall i, In i Z -> x = Before [(r, i)] \/ x = After [(r, i)] -> v = []).
    { intros x v y HT. induction HT as [x|x v y w z HM HT IH]; intros i HI HX; [reflexivity|].
      specialize (H2 i HI). destruct (nth_error M i) as [n|] eqn:EN; [|discriminate]. apply andb_true_iff in H2 as [HB HD]. rewrite forallb_forall in HD.
      assert (EB : nt n = NBlank) by (destruct (nt n); try discriminate; reflexivity).
      destruct HX as [-> | ->]; inversion HM; subst.
      - match goal with K : node_of nets [(r, i)] = Some ?x |- _ => rewrite NO, EN in K; injection K as <- end.
        match goal with K : spells _ _ |- _ => rewrite EB in K; cbn in K; subst end. exact (IH i HI (or_intror eq_refl)).
      - match goal with K : node_of nets [(r, i)] = Some ?x |- _ => rewrite NO, EN in K; injection K as <- end. congruence.
      - match goal with K : node_of nets [(r, i)] = Some ?x |- _ => rewrite NO, EN in K; injection K as <- end.
        match goal with K : In (?d, _) (atrs n) |- _ => apply HD in K; cbn [fst] in K; apply mem_nat_in in K; exact (IH d K (or_introl eq_refl)) end.
      - exfalso. match goal with K : node_of nets [(s, j)] = Some n' |- _ => rename K into K1 end. match goal with K : nt n' = NInv r |- _ => rename K into K2 end.
        unfold node_of in K1. destruct (lookup nets s) as [[id' M']|] eqn:EL'; [|discriminate]. pose proof (lookup_in nets s _ EL') as KI.
        specialize (H4 _ KI). cbn [snd] in H4. rewrite forallb_forall in H4. specialize (H4 _ (nth_error_In _ _ K1)). rewrite K2 in H4. cbn [refers] in H4.
        assert (ER : eqname r r = true) by (apply eqname_spec; reflexivity). rewrite ER in H4. discriminate. }
    intros i HI v y HT. exact (G _ _ _ HT i HI (or_introl eq_refl)). }
  split.
  - intros i n HN HE. rewrite NO in HN. assert (L : i < List.length M) by (apply nth_error_Some; congruence).
    specialize (H3 i ltac:(apply in_seq; lia)). rewrite HN, HE in H3. apply mem_nat_in. exact H3.
  - intros i n d t HN HE HD. rewrite NO in HN. assert (L : i < List.length M) by (apply nth_error_Some; congruence).
    specialize (H3 i ltac:(apply in_seq; lia)). rewrite HN, HE in H3. apply mem_nat_in in HD. rewrite HD in H3. apply mem_nat_in. exact H3.
Qed.

(** ** grammars/xml.cgr of the repository *)
Local Open Scope string_scope.
(** The file, character by character, and what it says. *)
Definition xml_text : list N := (str "grammar XML;
Document : XmlDecl? Comment* (DocType Comment*)? Element* ;
XmlDecl : '<?xml' Attribute* '?>' ;
DocType : '<!DOCTYPE' Name 'SYSTEM' Value '>' ;
Comment : '<!--' /((-[^\-])|[^\-])*+/ '-->' ;
Element : '<' Name Attribute* ElementBody ;
ElementBody : '/>' | '>' Content (Element Content)* '</' Name '>' ;
Content : /[^<]*+/ ;
Attribute : Name '=' Value ;
Name : /[a-zA-Z][a-zA-Z0-9_]*/ ;
Value : /""[^""]*+""/ ;
").
Definition xml_title : option (list N) := Some (str "XML").
Definition xml_ds : list (list N * gsel) :=
  [((str "Document"), GFirst (GCons (GTerm (TRule (str "XmlDecl"))) GOpt (GCons (GTerm (TRule (str "Comment"))) GStar (GCons (GGroup (GFirst (GCons (GTerm (TRule (str "DocType"))) GOne (GCons (GTerm (TRule (str "Comment"))) GStar (GNil))))) GOpt (GCons (GTerm (TRule (str "Element"))) GStar (GNil))))));
   ((str "XmlDecl"), GFirst (GCons (GTerm (TLit (str "<?xml"))) GOne (GCons (GTerm (TRule (str "Attribute"))) GStar (GCons (GTerm (TLit (str "?>"))) GOne (GNil)))));
   ((str "DocType"), GFirst (GCons (GTerm (TLit (str "<!DOCTYPE"))) GOne (GCons (GTerm (TRule (str "Name"))) GOne (GCons (GTerm (TLit (str "SYSTEM"))) GOne (GCons (GTerm (TRule (str "Value"))) GOne (GCons (GTerm (TLit (str ">"))) GOne (GNil)))))));
   ((str "Comment"), GFirst (GCons (GTerm (TLit (str "<!--"))) GOne (GCons (GTerm (TPat (PSnoc (PNil) (SOne (UGroup (PSnoc (PNil) (SAlt (SOne (UGroup (PSnoc (PSnoc (PNil) (SOne (UAtom (AChar 45)) QOne)) (SOne (UAtom (ANot [Single 45])) QOne))) QOne) (UAtom (ANot [Single 45])) QOne))) (QStar true))))) GOne (GCons (GTerm (TLit (str "-->"))) GOne (GNil)))));
   ((str "Element"), GFirst (GCons (GTerm (TLit (str "<"))) GOne (GCons (GTerm (TRule (str "Name"))) GOne (GCons (GTerm (TRule (str "Attribute"))) GStar (GCons (GTerm (TRule (str "ElementBody"))) GOne (GNil))))));
   ((str "ElementBody"), GAlt (GFirst (GCons (GTerm (TLit (str "/>"))) GOne (GNil))) false (GCons (GTerm (TLit (str ">"))) GOne (GCons (GTerm (TRule (str "Content"))) GOne (GCons (GGroup (GFirst (GCons (GTerm (TRule (str "Element"))) GOne (GCons (GTerm (TRule (str "Content"))) GOne (GNil))))) GStar (GCons (GTerm (TLit (str "</"))) GOne (GCons (GTerm (TRule (str "Name"))) GOne (GCons (GTerm (TLit (str ">"))) GOne (GNil))))))));
   ((str "Content"), GFirst (GCons (GTerm (TPat (PSnoc (PNil) (SOne (UAtom (ANot [Single 60])) (QStar true))))) GOne (GNil)));
   ((str "Attribute"), GFirst (GCons (GTerm (TRule (str "Name"))) GOne (GCons (GTerm (TLit (str "="))) GOne (GCons (GTerm (TRule (str "Value"))) GOne (GNil)))));
   ((str "Name"), GFirst (GCons (GTerm (TPat (PSnoc (PSnoc (PNil) (SOne (UAtom (ASet [Span 97 122; Span 65 90])) QOne)) (SOne (UAtom (ASet [Span 97 122; Span 65 90; Span 48 57; Single 95])) (QStar false))))) GOne (GNil)));
   ((str "Value"), GFirst (GCons (GTerm (TPat (PSnoc (PSnoc (PSnoc (PNil) (SOne (UAtom (AChar 34)) QOne)) (SOne (UAtom (ANot [Single 34])) (QStar true))) (SOne (UAtom (AChar 34)) QOne)))) GOne (GNil)))].
Local Close Scope string_scope.
Definition xml_g : gstate := Eval vm_compute in match read_grammar 100 (fun _ => xml_text) [] with SOk (_, g) => g | _ => empty_grammar end.
Definition xml_looks : list (list ldfa) := Eval vm_compute in g_looks xml_g 100.
Definition xml_C : compiled := g_compiled xml_g 100 64 xml_looks.
Lemma xml_read : exists mid, read_grammar 100 (fun _ => xml_text) [] = SOk (mid, xml_g).
Proof. eexists. vm_compute. reflexivity. Qed.
Lemma xml_checked : grammar_check 100 xml_title xml_text xml_ds xml_g xml_looks = true.
Proof. vm_compute. reflexivity. Qed.
Lemma xml_ok : grammar_ok (fun _ => xml_text) [] xml_ds xml_g xml_C.
Proof. destruct xml_read as [mid E]. apply (grammar_check_ok 100 64 xml_title xml_text (fun _ => xml_text) [] xml_ds xml_g mid xml_looks); [vm_compute; reflexivity|exact E|vm_compute; reflexivity|exact xml_checked]. Qed.
Lemma xml_plain : no_preferences xml_ds.
Proof. intros name b H. cbn in H. repeat (destruct H as [H|H]; [injection H as <- <-; cbn; tauto|]). destruct H. Qed.
Lemma xml_call u : (forall c, In c u -> (0 < c < 256)%N) -> (N.of_nat (length u) < 2 ^ 47)%N ->
  call_env xml_C xml_ds (X86.mkE (mem (only 1000 (u ++ 0%N :: json_pad))) 5 64 json_old (fun k => 4096%N) (fun _ _ => 77%N)) 1000 u json_pad 64.
Proof.
  intros HU HL. destruct xml_read as [mid E]. apply (check_env 100 64 xml_title xml_text xml_ds xml_g mid xml_looks xml_checked u json_pad json_old); [lia|reflexivity|cbn; lia| | | |reflexivity].
  - intros c Hc. apply in_app_or in Hc as [Hc|[<-|Hc]]; [specialize (HU c Hc); lia|lia|]. apply repeat_spec in Hc. subst c. lia.
  - intros c Hc. specialize (HU c Hc). lia.
  - rewrite app_length. cbn [length json_pad repeat]. change (2 ^ 47)%N with 140737488355328%N in HL. change (2 ^ 48)%N with 281474976710656%N. lia.
Qed.
(** Behind the elements of a document there may be another one: the places 18 and 19 are entered from 15 and 17 only. *)
Lemma xml_open : open_end (c_nets xml_C) (hd [] (map fst xml_ds)).
Proof. apply (open_check_ok _ _ [18; 19]). vm_compute. reflexivity. Qed.
Local Open Scope string_scope.
Definition xml_order : list (list N) := map str ["Name"; "Value"; "Attribute"; "Content"; "ElementBody"; "Element"; "Comment"; "DocType"; "XmlDecl"; "Document"].
Lemma xml_ends : no_left_recursion (rules_of xml_ds) patL /\ no_empty_repetition (rules_of xml_ds) patL.
Proof.
  apply (ends_ok [str "Content"; str "Document"] xml_order xml_ds); [intros name id e R; apply (rules_from_in _ _ _ _ _ R)|vm_compute; reflexivity].
Qed.
(** The text <a/> is a document, with the tree Document[Element[Name, ElementBody]]. *)
Definition xml_tree : tree := Node 1 0 4 [Node 5 0 4 [Node 9 1 2 []; Node 6 2 4 []]].
Lemma sp0 (u : list N) p : spaces (slice u p p).
Proof. unfold slice. rewrite Nat.sub_diag. intros c []. Qed.
Lemma xml_derives : derives (rules_of xml_ds) patL (str "<a/>") (str "Document") 0 4 xml_tree.
Proof.
  assert (E1 : derives (rules_of xml_ds) patL (str "<a/>") (str "Name") 1 2 (Node 9 1 2 [])).
  { eapply (derives_rule _ _ _ (str "Name") 9 _ _ 1 2 []); [reflexivity| |].
    - cbn. eexists _, []. split; [reflexivity|]. split; [reflexivity|reflexivity].
    - apply (matched_pat _ _ _ _ [] 1 1 2 2 []); [split; cbn; lia|apply sp0|split; cbn; lia| |constructor; cbn; lia].
      change (slice (str "<a/>") 1 2) with [97%N]. cbn. exists [97%N], []. split; [reflexivity|]. split; [|constructor].
      exists [], [97%N]. split; [reflexivity|]. split; [reflexivity|]. exists 97%N. split; [reflexivity|]. exists (Span 97 122). split; [left; reflexivity|cbn; lia]. }
  assert (E2 : derives (rules_of xml_ds) patL (str "<a/>") (str "ElementBody") 2 4 (Node 6 2 4 [])).
  { eapply (derives_rule _ _ _ (str "ElementBody") 6 _ [TLit (str "/>")] 2 4 []); [reflexivity| |].
    - cbn. left. exists [TLit (str "/>")], []. split; [reflexivity|]. split; [reflexivity|reflexivity].
    - apply (matched_lit _ _ _ _ [] 2 2 4 4 []); [split; cbn; lia|apply sp0|split; cbn; lia|reflexivity|constructor; cbn; lia]. }
  assert (E3 : derives (rules_of xml_ds) patL (str "<a/>") (str "Element") 0 4 (Node 5 0 4 [Node 9 1 2 []; Node 6 2 4 []])).
  { eapply (derives_rule _ _ _ (str "Element") 5 _ [TLit (str "<"); TRule (str "Name"); TRule (str "ElementBody")] 0 4); [reflexivity| |].
    - cbn. exists [TLit (str "<")], [TRule (str "Name"); TRule (str "ElementBody")]. split; [reflexivity|]. split; [reflexivity|].
      exists [TRule (str "Name")], [TRule (str "ElementBody")]. split; [reflexivity|]. split; [reflexivity|].
      exists [], [TRule (str "ElementBody")]. split; [reflexivity|]. split; [constructor|].
      exists [TRule (str "ElementBody")], []. split; [reflexivity|]. split; reflexivity.
    - apply (matched_lit _ _ _ _ _ 0 0 1); [split; cbn; lia|apply sp0|split; cbn; lia|reflexivity|].
      apply (matched_rule _ _ _ _ _ 1 2 4 _ _ E1). apply (matched_rule _ _ _ _ _ 2 4 4 _ _ E2). constructor; cbn; lia. }
  eapply (derives_rule _ _ _ (str "Document") 1 _ [TRule (str "Element")] 0 4); [reflexivity| |].
  - cbn. exists [], [TRule (str "Element")]. split; [reflexivity|]. split; [left; reflexivity|].
    exists [], [TRule (str "Element")]. split; [reflexivity|]. split; [constructor|].
    exists [], [TRule (str "Element")]. split; [reflexivity|]. split; [left; reflexivity|].
    exists [TRule (str "Element")], []. split; [reflexivity|]. split; [|reflexivity]. apply (gs_app _ _ [TRule (str "Element")] []); [reflexivity|constructor].
  - apply (matched_rule _ _ _ _ _ 0 4 4 _ _ E3). constructor; cbn; lia.
Qed.
(** C42 is false for grammars/xml.cgr of the repository: it has documents, nothing in it is ambiguous, the generated parser always
    returns, and it rejects every text there is. *)
Theorem C42_xml_refuted : exists fs file ds g C,
  deliver (fs file) = xml_text /\ grammar_ok fs file ds g C /\ no_preferences ds /\
  derives (rules_of ds) patL (str "<a/>") (hd [] (map fst ds)) 0 4 xml_tree /\
  (forall u, (forall c, In c u -> (0 < c < 256)%N) -> (N.of_nat (length u) < 2 ^ 47)%N -> exists e a pad B, call_env C ds e a u pad B) /\
  forall e a u pad B, call_env C ds e a u pad B -> (exists bs, returned C (g_root g) e a 0 bs) /\ forall v bs, returned C (g_root g) e a v bs -> v = 0%N.
Proof.
  exists (fun _ => xml_text), [], xml_ds, xml_g, xml_C. split; [vm_compute; reflexivity|]. split; [exact xml_ok|]. split; [exact xml_plain|]. split; [exact xml_derives|]. split.
  - intros u HU HL. do 4 eexists. exact (xml_call u HU HL).
  - intros e a u pad B CE. assert (ALL : forall v bs, returned xml_C (g_root xml_g) e a v bs -> v = 0%N) by (intros v bs HV; exact (C42_open_end_partial _ _ _ _ _ _ _ _ _ _ _ _ xml_ok xml_plain CE xml_open HV)).
    split; [|exact ALL]. destruct xml_ends as [L1 L2]. destruct (C41_compiled_file_partial _ _ _ _ _ _ _ _ _ _ xml_ok CE L1 L2) as (v & bs & R). exists bs. rewrite <- (ALL v bs R). exact R.
Qed.
Print Assumptions C42_xml_refuted.
