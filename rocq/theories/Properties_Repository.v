(** * The grammars of the repository
    What the theorems about compiled grammar files say about the grammars in /repo/grammars: json.cgr, xml.cgr, dblp.cgr,
    dblp_schema.cgr and citylots.cgr (which includes json.cgr).  The texts are the files, character by character. *)
From Coq Require Import String Ascii.
From Coq Require Import List NArith ZArith Arith Bool Lia ZifyBool ZifyN ZifyNat Permutation.
From Verif Require Import CharClass CharClassSpec Stream StreamSpec NFA NFASem NFAProofs NFABuild NFAParse DFA DFAProofs DFAMin RegexSpec GrammarSpec Marker TreeSpec ParseSpec Reduction ReductionProofs Writer WriterProofs X86 X86Step CodeGen CodeGenProofs CodeGenSimd CodeGenDfa CodeGenPlain CodeGenMisc CodeGenRoutine ATN ATNSem ATNBuild ATNOpt ATNLive Grammar GrammarProofs Properties_CodeGen Properties_Grammar ParserGen ParserRun ParserSim ParserTree ParserTop Properties_Parser Properties_ParserCases
  EmptySpec EmptyCheck ParserComplete Lookahead LookSpec LookImport LookRead LookSim LookGrammar LookWf LookFit LookNul LookFuel Properties_Look Properties_Compile Properties_Ends LookGrammarSpec ClearSpec Properties_Complete GrammarCheck CompileCheck Properties_CompileCases OpenEndSpec Properties_OpenEnd ATNParse.
Import ListNotations.
Local Open Scope nat_scope.

(** The same grammar from another file. *)
Lemma grammar_ok_file fs file fs' file' ds g C : grammar_ok fs file ds g C -> declares fs' file' ds -> Properties_Grammar.reads fs' file' g -> grammar_ok fs' file' ds g C.
Proof.
  intros [(H1 & H2 & H3 & H4 & H5) A2 A3 A4 A5 A6] HD HR. split; try assumption. repeat (split; try assumption).
Qed.
(** What is said of a grammar file: its parser can be called on every text of bytes 1 to 255; called on a text u at address a it
    returns, with one result; if that is not 0, then it is the end of a beginning of u that is derived from the first rule, and
    the markers of the tree are in the pages. *)
Definition parses (fs : list N -> list N) (file : list N) (ds : list (list N * gsel)) : Prop :=
  exists g C, grammar_ok fs file ds g C /\ no_preferences ds /\
  (forall u, (forall c, In c u -> (0 < c < 256)%N) -> (N.of_nat (length u) < 2 ^ 47)%N -> exists e a pad B, call_env C ds e a u pad B) /\
  forall e a u pad B, call_env C ds e a u pad B ->
    exists v bs, returned C (g_root g) e a v bs /\ (forall v' bs', returned C (g_root g) e a v' bs' -> v' = v /\ bs' = bs) /\
      (v <> 0%N -> exists n t, v = (a + N.of_nat n)%N /\ derives (rules_of ds) patL u (hd [] (map fst ds)) 0 n t /\ List.concat (map bank_content bs) = stream t).
Lemma parses_ok fuel title flat fs file ds g mid looks : deliver flat = flat -> read_grammar fuel (fun _ => flat) [] = SOk (mid, g) -> looks = g_looks g fuel ->
  grammar_check fuel title flat ds g looks = true -> no_preferences ds -> no_left_recursion (rules_of ds) patL -> no_empty_repetition (rules_of ds) patL ->
  declares fs file ds -> Properties_Grammar.reads fs file g -> parses fs file ds.
Proof.
  intros HF HR HK HC HP L1 L2 HD HRD. pose proof (grammar_check_ok fuel 64 title flat (fun _ => flat) [] ds g mid looks HF HR HK HC) as G0.
  exists g, (g_compiled g fuel 64 looks). pose proof (grammar_ok_file _ _ _ _ _ _ _ G0 HD HRD) as G. split; [exact G|]. split; [exact HP|]. split.
  - intros u HU HL. do 4 eexists. apply (check_env fuel 64 title flat ds g mid looks HC u json_pad json_old); [lia|reflexivity|cbn; lia| | | |reflexivity].
    + intros c Hc. apply in_app_or in Hc as [Hc|[<-|Hc]]; [specialize (HU c Hc); lia|lia|]. apply repeat_spec in Hc. subst c. lia.
    + intros c Hc. specialize (HU c Hc). lia.
    + rewrite app_length. cbn [length json_pad repeat]. change (2 ^ 47)%N with 140737488355328%N in HL. change (2 ^ 48)%N with 281474976710656%N. lia.
  - intros e a u pad B CE. destruct (C41_compiled_file_partial _ _ _ _ _ _ _ _ _ _ G CE L1 L2) as (v & bs & R). exists v, bs. split; [exact R|]. split.
    + intros v' bs' R'. destruct (grammar_env _ _ _ _ _ _ _ _ _ _ G CE) as [PE LI].
      assert (RX : exists m, net_index (c_nets (g_compiled g fuel 64 looks)) (g_root g) = Some m).
      { pose proof (go_file _ _ _ _ _ G) as F. destruct (file_nets _ _ _ _ _ F) as (_ & NT & RT). destruct (net_index _ (g_root g)) as [m|] eqn:E; [eauto|]. exfalso.
        pose proof (proj1 NT _ E) as K. rewrite RT in K. destruct F as (_ & _ & HL & _). destruct ds as [|[n0 b0] ds0]; [cbn in HL; lia|]. cbn [map hd fst] in K. unfold rules_of in K. cbn [rules_from] in K. destruct (list_eq_dec N.eq_dec n0 n0); [discriminate|congruence]. }
      exact (C18_one_outcome _ _ _ _ _ _ _ _ _ _ _ PE LI RX R' R).
    + intros NZ. exact (C18_compiled_file _ _ _ _ _ _ _ _ _ _ _ _ G CE R NZ).
Qed.
Print Assumptions parses_ok.
(** A file that ends with more rules. *)
Lemma w_file_app chars resolve f t1 ds1 : w_file chars resolve f t1 ds1 -> forall r ds2, w_file chars resolve f r ds2 -> w_file chars resolve f (t1 ++ r) (ds1 ++ ds2).
Proof.
  induction 1 as [f b HB|f b id e t r ds HB H1 H2 H3 H4 _ IH|f b b1 id b2 r ds HB H1 H2 H3 H4 _ IH|f b b1 p b2 r ds ds' HB H1 H2 H3 H4 _ _ IH]; intros r' ds2 HW.
  - cbn [app]. inversion HW; subst.
    + constructor. apply btext_app; assumption.
    + rewrite app_assoc. apply wf_rule; try assumption. apply btext_app; assumption.
    + rewrite app_assoc. apply wf_name; try assumption. apply btext_app; assumption.
    + rewrite app_assoc. apply wf_include; try assumption. apply btext_app; assumption.
  - rewrite <- !app_assoc. cbn [app]. apply wf_rule; try assumption. exact (IH _ _ HW).
  - repeat (rewrite <- ?app_assoc; cbn [app]). apply wf_name; try assumption. exact (IH _ _ HW).
  - repeat (rewrite <- ?app_assoc; cbn [app]). apply wf_include; try assumption. exact (IH _ _ HW).
Qed.
Local Open Scope string_scope.
(** ** dblp.cgr *)
Definition dblp_text : list N := (str "grammar DBLP;

Document : XmlDecl DocType DblpRoot ;
XmlDecl : '<?xml' Attribute* '?>' ;
DocType : '<!DOCTYPE' 'dblp' 'SYSTEM' Value '>' ;

DblpRoot : '<dblp>' (Article | NonArticle)* '</dblp>' ;
Article : '<article' Attribute* '>' (YearInfo | NonYearInfo)*  '</article>' ;
NonArticle : '<' NonArticleName Attribute* '>' (YearInfo | NonYearInfo)*  /<[/][a-z]+>/ ;
NonArticleName : 'book' | 'incollection' | 'inproceedings'
               | 'mastersthesis' | 'phdthesis' | 'proceedings' | 'www' ;

YearInfo : TargetYearInfo | OtherYearInfo ;
TargetYearInfo : '<year>1990</year>' ;
OtherYearInfo : '<year>' /(([^1])|(1[^9])|(19[^9])|(199[^0]))[0-9]*/ '</year>' ;

NonYearInfo : '<' NonYearInfoName Attribute* '>' Text (HtmlContent Text)* /<[/][a-z]+>/ ;
NonYearInfoName : 'address' | 'author' | 'cdrom' | 'chapter' | 'cite' | 'crossref'
                | 'editor' | 'ee' | 'isbn' | 'journal' | 'month' | 'note' | 'number' 
                | 'pages' | 'publisher' | 'school' | 'series' | 'url' | 'volume'
                | 'booktitle' | 'title' ;

HtmlContent : '<' HtmlElemName '>' Text (HtmlContent Text)* /<[/][a-z]+>/ ;
HtmlElemName : 'i' | 'sub' | 'sup' | 'tt' | 'ref' ;

Text : /[^<]*+/ ;
Attribute : AttrName '=' Value ;
AttrName : /[a-zA-Z][a-zA-Z0-9_]*/ ;
Value : /""[^""]*+""/ ;
").
Definition dblp_title : option (list N) := Some (str "DBLP").
Definition dblp_ds : list (list N * gsel) :=
  [((str "Document"), (GFirst (GCons (GTerm (TRule (str "XmlDecl"))) GOne (GCons (GTerm (TRule (str "DocType"))) GOne (GCons (GTerm (TRule (str "DblpRoot"))) GOne GNil)))));
   ((str "XmlDecl"), (GFirst (GCons (GTerm (TLit (str "<?xml"))) GOne (GCons (GTerm (TRule (str "Attribute"))) GStar (GCons (GTerm (TLit (str "?>"))) GOne GNil)))));
   ((str "DocType"), (GFirst (GCons (GTerm (TLit (str "<!DOCTYPE"))) GOne (GCons (GTerm (TLit (str "dblp"))) GOne (GCons (GTerm (TLit (str "SYSTEM"))) GOne (GCons (GTerm (TRule (str "Value"))) GOne (GCons (GTerm (TLit (str ">"))) GOne GNil)))))));
   ((str "DblpRoot"), (GFirst (GCons (GTerm (TLit (str "<dblp>"))) GOne (GCons (GGroup (GAlt (GFirst (GCons (GTerm (TRule (str "Article"))) GOne GNil)) false (GCons (GTerm (TRule (str "NonArticle"))) GOne GNil))) GStar (GCons (GTerm (TLit (str "</dblp>"))) GOne GNil)))));
   ((str "Article"), (GFirst (GCons (GTerm (TLit (str "<article"))) GOne (GCons (GTerm (TRule (str "Attribute"))) GStar (GCons (GTerm (TLit (str ">"))) GOne (GCons (GGroup (GAlt (GFirst (GCons (GTerm (TRule (str "YearInfo"))) GOne GNil)) false (GCons (GTerm (TRule (str "NonYearInfo"))) GOne GNil))) GStar (GCons (GTerm (TLit (str "</article>"))) GOne GNil)))))));
   ((str "NonArticle"), (GFirst (GCons (GTerm (TLit (str "<"))) GOne (GCons (GTerm (TRule (str "NonArticleName"))) GOne (GCons (GTerm (TRule (str "Attribute"))) GStar (GCons (GTerm (TLit (str ">"))) GOne (GCons (GGroup (GAlt (GFirst (GCons (GTerm (TRule (str "YearInfo"))) GOne GNil)) false (GCons (GTerm (TRule (str "NonYearInfo"))) GOne GNil))) GStar (GCons (GTerm (TPat (PSnoc (PSnoc (PSnoc (PSnoc PNil (SOne (UAtom (AChar 60)) QOne)) (SOne (UAtom (ASet [Single 47])) QOne)) (SOne (UAtom (ASet [Span 97 122])) (QPlus false))) (SOne (UAtom (AChar 62)) QOne)))) GOne GNil))))))));
   ((str "NonArticleName"), (GAlt (GAlt (GAlt (GAlt (GAlt (GAlt (GFirst (GCons (GTerm (TLit (str "book"))) GOne GNil)) false (GCons (GTerm (TLit (str "incollection"))) GOne GNil)) false (GCons (GTerm (TLit (str "inproceedings"))) GOne GNil)) false (GCons (GTerm (TLit (str "mastersthesis"))) GOne GNil)) false (GCons (GTerm (TLit (str "phdthesis"))) GOne GNil)) false (GCons (GTerm (TLit (str "proceedings"))) GOne GNil)) false (GCons (GTerm (TLit (str "www"))) GOne GNil)));
   ((str "YearInfo"), (GAlt (GFirst (GCons (GTerm (TRule (str "TargetYearInfo"))) GOne GNil)) false (GCons (GTerm (TRule (str "OtherYearInfo"))) GOne GNil)));
   ((str "TargetYearInfo"), (GFirst (GCons (GTerm (TLit (str "<year>1990</year>"))) GOne GNil)));
   ((str "OtherYearInfo"), (GFirst (GCons (GTerm (TLit (str "<year>"))) GOne (GCons (GTerm (TPat (PSnoc (PSnoc PNil (SOne (UGroup (PSnoc PNil (SAlt (SAlt (SAlt (SOne (UGroup (PSnoc PNil (SOne (UAtom (ANot [Single 49])) QOne))) QOne) (UGroup (PSnoc (PSnoc PNil (SOne (UAtom (AChar 49)) QOne)) (SOne (UAtom (ANot [Single 57])) QOne))) QOne) (UGroup (PSnoc (PSnoc (PSnoc PNil (SOne (UAtom (AChar 49)) QOne)) (SOne (UAtom (AChar 57)) QOne)) (SOne (UAtom (ANot [Single 57])) QOne))) QOne) (UGroup (PSnoc (PSnoc (PSnoc (PSnoc PNil (SOne (UAtom (AChar 49)) QOne)) (SOne (UAtom (AChar 57)) QOne)) (SOne (UAtom (AChar 57)) QOne)) (SOne (UAtom (ANot [Single 48])) QOne))) QOne))) QOne)) (SOne (UAtom (ASet [Span 48 57])) (QStar false))))) GOne (GCons (GTerm (TLit (str "</year>"))) GOne GNil)))));
   ((str "NonYearInfo"), (GFirst (GCons (GTerm (TLit (str "<"))) GOne (GCons (GTerm (TRule (str "NonYearInfoName"))) GOne (GCons (GTerm (TRule (str "Attribute"))) GStar (GCons (GTerm (TLit (str ">"))) GOne (GCons (GTerm (TRule (str "Text"))) GOne (GCons (GGroup (GFirst (GCons (GTerm (TRule (str "HtmlContent"))) GOne (GCons (GTerm (TRule (str "Text"))) GOne GNil)))) GStar (GCons (GTerm (TPat (PSnoc (PSnoc (PSnoc (PSnoc PNil (SOne (UAtom (AChar 60)) QOne)) (SOne (UAtom (ASet [Single 47])) QOne)) (SOne (UAtom (ASet [Span 97 122])) (QPlus false))) (SOne (UAtom (AChar 62)) QOne)))) GOne GNil)))))))));
   ((str "NonYearInfoName"), (GAlt (GAlt (GAlt (GAlt (GAlt (GAlt (GAlt (GAlt (GAlt (GAlt (GAlt (GAlt (GAlt (GAlt (GAlt (GAlt (GAlt (GAlt (GAlt (GAlt (GFirst (GCons (GTerm (TLit (str "address"))) GOne GNil)) false (GCons (GTerm (TLit (str "author"))) GOne GNil)) false (GCons (GTerm (TLit (str "cdrom"))) GOne GNil)) false (GCons (GTerm (TLit (str "chapter"))) GOne GNil)) false (GCons (GTerm (TLit (str "cite"))) GOne GNil)) false (GCons (GTerm (TLit (str "crossref"))) GOne GNil)) false (GCons (GTerm (TLit (str "editor"))) GOne GNil)) false (GCons (GTerm (TLit (str "ee"))) GOne GNil)) false (GCons (GTerm (TLit (str "isbn"))) GOne GNil)) false (GCons (GTerm (TLit (str "journal"))) GOne GNil)) false (GCons (GTerm (TLit (str "month"))) GOne GNil)) false (GCons (GTerm (TLit (str "note"))) GOne GNil)) false (GCons (GTerm (TLit (str "number"))) GOne GNil)) false (GCons (GTerm (TLit (str "pages"))) GOne GNil)) false (GCons (GTerm (TLit (str "publisher"))) GOne GNil)) false (GCons (GTerm (TLit (str "school"))) GOne GNil)) false (GCons (GTerm (TLit (str "series"))) GOne GNil)) false (GCons (GTerm (TLit (str "url"))) GOne GNil)) false (GCons (GTerm (TLit (str "volume"))) GOne GNil)) false (GCons (GTerm (TLit (str "booktitle"))) GOne GNil)) false (GCons (GTerm (TLit (str "title"))) GOne GNil)));
   ((str "HtmlContent"), (GFirst (GCons (GTerm (TLit (str "<"))) GOne (GCons (GTerm (TRule (str "HtmlElemName"))) GOne (GCons (GTerm (TLit (str ">"))) GOne (GCons (GTerm (TRule (str "Text"))) GOne (GCons (GGroup (GFirst (GCons (GTerm (TRule (str "HtmlContent"))) GOne (GCons (GTerm (TRule (str "Text"))) GOne GNil)))) GStar (GCons (GTerm (TPat (PSnoc (PSnoc (PSnoc (PSnoc PNil (SOne (UAtom (AChar 60)) QOne)) (SOne (UAtom (ASet [Single 47])) QOne)) (SOne (UAtom (ASet [Span 97 122])) (QPlus false))) (SOne (UAtom (AChar 62)) QOne)))) GOne GNil))))))));
   ((str "HtmlElemName"), (GAlt (GAlt (GAlt (GAlt (GFirst (GCons (GTerm (TLit (str "i"))) GOne GNil)) false (GCons (GTerm (TLit (str "sub"))) GOne GNil)) false (GCons (GTerm (TLit (str "sup"))) GOne GNil)) false (GCons (GTerm (TLit (str "tt"))) GOne GNil)) false (GCons (GTerm (TLit (str "ref"))) GOne GNil)));
   ((str "Text"), (GFirst (GCons (GTerm (TPat (PSnoc PNil (SOne (UAtom (ANot [Single 60])) (QStar true))))) GOne GNil)));
   ((str "Attribute"), (GFirst (GCons (GTerm (TRule (str "AttrName"))) GOne (GCons (GTerm (TLit (str "="))) GOne (GCons (GTerm (TRule (str "Value"))) GOne GNil)))));
   ((str "AttrName"), (GFirst (GCons (GTerm (TPat (PSnoc (PSnoc PNil (SOne (UAtom (ASet [Span 97 122; Span 65 90])) QOne)) (SOne (UAtom (ASet [Span 97 122; Span 65 90; Span 48 57; Single 95])) (QStar false))))) GOne GNil)));
   ((str "Value"), (GFirst (GCons (GTerm (TPat (PSnoc (PSnoc (PSnoc PNil (SOne (UAtom (AChar 34)) QOne)) (SOne (UAtom (ANot [Single 34])) (QStar true))) (SOne (UAtom (AChar 34)) QOne)))) GOne GNil)))].
(** ** dblp_schema.cgr *)
Definition dblp_schema_text : list N := (str "grammar DBLP ;

Document : XmlDecl DocType DblpRoot ;
XmlDecl : '<?xml' Attribute* '?>' ;
DocType : '<!DOCTYPE' 'dblp' 'SYSTEM' Value '>' ;

DblpRoot : '<dblp>' PubRecord* '</dblp>' ;
PubRecord : '<' PubRecordName Attribute* '>' BibInfo*  /<[/][a-z]*>/ ;
PubRecordName : 'article' | 'book' | 'incollection' | 'inproceedings'
              | 'mastersthesis' | 'phdthesis' | 'proceedings' | 'www' ;

BibInfo : FlatBibInfo | HtmlBibInfo ;
BibInfoName : 'address' | 'author' | 'cdrom' | 'chapter' | 'cite' | 'crossref'
            | 'editor' | 'ee' | 'isbn' | 'journal' | 'month' | 'note' | 'number' 
            | 'pages' | 'publisher' | 'school' | 'series' | 'url' | 'volume' | 'year' 
            | 'booktitle' | 'title' ;

FlatBibInfo : '<' FlatBibInfoName Attribute* '>' Text /<[/][a-z]*>/ ;
FlatBibInfoName : 'address' | 'author' | 'cdrom' | 'chapter' | 'cite' | 'crossref'
                | 'editor' | 'ee' | 'isbn' | 'journal' | 'month' | 'note' | 'number' 
                | 'pages' | 'publisher' | 'school' | 'series' | 'url' | 'volume' | 'year' ;

HtmlBibInfo : '<' HtmlBibInfoName Attribute* '>' Text (HtmlContent Text)* /<[/][a-z]*>/ ;
HtmlBibInfoName : 'booktitle' | 'title' ;

HtmlContent : '<' HtmlElemName '>' Text (HtmlContent Text)* /<[/][a-z]*>/ ;
HtmlElemName : 'i' | 'sub' | 'sup' | 'tt' | 'ref' ;

Text : /[^<]*+/ ;
Attribute : AttrName '=' Value ;
AttrName : /[a-zA-Z][a-zA-Z0-9_]*/ ;
Value : /""[^""]*+""/ ;
").
Definition dblp_schema_title : option (list N) := Some (str "DBLP").
Definition dblp_schema_ds : list (list N * gsel) :=
  [((str "Document"), (GFirst (GCons (GTerm (TRule (str "XmlDecl"))) GOne (GCons (GTerm (TRule (str "DocType"))) GOne (GCons (GTerm (TRule (str "DblpRoot"))) GOne GNil)))));
   ((str "XmlDecl"), (GFirst (GCons (GTerm (TLit (str "<?xml"))) GOne (GCons (GTerm (TRule (str "Attribute"))) GStar (GCons (GTerm (TLit (str "?>"))) GOne GNil)))));
   ((str "DocType"), (GFirst (GCons (GTerm (TLit (str "<!DOCTYPE"))) GOne (GCons (GTerm (TLit (str "dblp"))) GOne (GCons (GTerm (TLit (str "SYSTEM"))) GOne (GCons (GTerm (TRule (str "Value"))) GOne (GCons (GTerm (TLit (str ">"))) GOne GNil)))))));
   ((str "DblpRoot"), (GFirst (GCons (GTerm (TLit (str "<dblp>"))) GOne (GCons (GTerm (TRule (str "PubRecord"))) GStar (GCons (GTerm (TLit (str "</dblp>"))) GOne GNil)))));
   ((str "PubRecord"), (GFirst (GCons (GTerm (TLit (str "<"))) GOne (GCons (GTerm (TRule (str "PubRecordName"))) GOne (GCons (GTerm (TRule (str "Attribute"))) GStar (GCons (GTerm (TLit (str ">"))) GOne (GCons (GTerm (TRule (str "BibInfo"))) GStar (GCons (GTerm (TPat (PSnoc (PSnoc (PSnoc (PSnoc PNil (SOne (UAtom (AChar 60)) QOne)) (SOne (UAtom (ASet [Single 47])) QOne)) (SOne (UAtom (ASet [Span 97 122])) (QStar false))) (SOne (UAtom (AChar 62)) QOne)))) GOne GNil))))))));
   ((str "PubRecordName"), (GAlt (GAlt (GAlt (GAlt (GAlt (GAlt (GAlt (GFirst (GCons (GTerm (TLit (str "article"))) GOne GNil)) false (GCons (GTerm (TLit (str "book"))) GOne GNil)) false (GCons (GTerm (TLit (str "incollection"))) GOne GNil)) false (GCons (GTerm (TLit (str "inproceedings"))) GOne GNil)) false (GCons (GTerm (TLit (str "mastersthesis"))) GOne GNil)) false (GCons (GTerm (TLit (str "phdthesis"))) GOne GNil)) false (GCons (GTerm (TLit (str "proceedings"))) GOne GNil)) false (GCons (GTerm (TLit (str "www"))) GOne GNil)));
   ((str "BibInfo"), (GAlt (GFirst (GCons (GTerm (TRule (str "FlatBibInfo"))) GOne GNil)) false (GCons (GTerm (TRule (str "HtmlBibInfo"))) GOne GNil)));
   ((str "BibInfoName"), (GAlt (GAlt (GAlt (GAlt (GAlt (GAlt (GAlt (GAlt (GAlt (GAlt (GAlt (GAlt (GAlt (GAlt (GAlt (GAlt (GAlt (GAlt (GAlt (GAlt (GAlt (GFirst (GCons (GTerm (TLit (str "address"))) GOne GNil)) false (GCons (GTerm (TLit (str "author"))) GOne GNil)) false (GCons (GTerm (TLit (str "cdrom"))) GOne GNil)) false (GCons (GTerm (TLit (str "chapter"))) GOne GNil)) false (GCons (GTerm (TLit (str "cite"))) GOne GNil)) false (GCons (GTerm (TLit (str "crossref"))) GOne GNil)) false (GCons (GTerm (TLit (str "editor"))) GOne GNil)) false (GCons (GTerm (TLit (str "ee"))) GOne GNil)) false (GCons (GTerm (TLit (str "isbn"))) GOne GNil)) false (GCons (GTerm (TLit (str "journal"))) GOne GNil)) false (GCons (GTerm (TLit (str "month"))) GOne GNil)) false (GCons (GTerm (TLit (str "note"))) GOne GNil)) false (GCons (GTerm (TLit (str "number"))) GOne GNil)) false (GCons (GTerm (TLit (str "pages"))) GOne GNil)) false (GCons (GTerm (TLit (str "publisher"))) GOne GNil)) false (GCons (GTerm (TLit (str "school"))) GOne GNil)) false (GCons (GTerm (TLit (str "series"))) GOne GNil)) false (GCons (GTerm (TLit (str "url"))) GOne GNil)) false (GCons (GTerm (TLit (str "volume"))) GOne GNil)) false (GCons (GTerm (TLit (str "year"))) GOne GNil)) false (GCons (GTerm (TLit (str "booktitle"))) GOne GNil)) false (GCons (GTerm (TLit (str "title"))) GOne GNil)));
   ((str "FlatBibInfo"), (GFirst (GCons (GTerm (TLit (str "<"))) GOne (GCons (GTerm (TRule (str "FlatBibInfoName"))) GOne (GCons (GTerm (TRule (str "Attribute"))) GStar (GCons (GTerm (TLit (str ">"))) GOne (GCons (GTerm (TRule (str "Text"))) GOne (GCons (GTerm (TPat (PSnoc (PSnoc (PSnoc (PSnoc PNil (SOne (UAtom (AChar 60)) QOne)) (SOne (UAtom (ASet [Single 47])) QOne)) (SOne (UAtom (ASet [Span 97 122])) (QStar false))) (SOne (UAtom (AChar 62)) QOne)))) GOne GNil))))))));
   ((str "FlatBibInfoName"), (GAlt (GAlt (GAlt (GAlt (GAlt (GAlt (GAlt (GAlt (GAlt (GAlt (GAlt (GAlt (GAlt (GAlt (GAlt (GAlt (GAlt (GAlt (GAlt (GFirst (GCons (GTerm (TLit (str "address"))) GOne GNil)) false (GCons (GTerm (TLit (str "author"))) GOne GNil)) false (GCons (GTerm (TLit (str "cdrom"))) GOne GNil)) false (GCons (GTerm (TLit (str "chapter"))) GOne GNil)) false (GCons (GTerm (TLit (str "cite"))) GOne GNil)) false (GCons (GTerm (TLit (str "crossref"))) GOne GNil)) false (GCons (GTerm (TLit (str "editor"))) GOne GNil)) false (GCons (GTerm (TLit (str "ee"))) GOne GNil)) false (GCons (GTerm (TLit (str "isbn"))) GOne GNil)) false (GCons (GTerm (TLit (str "journal"))) GOne GNil)) false (GCons (GTerm (TLit (str "month"))) GOne GNil)) false (GCons (GTerm (TLit (str "note"))) GOne GNil)) false (GCons (GTerm (TLit (str "number"))) GOne GNil)) false (GCons (GTerm (TLit (str "pages"))) GOne GNil)) false (GCons (GTerm (TLit (str "publisher"))) GOne GNil)) false (GCons (GTerm (TLit (str "school"))) GOne GNil)) false (GCons (GTerm (TLit (str "series"))) GOne GNil)) false (GCons (GTerm (TLit (str "url"))) GOne GNil)) false (GCons (GTerm (TLit (str "volume"))) GOne GNil)) false (GCons (GTerm (TLit (str "year"))) GOne GNil)));
   ((str "HtmlBibInfo"), (GFirst (GCons (GTerm (TLit (str "<"))) GOne (GCons (GTerm (TRule (str "HtmlBibInfoName"))) GOne (GCons (GTerm (TRule (str "Attribute"))) GStar (GCons (GTerm (TLit (str ">"))) GOne (GCons (GTerm (TRule (str "Text"))) GOne (GCons (GGroup (GFirst (GCons (GTerm (TRule (str "HtmlContent"))) GOne (GCons (GTerm (TRule (str "Text"))) GOne GNil)))) GStar (GCons (GTerm (TPat (PSnoc (PSnoc (PSnoc (PSnoc PNil (SOne (UAtom (AChar 60)) QOne)) (SOne (UAtom (ASet [Single 47])) QOne)) (SOne (UAtom (ASet [Span 97 122])) (QStar false))) (SOne (UAtom (AChar 62)) QOne)))) GOne GNil)))))))));
   ((str "HtmlBibInfoName"), (GAlt (GFirst (GCons (GTerm (TLit (str "booktitle"))) GOne GNil)) false (GCons (GTerm (TLit (str "title"))) GOne GNil)));
   ((str "HtmlContent"), (GFirst (GCons (GTerm (TLit (str "<"))) GOne (GCons (GTerm (TRule (str "HtmlElemName"))) GOne (GCons (GTerm (TLit (str ">"))) GOne (GCons (GTerm (TRule (str "Text"))) GOne (GCons (GGroup (GFirst (GCons (GTerm (TRule (str "HtmlContent"))) GOne (GCons (GTerm (TRule (str "Text"))) GOne GNil)))) GStar (GCons (GTerm (TPat (PSnoc (PSnoc (PSnoc (PSnoc PNil (SOne (UAtom (AChar 60)) QOne)) (SOne (UAtom (ASet [Single 47])) QOne)) (SOne (UAtom (ASet [Span 97 122])) (QStar false))) (SOne (UAtom (AChar 62)) QOne)))) GOne GNil))))))));
   ((str "HtmlElemName"), (GAlt (GAlt (GAlt (GAlt (GFirst (GCons (GTerm (TLit (str "i"))) GOne GNil)) false (GCons (GTerm (TLit (str "sub"))) GOne GNil)) false (GCons (GTerm (TLit (str "sup"))) GOne GNil)) false (GCons (GTerm (TLit (str "tt"))) GOne GNil)) false (GCons (GTerm (TLit (str "ref"))) GOne GNil)));
   ((str "Text"), (GFirst (GCons (GTerm (TPat (PSnoc PNil (SOne (UAtom (ANot [Single 60])) (QStar true))))) GOne GNil)));
   ((str "Attribute"), (GFirst (GCons (GTerm (TRule (str "AttrName"))) GOne (GCons (GTerm (TLit (str "="))) GOne (GCons (GTerm (TRule (str "Value"))) GOne GNil)))));
   ((str "AttrName"), (GFirst (GCons (GTerm (TPat (PSnoc (PSnoc PNil (SOne (UAtom (ASet [Span 97 122; Span 65 90])) QOne)) (SOne (UAtom (ASet [Span 97 122; Span 65 90; Span 48 57; Single 95])) (QStar false))))) GOne GNil)));
   ((str "Value"), (GFirst (GCons (GTerm (TPat (PSnoc (PSnoc (PSnoc PNil (SOne (UAtom (AChar 34)) QOne)) (SOne (UAtom (ANot [Single 34])) (QStar true))) (SOne (UAtom (AChar 34)) QOne)))) GOne GNil)))].
(** ** citylots.cgr; and the same without include, with the rules of json.cgr in its place; the grammar's name is that of the last file read, JSON *)
Definition city_text : list N := (str "grammar CityLots;

RootObject : '{' '""type""' ':' '""FeatureCollection""' ',' '""features""' ':' FeatureList '}' ;
FeatureList : '[' FeatureDict (',' FeatureDict)* ']' ;
FeatureDict : '{' '""type""' ':' '""Feature""' ',' '""properties""' ':' PropertyDict ',' '""geometry""' ':' Object '}' ;
PropertyDict : '{' (TargetPropertyEntry | OtherPropertyEntry) (','  (TargetPropertyEntry | OtherPropertyEntry))* '}' ;

TargetPropertyEntry : TargetPropertyKey ':' TargetPropertyValue ;
OtherPropertyEntry : OtherPropertyKey ':' (String | Null)
                   | TargetPropertyKey  ':' (OtherPropertyValue | Null) ; 
TargetPropertyKey : '""STREET""' ;
OtherPropertyKey : /""([^S""]|(S[^T""])|(ST[^R""])|(STR[^E""])|(STRE[^E""])|(STREE[^T""]))[^""]*+""/ ;
TargetPropertyValue : '""JEFFERSON""' ;
OtherPropertyValue : /""([^J""]|(J[^E""])|(JE[^F""])|(JEF[^F""])|(JEFF[^E""])|(JEFFE[^R""])|(JEFFER[^S""])|(JEFFERS[^O""])|(JEFFERSO[^N""]))[^""]*+""/ ;

").
Definition city_title : option (list N) := Some (str "CityLots").
Definition city_ds : list (list N * gsel) :=
  [((str "RootObject"), (GFirst (GCons (GTerm (TLit (str "{"))) GOne (GCons (GTerm (TLit (str """type"""))) GOne (GCons (GTerm (TLit (str ":"))) GOne (GCons (GTerm (TLit (str """FeatureCollection"""))) GOne (GCons (GTerm (TLit (str ","))) GOne (GCons (GTerm (TLit (str """features"""))) GOne (GCons (GTerm (TLit (str ":"))) GOne (GCons (GTerm (TRule (str "FeatureList"))) GOne (GCons (GTerm (TLit (str "}"))) GOne GNil)))))))))));
   ((str "FeatureList"), (GFirst (GCons (GTerm (TLit (str "["))) GOne (GCons (GTerm (TRule (str "FeatureDict"))) GOne (GCons (GGroup (GFirst (GCons (GTerm (TLit (str ","))) GOne (GCons (GTerm (TRule (str "FeatureDict"))) GOne GNil)))) GStar (GCons (GTerm (TLit (str "]"))) GOne GNil))))));
   ((str "FeatureDict"), (GFirst (GCons (GTerm (TLit (str "{"))) GOne (GCons (GTerm (TLit (str """type"""))) GOne (GCons (GTerm (TLit (str ":"))) GOne (GCons (GTerm (TLit (str """Feature"""))) GOne (GCons (GTerm (TLit (str ","))) GOne (GCons (GTerm (TLit (str """properties"""))) GOne (GCons (GTerm (TLit (str ":"))) GOne (GCons (GTerm (TRule (str "PropertyDict"))) GOne (GCons (GTerm (TLit (str ","))) GOne (GCons (GTerm (TLit (str """geometry"""))) GOne (GCons (GTerm (TLit (str ":"))) GOne (GCons (GTerm (TRule (str "Object"))) GOne (GCons (GTerm (TLit (str "}"))) GOne GNil)))))))))))))));
   ((str "PropertyDict"), (GFirst (GCons (GTerm (TLit (str "{"))) GOne (GCons (GGroup (GAlt (GFirst (GCons (GTerm (TRule (str "TargetPropertyEntry"))) GOne GNil)) false (GCons (GTerm (TRule (str "OtherPropertyEntry"))) GOne GNil))) GOne (GCons (GGroup (GFirst (GCons (GTerm (TLit (str ","))) GOne (GCons (GGroup (GAlt (GFirst (GCons (GTerm (TRule (str "TargetPropertyEntry"))) GOne GNil)) false (GCons (GTerm (TRule (str "OtherPropertyEntry"))) GOne GNil))) GOne GNil)))) GStar (GCons (GTerm (TLit (str "}"))) GOne GNil))))));
   ((str "TargetPropertyEntry"), (GFirst (GCons (GTerm (TRule (str "TargetPropertyKey"))) GOne (GCons (GTerm (TLit (str ":"))) GOne (GCons (GTerm (TRule (str "TargetPropertyValue"))) GOne GNil)))));
   ((str "OtherPropertyEntry"), (GAlt (GFirst (GCons (GTerm (TRule (str "OtherPropertyKey"))) GOne (GCons (GTerm (TLit (str ":"))) GOne (GCons (GGroup (GAlt (GFirst (GCons (GTerm (TRule (str "String"))) GOne GNil)) false (GCons (GTerm (TRule (str "Null"))) GOne GNil))) GOne GNil)))) false (GCons (GTerm (TRule (str "TargetPropertyKey"))) GOne (GCons (GTerm (TLit (str ":"))) GOne (GCons (GGroup (GAlt (GFirst (GCons (GTerm (TRule (str "OtherPropertyValue"))) GOne GNil)) false (GCons (GTerm (TRule (str "Null"))) GOne GNil))) GOne GNil)))));
   ((str "TargetPropertyKey"), (GFirst (GCons (GTerm (TLit (str """STREET"""))) GOne GNil)));
   ((str "OtherPropertyKey"), (GFirst (GCons (GTerm (TPat (PSnoc (PSnoc (PSnoc (PSnoc PNil (SOne (UAtom (AChar 34)) QOne)) (SOne (UGroup (PSnoc PNil (SAlt (SAlt (SAlt (SAlt (SAlt (SOne (UAtom (ANot [Single 83; Single 34])) QOne) (UGroup (PSnoc (PSnoc PNil (SOne (UAtom (AChar 83)) QOne)) (SOne (UAtom (ANot [Single 84; Single 34])) QOne))) QOne) (UGroup (PSnoc (PSnoc (PSnoc PNil (SOne (UAtom (AChar 83)) QOne)) (SOne (UAtom (AChar 84)) QOne)) (SOne (UAtom (ANot [Single 82; Single 34])) QOne))) QOne) (UGroup (PSnoc (PSnoc (PSnoc (PSnoc PNil (SOne (UAtom (AChar 83)) QOne)) (SOne (UAtom (AChar 84)) QOne)) (SOne (UAtom (AChar 82)) QOne)) (SOne (UAtom (ANot [Single 69; Single 34])) QOne))) QOne) (UGroup (PSnoc (PSnoc (PSnoc (PSnoc (PSnoc PNil (SOne (UAtom (AChar 83)) QOne)) (SOne (UAtom (AChar 84)) QOne)) (SOne (UAtom (AChar 82)) QOne)) (SOne (UAtom (AChar 69)) QOne)) (SOne (UAtom (ANot [Single 69; Single 34])) QOne))) QOne) (UGroup (PSnoc (PSnoc (PSnoc (PSnoc (PSnoc (PSnoc PNil (SOne (UAtom (AChar 83)) QOne)) (SOne (UAtom (AChar 84)) QOne)) (SOne (UAtom (AChar 82)) QOne)) (SOne (UAtom (AChar 69)) QOne)) (SOne (UAtom (AChar 69)) QOne)) (SOne (UAtom (ANot [Single 84; Single 34])) QOne))) QOne))) QOne)) (SOne (UAtom (ANot [Single 34])) (QStar true))) (SOne (UAtom (AChar 34)) QOne)))) GOne GNil)));
   ((str "TargetPropertyValue"), (GFirst (GCons (GTerm (TLit (str """JEFFERSON"""))) GOne GNil)));
   ((str "OtherPropertyValue"), (GFirst (GCons (GTerm (TPat (PSnoc (PSnoc (PSnoc (PSnoc PNil (SOne (UAtom (AChar 34)) QOne)) (SOne (UGroup (PSnoc PNil (SAlt (SAlt (SAlt (SAlt (SAlt (SAlt (SAlt (SAlt (SOne (UAtom (ANot [Single 74; Single 34])) QOne) (UGroup (PSnoc (PSnoc PNil (SOne (UAtom (AChar 74)) QOne)) (SOne (UAtom (ANot [Single 69; Single 34])) QOne))) QOne) (UGroup (PSnoc (PSnoc (PSnoc PNil (SOne (UAtom (AChar 74)) QOne)) (SOne (UAtom (AChar 69)) QOne)) (SOne (UAtom (ANot [Single 70; Single 34])) QOne))) QOne) (UGroup (PSnoc (PSnoc (PSnoc (PSnoc PNil (SOne (UAtom (AChar 74)) QOne)) (SOne (UAtom (AChar 69)) QOne)) (SOne (UAtom (AChar 70)) QOne)) (SOne (UAtom (ANot [Single 70; Single 34])) QOne))) QOne) (UGroup (PSnoc (PSnoc (PSnoc (PSnoc (PSnoc PNil (SOne (UAtom (AChar 74)) QOne)) (SOne (UAtom (AChar 69)) QOne)) (SOne (UAtom (AChar 70)) QOne)) (SOne (UAtom (AChar 70)) QOne)) (SOne (UAtom (ANot [Single 69; Single 34])) QOne))) QOne) (UGroup (PSnoc (PSnoc (PSnoc (PSnoc (PSnoc (PSnoc PNil (SOne (UAtom (AChar 74)) QOne)) (SOne (UAtom (AChar 69)) QOne)) (SOne (UAtom (AChar 70)) QOne)) (SOne (UAtom (AChar 70)) QOne)) (SOne (UAtom (AChar 69)) QOne)) (SOne (UAtom (ANot [Single 82; Single 34])) QOne))) QOne) (UGroup (PSnoc (PSnoc (PSnoc (PSnoc (PSnoc (PSnoc (PSnoc PNil (SOne (UAtom (AChar 74)) QOne)) (SOne (UAtom (AChar 69)) QOne)) (SOne (UAtom (AChar 70)) QOne)) (SOne (UAtom (AChar 70)) QOne)) (SOne (UAtom (AChar 69)) QOne)) (SOne (UAtom (AChar 82)) QOne)) (SOne (UAtom (ANot [Single 83; Single 34])) QOne))) QOne) (UGroup (PSnoc (PSnoc (PSnoc (PSnoc (PSnoc (PSnoc (PSnoc (PSnoc PNil (SOne (UAtom (AChar 74)) QOne)) (SOne (UAtom (AChar 69)) QOne)) (SOne (UAtom (AChar 70)) QOne)) (SOne (UAtom (AChar 70)) QOne)) (SOne (UAtom (AChar 69)) QOne)) (SOne (UAtom (AChar 82)) QOne)) (SOne (UAtom (AChar 83)) QOne)) (SOne (UAtom (ANot [Single 79; Single 34])) QOne))) QOne) (UGroup (PSnoc (PSnoc (PSnoc (PSnoc (PSnoc (PSnoc (PSnoc (PSnoc (PSnoc PNil (SOne (UAtom (AChar 74)) QOne)) (SOne (UAtom (AChar 69)) QOne)) (SOne (UAtom (AChar 70)) QOne)) (SOne (UAtom (AChar 70)) QOne)) (SOne (UAtom (AChar 69)) QOne)) (SOne (UAtom (AChar 82)) QOne)) (SOne (UAtom (AChar 83)) QOne)) (SOne (UAtom (AChar 79)) QOne)) (SOne (UAtom (ANot [Single 78; Single 34])) QOne))) QOne))) QOne)) (SOne (UAtom (ANot [Single 34])) (QStar true))) (SOne (UAtom (AChar 34)) QOne)))) GOne GNil)))].
Definition citylots_text : list N := (str "grammar CityLots;

RootObject : '{' '""type""' ':' '""FeatureCollection""' ',' '""features""' ':' FeatureList '}' ;
FeatureList : '[' FeatureDict (',' FeatureDict)* ']' ;
FeatureDict : '{' '""type""' ':' '""Feature""' ',' '""properties""' ':' PropertyDict ',' '""geometry""' ':' Object '}' ;
PropertyDict : '{' (TargetPropertyEntry | OtherPropertyEntry) (','  (TargetPropertyEntry | OtherPropertyEntry))* '}' ;

TargetPropertyEntry : TargetPropertyKey ':' TargetPropertyValue ;
OtherPropertyEntry : OtherPropertyKey ':' (String | Null)
                   | TargetPropertyKey  ':' (OtherPropertyValue | Null) ; 
TargetPropertyKey : '""STREET""' ;
OtherPropertyKey : /""([^S""]|(S[^T""])|(ST[^R""])|(STR[^E""])|(STRE[^E""])|(STREE[^T""]))[^""]*+""/ ;
TargetPropertyValue : '""JEFFERSON""' ;
OtherPropertyValue : /""([^J""]|(J[^E""])|(JE[^F""])|(JEF[^F""])|(JEFF[^E""])|(JEFFE[^R""])|(JEFFER[^S""])|(JEFFERS[^O""])|(JEFFERSO[^N""]))[^""]*+""/ ;

include ""json.cgr"";
").
Definition citylots_flat : list N := (str "grammar JSON;

RootObject : '{' '""type""' ':' '""FeatureCollection""' ',' '""features""' ':' FeatureList '}' ;
FeatureList : '[' FeatureDict (',' FeatureDict)* ']' ;
FeatureDict : '{' '""type""' ':' '""Feature""' ',' '""properties""' ':' PropertyDict ',' '""geometry""' ':' Object '}' ;
PropertyDict : '{' (TargetPropertyEntry | OtherPropertyEntry) (','  (TargetPropertyEntry | OtherPropertyEntry))* '}' ;

TargetPropertyEntry : TargetPropertyKey ':' TargetPropertyValue ;
OtherPropertyEntry : OtherPropertyKey ':' (String | Null)
                   | TargetPropertyKey  ':' (OtherPropertyValue | Null) ; 
TargetPropertyKey : '""STREET""' ;
OtherPropertyKey : /""([^S""]|(S[^T""])|(ST[^R""])|(STR[^E""])|(STRE[^E""])|(STREE[^T""]))[^""]*+""/ ;
TargetPropertyValue : '""JEFFERSON""' ;
OtherPropertyValue : /""([^J""]|(J[^E""])|(JE[^F""])|(JEF[^F""])|(JEFF[^E""])|(JEFFE[^R""])|(JEFFER[^S""])|(JEFFERS[^O""])|(JEFFERSO[^N""]))[^""]*+""/ ;



Object : Number | String | List | Dict | False | True | Null ;
Number : /-?[0-9]++[.]?[0-9]*+/ ;
String : /""([^\\""]|(\\[""]))*+""/ ;
List : '[' (']' | Object (',' Object)* ']') ;
DictEntry : String ':' Object ;
Dict : '{' ('}' | DictEntry (',' DictEntry)* '}') ;
False: 'false' ;
True : 'true' ;
Null : 'null' ;
").
Definition citylots_ds : list (list N * gsel) := Eval vm_compute in (city_ds ++ json_ds)%list.
Definition dblp_order : list (list N) := map str ["Value"; "AttrName"; "Attribute"; "Text"; "HtmlElemName"; "HtmlContent"; "NonYearInfoName"; "NonYearInfo"; "OtherYearInfo"; "TargetYearInfo"; "YearInfo"; "NonArticleName"; "NonArticle"; "Article"; "DblpRoot"; "DocType"; "XmlDecl"; "Document"].
Definition dblp_schema_order : list (list N) := map str ["Value"; "AttrName"; "Attribute"; "Text"; "HtmlElemName"; "HtmlContent"; "HtmlBibInfoName"; "HtmlBibInfo"; "FlatBibInfoName"; "FlatBibInfo"; "BibInfoName"; "BibInfo"; "PubRecordName"; "PubRecord"; "DblpRoot"; "DocType"; "XmlDecl"; "Document"].
Definition citylots_order : list (list N) := map str ["Number"; "String"; "List"; "Dict"; "False"; "True"; "Null"; "DictEntry"; "Object"; "OtherPropertyValue"; "TargetPropertyValue"; "OtherPropertyKey"; "TargetPropertyKey"; "OtherPropertyEntry"; "TargetPropertyEntry"; "PropertyDict"; "FeatureDict"; "FeatureList"; "RootObject"].
Definition repo_fs (p : list N) : list N :=
  if eqname p (str "json.cgr") then json_text else if eqname p (str "xml.cgr") then xml_text else if eqname p (str "dblp.cgr") then dblp_text else
  if eqname p (str "dblp_schema.cgr") then dblp_schema_text else if eqname p (str "citylots.cgr") then citylots_text else [].
Local Close Scope string_scope.
Definition dblp_g : gstate := Eval vm_compute in match read_grammar 100 (fun _ => dblp_text) [] with SOk (_, g) => g | _ => empty_grammar end.
Definition dblp_looks : list (list ldfa) := Eval vm_compute in g_looks dblp_g 100.
Lemma dblp_ends : no_left_recursion (rules_of dblp_ds) patL /\ no_empty_repetition (rules_of dblp_ds) patL.
Proof. apply (ends_ok [str "Text"%string] dblp_order dblp_ds); [intros name id e R; apply (rules_from_in _ _ _ _ _ R)|vm_compute; reflexivity]. Qed.
Definition dblp_schema_g : gstate := Eval vm_compute in match read_grammar 100 (fun _ => dblp_schema_text) [] with SOk (_, g) => g | _ => empty_grammar end.
Definition dblp_schema_looks : list (list ldfa) := Eval vm_compute in g_looks dblp_schema_g 100.
Lemma dblp_schema_ends : no_left_recursion (rules_of dblp_schema_ds) patL /\ no_empty_repetition (rules_of dblp_schema_ds) patL.
Proof. apply (ends_ok [str "Text"%string] dblp_schema_order dblp_schema_ds); [intros name id e R; apply (rules_from_in _ _ _ _ _ R)|vm_compute; reflexivity]. Qed.
Definition citylots_g : gstate := Eval vm_compute in match read_grammar 100 (fun _ => citylots_flat) [] with SOk (_, g) => g | _ => empty_grammar end.
Definition citylots_looks : list (list ldfa) := Eval vm_compute in g_looks citylots_g 100.
Lemma citylots_ends : no_left_recursion (rules_of citylots_ds) patL /\ no_empty_repetition (rules_of citylots_ds) patL.
Proof. apply (ends_ok [] citylots_order citylots_ds); [intros name id e R; apply (rules_from_in _ _ _ _ _ R)|vm_compute; reflexivity]. Qed.

Ltac plain := intros name b H; cbn in H; repeat (destruct H as [H|H]; [injection H as <- <-; cbn; tauto|]); destruct H.
Lemma citylots_declares : declares repo_fs (str "citylots.cgr"%string) citylots_ds.
Proof.
  unfold declares. set (chars := fun f => deliver (repo_fs f)). assert (E : deliver (repo_fs (str "citylots.cgr"%string)) = (city_text ++ ([] ++ word_include ++ [32%N] ++ 34%N :: str "json.cgr"%string ++ 34%N :: [] ++ 59%N :: [10%N]))%list) by (vm_compute; reflexivity).
  rewrite E. change citylots_ds with (city_ds ++ (json_ds ++ []))%list. apply w_file_app.
  - apply (check_file_spec _ _ _ city_title). vm_compute. reflexivity.
  - apply wf_include; [constructor|apply bt_space; [left; reflexivity|constructor]|cbn; intuition discriminate|constructor| |].
    + assert (E2 : include_path (str "citylots.cgr"%string) (str "json.cgr"%string) = str "json.cgr"%string) by (vm_compute; reflexivity). rewrite E2.
      assert (E3 : chars (str "json.cgr"%string) = json_text) by (vm_compute; reflexivity). rewrite E3. apply (check_file_spec _ _ _ json_title). vm_compute. reflexivity.
    + constructor. apply bt_space; [right; lia|constructor].
Qed.
(** C18, C41: the grammars of the repository. *)
Theorem C18_repository : forall file ds,
  In (file, ds) [(str "json.cgr", json_ds); (str "xml.cgr", xml_ds); (str "dblp.cgr", dblp_ds); (str "dblp_schema.cgr", dblp_schema_ds); (str "citylots.cgr", citylots_ds)]%string ->
  parses repo_fs file ds.
Proof.
  intros file ds [H|[H|[H|[H|[H|[]]]]]]; injection H as <- <-.
  - assert (R : exists mid, read_grammar 100 (fun _ => json_text) [] = SOk (mid, json_g)) by (eexists; vm_compute; reflexivity). destruct R as [mid R].
    apply (parses_ok 100 json_title json_text repo_fs _ json_ds json_g mid json_looks); [vm_compute; reflexivity|exact R|vm_compute; reflexivity|vm_compute; reflexivity|plain|apply json_ends|apply json_ends|unfold declares; apply (check_file_spec _ _ _ json_title); vm_compute; reflexivity|].
    exists 100. eexists. vm_compute. reflexivity.
  - assert (R : exists mid, read_grammar 100 (fun _ => xml_text) [] = SOk (mid, xml_g)) by (eexists; vm_compute; reflexivity). destruct R as [mid R].
    apply (parses_ok 100 xml_title xml_text repo_fs _ xml_ds xml_g mid xml_looks); [vm_compute; reflexivity|exact R|vm_compute; reflexivity|vm_compute; reflexivity|plain|apply xml_ends|apply xml_ends|unfold declares; apply (check_file_spec _ _ _ xml_title); vm_compute; reflexivity|].
    exists 100. eexists. vm_compute. reflexivity.
  - assert (R : exists mid, read_grammar 100 (fun _ => dblp_text) [] = SOk (mid, dblp_g)) by (eexists; vm_compute; reflexivity). destruct R as [mid R].
    apply (parses_ok 100 dblp_title dblp_text repo_fs _ dblp_ds dblp_g mid dblp_looks); [vm_compute; reflexivity|exact R|vm_compute; reflexivity|vm_compute; reflexivity|plain|apply dblp_ends|apply dblp_ends|unfold declares; apply (check_file_spec _ _ _ dblp_title); vm_compute; reflexivity|].
    exists 100. eexists. vm_compute. reflexivity.
  - assert (R : exists mid, read_grammar 100 (fun _ => dblp_schema_text) [] = SOk (mid, dblp_schema_g)) by (eexists; vm_compute; reflexivity). destruct R as [mid R].
    apply (parses_ok 100 dblp_schema_title dblp_schema_text repo_fs _ dblp_schema_ds dblp_schema_g mid dblp_schema_looks); [vm_compute; reflexivity|exact R|vm_compute; reflexivity|vm_compute; reflexivity|plain|apply dblp_schema_ends|apply dblp_schema_ends|unfold declares; apply (check_file_spec _ _ _ dblp_schema_title); vm_compute; reflexivity|].
    exists 100. eexists. vm_compute. reflexivity.
  - assert (R : exists mid, read_grammar 100 (fun _ => citylots_flat) [] = SOk (mid, citylots_g)) by (eexists; vm_compute; reflexivity). destruct R as [mid R].
    apply (parses_ok 100 json_title citylots_flat repo_fs _ citylots_ds citylots_g mid citylots_looks); [vm_compute; reflexivity|exact R|vm_compute; reflexivity|vm_compute; reflexivity|plain|apply citylots_ends|apply citylots_ends|exact citylots_declares|].
    exists 100. eexists. vm_compute. reflexivity.
Qed.
Print Assumptions C18_repository.

(** The parsers of dblp.cgr and citylots.cgr accept documents. *)
Local Open Scope string_scope.
Definition dblp_in : list N := str "<?xml version=""1.0""?> <!DOCTYPE dblp SYSTEM ""d""> <dblp> <article key=""a""> <year>1990</year> <title>A <i>b</i> c</title> </article> </dblp>".
Definition citylots_in : list N := str "{""type"":""FeatureCollection"", ""features"":[{""type"":""Feature"", ""properties"":{""LOT"":null, ""STREET"":""JEFFERSON""}, ""geometry"":[1,2.5]}]}".
Local Close Scope string_scope.
Definition doc_env (u : list N) : env := X86.mkE (mem (only 1000 (u ++ 0%N :: json_pad))) 5 64 json_old (fun k => 4096%N) (fun _ _ => 77%N).
Lemma doc_returned title flat ds g looks u k n ws page f : deliver flat = flat -> (exists mid, read_grammar 100 (fun _ => flat) [] = SOk (mid, g)) -> looks = g_looks g 100 ->
  grammar_check 100 title flat ds g looks = true -> forallb (fun c => (0 <? c)%N && (c <? 256)%N) u = true -> (N.of_nat (length u) < 2 ^ 20)%N ->
  let C := g_compiled g 100 64 looks in net_index (c_nets C) (g_root g) = Some k -> run_machine C u f k 0 = POk n ws -> write_accept 64 64 json_old ws = Ok [page] ->
  grammar_ok (fun _ => flat) [] ds g C /\ call_env C ds (doc_env u) 1000 u json_pad 64 /\ returned C (g_root g) (doc_env u) 1000 (1000 + N.of_nat n) [page].
Proof.
  intros HF [mid HR] HK HC HU HL C HN HM HW. pose proof (grammar_check_ok 100 64 title flat (fun _ => flat) [] ds g mid looks HF HR HK HC) as G.
  assert (CE : call_env C ds (doc_env u) 1000 u json_pad 64).
  { rewrite forallb_forall in HU. apply (check_env 100 64 title flat ds g mid looks HC u json_pad json_old); [lia|reflexivity|cbn; lia| | | |reflexivity].
    - intros c Hc. apply in_app_or in Hc as [Hc|[<-|Hc]]; [specialize (HU c Hc); lia|lia|]. apply repeat_spec in Hc. subst c. lia.
    - intros c Hc. specialize (HU c Hc). lia.
    - rewrite app_length. cbn [length json_pad repeat]. change (2 ^ 20)%N with 1048576%N in HL. change (2 ^ 48)%N with 281474976710656%N. lia. }
  split; [exact G|]. split; [exact CE|]. destruct (grammar_env _ _ _ _ _ _ _ _ _ _ G CE) as [PE LI].
  apply (returned_iff C (g_root g) (doc_env u) 1000 u json_pad 64 k PE HN LI). exists f. fold C. rewrite HM. split; [reflexivity|]. exact HW.
Qed.
Definition dblp_C : compiled := g_compiled dblp_g 100 64 dblp_looks.
Definition dblp_words : list N := Eval vm_compute in match run_machine dblp_C dblp_in 1000 0 0 with POk _ ws => ws | _ => [] end.
Definition dblp_page : list N := Eval vm_compute in match write_accept 64 64 json_old dblp_words with Ok [x] => x | _ => [] end.
Example C18_dblp_accepts : grammar_ok (fun _ => dblp_text) [] dblp_ds dblp_g dblp_C /\ call_env dblp_C dblp_ds (doc_env dblp_in) 1000 dblp_in json_pad 64 /\
  returned dblp_C (g_root dblp_g) (doc_env dblp_in) 1000 (1000 + N.of_nat (length dblp_in)) [dblp_page].
Proof.
  apply (doc_returned dblp_title dblp_text dblp_ds dblp_g dblp_looks dblp_in 0 (length dblp_in) dblp_words dblp_page 1000); [vm_compute; reflexivity|eexists; vm_compute; reflexivity|vm_compute; reflexivity|vm_compute; reflexivity|vm_compute; reflexivity|vm_compute; reflexivity|reflexivity|vm_compute; reflexivity|vm_compute; reflexivity].
Qed.
Definition citylots_C : compiled := g_compiled citylots_g 100 64 citylots_looks.
Definition citylots_words : list N := Eval vm_compute in match run_machine citylots_C citylots_in 1000 0 0 with POk _ ws => ws | _ => [] end.
Definition citylots_page : list N := Eval vm_compute in match write_accept 64 64 json_old citylots_words with Ok [x] => x | _ => [] end.
Example C18_citylots_accepts : grammar_ok (fun _ => citylots_flat) [] citylots_ds citylots_g citylots_C /\ call_env citylots_C citylots_ds (doc_env citylots_in) 1000 citylots_in json_pad 64 /\
  returned citylots_C (g_root citylots_g) (doc_env citylots_in) 1000 (1000 + N.of_nat (length citylots_in)) [citylots_page].
Proof.
  apply (doc_returned json_title citylots_flat citylots_ds citylots_g citylots_looks citylots_in 0 (length citylots_in) citylots_words citylots_page 1000); [vm_compute; reflexivity|eexists; vm_compute; reflexivity|vm_compute; reflexivity|vm_compute; reflexivity|vm_compute; reflexivity|vm_compute; reflexivity|reflexivity|vm_compute; reflexivity|vm_compute; reflexivity].
Qed.
