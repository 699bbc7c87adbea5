(** C29-C31: transition networks of rule bodies. *)
From Coq Require Import List NArith Arith Bool Lia Permutation.
From Verif Require Import CharClassParse CharClass CharClassSpec StreamSpec Stream RegexSpec NFA NFASem NFAProofs NFABuild NFAParse GrammarSpec BarSpec ATN ATNSem ATNBuild ATNParse ATNOpt ATNBars.
Import ListNotations.
Local Open Scope nat_scope.

(** C29.  The text [t] of a rule body (from its colon to its semicolon) writing the EBNF
    expression [e] is read up to the semicolon, and the network built reads a sequence of
    symbols from its first to its last node iff [e] denotes it.  Symbols are references to
    rules, literals and patterns ([term_word]); where white space is skipped ([ws]) literals and
    patterns are preceded by the white space symbol. *)
Theorem C29_rule_bodies : forall (ws : bool) (e : gsel) (t rest : list N), w_body e t ->
  exists M, atn_parse ws (t ++ rest) = SOk (M, rest) /\ forall w, atn_accepts M w <-> gselL nty (term_word ws) e w.
Proof.
  intros ws e t rest H. exists (build_body ws e). split; [apply atn_parse_written; exact H|apply build_body_language].
Qed.
Print Assumptions C29_rule_bodies.
(** The symbol of a pattern is the automaton its own text is read into (C07). *)
Theorem C29_pattern_symbols : forall (ws : bool) (p : pat) (t rest : list N), pat_ok p -> w_pat p t ->
  exists A, nfa_parse (t ++ 47%N :: rest) = SOk (A, rest) /\ term_word ws (TPat p) = (if ws then [NWs] else []) ++ [NReg A].
Proof.
  intros ws p t rest Hp Hw. exists (build_pat p). split; [exact (nfa_parse_written p t 47%N rest Hp Hw (or_intror eq_refl))|]. destruct ws; reflexivity.
Qed.
Print Assumptions C29_pattern_symbols.
(** Reading a rule body ends on every text, with a network or an exception. *)
Theorem C29_reading_ends : forall (ws : bool) (t : list N), atn_parse ws t <> SFuel.
Proof. exact atn_parse_total. Qed.
Print Assumptions C29_reading_ends.

(** C30.  Whatever the network: if pass-through nodes can be removed, the language stays. *)
Theorem C30_language_kept : forall (M M' : atn), 1 <= length M -> closed M -> drop_passthrough M = Some M' ->
  forall w, atn_accepts M' w <-> atn_accepts M w.
Proof. exact drop_language. Qed.
Print Assumptions C30_language_kept.
(** They can, for every rule body that was read; the optimised network has its EBNF language. *)
Theorem C30_rule_bodies : forall (ws : bool) (e : gsel) (t rest : list N), w_body e t ->
  exists M M', atn_parse ws (t ++ rest) = SOk (M, rest) /\ drop_passthrough M = Some M' /\ closed M' /\
    forall w, atn_accepts M' w <-> gselL nty (term_word ws) e w.
Proof.
  intros ws e t rest H. destruct (body_facts ws e) as (C & L & M' & D). exists (build_body ws e), M'. split; [apply atn_parse_written; exact H|]. split; [exact D|]. split; [eapply drop_closed; exact D|].
  intros w. rewrite (drop_language _ _ L C D). apply build_body_language.
Qed.
Print Assumptions C30_rule_bodies.

(** C31, exactly.  The positive priorities on the transitions of the network of a rule body
    ([priorities], [ATNBars]) are those the body declares with |> ([body_written]); after
    optimisation they are [body_kept].  Both are functions of the expression ([BarSpec]). *)
Theorem C31_priorities_exact : forall (ws : bool) (e : gsel) (t rest : list N), w_body e t ->
  exists M M', atn_parse ws (t ++ rest) = SOk (M, rest) /\ drop_passthrough M = Some M' /\
    Permutation (priorities M) (body_written e) /\ Permutation (priorities M') (body_kept e).
Proof.
  intros ws e t rest H. destruct (body_bars ws e) as (M' & D & A & B & _). exists (build_body ws e), M'. split; [apply atn_parse_written; exact H|]. auto.
Qed.
Print Assumptions C31_priorities_exact.
(** Where nothing is lost, every path passes the same symbols and the same positive priorities,
    in the same order, before and after ([ppath] records both).  Missing from C31: the other rule
    bodies, of which it is false (next theorem). *)
Theorem C31_priorities_kept_partial : forall (ws : bool) (e : gsel) (t rest : list N), w_body e t -> body_kept e = body_written e ->
  exists M M', atn_parse ws (t ++ rest) = SOk (M, rest) /\ drop_passthrough M = Some M' /\
    forall w, ppath M' 0 w (length M' - 1) <-> ppath M 0 w (length M - 1).
Proof.
  intros ws e t rest H HT. destruct (body_bars ws e) as (M' & D & _ & _ & B). exists (build_body ws e), M'. split; [apply atn_parse_written; exact H|]. split; [exact D|]. exact (B HT).
Qed.
Print Assumptions C31_priorities_kept_partial.
(** In all other rule bodies fewer transitions have a priority after optimisation. *)
Theorem C31_priorities_lost : forall (ws : bool) (e : gsel) (t rest : list N), w_body e t -> body_kept e <> body_written e ->
  exists M M', atn_parse ws (t ++ rest) = SOk (M, rest) /\ drop_passthrough M = Some M' /\ length (priorities M') < length (priorities M).
Proof.
  intros ws e t rest H HT. destruct (C31_priorities_exact ws e t rest H) as (M & M' & P & D & A & B). exists M, M'. split; [exact P|]. split; [exact D|].
  rewrite (Permutation_length A), (Permutation_length B). destruct (proj1 kept_written (GGroup e) false false) as [Q|Q]; [destruct (HT Q)|exact Q].
Qed.
Print Assumptions C31_priorities_lost.
(** In particular nothing is lost where |> is used at the outermost level of the body only. *)
Theorem C31_outermost_partial : forall (ws : bool) (e : gsel) (t rest : list N), w_body e t -> top_bars e ->
  exists M M', atn_parse ws (t ++ rest) = SOk (M, rest) /\ drop_passthrough M = Some M' /\
    forall w, ppath M' 0 w (length M' - 1) <-> ppath M 0 w (length M - 1).
Proof. intros ws e t rest H HT. apply (C31_priorities_kept_partial ws e t rest H). apply top_kept. exact HT. Qed.
Print Assumptions C31_outermost_partial.
(** Groups that keep and groups that lose theirs:  'a' ('x' |> 'y') : kept;  ('x' |> 'y')* : lost;
    ('a') ('x' |> 'y') : lost -- the group before ends in a point that melts. *)
Example C31_groups :
  let l c := GTerm (TLit [c]) in let one c := GCons (l c) GOne GNil in let xy := GGroup (GAlt (GFirst (one 120%N)) true (one 121%N)) in
  let a := GFirst (GCons (l 97%N) GOne (GCons xy GOne GNil)) in
  let b := GFirst (GCons xy GStar GNil) in
  let c := GFirst (GCons (GGroup (GFirst (one 97%N))) GOne (GCons xy GOne GNil)) in
  (body_written a = [1] /\ body_kept a = [1]) /\ (body_written b = [1] /\ body_kept b = []) /\ (body_written c = [1] /\ body_kept c = []).
Proof. repeat split. Qed.

(** : ( 'x' |> 'y' )* ;  -- before, 'y' is reached over a transition of priority 1; after, no
    transition has a priority. *)
Definition C31_text : list N := [58; 40; 39;120;39; 124;62; 39;121;39; 41; 42; 59]%N.
Definition C31_before : atn := Eval vm_compute in match atn_parse false C31_text with SOk (M, _) => M | _ => [] end.
Definition C31_after : atn := Eval vm_compute in match drop_passthrough C31_before with Some M => M | None => [] end.
Lemma no_tags M p w q : (forall n, In n M -> forall t, In t (atrs n) -> snd t = 0) -> ppath M p w q -> forall k, ~ In (inl k) w.
Proof.
  intros H K. induction K as [p|p d tag w r Hd Hm K IH]; intros k Hk; [destruct Hk|].
  assert (tag = 0) as ->.
  { destruct (Nat.lt_ge_cases p (length M)) as [L|L]; [exact (H _ (nth_In M blank L) _ Hd)|]. rewrite to_out in Hd by exact L. destruct Hd. }
  cbn [plab Nat.eqb app] in Hk. apply in_app_or in Hk as [Hk|Hk]; [|exact (IH k Hk)]. unfold preads in Hk. apply in_map_iff in Hk as (? & E & _). discriminate.
Qed.
Theorem C31_priorities_refuted : exists (t : list N) (M M' : atn) (w : list (nat + nty)),
  atn_parse false t = SOk (M, []) /\ drop_passthrough M = Some M' /\
  ppath M 0 w (length M - 1) /\ In (inl 1) w /\ forall v, ppath M' 0 v (length M' - 1) -> ~ In (inl 1) v.
Proof.
  exists C31_text, C31_before, C31_after, [inl 1; inr (NLit [121%N])].
  split; [vm_compute; reflexivity|]. split; [vm_compute; reflexivity|]. split; [|split; [left; reflexivity|]].
  - unfold ppath.
    assert (S : forall p d tag w r, In (d, tag) (edges C31_before p) -> (d <? length C31_before) = true ->
              gpath _ plab preads C31_before (fun x => x <? length C31_before) d w r -> gpath _ plab preads C31_before (fun x => x <? length C31_before) p (plab tag ++ preads (nt (tonode C31_before d)) ++ w) r) by (intros; apply gp_step; assumption).
    change (length C31_before - 1) with 11.
    apply (S 0 1 0); [vm_compute; auto|reflexivity|]. apply (S 1 2 0); [vm_compute; auto|reflexivity|]. apply (S 2 3 0); [vm_compute; auto|reflexivity|].
    apply (S 3 6 1 [inr (NLit [121%N])]); [vm_compute; auto|reflexivity|]. apply (S 6 7 0 []); [vm_compute; auto|reflexivity|]. apply (S 7 8 0); [vm_compute; auto|reflexivity|].
    apply (S 8 9 0); [vm_compute; auto|reflexivity|]. apply (S 9 10 0); [vm_compute; auto|reflexivity|]. apply (S 10 11 0); [vm_compute; auto|reflexivity|]. constructor.
  - intros v Hv. apply (no_tags C31_after 0 v (length C31_after - 1)); [|exact Hv]. intros n Hn t Ht. unfold C31_after in Hn. repeat (destruct Hn as [<-|Hn]; [cbn in Ht; repeat (destruct Ht as [<-|Ht]; [reflexivity|]); destruct Ht|]). destruct Hn.
Qed.
Print Assumptions C31_priorities_refuted.

(** The hypotheses are met:  : A{1} ('x' 'y'? | /[0-9]+/ )+ /* c */ |> "z" ; *)
Definition ATN_pat : pat := PSnoc PNil (SOne (UAtom (ASet [Span 48 57])) (QPlus false)).
Definition ATN_example : gsel :=
  GAlt (GFirst (GCons (GTerm (TRule [65%N])) GOne
     (GCons (GGroup (GAlt (GFirst (GCons (GTerm (TLit [120%N])) GOne (GCons (GTerm (TLit [121%N])) GOpt GNil))) false
                          (GCons (GTerm (TPat ATN_pat)) GOne GNil))) GPlus GNil)))
   true (GCons (GTerm (TLit [122%N])) GOne GNil).
Definition ATN_example_text : list N :=
  [32; 58; 32; 65; 123; 49; 125; 32; 40; 39;120;39; 32; 39;121;39; 63; 32; 124; 32; 47;91;48;45;57;93;43;47; 32; 41; 43; 32; 47;42;32;99;32;42;47; 32; 124;62; 32; 34;122;34; 32; 59]%N.
Lemma sp_bt b : btext b -> btext (32%N :: b).
Proof. apply bt_space. auto. Qed.
Example ATN_hyp : w_body ATN_example ATN_example_text /\ (top_bars ATN_example /\ body_kept ATN_example = body_written ATN_example /\ body_written ATN_example = [1]) /\
  gselL nty (term_word true) ATN_example [NInv [65%N]; NWs; NLit [120%N]; NWs; NLit [121%N]; NWs; NReg (build_pat ATN_pat)].
Proof.
  assert (B0 : btext []) by constructor. assert (B1 : btext [32%N]) by (apply sp_bt; exact B0).
  split; [|split].
  - exists [32%N], (([32] ++ [65] ++ [] ++ [123; 49; 125; 32] ++ [] ++
       ([] ++ 40 :: (([] ++ [39;120;39] ++ [32] ++ [] ++ [] ++ ([] ++ [39;121;39] ++ [] ++ [] ++ [63] ++ [32])) ++ 124 :: [] ++ ([32] ++ [47;91;48;45;57;93;43;47] ++ [32] ++ [] ++ [] ++ [])) ++ 41 :: [] ++ [43] ++ [32; 47;42;32;99;32;42;47; 32])) ++ 124 :: [62] ++ ([32] ++ [34;122;34] ++ [32] ++ [] ++ [] ++ []))%N.
    split; [exact B1|]. split; [|reflexivity]. unfold ATN_example.
    apply (we_alt _ true). 2:{ apply (wq_term _ (TLit [122%N]) [34;122;34]%N _ _ GOne); [exact B1|apply (wt_lit 34%N [122%N]); [auto|cbn; lia|cbn; lia]|exact B1|constructor|constructor; exact B0|exact I]. }
    apply we_first. apply (wq_term _ (TRule [65%N]) [65]%N _ _ GOne).
    + exact B1.
    + apply wt_rule; [right; unfold letter; lia|intros x []].
    + exact B0.
    + apply (wl_num [] [49%N] [] [32%N]); try exact B0; [discriminate| |exact B1]. intros c [<-|[]]. unfold digit. lia.
    + apply (wq_group _ _ _ _ GPlus); [exact B0| |exact B0|].
      * apply (we_alt _ false).
        -- apply we_first. apply (wq_term _ (TLit [120%N]) [39;120;39]%N _ _ GOne); [exact B0|apply (wt_lit 39%N [120%N]); [auto|cbn; lia|cbn; lia]|exact B1|constructor| |exact I].
           apply (wq_term _ (TLit [121%N]) [39;121;39]%N _ _ GOpt); [exact B0|apply (wt_lit 39%N [121%N]); [auto|cbn; lia|cbn; lia]|exact B0|constructor| |exact I]. constructor. exact B1.
        -- apply (wq_term _ (TPat ATN_pat) [47;91;48;45;57;93;43;47]%N _ _ GOne); [exact B1| |exact B1|constructor|constructor; exact B0|exact I].
           apply (wt_pat ATN_pat [91;48;45;57;93;43]%N); [|discriminate|].
           ++ cbn. repeat split; try lia; try discriminate; repeat constructor; try lia.
           ++ unfold ATN_pat. apply (wp_snoc PNil _ [] [91;48;45;57;93;43]%N); [constructor|]. apply (ws_one _ _ [91;48;45;57;93]%N [43]%N); [|cbn; auto]. constructor. exact (wa_set [Span 48 57] _ (CharClassParse.write_items_text [Span 48 57] ltac:(repeat constructor; cbn; lia))).
      * constructor. apply sp_bt. apply (bt_block [32; 99; 32]%N [32%N]); [|cbn; lia|exact B1].
        intros (x & y & E). destruct x as [|a [|b [|c [|d x]]]]; cbn in E; try discriminate. injection E. intros. destruct x; discriminate.
    + cbn. unfold sym_char, letter, digit. lia.
  - cbn. repeat split.
  - cbn [gselL ATN_example]. left. exists [NInv [65%N]]. eexists. split; [reflexivity|]. split; [reflexivity|].
    eexists. exists []. split; [rewrite app_nil_r; reflexivity|]. split; [|reflexivity].
    exists [NWs; NLit [120%N]; NWs; NLit [121%N]], [NWs; NReg (build_pat ATN_pat)]. split; [reflexivity|]. split.
    + left. exists [NWs; NLit [120%N]], [NWs; NLit [121%N]]. split; [reflexivity|]. split; [reflexivity|]. exists [NWs; NLit [121%N]], []. split; [reflexivity|]. split; [right; reflexivity|reflexivity].
    + apply (gs_app _ _ [NWs; NReg (build_pat ATN_pat)] []); [|constructor]. right. exists [NWs; NReg (build_pat ATN_pat)], []. split; [reflexivity|]. split; reflexivity.
Qed.
