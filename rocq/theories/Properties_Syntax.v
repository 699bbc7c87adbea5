(** * C51: what is not a pattern, a rule body or a grammar file is refused *)
From Coq Require Import List NArith Arith Bool Lia ZifyBool ZifyN ZifyNat.
From Verif Require Import CharClass CharClassSpec Stream StreamSpec StreamProofs RegexSpec NFA NFASem NFAProofs NFABuild NFAParse GrammarSpec ATN ATNSem ATNBuild ATNParse Grammar GrammarProofs SyntaxSpec SyntaxProofs SyntaxFile Properties_Grammar.
Import ListNotations.
Local Open Scope nat_scope.

(** Every text accepted as a pattern is one of the texts of [f_pat], up to and including the
    character that ends it, and (where C07 applies) stands for the language it says. *)
Theorem C51_pattern_forms_partial : forall (t : list N) (A : nfa) (r : list N), nfa_parse t = SOk (A, r) ->
  exists p x e, took t (x ++ [e]) r /\ f_end e /\ f_pat p x /\ (pat_ok p -> pat_safe p -> forall w, accepts A w <-> patL p w).
Proof.
  intros t A r H. destruct (nfa_parse_forms _ _ _ H) as (p & x & e & K1 & K2 & K3 & K4). exists p, x, e.
  split; [exact K1|]. split; [exact K2|]. split; [exact K3|]. intros Hp Hs w. rewrite (K4 Hp).
  destruct (proj2 (proj2 build_spec) p Hp) as (_ & HA & _). rewrite HA. split.
  - apply (proj2 (proj2 sound) p Hs).
  - apply (proj2 (proj2 complete)).
Qed.
Print Assumptions C51_pattern_forms_partial.
(** Every other text raises an exception. *)
Theorem C51_pattern_refused : forall t : list N,
  (forall p x e r, took t (x ++ [e]) r -> f_end e -> ~ f_pat p x) -> nfa_parse t = SThrow.
Proof.
  intros t H. destruct (nfa_parse t) as [[A r]| |] eqn:E; [|reflexivity|destruct (nfa_parse_total t E)].
  destruct (nfa_parse_forms _ _ _ E) as (p & x & e & K1 & K2 & K3 & _). destruct (H _ _ _ _ K1 K2 K3).
Qed.
Print Assumptions C51_pattern_refused.
(** Rule bodies: accepted texts have a written form, and the network has its language. *)
Theorem C51_body_forms_partial : forall (ws : bool) (t : list N) (M : atn) (r : list N), ~ In 0%N t -> atn_parse ws t = SOk (M, r) ->
  exists e x, t = x ++ r /\ f_body e x /\ (sel_pats pat_ok e -> forall w, atn_accepts M w <-> gselL nty (term_word ws) e w).
Proof.
  intros ws t M r H0 H. destruct (atn_parse_forms _ _ _ _ H H0) as (e & x & K1 & K2 & K3). exists e, x.
  split; [exact K1|]. split; [exact K2|]. intros O1 w. rewrite (K3 O1). apply build_body_language.
Qed.
Print Assumptions C51_body_forms_partial.
Theorem C51_body_refused : forall (ws : bool) (t : list N), ~ In 0%N t ->
  (forall e x r, t = x ++ r -> ~ f_body e x) -> atn_parse ws t = SThrow.
Proof.
  intros ws t H0 H. destruct (atn_parse ws t) as [[A r]| |] eqn:E; [|reflexivity|destruct (atn_parse_total ws t E)].
  destruct (atn_parse_forms _ _ _ _ E H0) as (e & x & K1 & K2 & _). destruct (H _ _ _ K1 K2).
Qed.
Print Assumptions C51_body_refused.
(** Grammar files: a file that is read has the form of a list of declarations; its rules are the
    declared ones, in their order, with the network of their first declaration. *)
Theorem C51_file_forms_partial : forall fs file g, (forall name, ~ In 0%N (deliver (fs name))) -> reads fs file g ->
  exists ds, f_file (fun f => deliver (fs f)) include_path file (deliver (fs file)) ds /\ g_ids g = map fst ds /\
    ((forall name e, In (name, e) ds -> sel_pats pat_ok e) -> forall k id e, nth_error ds k = Some (id, e) -> ~ In id (map fst (firstn k ds)) ->
       lookup (g_nets g) id = Some (N.of_nat (S k), build_body true e)).
Proof.
  intros fs file g HF (fu & mid & E). destruct (file_forms _ _ HF _ _ _ _ _ _ E (HF file)) as (ds & K1 & K2 & _ & K4). exists ds.
  split; [exact K1|]. split; [exact K2|]. intros HO k id e Hk Hn. destruct (K4 HO) as (S1 & _).
  rewrite S1, (gather_lookup _ _ _ _ _ _ Hk Hn) by reflexivity. replace (0 <? 1 + N.of_nat k)%N with true by lia. do 3 f_equal. lia.
Qed.
Print Assumptions C51_file_forms_partial.
Theorem C51_file_refused : forall fs file, (forall name, ~ In 0%N (deliver (fs name))) ->
  (forall ds, ~ f_file (fun f => deliver (fs f)) include_path file (deliver (fs file)) ds) ->
  forall fuel, read_grammar fuel fs file = SThrow \/ read_grammar fuel fs file = SFuel.
Proof.
  intros fs file HF H fuel. destruct (read_grammar fuel fs file) as [[mid g]| |] eqn:E; auto.
  destruct (file_forms _ _ HF _ _ _ _ _ _ E (HF file)) as (ds & K1 & _). destruct (H _ K1).
Qed.
Print Assumptions C51_file_refused.

(** ** Examples *)
(** The documented forms are among them. *)
Lemma documented_pat :
  (forall u t, w_unit u t -> unit_ok u -> f_unit u t /\ exists c x, t = c :: x /\ ~ f_end c) /\
  (forall s t, RegexSpec.w_sel s t -> sel_ok s -> f_sel s t /\ exists c x, t = c :: x /\ ~ f_end c) /\ (forall p t, w_pat p t -> pat_ok p -> f_pat p t).
Proof.
  apply regex_ind; cbn [unit_ok sel_ok pat_ok].
    - intros a t Ht Ha. inversion Ht as [? ? Hw|]; subst. inversion Hw as [c Hm H47|c Hm| |l w Hl|l w Hl]; subst; cbn [atom_ok] in Ha.
      + unfold is_meta in Hm. cbn [existsb] in Hm. split; [constructor; apply fa_char; cbn; lia|]. exists c, []. unfold f_end. cbn. split; [reflexivity|lia].
      + split; [constructor; apply fa_esc; exact Hm|]. exists 92%N, [c]. unfold f_end. cbn. split; [reflexivity|lia].
      + split; [constructor; constructor|]. exists 46%N, []. unfold f_end. cbn. split; [reflexivity|lia].
      + split; [|exists 91%N, (w ++ [93%N]); unfold f_end; cbn; split; [reflexivity|lia]]. constructor. apply (fa_set false l w Hl). intros _.
        destruct Ha as (H1 & H2 & _). destruct (CharClassParse.write_no_caret l w [] Hl H2) as (h & y & E & Hh). destruct w as [|c w]; [cbn; lia|]. cbn in *. congruence.
      + split; [|exists 91%N, (94%N :: w ++ [93%N]); unfold f_end; cbn; split; [reflexivity|lia]]. constructor. apply (fa_set true l w Hl). discriminate.
    - intros p IH t Ht Hp. inversion Ht as [|? t0 Hw]; subst. split; [constructor; [auto|unfold f_end; cbn; auto]|]. exists 40%N, (t0 ++ [41%N]). unfold f_end. cbn. split; [reflexivity|lia].
    - intros u IH q t Ht Hu. inversion Ht as [? ? t0 x Hw Hx|]; subst. destruct (IH _ Hw Hu) as (K & c & y & -> & Hc). split; [constructor; assumption|]. exists c, (y ++ x). auto.
    - intros s IHs u IHu q t Ht [Hs Hu]. inversion Ht as [|? ? ? t0 t1 x Hws Hwu Hx]; subst. destruct (IHs _ Hws Hs) as (K & c & y & -> & Hc). destruct (IHu _ Hwu Hu) as (K' & _).
      split; [constructor; assumption|]. exists c, (y ++ 124%N :: t1 ++ x). auto.
    - intros t Ht _. inversion Ht; subst. constructor.
    - intros p IHp s IHs t Ht [Hp Hs]. inversion Ht as [|? ? t0 x Hwp Hws]; subst. destruct (IHs _ Hws Hs) as (K & c & y & -> & Hc). constructor; auto.
Qed.
Theorem C51_documented_forms : forall p t, pat_ok p -> w_pat p t -> f_pat p t.
Proof. intros p t Hp Hw. exact (proj2 (proj2 documented_pat) p t Hw Hp). Qed.
Print Assumptions C51_documented_forms.
(** Refused: a bracket that is not closed; an escaped letter; a body without a semicolon. *)
Example C51_open_bracket : nfa_parse [91; 97; 47]%N = SThrow.
Proof. reflexivity. Qed.
Example C51_escaped_letter : nfa_parse [92; 100; 47]%N = SThrow.
Proof. reflexivity. Qed.
Example C51_no_semicolon : atn_parse true [58; 65]%N = SThrow.
Proof. reflexivity. Qed.
(** A file that is read: "S:'a';". *)
Example C51_file_hyp : let fs := fun _ : list N => [83; 58; 39; 97; 39; 59]%N in (forall name, ~ In 0%N (deliver (fs name))) /\ exists g, reads fs [102%N] g.
Proof.
  cbn zeta. split; [intros name; cbn; intros K; repeat (destruct K as [K|K]; [discriminate|]); exact K|]. eexists. exists 3. eexists. vm_compute. reflexivity.
Qed.
(** Accepted, although they have no documented form: a group that a slash ends, "(a/", and a
    quantifier with nothing before it, "+/". *)
Lemma group_closed : forall p t, w_pat p t -> hd 0%N t = 40%N -> In 41%N t.
Proof.
  assert (U : forall u t, w_unit u t -> exists c x, t = c :: x /\ (c = 40%N -> In 41%N t)).
  { intros u t [a t' Hw|p t' Hw].
    - destruct Hw as [c Hm H47|c Hm| |l w Hl|l w Hl]; eexists; eexists; (split; [reflexivity|]); intros E; try lia. subst c. discriminate.
    - eexists; eexists; split; [reflexivity|]. intros _. right. apply in_or_app. right. left. reflexivity. }
  assert (S0 : forall s t, RegexSpec.w_sel s t -> exists c x, t = c :: x /\ (c = 40%N -> In 41%N t)).
  { induction s as [u q|s IH u q]; intros t Ht; inversion Ht as [? ? t0 x Hw Hx|? ? ? t0 t1 x Hws Hwu Hx]; subst.
    - destruct (U _ _ Hw) as (c & y & -> & Hc). exists c, (y ++ x). split; [reflexivity|]. intros E. apply in_or_app. left. auto.
    - destruct (IH _ Hws) as (c & y & -> & Hc). eexists c, _. split; [reflexivity|]. intros E. apply in_or_app. left. auto. }
  intros p t Ht. induction Ht as [|p s t x Hp IH Hs]; [discriminate|]. destruct t as [|d t].
  - destruct (S0 _ _ Hs) as (c & y & -> & Hc). exact Hc.
  - intros E. apply in_or_app. left. apply IH. exact E.
Qed.
Lemma no_plus_first : forall p t, w_pat p t -> hd 0%N t <> 43%N.
Proof.
  assert (U : forall u t, w_unit u t -> exists c x, t = c :: x /\ c <> 43%N).
  { intros u t [a t' Hw|p t' Hw].
    - destruct Hw as [c Hm H47|c Hm| |l w Hl|l w Hl]; eexists; eexists; (split; [reflexivity|]); intros E; try lia. subst c. discriminate.
    - eexists; eexists; split; [reflexivity|]. lia. }
  assert (S0 : forall s t, RegexSpec.w_sel s t -> exists c x, t = c :: x /\ c <> 43%N).
  { induction s as [u q|s IH u q]; intros t Ht; inversion Ht as [? ? t0 x Hw Hx|? ? ? t0 t1 x Hws Hwu Hx]; subst.
    - destruct (U _ _ Hw) as (c & y & -> & Hc). exists c, (y ++ x). auto.
    - destruct (IH _ Hws) as (c & y & -> & Hc). eexists c, _. split; [reflexivity|exact Hc]. }
  intros p t Ht. induction Ht as [|p s t x Hp IH Hs]; [discriminate|]. destruct t as [|d t].
  - destruct (S0 _ _ Hs) as (c & y & -> & Hc). exact Hc.
  - exact IH.
Qed.
Theorem C51_pattern_refuted : exists t1 t2 A1 A2, nfa_parse t1 = SOk (A1, []) /\ nfa_parse t2 = SOk (A2, []) /\
  (forall p x e, In e [41; 47]%N -> took t1 (x ++ [e]) [] \/ took t1 x [] -> ~ w_pat p x) /\
  (forall p x e, In e [41; 47]%N -> took t2 (x ++ [e]) [] \/ took t2 x [] -> ~ w_pat p x).
Proof.
  exists [40; 97; 47]%N, [43; 47]%N. eexists; eexists. split; [reflexivity|]. split; [reflexivity|].
  assert (Q : forall t x : list N, took t x [] -> exists k, x = t ++ repeat 0%N k).
  { intros t x [->|(_ & k & <-)]; [exists 0; cbn; rewrite !app_nil_r; reflexivity|exists k; reflexivity]. }
  assert (Z : forall k, ~ In 41%N (repeat 0%N k)) by (intros k K; apply repeat_spec in K; discriminate).
  split; intros p x e He HT Hw.
  - pose proof (group_closed _ _ Hw) as K. assert (hd 0%N x = 40%N /\ ~ In 41%N x) as [H1 H2]; [|exact (H2 (K H1))].
    destruct HT as [HT|HT]; apply Q in HT as (k & E).
    + destruct x as [|c x]; [discriminate|]. cbn in E. injection E as -> E. split; [reflexivity|]. intros [D|D]; [discriminate|].
      assert (D' : In 41%N (x ++ [e])) by (apply in_or_app; left; exact D). rewrite E in D'. destruct D' as [D'|[D'|D']]; [discriminate..|exact (Z _ D')].
    + subst x. split; [reflexivity|]. intros [D|[D|[D|D]]]; [discriminate..|exact (Z _ D)].
  - apply (no_plus_first _ _ Hw). destruct HT as [HT|HT]; apply Q in HT as (k & E).
    + destruct x as [|c x]; [discriminate|]. cbn in E. injection E as -> E. reflexivity.
    + subst x. reflexivity.
Qed.
Print Assumptions C51_pattern_refuted.
