(** * C53: the drawings of the tool show the automata (specification: DotSpec.v, model: Draw.v) *)
From Coq Require Import List NArith Arith ZArith Bool Lia String.
From Verif Require Grammar GrammarProofs.
From Verif Require Import CharClass CharClassSpec Stream StreamSpec NFA NFASem NFABuild NFAParse DFA RegexSpec GrammarSpec ParseSpec ATN CodeGen CodeGenProofs CodeGenMisc ATNBuild ATNLive ParserGen ParserTree Lookahead LookImport LookRead LookGrammar LookMain LookFit
  Properties_NFA Properties_Grammar Properties_Parser Properties_Look Properties_Tool Tool ToolProofs PathSpec Draw DotSpec DrawProofs DrawDfa.
Import ListNotations.
Local Open Scope nat_scope.
Local Open Scope list_scope.

(** What holds of every class the tool reads (LookFit.pat_proper). *)
Definition byte_ranges (cc : cclass) : Prop := forall r, In r cc -> (rs r < re r /\ re r <= 256)%N.
Lemma byte_bytes cc : byte_ranges cc -> bytes cc.
Proof. intros H r Hr. specialize (H r Hr). lia. Qed.
Lemma name_dot w : is_name w -> dot_name w.
Proof.
  destruct w as [|c v]; [intros []|]. intros [A B]. exists c, v. split; [reflexivity|]. split.
  - unfold dlet. destruct A as [->|[A|A]]; [reflexivity| |].
    + replace ((65 <=? c) && (c <=? 90))%N with true by (symmetry; apply andb_true_iff; split; apply N.leb_le; lia). reflexivity.
    + replace ((97 <=? c) && (c <=? 122))%N with true by (symmetry; apply andb_true_iff; split; apply N.leb_le; lia). rewrite orb_true_r. reflexivity.
  - apply forallb_forall. intros x Hx. specialize (B x Hx). unfold idchar, dlet, ddig. unfold sym_char, letter, digit in B.
    destruct B as [->|[[B|B]|B]]; [reflexivity| | |].
    + replace ((65 <=? x) && (x <=? 90))%N with true by (symmetry; apply andb_true_iff; split; apply N.leb_le; lia). reflexivity.
    + replace ((97 <=? x) && (x <=? 122))%N with true by (symmetry; apply andb_true_iff; split; apply N.leb_le; lia). rewrite orb_true_r. reflexivity.
    + replace ((48 <=? x) && (x <=? 57))%N with true by (symmetry; apply andb_true_iff; split; apply N.leb_le; lia). rewrite !orb_true_r. reflexivity.
Qed.

(** ** What a drawing shows *)
(** The label of an edge shows the class, after an optional prefix and before an optional suffix. *)
Definition labelled (a : list attribute) (pre : list N) (cc : cclass) (post : list N) : Prop :=
  exists l w, attribute_of k_label a = Some l /\ rendered l = Some (pre ++ w ++ post) /\ shows_class cc w.
(** Every state with its number, every arrow with the number of its state, in order. *)
Notation states_of l := (indexed l).
Definition arrows_of {A T} (h : A -> list T) (l : list A) : list (nat * T) := flat_map (fun p => map (pair (fst p)) (h (snd p))) (indexed l).
(** A node with a name and a number in it. *)
Definition plain_node (letter : N) (i : nat) (shape : list N) (nd : list N * list attribute) : Prop :=
  numbered letter i (fst nd) /\ (exists d, attribute_of k_label (snd nd) = Some d /\ numeral d (N.of_nat i)) /\ attribute_of k_shape (snd nd) = Some shape.
(** Different numbers give different names. *)
Lemma numbered_inj letter letter' i j w : numbered letter i w -> numbered letter' j w -> letter = letter' /\ i = j.
Proof.
  intros (d & (_ & _ & D) & ->) (d' & (_ & _ & D') & E). injection E as -> ->. split; [reflexivity|]. apply Nat2N.inj. congruence.
Qed.

(** The automaton of a pattern: circles for the states, arrows for the transitions, thick for the possessive ones. *)
Definition shows_nfa (A : nfa) (g : graph) : Prop :=
  Forall2 (fun p nd => plain_node 83 (fst p) v_circle nd) (states_of A) (g_nodes g) /\
  Forall2 (fun p e => let '(x, y, a) := e in numbered 83 (fst p) x /\ numbered 83 (tdest (snd p)) y /\ labelled a [] (tlab (snd p)) [] /\
             attribute_of k_penwidth a = if tlong (snd p) then Some [51%N] else None) (arrows_of (fun st => st) A) (g_edges g).
Theorem C53_nfa_drawing : forall name A, is_name name -> keyword name = false -> (forall st t, In st A -> In t st -> byte_ranges (tlab t)) ->
  exists g, dot_read (nfa_dot name A) = Some g /\ g_name g = name /\ shows_nfa A g.
Proof.
  intros name A Hn K B. pose proof (nfa_read name A (name_dot _ Hn) K (fun st t H1 H2 => byte_bytes _ (B st t H1 H2))) as R. eexists. split; [exact R|]. split; [reflexivity|]. cbn [g_nodes g_edges].
  rewrite nodes_app, edges_app. rewrite (edges_nodes (eacht (fun i st => map (nfa_edge i) st) 0 A)), app_nil_r, (nodes_edges (eacht _ 0 A)).
  - cbn [app]. split; cbn [g_nodes g_edges].
    + apply Forall2_each. intros i x _ _. cbn. constructor; [|constructor]. split; [apply num_numbered|]. split; [|reflexivity]. exists (num i). split; [reflexivity|apply num_numeral].
    + apply (Forall2_each2 _ (fun st => st)). intros i st Hst. assert (H : forall t, In t st -> byte_ranges (tlab t)) by (intros t Ht; exact (B st t Hst Ht)). clear Hst R B.
      induction st as [|t st IH]; [constructor|]. cbn [map flat_map app nfa_edge]. constructor; [|apply IH; intros u Hu; apply H; right; exact Hu].
      cbn [fst snd]. split; [apply num_numbered|]. split; [apply num_numbered|]. destruct (rendered_class (tlab t) (byte_bytes _ (H t (or_introl eq_refl)))) as (w & W1 & W2).
      split; [exists (class_label (tlab t)), w; rewrite app_nil_r; split; [destruct (tlong t); reflexivity|split; assumption]|]. destruct (tlong t); reflexivity.
  - apply eacht_Forall. intros i x. constructor; [eexists; eexists; reflexivity|constructor].
  - apply eacht_Forall. intros i x. apply Forall_forall. intros s Hs. apply in_map_iff in Hs as (t & <- & _). unfold nfa_edge, is_edge. eauto.
Qed.
Print Assumptions C53_nfa_drawing.

(** [a,b,...]: the label of a state of the deterministic automaton. *)
Inductive shows_list : list nat -> list N -> Prop :=
| sl_one i w : numeral w (N.of_nat i) -> shows_list [i] w
| sl_more i w v r : numeral w (N.of_nat i) -> shows_list v r -> shows_list (i :: v) (w ++ 44%N :: r).
Lemma index_shows v : v <> [] -> shows_list v (index_text' v).
Proof.
  induction v as [|x v IH]; [congruence|]. intros _. destruct v as [|y v]; [constructor; apply num_numeral|].
  change (index_text' (x :: y :: v)) with (num x ++ 44%N :: index_text' (y :: v)). constructor; [apply num_numeral|apply IH; discriminate].
Qed.
(** The deterministic automaton: accepting states have double circles; an invisible node SS points at the start. *)
Definition shows_dfa (X : dfa) (g : graph) : Prop :=
  exists nodes edges x0,
    g_nodes g = ([83; 83]%N, [(k_style, v_invisible)]) :: nodes /\ g_edges g = ([83; 83]%N, x0, []) :: edges /\ numbered 83 0 x0 /\
    Forall2 (fun p nd => numbered 83 (fst p) (fst nd) /\ (exists w, attribute_of k_label (snd nd) = Some (91%N :: w ++ [93%N]) /\ shows_list (dlab (snd p)) w) /\
               attribute_of k_shape (snd nd) = Some (if dacc (snd p) then v_doublecircle else v_circle) /\
               attribute_of k_penwidth (snd nd) = if dlong (snd p) then Some [50%N] else None) (states_of X) nodes /\
    Forall2 (fun p e => let '(x, y, a) := e in numbered 83 (fst p) x /\ numbered 83 (tdest (snd p)) y /\ labelled a [] (tlab (snd p)) []) (arrows_of dtrs X) edges.
Theorem C53_dfa_drawing : forall name X, is_name name -> keyword name = false ->
  (forall s, In s X -> dlab s <> [] /\ forall t, In t (dtrs s) -> byte_ranges (tlab t)) ->
  exists g, dot_read (dfa_dot name X) = Some g /\ g_name g = name /\ shows_dfa X g.
Proof.
  intros name X Hn K B. pose proof (dfa_read name X (name_dot _ Hn) K (fun s t H1 H2 => byte_bytes _ (proj2 (B s H1) t H2))) as R. cbv zeta in R. eexists. split; [exact R|]. split; [reflexivity|].
  exists (nodes_of (eacht (fun i s => [dfa_node i s]) 0 X)), (edges_of (eacht (fun i s => map (dfa_edge i) (dtrs s)) 0 X)), [83; 48]%N. cbn [g_nodes g_edges].
  assert (E1 : Forall is_node (eacht (fun i s => [dfa_node i s]) 0 X)) by (apply eacht_Forall; intros i x; constructor; [eexists; eexists; reflexivity|constructor]).
  assert (E2 : Forall is_edge (eacht (fun i s => map (dfa_edge i) (dtrs s)) 0 X)) by (apply eacht_Forall; intros i x; apply Forall_forall; intros s Hs; apply in_map_iff in Hs as (t & <- & _); unfold dfa_edge, is_edge; eauto).
  split; [|split; [|split; [exact (num_numbered 83 0)|split]]].
  - change (nodes_of (SNode [83%N; 83%N] [(k_style, v_invisible)] :: ?l)) with (([83; 83]%N, [(k_style, v_invisible)]) :: nodes_of l). f_equal.
    rewrite nodes_app. change (nodes_of (SEdge [83%N; 83%N] [83%N; 48%N] [] :: ?l)) with (nodes_of l). rewrite (edges_nodes _ E2), app_nil_r. reflexivity.
  - change (edges_of (SNode [83%N; 83%N] [(k_style, v_invisible)] :: ?l)) with (edges_of l). rewrite edges_app, (nodes_edges _ E1). reflexivity.
  - apply Forall2_each. intros i x _ Hx. cbn. constructor; [|constructor]. cbn [fst snd]. split; [apply num_numbered|]. destruct (B x Hx) as [NE _].
    split; [exists (index_text' (dlab x)); split; [destruct (dlong x); reflexivity|apply index_shows; exact NE]|]. destruct (dlong x); split; reflexivity.
  - apply (Forall2_each2 _ dtrs). intros i s Hs. pose proof (proj2 (B s Hs)) as H. clear - H.
    induction (dtrs s) as [|t st IH]; [constructor|]. cbn [map flat_map app dfa_edge]. constructor; [|apply IH; intros u Hu; apply H; right; exact Hu].
    cbn [fst snd]. split; [apply num_numbered|]. split; [apply num_numbered|]. destruct (rendered_class (tlab t) (byte_bytes _ (H t (or_introl eq_refl)))) as (w & W1 & W2).
    exists (class_label (tlab t)), w. rewrite app_nil_r. split; [reflexivity|split; assumption].
Qed.
Print Assumptions C53_dfa_drawing.

(** The table of a decision: double circles A1..Am for the alternatives up to the largest that can be chosen, circles for the
    states. *)
Definition shows_ldfa (T : ldfa) (g : graph) : Prop :=
  exists m alts nodes, g_nodes g = alts ++ nodes /\
    (forall st t, In st T -> In t st -> (snd t < 0)%Z -> (1 <= - snd t <= Z.of_nat m)%Z) /\
    (m <> 0 -> exists st t, In st T /\ In t st /\ snd t = (- Z.of_nat m)%Z) /\
    Forall2 (fun i nd => plain_node 65 i v_doublecircle nd) (seq 1 m) alts /\
    Forall2 (fun p nd => plain_node 83 (fst p) v_circle nd) (states_of T) nodes /\
    Forall2 (fun p e => let '(x, y, a) := e in numbered 83 (fst p) x /\
               ((snd (snd p) < 0)%Z -> numbered 65 (Z.to_nat (- snd (snd p))) y) /\ ((0 <= snd (snd p))%Z -> numbered 83 (Z.to_nat (snd (snd p))) y) /\
               labelled a [] (fst (snd p)) []) (arrows_of (fun st => st) T) (g_edges g).
Lemma color_fold_st (st : list (cclass * Z)) : forall m, let r := fold_left (fun m (t : cclass * Z) => if (snd t <? 0)%Z then Nat.max m (Z.to_nat (- snd t)) else m) st m in
  m <= r /\ (forall t, In t st -> (snd t < 0)%Z -> (- snd t <= Z.of_nat r)%Z) /\ (r <> m -> exists t, In t st /\ snd t = (- Z.of_nat r)%Z).
Proof.
  induction st as [|t st IH]; intros m r; [subst r; cbn; split; [lia|split; [intros t []|congruence]]|]. subst r. cbn [fold_left].
  destruct (Z.ltb_spec (snd t) 0) as [L|L].
  - destruct (IH (Nat.max m (Z.to_nat (- snd t)))) as (A & B & C). cbv zeta in *. set (r := fold_left _ st _) in *. split; [lia|]. split.
    + intros u [<-|Hu] Hn; [lia|exact (B u Hu Hn)].
    + intros D. destruct (Nat.eq_dec r (Nat.max m (Z.to_nat (- snd t)))) as [E|E].
      * exists t. split; [left; reflexivity|]. lia.
      * destruct (C E) as (u & Hu & Eu). exists u. split; [right; exact Hu|exact Eu].
  - destruct (IH m) as (A & B & C). cbv zeta in *. set (r := fold_left _ st _) in *. split; [lia|]. split.
    + intros u [<-|Hu] Hn; [lia|exact (B u Hu Hn)].
    + intros D. destruct (C D) as (u & Hu & Eu). exists u. split; [right; exact Hu|exact Eu].
Qed.
Lemma color_fold (T : ldfa) : forall m, let r := fold_left (fun m st => fold_left (fun m (t : cclass * Z) => if (snd t <? 0)%Z then Nat.max m (Z.to_nat (- snd t)) else m) st m) T m in
  m <= r /\ (forall st t, In st T -> In t st -> (snd t < 0)%Z -> (- snd t <= Z.of_nat r)%Z) /\ (r <> m -> exists st t, In st T /\ In t st /\ snd t = (- Z.of_nat r)%Z).
Proof.
  induction T as [|st T IH]; intros m r; [subst r; cbn; split; [lia|split; [intros st t []|congruence]]|]. subst r. cbn [fold_left].
  destruct (color_fold_st st m) as (A & B & C). cbv zeta in *. set (r1 := fold_left _ st m) in *. destruct (IH r1) as (A' & B' & C'). cbv zeta in *. set (r := fold_left _ T r1) in *.
  split; [lia|]. split.
  - intros st' t [<-|Hs] Ht Hn; [specialize (B t Ht Hn); lia|exact (B' st' t Hs Ht Hn)].
  - intros D. destruct (Nat.eq_dec r r1) as [E|E].
    + destruct (C ltac:(lia)) as (t & Ht & Et). exists st, t. split; [left; reflexivity|]. split; [exact Ht|]. rewrite E. exact Et.
    + destruct (C' E) as (st' & t & Hs & Ht & Et). exists st', t. split; [right; exact Hs|]. split; assumption.
Qed.
Theorem C53_ldfa_drawing : forall name T, is_name name -> keyword name = false -> (forall st t, In st T -> In t st -> byte_ranges (fst t)) ->
  exists g, dot_read (ldfa_dot name T) = Some g /\ g_name g = name /\ shows_ldfa T g.
Proof.
  intros name T Hn K B. pose proof (ldfa_read name T (name_dot _ Hn) K (fun st t H1 H2 => byte_bytes _ (B st t H1 H2))) as R. cbv zeta in R. eexists. split; [exact R|]. split; [reflexivity|].
  destruct (color_fold T 0) as (_ & CB & CA). cbv zeta in CB, CA. fold (color_num T) in CB, CA.
  exists (color_num T), (nodes_of (map (fun i => SNode (65%N :: num i) [(k_label, num i); (k_shape, v_doublecircle)]) (seq 1 (color_num T)))),
    (nodes_of (eacht (fun i _ => [SNode (83%N :: num i) [(k_label, num i); (k_shape, v_circle)]]) 0 T)). cbn [g_nodes g_edges].
  assert (E0 : Forall is_node (map (fun i => SNode (65%N :: num i) [(k_label, num i); (k_shape, v_doublecircle)]) (seq 1 (color_num T)))) by (apply Forall_forall; intros s Hs; apply in_map_iff in Hs as (t & <- & _); unfold is_node; eauto).
  assert (E1 : Forall is_node (eacht (fun i (_ : list (cclass * Z)) => [SNode (83%N :: num i) [(k_label, num i); (k_shape, v_circle)]]) 0 T)) by (apply eacht_Forall; intros i x; constructor; [eexists; eexists; reflexivity|constructor]).
  assert (E2 : Forall is_edge (eacht (fun i st => map (ldfa_edge i) st) 0 T)) by (apply eacht_Forall; intros i x; apply Forall_forall; intros s Hs; apply in_map_iff in Hs as (t & <- & _); unfold ldfa_edge, is_edge; eauto).
  split; [rewrite !nodes_app, (edges_nodes _ E2), app_nil_r; reflexivity|]. split; [intros st t H1 H2 H3; specialize (CB st t H1 H2 H3); lia|]. split; [intros NZ; exact (CA NZ)|]. split; [|split].
  - clear. generalize (seq 1 (color_num T)). intros l. induction l as [|i l IH]; [constructor|]. cbn [map nodes_of flat_map app]. constructor; [|exact IH].
    split; [apply num_numbered|]. split; [|reflexivity]. exists (num i). split; [reflexivity|apply num_numeral].
  - apply Forall2_each. intros i x _ _. cbn. constructor; [|constructor]. split; [apply num_numbered|]. split; [|reflexivity]. exists (num i). split; [reflexivity|apply num_numeral].
  - rewrite !edges_app, (nodes_edges _ E0), (nodes_edges _ E1). cbn [app]. apply (Forall2_each2 _ (fun st => st)). intros i st Hst. assert (H : forall t, In t st -> byte_ranges (fst t)) by (intros t Ht; exact (B st t Hst Ht)). clear - H.
    induction st as [|t st IH]; [constructor|]. cbn [map flat_map app ldfa_edge]. constructor; [|apply IH; intros u Hu; apply H; right; exact Hu].
    cbn [fst snd]. split; [apply num_numbered|]. unfold l_word. destruct (rendered_class (fst t) (byte_bytes _ (H t (or_introl eq_refl)))) as (w & W1 & W2).
    assert (LL : labelled [(k_label, class_label (fst t))] [] (fst t) []) by (exists (class_label (fst t)), w; rewrite app_nil_r; split; [reflexivity|split; assumption]).
    destruct (Z.ltb_spec (snd t) 0); (split; [intros; try lia; apply num_numbered|]; split; [intros; try lia; apply num_numbered|]; exact LL).
Qed.
Print Assumptions C53_ldfa_drawing.

(** The composite network of a rule (generate-catn): a node shows the rule it invokes, or its number; an arrow shows its tag and,
    in brackets, its class. *)
Definition shows_catn (Q : cmach) (g : graph) : Prop :=
  Forall2 (fun p nd => numbered 78 (fst p) (fst nd) /\ (csub (snd p) <> [] -> attribute_of k_label (snd nd) = Some (csub (snd p))) /\
             (csub (snd p) = [] -> exists d, attribute_of k_label (snd nd) = Some d /\ numeral d (N.of_nat (fst p)))) (states_of Q) (g_nodes g) /\
  Forall2 (fun p e => let '(x, y, a) := e in numbered 78 (fst p) x /\ numbered 78 (cdest (snd p)) y /\
             exists d, numeral d (N.of_nat (ctag (snd p))) /\ labelled a (d ++ [58; 91]%N) (clab (snd p)) [93%N]) (arrows_of ctrs Q) (g_edges g).
Lemma edges_map i l : nodes_of (map (c_edge i) l) = [].
Proof. induction l as [|t l IH]; [reflexivity|exact IH]. Qed.
Theorem C53_catn_drawing : forall name Q, is_name name -> keyword name = false ->
  (forall n, In n Q -> (csub n = [] \/ is_name (csub n)) /\ forall t, In t (ctrs n) -> byte_ranges (clab t)) ->
  exists g, dot_read (catn_dot name Q) = Some g /\ g_name g = name /\ shows_catn Q g.
Proof.
  intros name Q Hn K B.
  assert (B1 : forall n, In n Q -> quiet (csub n)).
  { intros n H. destruct (B n H) as [[->|D] _]; [intros ? []|]. destruct (csub n) as [|c v]; [intros ? []|]. destruct D as [D1 D2]. intros x [<-|Hx].
    - destruct D1 as [->|[D1|D1]]; [split; discriminate|lia|lia].
    - destruct (D2 x Hx) as [->|[[D|D]|D]]; [split; discriminate|lia|lia|unfold digit in D; lia]. }
  pose proof (catn_read name Q (name_dot _ Hn) K B1 (fun n t H1 H2 => byte_bytes _ (proj2 (B n H1) t H2))) as R. cbv zeta in R. eexists. split; [exact R|]. split; [reflexivity|]. split; cbn [g_nodes g_edges].
  - apply Forall2_each. intros i x _ Hx. cbn [flat_map]. fold (nodes_of (map (c_edge i) (ctrs x))). rewrite edges_map. constructor; [|constructor]. cbn [fst snd app]. split; [apply num_numbered|]. unfold cname. split.
    + intros NE. destruct (csub x); [congruence|reflexivity].
    + intros ->. exists (num i). split; [reflexivity|apply num_numeral].
  - apply (Forall2_each2 _ ctrs). intros i n Hi. cbn [flat_map]. pose proof (proj2 (B n Hi)) as H. clear - H. cbn [app].
    induction (ctrs n) as [|t st IH]; [constructor|]. cbn [map flat_map app c_edge]. constructor; [|apply IH; intros u Hu; apply H; right; exact Hu].
    cbn [fst snd]. split; [apply num_numbered|]. split; [apply num_numbered|]. destruct (rendered_class (clab t) (byte_bytes _ (H t (or_introl eq_refl)))) as (w & W1 & W2).
    exists (num (ctag t)). split; [apply num_numeral|]. exists (ctag_label t), w. split; [reflexivity|]. split; [|exact W2]. unfold ctag_label. rewrite <- app_assoc.
    apply rendered_app; [apply rendered_quiet, num_quiet|]. cbn [app]. cbn [rendered N.eqb Pos.eqb]. rewrite (rendered_app _ [93%N] w [93%N] W1 eq_refl). reflexivity.
Qed.
Print Assumptions C53_catn_drawing.

(** ** Which classes a label can stand for *)
(** A class whose ranges begin and end with visible characters, none of them a dash or a backslash, is the only such class with its
    label. *)
Definition clear_ends (cc : cclass) : Prop :=
  byte_ranges cc /\ forall r, In r cc -> (33 <= rs r <= 126 /\ 33 <= re r - 1 <= 126)%N /\ (rs r <> 45 /\ re r - 1 <> 45)%N.
Lemma clear_char c w : (33 <= c <= 126)%N -> shows_char c w -> w = [c].
Proof. intros H [[_ ->]|[N _]]; [reflexivity|contradiction]. Qed.
Lemma clear_range r w : (33 <= rs r <= 126 /\ 33 <= re r - 1 <= 126)%N -> shows_range r w -> (re r = rs r + 1 /\ w = [rs r])%N \/ (re r <> rs r + 1 /\ w = [rs r; 45; re r - 1])%N.
Proof.
  intros [A B] [[E H]|[E (a & b & H1 & H2 & ->)]]; [left|right]; split; auto; [exact (clear_char _ _ A H)|]. rewrite (clear_char _ _ A H1), (clear_char _ _ B H2). reflexivity.
Qed.
Lemma clear_ranges cc1 : forall cc2 l1 l2, clear_ends cc1 -> clear_ends cc2 -> Forall2 shows_range cc1 l1 -> Forall2 shows_range cc2 l2 ->
  List.concat l1 = List.concat l2 -> cc1 = cc2.
Proof.
  induction cc1 as [|r cc1 IH]; intros cc2 l1 l2 [P1 C1] [P2 C2] F1 F2 E.
  - inversion F1; subst. destruct cc2 as [|s cc2]; [reflexivity|]. inversion F2 as [|? y ? l2' H H']; subst. destruct (clear_range s y (proj1 (C2 s (or_introl eq_refl))) H) as [[_ ->]|[_ ->]]; discriminate.
  - inversion F1 as [|? x ? l1' H H']; subst. pose proof (clear_range r x (proj1 (C1 r (or_introl eq_refl))) H) as X.
    destruct cc2 as [|s cc2]; [inversion F2; subst; destruct X as [[_ ->]|[_ ->]]; discriminate|]. inversion F2 as [|? y ? l2' G G']; subst. pose proof (clear_range s y (proj1 (C2 s (or_introl eq_refl))) G) as Y.
    assert (IHE : List.concat l1' = List.concat l2' -> cc1 = cc2).
    { intros EE. apply (IH cc2 l1' l2'); auto; split; intros q Hq; first [apply P1; right; exact Hq | apply P2; right; exact Hq | apply C1; right; exact Hq | apply C2; right; exact Hq]. }
    (* a single character is never followed by a dash *)
    assert (ND : forall cc l, (forall q, In q cc -> (33 <= rs q <= 126 /\ 33 <= re q - 1 <= 126)%N /\ (rs q <> 45 /\ re q - 1 <> 45)%N) -> Forall2 shows_range cc l -> forall v, List.concat l <> 45%N :: v).
    { intros cc l Hc FF v EE. destruct FF as [|q z cc' l' HH FF]; [discriminate|]. destruct (Hc q (or_introl eq_refl)) as [HQ [HQ1 _]]. destruct (clear_range q z HQ HH) as [[_ ->]|[_ ->]]; cbn in EE; injection EE as EE _; congruence. }
    pose proof (P1 r (or_introl eq_refl)) as PR. pose proof (P2 s (or_introl eq_refl)) as PS.
    destruct X as [[X1 ->]|[X1 ->]], Y as [[Y1 ->]|[Y1 ->]]; cbn [List.concat app] in E.
    + injection E as E0 E. f_equal; [destruct r, s; cbn in *; f_equal; lia|exact (IHE E)].
    + injection E as E0 E. exfalso. exact (ND cc1 l1' (fun q Hq => C1 q (or_intror Hq)) H' _ E).
    + injection E as E0 E. exfalso. exact (ND cc2 l2' (fun q Hq => C2 q (or_intror Hq)) G' _ (eq_sym E)).
    + injection E as E0 E1 E. f_equal; [destruct r, s; cbn in *; f_equal; lia|exact (IHE E)].
Qed.
Theorem C53_labels_unique : forall cc1 cc2 w, clear_ends cc1 -> clear_ends cc2 -> shows_class cc1 w -> shows_class cc2 w -> cc1 = cc2.
Proof.
  intros cc1 cc2 w C1 C2 [[-> ->]|[N1 (l1 & F1 & ->)]] [[-> E]|[N2 (l2 & F2 & E)]]; try reflexivity; try discriminate.
  injection E as E. apply app_inj_tail in E as [E _]. exact (clear_ranges cc1 cc2 l1 l2 C1 C2 F1 F2 E).
Qed.
Print Assumptions C53_labels_unique.


(** Refuted in general: the brackets [!\-~] (three characters) and [!-~] (all visible characters) are drawn alike. *)
Definition three : pat := PSnoc PNil (SOne (UAtom (ASet [Single 33; Single 45; Single 126]%N)) QOne).
Definition many : pat := PSnoc PNil (SOne (UAtom (ASet [Span 33 126]%N)) QOne).
Theorem C53_labels_refuted : exists t t' A B, w_pat three t /\ w_pat many t' /\ patL many [97%N] /\ ~ patL three [97%N] /\
  draw_nfa_e t = Shown A /\ draw_nfa_e t' = Shown B /\ forall name, nfa_dot name A = nfa_dot name B.
Proof.
  exists ([] ++ (91%N :: write_items [Single 33; Single 45; Single 126]%N ++ [93%N]) ++ []), ([] ++ (91%N :: write_items [Span 33 126]%N ++ [93%N]) ++ []). eexists. eexists.
  split; [apply wp_snoc; [constructor|]; apply ws_one; [constructor; constructor; apply CharClassParse.write_items_text; repeat constructor; cbn; lia|cbn; auto]|].
  split; [apply wp_snoc; [constructor|]; apply ws_one; [constructor; constructor; apply CharClassParse.write_items_text; repeat constructor; cbn; lia|cbn; auto]|].
  split; [cbn; exists [], [97%N]; split; [reflexivity|]; split; [reflexivity|]; exists 97%N; split; [reflexivity|]; exists (Span 33 126); split; [left; reflexivity|cbn; lia]|].
  split.
  - cbn. intros (u & v & E & -> & (c & -> & (it & Hi & D))). cbn in E. injection E as <-. destruct Hi as [<-|[<-|[<-|[]]]]; cbn in D; discriminate.
  - split; [vm_compute; reflexivity|]. split; [vm_compute; reflexivity|]. intros name. unfold nfa_dot. apply (f_equal (fun r => head_text name true ++ r)). vm_compute. reflexivity.
Qed.
Print Assumptions C53_labels_refuted.

(** Refuted for rules whose name is a keyword of DOT, such as Node, Edge or Graph: whatever follows, there is no graph. *)
Lemma keyword_head name b rest : is_name name -> keyword name = true -> dot_read (head_text name b ++ rest) = None.
Proof.
  intros Hn K. unfold dot_read, words_of. rewrite lrun_app, (head_says name b (name_dot _ Hn)). destruct (lrun Idle rest) as [m l]. cbn [app]. destruct m; try reflexivity.
  replace (weqb (map lower w_digraph) w_digraph) with true by reflexivity. cbn [identifier]. rewrite K. reflexivity.
Qed.
Theorem C53_keyword_refuted : exists name, is_name name /\ (forall A, dot_read (nfa_dot name A) = None) /\ (forall X, dot_read (dfa_dot name X) = None) /\
  (forall T, dot_read (ldfa_dot name T) = None) /\ forall Q, dot_read (catn_dot name Q) = None.
Proof.
  exists [78; 111; 100; 101]%N. assert (Hn : is_name [78; 111; 100; 101]%N) by (cbn; split; [right; left; lia|]; intros x Hx; right; left; right; repeat (destruct Hx as [<-|Hx]; [lia|]); destruct Hx).
  split; [exact Hn|]. repeat split; intros; apply keyword_head; auto.
Qed.
Print Assumptions C53_keyword_refuted.

(** ** The commands *)
Lemma trb_bytes st : trb st -> forall t, In t st -> byte_ranges (tlab t).
Proof. intros H t Ht. exact (H t Ht). Qed.
Lemma proper_trb (A : nfa) : (forall q lab d, edge A q lab d -> proper lab) -> forall st, In st A -> trb st.
Proof.
  intros H st Hst t Ht r Hr. apply (In_nth _ _ []) in Hst as (q & _ & <-). exact (H q (tlab t) (tdest t) (ex_intro _ t (conj Ht (conj eq_refl eq_refl))) r Hr).
Qed.
Definition name_NFA : list N := [78; 70; 65]%N.
Definition name_DFA : list N := [68; 70; 65]%N.
Lemma name_NFA_ok : is_name name_NFA. Proof. cbn. split; [right; left; lia|]. intros x Hx. right. left. left. repeat (destruct Hx as [<-|Hx]; [lia|]); destruct Hx. Qed.
Lemma name_DFA_ok : is_name name_DFA. Proof. cbn. split; [right; left; lia|]. intros x Hx. right. left. left. repeat (destruct Hx as [<-|Hx]; [lia|]); destruct Hx. Qed.
(** generate-nfa -e and generate-dfa -e: the drawing shows the automaton that was made of the pattern. *)
Theorem C53_pattern_option : forall p t, pat_ok p -> w_pat p t -> ~ In 13%N t ->
  (exists A g, draw_nfa_e t = Shown A /\ dot_read (nfa_dot name_NFA A) = Some g /\ g_name g = name_NFA /\ shows_nfa A g) /\
  forall k opt X, draw_dfa_e k opt t = Shown X -> exists g, dot_read (dfa_dot name_DFA X) = Some g /\ g_name g = name_DFA /\ shows_dfa X g.
Proof.
  intros p t Hp Hw NC. assert (E : draw_nfa_e t = Shown (build_pat p)) by (unfold draw_nfa_e; rewrite StreamProofs.deliver_nocr by exact NC; rewrite (nfa_parse_written_eof p t Hp Hw); reflexivity).
  pose proof (proper_trb _ (pat_proper p Hp)) as TB. split.
  - destruct (C53_nfa_drawing name_NFA (build_pat p) name_NFA_ok eq_refl (fun st t H1 H2 => TB st H1 t H2)) as (g & G1 & G2 & G3). exists (build_pat p), g. auto.
  - intros k opt X H. unfold draw_dfa_e in H. rewrite E in H. destruct (dfa_build k k (build_pat p)) as [Y|] eqn:EY; [|discriminate]. injection H as <-.
    apply (C53_dfa_drawing name_DFA Y name_DFA_ok eq_refl). intros s Hs. destruct (build_dok _ TB k k Y EY s Hs) as [K1 K2]. split; [exact K1|exact (trb_bytes _ K2)].
Qed.
Print Assumptions C53_pattern_option.

Lemma declared_names f file t ds : forall res, w_file f res file t ds -> forall name b, In (name, b) ds -> is_name name.
Proof.
  intros res H. induction H as [| |f0 b b1 id b2 r ds _ _ _ _ _ _ IH|f0 b b1 p b2 r ds ds' _ _ _ _ _ IH1 _ IH2]; intros name e0 Hin.
  - destruct Hin.
  - destruct Hin as [Hin|Hin]; [|eauto]. injection Hin as <- <-. assumption.
  - eauto.
  - apply in_app_or in Hin as [Hin|Hin]; eauto.
Qed.
(** The commands with a grammar file: the drawing is called after the rule and shows the automaton of the place. *)
Theorem C53_file_drawings : forall fs file ds g C, compiled_from fs file ds g C -> rules_plain ds -> forall t p name i, read_path t = SOk (p ++ [(name, i)]) -> keyword name = false ->
  (forall A, draw_nfa (c_nets C) t = Shown A -> exists G, dot_read (nfa_dot name A) = Some G /\ g_name G = name /\ shows_nfa A G) /\
  (forall k opt X, draw_dfa k opt (c_nets C) t = Shown X -> exists G, dot_read (dfa_dot name X) = Some G /\ g_name G = name /\ shows_dfa X G) /\
  (forall k T, draw_ldfa k (c_nets C) t = Shown T -> exists G, dot_read (ldfa_dot name T) = Some G /\ g_name G = name /\ shows_ldfa T G).
Proof.
  intros fs file ds g C HF HP t p name i HR K.
  assert (HN : is_name name).
  { apply read_path_iff in HR as (_ & x & W & _). clear - W. remember (p ++ [(name, i)]) as l. revert p Heql. induction W as [y u (w & N1 & _)|y l u r (w & N1 & _) W IH]; intros p E.
    - destruct p as [|z p]; [injection E as ->; exact N1|]. destruct p; discriminate.
    - destruct p as [|z p]; [injection E as _ ->; inversion W|]. injection E as _ E. exact (IH p E). }
  assert (HA : forall A, draw_nfa (c_nets C) t = Shown A -> forall st, In st A -> trb st).
  { intros A H. unfold draw_nfa in H. rewrite HR in H. unfold Tool.resolve in H. rewrite rev_app_distr in H. cbn [rev app] in H. destruct (Grammar.lookup (c_nets C) name) as [[id M]|] eqn:E; [|discriminate].
    destruct (nth_error M (N.to_nat i)) as [n|] eqn:En; [|discriminate]. destruct (nt n) as [| | |A0|] eqn:Et; try discriminate. injection H as <-. apply GrammarProofs.lookup_in in E. apply proper_trb.
    intros q lab d He. refine (file_proper fs file ds g C HF HP name id M (N.to_nat i) A0 q lab d E _ _ He); [apply nth_error_Some; congruence|]. rewrite (nth_error_nth _ _ blank En). exact Et. }
  split; [|split].
  - intros A H. apply (C53_nfa_drawing name A HN K). intros st x H1 H2. exact (HA A H st H1 x H2).
  - intros k opt X H. unfold draw_dfa in H. destruct (draw_nfa (c_nets C) t) as [A| | |] eqn:E; try discriminate. specialize (HA A eq_refl).
    assert (DK : doks X) by (destruct opt; [destruct (dfa_build k k A) as [Y|] eqn:EY; [|discriminate]; injection H as <-; exact (build_dok A HA k k Y EY)|destruct (dfa_plain k k A) as [Y|] eqn:EY; [|discriminate]; injection H as <-; exact (plain_dok A HA k k Y EY)]).
    apply (C53_dfa_drawing name X HN K). intros s Hs. destruct (DK s Hs) as [K1 K2]. split; [exact K1|exact (trb_bytes _ K2)].
  - intros k T H. unfold draw_ldfa in H. rewrite HR in H. destruct (composite (c_nets C)) as [D|] eqn:ED; [|discriminate]. rewrite map_app, rev_app_distr in H. cbn [map rev app] in H. cbn [fst snd] in H.
    set (up := rev (map (fun x => (fst x, N.to_nat (snd x))) p)) in H. destruct (ldfa_build D k k ((name, N.to_nat i) :: up)) as [T'| |] eqn:ET; try discriminate. injection H as <-.
    pose proof (all_proper (c_nets C) D (file_lookable fs file ds g C HF HP) ED (file_proper fs file ds g C HF HP)) as AP.
    destruct (node_at D ((name, N.to_nat i) :: up)) as [n|] eqn:En.
    + destruct (build_codable D k k name (N.to_nat i) up n T' En ET AP) as [_ LC]. apply (C53_ldfa_drawing name T' HN K). intros st x H1 H2. apply (In_nth _ _ []) in H1 as (q & _ & <-). destruct x as [cc z]. exact (proj1 (LC q cc z H2)).
    + exfalso. unfold ldfa_build, ldfa_plain, root_closure in ET. rewrite En in ET. discriminate.
Qed.
Print Assumptions C53_file_drawings.
(** generate-catn. *)
Theorem C53_file_network : forall fs file ds g C, compiled_from fs file ds g C -> rules_plain ds -> forall D name Q, composite (c_nets C) = Some D -> mach D name = Some Q -> keyword name = false ->
  exists G, dot_read (catn_dot name Q) = Some G /\ g_name G = name /\ shows_catn Q G.
Proof.
  intros fs file ds g C HF HP D name Q ED EM K. pose proof (file_lookable fs file ds g C HF HP) as LK. pose proof (mach_known (c_nets C) D ED name Q EM) as KN.
  assert (NM : forall s, In s (map fst (c_nets C)) -> is_name s).
  { intros s Hs. apply in_map_iff in Hs as ([s' [id M]] & E & Hs). cbn in E. subst s'. destruct (file_net fs file ds g C HF s id M Hs) as (b & Hb & _). destruct HF as (HD & _). exact (declared_names _ _ _ _ _ HD s b Hb). }
  apply (C53_catn_drawing name Q (NM name KN) K). intros n Hn. apply In_nth_error in Hn as (q & Hq).
  assert (NA : node_at D [(name, q)] = Some n) by (cbn [node_at]; rewrite EM; exact Hq). split.
  - destruct (node_cases (c_nets C) D LK ED name q [] n KN NA) as (i & q' & Hi & _ & Hq' & [(_ & _ & (E & _))|(Hl & ->)]).
    + rewrite E. destruct (sym (c_nets C) name i) eqn:Es; auto. right. destruct (known_net (c_nets C) LK name KN) as [gn Hg]. apply NM. exact (lk_inv _ LK _ _ _ _ _ Hg Hi Es).
    + rewrite frag_csub by lia. destruct (sym (c_nets C) name i) eqn:Es; auto. cbn in Hl. lia.
  - intros t Ht. exact (all_proper (c_nets C) D LK ED (file_proper fs file ds g C HF HP) _ n t NA Ht).
Qed.
Print Assumptions C53_file_network.
