(** * C54: the drawing of a grammar shows the networks of its rules (specification: ClusterSpec.v, AtnShownSpec.v, model: DrawAtn.v) *)
From Coq Require Import List NArith Arith ZArith Bool Lia String.
From Verif Require Grammar GrammarProofs.
From Verif Require Import CharClass CharClassSpec Stream StreamSpec NFA NFASem NFAProofs NFABuild NFAParse DFA RegexSpec GrammarSpec ParseSpec ATN CodeGen CodeGenProofs CodeGenMisc ATNSem ATNBuild ATNOpt ATNLive ParserGen ParserTree ParserTop Lookahead LookImport LookRead LookFit LookGrammar LookMain 
  Properties_NFA Properties_Grammar Properties_Parser Properties_Look Properties_Tool Tool ToolProofs PathSpec Draw DotSpec DrawProofs Properties_Draw ClusterSpec AtnShownSpec DrawAtn DrawAtnProofs DrawAtnNet.
Import ListNotations.
Local Open Scope nat_scope.
Local Open Scope list_scope.

(** ** Networks *)
(** What the networks of a grammar are like: at least two nodes, the first and the last of which do nothing; the transitions
    stay inside; names are names and the patterns are automata over bytes. *)
Definition plain_pattern (A : nfa) : Prop := A <> [] /\ forall st t, In st A -> In t st -> tdest t < List.length A /\ byte_ranges (tlab t).
Definition plain_network (M : atn) : Prop :=
  (exists n, nth_error M 0 = Some n /\ nt n = NBlank) /\ (exists n, nth_error M (List.length M - 1) = Some n /\ nt n = NBlank) /\
  forall n, In n M -> (forall t, In t (atrs n) -> fst t < List.length M) /\
    match nt n with NInv r => is_name r | NReg A => plain_pattern A | _ => True end.
Definition plain_networks (nets : list (list N * (N * atn))) : Prop := forall k id M, Grammar.lookup nets k = Some (id, M) -> is_name k /\ plain_network M.
Lemma plain_fine nets : plain_networks nets -> forall k id M, Grammar.lookup nets k = Some (id, M) -> dot_name k /\ net_fine M.
Proof.
  intros H k id M E. destruct (H k id M E) as [N0 (A & B & C)]. split; [apply name_dot; exact N0|]. split; [exact A|]. split; [exact B|]. intros n Hn. destruct (C n Hn) as [C1 C2]. split; [exact C1|].
  destruct (nt n) as [|r|l|X|]; auto; [apply name_dot; exact C2|]. destruct C2 as [C2 C3]. split; [exact C2|]. intros st t Hs Ht. destruct (C3 st t Hs Ht) as [C4 C5]. split; [exact C4|apply byte_bytes; exact C5].
Qed.
(** The graph has the name of the first rule and, after the defaults, one cluster, which shows that rule. *)
Definition defaults : list item := [IAttr ([114; 97; 110; 107; 100; 105; 114], [76; 82])%N; IDefault; IDefault; IDefault].
(** No name of a rule ends in a digit or in "_N". *)
Definition good_ending (k : list N) : Prop := (forall w d, k = w ++ [d] -> ~ (48 <= d <= 57)%N) /\ (forall w, k <> w ++ [95; 78]%N).
Lemma drawing_core nets depth root t : (forall k id M, Grammar.lookup nets k = Some (id, M) -> dot_name k /\ net_fine M) -> keyword root = false -> atn_dot nets depth root = Some t ->
  exists it, dot_items t = Some (root, defaults ++ [it]) /\ shows_rule nets depth [] 0 root it /\
    ((forall k v, Grammar.lookup nets k = Some v -> good_ending k) -> NoDup (nodes_in it) /\ NoDup (clusters_in it)).
Proof.
  intros HP K H. unfold atn_dot in H. destruct (p_atn nets depth [] 0 root 0) as [[[b e] c]|] eqn:E; [|discriminate].
  assert (T : head_text root false ++ b ++ txt "}|" = t) by congruence. subst t.
  assert (D : dot_name root).
  { destruct depth; cbn [p_atn] in E; destruct (Grammar.lookup nets root) as [[id M]|] eqn:L; try discriminate; exact (proj1 (HP _ _ _ L)). }
  destruct (p_atn_drawn nets HP depth [] 0 root 0 b e c E) as (it & A1 & A2 & _ & _ & _ & A6). exists it. split; [exact (grammar_read root b [it] D K A1)|]. split; [exact A2|].
  intros HG. refine (tracked_distinct nets _ _ _ _ it _ A6). intros k v L. destruct (HG k v L) as [G1 G2]. split; [|exact G2]. intros w d E0. specialize (G1 w d E0).
  unfold isdig. destruct (N.leb_spec 48 d); [|reflexivity]. destruct (N.leb_spec d 57); [|reflexivity]. exfalso. apply G1. auto.
Qed.
Theorem C54_drawing : forall nets depth root t, plain_networks nets -> keyword root = false -> atn_dot nets depth root = Some t ->
  exists it, dot_items t = Some (root, defaults ++ [it]) /\ shows_rule nets depth [] 0 root it /\
    (* different nodes and clusters have different names *)
    ((forall k v, Grammar.lookup nets k = Some v -> good_ending k) -> NoDup (nodes_in it) /\ NoDup (clusters_in it)).
Proof. intros nets depth root t HP. exact (drawing_core nets depth root t (plain_fine nets HP)). Qed.
Print Assumptions C54_drawing.

(** ** Depth *)
(** From one more than the number of rules on, the depth does not matter; a negative depth is one of these. *)
Theorem C54_depth : forall nets depth root, List.length nets < depth -> atn_dot nets depth root = atn_dot nets (S (List.length nets)) root.
Proof. intros nets depth root H. unfold atn_dot. rewrite (p_atn_unlimited nets depth 0 root 0 H). reflexivity. Qed.
Print Assumptions C54_depth.
Theorem C54_negative_depth : forall opt z nets root, (- 2 ^ 31 <= z < 0)%Z -> (Z.of_nat (List.length nets) < 2 ^ 31)%Z ->
  generate_atn opt z nets root = generate_atn opt (Z.of_nat (S (List.length nets))) nets root.
Proof.
  intros opt z nets root Hz HL. unfold generate_atn.
  assert (G : forall ns, List.length ns = List.length nets -> atn_dot ns (depth_of z) root = atn_dot ns (depth_of (Z.of_nat (S (List.length nets)))) root).
  { intros ns E. assert (D1 : depth_of (Z.of_nat (S (List.length nets))) = S (List.length ns)) by (unfold depth_of; rewrite Z.mod_small; [rewrite Nat2Z.id; congruence|lia]).
    rewrite D1. apply C54_depth. unfold depth_of. replace (z mod 2 ^ 64)%Z with (z + 2 ^ 64)%Z by (apply (Z.mod_unique_pos _ _ (-1)); lia). rewrite E. apply Nat2Z.inj_lt. rewrite Z2Nat.id; lia. }
  destruct opt; [|rewrite (G nets eq_refl); reflexivity].
  destruct (optimise nets) as [ns|] eqn:E; [|reflexivity]. rewrite (G ns); [reflexivity|]. clear - E. revert ns E. induction nets as [|[k [id M]] nets IH]; intros ns E; [injection E as <-; reflexivity|].
  cbn [optimise] in E. destruct (drop_passthrough M); [|discriminate]. destruct (optimise nets) as [r|]; [|discriminate]. injection E as <-. cbn [List.length]. rewrite (IH r eq_refl). reflexivity.
Qed.
Print Assumptions C54_negative_depth.

(** ** Rules that are not declared *)
(** The network of rule k has a reference to rule r. *)
Definition refers (nets : list (list N * (N * atn))) (k r : list N) : Prop := exists id M n, Grammar.lookup nets k = Some (id, M) /\ In n M /\ nt n = NInv r.
Fixpoint chain (nets : list (list N * (N * atn))) (k : list N) (l : list (list N)) : Prop :=
  match l with [] => True | r :: l' => refers nets k r /\ chain nets r l' end.
(** Nothing is drawn if and only if a rule that is not declared is among those to be opened: there is a chain of references of at
    most the depth, without repetition, which ends in it. *)
Lemma p_nodes_none f stack prefix M : forall i cnt, p_nodes (Some f) stack prefix i M cnt = None ->
  exists n r j c, In n M /\ nt n = NInv r /\ ~ In r stack /\ f (r :: stack) j r c = None.
Proof.
  induction M as [|n M IH]; intros i cnt H; [discriminate|]. cbn [p_nodes] in H. destruct (p_node (Some f) stack prefix i (nt n) cnt) as [[[t e] c]|] eqn:E.
  - destruct (p_nodes (Some f) stack prefix (S i) M c) as [[[t' es] c']|] eqn:E2; [discriminate|]. destruct (IH _ _ E2) as (m & r & j & c1 & A & B). exists m, r, j, c1. split; [right; exact A|exact B].
  - unfold p_node in E. destruct (nt n) as [|r|l|A|] eqn:En; try discriminate. destruct (existsb (Grammar.eqname r) stack) eqn:X; [discriminate|]. exists n, r, i, cnt. split; [left; reflexivity|]. split; [exact En|]. split; [|exact E].
    intros Y. apply existsb_eqname in Y. congruence.
Qed.
Lemma p_nodes_none_inv f stack prefix M : forall i cnt n r, In n M -> nt n = NInv r -> ~ In r stack -> (forall j c, f (r :: stack) j r c = None) -> p_nodes (Some f) stack prefix i M cnt = None.
Proof.
  induction M as [|m M IH]; intros i cnt n r Hn En Hr Hf; [destruct Hn|]. cbn [p_nodes]. destruct Hn as [->|Hn].
  - unfold p_node. rewrite En. replace (existsb (Grammar.eqname r) stack) with false; [rewrite Hf; reflexivity|]. symmetry. destruct (existsb (Grammar.eqname r) stack) eqn:X; [apply existsb_eqname in X; contradiction|reflexivity].
  - destruct (p_node (Some f) stack prefix i (nt m) cnt) as [[[t e] c]|]; [|reflexivity]. rewrite (IH (S i) c n r Hn En Hr Hf). reflexivity.
Qed.
Lemma p_nodes_shallow stack prefix M : forall i cnt, p_nodes None stack prefix i M cnt <> None.
Proof.
  induction M as [|n M IH]; intros i cnt; [discriminate|]. cbn [p_nodes]. unfold p_node. specialize (IH (S i)).
  destruct (nt n); match goal with |- context [p_nodes None stack prefix (S i) M ?c] => specialize (IH c); destruct (p_nodes None stack prefix (S i) M c) as [[[? ?] ?]|]; [discriminate|exact IH] end.
Qed.
Lemma last_default {A} (l : list A) x y z : last (x :: l) y = last (x :: l) z.
Proof. revert x. induction l as [|a l IH]; intros x; [reflexivity|]. exact (IH a). Qed.
Lemma p_atn_none nets d : forall stack idx key cnt, p_atn nets d stack idx key cnt = None <->
  exists l, chain nets key l /\ NoDup l /\ (forall r, In r l -> ~ In r stack) /\ List.length l <= d /\ Grammar.lookup nets (last l key) = None.
Proof.
  induction d as [|d IH]; intros stack idx key cnt.
  - cbn [p_atn]. destruct (Grammar.lookup nets key) as [[id M]|] eqn:L.
    + cbv zeta. pose proof (p_nodes_shallow stack (key ++ num cnt) M 0 (S cnt)) as S0. destruct (p_nodes None _ _ _ _ _) as [[[t es] c]|]; [|congruence]. split; [discriminate|].
      intros (l & _ & _ & _ & Hl & E). destruct l; [cbn [last] in E; congruence|cbn in Hl; lia].
    + split; [|reflexivity]. intros _. exists []. cbn. split; [exact I|]. split; [constructor|]. split; [intros r []|]. split; [lia|exact L].
  - change (p_atn nets (S d) stack idx key cnt) with (step nets (Some (p_atn nets d)) stack idx key cnt). unfold step. destruct (Grammar.lookup nets key) as [[id M]|] eqn:L.
    + cbv zeta. destruct (p_nodes (Some (p_atn nets d)) stack (key ++ num cnt) 0 M (S cnt)) as [[[t es] c]|] eqn:E.
      * split; [discriminate|]. intros (l & C & ND & DJ & Hl & EL). exfalso. destruct l as [|r l]; [cbn [last] in EL; congruence|]. cbn [chain] in C. destruct C as [(id' & M' & n & L' & Hn & En) C]. rewrite L in L'. injection L' as <- <-.
        inversion ND as [|? ? ND1 ND2]; subst. rewrite (p_nodes_none_inv (p_atn nets d) stack (key ++ num cnt) M 0 (S cnt) n r Hn En) in E; [discriminate|apply DJ; left; reflexivity|].
        intros j c0. apply IH. exists l. split; [exact C|]. split; [exact ND2|]. split; [intros x Hx [->|Y]; [contradiction|exact (DJ x (or_intror Hx) Y)]|]. split; [cbn [List.length] in Hl; lia|].
        destruct l as [|y l]; [exact EL|]. rewrite (last_default l y r key). exact EL.
      * split; [|reflexivity]. intros _. destruct (p_nodes_none _ _ _ _ _ _ E) as (n & r & j & c & Hn & En & Hr & Hf). apply IH in Hf as (l & C & ND & DJ & Hl & EL).
        exists (r :: l). split; [cbn [chain]; split; [exists id, M, n; auto|exact C]|]. split; [constructor; [intros Y; apply (DJ r Y); left; reflexivity|exact ND]|].
        split; [intros x [<-|Hx]; [exact Hr|intros Y; apply (DJ x Hx); right; exact Y]|]. split; [cbn [List.length]; lia|]. destruct l as [|y l]; [exact EL|]. change (last (r :: y :: l) key) with (last (y :: l) key). rewrite (last_default l y key r). exact EL.
    + split; [|reflexivity]. intros _. exists []. cbn. split; [exact I|]. split; [constructor|]. split; [intros r []|]. split; [lia|exact L].
Qed.
Theorem C54_refused : forall nets depth root, atn_dot nets depth root = None <->
  exists l, chain nets root l /\ NoDup l /\ List.length l <= depth /\ Grammar.lookup nets (last l root) = None.
Proof.
  intros nets depth root. unfold atn_dot. pose proof (p_atn_none nets depth [] 0 root 0) as H. split.
  - intros E. destruct (p_atn nets depth [] 0 root 0) as [[[t e] c]|]; [discriminate|]. destruct (proj1 H eq_refl) as (l & A & B & _ & C & D). exists l. auto.
  - intros (l & A & B & C & D). rewrite (proj2 H); [reflexivity|]. exists l. repeat split; auto.
Qed.
Print Assumptions C54_refused.

(** ** The command *)
(** The networks drawn: those of the grammar or, with --optimize, the same optimised once more. *)
Definition drawn_networks (opt : bool) (nets ns : list (list N * (N * atn))) : Prop :=
  if opt then Forall2 (fun p q => fst q = fst p /\ fst (snd q) = fst (snd p) /\ drop_passthrough (snd (snd p)) = Some (snd (snd q))) nets ns else ns = nets.
Lemma optimise_each nets : forall ns, optimise nets = Some ns -> drawn_networks true nets ns.
Proof.
  cbn [drawn_networks]. induction nets as [|[k [id M]] nets IH]; intros ns E; [injection E as <-; constructor|]. cbn [optimise] in E. destruct (drop_passthrough M) as [M'|] eqn:EM; [|discriminate]. destruct (optimise nets) as [r'|]; [|discriminate]. injection E as <-.
  constructor; [cbn; auto|apply IH; reflexivity].
Qed.
Lemma optimise_drawable nets : (forall k id M, In (k, (id, M)) nets -> is_name k /\ drawable M) ->
  exists ns, optimise nets = Some ns /\ map fst ns = map fst nets /\ forall k id M, In (k, (id, M)) ns -> is_name k /\ drawable M.
Proof.
  induction nets as [|[k [id M]] nets IH]; intros H; [exists []; split; [reflexivity|]; split; [reflexivity|intros k id M []]|]. destruct (H k id M (or_introl eq_refl)) as [H1 H2].
  destruct (drawable_drop M H2) as (M' & E & D). destruct IH as (ns & E2 & K & IH); [intros; apply (H k0 id0 M0); right; assumption|].
  exists ((k, (id, M')) :: ns). cbn [optimise]. rewrite E, E2. split; [reflexivity|]. split; [cbn [map fst]; congruence|]. intros k0 id0 M0 [X|X]; [injection X as <- <- <-; auto|exact (IH _ _ _ X)].
Qed.
Lemma lookup_some (nets : list (list N * (N * atn))) k : In k (map fst nets) -> exists v, Grammar.lookup nets k = Some v.
Proof.
  unfold Grammar.lookup. intros H. destruct (find _ nets) as [p|] eqn:E; [eauto|]. exfalso. apply in_map_iff in H as (x & <- & H). pose proof (find_none _ _ E x H) as F. cbn in F.
  assert (Grammar.eqname (fst x) (fst x) = true) by (apply GrammarProofs.eqname_spec; reflexivity). congruence.
Qed.
Lemma drop_refs M M' r : (forall n, In n M -> nt n <> NInv r) -> drop_passthrough M = Some M' -> forall n, In n M' -> nt n <> NInv r.
Proof. intros H E. exact (drop_kinds (fun x => x <> NInv r) M M' H E). Qed.
Lemma optimise_refs r nets : forall ns, optimise nets = Some ns -> (forall k id M n, In (k, (id, M)) nets -> In n M -> nt n <> NInv r) -> forall k id M n, In (k, (id, M)) ns -> In n M -> nt n <> NInv r.
Proof.
  induction nets as [|[k [id M]] nets IH]; intros ns E H; [injection E as <-; intros k id M n []|]. cbn [optimise] in E. destruct (drop_passthrough M) as [M'|] eqn:EM; [|discriminate]. destruct (optimise nets) as [r'|] eqn:E2; [|discriminate]. injection E as <-.
  intros k0 id0 M0 n [X|X] Hn; [injection X as <- <- <-; refine (drop_refs M M' r _ EM n Hn); intros m Hm; exact (H k id M m (or_introl eq_refl) Hm)|]. refine (IH r' eq_refl _ k0 id0 M0 n X Hn). intros k1 id1 M1 n1 X1. apply (H k1 id1 M1 n1). right. exact X1.
Qed.
Lemma proper_fine p : pat_ok p -> plain_pattern (build_pat p).
Proof.
  intros H. destruct (proj2 (proj2 build_spec) p H) as [[W1 W2] _]. split; [intros E; rewrite E in W1; cbn in W1; lia|]. intros st t Hs Ht. apply (In_nth _ _ []) in Hs as (q & _ & <-).
  assert (X : edge (build_pat p) q (tlab t) (tdest t)) by (exists t; auto). split; [apply (W2 _ _ _ X)|]. exact (pat_proper p H _ _ _ X).
Qed.
Lemma plain_pattern_fine A : plain_pattern A -> pattern_fine A.
Proof. intros [H1 H2]. split; [exact H1|]. intros st t Hs Ht. destruct (H2 st t Hs Ht) as [A1 A2]. split; [exact A1|apply byte_bytes; exact A2]. Qed.
Section File.
Variables (fs : list N -> list N) (file : list N) (ds : list (list N * gsel)) (g : Grammar.gstate) (C : compiled).
Hypothesis HF : compiled_from fs file ds g C.
Hypothesis HP : rules_plain ds.
Lemma file_name k : In k (map fst ds) -> is_name k.
Proof. intros H. apply in_map_iff in H as ([k' b] & <- & H). destruct HF as (HD & _). exact (declared_names _ _ _ _ _ HD k' b H). Qed.
Lemma file_drawable k id M : In (k, (id, M)) (c_nets C) -> is_name k /\ drawable M.
Proof.
  intros H. destruct (file_net _ _ _ _ _ HF _ _ _ H) as (b & Hb & NF & RU). split; [apply file_name; exact (in_map fst _ _ Hb)|]. apply (net_drawable b M NF). intros x Hx. pose proof (HP _ _ _ Hb Hx) as P. destruct x as [s|s|p]; cbn; auto.
  - apply name_dot, file_name. destruct HF as (_ & RD & _). exact (RD _ _ _ _ RU Hx).
  - apply plain_pattern_fine, proper_fine. exact P.
Qed.
Lemma file_refs k id M n r : In (k, (id, M)) (c_nets C) -> In n M -> nt n = NInv r -> In r (map fst (c_nets C)).
Proof.
  intros H Hn E. destruct (file_rules _ _ _ _ _ HF HP k id M H) as (e & NF & _ & RD). apply (In_nth _ _ blank) in Hn as (i & Hi & <-). revert E. pattern (nt (nth i M blank)). apply (net_nodes e M _ NF); [discriminate|discriminate| |exact Hi].
  intros [s|s|p] Hx E; cbn in E; try discriminate. injection E as <-. apply RD. exact Hx.
Qed.
End File.
(** generate-atn, for a grammar file: a drawing is made, whatever the depth, and it is a graph that shows the first rule. *)
Theorem C54_file_drawing : forall fs file ds g C, compiled_from fs file ds g C -> rules_plain ds -> keyword (hd [] (map fst ds)) = false -> forall opt z,
  exists ns t it, drawn_networks opt (c_nets C) ns /\ generate_atn opt z (c_nets C) (hd [] (map fst ds)) = Shown t /\
    dot_items t = Some (hd [] (map fst ds), defaults ++ [it]) /\ shows_rule ns (depth_of z) [] 0 (hd [] (map fst ds)) it /\
    ((forall k, In k (map fst ds) -> good_ending k) -> NoDup (nodes_in it) /\ NoDup (clusters_in it)).
Proof.
  intros fs file ds g C HF HP K opt z. set (root := hd [] (map fst ds)) in *.
  assert (RT : In root (map fst (c_nets C))).
  { apply (file_names _ _ _ _ _ HF). destruct HF as (_ & _ & HL & _). destruct ds as [|d ds']; [cbn in HL; lia|]. left. reflexivity. }
  assert (NB : exists ns, (if opt then optimise (c_nets C) = Some ns else ns = c_nets C) /\ map fst ns = map fst (c_nets C) /\ (forall k id M, In (k, (id, M)) ns -> is_name k /\ drawable M) /\
     forall k id M n r, In (k, (id, M)) ns -> In n M -> nt n = NInv r -> In r (map fst (c_nets C))).
  { destruct opt.
    - destruct (optimise_drawable (c_nets C) (file_drawable fs file ds g C HF HP)) as (ns & E1 & E2 & E3). exists ns. split; [exact E1|]. split; [exact E2|]. split; [exact E3|].
      intros k id M n r H Hn E. destruct (in_dec (list_eq_dec N.eq_dec) r (map fst (c_nets C))) as [Y|Y]; [exact Y|]. exfalso. refine (optimise_refs r (c_nets C) ns E1 _ k id M n H Hn E).
      intros k1 id1 M1 n1 H1 Hn1 E4. apply Y. exact (file_refs fs file ds g C HF HP k1 id1 M1 n1 r H1 Hn1 E4).
    - exists (c_nets C). split; [reflexivity|]. split; [reflexivity|]. split; [exact (file_drawable fs file ds g C HF HP)|exact (file_refs fs file ds g C HF HP)]. }
  destruct NB as (ns & E1 & E2 & E3 & E4).
  assert (HN : forall k id M, Grammar.lookup ns k = Some (id, M) -> dot_name k /\ net_fine M).
  { intros k id M L. apply GrammarProofs.lookup_in in L. destruct (E3 _ _ _ L) as [N1 N2]. split; [apply name_dot; exact N1|apply drawable_fine; exact N2]. }
  destruct (atn_dot ns (depth_of z) root) as [t|] eqn:ET.
  - destruct (drawing_core ns (depth_of z) root t HN K ET) as (it & A1 & A2 & A3). exists ns, t, it. split; [destruct opt; [apply optimise_each; exact E1|exact E1]|]. split.
    + unfold generate_atn. destruct opt; cbn in E1; [rewrite E1|subst ns]; rewrite ET; reflexivity.
    + split; [exact A1|]. split; [exact A2|]. intros HG. apply A3. intros k [id M] L. apply HG. apply GrammarProofs.lookup_in in L. apply (in_map fst) in L. cbn [fst] in L. rewrite E2 in L.
      apply in_map_iff in L as ([k' [id' M']] & E5 & L). cbn in E5. subst k'. destruct (file_net _ _ _ _ _ HF _ _ _ L) as (b & Hb & _). exact (in_map fst _ _ Hb).
  - exfalso. apply C54_refused in ET as (l & CH & _ & _ & LN).
    assert (G : forall l k, In k (map fst (c_nets C)) -> chain ns k l -> In (last l k) (map fst (c_nets C))).
    { clear l CH LN. induction l as [|r l IH]; intros k Hk CH; [exact Hk|]. cbn [chain] in CH. destruct CH as [(id & M & n & L & Hn & En) CH]. apply GrammarProofs.lookup_in in L. specialize (IH r (E4 _ _ _ _ _ L Hn En) CH).
      destruct l as [|y l]; [exact IH|]. change (last (r :: y :: l) k) with (last (y :: l) k). rewrite (last_default l y k r). exact IH. }
    specialize (G l root RT CH). rewrite <- E2 in G. destruct (lookup_some ns _ G) as [v V]. congruence.
Qed.
Print Assumptions C54_file_drawing.
(** Refuted for a first rule whose name is a keyword of DOT: what is printed is no graph. *)
Theorem C54_keyword_refuted : exists root, is_name root /\ forall nets depth t, atn_dot nets depth root = Some t -> dot_items t = None.
Proof.
  exists [78; 111; 100; 101]%N. assert (Hn : is_name [78; 111; 100; 101]%N) by (cbn; split; [right; left; lia|]; intros x Hx; right; left; right; repeat (destruct Hx as [<-|Hx]; [lia|]); destruct Hx).
  split; [exact Hn|]. intros nets depth t H. unfold atn_dot in H. destruct (p_atn nets depth [] 0 _ 0) as [[[b e] c]|]; [|discriminate].
  match type of H with Some ?x = _ => assert (T : x = t) by congruence end. subst t.
  unfold dot_items, words_of. rewrite lrun_app, (head_says _ false (name_dot _ Hn)). match goal with |- context [lrun Idle ?r] => destruct (lrun Idle r) as [m l] end. cbn [app]. destruct m; try reflexivity.
Qed.
Print Assumptions C54_keyword_refuted.
