(** * What the parser accepts is a derivation, and what it writes is its tree *)
From Coq Require Import List NArith ZArith Arith Bool Lia ZifyBool ZifyN ZifyNat Permutation.
From Verif Require Import CharClass NFA NFABuild DFA DFAMin RegexSpec GrammarSpec Marker Reduction ReductionProofs TreeSpec ParseSpec Writer X86 CodeGen CodeGenProofs CodeGenDfa CodeGenMisc ATN CodeGenRoutine ATNSem ATNBuild ATNOpt ATNLive Grammar GrammarProofs ParserGen ParserRun ParserSim.
Import ListNotations.
Local Open Scope nat_scope.

Lemma slice_le u p q : p <= q <= length u -> length (slice u p q) = q - p.
Proof. intros H. unfold slice. rewrite firstn_length, skipn_length. lia. Qed.
Lemma slice_empty u p : slice u p p = [].
Proof. unfold slice. rewrite Nat.sub_diag. reflexivity. Qed.

Lemma longest_le' D v q k : longest D q v = Some k -> k <= length v.
Proof. intros H. pose proof (longest_spec D v q) as S. rewrite H in S. apply S. Qed.
Lemma ws_len_le' v : ws_len v <= length v.
Proof. induction v as [|c v IH]; cbn [ws_len]; [lia|]. destruct (is_ws c); cbn [length]; lia. Qed.
Lemma term_le' C u n s n1 : n <= length u -> term_step C u n s = Some n1 -> n <= n1 <= length u.
Proof.
  intros Hn. pose proof (skipn_length n u) as SL. destruct s as [|id|l|A|]; cbn [term_step].
  - intros E. injection E as <-. lia.
  - discriminate.
  - destruct (prefixb l (skipn n u)) eqn:E; [|discriminate]. intros K. injection K as <-. apply prefixb_len in E. lia.
  - destruct (longest (c_dfa C A) 0 (skipn n u)) as [k|] eqn:E; cbn [option_map]; [|discriminate]. intros K. injection K as <-. apply longest_le' in E. lia.
  - intros K. injection K as <-. pose proof (ws_len_le' (skipn n u)). lia.
Qed.
Lemma exit_lt L n : lcodable L n -> forall w q j, ldfa_go L q w = LExit j -> j < n.
Proof.
  intros [L0 HL]. induction w as [|c w IH]; intros q j G; cbn [ldfa_go] in G; [discriminate|].
  destruct (first_lab (nth q L []) c) as [d|] eqn:FD; [|discriminate]. destruct (0 <=? d)%Z eqn:SG; [eauto|]. injection G as <-.
  assert (DD : exists cc, In (cc, d) (nth q L [])).
  { clear - FD. induction (nth q L []) as [|[cc x] l IH]; cbn in FD; [discriminate|]. destruct (CharClass.includes cc c).
    - injection FD as ->. exists cc. left. reflexivity.
    - destruct (IH FD) as [cc' H]. exists cc'. right. exact H. }
  destruct DD as [cc Hin]. destruct (HL q cc d Hin) as [_ H2]. rewrite SG in H2. exact H2.
Qed.

Section Net.
Variables (C : compiled) (u : list N).
(** Derivations at the level of the networks. *)
Inductive nderives : list N -> nat -> nat -> tree -> Prop :=
| nd name m w p q ch : net_index (c_nets C) name = Some m -> atn_accepts (snd (net_of C m)) w -> nmatched w p q ch ->
    nderives name p q (Node (fst (net_of C m)) (N.of_nat p) (N.of_nat q) ch)
with nmatched : list nty -> nat -> nat -> list tree -> Prop :=
| nm_end p : p <= length u -> nmatched [] p p []
| nm_inv name w p m q t ch : nderives name p m t -> nmatched w m q ch -> nmatched (NInv name :: w) p q (t :: ch)
| nm_lit s w p m q ch : span u p m -> slice u p m = s -> nmatched w m q ch -> nmatched (NLit s :: w) p q ch
| nm_reg A w p m q ch : span u p m -> dfa_run (c_dfa C A) 0 (slice u p m) = true -> nmatched w m q ch -> nmatched (NReg A :: w) p q ch
| nm_ws w p m q ch : span u p m -> spaces (slice u p m) -> nmatched w m q ch -> nmatched (NWs :: w) p q ch.

Lemma longest_run D : forall v q k, longest D q v = Some k -> dfa_run D q (firstn k v) = true.
Proof. intros v q k H. pose proof (longest_spec D v q) as S. rewrite H in S. apply S. Qed.
Lemma ws_spaces v : spaces (firstn (ws_len v) v).
Proof.
  induction v as [|c v IH]; intros x Hx; [destruct Hx|]. cbn [ws_len] in Hx. destruct (is_ws c) eqn:E; [|destruct Hx].
  cbn [firstn] in Hx. destruct Hx as [<-|Hx]; [unfold is_ws in E; lia|auto].
Qed.
Lemma prefix_slice l n : prefixb l (skipn n u) = true -> slice u n (n + length l) = l.
Proof.
  intros H. apply prefixb_spec in H as [v E]. unfold slice. rewrite E. replace (n + length l - n) with (length l) by lia. rewrite firstn_app, Nat.sub_diag, firstn_all. cbn. apply app_nil_r.
Qed.
Lemma term_matched n s n1 w q ch : n <= length u -> (forall id, s <> NInv id) -> term_step C u n s = Some n1 -> nmatched w n1 q ch -> nmatched (ATNSem.reads s ++ w) n q ch.
Proof.
  intros Hn HI HT HM. pose proof (term_le' C u n s n1 Hn HT) as L. destruct s as [|id|l|A|]; cbn [term_step] in HT; cbn [ATNSem.reads app].
  - injection HT as <-. exact HM.
  - destruct (HI id eq_refl).
  - destruct (prefixb l (skipn n u)) eqn:E; [|discriminate]. injection HT as <-. apply (nm_lit _ _ _ (n + length l)); [split; lia|apply prefix_slice; exact E|exact HM].
  - destruct (longest (c_dfa C A) 0 (skipn n u)) as [k|] eqn:E; [|discriminate]. cbn [option_map] in HT. injection HT as <-.
    apply (nm_reg _ _ _ (n + k)); [split; lia| |exact HM]. unfold slice. replace (n + k - n) with k by lia. apply longest_run. exact E.
  - injection HT as <-. apply (nm_ws _ _ (n + ws_len (skipn n u))); [split; lia| |exact HM]. unfold slice. replace (n + ws_len (skipn n u) - n) with (ws_len (skipn n u)) by lia. apply ws_spaces.
Qed.

Hypothesis HW : forall name id M, In (name, (id, M)) (c_nets C) -> wf_net M.
Hypothesis HL : forall m i, i < length (snd (net_of C m)) -> 2 <= length (atrs (node_of C m i)) -> lcodable (c_look C m i) (length (atrs (node_of C m i))).

Lemma net_wf m : m < length (c_nets C) -> wf_net (snd (net_of C m)).
Proof.
  intros H. unfold net_of. destruct (nth m (c_nets C) ([], (0%N, []))) as [name [id M]] eqn:E. apply (HW name id M). rewrite <- E. apply nth_In. exact H.
Qed.
Lemma node_tree : forall f m i n n' ws, m < length (c_nets C) -> i < length (snd (net_of C m)) -> n <= length u -> run_node C u f m i n = POk n' ws ->
  exists w ch, apath (snd (net_of C m)) i w (length (snd (net_of C m)) - 1) /\ nmatched (rd (snd (net_of C m)) i ++ w) n n' ch /\
    ws = List.concat (map stream ch) ++ [end_word (fst (net_of C m)) (N.of_nat n')] /\ n <= n' <= length u.
Proof.
  induction f as [|f IH]; intros m i n n' ws Hm Hi Hn H; [discriminate|]. rewrite run_node_S in H.
  destruct (net_wf m Hm) as [W1 W2 W3 W4]. set (M := snd (net_of C m)) in *.
  assert (ND : node_of C m i = tonode M i) by reflexivity.
  assert (NEXT : forall n1 v, n1 <= length u -> next_res C u f m i n1 = POk n' v -> exists w ch, apath M i w (length M - 1) /\ nmatched w n1 n' ch /\
     v = List.concat (map stream ch) ++ [end_word (fst (net_of C m)) (N.of_nat n')] /\ n1 <= n' <= length u).
  { intros n1 v Hn1 E. unfold next_res in E. rewrite ND in E.
    assert (GO : forall t v, In t (atrs (tonode M i)) -> run_node C u f m (fst t) n1 = POk n' v -> exists w ch, apath M i w (length M - 1) /\ nmatched w n1 n' ch /\
       v = List.concat (map stream ch) ++ [end_word (fst (net_of C m)) (N.of_nat n')] /\ n1 <= n' <= length u).
    { intros t v0 Ht E0. assert (D : In (fst t) (dests M i)) by (apply in_map; exact Ht). pose proof (W2 _ _ D) as Ld.
      destruct (IH m (fst t) n1 n' v0 Hm Ld Hn1 E0) as (w & ch & P1 & P2 & P3 & P4). exists (rd M (fst t) ++ w), ch. split; [econstructor; eassumption|]. auto. }
    destruct (atrs (tonode M i)) as [|t [|t' ts]] eqn:ET.
    - injection E as <- <-. exists [], []. assert (i = length M - 1) as ->. { destruct (Nat.eq_dec i (length M - 1)); [assumption|]. exfalso. apply (W4 i); [lia|]. unfold dests. rewrite ET. reflexivity. }
      split; [constructor|]. split; [constructor; lia|]. split; [reflexivity|lia].
    - apply (GO t v); [left; reflexivity|exact E].
    - destruct (ldfa_go (c_look C m i) 0 (skipn n1 u ++ [0%N])) as [j| |] eqn:G; try discriminate. apply (GO (nth j (t :: t' :: ts) (0, 0)) v); [|exact E]. apply nth_In.
      assert (LC := HL m i Hi). rewrite ND, ET in LC. specialize (LC ltac:(cbn; lia)). exact (exit_lt _ _ LC _ _ _ G). }
  change (nt (node_of C m i)) with (nt (tonode M i)) in H. unfold rd.
  destruct (nt (tonode M i)) as [|id|l|A|] eqn:EN.
  2: { destruct (net_index (c_nets C) id) as [m'|] eqn:EI; [|discriminate]. pose proof (net_index_lt _ _ _ EI) as Hm'.
       destruct (run_node C u f m' 0 n) as [n1 ws1|ws1| |] eqn:E1; cbn [pre] in H; try discriminate.
       destruct (next_res C u f m i n1) as [n2 ws2|ws2| |] eqn:E2; cbn [pre] in H; try discriminate. injection H as -> <-.
       destruct (net_wf m' Hm') as [V1 V2 V3 V4].
       destruct (IH m' 0 n n1 ws1 Hm' ltac:(lia) Hn E1) as (w1 & ch1 & P1 & P2 & P3 & P4). unfold rd in P2. rewrite V3 in P2. cbn [ATNSem.reads app] in P2.
       destruct (NEXT n1 ws2 ltac:(lia) E2) as (w2 & ch2 & Q1 & Q2 & Q3 & Q4).
       exists w2, (Node (fst (net_of C m')) (N.of_nat n) (N.of_nat n1) ch1 :: ch2). split; [exact Q1|]. split.
       { cbn [ATNSem.reads app]. eapply nm_inv; [|exact Q2]. econstructor; eassumption. }
       split; [|lia]. subst. cbn [map stream List.concat]. rewrite <- !app_assoc. cbn [app]. rewrite <- !app_assoc. reflexivity. }
  all: destruct (term_step C u n _) as [n1|] eqn:ET in H; [|discriminate]; pose proof (term_le' C u _ _ _ Hn ET) as L; destruct (NEXT n1 ws ltac:(lia) H) as (w & ch & Q1 & Q2 & Q3 & Q4); exists w, ch;
    (split; [exact Q1|]); (split; [apply (term_matched n _ n1); [exact Hn|discriminate|exact ET|exact Q2]|]); (split; [exact Q3|lia]).
Qed.
Theorem machine_tree f name m n n' ws : net_index (c_nets C) name = Some m -> n <= length u -> run_machine C u f m n = POk n' ws ->
  exists t, nderives name n n' t /\ ws = stream t /\ n <= n' <= length u.
Proof.
  intros HI Hn H. unfold run_machine in H. pose proof (net_index_lt _ _ _ HI) as Hm. destruct (net_wf m Hm) as [V1 V2 V3 V4].
  destruct (run_node C u f m 0 n) as [n1 ws1|ws1| |] eqn:E1; cbn [pre] in H; try discriminate. injection H as <- <-.
  destruct (node_tree f m 0 n n1 ws1 Hm ltac:(lia) Hn E1) as (w1 & ch1 & P1 & P2 & P3 & P4). unfold rd in P2. rewrite V3 in P2. cbn [ATNSem.reads app] in P2.
  exists (Node (fst (net_of C m)) (N.of_nat n) (N.of_nat n1) ch1). split; [econstructor; eassumption|]. split; [|lia]. subst. reflexivity.
Qed.
End Net.

(** ** From networks to rule bodies *)
Definition words (v : list term) : list nty := flat_map (term_word true) v.
Lemma words_app a b : words (a ++ b) = words a ++ words b. Proof. apply flat_map_app. Qed.
Definition lifts (T : list term) (L : list nty -> Prop) (L' : list term -> Prop) : Prop :=
  forall w, L w -> exists v, L' v /\ w = words v /\ forall x, In x v -> In x T.
Lemma lifts_star T L L' : lifts T L L' -> lifts T (GStarL nty L) (GStarL term L').
Proof.
  intros H w K. induction K as [|a b Ka Kb IH]; [exists []; split; [constructor|]; split; [reflexivity|intros x []]|].
  destruct (H a Ka) as (va & A1 & A2 & A3). destruct IH as (vb & B1 & B2 & B3). exists (va ++ vb). split; [constructor; assumption|]. split; [rewrite words_app; congruence|].
  intros x Hx. apply in_app_or in Hx as [Hx|Hx]; auto.
Qed.
Lemma lifts_quant T q L L' : lifts T L L' -> lifts T (gquantL nty q L) (gquantL term q L').
Proof.
  intros H. destruct q; cbn [gquantL]; [exact H|apply lifts_star; exact H| |].
  - intros w (a & b & -> & Ka & Kb). destruct (H a Ka) as (va & A1 & A2 & A3). destruct (lifts_star _ _ _ H b Kb) as (vb & B1 & B2 & B3).
    exists (va ++ vb). split; [exists va, vb; split; [reflexivity|]; split; assumption|]. split; [rewrite words_app; congruence|]. intros x Hx. apply in_app_or in Hx as [Hx|Hx]; auto.
  - intros w [->|K]; [exists []; split; [left; reflexivity|]; split; [reflexivity|intros x []]|]. destruct (H w K) as (v & A1 & A2 & A3). exists v. split; [right; exact A1|]. split; assumption.
Qed.
Lemma lift_all :
  (forall a, lifts (gatom_terms a) (gatomL nty (term_word true) a) (gatomL term (fun x => [x]) a)) /\
  (forall s, lifts (gseq_terms s) (gseqL nty (term_word true) s) (gseqL term (fun x => [x]) s)) /\
  (forall e, lifts (gsel_terms e) (gselL nty (term_word true) e) (gselL term (fun x => [x]) e)).
Proof.
  apply g_ind.
  - intros x w ->. exists [x]. split; [reflexivity|]. split; [cbn; rewrite app_nil_r; reflexivity|]. intros y H. exact H.
  - intros e IH. exact IH.
  - intros w ->. exists []. split; [reflexivity|]. split; [reflexivity|intros x []].
  - intros a IHa q s IHs w (b & c & -> & Kb & Kc). destruct (lifts_quant _ q _ _ IHa b Kb) as (vb & B1 & B2 & B3). destruct (IHs c Kc) as (vc & D1 & D2 & D3).
    exists (vb ++ vc). split; [exists vb, vc; split; [reflexivity|]; split; assumption|]. split; [rewrite words_app; congruence|]. intros x Hx. cbn [gseq_terms]. apply in_or_app. apply in_app_or in Hx as [Hx|Hx]; auto.
  - intros s IH. exact IH.
  - intros e IHe up s IHs w [K|K]; [destruct (IHe w K) as (v & A1 & A2 & A3)|destruct (IHs w K) as (v & A1 & A2 & A3)]; exists v; (split; [cbn; auto|]); (split; [exact A2|]); intros x Hx; cbn [gsel_terms]; apply in_or_app; auto.
Qed.

(** The network of a rule body: as read, or with pass-through nodes removed (Grammar::optimize). *)
Definition net_for (e : gsel) (M : atn) : Prop := M = build_body true e \/ drop_passthrough (build_body true e) = Some M.
Lemma net_for_wf e M : net_for e M -> wf_net M.
Proof. intros [->|H]; [apply body_wf|exact (body_drop_wf _ _ _ H)]. Qed.
Lemma net_for_language e M : net_for e M -> forall w, atn_accepts M w <-> gselL nty (term_word true) e w.
Proof.
  intros H w. rewrite <- build_body_language. destruct H as [->|H]; [reflexivity|]. destruct (body_wf true e) as [W1 W2 _ _]. exact (drop_language _ _ W1 W2 H w).
Qed.
Lemma net_for_kinds (K : nty -> Prop) e M : net_for e M -> K NBlank -> K NWs -> (forall x, In x (gsel_terms e) -> K (term_nty x)) -> kinds K M.
Proof.
  intros [->|H] K0 K1 K2; [apply body_kinds; auto|]. eapply drop_kinds; [|exact H]. apply body_kinds; auto.
Qed.
(** The networks are those of the rules. *)
Definition nets_of (rules : list N -> option (N * gsel)) (C : compiled) : Prop :=
  (forall name, net_index (c_nets C) name = None -> rules name = None) /\
  (forall name id M, In (name, (id, M)) (c_nets C) -> exists e, rules name = Some (id, e) /\ net_for e M).
Lemma net_index_nth nets name m : net_index nets name = Some m -> exists net, nth_error nets m = Some (name, net) /\ lookup nets name = Some net.
Proof.
  revert m. induction nets as [|p nets IH]; intros m H; cbn [net_index] in H; [discriminate|]. unfold lookup. cbn [find]. destruct (eqname (fst p) name) eqn:E.
  - injection H as <-. apply eqname_spec in E. destruct p as [n net]. cbn in E. subst n. exists net. auto.
  - destruct (net_index nets name) as [k|]; [|discriminate]. injection H as <-. destruct (IH k eq_refl) as (net & A1 & A2). exists net. auto.
Qed.
Lemma nets_index rules C name m : nets_of rules C -> net_index (c_nets C) name = Some m -> exists e, rules name = Some (fst (net_of C m), e) /\ net_for e (snd (net_of C m)).
Proof.
  intros [_ H] E. destruct (net_index_nth _ _ _ E) as ([id M] & A & _). unfold net_of. rewrite (nth_error_nth _ _ _ A). cbn [fst snd]. apply (H name). apply nth_error_In in A. exact A.
Qed.
(** The compiled automata match only what the patterns match. *)
Definition pats_sound (rules : list N -> option (N * gsel)) (matches : pat -> list N -> Prop) (C : compiled) : Prop :=
  forall name id e p t, rules name = Some (id, e) -> In (TPat p) (gsel_terms e) -> dfa_run (c_dfa C (build_pat p)) 0 t = true -> matches p t.

Scheme nderives_mut := Induction for nderives Sort Prop
  with nmatched_mut := Induction for nmatched Sort Prop.
Combined Scheme nparse_ind from nderives_mut, nmatched_mut.
Definition okv (matches : pat -> list N -> Prop) (C : compiled) (v : list term) : Prop := forall x, In (TPat x) v -> forall t, dfa_run (c_dfa C (build_pat x)) 0 t = true -> matches x t.
Theorem parse_lift rules matches C u : nets_of rules C -> pats_sound rules matches C ->
  (forall name p q t, nderives C u name p q t -> derives rules matches u name p q t) /\
  (forall w p q ch, nmatched C u w p q ch ->
                 (forall v, w = words v -> okv matches C v -> matched rules matches u v p q ch) /\
                 (forall x v p0, w = term_nty x :: words v -> (forall id, x <> TRule id) -> okv matches C (x :: v) -> span u p0 p -> spaces (slice u p0 p) -> matched rules matches u (x :: v) p0 q ch)).
Proof.
  intros HN HP.
  apply (nparse_ind C u (fun name p q t _ => derives rules matches u name p q t)
      (fun w p q ch _ => (forall v, w = words v -> okv matches C v -> matched rules matches u v p q ch) /\
                 (forall x v p0, w = term_nty x :: words v -> (forall id, x <> TRule id) -> okv matches C (x :: v) -> span u p0 p -> spaces (slice u p0 p) -> matched rules matches u (x :: v) p0 q ch))).
    - intros name m w p q ch HI HA HM [IH _]. destruct (nets_index _ _ _ _ HN HI) as (e & E1 & E2).
      apply (net_for_language e _ E2) in HA. destruct (proj2 (proj2 lift_all) e w HA) as (v & V1 & V2 & V3). econstructor; [exact E1|exact V1|]. apply IH; [exact V2|].
      intros x Hx t Ht. exact (HP name _ e x t E1 (V3 _ Hx) Ht).
    - intros p Hp. split.
      + intros [|[id|s|x] v] E _; [constructor; exact Hp|discriminate..].
      + intros x v p0 E. discriminate.
    - intros name w p m q t ch _ IH1 _ [IH2 _]. split.
      + intros [|[id|s|x] v] E Hv; try discriminate. cbn in E. injection E as <- E. econstructor; [exact IH1|]. apply IH2; [exact E|]. intros y Hy. apply Hv. right. exact Hy.
      + intros x v p0 E HR. destruct x as [id|s|x]; try discriminate. destruct (HR id eq_refl).
    - intros s w p m q ch HS HE _ [IH _]. split.
      + intros [|[id|s'|x] v] E Hv; discriminate.
      + intros x v p0 E HR Hv S0 S1. destruct x as [id|s'|x]; try discriminate. cbn in E. injection E as -> E. econstructor; [exact S0|exact S1|exact HS|exact HE|].
        apply IH; [exact E|]. intros y Hy. apply Hv. right. exact Hy.
    - intros A w p m q ch HS HE _ [IH _]. split.
      + intros [|[id|s'|x] v] E Hv; discriminate.
      + intros x v p0 E HR Hv S0 S1. destruct x as [id|s'|x]; try discriminate. cbn in E. injection E as -> E. econstructor; [exact S0|exact S1|exact HS| |].
        * apply (Hv x); [left; reflexivity|exact HE].
        * apply IH; [exact E|]. intros y Hy. apply Hv. right. exact Hy.
    - intros w p m q ch HS HE _ [_ IH]. split.
      + intros [|[id|s|x] v] E Hv; try discriminate; cbn in E; injection E as E; apply IH; auto; discriminate.
      + intros x v p0 E HR. destruct x as [id|s|x]; discriminate.
Qed.
Theorem derives_lift rules matches C u : nets_of rules C -> pats_sound rules matches C ->
  forall name p q t, nderives C u name p q t -> derives rules matches u name p q t.
Proof. intros HN HP. apply (parse_lift rules matches C u HN HP). Qed.

(** ** Offsets *)
Lemma parse_le rules matches u : (forall name p q t, derives rules matches u name p q t -> p <= q <= length u) /\ (forall w p q ch, matched rules matches u w p q ch -> p <= q <= length u).
Proof.
  apply (parse_ind rules matches u (fun _ p q _ _ => p <= q <= length u) (fun _ p q _ _ => p <= q <= length u)); unfold span; intros; lia.
Qed.
Fixpoint chain (from to : N) (ts : list tree) : Prop :=
  match ts with [] => True | c :: ts' => nested from to c /\ chain (end_of c) to ts' end.
Lemma nested_eq a b i s e ch : nested a b (Node i s e ch) <-> (a <= s)%N /\ (s <= e)%N /\ (e <= b)%N /\ chain s e ch.
Proof.
  cbn [nested]. assert (G : forall ch s, (fix go (from : N) (ts : list tree) : Prop := match ts with [] => True | c :: ts' => nested from e c /\ go (end_of c) ts' end) s ch <-> chain s e ch).
  { induction ch0 as [|c ch0 IH]; intros s0; [reflexivity|]. cbn [chain]. rewrite IH. reflexivity. }
  rewrite G. reflexivity.
Qed.
Lemma nested_mono a b b' t : (b <= b')%N -> nested a b t -> nested a b' t.
Proof. destruct t as [i s e ch]. rewrite !nested_eq. intros H (A & B & D & E). repeat split; try assumption. lia. Qed.
Lemma nested_left a a' b t : (a' <= a)%N -> nested a b t -> nested a' b t.
Proof. destruct t as [i s e ch]. rewrite !nested_eq. intros H (A & B & D & E). repeat split; try assumption. lia. Qed.
Lemma chain_left a a' b ts : (a' <= a)%N -> chain a b ts -> chain a' b ts.
Proof. destruct ts as [|t ts]; [auto|]. cbn. intros H [A B]. split; [exact (nested_left _ _ _ _ H A)|exact B]. Qed.
Theorem derives_nested rules matches u : forall name p q t, derives rules matches u name p q t -> nested (N.of_nat p) (N.of_nat q) t /\ end_of t = N.of_nat q.
Proof.
  assert (G : (forall name p q t, derives rules matches u name p q t -> nested (N.of_nat p) (N.of_nat q) t /\ end_of t = N.of_nat q) /\
              (forall w p q ch, matched rules matches u w p q ch -> chain (N.of_nat p) (N.of_nat q) ch)).
  { apply (parse_ind rules matches u (fun _ p q t _ => nested (N.of_nat p) (N.of_nat q) t /\ end_of t = N.of_nat q) (fun _ p q ch _ => chain (N.of_nat p) (N.of_nat q) ch)).
    - intros name id e w p q ch _ _ HM IH. split; [|reflexivity]. apply nested_eq. apply (proj2 (parse_le rules matches u)) in HM. repeat split; [lia..|exact IH].
    - intros p _. exact I.
    - intros name w p m q t ch HD [I1 I2] HM IH. apply (proj2 (parse_le rules matches u)) in HM. cbn [chain]. rewrite I2. split; [|exact IH]. apply (nested_mono _ (N.of_nat m)); [lia|exact I1].
    - intros s w p b m q ch HS _ HS' _ HM IH. unfold span in *. apply (chain_left (N.of_nat m)); [lia|exact IH].
    - intros x w p b m q ch HS _ HS' _ HM IH. unfold span in *. apply (chain_left (N.of_nat m)); [lia|exact IH]. }
  intros. apply G with name. assumption.
Qed.
Theorem derives_ok rules matches u : (N.of_nat (length u) < 2 ^ 48)%N -> (forall name id e, rules name = Some (id, e) -> (1 <= id < 2 ^ 15)%N) ->
  forall name p q t, derives rules matches u name p q t -> tree_ok t.
Proof.
  intros HU HI.
  assert (G : (forall name p q t, derives rules matches u name p q t -> tree_ok t) /\ (forall w p q ch, matched rules matches u w p q ch -> fold_right (fun c P => tree_ok c /\ P) True ch)).
  { apply (parse_ind rules matches u (fun _ _ _ t _ => tree_ok t) (fun _ _ _ ch _ => fold_right (fun c P => tree_ok c /\ P) True ch)); [|intros; exact I|intros; cbn [fold_right]; split; assumption|intros; assumption|intros; assumption].
    intros name id e w p q ch HR _ HM IH. apply (proj2 (parse_le rules matches u)) in HM. cbn [tree_ok]. split; [exact (HI _ _ _ HR)|]. change (2 ^ 48)%N with 281474976710656%N in *. split; [lia|]. split; [lia|exact IH]. }
  intros. eapply (proj1 G). eassumption.
Qed.
