(** * Greedy derivations, runs through networks, and clear parses *)
From Coq Require Import List NArith ZArith Arith Bool Lia ZifyBool ZifyN ZifyNat.
From Verif Require Import CharClass NFA NFASem NFABuild DFA DFAMin RegexSpec GrammarSpec Marker TreeSpec ParseSpec Reduction ReductionProofs Writer X86 CodeGen CodeGenProofs CodeGenDfa CodeGenMisc ATN CodeGenRoutine ATNSem ATNBuild ATNOpt ATNLive Grammar GrammarProofs ParserGen ParserRun ParserSim ParserTree
  LookGrammarSpec LookStuckSim ClearSpec ParserComplete GreedySpec GreedyNet.
Import ListNotations.
Local Open Scope nat_scope.

(** Words of a rule body, lowered to words of its network. *)
Definition lowers (T : list term) (L : list nty -> Prop) (L' : list term -> Prop) : Prop :=
  forall v, L' v -> L (words v) /\ forall x, In x v -> In x T.
Lemma lowers_star T L L' : lowers T L L' -> lowers T (GStarL nty L) (GStarL term L').
Proof.
  intros H v K. induction K as [|a b Ka Kb IH]; [split; [constructor|intros x []]|]. destruct (H a Ka) as [A1 A2]. destruct IH as [B1 B2].
  split; [rewrite words_app; constructor; assumption|]. intros x Hx. apply in_app_or in Hx as [Hx|Hx]; auto.
Qed.
Lemma lowers_quant T q L L' : lowers T L L' -> lowers T (gquantL nty q L) (gquantL term q L').
Proof.
  intros H. destruct q; cbn [gquantL]; [exact H|apply lowers_star; exact H| |].
  - intros v (a & b & -> & Ka & Kb). destruct (H a Ka) as [A1 A2]. destruct (lowers_star _ _ _ H b Kb) as [B1 B2].
    split; [exists (words a), (words b); rewrite words_app; auto|]. intros x Hx. apply in_app_or in Hx as [Hx|Hx]; auto.
  - intros v [->|K]; [split; [left; reflexivity|intros x []]|]. destruct (H v K) as [A1 A2]. split; [right; exact A1|exact A2].
Qed.
Lemma lower_all :
  (forall a, lowers (gatom_terms a) (gatomL nty (term_word true) a) (gatomL term (fun x => [x]) a)) /\
  (forall s, lowers (gseq_terms s) (gseqL nty (term_word true) s) (gseqL term (fun x => [x]) s)) /\
  (forall e, lowers (gsel_terms e) (gselL nty (term_word true) e) (gselL term (fun x => [x]) e)).
Proof.
  apply g_ind.
  - intros x v E. cbn in E. subst v. split; [cbn; rewrite app_nil_r; reflexivity|intros y K; exact K].
  - intros e IH. exact IH.
  - intros v E. cbn in E. subst v. split; [reflexivity|intros x []].
  - intros a IHa q s IHs v (b & c & -> & Kb & Kc). destruct (lowers_quant _ q _ _ IHa b Kb) as [B1 B2]. destruct (IHs c Kc) as [D1 D2].
    split; [exists (words b), (words c); rewrite words_app; auto|]. intros x Hx. cbn [gseq_terms]. apply in_or_app. apply in_app_or in Hx as [Hx|Hx]; auto.
  - intros s IH. exact IH.
  - intros e IHe up s IHs v [K|K]; [destruct (IHe v K) as [A1 A2]|destruct (IHs v K) as [A1 A2]]; (split; [cbn; auto|]); intros x Hx; cbn [gsel_terms]; apply in_or_app; auto.
Qed.

(** ** Runs through the networks, any way at every decision *)
Section Free.
Variable nets : list (list N * (N * atn)).
Variable u : list N.
Inductive free_from : list N -> nat -> nat -> nat -> list tree -> Prop :=
| ff_node r i n p m q ch1 ch2 : node_of nets [(r, i)] = Some n -> free_symbol (nt n) p m ch1 -> free_on r (atrs n) m q ch2 -> free_from r i p q (ch1 ++ ch2)
with free_symbol : nty -> nat -> nat -> list tree -> Prop :=
| fs_blank p : p <= length u -> free_symbol NBlank p p []
| fs_lit s p m : span u p m -> slice u p m = s -> free_symbol (NLit s) p m []
| fs_reg A p m : span u p m -> accepts A (slice u p m) -> (forall m', m < m' -> span u p m' -> ~ accepts A (slice u p m')) -> free_symbol (NReg A) p m []
| fs_ws p m : span u p m -> spaces (slice u p m) -> (forall m', m < m' -> span u p m' -> ~ spaces (slice u p m')) -> free_symbol NWs p m []
| fs_rule r id M p m ch : lookup nets r = Some (id, M) -> free_from r 0 p m ch -> free_symbol (NInv r) p m [Node id (N.of_nat p) (N.of_nat m) ch]
with free_on : list N -> list (nat * nat) -> nat -> nat -> list tree -> Prop :=
| fo_end r p : p <= length u -> free_on r [] p p []
| fo_way r ts d t p q ch : In (d, t) ts -> free_from r d p q ch -> free_on r ts p q ch.
Scheme free_from_mut := Induction for free_from Sort Prop
  with free_symbol_mut := Induction for free_symbol Sort Prop
  with free_on_mut := Induction for free_on Sort Prop.
Combined Scheme free_ind from free_from_mut, free_symbol_mut, free_on_mut.

Lemma free_le :
  (forall r i p q ch, free_from r i p q ch -> p <= q <= length u) /\ (forall s p q ch, free_symbol s p q ch -> p <= q <= length u) /\ (forall r ts p q ch, free_on r ts p q ch -> p <= q <= length u).
Proof.
  apply (free_ind (fun r i p q ch _ => p <= q <= length u) (fun s p q ch _ => p <= q <= length u) (fun r ts p q ch _ => p <= q <= length u)); unfold span; intros; lia.
Qed.
Lemma clear_free :
  (forall r i p q ch, clear_from nets u r i p q ch -> p <= length u -> free_from r i p q ch) /\
  (forall s p q ch, clear_symbol nets u s p q ch -> p <= length u -> free_symbol s p q ch) /\
  (forall r i ts p q ch, clear_on nets u r i ts p q ch -> p <= length u -> free_on r ts p q ch).
Proof.
  apply (clear_ind nets u (fun r i p q ch _ => p <= length u -> free_from r i p q ch) (fun s p q ch _ => p <= length u -> free_symbol s p q ch) (fun r i ts p q ch _ => p <= length u -> free_on r ts p q ch)).
  - intros r i n p m q ch1 ch2 HN _ IH1 _ IH2 HP. specialize (IH1 HP). pose proof (proj1 (proj2 free_le) _ _ _ _ IH1). econstructor; [exact HN|exact IH1|apply IH2; lia].
  - intros p HP _. constructor. exact HP.
  - intros s p m HS HE _. constructor; assumption.
  - intros A p m HS HE HM _. constructor; assumption.
  - intros p m HS HE HM _. constructor; assumption.
  - intros r id M p m ch HK _ IH HP. econstructor; [exact HK|exact (IH HP)].
  - intros r i p HP. constructor. exact HP.
  - intros r i d t p q ch _ IH HP. apply (fo_way _ _ d t); [left; reflexivity|exact (IH HP)].
  - intros r i ts k d t p m q ch _ HK _ _ _ IH HP. apply (fo_way _ _ d t); [exact (nth_error_In _ _ HK)|exact (IH HP)].
Qed.

(** *** Words of symbols *)
Inductive gword (Sym : nty -> nat -> nat -> list tree -> Prop) : list nty -> nat -> nat -> list tree -> Prop :=
| gw_nil p : p <= length u -> gword Sym [] p p []
| gw_sym s w p m q ch1 ch2 : Sym s p m ch1 -> gword Sym w m q ch2 -> gword Sym (s :: w) p q (ch1 ++ ch2).

Variable rules : list N -> option (N * gsel).
Variable matches : pat -> list N -> Prop.
Hypothesis HN1 : forall name id M, lookup nets name = Some (id, M) -> exists e, rules name = Some (id, e) /\ net_for e M.
Hypothesis HN2 : forall name id e, rules name = Some (id, e) -> exists M, lookup nets name = Some (id, M) /\ net_for e M.
Hypothesis HPX : forall name id e x t, rules name = Some (id, e) -> In (TPat x) (gsel_terms e) -> (accepts (build_pat x) t <-> matches x t).
Hypothesis HLB : forall name id e s, rules name = Some (id, e) -> In (TLit s) (gsel_terms e) -> lit_bytes s = map narrow s.

Definition gsym (s : nty) (p m : nat) (ch : list tree) : Prop :=
  match s with
  | NBlank => p = m /\ ch = []
  | NLit s => ch = [] /\ span u p m /\ slice u p m = s
  | NReg A => ch = [] /\ span u p m /\ accepts A (slice u p m) /\ forall m', m < m' -> span u p m' -> ~ accepts A (slice u p m')
  | NWs => ch = [] /\ all_spaces u p m
  | NInv r => exists t, ch = [t] /\ greedy rules matches u r p m t
  end.
Lemma gword_matched v : (forall x, In (TPat x) v -> forall t, accepts (build_pat x) t <-> matches x t) -> (forall s, In (TLit s) v -> lit_bytes s = map narrow s) ->
  forall p q ch, gword gsym (words v) p q ch -> gmatched rules matches u v p q ch.
Proof.
  induction v as [|x v IH]; intros HX HB p q ch H.
  - inversion H; subst. constructor. assumption.
  - assert (IH' := IH (fun y Hy => HX y (or_intror Hy)) (fun y Hy => HB y (or_intror Hy))). destruct x as [r|s|x]; cbn in H.
    + inversion H as [|? ? ? m ? ch1 ch2 K1 K2]; subst. destruct K1 as (t & -> & K1). cbn [app]. econstructor; [exact K1|apply IH'; exact K2].
    + inversion H as [|? ? ? b ? ch1 ch2 K1 K2]; subst. inversion K2 as [|? ? ? m ? ch3 ch4 K3 K4]; subst. destruct K1 as [-> K1]. destruct K3 as (-> & K3 & K5). cbn [app].
      econstructor; [exact K1|exact K3| |apply IH'; exact K4]. rewrite K5. symmetry. apply HB. left. reflexivity.
    + inversion H as [|? ? ? b ? ch1 ch2 K1 K2]; subst. inversion K2 as [|? ? ? m ? ch3 ch4 K3 K4]; subst. destruct K1 as [-> K1]. destruct K3 as (-> & K3 & K5 & K6). cbn [app].
      assert (E := HX x (or_introl eq_refl)). econstructor; [exact K1| |apply IH'; exact K4]. split; [exact K3|]. split; [apply E; exact K5|]. intros m' L S0 K. apply (K6 m' L S0). apply E. exact K.
Qed.
Theorem free_greedy :
  (forall r i p q ch, free_from r i p q ch -> exists id M w, lookup nets r = Some (id, M) /\ apath M i w (length M - 1) /\ gword gsym (rd M i ++ w) p q ch) /\
  (forall s p q ch, free_symbol s p q ch -> gsym s p q ch) /\
  (forall r ts p q ch, free_on r ts p q ch -> forall id M i n, lookup nets r = Some (id, M) -> nth_error M i = Some n -> ts = atrs n -> exists w, apath M i w (length M - 1) /\ gword gsym w p q ch).
Proof.
  apply (free_ind (fun r i p q ch _ => exists id M w, lookup nets r = Some (id, M) /\ apath M i w (length M - 1) /\ gword gsym (rd M i ++ w) p q ch) (fun s p q ch _ => gsym s p q ch)
    (fun r ts p q ch _ => forall id M i n, lookup nets r = Some (id, M) -> nth_error M i = Some n -> ts = atrs n -> exists w, apath M i w (length M - 1) /\ gword gsym w p q ch)).
  - intros r i n p m q ch1 ch2 HN _ IH1 _ IH2. unfold LookGrammarSpec.node_of in HN. destruct (lookup nets r) as [[id M]|] eqn:E; [|discriminate].
    destruct (IH2 id M i n eq_refl HN eq_refl) as (w & P & G). exists id, M, w. split; [reflexivity|]. split; [exact P|].
    unfold rd, tonode. rewrite (nth_error_nth _ _ _ HN). unfold reads. destruct (nt n); try (cbn [app]; econstructor; eassumption). cbn [gsym] in IH1. destruct IH1 as [-> ->]. exact G.
  - intros p _. split; reflexivity.
  - intros s p m HS HE. repeat split; try apply HS; exact HE.
  - intros A p m HS HE HM. repeat split; try apply HS; assumption.
  - intros p m HS HE HM. split; [reflexivity|]. split; [exact HS|]. split; [exact HE|exact HM].
  - intros r id M p m ch HK _ (id' & M' & w & E & P & G). rewrite HK in E. injection E as <- <-. cbn [gsym]. eexists. split; [reflexivity|].
    destruct (HN1 _ _ _ HK) as (e & R & NF). destruct (net_for_wf _ _ NF) as [_ _ W3 _]. unfold rd in G. rewrite W3 in G. cbn [reads app] in G.
    pose proof (proj1 (net_for_language e M NF w) P) as L. destruct (proj2 (proj2 lift_all) e w L) as (v & V1 & -> & V3).
    econstructor; [exact R|exact V1|]. apply gword_matched; [|intros s Hs; exact (HLB _ _ _ s R (V3 _ Hs))|exact G]. intros x Hx t. exact (HPX _ _ _ x t R (V3 _ Hx)).
  - intros r p HP id M i n HK HN EA. exists []. split; [|constructor; exact HP]. destruct (HN1 _ _ _ HK) as (e & R & NF). destruct (net_for_wf _ _ NF) as [_ _ _ W4].
    assert (Hi : i < length M) by (apply nth_error_Some; congruence). replace (length M - 1) with i; [constructor|]. destruct (Nat.eq_dec i (length M - 1)) as [->|NE]; [reflexivity|]. exfalso. apply (W4 i); [lia|]. unfold dests, tonode. rewrite (nth_error_nth _ _ _ HN), <- EA. reflexivity.
  - intros r ts d t p q ch HI _ (id' & M' & w & E & P & G) id M i n HK HN EA. rewrite HK in E. injection E as <- <-. exists (rd M d ++ w). split; [|exact G]. econstructor; [|exact P].
    unfold dests, tonode. rewrite (nth_error_nth _ _ _ HN), <- EA. apply (in_map fst _ _ HI).
Qed.
(** *** ... and back *)
Lemma path_free r id M : lookup nets r = Some (id, M) -> forall i w l, apath M i w l -> l = length M - 1 -> i < length M -> forall p q ch, gword free_symbol w p q ch -> free_on r (atrs (nth i M blank)) p q ch.
Proof.
  intros HK. destruct (HN1 _ _ _ HK) as (e & R & NF). pose proof (net_last _ _ NF) as NL. destruct (net_for_wf _ _ NF) as [_ W2 _ _]. intros i w l P. induction P as [i|i d w l HI P IH]; intros EL Hi p q ch G.
  - subst i. inversion G; subst. unfold dests, tonode in NL. apply map_eq_nil in NL. rewrite NL. constructor. assumption.
  - pose proof (W2 _ _ HI) as Hd. specialize (IH EL Hd). apply in_map_iff in HI as ([d' t] & E & HI). cbn in E. subst d'. fold (tonode M i) in HI |- *.
    assert (HN : node_of nets [(r, d)] = Some (nth d M blank)) by (unfold node_of; rewrite HK; apply nth_error_nth'; exact Hd).
    apply (fo_way _ _ d t); [exact HI|]. unfold rd in G. fold (tonode M d) in HN. destruct (nt (tonode M d)) as [|x|s|A|] eqn:ES; cbn [reads app] in G.
    + pose proof (IH _ _ _ G) as K. pose proof (proj2 (proj2 free_le) _ _ _ _ _ K). change ch with ([] ++ ch). econstructor; [exact HN|rewrite ES; constructor; lia|exact K].
    + inversion G as [|? ? ? m ? c1 c2 K1 K2]; subst. econstructor; [exact HN|rewrite ES; exact K1|exact (IH _ _ _ K2)].
    + inversion G as [|? ? ? m ? c1 c2 K1 K2]; subst. econstructor; [exact HN|rewrite ES; exact K1|exact (IH _ _ _ K2)].
    + inversion G as [|? ? ? m ? c1 c2 K1 K2]; subst. econstructor; [exact HN|rewrite ES; exact K1|exact (IH _ _ _ K2)].
    + inversion G as [|? ? ? m ? c1 c2 K1 K2]; subst. econstructor; [exact HN|rewrite ES; exact K1|exact (IH _ _ _ K2)].
Qed.
Theorem greedy_free :
  (forall name p q t, greedy rules matches u name p q t -> free_symbol (NInv name) p q [t]) /\
  (forall v p q ch, gmatched rules matches u v p q ch -> (forall x, In (TPat x) v -> forall t, accepts (build_pat x) t <-> matches x t) -> (forall s, In (TLit s) v -> lit_bytes s = map narrow s) -> gword free_symbol (words v) p q ch).
Proof.
  apply (greedy_ind2 rules matches u (fun name p q t _ => free_symbol (NInv name) p q [t])
    (fun v p q ch _ => (forall x, In (TPat x) v -> forall t, accepts (build_pat x) t <-> matches x t) -> (forall s, In (TLit s) v -> lit_bytes s = map narrow s) -> gword free_symbol (words v) p q ch)).
  - intros name id e w p q ch R L _ IH. destruct (HN2 _ _ _ R) as (M & HK & NF). destruct (proj2 (proj2 lower_all) e w L) as [L1 L2].
    specialize (IH (fun x Hx t => HPX _ _ _ x t R (L2 _ Hx)) (fun s Hs => HLB _ _ _ s R (L2 _ Hs))). apply (net_for_language e M NF) in L1. destruct (net_for_wf _ _ NF) as [W1 _ W3 _].
    pose proof (path_free _ _ _ HK _ _ _ L1 eq_refl ltac:(lia) _ _ _ IH) as F. pose proof (proj2 (proj2 free_le) _ _ _ _ _ F). econstructor; [exact HK|]. change ch with ([] ++ ch).
    eapply ff_node; [unfold node_of; rewrite HK; apply nth_error_nth'; lia| |exact F]. fold (tonode M 0). rewrite W3. constructor. lia.
  - intros p HP _ _. constructor. exact HP.
  - intros name w p m q t ch _ IH1 _ IH2 HX HB. cbn. change (t :: ch) with ([t] ++ ch). econstructor; [exact IH1|]. apply IH2; [intros x Hx; apply HX; right; exact Hx|intros s Hs; apply HB; right; exact Hs].
  - intros s w p b m q ch (A1 & A2 & A3) SP E _ IH HX HB. cbn. change ch with ([] ++ [] ++ ch). econstructor; [constructor; eassumption|]. econstructor; [constructor; [exact SP|]|].
    + rewrite E. apply HB. left. reflexivity.
    + apply IH; [intros x Hx; apply HX; right; exact Hx|intros y Hy; apply HB; right; exact Hy].
  - intros x w p b m q ch (A1 & A2 & A3) (B1 & B2 & B3) _ IH HX HB. cbn. change ch with ([] ++ [] ++ ch). assert (E := HX x (or_introl eq_refl)). econstructor; [constructor; eassumption|]. econstructor; [constructor; [exact B1|apply E; exact B2|]|].
    + intros m' L S0 K. apply (B3 m' L S0). apply E. exact K.
    + apply IH; [intros y Hy; apply HX; right; exact Hy|intros y Hy; apply HB; right; exact Hy].
Qed.

(** ** Where the first visible character decides, every greedy derivation is a clear parse *)
Section Decided.
Hypothesis HU : forall c, In c u -> (c < 256)%N.
Definition last_of (r : list N) : nat := match lookup nets r with Some (_, M) => length M - 1 | None => 0 end.
Lemma slice_cat p m q : p <= m -> m <= q -> slice u p q = slice u p m ++ slice u m q.
Proof.
  intros H1 H2. unfold slice. replace (q - p) with ((m - p) + (q - m)) by lia.
  assert (G : forall (A : Type) (a b : nat) (l : list A), firstn (a + b) l = firstn a l ++ firstn b (skipn a l)).
  { intros A. induction a as [|a IHa]; intros b l; [reflexivity|]. destruct l; [destruct b; reflexivity|]. cbn. f_equal. apply IHa. }
  rewrite G. f_equal. f_equal. rewrite skip_skip. f_equal. lia.
Qed.
Lemma slice_bytes p m : lit_bytes (slice u p m) = slice u p m.
Proof.
  unfold lit_bytes. transitivity (map (fun c => c) (slice u p m)); [|apply map_id]. apply map_ext_in. intros c Hc. apply N.mod_small. apply HU. unfold slice in Hc.
  rewrite <- (firstn_skipn p u). apply in_or_app. right. rewrite <- (firstn_skipn (m - p) (skipn p u)). apply in_or_app. left. exact Hc.
Qed.
Lemma last_atrs r id M : lookup nets r = Some (id, M) -> exists n, node_of nets [(r, last_of r)] = Some n /\ atrs n = [].
Proof.
  intros HK. destruct (HN1 _ _ _ HK) as (e & _ & NF). pose proof (net_last _ _ NF) as NL. destruct (net_for_wf _ _ NF) as [W1 _ _ _]. exists (nth (length M - 1) M blank).
  unfold node_of, last_of. rewrite HK. split; [apply nth_error_nth'; lia|]. unfold dests, tonode in NL. apply map_eq_nil in NL. exact NL.
Qed.
Lemma free_texts :
  (forall r i p q ch, free_from r i p q ch -> forall up, texts nets (Before ((r, i) :: up)) (slice u p q) (After ((r, last_of r) :: up))) /\
  (forall s p q ch, free_symbol s p q ch -> forall r i up n, node_of nets ((r, i) :: up) = Some n -> nt n = s -> texts nets (Before ((r, i) :: up)) (slice u p q) (After ((r, i) :: up))) /\
  (forall r ts p q ch, free_on r ts p q ch -> forall i up n, node_of nets ((r, i) :: up) = Some n -> atrs n = ts -> texts nets (After ((r, i) :: up)) (slice u p q) (After ((r, last_of r) :: up))).
Proof.
  assert (ONE : forall P n v, node_of nets P = Some n -> spells (nt n) v -> texts nets (Before P) v (After P)).
  { intros P n v HN HS. rewrite <- (app_nil_r v). econstructor; [eapply tm_text; eassumption|constructor]. }
  apply (free_ind (fun r i p q ch _ => forall up, texts nets (Before ((r, i) :: up)) (slice u p q) (After ((r, last_of r) :: up)))
    (fun s p q ch _ => forall r i up n, node_of nets ((r, i) :: up) = Some n -> nt n = s -> texts nets (Before ((r, i) :: up)) (slice u p q) (After ((r, i) :: up)))
    (fun r ts p q ch _ => forall i up n, node_of nets ((r, i) :: up) = Some n -> atrs n = ts -> texts nets (After ((r, i) :: up)) (slice u p q) (After ((r, last_of r) :: up)))).
  - intros r i n p m q ch1 ch2 HN F1 IH1 F2 IH2 up. pose proof (proj1 (proj2 free_le) _ _ _ _ F1). pose proof (proj2 (proj2 free_le) _ _ _ _ _ F2). rewrite (slice_cat p m q) by lia. eapply texts_trans; [exact (IH1 r i up n HN eq_refl)|exact (IH2 i up n HN eq_refl)].
  - intros p _ r i up n HN ES. apply (ONE _ n); [exact HN|]. rewrite ES. apply slice_empty.
  - intros s p m HS HE r i up n HN ES. apply (ONE _ n); [exact HN|]. rewrite ES. cbn [spells]. rewrite <- HE. symmetry. apply slice_bytes.
  - intros A p m HS HE HM r i up n HN ES. apply (ONE _ n); [exact HN|]. rewrite ES. exact HE.
  - intros p m HS HE HM r i up n HN ES. apply (ONE _ n); [exact HN|]. rewrite ES. exact HE.
  - intros r id M p m ch HK _ IH r0 i up n HN ES. specialize (IH ((r0, i) :: up)). change (slice u p m) with ([] ++ slice u p m). econstructor; [eapply tm_enter; [exact HN|exact ES]|].
    rewrite <- (app_nil_r (slice u p m)). eapply texts_trans; [exact IH|]. destruct (last_atrs _ _ _ HK) as (nl & HL & EL). change (@nil N) with (@nil N ++ []). econstructor; [|constructor]. eapply tm_leave; [exact HL|exact EL].
  - intros r p _ i up n HN ES. rewrite slice_empty. replace (last_of r) with i; [constructor|]. unfold node_of in HN. unfold last_of. destruct (lookup nets r) as [[id M]|] eqn:HK; [|discriminate].
    destruct (HN1 _ _ _ HK) as (e & _ & NF). destruct (net_for_wf _ _ NF) as [_ _ _ W4]. assert (Hi : i < length M) by (apply nth_error_Some; congruence).
    destruct (Nat.eq_dec i (length M - 1)) as [->|NE]; [reflexivity|]. exfalso. apply (W4 i); [lia|]. unfold dests, tonode. rewrite (nth_error_nth _ _ _ HN), ES. reflexivity.
  - intros r ts d t p q ch HI _ IH i up n HN ES. change (slice u p q) with ([] ++ slice u p q). econstructor; [eapply tm_next; [exact HN|rewrite ES; exact HI]|apply IH].
Qed.
Variable root : list N.
Hypothesis HF : first_visible_decides nets.
Hypothesis HE : visible_to_end nets root.
Variable n : nat.
Hypothesis HR : exists id M, lookup nets root = Some (id, M).
(** What is left of the text, from q on, can be found behind rule r. *)
Definition rest (r : list N) (q : nat) : Prop := q <= n /\ texts nets (After [(r, last_of r)]) (slice u q n) (After [(root, last_of root)]).
Theorem free_clear : n <= length u ->
  (forall r i p q ch, free_from r i p q ch -> rest r q -> clear_from nets u r i p q ch) /\
  (forall s p q ch, free_symbol s p q ch -> (forall r, s = NInv r -> rest r q) -> clear_symbol nets u s p q ch) /\
  (forall r ts p q ch, free_on r ts p q ch -> rest r q -> forall i nd, node_of nets [(r, i)] = Some nd -> ts = atrs nd -> clear_on nets u r i ts p q ch).
Proof.
  intros HL. apply (free_ind (fun r i p q ch _ => rest r q -> clear_from nets u r i p q ch) (fun s p q ch _ => (forall r, s = NInv r -> rest r q) -> clear_symbol nets u s p q ch)
    (fun r ts p q ch _ => rest r q -> forall i nd, node_of nets [(r, i)] = Some nd -> ts = atrs nd -> clear_on nets u r i ts p q ch)).
  - intros r i nd p m q ch1 ch2 HN F1 IH1 F2 IH2 [R1 R2]. eapply cf_node; [exact HN| |exact (IH2 (conj R1 R2) i nd HN eq_refl)]. apply IH1. intros r' ES. pose proof (proj2 (proj2 free_le) _ _ _ _ _ F2) as LE. split; [lia|].
    rewrite ES in F1. inversion F1; subst. destruct (last_atrs _ _ _ H0) as (nl & L1 & L2). change (slice u m n) with ([] ++ slice u m n). econstructor; [eapply tm_out; [exact L1|exact L2|exact HN|exact ES]|].
    rewrite (slice_cat m q n) by lia. eapply texts_trans; [|exact R2]. exact (proj2 (proj2 free_texts) _ _ _ _ _ F2 i [] nd HN eq_refl).
  - intros p HP _. constructor. exact HP.
  - intros s p m HS HX _. constructor; assumption.
  - intros A p m HS HX HM _. constructor; assumption.
  - intros p m HS HX HM _. constructor; assumption.
  - intros r id M p m ch HK _ IH H. econstructor; [exact HK|]. apply IH. apply H. reflexivity.
  - intros r p HP _ i nd _ _. constructor.
  - intros r ts d t p q ch HI F IH [R1 R2] i nd HN ES. specialize (IH (conj R1 R2)). destruct ts as [|t1 [|t2 ts]]; [destruct HI|destruct HI as [->|[]]; constructor; exact IH|].
    destruct (In_nth_error _ _ HI) as [k HK]. pose proof (proj1 free_le _ _ _ _ _ F) as LE.
    assert (T : texts nets (Before [(r, d)]) (slice u p n) (After [(root, last_of root)])).
    { rewrite (slice_cat p q n) by lia. eapply texts_trans; [|exact R2]. exact (proj1 free_texts _ _ _ _ _ F []). }
    unfold node_of in HN. destruct (lookup nets r) as [[id M]|] eqn:EK; [|discriminate]. apply lookup_in in EK as EIN. assert (Hi : i < length M) by (apply nth_error_Some; congruence). pose proof (nth_error_nth _ _ blank HN) as EN.
    assert (H2 : 2 <= length (atrs (nth i M blank))) by (rewrite EN, <- ES; cbn; lia).
    destruct HR as (idr & Mr & HKR). destruct (last_atrs _ _ _ HKR) as (nl & L1 & L2).
    assert (NS : ~ spaces (slice u p n)) by (apply (HE r id M i d t (last_of root) nl); [exact EIN|exact Hi|exact H2|rewrite EN, <- ES; exact HI|exact L1|exact L2|exact T]).
    assert (LT : p < n). { destruct (Nat.eq_dec p n) as [->|]; [|lia]. exfalso. apply NS. rewrite slice_empty. intros c []. }
    assert (AL : alternative nets r i k (slice u p n)).
    { exists nd, d, t. split; [unfold node_of; rewrite EK; exact HN|]. split; [rewrite <- ES; exact HK|]. exists [], (After [(root, last_of root)]). rewrite app_nil_r. exact T. }
    apply (co_many _ _ _ _ _ k d t p n); [cbn; lia|exact HK|lia| |exact IH]. intros k'. split; [|intros ->; exact AL]. intros AL'. destruct (Nat.eq_dec k' k) as [|NE]; [assumption|]. exfalso. apply NS. apply (HF r id M i _ EIN Hi H2). exists k', k. auto.
Qed.
End Decided.
End Free.
Lemma greedy_derives rules matches u : (forall name p q t, greedy rules matches u name p q t -> derives rules matches u name p q t) /\ (forall v p q ch, gmatched rules matches u v p q ch -> matched rules matches u v p q ch).
Proof.
  apply (greedy_ind2 rules matches u (fun name p q t _ => derives rules matches u name p q t) (fun v p q ch _ => matched rules matches u v p q ch)); intros.
  - econstructor; eassumption.
  - constructor. assumption.
  - econstructor; eassumption.
  - destruct a as (A1 & A2 & _). econstructor; eassumption.
  - destruct a as (A1 & A2 & _). destruct l as (B1 & B2 & _). econstructor; eassumption.
Qed.
