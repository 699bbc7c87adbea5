(** * The parser ends exactly when no walk of forced steps comes back to a place *)
From Coq Require Import List NArith ZArith Arith Bool Lia Relations ZifyBool ZifyN ZifyNat.
From Verif Require Import CharClass CharClassSpec Stream NFA NFASem NFAProofs NFABuild DFA DFAProofs DFAMin RegexSpec GrammarSpec Marker TreeSpec ParseSpec Reduction Writer X86 CodeGen CodeGenProofs CodeGenDfa CodeGenMisc ATN ATNSem ATNBuild ATNOpt ATNLive Grammar GrammarProofs ParserGen ParserRun ParserSim ParserTree ParserTop ParserTerm LookGrammarSpec ClearSpec ParserComplete LoopSpec.
Import ListNotations.
Local Open Scope nat_scope.

(** ** Well-foundedness and cycles *)
Lemma acc_no_cycle {A} (R : A -> A -> Prop) x : Acc (fun b a => R a b) x -> ~ clos_trans _ R x x.
Proof.
  intros H K. apply clos_trans_t1n_iff in K. assert (G : forall y, Acc (fun b a => R a b) y -> ~ clos_trans_1n _ R y y).
  { clear. intros y HY. induction HY as [y _ IH]. intros K. inversion K as [z H|z z' H T]; subst.
    - exact (IH y H K).
    - apply (IH z H). apply clos_trans_t1n_iff. apply t_trans with y; [apply clos_trans_t1n_iff; exact T|apply t_step; exact H]. }
  exact (G x H K).
Qed.
Lemma acc_reach {A} (R : A -> A -> Prop) x y : Acc (fun b a => R a b) x -> clos_refl_trans _ R x y -> Acc (fun b a => R a b) y.
Proof. intros H K. apply clos_rt_rt1n_iff in K. induction K as [|x z y S T IH]; [exact H|]. apply IH. exact (Acc_inv H S). Qed.
Lemma no_cycle_acc {A} (R : A -> A -> Prop) (L : list A) (HL : forall x y, In x L -> R x y -> In y L) :
  forall d seen x, length L - length seen <= d -> NoDup (x :: seen) -> incl (x :: seen) L -> (forall y, In y seen -> clos_trans _ R y x) ->
  (forall y, clos_refl_trans _ R x y -> ~ clos_trans _ R y y) -> Acc (fun b a => R a b) x.
Proof.
  induction d as [|d IH]; intros seen x Hd ND IN HS NC; constructor; intros y Hy.
  - pose proof (NoDup_incl_length ND IN) as K. cbn [length] in K. lia.
  - pose proof (NoDup_incl_length ND IN) as K. cbn [length] in K. assert (NI : ~ In y (x :: seen)).
    { intros [->|I1]; [apply (NC y); [apply rt_refl|apply t_step; exact Hy]|]. apply (NC x); [apply rt_refl|]. apply t_trans with y; [apply t_step; exact Hy|apply HS; exact I1]. }
    apply (IH (x :: seen) y); [cbn [length]; lia|constructor; assumption| | |].
    + intros z [<-|Hz]; [exact (HL x y (IN x (or_introl eq_refl)) Hy)|exact (IN z Hz)].
    + intros z [<-|Hz]; [apply t_step; exact Hy|]. apply t_trans with x; [apply HS; exact Hz|apply t_step; exact Hy].
    + intros z Hz. apply NC. apply rt_trans with y; [apply rt_step; exact Hy|exact Hz].
Qed.

Section Loop.
Variables (C : compiled) (u : list N).
Hypothesis HW : forall name id M, In (name, (id, M)) (c_nets C) -> wf_net M.
Hypothesis HA : forall name id M n A t, In (name, (id, M)) (c_nets C) -> In n M -> nt n = NReg A -> (dfa_run (c_dfa C A) 0 t = true <-> accepts A t).
Hypothesis HLK : forall m name id M i k w v, nth_error (c_nets C) m = Some (name, (id, M)) -> i < length M -> 2 <= length (atrs (nth i M blank)) -> 0 < length w -> only_alt (c_nets C) name i k w -> ldfa_go (c_look C m i) 0 (w ++ v) = LExit k.
Hypothesis HLC : forall m i, 2 <= length (atrs (ParserRun.node_of C m i)) -> lcodable (c_look C m i) (length (atrs (ParserRun.node_of C m i))).
Hypothesis HN : forall m i q cc d, In (cc, d) (nth q (c_look C m i) []) -> CharClass.includes cc 0 = false.
Hypothesis HLD : forall m name id M i k w, nth_error (c_nets C) m = Some (name, (id, M)) -> i < length M -> 2 <= length (atrs (nth i M blank)) -> ldfa_go (c_look C m i) 0 w = LExit k ->
  exists n, 0 < n <= length w /\ only_alt (c_nets C) name i k (firstn n w).
Notation forced := (forced (c_nets C) u).
Notation ends x := (Acc (fun b a => forced a b) x).

(** A run that ends has no infinite walk before it. *)
Lemma run_ends : forall f r m i p, net_index (c_nets C) r = Some m -> run_node C u f m i p <> PFuel -> ends (r, i, p).
Proof.
  induction f as [|f IH]; intros r m i p HM H; [destruct (H eq_refl)|]. rewrite run_node_S in H. constructor. intros y Hy.
  destruct (index_in C r m HM) as (id & M & E1 & E2 & E3).
  assert (EN : forall n, LookGrammarSpec.node_of (c_nets C) [(r, i)] = Some n -> ParserRun.node_of C m i = n /\ i < length M /\ In n M).
  { intros n HNo. unfold LookGrammarSpec.node_of in HNo. rewrite E2 in HNo. split; [unfold ParserRun.node_of; rewrite E3; cbn [snd]; apply nth_error_nth; exact HNo|]. split; [apply nth_error_Some; congruence|exact (nth_error_In _ _ HNo)]. }
  (* the symbol of the node, if it has a clear parse *)
  assert (SYM : forall n q ch, LookGrammarSpec.node_of (c_nets C) [(r, i)] = Some n -> clear_symbol (c_nets C) u (nt n) p q ch -> next_res C u f m i q <> PFuel).
  { intros n q ch HNo HS. destruct (EN n HNo) as (EQ & Hi & IN). rewrite EQ in H. pose proof (proj1 (proj2 (clear_run C u HA HLK HLC)) _ _ _ _ HS) as CS.
    destruct (nt n) as [|r'|s|A|] eqn:EK.
    2: { destruct (net_index (c_nets C) r') as [m'|] eqn:EM'.
         - destruct (CS m' eq_refl) as (f' & ws & R & _). assert (R2 : run_node C u f m' 0 p = POk q ws).
           { assert (N1 : run_node C u f m' 0 p <> PFuel) by (intros E; rewrite E in H; destruct (H eq_refl)).
             rewrite <- (fuel_mono C u HLC f m' 0 p N1 (max f f')) by lia. rewrite (fuel_mono C u HLC f' m' 0 p ltac:(congruence) (max f f')) by lia. exact R. }
           rewrite R2 in H. cbn [pre] in H. intros E. rewrite E in H. destruct (H eq_refl).
         - exfalso. inversion HS; subst. apply net_index_none in EM'. congruence. }
    all: destruct CS as [_ CS]; [first [exact Logic.I|intros t; apply (HA r id M n _ t (nth_error_In _ _ E1) IN EK)]|]; rewrite CS in H; exact H. }
  inversion Hy as [r0 i0 n p0 r' HNo EK HLK'|r0 i0 n p0 q ch d t HNo HS ET|r0 i0 n p0 q ch k d t y0 HNo HS HT HK HY HO]; subst.
  - destruct (EN n HNo) as (EQ & _). rewrite EQ, EK in H. destruct (net_index (c_nets C) r') as [m'|] eqn:EM'; [|apply net_index_none in EM'; congruence].
    apply (IH r' m' 0 p EM'). intros E. rewrite E in H. destruct (H eq_refl).
  - specialize (SYM n q ch HNo HS). destruct (EN n HNo) as (EQ & _). unfold next_res in SYM. rewrite EQ, ET in SYM. exact (IH r m d q HM SYM).
  - specialize (SYM n q ch HNo HS). destruct (EN n HNo) as (EQ & Hi & _). unfold next_res in SYM. rewrite EQ in SYM. assert (EM : ParserRun.node_of C m i = nth i M blank) by (unfold ParserRun.node_of; rewrite E3; reflexivity). rewrite EM in EQ.
    assert (SP : span u q y0) by (split; lia). pose proof (HLK m r id M i k (slice u q y0) (skipn y0 u ++ [0%N]) E1 Hi ltac:(rewrite EQ; exact HT) ltac:(rewrite slice_le by exact SP; lia) HO) as GO.
    rewrite app_assoc, <- (slice_skip u q y0 SP) in GO. destruct (atrs n) as [|t0 [|t1 ts]]; [cbn in HT; lia|cbn in HT; lia|]. rewrite GO in SYM. rewrite (nth_error_nth _ _ (0, 0) HK) in SYM. exact (IH r m d q HM SYM).
Qed.

(** Without infinite walks, runs end. *)
Lemma ends_run x : ends x -> forall m, net_index (c_nets C) (fst (fst x)) = Some m -> snd (fst x) < length (snd (net_of C m)) -> snd x <= length u -> exists f, run_node C u f m (snd (fst x)) (snd x) <> PFuel.
Proof.
  intros HX. induction HX as [[[r i] p] _ IH]. cbn [fst snd]. intros m HM Hi Hp.
  destruct (index_in C r m HM) as (id & M & E1 & E2 & E3). pose proof (nth_error_In _ _ E1) as EIN. destruct (HW _ _ _ EIN) as [W1 W2 W3 W4].
  assert (EN : ParserRun.node_of C m i = nth i M blank) by (unfold ParserRun.node_of; rewrite E3; reflexivity). rewrite E3 in Hi. cbn [snd] in Hi.
  assert (HNo : LookGrammarSpec.node_of (c_nets C) [(r, i)] = Some (nth i M blank)) by (unfold LookGrammarSpec.node_of; rewrite E2; apply nth_error_nth'; exact Hi).
  assert (NEXT : forall q ch, q <= length u -> clear_symbol (c_nets C) u (nt (nth i M blank)) p q ch -> exists f0, forall f, f0 <= f -> next_res C u f m i q <> PFuel).
  { intros q ch Hq HS. assert (GO : forall d t, In (d, t) (atrs (nth i M blank)) -> forced (r, i, p) (r, d, q) -> exists f0, forall f, f0 <= f -> run_node C u f m d q <> PFuel).
    { intros d t Ht HF. destruct (IH _ HF m HM) as [f Hf]; cbn [fst snd] in *; [rewrite E3; cbn [snd]; apply (W2 i d); apply in_dests; exists t; exact Ht|exact Hq|]. exists f. intros f' L. rewrite (fuel_mono C u HLC f m d q Hf f' L). exact Hf. }
    unfold next_res. rewrite EN. destruct (atrs (nth i M blank)) as [|[d t] [|t' ts]] eqn:ET.
    - exists 0. discriminate.
    - exact (GO d t (or_introl eq_refl) (fo_one _ _ r i _ p q ch d t HNo HS ET)).
    - destruct (ldfa_go (c_look C m i) 0 (skipn q u ++ [0%N])) as [j| |] eqn:G; [|exists 0; discriminate|exists 0; discriminate]. pose proof (HLC m i) as LC. rewrite EN, ET in LC. specialize (LC ltac:(cbn; lia)). pose proof (exit_lt _ _ LC _ _ _ G) as LJ.
      apply go_nul in G; [|exact (HN m i)]. destruct (HLD m r id M i j _ E1 Hi ltac:(rewrite ET; cbn; lia) G) as (n & N1 & N2).
      destruct (nth j ((d, t) :: t' :: ts) (0, 0)) as [d' t0] eqn:EJ. cbn [fst]. assert (IJ : nth_error ((d, t) :: t' :: ts) j = Some (d', t0)) by (rewrite <- EJ; apply nth_error_nth'; exact LJ).
      apply (GO d' t0 (nth_error_In _ _ IJ)). rewrite skipn_length in N1. apply (fo_many _ _ r i _ p q ch j d' t0 (q + n) HNo HS); rewrite ?ET; [cbn; lia|exact IJ|lia|]. unfold slice. replace (q + n - q) with n by lia. exact N2. }
  assert (SYM : forall p1, (forall x, nt (nth i M blank) <> NInv x) -> term_step C u p (nt (nth i M blank)) = Some p1 -> clear_symbol (c_nets C) u (nt (nth i M blank)) p p1 []).
  { intros p1 NI HT. pose proof (term_le' C u p _ p1 Hp HT) as L. pose proof (skipn_length p u) as SL. destruct (nt (nth i M blank)) as [|x|l|A|] eqn:EK; cbn [term_step] in HT.
    - injection HT as <-. constructor. exact Hp.
    - destruct (NI x eq_refl).
    - destruct (prefixb l (skipn p u)) eqn:E; [|discriminate]. injection HT as <-. constructor; [split; lia|apply prefix_slice; exact E].
    - destruct (longest (c_dfa C A) 0 (skipn p u)) as [k|] eqn:E; [|discriminate]. cbn [option_map] in HT. injection HT as <-. pose proof (longest_spec (c_dfa C A) (skipn p u) 0) as LS. rewrite E in LS. destruct LS as (L1 & L2 & L3).
      pose proof (fun t => HA r id M _ A t EIN (nth_In M blank Hi) EK) as HA'. constructor; [split; lia| |].
      + apply HA'. unfold slice. replace (p + k - p) with k by lia. exact L2.
      + intros m' Hm [_ HS] K. apply HA' in K. unfold slice in K. rewrite (L3 (m' - p)) in K by lia. discriminate.
    - injection HT as <-. constructor; [split; lia| |].
      + unfold slice. replace (p + ws_len (skipn p u) - p) with (ws_len (skipn p u)) by lia. apply ws_spaces.
      + intros m' Hm [_ HS] K. unfold slice in K. apply (ws_len_longest (skipn p u) (m' - p)); [lia|exact K]. }
  destruct (nt (nth i M blank)) as [|x|l|A|] eqn:EK.
  2: { destruct (net_index (c_nets C) x) as [m'|] eqn:EX; [|exists 1; rewrite run_node_S, EN, EK, EX; discriminate].
       destruct (index_in C x m' EX) as (id' & M' & F1 & F2 & F3). destruct (HW _ _ _ (nth_error_In _ _ F1)) as [V1 _ _ _].
       destruct (IH (x, 0, p) (fo_call _ _ r i _ p x HNo EK ltac:(congruence)) m' EX) as [f1 H1]; cbn [fst snd] in *; [rewrite F3; cbn [snd]; lia|exact Hp|].
       destruct (run_node C u f1 m' 0 p) as [q w0|w0| |] eqn:E0; [| | |congruence].
       - destruct (run_clear C u HW HA HN HLC HLD f1 x m' 0 p q w0 EX ltac:(rewrite F3; cbn [snd]; lia) Hp E0) as (ch & K1 & _).
         destruct (NEXT q _ (proj2 (run_le C u HLC _ _ _ _ _ _ Hp E0)) (cs_rule _ _ _ _ _ _ _ _ F2 K1)) as [f2 H2].
         exists (S (max f1 f2)). rewrite run_node_S, EN, EK, EX. rewrite (fuel_mono C u HLC f1 m' 0 p ltac:(congruence) (max f1 f2)) by lia. rewrite E0. cbn [pre]. specialize (H2 (max f1 f2) ltac:(lia)).
         destruct (next_res C u (max f1 f2) m i q); cbn [pre]; congruence.
       - exists (S f1). rewrite run_node_S, EN, EK, EX, E0. discriminate.
       - exists (S f1). rewrite run_node_S, EN, EK, EX, E0. discriminate. }
  all: destruct (term_step C u p (nt (nth i M blank))) as [q|] eqn:ET; rewrite EK in ET;
    [destruct (NEXT q [] (proj2 (term_le' C u _ _ _ Hp ET)) (SYM q ltac:(discriminate) ET)) as [f Hf]; exists (S f); rewrite run_node_S, EN, EK, ET; exact (Hf f (le_n _))
    |exists 1; rewrite run_node_S, EN, EK, ET; discriminate].
Qed.

(** There are finitely many places. *)
Definition places : list (list N * nat * nat) := flat_map (fun e => flat_map (fun i => map (fun p => (fst e, i, p)) (seq 0 (S (length u)))) (seq 0 (length (snd (snd e))))) (c_nets C).
Lemma in_places r i p : In (r, i, p) places <-> exists id M, In (r, (id, M)) (c_nets C) /\ i < length M /\ p <= length u.
Proof.
  unfold places. rewrite in_flat_map. split.
  - intros ([r' [id M]] & I1 & I2). apply in_flat_map in I2 as (i' & I2 & I3). apply in_map_iff in I3 as (p' & E & I3). cbn [fst snd] in *. injection E as -> -> ->. apply in_seq in I2. apply in_seq in I3. exists id, M. split; [exact I1|]. split; lia.
  - intros (id & M & I1 & I2 & I3). exists (r, (id, M)). split; [exact I1|]. apply in_flat_map. exists i. cbn [fst snd]. split; [apply in_seq; lia|]. apply in_map_iff. exists p. split; [reflexivity|apply in_seq; lia].
Qed.
Lemma clear_le : (forall r i p q ch, clear_from (c_nets C) u r i p q ch -> p <= length u -> q <= length u) /\ (forall s p q ch, clear_symbol (c_nets C) u s p q ch -> p <= length u -> q <= length u) /\
  (forall r i ts p q ch, clear_on (c_nets C) u r i ts p q ch -> p <= length u -> q <= length u).
Proof.
  apply (clear_ind (c_nets C) u (fun r i p q ch _ => p <= length u -> q <= length u) (fun s p q ch _ => p <= length u -> q <= length u) (fun r i ts p q ch _ => p <= length u -> q <= length u)); intros; auto.
  all: match goal with H : span _ _ _ |- _ => destruct H; lia end.
Qed.
Lemma places_closed x y : In x places -> forced x y -> In y places.
Proof.
  destruct x as [[r i] p]. intros HX HY. apply in_places in HX as (id & M & I1 & I2 & I3).
  assert (ND : forall n d t, LookGrammarSpec.node_of (c_nets C) [(r, i)] = Some n -> In (d, t) (atrs n) -> exists id' M', In (r, (id', M')) (c_nets C) /\ d < length M').
  { intros n d t HNo Ht. unfold LookGrammarSpec.node_of in HNo. destruct (lookup (c_nets C) r) as [[id' M']|] eqn:E; [|discriminate]. apply lookup_in in E. destruct (HW _ _ _ E) as [_ W2 _ _]. exists id', M'. split; [exact E|]. apply (W2 i d). apply in_dests. exists t. pose proof (nth_error_nth _ _ blank HNo) as EQ. rewrite <- EQ in Ht. exact Ht. }
  inversion HY as [r0 i0 n p0 r' HNo EK HK|r0 i0 n p0 q ch d t HNo HS ET|r0 i0 n p0 q ch k d t y0 HNo HS HT HK HY' HO]; subst; apply in_places.
  - destruct (lookup (c_nets C) r') as [[id' M']|] eqn:E; [|congruence]. apply lookup_in in E. destruct (HW _ _ _ E) as [W1 _ _ _]. exists id', M'. split; [exact E|]. split; [lia|exact I3].
  - destruct (ND n d t HNo ltac:(rewrite ET; left; reflexivity)) as (id' & M' & J1 & J2). exists id', M'. split; [exact J1|]. split; [exact J2|]. exact (proj1 (proj2 clear_le) _ _ _ _ HS I3).
  - destruct (ND n d t HNo (nth_error_In _ _ HK)) as (id' & M' & J1 & J2). exists id', M'. split; [exact J1|]. split; [exact J2|]. lia.
Qed.
Theorem loop_iff root m : net_index (c_nets C) root = Some m -> (exists f, run_node C u f m 0 0 <> PFuel) <-> ~ goes_round (c_nets C) u root.
Proof.
  intros HM. destruct (index_in C root m HM) as (id & M & E1 & E2 & E3). pose proof (nth_error_In _ _ E1) as EIN. destruct (HW _ _ _ EIN) as [W1 _ _ _]. split.
  - intros [f Hf] (x & K1 & K2). pose proof (run_ends f root m 0 0 HM Hf) as HE. exact (acc_no_cycle _ x (acc_reach _ _ _ HE K1) K2).
  - intros NC. refine (ends_run (root, 0, 0) _ m HM _ _); cbn [fst snd]; [|rewrite E3; cbn [snd]; lia|lia].
    apply (no_cycle_acc forced places places_closed (length places) [] (root, 0, 0)); [cbn; lia|repeat constructor; intros []| |intros y []|].
    + intros z [<-|[]]. apply in_places. exists id, M. split; [exact EIN|]. split; lia.
    + intros y Hy K. apply NC. exists y. auto.
Qed.
End Loop.
