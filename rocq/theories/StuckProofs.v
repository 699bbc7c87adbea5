(** * Rejecting runs are parses that get stuck *)
From Coq Require Import List NArith ZArith Arith Bool Lia ZifyBool ZifyN ZifyNat.
From Verif Require Import CharClass CharClassSpec Stream NFA NFASem NFAProofs NFABuild DFA DFAProofs DFAMin RegexSpec GrammarSpec Marker TreeSpec ParseSpec Reduction Writer X86 CodeGen CodeGenProofs CodeGenDfa CodeGenMisc ATN ATNSem ATNBuild ATNOpt ATNLive Grammar GrammarProofs ParserGen ParserRun ParserSim ParserTree ParserTop ParserTerm LookGrammarSpec ClearSpec ParserComplete StuckSpec.
Import ListNotations.
Local Open Scope nat_scope.

Section Stuck.
Variables (C : compiled) (u : list N).
Hypothesis HW : forall name id M, In (name, (id, M)) (c_nets C) -> wf_net M.
Hypothesis HA : forall name id M n A t, In (name, (id, M)) (c_nets C) -> In n M -> nt n = NReg A -> (dfa_run (c_dfa C A) 0 t = true <-> accepts A t).
Hypothesis HLK : forall m name id M i k w v, nth_error (c_nets C) m = Some (name, (id, M)) -> i < length M -> 2 <= length (atrs (nth i M blank)) -> 0 < length w -> only_alt (c_nets C) name i k w -> ldfa_go (c_look C m i) 0 (w ++ v) = LExit k.
Hypothesis HLC : forall m i, 2 <= length (atrs (ParserRun.node_of C m i)) -> lcodable (c_look C m i) (length (atrs (ParserRun.node_of C m i))).
Hypothesis HN : forall m i q cc d, In (cc, d) (nth q (c_look C m i) []) -> CharClass.includes cc 0 = false.
Hypothesis HLD : forall m name id M i k w, nth_error (c_nets C) m = Some (name, (id, M)) -> i < length M -> 2 <= length (atrs (nth i M blank)) -> ldfa_go (c_look C m i) 0 w = LExit k ->
  exists n, 0 < n <= length w /\ only_alt (c_nets C) name i k (firstn n w).
Notation stuck := (stuck_from (c_nets C) u).

Lemma step_clear name id M i p q : In (name, (id, M)) (c_nets C) -> i < length M -> p <= length u -> (forall x, nt (nth i M blank) <> NInv x) -> term_step C u p (nt (nth i M blank)) = Some q ->
  clear_symbol (c_nets C) u (nt (nth i M blank)) p q [].
Proof.
  intros EIN Hi Hp NI HT. pose proof (term_le' C u p _ q Hp HT) as L. pose proof (skipn_length p u) as SL. destruct (nt (nth i M blank)) as [|x|l|A|] eqn:EK; cbn [term_step] in HT.
  - injection HT as <-. constructor. exact Hp.
  - destruct (NI x eq_refl).
  - destruct (prefixb l (skipn p u)) eqn:E; [|discriminate]. injection HT as <-. constructor; [split; lia|apply prefix_slice; exact E].
  - destruct (longest (c_dfa C A) 0 (skipn p u)) as [k|] eqn:E; [|discriminate]. cbn [option_map] in HT. injection HT as <-. pose proof (longest_spec (c_dfa C A) (skipn p u) 0) as LS. rewrite E in LS. destruct LS as (L1 & L2 & L3).
    pose proof (fun t => HA name id M _ A t EIN (nth_In M blank Hi) EK) as HA'. constructor; [split; lia| |].
    + apply HA'. unfold slice. replace (p + k - p) with k by lia. exact L2.
    + intros m' Hm [_ HS] K. apply HA' in K. unfold slice in K. rewrite (L3 (m' - p)) in K by lia. discriminate.
  - injection HT as <-. constructor; [split; lia| |].
    + unfold slice. replace (p + ws_len (skipn p u) - p) with (ws_len (skipn p u)) by lia. apply ws_spaces.
    + intros m' Hm [_ HS] K. unfold slice in K. apply (ws_len_longest (skipn p u) (m' - p)); [lia|exact K].
Qed.
Lemma clear_step name id M i p q ch : In (name, (id, M)) (c_nets C) -> i < length M -> (forall x, nt (nth i M blank) <> NInv x) -> clear_symbol (c_nets C) u (nt (nth i M blank)) p q ch ->
  ch = [] /\ term_step C u p (nt (nth i M blank)) = Some q.
Proof.
  intros EIN Hi NI HS. pose proof (proj1 (proj2 (clear_run C u HA HLK HLC)) _ _ _ _ HS) as CS. destruct (nt (nth i M blank)) as [|x|l|A|] eqn:EK; try (apply CS; exact Logic.I); [destruct (NI x eq_refl)|].
  apply CS. intros t. apply (HA name id M _ A t EIN (nth_In M blank Hi) EK).
Qed.
Lemma go_skip p y w : span u p y -> slice u p y ++ skipn y u ++ w = skipn p u ++ w.
Proof. intros H. rewrite app_assoc, <- (slice_skip u p y H). reflexivity. Qed.

(** A rejecting run is stuck. *)
Theorem run_stuck : forall f r m i p ws, net_index (c_nets C) r = Some m -> i < length (snd (net_of C m)) -> p <= length u -> run_node C u f m i p = PRej ws ->
  exists ch fs, stuck r i p ch fs /\ ws = List.concat (map stream ch) ++ List.concat (map open_words fs).
Proof.
  induction f as [|f IH]; intros r m i p ws HM Hi Hp H; [discriminate|]. rewrite run_node_S in H.
  destruct (index_in C r m HM) as (id & M & E1 & E2 & E3). pose proof (nth_error_In _ _ E1) as EIN. destruct (HW _ _ _ EIN) as [W1 W2 W3 W4].
  assert (EN : ParserRun.node_of C m i = nth i M blank) by (unfold ParserRun.node_of; rewrite E3; reflexivity). rewrite E3 in Hi. cbn [snd] in Hi.
  assert (HNo : LookGrammarSpec.node_of (c_nets C) [(r, i)] = Some (nth i M blank)) by (unfold LookGrammarSpec.node_of; rewrite E2; apply nth_error_nth'; exact Hi).
  assert (NEXT : forall q ch v, q <= length u -> clear_symbol (c_nets C) u (nt (nth i M blank)) p q ch -> next_res C u f m i q = PRej v ->
    exists ch' fs, stuck r i p (ch ++ ch') fs /\ v = List.concat (map stream ch') ++ List.concat (map open_words fs)).
  { intros q ch v Hq HS E. unfold next_res in E. rewrite EN in E.
    assert (GO : forall d t v, In (d, t) (atrs (nth i M blank)) -> run_node C u f m d q = PRej v -> exists ch' fs, stuck r d q ch' fs /\ v = List.concat (map stream ch') ++ List.concat (map open_words fs)).
    { intros d t v0 Ht E0. apply (IH r m d q v0 HM); [|exact Hq|exact E0]. rewrite E3. cbn [snd]. apply (W2 i d). apply in_dests. exists t. exact Ht. }
    destruct (atrs (nth i M blank)) as [|[d t] [|t' ts]] eqn:ET.
    - discriminate.
    - destruct (GO d t v (or_introl eq_refl) E) as (ch' & fs & G1 & G2). exists ch', fs. split; [|exact G2]. eapply st_one; eassumption.
    - destruct (ldfa_go (c_look C m i) 0 (skipn q u ++ [0%N])) as [j| |] eqn:G; [| |discriminate].
      + pose proof (HLC m i) as LC. rewrite EN, ET in LC. specialize (LC ltac:(cbn; lia)). pose proof (exit_lt _ _ LC _ _ _ G) as LJ.
        apply go_nul in G; [|exact (HN m i)]. destruct (HLD m r id M i j _ E1 Hi ltac:(rewrite ET; cbn; lia) G) as (n & N1 & N2).
        destruct (nth j ((d, t) :: t' :: ts) (0, 0)) as [d' t0] eqn:EJ. cbn [fst] in E. assert (IJ : nth_error ((d, t) :: t' :: ts) j = Some (d', t0)) by (rewrite <- EJ; apply nth_error_nth'; exact LJ).
        destruct (GO d' t0 v (nth_error_In _ _ IJ) E) as (ch' & fs & G1 & G2). exists ch', fs. split; [|exact G2]. rewrite skipn_length in N1.
        apply (st_many _ _ r i _ p q ch j d' t0 (q + n) ch' fs HNo HS); rewrite ?ET; [cbn; lia|exact IJ|lia| |exact G1]. unfold slice. replace (q + n - q) with n by lia. exact N2.
      + injection E as <-. exists [], []. split; [|reflexivity]. rewrite app_nil_r. apply (st_decision _ _ r i _ p q ch HNo HS); [rewrite ET; cbn; lia|].
        intros k y Hy HO. assert (SP : span u q y) by (split; lia). pose proof (HLK m r id M i k (slice u q y) (skipn y u ++ [0%N]) E1 Hi ltac:(rewrite ET; cbn; lia) ltac:(rewrite slice_le by exact SP; lia) HO) as GK.
        rewrite (go_skip q y _ SP), G in GK. discriminate. }
  rewrite EN in H. destruct (nt (nth i M blank)) as [|x|l|A|] eqn:EK.
  2: { destruct (net_index (c_nets C) x) as [m'|] eqn:EX; [|discriminate]. destruct (index_in C x m' EX) as (id' & M' & F1 & F2 & F3). destruct (HW _ _ _ (nth_error_In _ _ F1)) as [V1 _ _ _].
       destruct (run_node C u f m' 0 p) as [q w1|w1| |] eqn:R1; cbn [pre] in H; try discriminate.
       - destruct (run_clear C u HW HA HN HLC HLD f x m' 0 p q w1 EX ltac:(rewrite F3; cbn [snd]; lia) Hp R1) as (ch1 & P1 & P2).
         destruct (next_res C u f m i q) as [q2 w2|w2| |] eqn:R2; cbn [pre] in H; try discriminate. injection H as <-.
         destruct (NEXT q _ w2 (proj2 (run_le C u HLC _ _ _ _ _ _ Hp R1)) (cs_rule _ _ _ _ _ _ _ _ F2 P1) R2) as (ch' & fs & Q1 & Q2).
         eexists. exists fs. split; [exact Q1|]. rewrite P2, Q2, F3. cbn [fst map app List.concat stream]. rewrite <- ?app_assoc. cbn [app]. rewrite <- ?app_assoc. reflexivity.
       - injection H as <-. destruct (IH x m' 0 p w1 EX ltac:(rewrite F3; cbn [snd]; lia) Hp R1) as (ch & fs & Q1 & Q2). exists [], ((id', N.of_nat p, ch) :: fs). split.
         + eapply st_inside; eassumption.
         + rewrite Q2, F3. cbn [fst snd map app List.concat open_words]. unfold open_words at 2. cbn [fst snd]. cbn [app]. rewrite <- ?app_assoc. reflexivity. }
  all: rewrite <- EK in H; destruct (term_step C u p (nt (nth i M blank))) as [q|] eqn:ET;
    [destruct (NEXT q [] ws) as (ch' & fs & Q1 & Q2); [exact (proj2 (term_le' C u _ _ _ Hp ET))|rewrite <- EK; apply (step_clear r id M i p q EIN Hi Hp); [rewrite EK; discriminate|exact ET]|exact H|exists ch', fs; split; [exact Q1|exact Q2]]
    |injection H as <-; exists [], []; split; [|reflexivity]; eapply st_symbol; [exact HNo|rewrite EK; discriminate|]; intros q ch HS; destruct (clear_step r id M i p q ch EIN Hi ltac:(rewrite EK; discriminate) HS) as [_ K]; congruence].
Qed.

(** A parse that gets stuck is a rejecting run. *)
Theorem stuck_run : forall r i p ch fs, stuck r i p ch fs -> forall m, net_index (c_nets C) r = Some m -> p <= length u ->
  exists f, run_node C u f m i p = PRej (List.concat (map stream ch) ++ List.concat (map open_words fs)).
Proof.
  assert (PL : forall r i n m, LookGrammarSpec.node_of (c_nets C) [(r, i)] = Some n -> net_index (c_nets C) r = Some m -> exists id M, nth_error (c_nets C) m = Some (r, (id, M)) /\ In (r, (id, M)) (c_nets C) /\ net_of C m = (id, M) /\ n = nth i M blank /\ ParserRun.node_of C m i = n /\ i < length M /\ m < length (c_nets C)).
  { intros r i n m HNo HM. destruct (index_in C r m HM) as (id & M & E1 & E2 & E3). unfold LookGrammarSpec.node_of in HNo. rewrite E2 in HNo. exists id, M. split; [exact E1|]. split; [exact (nth_error_In _ _ E1)|]. split; [exact E3|].
    pose proof (nth_error_nth _ _ blank HNo) as EQ. split; [symmetry; exact EQ|]. split; [unfold ParserRun.node_of; rewrite E3; exact EQ|]. split; [apply nth_error_Some; congruence|exact (net_index_lt _ _ _ HM)]. }
  (* past a symbol with a clear parse *)
  assert (PAST : forall r i n m p q ch v, LookGrammarSpec.node_of (c_nets C) [(r, i)] = Some n -> net_index (c_nets C) r = Some m -> clear_symbol (c_nets C) u (nt n) p q ch -> (exists f0, forall f, f0 <= f -> next_res C u f m i q = PRej v) ->
    exists f, run_node C u f m i p = PRej (List.concat (map stream ch) ++ v)).
  { intros r i n m p q ch v HNo HM HS [f0 NX]. destruct (PL r i n m HNo HM) as (id & M & E1 & EIN & E3 & EQ & EN & Hi & _).
    destruct (nt n) as [|x|l|A|] eqn:EK.
    2: { pose proof (proj1 (proj2 (clear_run C u HA HLK HLC)) _ _ _ _ HS) as CS. cbv beta iota in CS. destruct (net_index (c_nets C) x) as [m'|] eqn:EX.
         - destruct (CS m' eq_refl) as (f1 & ws & R1 & R2). exists (S (max f0 f1)). rewrite run_node_S, EN, EK, EX. rewrite (fuel_mono C u HLC f1 m' 0 p ltac:(congruence) (max f0 f1)) by lia. rewrite R1. cbn [pre]. rewrite NX by lia. cbn [pre].
           rewrite <- R2. reflexivity.
         - exfalso. inversion HS; subst. apply net_index_none in EX. congruence. }
    all: assert (HS' : clear_symbol (c_nets C) u (nt (nth i M blank)) p q ch) by (rewrite <- EQ, EK; exact HS);
      destruct (clear_step r id M i p q ch EIN Hi ltac:(rewrite <- EQ, EK; discriminate) HS') as [-> K]; rewrite <- EQ, EK in K; exists (S f0); rewrite run_node_S, EN, EK, K; cbn [map List.concat app]; apply NX; lia. }
  assert (CL : forall s p q ch, clear_symbol (c_nets C) u s p q ch -> p <= length u -> q <= length u).
  { assert (G : (forall r i p q ch, clear_from (c_nets C) u r i p q ch -> p <= length u -> q <= length u) /\ (forall s p q ch, clear_symbol (c_nets C) u s p q ch -> p <= length u -> q <= length u) /\ (forall r i ts p q ch, clear_on (c_nets C) u r i ts p q ch -> p <= length u -> q <= length u)).
    { apply (clear_ind (c_nets C) u (fun r i p q ch _ => p <= length u -> q <= length u) (fun s p q ch _ => p <= length u -> q <= length u) (fun r i ts p q ch _ => p <= length u -> q <= length u)); intros; auto. all: match goal with H : span _ _ _ |- _ => destruct H; lia end. }
    exact (proj1 (proj2 G)). }
  intros r i p ch fs H. induction H as [r i n p HNo NI NC|r i n p r' id' M' ch fs HNo EK HR HS IH|r i n p q ch HNo HS HT NO|r i n p q ch d t ch' fs HNo HS ET HST IH|r i n p q ch k d t y ch' fs HNo HS HT HK HY HO HST IH]; intros m HM Hp;
    destruct (PL r i n m HNo HM) as (id & M & E1 & EIN & E3 & EQ & EN & Hi & Hm).
  - exists 1. assert (TS : term_step C u p (nt n) = None).
    { destruct (term_step C u p (nt n)) as [q|] eqn:ET; [|reflexivity]. exfalso. apply (NC q []). rewrite EQ in *. exact (step_clear r id M i p q EIN Hi Hp NI ET). }
    rewrite run_node_S, EN. destruct (nt n) as [|x|l|A|] eqn:EK; [| destruct (NI x eq_refl)| | |]; rewrite TS; reflexivity.
  - destruct (net_index (c_nets C) r') as [m'|] eqn:EX; [|apply net_index_none in EX; congruence]. destruct (index_in C r' m' EX) as (id2 & M2 & F1 & F2 & F3). rewrite HR in F2. injection F2 as <- <-.
    destruct (IH m' eq_refl Hp) as [f R]. exists (S f). rewrite run_node_S, EN, EK, EX, R. cbn [pre]. rewrite F3. cbn [fst map List.concat app open_words snd]. unfold open_words at 2. cbn [fst snd app]. rewrite <- ?app_assoc. reflexivity.
  - change (List.concat (map open_words [])) with (@nil N). apply (PAST r i n m p q ch [] HNo HM HS). exists 0. intros f _.
    assert (EX : ldfa_go (c_look C m i) 0 (skipn q u ++ [0%N]) <> LMore).
    { apply look_ends. exact (HN m i). }
    unfold next_res. rewrite EN. destruct (atrs n) as [|t0 [|t1 ts]] eqn:ET; [cbn in HT; lia|cbn in HT; lia|]. destruct (ldfa_go (c_look C m i) 0 (skipn q u ++ [0%N])) as [j| |] eqn:G; [|reflexivity|congruence].
    exfalso. apply go_nul in G; [|exact (HN m i)]. destruct (HLD m r id M i j _ E1 Hi ltac:(rewrite <- EQ, ET; cbn; lia) G) as (z & N1 & N2). rewrite skipn_length in N1. apply (NO j (q + z)); [lia|]. unfold slice. replace (q + z - q) with z by lia. exact N2.
  - destruct (IH m HM (CL _ _ _ _ HS Hp)) as [f R]. rewrite map_app, concat_app, <- app_assoc. apply (PAST r i n m p q ch _ HNo HM HS). exists f. intros f' Hf. unfold next_res. rewrite EN, ET. cbn [fst]. rewrite (fuel_mono C u HLC f m d q ltac:(congruence) f' Hf). exact R.
  - destruct (IH m HM (CL _ _ _ _ HS Hp)) as [f R]. rewrite map_app, concat_app, <- app_assoc. apply (PAST r i n m p q ch _ HNo HM HS). exists f. intros f' Hf. unfold next_res. rewrite EN.
    assert (SP : span u q y) by (split; lia). pose proof (HLK m r id M i k (slice u q y) (skipn y u ++ [0%N]) E1 Hi ltac:(rewrite <- EQ; exact HT) ltac:(rewrite slice_le by exact SP; lia) HO) as GO. rewrite (go_skip q y _ SP) in GO.
    destruct (atrs n) as [|t0 [|t1 ts]]; [cbn in HT; lia|cbn in HT; lia|]. rewrite GO. rewrite (nth_error_nth _ _ (0, 0) HK). cbn [fst]. rewrite (fuel_mono C u HLC f m d q ltac:(congruence) f' Hf). exact R.
Qed.
End Stuck.

(** What a stuck parse has finished are whole clear parses of rules; what it has begun are rules at places of the text. *)
Definition whole (nets : list (list N * (N * atn))) (u : list N) (t : tree) : Prop :=
  exists x id M p q ch, lookup nets x = Some (id, M) /\ p <= q <= length u /\ clear_from nets u x 0 p q ch /\ t = Node id (N.of_nat p) (N.of_nat q) ch.
Definition begun (nets : list (list N * (N * atn))) (u : list N) (x : unfinished) : Prop := exists r M p, lookup nets r = Some (fst (fst x), M) /\ p <= length u /\ snd (fst x) = N.of_nat p.
Lemma clear_le nets u : (forall r i p q ch, clear_from nets u r i p q ch -> p <= length u -> p <= q <= length u) /\ (forall s p q ch, clear_symbol nets u s p q ch -> p <= length u -> p <= q <= length u) /\ (forall r i ts p q ch, clear_on nets u r i ts p q ch -> p <= length u -> p <= q <= length u).
Proof.
  apply (clear_ind nets u (fun r i p q ch _ => p <= length u -> p <= q <= length u) (fun s p q ch _ => p <= length u -> p <= q <= length u) (fun r i ts p q ch _ => p <= length u -> p <= q <= length u)).
  - intros r i n p m q ch1 ch2 _ _ IH1 _ IH2 HP. specialize (IH1 HP). specialize (IH2 (proj2 IH1)). lia.
  - intros p HP _. lia.
  - intros s p m SP _ _. exact SP.
  - intros A p m SP _ _ _. exact SP.
  - intros p m SP _ _ _. exact SP.
  - intros r id M p m ch _ _ IH. exact IH.
  - intros r i p HP. lia.
  - intros r i d t p q ch _ IH. exact IH.
  - intros r i ts k d t p m q ch _ _ HM _ _ IH. exact IH.
Qed.
Lemma symbol_whole nets u s p q ch : p <= length u -> clear_symbol nets u s p q ch -> Forall (whole nets u) ch.
Proof.
  intros HP H. pose proof (proj1 (proj2 (clear_le nets u)) _ _ _ _ H HP) as L. inversion H; subst; try constructor; [|constructor]. exists r, id, M, p, q, ch0. auto.
Qed.
Lemma stuck_whole nets u r i p ch fs : stuck_from nets u r i p ch fs -> p <= length u -> Forall (whole nets u) (ch ++ finished fs) /\ Forall (begun nets u) fs.
Proof.
  intros H. induction H as [r i n p HNo NI NC|r i n p r' id' M' ch fs HNo EK HR HS IH|r i n p q ch HNo HS HT NO|r i n p q ch d t ch' fs HNo HS ET HST IH|r i n p q ch k d t y ch' fs HNo HS HT HK HY HO HST IH]; intros Hp.
  - split; constructor.
  - destruct (IH Hp) as [I1 I2]. split; [exact I1|]. constructor; [|exact I2]. exists r', M', p. auto.
  - split; [|constructor]. cbn. rewrite app_nil_r. exact (symbol_whole _ _ _ _ _ _ Hp HS).
  - pose proof (proj1 (proj2 (clear_le nets u)) _ _ _ _ HS Hp) as L. destruct (IH (proj2 L)) as [I1 I2]. split; [|exact I2]. rewrite <- app_assoc. apply Forall_app. split; [exact (symbol_whole _ _ _ _ _ _ Hp HS)|exact I1].
  - pose proof (proj1 (proj2 (clear_le nets u)) _ _ _ _ HS Hp) as L. destruct (IH (proj2 L)) as [I1 I2]. split; [|exact I2]. rewrite <- app_assoc. apply Forall_app. split; [exact (symbol_whole _ _ _ _ _ _ Hp HS)|exact I1].
Qed.
