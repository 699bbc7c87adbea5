(** * Clear parses are found *)
From Coq Require Import List NArith ZArith Arith Bool Lia ZifyBool ZifyN ZifyNat Permutation.
From Verif Require Import CharClass CharClassSpec Stream MarkerProofs NFA NFASem NFAProofs NFABuild DFA DFAProofs DFAMin RegexSpec GrammarSpec Marker TreeSpec ParseSpec Reduction ReductionProofs Writer WriterProofs X86 CodeGen CodeGenProofs CodeGenDfa CodeGenMisc ATN ATNSem ATNBuild ATNOpt ATNLive Grammar GrammarProofs ParserGen ParserRun ParserSim ParserTree ParserTop ParserTerm LookGrammarSpec ClearSpec.
Import ListNotations.
Local Open Scope nat_scope.

Scheme clear_from_mut := Induction for clear_from Sort Prop
  with clear_symbol_mut := Induction for clear_symbol Sort Prop
  with clear_on_mut := Induction for clear_on Sort Prop.
Combined Scheme clear_ind from clear_from_mut, clear_symbol_mut, clear_on_mut.

Lemma skip_skip {A} n p (u : list A) : skipn n (skipn p u) = skipn (p + n) u.
Proof. revert u. induction p as [|p IH]; intros u; [reflexivity|]. destruct u; [destruct n; reflexivity|]. cbn [skipn Nat.add]. apply IH. Qed.
Lemma slice_skip u p m : span u p m -> skipn p u = slice u p m ++ skipn m u.
Proof. intros [H1 H2]. unfold slice. rewrite <- (firstn_skipn (m - p) (skipn p u)) at 1. f_equal. rewrite skip_skip. f_equal. lia. Qed.
Lemma ws_len_max v k : k <= length v -> spaces (firstn k v) -> (forall k', k < k' <= length v -> ~ spaces (firstn k' v)) -> ws_len v = k.
Proof.
  revert k. induction v as [|c v IH]; intros k Hk HS HM; cbn [ws_len length] in *; [lia|]. destruct (is_ws c) eqn:E.
  - destruct k as [|k].
    + exfalso. apply (HM 1); [lia|]. intros x [<-|Hx]; [unfold is_ws in E; lia|]. rewrite firstn_O in Hx. destruct Hx.
    + f_equal. apply IH; [lia|intros x Hx; apply HS; right; exact Hx|]. intros k' Hk' K. apply (HM (S k')); [lia|]. intros x [<-|Hx]; [unfold is_ws in E; lia|apply K; exact Hx].
  - destruct k as [|k]; [reflexivity|]. exfalso. specialize (HS c (or_introl eq_refl)). unfold is_ws in E. lia.
Qed.
Section Complete.
Variables (C : compiled) (u : list N).
Hypothesis ND : NoDup (map fst (c_nets C)).
(** The automata of patterns accept what the patterns accept; the decision tables answer the only way. *)
Hypothesis HA : forall name id M n A t, In (name, (id, M)) (c_nets C) -> In n M -> nt n = NReg A -> (dfa_run (c_dfa C A) 0 t = true <-> accepts A t).
Hypothesis HL : forall m name id M i k w v, nth_error (c_nets C) m = Some (name, (id, M)) -> i < length M -> 2 <= length (atrs (nth i M blank)) -> 0 < length w -> only_alt (c_nets C) name i k w -> ldfa_go (c_look C m i) 0 (w ++ v) = LExit k.
Hypothesis HX0 : forall m i, 2 <= length (atrs (ParserRun.node_of C m i)) -> lcodable (c_look C m i) (length (atrs (ParserRun.node_of C m i))).
Lemma index_of name : match net_index (c_nets C) name with Some m => exists id M, nth_error (c_nets C) m = Some (name, (id, M)) /\ lookup (c_nets C) name = Some (id, M) /\ net_of C m = (id, M) | None => lookup (c_nets C) name = None end.
Proof.
  clear ND HA HL HX0. unfold net_of. induction (c_nets C) as [|[nm [id M]] l IH]; [reflexivity|]. cbn [net_index fst]. unfold lookup in *. cbn [find fst]. destruct (eqname nm name) eqn:E.
  - apply eqname_spec in E as ->. exists id, M. auto.
  - destruct (net_index l name) as [m|]; [|exact IH]. exact IH.
Qed.
Theorem clear_run :
  (forall r i p q ch, clear_from (c_nets C) u r i p q ch -> forall m, net_index (c_nets C) r = Some m ->
     exists f, run_node C u f m i p = POk q (List.concat (map stream ch) ++ [end_word (fst (net_of C m)) (N.of_nat q)])) /\
  (forall s p q ch, clear_symbol (c_nets C) u s p q ch -> match s with
     | NInv r => forall m, net_index (c_nets C) r = Some m -> exists f ws, run_node C u f m 0 p = POk q ws /\ start_word (fst (net_of C m)) (N.of_nat p) :: ws = List.concat (map stream ch)
     | _ => (match s with NReg A => forall t, dfa_run (c_dfa C A) 0 t = true <-> accepts A t | _ => True end) -> ch = [] /\ term_step C u p s = Some q
     end) /\
  (forall r i ts p q ch, clear_on (c_nets C) u r i ts p q ch -> forall m, net_index (c_nets C) r = Some m -> i < length (snd (net_of C m)) -> ts = atrs (ParserRun.node_of C m i) ->
     exists f, next_res C u f m i p = POk q (List.concat (map stream ch) ++ [end_word (fst (net_of C m)) (N.of_nat q)])).
Proof.
  apply (clear_ind (c_nets C) u
    (fun r i p q ch _ => forall m, net_index (c_nets C) r = Some m -> exists f, run_node C u f m i p = POk q (List.concat (map stream ch) ++ [end_word (fst (net_of C m)) (N.of_nat q)]))
    (fun s p q ch _ => match s with
     | NInv r => forall m, net_index (c_nets C) r = Some m -> exists f ws, run_node C u f m 0 p = POk q ws /\ start_word (fst (net_of C m)) (N.of_nat p) :: ws = List.concat (map stream ch)
     | _ => (match s with NReg A => forall t, dfa_run (c_dfa C A) 0 t = true <-> accepts A t | _ => True end) -> ch = [] /\ term_step C u p s = Some q
     end)
    (fun r i ts p q ch _ => forall m, net_index (c_nets C) r = Some m -> i < length (snd (net_of C m)) -> ts = atrs (ParserRun.node_of C m i) ->
     exists f, next_res C u f m i p = POk q (List.concat (map stream ch) ++ [end_word (fst (net_of C m)) (N.of_nat q)]))).
  - intros r i n p m q ch1 ch2 HN HS IHS HO IHO x HX. pose proof (index_of r) as IX. rewrite HX in IX. destruct IX as (id & M & E1 & E2 & E3).
    unfold LookGrammarSpec.node_of in HN. rewrite E2 in HN. assert (Hi : i < length M) by (apply nth_error_Some; congruence).
    assert (EN : ParserRun.node_of C x i = n) by (unfold ParserRun.node_of; rewrite E3; cbn [snd]; apply nth_error_nth; exact HN).
    destruct (IHO x HX ltac:(rewrite E3; exact Hi) ltac:(rewrite EN; reflexivity)) as [f2 R2].
    assert (NF : next_res C u f2 x i m <> PFuel) by congruence.
    assert (MONO : forall f, f2 <= f -> next_res C u f x i m = next_res C u f2 x i m).
    { intros f Hf. revert NF. unfold next_res. destruct (atrs (ParserRun.node_of C x i)) as [|t [|t' ts]]; [reflexivity|intros K; apply (fuel_mono C u HX0); assumption|]. destruct (ldfa_go _ 0 _); [|reflexivity|reflexivity]. intros K. apply (fuel_mono C u HX0); assumption. }
    destruct (nt n) as [|r'|s|A|] eqn:EK.
    2: { pose proof (index_of r') as IX'. destruct (net_index (c_nets C) r') as [x'|] eqn:EX'.
         - destruct (IHS x' eq_refl) as (f1 & ws & R1 & W1). exists (S (max f1 f2)). rewrite run_node_S, EN, EK, EX'. rewrite (fuel_mono C u HX0 f1 x' 0 p ltac:(congruence) (max f1 f2) ltac:(lia)), R1. cbn [pre].
           rewrite MONO by lia. rewrite R2. cbn [pre]. rewrite map_app, concat_app. rewrite <- W1. rewrite <- !app_assoc. reflexivity.
         - exfalso. inversion HS; subst. congruence. }
    all: assert (HD : ch1 = [] /\ term_step C u p (nt n) = Some m) by (rewrite EK; apply IHS; try exact I; intros t; apply (HA r id M n _ t (nth_error_In _ _ E1) (nth_error_In _ _ HN) EK));
      destruct HD as [-> HD]; exists (S f2); rewrite run_node_S, EN, EK; rewrite EK in HD; rewrite HD; exact R2.
  - intros p Hp _. auto.
  - intros s p m HS HE _. split; [reflexivity|]. cbn [term_step]. assert (PX : prefixb s (skipn p u) = true). { apply prefixb_spec. exists (skipn m u). rewrite (slice_skip u p m HS). congruence. }
    rewrite PX. f_equal. subst s. rewrite slice_le by exact HS. destruct HS. lia.
  - intros A p m HS HE HM HR. split; [reflexivity|]. cbn [term_step]. pose proof (longest_spec (c_dfa C A) (skipn p u) 0) as LS. destruct HS as [S1 S2]. pose proof (skipn_length p u) as SL.
    assert (RM : dfa_run (c_dfa C A) 0 (firstn (m - p) (skipn p u)) = true) by (apply HR; exact HE).
    destruct (longest (c_dfa C A) 0 (skipn p u)) as [k|]; [|specialize (LS (m - p) ltac:(lia)); congruence]. destruct LS as (L1 & L2 & L3). cbn [option_map]. f_equal.
    destruct (Nat.lt_trichotomy k (m - p)) as [L|[L|L]]; [specialize (L3 (m - p) ltac:(lia)); congruence|lia|]. exfalso. apply (HM (p + k)); [lia|split; lia|]. apply HR. unfold slice. replace (p + k - p) with k by lia. exact L2.
  - intros p m HS HE HM _. split; [reflexivity|]. cbn [term_step]. destruct HS as [S1 S2]. pose proof (skipn_length p u) as SL. rewrite (ws_len_max (skipn p u) (m - p)); [f_equal; lia|lia|exact HE|].
    intros k' Hk K. apply (HM (p + k')); [lia|split; lia|]. unfold slice. replace (p + k' - p) with k' by lia. exact K.
  - intros r id M p m ch HK _ IH x HX. destruct (IH x HX) as [f R]. exists f. eexists. split; [exact R|]. pose proof (index_of r) as IX. rewrite HX in IX. destruct IX as (id' & M' & _ & E2 & E3). rewrite HK in E2. injection E2 as <- <-. rewrite E3. cbn [fst map List.concat stream]. rewrite app_nil_r. reflexivity.
  - intros r i p m HX Hi HT. exists 0. unfold next_res. rewrite <- HT. reflexivity.
  - intros r i d t p q ch _ IH m HX Hi HT. destruct (IH m HX) as [f R]. exists f. unfold next_res. rewrite <- HT. exact R.
  - intros r i ts k d t p y q ch H2 HK HP HO _ IH m HX Hi HT. destruct (IH m HX) as [f R]. exists f. unfold next_res. rewrite <- HT. pose proof (index_of r) as IX. rewrite HX in IX. destruct IX as (id & M & E1 & E2 & E3).
    assert (EN : ParserRun.node_of C m i = nth i M blank) by (unfold ParserRun.node_of; rewrite E3; reflexivity). rewrite E3 in Hi. cbn [snd] in Hi.
    assert (SP : span u p y) by (split; lia). pose proof (HL m r id M i k (slice u p y) (skipn y u ++ [0%N]) E1 Hi) as GO. rewrite <- EN, <- HT in GO. specialize (GO H2 ltac:(rewrite slice_le by exact SP; lia) HO).
    rewrite app_assoc, <- (slice_skip u p y SP) in GO. destruct ts as [|t0 [|t1 ts]]; [cbn in H2; lia|cbn in H2; lia|]. rewrite GO. rewrite (nth_error_nth _ _ (0, 0) HK). exact R.
Qed.
End Complete.

(** The markers determine the tree. *)
Definition fok (ch : list tree) : Prop := fold_right (fun c P => tree_ok c /\ P) True ch.
Lemma fok_app a b : fok a -> fok b -> fok (a ++ b).
Proof. unfold fok. induction a as [|c a IH]; cbn [app fold_right]; [auto|]. intros [H1 H2] H3. auto. Qed.
Lemma forest_inj : forall N ch ch' id e id' e' r r', length (List.concat (map stream ch)) < N -> fok ch -> fok ch' -> (1 <= id < 2 ^ 15)%N -> (e < 2 ^ 48)%N -> (1 <= id' < 2 ^ 15)%N -> (e' < 2 ^ 48)%N ->
  List.concat (map stream ch) ++ end_word id e :: r = List.concat (map stream ch') ++ end_word id' e' :: r' -> ch = ch' /\ id = id' /\ e = e' /\ r = r'.
Proof.
  induction N as [|N IH]; intros ch ch' id e id' e' r r' HN H H' I1 I2 I3 I4 E; [lia|]. destruct ch as [|[i1 s1 e1 c1] ch], ch' as [|[i2 s2 e2 c2] ch'].
  - cbn in E. injection E as E ->. destruct (word_injective false id e false id' e' I1 I2 I3 I4 E) as (_ & -> & ->). auto.
  - cbn in E. injection E as E _. destruct H' as [(K1 & K2 & _) _]. destruct (word_injective false id e true i2 s2 I1 I2 K1 K2 E) as (X & _). discriminate.
  - cbn in E. injection E as E _. destruct H as [(K1 & K2 & _) _]. destruct (word_injective true i1 s1 false id' e' K1 K2 I3 I4 E) as (X & _). discriminate.
  - cbn [map List.concat stream] in *. rewrite app_length in HN. cbn [length] in HN. rewrite app_length in HN. cbn [length] in HN.
    destruct H as [(K1 & K2 & K3 & K4) KF], H' as [(L1 & L2 & L3 & L4) LF]. rewrite <- !app_assoc in E. cbn [app] in E. injection E as E E2.
    rewrite <- !app_assoc in E2. cbn [app] in E2.
    destruct (word_injective true i1 s1 true i2 s2 K1 K2 L1 L2 E) as (_ & -> & ->).
    destruct (IH c1 c2 i2 e1 i2 e2 _ _ ltac:(lia) K4 L4 L1 K3 L1 L3 E2) as (-> & _ & -> & E3).
    destruct (IH ch ch' id e id' e' r r' ltac:(lia) KF LF I1 I2 I3 I4 E3) as (-> & -> & -> & ->). auto.
Qed.
Theorem stream_inj t t' : tree_ok t -> tree_ok t' -> stream t = stream t' -> t = t'.
Proof.
  destruct t as [i1 s1 e1 c1], t' as [i2 s2 e2 c2]. intros (K1 & K2 & K3 & K4) (L1 & L2 & L3 & L4) E. cbn [stream] in E. injection E as E E2.
  destruct (word_injective true i1 s1 true i2 s2 K1 K2 L1 L2 E) as (_ & -> & ->).
  destruct (forest_inj _ c1 c2 i2 e1 i2 e2 [] [] (Nat.lt_succ_diag_r _) K4 L4 L1 K3 L1 L3 E2) as (-> & _ & -> & _). reflexivity.
Qed.
Section ClearOk.
Variables (nets : list (list N * (N * atn))) (u : list N).
Hypothesis HI : forall r id M, lookup nets r = Some (id, M) -> (1 <= id < 2 ^ 15)%N.
Hypothesis HU : (N.of_nat (length u) < 2 ^ 48)%N.
Lemma clear_ok :
  (forall r i p q ch, clear_from nets u r i p q ch -> p <= length u -> q <= length u /\ fok ch) /\
  (forall s p q ch, clear_symbol nets u s p q ch -> p <= length u -> q <= length u /\ fok ch) /\
  (forall r i ts p q ch, clear_on nets u r i ts p q ch -> p <= length u -> q <= length u /\ fok ch).
Proof.
  change (2 ^ 48)%N with 281474976710656%N in HU.
  apply (clear_ind nets u (fun r i p q ch _ => p <= length u -> q <= length u /\ fok ch) (fun s p q ch _ => p <= length u -> q <= length u /\ fok ch) (fun r i ts p q ch _ => p <= length u -> q <= length u /\ fok ch)).
  - intros r i n p m q ch1 ch2 _ _ IH1 _ IH2 HP. destruct (IH1 HP) as [A1 A2]. destruct (IH2 A1) as [B1 B2]. split; [exact B1|apply fok_app; assumption].
  - intros p HP _. split; [exact HP|exact I].
  - intros s p m [_ HP] _ _. split; [exact HP|exact I].
  - intros A p m [_ HP] _ _ _. split; [exact HP|exact I].
  - intros p m [_ HP] _ _ _. split; [exact HP|exact I].
  - intros r id M p m ch HK _ IH HP. destruct (IH HP) as [A1 A2]. split; [exact A1|]. split; [|exact I]. split; [exact (HI _ _ _ HK)|]. change (2 ^ 48)%N with 281474976710656%N. split; [lia|]. split; [lia|exact A2].
  - intros r i p HP. split; [exact HP|exact I].
  - intros r i d t p q ch _ IH. exact IH.
  - intros r i ts k d t p m q ch _ _ _ _ _ IH. exact IH.
Qed.
End ClearOk.

(** ** Accepting runs are clear parses *)
Lemma ws_len_longest v : forall k, ws_len v < k <= length v -> ~ spaces (firstn k v).
Proof.
  induction v as [|c v IH]; intros k Hk K; cbn [ws_len length] in *; [lia|]. destruct k as [|k]; [lia|]. cbn [firstn] in K. destruct (is_ws c) eqn:E.
  - apply (IH k); [lia|]. intros x Hx. apply K. right. exact Hx.
  - specialize (K c (or_introl eq_refl)). unfold is_ws in E. lia.
Qed.
Lemma first_lab_nul (r : list (cclass * Z)) c z : first_lab r c = Some z -> exists cc, In (cc, z) r /\ CharClass.includes cc c = true.
Proof.
  induction r as [|[cc z'] r IH]; cbn [first_lab]; [discriminate|]. destruct (CharClass.includes cc c) eqn:E.
  - intros H. injection H as <-. exists cc. split; [left; reflexivity|exact E].
  - intros H. destruct (IH H) as (cc' & I1 & I2). exists cc'. split; [right; exact I1|exact I2].
Qed.
Lemma go_nul (T : ldfa) : (forall q cc d, In (cc, d) (nth q T []) -> CharClass.includes cc 0 = false) -> forall w q k, ldfa_go T q (w ++ [0%N]) = LExit k -> ldfa_go T q w = LExit k.
Proof.
  intros HN. induction w as [|c w IH]; intros q k; cbn [app ldfa_go].
  - destruct (first_lab (nth q T []) 0) as [d|] eqn:E; [|discriminate]. apply first_lab_nul in E as (cc & I1 & I2). rewrite (HN _ _ _ I1) in I2. discriminate.
  - destruct (first_lab (nth q T []) c) as [d|]; [|discriminate]. destruct (0 <=? d)%Z; [apply IH|auto].
Qed.
Section Converse.
Variables (C : compiled) (u : list N).
Hypothesis ND : NoDup (map fst (c_nets C)).
Hypothesis HW : forall name id M, In (name, (id, M)) (c_nets C) -> wf_net M.
Hypothesis HA : forall name id M n A t, In (name, (id, M)) (c_nets C) -> In n M -> nt n = NReg A -> (dfa_run (c_dfa C A) 0 t = true <-> accepts A t).
Hypothesis HN : forall m i q cc d, In (cc, d) (nth q (c_look C m i) []) -> CharClass.includes cc 0 = false.
Hypothesis HX0 : forall m i, 2 <= length (atrs (ParserRun.node_of C m i)) -> lcodable (c_look C m i) (length (atrs (ParserRun.node_of C m i))).
Hypothesis HL : forall m name id M i k w, nth_error (c_nets C) m = Some (name, (id, M)) -> i < length M -> 2 <= length (atrs (nth i M blank)) -> ldfa_go (c_look C m i) 0 w = LExit k ->
  exists n, 0 < n <= length w /\ only_alt (c_nets C) name i k (firstn n w).
Lemma index_in name m : net_index (c_nets C) name = Some m -> exists id M, nth_error (c_nets C) m = Some (name, (id, M)) /\ lookup (c_nets C) name = Some (id, M) /\ net_of C m = (id, M).
Proof. intros E. pose proof (index_of C name) as H. rewrite E in H. exact H. Qed.
Theorem run_clear : forall f name m i p q ws, net_index (c_nets C) name = Some m -> i < length (snd (net_of C m)) -> p <= length u -> run_node C u f m i p = POk q ws ->
  exists ch, clear_from (c_nets C) u name i p q ch /\ ws = List.concat (map stream ch) ++ [end_word (fst (net_of C m)) (N.of_nat q)].
Proof.
  induction f as [|f IH]; intros name m i p q ws HM Hi Hp H; [discriminate|]. rewrite run_node_S in H.
  destruct (index_in name m HM) as (id & M & E1 & E2 & E3). pose proof (nth_error_In _ _ E1) as EIN. destruct (HW _ _ _ EIN) as [W1 W2 W3 W4].
  assert (EN : ParserRun.node_of C m i = nth i M blank) by (unfold ParserRun.node_of; rewrite E3; reflexivity). rewrite E3 in Hi. cbn [snd] in Hi.
  assert (HNo : LookGrammarSpec.node_of (c_nets C) [(name, i)] = Some (nth i M blank)) by (unfold LookGrammarSpec.node_of; rewrite E2; apply nth_error_nth'; exact Hi).
  assert (NEXT : forall p1 v, p1 <= length u -> next_res C u f m i p1 = POk q v -> exists ch, clear_on (c_nets C) u name i (atrs (nth i M blank)) p1 q ch /\ v = List.concat (map stream ch) ++ [end_word (fst (net_of C m)) (N.of_nat q)]).
  { intros p1 v Hp1 E. unfold next_res in E. rewrite EN in E.
    assert (GO : forall d t v, In (d, t) (atrs (nth i M blank)) -> run_node C u f m d p1 = POk q v -> exists ch, clear_from (c_nets C) u name d p1 q ch /\ v = List.concat (map stream ch) ++ [end_word (fst (net_of C m)) (N.of_nat q)]).
    { intros d t v0 Ht E0. apply (IH name m d p1 q v0 HM); [|exact Hp1|exact E0]. rewrite E3. cbn [snd]. apply (W2 i d). apply in_dests. exists t. exact Ht. }
    destruct (atrs (nth i M blank)) as [|[d t] [|t' ts]] eqn:ET.
    - injection E as <- <-. exists []. split; [constructor|reflexivity].
    - destruct (GO d t v (or_introl eq_refl) E) as (ch & G1 & G2). exists ch. split; [constructor; exact G1|exact G2].
    - destruct (ldfa_go (c_look C m i) 0 (skipn p1 u ++ [0%N])) as [j| |] eqn:G; try discriminate. pose proof (HX0 m i) as LC. rewrite EN, ET in LC. specialize (LC ltac:(cbn; lia)). pose proof (exit_lt _ _ LC _ _ _ G) as LJ.
      apply go_nul in G; [|exact (HN m i)]. destruct (HL m name id M i j _ E1 Hi ltac:(rewrite ET; cbn; lia) G) as (n & N1 & N2).
      destruct (nth j ((d, t) :: t' :: ts) (0, 0)) as [d' t0] eqn:EJ. cbn [fst] in E. assert (IJ : nth_error ((d, t) :: t' :: ts) j = Some (d', t0)) by (rewrite <- EJ; apply nth_error_nth'; exact LJ).
      destruct (GO d' t0 v (nth_error_In _ _ IJ) E) as (ch & G1 & G2). exists ch. split; [|exact G2]. rewrite skipn_length in N1.
      apply (co_many _ _ _ _ _ j d' t0 p1 (p1 + n)); [cbn; lia|exact IJ|lia| |exact G1]. unfold slice. replace (p1 + n - p1) with n by lia. exact N2. }
  rewrite EN in H. assert (SYM : forall p1, (forall x, nt (nth i M blank) <> NInv x) -> term_step C u p (nt (nth i M blank)) = Some p1 -> clear_symbol (c_nets C) u (nt (nth i M blank)) p p1 []).
  { intros p1 NI HT. pose proof (term_le' C u p _ p1 Hp HT) as L. pose proof (skipn_length p u) as SL. destruct (nt (nth i M blank)) as [|x|l|A|] eqn:EK; cbn [term_step] in HT.
    - injection HT as <-. constructor. exact Hp.
    - destruct (NI x eq_refl).
    - destruct (prefixb l (skipn p u)) eqn:E; [|discriminate]. injection HT as <-. constructor; [split; lia|apply prefix_slice; exact E].
    - destruct (longest (c_dfa C A) 0 (skipn p u)) as [k|] eqn:E; [|discriminate]. cbn [option_map] in HT. injection HT as <-. pose proof (longest_spec (c_dfa C A) (skipn p u) 0) as LS. rewrite E in LS. destruct LS as (L1 & L2 & L3).
      pose proof (fun t => HA name id M _ A t EIN (nth_In M blank Hi) EK) as HA'. constructor; [split; lia| |].
      + apply HA'. unfold slice. replace (p + k - p) with k by lia. exact L2.
      + intros m' Hm [_ HS] K. apply HA' in K. unfold slice in K. rewrite (L3 (m' - p)) in K by lia. discriminate.
    - injection HT as <-. constructor; [split; lia| |].
      + unfold slice. replace (p + ws_len (skipn p u) - p) with (ws_len (skipn p u)) by lia. apply ws_spaces.
      + intros m' Hm [_ HS] K. unfold slice in K. apply (ws_len_longest (skipn p u) (m' - p)); [lia|exact K]. }
  destruct (nt (nth i M blank)) as [|x|l|A|] eqn:EK.
  2: { destruct (net_index (c_nets C) x) as [m'|] eqn:EX; [|discriminate]. destruct (index_in x m' EX) as (id' & M' & F1 & F2 & F3). destruct (HW _ _ _ (nth_error_In _ _ F1)) as [V1 _ _ _].
       destruct (run_node C u f m' 0 p) as [p1 ws1|ws1| |] eqn:R1; cbn [pre] in H; try discriminate.
       destruct (next_res C u f m i p1) as [p2 ws2|ws2| |] eqn:R2; cbn [pre] in H; try discriminate. injection H as -> <-.
       destruct (IH x m' 0 p p1 ws1 EX ltac:(rewrite F3; cbn [snd]; lia) Hp R1) as (ch1 & P1 & P2).
       assert (LP : p1 <= length u) by (refine (proj2 (run_le C u HX0 f m' 0 p p1 ws1 Hp R1))).
       destruct (NEXT p1 ws2 LP R2) as (ch2 & Q1 & Q2). exists ([Node id' (N.of_nat p) (N.of_nat p1) ch1] ++ ch2). split.
       { eapply cf_node; [exact HNo| |exact Q1]. rewrite EK. econstructor; [exact F2|exact P1]. }
       rewrite P2, Q2. rewrite F3. cbn [fst map app List.concat stream]. rewrite ?app_comm_cons, <- ?app_assoc. cbn [app]. rewrite <- ?app_assoc. cbn [app]. reflexivity. }
  all: destruct (term_step C u p _) as [p1|] eqn:ET in H; [|discriminate]; pose proof (term_le' C u _ _ _ Hp ET) as L; destruct (NEXT p1 ws (proj2 L) H) as (ch & Q1 & Q2); exists ([] ++ ch); (split; [|exact Q2]);
    (eapply cf_node; [exact HNo| |exact Q1]); rewrite EK; apply SYM; [discriminate|exact ET].
Qed.
End Converse.
