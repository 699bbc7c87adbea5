(** * Executions of the generated parser *)
From Coq Require Import List NArith ZArith Arith Bool Lia ZifyBool ZifyN ZifyNat Permutation.
From Verif Require Import CharClass NFA NFABuild DFA RegexSpec GrammarSpec Marker Reduction ReductionProofs TreeSpec ParseSpec Writer WriterProofs X86 CodeGen CodeGenProofs CodeGenSimd CodeGenDfa CodeGenMisc CodeGenRoutine ATN ATNSem ATNBuild ATNOpt ATNLive Grammar GrammarProofs ParserGen ParserRun ParserSim ParserTree.
Import ListNotations.
Local Open Scope nat_scope.

(** The surroundings of a call: the text u at address a, followed by a NUL and pad; pages of B
    words at addresses below 2^64; a generator set to the same page size. *)
Record parser_env (C : compiled) (e : env) (a : N) (u pad : list N) (B : nat) : Prop := {
  pe_gen : gen_ok C (length pad);
  pe_text : text_at (mem e) a (u ++ 0%N :: pad);
  pe_addr : (0 < a)%N;
  pe_nul : forall c, In c u -> c <> 0%N;
  pe_page : 1 <= B;
  pe_words : page_words e = B;
  pe_buf : c_buf C = (8 * N.of_nat B)%N;
  pe_fit : forall k, (page_addr e k + 8 * N.of_nat B < 2 ^ 64)%N;
  pe_stale : forall k, length (stale e k) = B }.
(** A call: ParserEM64T::operator(), CodeGenEM64T.hpp:87-91. *)
Definition call_regs (e : env) (a : N) (r : reg -> N) : Prop := r RDI = ctx e /\ r RSI = a /\ r RDX = page_addr e 0.
(** It returns v, having filled the pages bs (the last one not yet handed over). *)
Definition returned (C : compiled) (root : list N) (e : env) (a v : N) (bs : list (list N)) : Prop :=
  exists r x p sv q s, call_regs e a r /\ star (parser_code C root) e (start_state C root e r x p sv q) s /\ pc s = [] /\ rg s RAX = v /\ banks s = bs.
(** All references are to rules of the grammar; decisions end at the NUL. *)
Record linked (C : compiled) : Prop := {
  li_refs : forall name id M n x, In (name, (id, M)) (c_nets C) -> In n M -> nt n = NInv x -> exists m, net_index (c_nets C) x = Some m;
  li_nul : forall m i q cc d, In (cc, d) (nth q (c_look C m i) []) -> CharClass.includes cc 0 = false }.

Lemma star_det P e a b : star P e a b -> forall n c, steps P e n a c -> pc b = [] -> exists k, steps P e k c b /\ (n = 0 \/ True).
Proof.
  induction 1 as [a|a b c H _ IH]; intros n d K HB.
  - inversion K as [|n' y0 y1 y2 E _]; subst; [exists 0; split; [constructor|auto]|]. unfold step in E. rewrite HB in E. discriminate.
  - inversion K as [|n' y0 y1 y2 E K']; subst.
    + destruct (IH 0 b (sn_0 _ _ _) HB) as (k & K0 & _). exists (S k). split; [econstructor; eassumption|auto].
    + rewrite H in E. injection E as <-. destruct (IH n' d K' HB) as (k & S & _). exists k. auto.
Qed.
Lemma steps_det P e n a b : steps P e n a b -> forall c, steps P e n a c -> b = c.
Proof. induction 1 as [|n a b c H _ IH]; intros d K; inversion K as [|n' y0 y1 y2 E K']; subst; [reflexivity|]. rewrite H in E. injection E as <-. apply IH, K'. Qed.
Lemma steps_split P e n a b : steps P e n a b -> forall k, k <= n -> exists c, steps P e k a c /\ steps P e (n - k) c b.
Proof.
  induction 1 as [|n a b c H K IH]; intros k Hk.
  - replace k with 0 by lia. eexists. split; constructor.
  - destruct k as [|k]; [exists a; split; [constructor|econstructor; eassumption]|]. destruct (IH k ltac:(lia)) as (d & D1 & D2). exists d. split; [econstructor; eassumption|exact D2].
Qed.
Lemma final_only P e n a b m c : steps P e n a b -> pc b = [] -> steps P e m a c -> m <= n.
Proof.
  intros H HB K. destruct (Nat.le_gt_cases m n) as [L|L]; [exact L|]. exfalso.
  destruct (steps_split _ _ _ _ _ K n ltac:(lia)) as (d & D1 & D2). pose proof (steps_det _ _ _ _ _ H _ D1) as <-.
  destruct (m - n) as [|j] eqn:E; [lia|]. inversion D2 as [|j' y0 y1 y2 ES _]; subst. unfold step in ES. rewrite HB in ES. discriminate.
Qed.
Lemma final_eq P e a b c : star P e a b -> star P e a c -> pc b = [] -> pc c = [] -> b = c.
Proof.
  intros H K HB HC. apply star_steps in H as [n H], K as [m K]. pose proof (final_only _ _ _ _ _ _ _ H HB K). pose proof (final_only _ _ _ _ _ _ _ K HC H).
  assert (n = m) as -> by lia. exact (steps_det _ _ _ _ _ H _ K).
Qed.

(** ** Wild executions do not happen in linked grammars *)
Lemma look_ends L v : (forall q cc d, In (cc, d) (nth q L []) -> CharClass.includes cc 0 = false) -> forall q, ldfa_go L q (v ++ [0%N]) <> LMore.
Proof.
  intros H. induction v as [|c v IH]; intros q; cbn [app ldfa_go].
  - assert (E : first_lab (nth q L []) 0 = None).
    { specialize (H q). induction (nth q L []) as [|[cc d] l IHl]; [reflexivity|]. cbn. rewrite (H cc d (or_introl eq_refl)). apply IHl. intros cc' d' H'. apply (H cc' d'). right. exact H'. }
    rewrite E. discriminate.
  - destruct (first_lab (nth q L []) c) as [d|]; [|discriminate]. destruct (0 <=? d)%Z; [apply IH|discriminate].
Qed.
Lemma no_wild C u npad : gen_ok C npad -> linked C -> forall f m i n, m < length (c_nets C) -> i < length (snd (net_of C m)) -> run_node C u f m i n <> PWild.
Proof.
  intros HG HK. induction f as [|f IH]; intros m i n Hm Hi; [discriminate|]. rewrite run_node_S.
  destruct (nth m (c_nets C) ([], (0%N, []))) as [name [id M]] eqn:EN. assert (IN : In (name, (id, M)) (c_nets C)) by (rewrite <- EN; apply nth_In; exact Hm).
  assert (EM : net_of C m = (id, M)) by (unfold net_of; rewrite EN; reflexivity). rewrite EM in Hi. cbn [snd] in Hi.
  assert (NI : In (node_of C m i) M) by (unfold node_of; rewrite EM; apply nth_In; exact Hi).
  assert (NEXT : forall n1, next_res C u f m i n1 <> PWild).
  { intros n1. unfold next_res.
    assert (GO : forall t, In t (atrs (node_of C m i)) -> run_node C u f m (fst t) n1 <> PWild).
    { intros t Ht. apply IH; [exact Hm|]. rewrite EM. exact (ok_dest _ _ HG _ _ _ _ _ IN NI Ht). }
    destruct (atrs (node_of C m i)) as [|t [|t' ts]] eqn:ET; [discriminate|apply GO; left; reflexivity|].
    pose proof (look_ends (c_look C m i) (skipn n1 u) (li_nul _ HK m i) 0) as LE.
    destruct (ldfa_go (c_look C m i) 0 (skipn n1 u ++ [0%N])) as [j| |] eqn:G; [|discriminate|congruence].
    apply GO, nth_In. assert (E2 : nth_error (c_nets C) m = Some (name, (id, M))) by (rewrite <- EN; apply nth_error_nth'; exact Hm).
    assert (EQ : nth i M blank = node_of C m i) by (unfold node_of; rewrite EM; reflexivity).
    pose proof (ok_look _ _ HG m name id M i E2 Hi) as LC. rewrite EQ, ET in LC. exact (exit_lt _ _ (LC ltac:(cbn; lia)) _ _ _ G). }
  destruct (nt (node_of C m i)) as [|x|l|A|] eqn:ENT; [destruct (term_step _ _ _ _); [apply NEXT|discriminate]| |destruct (term_step _ _ _ _); [apply NEXT|discriminate]..].
  destruct (li_refs _ HK _ _ _ _ _ IN NI ENT) as [m' EI]. rewrite EI. pose proof (net_index_lt _ _ _ EI) as Hm'.
  assert (L0 : 0 < length (snd (net_of C m'))).
  { unfold net_of. destruct (nth m' (c_nets C) ([], (0%N, []))) as [name' [id' M']] eqn:EN'. cbn [snd]. assert (IN' : In (name', (id', M')) (c_nets C)) by (rewrite <- EN'; apply nth_In; exact Hm'). pose proof (ok_ne _ _ HG _ _ _ IN'). destruct M'; [congruence|cbn; lia]. }
  pose proof (IH m' 0 n Hm' L0) as R. destruct (run_node C u f m' 0 n) as [n1 ws|ws| |]; cbn [pre]; try discriminate; [|congruence].
  specialize (NEXT n1). destruct (next_res C u f m i n1); cbn [pre]; try discriminate. congruence.
Qed.

(** ** Every execution that ends is that of the interpreter *)
Section Exec.
Variables (C : compiled) (root : list N) (e : env) (a : N) (u pad : list N) (B m : nat).
Hypothesis HE : parser_env C e a u pad B.
Hypothesis HR : net_index (c_nets C) root = Some m.
Hypothesis HK : linked C.
Lemma root_nonempty : 0 < length (snd (net_of C m)).
Proof.
  pose proof (net_index_lt _ _ _ HR) as Hm. unfold net_of. destruct (nth m (c_nets C) ([], (0%N, []))) as [name' [id' M']] eqn:EN'. cbn [snd].
  assert (IN' : In (name', (id', M')) (c_nets C)) by (rewrite <- EN'; apply nth_In; exact Hm). pose proof (ok_ne _ _ (pe_gen _ _ _ _ _ _ HE) _ _ _ IN'). destruct M'; [congruence|cbn; lia].
Qed.
Lemma machine_no_wild f : run_machine C u f m 0 <> PWild.
Proof.
  unfold run_machine. pose proof (no_wild C u (length pad) (pe_gen _ _ _ _ _ _ HE) HK f m 0 0 (net_index_lt _ _ _ HR) root_nonempty) as N0.
  destruct (run_node C u f m 0 0); cbn [pre]; congruence.
Qed.
Theorem returned_iff v bs : returned C root e a v bs <->
  exists f, match run_machine C u f m 0 with
            | POk n ws => v = (a + N.of_nat n)%N /\ write_accept B B (stale e) ws = Ok bs
            | PRej ws => v = 0%N /\ write_reject B B (stale e) ws = Ok bs
            | _ => False
            end.
Proof.
  destruct HE as [H1 H2 H3 H4 H5 H6 H7 H8 H9]. pose proof (fun r x p sv q => parser_run C root e a u pad B H1 H2 H3 H4 H5 H6 H7 H8 r x p sv q m HR) as RUN. split.
  - intros (r & x & p & sv & q & s & (R1 & R2 & R3) & S0 & PC & RA & BS). destruct (star_steps _ _ _ _ S0) as [n SN]. exists (S n).
    specialize (RUN r x p sv q R1 R2 R3 (S n)). pose proof (machine_no_wild (S n)) as NW. destruct (run_machine C u (S n) m 0) as [n1 ws|ws| |]; [| |congruence|].
    + destruct RUN as (s' & S' & PC' & RA' & W & _). pose proof (final_eq _ _ _ _ _ S0 S' PC PC') as <-. subst. auto.
    + destruct RUN as (s' & S' & PC' & RA' & W & _). pose proof (final_eq _ _ _ _ _ S0 S' PC PC') as <-. subst. auto.
    + destruct RUN as (N0 & s' & L & S'). pose proof (final_only _ _ _ _ _ _ _ SN PC S'). lia.
  - intros [f H]. pose (r := fun x => match x with RDI => ctx e | RSI => a | RDX => page_addr e 0 | _ => 0%N end).
    specialize (RUN r [] [] [] [] eq_refl eq_refl eq_refl f). destruct (run_machine C u f m 0) as [n ws|ws| |]; try contradiction.
    + destruct RUN as (s' & S' & PC' & RA' & W & _). destruct H as [-> H]. exists r, [], [], [], [], s'. split; [repeat split|]. split; [exact S'|]. split; [exact PC'|]. split; [exact RA'|congruence].
    + destruct RUN as (s' & S' & PC' & RA' & W & _). destruct H as [-> H]. exists r, [], [], [], [], s'. split; [repeat split|]. split; [exact S'|]. split; [exact PC'|]. split; [exact RA'|congruence].
Qed.
(** The code never faults. *)
Theorem never_faults r x p sv q s : call_regs e a r -> star (parser_code C root) e (start_state C root e r x p sv q) s ->
  pc s = [] \/ exists s', step (parser_code C root) e s = Next s'.
Proof.
  intros (R1 & R2 & R3) S0. destruct (star_steps _ _ _ _ S0) as [n SN]. destruct HE as [H1 H2 H3 H4 H5 H6 H7 H8 H9].
  pose proof (parser_run C root e a u pad B H1 H2 H3 H4 H5 H6 H7 H8 r x p sv q m HR R1 R2 R3 (S n)) as RUN. pose proof (machine_no_wild (S n)) as NW.
  assert (FIN : forall s', star (parser_code C root) e (start_state C root e r x p sv q) s' -> pc s' = [] -> pc s = [] \/ exists s1, step (parser_code C root) e s = Next s1).
  { intros s' S' PC'. destruct (star_det _ _ _ _ S' _ _ SN PC') as (k & K & _). inversion K as [|k' y0 y1 y2 E _]; subst; [left; exact PC'|right; eauto]. }
  destruct (run_machine C u (S n) m 0) as [n1 ws|ws| |]; [| |congruence|].
  - destruct RUN as (s' & S' & PC' & _). exact (FIN s' S' PC').
  - destruct RUN as (s' & S' & PC' & _). exact (FIN s' S' PC').
  - destruct RUN as (N0 & s' & L & S'). destruct (steps_split _ _ _ _ _ S' n ltac:(lia)) as (d & D1 & D2). pose proof (steps_det _ _ _ _ _ SN _ D1) as <-.
    right. destruct (N0 - n) as [|j] eqn:EJ; [lia|]. inversion D2 as [|j' y0 y1 y2 ES _]; subst. eauto.
Qed.
End Exec.

(** ** Loading a grammar *)
(** The networks of the generator are those of the grammar, in some order, possibly optimised
    (Context does not call Grammar::optimize, Context.hpp:80-89; Grammar's constructor from a file does). *)
Definition optimised (p q : list N * (N * atn)) : Prop := fst p = fst q /\ fst (snd p) = fst (snd q) /\ drop_passthrough (snd (snd p)) = Some (snd (snd q)).
Definition loaded (g : gstate) (C : compiled) : Prop := exists L, Permutation L (g_nets g) /\ (c_nets C = L \/ Forall2 optimised L (c_nets C)).

Lemma net_index_none nets name : net_index nets name = None <-> lookup nets name = None.
Proof.
  induction nets as [|p nets IH]; cbn [net_index]; [split; reflexivity|]. unfold lookup in *. cbn [find]. destruct (eqname (fst p) name); [split; discriminate|].
  rewrite <- IH. destruct (net_index nets name); split; (reflexivity || discriminate).
Qed.
Lemma lookup_perm L L' name : Permutation L L' -> NoDup (map fst L) -> lookup L name = lookup L' name.
Proof.
  intros HP ND. destruct (lookup L name) as [p|] eqn:E.
  - apply lookup_in in E. apply (Permutation_in _ HP) in E. assert (ND' : NoDup (map fst L')) by (eapply Permutation_NoDup; [apply Permutation_map; exact HP|exact ND]).
    destruct (lookup_some L' name) as [p' E']; [apply (in_map fst) in E; exact E|]. rewrite E'. f_equal. apply lookup_in in E'.
    clear - ND' E E'. induction L' as [|x l IH]; [destruct E|]. cbn in ND'. inversion ND' as [|? ? N1 N2]; subst. destruct E as [->|E], E' as [E'|E'].
    + injection E'. auto.
    + exfalso. apply N1. cbn. apply (in_map fst) in E'. exact E'.
    + subst x. exfalso. apply N1. apply (in_map fst) in E. exact E.
    + auto.
  - destruct (lookup L' name) as [p|] eqn:E'; [|reflexivity]. apply lookup_in in E'. apply (Permutation_in _ (Permutation_sym HP)) in E'. apply (in_map fst) in E'. destruct (lookup_some L name E') as [p' E2]. congruence.
Qed.
Lemma optimised_lookup L L' name : Forall2 optimised L L' -> match lookup L name, lookup L' name with
  | Some p, Some q => fst p = fst q /\ drop_passthrough (snd p) = Some (snd q) | None, None => True | _, _ => False end.
Proof.
  induction 1 as [|p q L L' (H1 & H2 & H3) _ IH]; [exact I|]. unfold lookup. cbn [find]. rewrite <- H1. destruct (eqname (fst p) name); [auto|exact IH].
Qed.
Theorem loaded_nets rules g C : NoDup (map fst (g_nets g)) -> loaded g C ->
  (forall name, match lookup (g_nets g) name with Some (id, M) => exists e, rules name = Some (id, e) /\ M = build_body true e | None => rules name = None end) ->
  nets_of rules C.
Proof.
  intros ND (L & HP & HL) HG. assert (NDL : NoDup (map fst L)) by (eapply Permutation_NoDup; [apply Permutation_map, Permutation_sym; exact HP|exact ND]).
  assert (IL : forall name id M, In (name, (id, M)) L -> exists e, rules name = Some (id, e) /\ M = build_body true e).
  { intros name id M H. apply (Permutation_in _ HP) in H. assert (E : lookup (g_nets g) name = Some (id, M)).
    { assert (N1 : In name (map fst (g_nets g))) by (apply (in_map fst) in H; exact H). destruct (lookup_some _ _ N1) as [p' E]. rewrite E. f_equal. apply lookup_in in E.
      clear - ND H E. induction (g_nets g) as [|x l IH]; [destruct H|]. cbn in ND. inversion ND as [|? ? N1 N2]; subst. destruct H as [->|H], E as [E|E].
      - injection E. auto.
      - exfalso. apply N1. cbn. apply (in_map fst) in E. exact E.
      - subst x. exfalso. apply N1. apply (in_map fst) in H. exact H.
      - auto. }
    specialize (HG name). rewrite E in HG. exact HG. }
  split.
  - intros name EI. specialize (HG name). rewrite <- (lookup_perm L (g_nets g) name HP NDL) in HG. apply net_index_none in EI. destruct HL as [EL|HF].
    + rewrite EL in EI. rewrite EI in HG. exact HG.
    + pose proof (optimised_lookup _ _ name HF) as O. rewrite EI in O. destruct (lookup L name); [contradiction|exact HG].
  - intros name id M H. destruct HL as [EL|HF].
    + rewrite EL in H. destruct (IL _ _ _ H) as (e & E1 & ->). exists e. split; [exact E1|left; reflexivity].
    + assert (K : exists p, In p L /\ optimised p (name, (id, M))).
      { clear - HF H. induction HF as [|p q L L' O _ IH]; [destruct H|]. destruct H as [->|H]; [exists p; split; [left; reflexivity|exact O]|]. destruct (IH H) as (p' & A & B). exists p'. split; [right; exact A|exact B]. }
      destruct K as ([n [i M0]] & K & O1 & O2 & O3). cbn [fst snd] in *. subst n i. destruct (IL _ _ _ K) as (e & E1 & ->). exists e. split; [exact E1|right; exact O3].
Qed.
Lemma rules_from_none ds : forall k name, ~ In name (map fst ds) -> rules_from k ds name = None.
Proof.
  induction ds as [|[n e] ds IH]; intros k name H; [reflexivity|]. cbn [rules_from]. destruct (list_eq_dec N.eq_dec n name) as [->|_]; [destruct H; left; reflexivity|]. apply IH. intros K. apply H. right. exact K.
Qed.
Lemma rules_from_some ds : forall k j name e, nth_error ds j = Some (name, e) -> ~ In name (map fst (firstn j ds)) -> rules_from k ds name = Some ((k + N.of_nat j)%N, e).
Proof.
  induction ds as [|[n e0] ds IH]; intros k j name e H HN; [destruct j; discriminate|]. cbn [rules_from]. destruct j as [|j]; cbn in H.
  - injection H as -> ->. destruct (list_eq_dec N.eq_dec name name); [|congruence]. rewrite N.add_0_r. reflexivity.
  - destruct (list_eq_dec N.eq_dec n name) as [->|_]; [destruct HN; left; reflexivity|]. rewrite (IH (k + 1)%N j name e H); [do 2 f_equal; lia|]. intros K. apply HN. right. exact K.
Qed.
Lemma first_nth (ds : list (list N * gsel)) name : In name (map fst ds) -> exists j e, nth_error ds j = Some (name, e) /\ ~ In name (map fst (firstn j ds)).
Proof.
  induction ds as [|[n e] ds IH]; intros H; [destruct H|]. destruct (list_eq_dec N.eq_dec n name) as [->|NE].
  - exists 0, e. split; [reflexivity|intros []].
  - destruct H as [H|H]; [cbn in H; congruence|]. destruct (IH H) as (j & e' & A1 & A2). exists (S j), e'. split; [exact A1|]. intros [K|K]; [cbn in K; congruence|auto].
Qed.
