(** * Model of the parser without output (src/core/CodeGenEM64T.cpp, DryParserEM64T; TCHAR = char, Linux) *)
From Coq Require Import List NArith ZArith Arith Bool Lia ZifyBool ZifyN ZifyNat.
From Verif Require Import CharClass CharClassSpec NFA DFA DFAProofs DFAMin Marker Reduction Writer WriterProofs X86 X86Step CodeGen CodeGenProofs CodeGenSimd CodeGenDfa CodeGenMisc CodeGenRoutine ATN Grammar ParserGen ParserRun ParserSim.
Import ListNotations.
Local Open Scope nat_scope.

Section Emit.
Variable C : compiled.
(** CodeGenEM64T.cpp:507-525: as the parser's, without markers. *)
Definition dry_next (m i : nat) (ts : list (nat * nat)) : code :=
  match ts with
  | [] => [IRet]
  | [t] => [IJmp (lnode m (fst t))]
  | _ => emit_ldfa [9; m; i] rej0 (map (fun t => lnode m (fst t)) ts) (c_look C m i)
  end.
(** The symbols are emitted as by the parser: CodeGenEM64T.cpp:488-505 and 353-371 ([emit_sym]). *)
Definition dry_node (m i : nat) (n : anode) : code := emit_sym C m i (nt n) ++ dry_next m i (atrs n).
(** DryParserEM64T::emit_machine: CodeGenEM64T.cpp:473-527. *)
Fixpoint dry_nodes (m i : nat) (M : atn) : code :=
  match M with
  | [] => []
  | n :: M' => IBind (lnode m i) :: dry_node m i n ++ dry_nodes m (S i) M'
  end.
Fixpoint dry_machines (m : nat) (nets : list (list N * (N * atn))) : code :=
  match nets with
  | [] => []
  | p :: nets' => IBind (lmach m) :: dry_nodes m 0 (snd (snd p)) ++ dry_machines (S m) nets'
  end.
(** The constructor: CodeGenEM64T.cpp:153-198.  The only argument is at rsp+32; the epilogue stands
    before the machines.  The load of the skip filter into PATTERN_REG is left out: every use of
    PATTERN_REG is preceded by its own load. *)
Definition dry_code (root : list N) : code :=
  prolog ++ [ILoadS INPUT 4; ICall (lcall (c_nets C) root)] ++ epilog [] rej0 ++ dry_machines 0 (c_nets C).
End Emit.

(** ** Labels *)
Lemma binds_dnext C m i ts : (forall l, In l (binds (dry_next C m i ts)) -> exists k, l = lstate [9; m; i] k) /\ NoDup (binds (dry_next C m i ts)).
Proof.
  destruct ts as [|t [|t' ts]]; cbn [dry_next].
  - split; [intros l []|constructor].
  - split; [intros l []|constructor].
  - unfold emit_ldfa. cbn [binds]. destruct (binds_lstates [9; m; i] rej0 (map (fun t => lnode m (fst t)) (t :: t' :: ts)) (c_look C m i) 0) as [B1 B2]. split; [|exact B2].
    intros l H. destruct (B1 l H) as (k & _ & ->). eauto.
Qed.
Lemma binds_dnode C m i n : (forall l, In l (binds (dry_node C m i n)) -> node_label m i l /\ l <> lnode m i) /\ NoDup (binds (dry_node C m i n)).
Proof.
  unfold dry_node. rewrite binds_app. destruct (binds_sym C m i (nt n)) as [A1 A2]. destruct (binds_dnext C m i (atrs n)) as [B1 B2]. split.
  - intros l H. apply in_app_or in H as [H|H]; [destruct (A1 l H) as (? & ? & _); auto|]. destruct (B1 l H) as [k ->]. split; [right; right; left; eauto|discriminate].
  - apply NoDup_app_intro; [exact A2|exact B2|]. intros l H K. destruct (A1 l H) as (_ & _ & N0). destruct (B1 l K) as [k ->]. exact (N0 k eq_refl).
Qed.
Lemma binds_dnodes C m : forall M i, (forall l, In l (binds (dry_nodes C m i M)) -> exists k, i <= k /\ node_label m k l) /\ NoDup (binds (dry_nodes C m i M)).
Proof.
  induction M as [|n M IH]; intros i; cbn [dry_nodes binds]; [split; [intros l []|constructor]|].
  destruct (IH (S i)) as [I1 I2]. destruct (binds_dnode C m i n) as [N1 N2]. rewrite binds_app. split.
  - intros l [<-|H]; [exists i; split; [lia|left; reflexivity]|]. apply in_app_or in H as [H|H]; [exists i; split; [lia|apply N1; exact H]|]. destruct (I1 l H) as (k & L & K). exists k. split; [lia|exact K].
  - constructor.
    + intros H. apply in_app_or in H as [H|H]; [apply (proj2 (N1 _ H)); reflexivity|]. destruct (I1 _ H) as (k & L & K).
      destruct (node_label_key m i m k (lnode m i)) as [_ E]; [left; reflexivity|exact K|lia].
    + apply NoDup_app_intro; [exact N2|exact I2|]. intros l H K. destruct (I1 _ K) as (k & L & K'). destruct (node_label_key m i m k l (proj1 (N1 _ H)) K') as [_ E]. lia.
Qed.
Lemma binds_dmachines C : forall nets m, (forall l, In l (binds (dry_machines C m nets)) -> exists k, m <= k /\ mach_label k l) /\ NoDup (binds (dry_machines C m nets)).
Proof.
  induction nets as [|p nets IH]; intros m; cbn [dry_machines binds]; [split; [intros l []|constructor]|].
  destruct (IH (S m)) as [I1 I2]. destruct (binds_dnodes C m (snd (snd p)) 0) as [N1 N2]. rewrite binds_app.
  assert (N3 : forall l, In l (binds (dry_nodes C m 0 (snd (snd p)))) -> mach_label m l /\ l <> lmach m).
  { intros l H. destruct (N1 l H) as (k & _ & K). split; [left; eauto|apply (node_not_mach _ _ _ K)]. }
  split.
  - intros l [<-|H]; [exists m; split; [lia|right; auto]|]. apply in_app_or in H as [H|H]; [exists m; split; [lia|apply N3; exact H]|]. destruct (I1 l H) as (k & L & K). exists k. split; [lia|exact K].
  - constructor.
    + intros H. apply in_app_or in H as [H|H]; [apply (proj2 (N3 _ H)); reflexivity|]. destruct (I1 _ H) as (k & L & K).
      assert (m = k) by (apply (mach_label_key m k (lmach m)); [right; auto|exact K]). lia.
    + apply NoDup_app_intro; [exact N2|exact I2|]. intros l H K. destruct (I1 _ K) as (k & L & K'). assert (m = k) by (apply (mach_label_key m k l); [apply N3; exact H|exact K']). lia.
Qed.
Lemma dry_nodup C root : NoDup (binds (dry_code C root)).
Proof.
  unfold dry_code. rewrite !binds_app. destruct (binds_dmachines C (c_nets C) 0) as [B1 B2]. rewrite binds_epilog. cbn [binds prolog app].
  change (NoDup ([rej0; [3]] ++ binds (dry_machines C 0 (c_nets C)))).
  apply NoDup_app_intro; [repeat constructor; cbn; intuition discriminate|exact B2|].
  intros l K H. destruct (B1 l H) as (k & _ & K'). apply mach_label_long in K'. cbn in K. destruct K as [<-|[<-|[]]]; cbn in K'; lia.
Qed.
Lemma dnodes_split C m : forall M i k, k < length M -> exists A B,
  dry_nodes C m i M = A ++ IBind (lnode m (i + k)) :: dry_node C m (i + k) (nth k M blank) ++ B.
Proof.
  induction M as [|n M IH]; intros i k Hk; [cbn in Hk; lia|]. cbn [dry_nodes]. destruct k as [|k].
  - exists [], (dry_nodes C m (S i) M). rewrite Nat.add_0_r. reflexivity.
  - destruct (IH (S i) k) as (A & B & E); [cbn in Hk; lia|]. rewrite E. exists (IBind (lnode m i) :: dry_node C m i n ++ A), B.
    replace (i + S k) with (S i + k) by lia. cbn [app nth]. rewrite <- app_assoc. reflexivity.
Qed.
Lemma dmachines_split C : forall nets m k, k < length nets -> exists A B,
  dry_machines C m nets = A ++ IBind (lmach (m + k)) :: dry_nodes C (m + k) 0 (snd (snd (nth k nets ([], (0%N, []))))) ++ B.
Proof.
  induction nets as [|p nets IH]; intros m k Hk; [cbn in Hk; lia|]. cbn [dry_machines]. destruct k as [|k].
  - exists [], (dry_machines C (S m) nets). rewrite Nat.add_0_r. reflexivity.
  - destruct (IH (S m) k) as (A & B & E); [cbn in Hk; lia|]. rewrite E. exists (IBind (lmach m) :: dry_nodes C m 0 (snd (snd p)) ++ A), B.
    replace (m + S k) with (S m + k) by lia. cbn [app nth]. rewrite <- app_assoc. reflexivity.
Qed.

Lemma dlongest_le D : forall v q k, longest D q v = Some k -> k <= length v.
Proof.
  induction v as [|c v IH]; intros q k; cbn [longest].
  - destruct (dacc (nth q D dnil)); [|discriminate]. intros E. injection E as <-. lia.
  - destruct (first_tr (dtrs (nth q D dnil)) c) as [d|]; [|destruct (dacc (nth q D dnil)); [|discriminate]; intros E; injection E as <-; lia].
    destruct (longest D d v) as [j|] eqn:L; cbn [option_map].
    + intros E. injection E as <-. pose proof (IH _ _ L). cbn [length]. lia.
    + destruct (dacc (nth q D dnil)); [|discriminate]. intros E; injection E as <-; lia.
Qed.
Lemma dws_len_le v : ws_len v <= length v.
Proof. induction v as [|c v IH]; cbn [ws_len]; [lia|]. match goal with |- context [if ?b then _ else _] => destruct b end; cbn [length]; lia. Qed.
Lemma dterm_le C u n s n1 : n <= length u -> term_step C u n s = Some n1 -> n <= n1 <= length u.
Proof.
  intros Hn. pose proof (skipn_length n u) as SL. destruct s as [|id|l|A|]; cbn [term_step].
  - intros E. injection E as <-. lia.
  - discriminate.
  - destruct (prefixb l (skipn n u)) eqn:E; [|discriminate]. intros K. injection K as <-. apply prefixb_len in E. lia.
  - destruct (longest (c_dfa C A) 0 (skipn n u)) as [k|] eqn:E; cbn [option_map]; [|discriminate]. intros K. injection K as <-. apply dlongest_le in E. lia.
  - intros K. injection K as <-. pose proof (dws_len_le (skipn n u)). lia.
Qed.
Lemma dnet_ne C (pad : list N) m : gen_ok C (length pad) -> m < length (c_nets C) -> 0 < length (snd (net_of C m)).
Proof. intros HG Hm. destruct (net_in C m Hm) as (name & I1 & _). rewrite (surjective_pairing (net_of C m)) in I1. pose proof (ok_ne _ _ HG _ _ _ I1). destruct (snd (net_of C m)); [congruence|cbn; lia]. Qed.

Local Ltac asn := repeat first [rewrite <- app_assoc | progress (cbn [app])].
Section Sim.
Variables (C : compiled) (root : list N) (e : env) (a : N) (u pad : list N).
Notation P := (dry_code C root).
Hypothesis HG : gen_ok C (length pad).
Hypothesis HT : text_at (mem e) a (u ++ 0%N :: pad).
Hypothesis Ha : (0 < a)%N.
Hypothesis HU : forall c, In c u -> (c <> 0)%N.

Let ND : NoDup (binds P) := dry_nodup C root.
Definition drej : code := skipn 3 (epilog [] rej0) ++ dry_machines C 0 (c_nets C).
Lemma dfind_rej : find_lab P rej0 = Some drej.
Proof. apply (find_at' P (prolog ++ [ILoadS INPUT 4; ICall (lcall (c_nets C) root)] ++ firstn 2 (epilog [] rej0))); [|exact ND]. unfold dry_code, drej. asn. reflexivity. Qed.
Lemma dat_machine m : m < length (c_nets C) -> exists X Y, P = X ++ IBind (lmach m) :: dry_nodes C m 0 (snd (net_of C m)) ++ Y.
Proof.
  intros Hm. destruct (dmachines_split C (c_nets C) 0 m Hm) as (X & Y & E). cbn [Nat.add] in E. unfold dry_code. rewrite E.
  exists (prolog ++ [ILoadS INPUT 4; ICall (lcall (c_nets C) root)] ++ epilog [] rej0 ++ X), Y. asn. reflexivity.
Qed.
Lemma dat_node m i : m < length (c_nets C) -> i < length (snd (net_of C m)) -> exists X Y,
  P = X ++ IBind (lnode m i) :: dry_node C m i (node_of C m i) ++ Y.
Proof.
  intros Hm Hi. destruct (dat_machine m Hm) as (X & Y & E). destruct (dnodes_split C m (snd (net_of C m)) 0 i Hi) as (Z & W & F). cbn [Nat.add] in F. rewrite F in E.
  exists (X ++ IBind (lmach m) :: Z), (W ++ Y). rewrite E. clear E F. asn. reflexivity.
Qed.
Lemma dfind_node m i : m < length (c_nets C) -> i < length (snd (net_of C m)) -> exists Y, find_lab P (lnode m i) = Some (dry_node C m i (node_of C m i) ++ Y).
Proof. intros Hm Hi. destruct (dat_node m i Hm Hi) as (X & Y & E). exists Y. exact (find_at' P X _ _ E ND). Qed.
Lemma dfind_mach m : m < length (c_nets C) -> exists Y, find_lab P (lmach m) = Some (dry_nodes C m 0 (snd (net_of C m)) ++ Y).
Proof. intros Hm. destruct (dat_machine m Hm) as (X & Y & E). exists Y. apply (find_at' P X); [exact E|exact ND]. Qed.

(** Between instructions of the parser. *)
Definition DJ (s : st) (n : nat) : Prop := rg s RSI = (a + N.of_nat n)%N /\ n <= length u.
Lemma dry_sym_run X m i t k s n : P = X ++ emit_sym C m i t ++ k -> (forall id, t <> NInv id) ->
  (forall l, t = NLit l -> (forall c, In c l -> (c <> 0 /\ c < 256)%N) /\ (8 <= length l -> 15 <= length pad)) ->
  (forall A, t = NReg A -> codable (c_dfa C A) /\ ((exists q, self_loop (c_dfa C A) q) -> 15 <= length pad)) ->
  pc s = emit_sym C m i t ++ k -> DJ s n ->
  exists s', star P e s s' /\ frame s s' /\ match term_step C u n t with Some n1 => pc s' = k /\ DJ s' n1 | None => pc s' = drej end.
Proof.
  intros EP HI HL HRg HPC [HA Hn]. pose proof (text_from e a u pad HT n Hn) as TX. pose proof dfind_rej as FR.
  pose proof (fun n1 => dterm_le C u n t n1 Hn) as LE.
  destruct t as [|id|l|A|]; cbn [emit_sym term_step] in *.
  - exists s. split; [apply star_refl|]. split; [apply frame_refl|]. split; [exact HPC|]. split; assumption.
  - destruct (HI id eq_refl).
  - destruct (HL l eq_refl) as [L1 L2].
    destruct (match_code_run P e rej0 drej (c_junk C m i) l (skipn n u) pad _ s k FR L1 TX L2 HPC HA) as (s' & S & F & K).
    exists s'. split; [exact S|]. split; [exact F|]. destruct (prefixb l (skipn n u)); [|exact K]. destruct K as [K1 K2]. split; [exact K1|].
    split; [rewrite K2; lia|]. apply (LE (n + length l)); reflexivity.
  - destruct (HRg A eq_refl) as [R1 R2].
    destruct (dfa_code_run P e X k [8; m; i] rej0 (c_dfa C A) drej ND EP R1 FR (skipn n u) pad _ s R2 TX (skip_nz u HU n) ltac:(lia) HPC HA) as (s' & S & F & K).
    exists s'. split; [exact S|]. split; [exact F|]. destruct (longest (c_dfa C A) 0 (skipn n u)) as [j|]; cbn [option_map] in *; [|exact K]. destruct K as [K1 K2]. split; [exact K1|].
    split; [rewrite K2; lia|]. apply (LE (n + j)); reflexivity.
  - destruct (skip_code_run P e ND [10; m; i] X k EP (skipn n u) pad _ s TX HPC HA) as (s' & S & F & K1 & K2).
    exists s'. split; [exact S|]. split; [exact F|]. split; [exact K1|]. split; [rewrite K2; lia|]. apply (LE (n + ws_len (skipn n u))); reflexivity.
Qed.

(** What a call does, up to its return to [k]: no word is stored. *)
Definition dres (s : st) (k : code) (q : list slot) (f : nat) (r : pres) : Prop :=
  match r with
  | POk n' _ => exists s', star P e s s' /\ pc s' = k /\ stk s' = q /\ sav s' = sav s /\ out s' = out s /\ DJ s' n'
  | PRej _ => exists s', star P e s s' /\ pc s' = drej /\ sav s' = sav s /\ out s' = out s
  | PFuel => exists N s', f <= N /\ steps P e N s s'
  | PWild => True
  end.
Lemma dres_pre s k q f ws r : dres s k q f (pre ws r) <-> dres s k q f r.
Proof. destruct r; reflexivity. Qed.
Lemma dres_star s s1 k q f r : star P e s s1 -> sav s1 = sav s -> out s1 = out s -> dres s1 k q f r -> dres s k q f r.
Proof.
  intros S SV SO H. destruct r as [n' v|v| |]; cbn [dres] in *.
  - destruct H as (s' & S' & K1 & K2 & K3 & K4 & K5). exists s'. split; [eapply star_trans; eauto|]. split; [exact K1|]. split; [exact K2|]. split; [congruence|]. split; [congruence|exact K5].
  - destruct H as (s' & S' & K1 & K2 & K3). exists s'. split; [eapply star_trans; eauto|]. split; [exact K1|]. split; congruence.
  - exact I.
  - destruct H as (N0 & s' & L & S'). destruct (star_steps_app _ _ _ _ _ _ S S') as (k0 & L' & S''). exists k0, s'. split; [lia|exact S''].
Qed.
Lemma dres_step s s1 k q f r : step P e s = Next s1 -> sav s1 = sav s -> out s1 = out s -> dres s1 k q f r -> dres s k q (S f) r.
Proof.
  intros S E O H. assert (G := dres_star s s1 k q f r (star_one _ _ _ _ S) E O H). destruct r; try exact G. cbn [dres] in *.
  destruct H as (N0 & s' & L & S'). exists (Datatypes.S N0), s'. split; [lia|]. econstructor; eauto.
Qed.

Section Step.
Variable f : nat.
Hypothesis IHf : forall m i n s k q, m < length (c_nets C) -> i < length (snd (net_of C m)) ->
  find_lab P (lnode m i) = Some (pc s) -> DJ s n -> stk s = SRet k :: q -> dres s k q f (run_node C u f m i n).
Lemma dmachine_sim m n s k q : m < length (c_nets C) -> find_lab P (lmach m) = Some (pc s) -> DJ s n -> stk s = SRet k :: q ->
  dres s k q f (run_node C u f m 0 n).
Proof.
  intros Hm HF HJ HS. destruct (dat_machine m Hm) as (X & Y & EP). rewrite (find_at' P X _ _ EP ND) in HF. injection HF as HPC. symmetry in HPC.
  pose proof (dnet_ne C pad m HG Hm) as N0. assert (NE : exists Z, dry_nodes C m 0 (snd (net_of C m)) ++ Y = IBind (lnode m 0) :: Z).
  { destruct (snd (net_of C m)) as [|n0 M0]; [cbn in N0; lia|]. cbn [dry_nodes app]. eauto. }
  destruct NE as [Z EZ]. rewrite EZ in HPC, EP.
  assert (EZ' : find_lab P (lnode m 0) = Some Z). { apply (find_at' P (X ++ [IBind (lmach m)])); [|exact ND]. rewrite EP at 1. asn. reflexivity. }
  destruct s as [pc1 rg1 fl1 xl1 xp1 stk1 sav1 out1 ob1]. cbn [pc stk] in *. subst pc1.
  eapply dres_star; [x1 idtac; apply star_refl|reflexivity|reflexivity|]. apply IHf; [exact Hm|exact N0|exact EZ'|exact HJ|exact HS].
Qed.
Lemma dnext_sim X m i n1 s k q Y : m < length (c_nets C) -> i < length (snd (net_of C m)) ->
  P = X ++ dry_next C m i (atrs (node_of C m i)) ++ Y -> pc s = dry_next C m i (atrs (node_of C m i)) ++ Y ->
  DJ s n1 -> stk s = SRet k :: q -> dres s k q (S f) (next_res C u f m i n1).
Proof.
  intros Hm Hi EP HPC HJ HS. destruct (node_facts C pad HG m i Hm Hi) as (ND0 & _ & _ & NL). unfold next_res. destruct HJ as [HA Hn].
  destruct (atrs (node_of C m i)) as [|t [|t' ts]] eqn:ET.
  - cbn [dry_next app] in *. destruct s as [pc1 rg1 fl1 xl1 xp1 stk1 sav1 out1 ob1]. cbn [pc stk sav] in *. subst pc1 stk1.
    eexists. split; [x1 idtac; apply star_refl|]. cbn [pc stk sav out]. repeat (split; [reflexivity|]). split; assumption.
  - cbn [dry_next app] in *. assert (D : fst t < length (snd (net_of C m))) by (apply ND0; left; reflexivity). destruct (dfind_node m (fst t) Hm D) as [Z FN].
    destruct s as [pc0 rg0 fl0 xl0 xp0 stk0 sav0 out0 ob0]. cbn [pc stk sav] in *. subst pc0.
    eapply dres_step; [eapply st_jmp; exact FN|reflexivity|reflexivity|]. apply IHf; [exact Hm|exact D|exact FN|split; assumption|exact HS].
  - assert (LC := NL ltac:(cbn; lia)).
    assert (EX : forall l, In l (map (fun t => lnode m (fst t)) (t :: t' :: ts)) -> find_lab P l <> None).
    { intros l Hl. apply in_map_iff in Hl as (t0 & <- & Ht). destruct (dfind_node m (fst t0) Hm (ND0 _ Ht)) as [Z FN]. rewrite FN. discriminate. }
    assert (TX : text_at (mem e) (a + N.of_nat n1) (skipn n1 u ++ [0%N])).
    { pose proof (text_from e a u pad HT n1 Hn) as TX. change (0%N :: pad) with ([0%N] ++ pad) in TX. rewrite app_assoc in TX. exact (text_pre _ _ _ _ TX). }
    assert (LC' : lcodable (c_look C m i) (length (map (fun t => lnode m (fst t)) (t :: t' :: ts)))) by (rewrite map_length; exact LC).
    destruct (ldfa_go (c_look C m i) 0 (skipn n1 u ++ [0%N])) as [j| |] eqn:G; [| |exact I]; cbn [dry_next] in *.
    + destruct (ldfa_code_run1 P e ND [9; m; i] rej0 drej (map (fun t => lnode m (fst t)) (t :: t' :: ts)) (c_look C m i) X Y dfind_rej EP) with (w := skipn n1 u ++ [0%N]) (a := (a + N.of_nat n1)%N) (st0 := s) as (s1 & s2 & S1 & S2 & F2 & I2 & R2); try assumption.
      { rewrite G. discriminate. }
      rewrite G in R2. pose proof (ldfa_exit_lt _ _ LC _ _ _ G) as LJ.
      assert (NTH : nth j (map (fun t0 : nat * nat => lnode m (fst t0)) (t :: t' :: ts)) [] = lnode m (fst (nth j (t :: t' :: ts) (0, 0)))).
      { rewrite (nth_indep _ _ (lnode m (fst (0, 0)))) by (rewrite map_length; exact LJ). apply (map_nth (fun t0 : nat * nat => lnode m (fst t0))). }
      rewrite NTH in R2. destruct F2 as (_ & _ & _ & _ & F5 & F6 & F7 & _).
      assert (R : dres s2 k q f (run_node C u f m (fst (nth j (t :: t' :: ts) (0, 0))) n1)).
      { apply IHf; [exact Hm|apply ND0, nth_In; exact LJ|exact R2|split; assumption|congruence]. }
      assert (G2 : dres s k q f (run_node C u f m (fst (nth j (t :: t' :: ts) (0, 0))) n1)) by (apply (dres_star s s2); [eapply star_step; [exact S1|exact S2]|exact F6|exact F7|exact R]).
      destruct (run_node C u f m (fst (nth j (t :: t' :: ts) (0, 0))) n1); try exact G2. cbn [dres] in R |- *. destruct R as (N0 & s3 & L & S3). destruct (star_steps_app _ _ _ _ _ _ S2 S3) as (k0 & L0 & S4).
      exists (S k0), s3. split; [lia|]. econstructor; eauto.
    + destruct (ldfa_code_run P e ND [9; m; i] rej0 drej (map (fun t => lnode m (fst t)) (t :: t' :: ts)) (c_look C m i) X Y dfind_rej EP) with (w := skipn n1 u ++ [0%N]) (a := (a + N.of_nat n1)%N) (st0 := s) as (s2 & S2 & F2 & I2 & R2); try assumption.
      { rewrite G. discriminate. }
      rewrite G in R2. destruct F2 as (_ & _ & _ & _ & _ & F6 & F7 & _). exists s2. auto.
Qed.
End Step.
Theorem dnode_sim : forall f m i n s k q, m < length (c_nets C) -> i < length (snd (net_of C m)) ->
  find_lab P (lnode m i) = Some (pc s) -> DJ s n -> stk s = SRet k :: q -> dres s k q f (run_node C u f m i n).
Proof.
  induction f as [|f IH]; intros m i n s k q Hm Hi HF HJ HS.
  { exists 0, s. split; [lia|constructor]. }
  rewrite run_node_S. destruct (dat_node m i Hm Hi) as (X & Y & EP).
  assert (HPC : pc s = dry_node C m i (node_of C m i) ++ Y). { rewrite (find_at' P X _ _ EP ND) in HF. congruence. }
  unfold dry_node in EP, HPC. rewrite <- app_assoc in EP, HPC.
  destruct (node_facts C pad HG m i Hm Hi) as (_ & NLit0 & NReg0 & _).
  assert (EP2 : P = (X ++ IBind (lnode m i) :: emit_sym C m i (nt (node_of C m i))) ++ dry_next C m i (atrs (node_of C m i)) ++ Y) by (rewrite EP at 1; asn; reflexivity).
  assert (TERM : (forall id, nt (node_of C m i) <> NInv id) -> dres s k q (S f) (match term_step C u n (nt (node_of C m i)) with Some n1 => next_res C u f m i n1 | None => PRej [] end)).
  { intros NI. assert (EP1 : P = (X ++ [IBind (lnode m i)]) ++ emit_sym C m i (nt (node_of C m i)) ++ dry_next C m i (atrs (node_of C m i)) ++ Y) by (rewrite EP at 1; asn; reflexivity).
    destruct (dry_sym_run _ m i _ _ s n EP1 NI NLit0 NReg0 HPC HJ) as (s1 & S1 & F1 & R1). destruct F1 as (_ & _ & _ & _ & F5 & F6 & F7 & _).
    destruct (term_step C u n (nt (node_of C m i))) as [n1|].
    - destruct R1 as [P1 J1]. apply (dres_star s s1); [exact S1|exact F6|exact F7|]. apply (dnext_sim f IH _ m i n1 s1 k q Y Hm Hi EP2 P1 J1). congruence.
    - exists s1. auto. }
  destruct (nt (node_of C m i)) as [|id|l|A|] eqn:ENT; try (apply TERM; discriminate).
  clear TERM. destruct (net_index (c_nets C) id) as [m'|] eqn:EI; [|exact I].
  pose proof (net_index_lt _ _ _ EI) as Hm'. destruct (dfind_mach m' Hm') as [Y' FM].
  cbn [emit_sym app] in HPC, EP2. unfold lcall in HPC, EP2. rewrite EI in HPC, EP2.
  set (kn := dry_next C m i (atrs (node_of C m i)) ++ Y) in *.
  destruct s as [pc0 rg0 fl0 xl0 xp0 stk0 sav0 out0 ob0]. cbn [pc stk] in *. subst pc0.
  set (s1 := mkS (dry_nodes C m' 0 (snd (net_of C m')) ++ Y') rg0 fl0 xl0 xp0 (SRet kn :: stk0) sav0 out0 ob0).
  assert (S1 : step P e (mkS (ICall (lmach m') :: kn) rg0 fl0 xl0 xp0 stk0 sav0 out0 ob0) = Next s1) by (apply st_call; exact FM).
  pose proof (dmachine_sim f IH m' n s1 kn stk0 Hm' FM HJ eq_refl) as R.
  destruct (run_node C u f m' 0 n) as [n1 ws|ws| |] eqn:ER; cbn [pre].
  - destruct R as (s2 & S2 & P2 & K2 & V2 & O2 & J2).
    apply dres_pre. apply (dres_star _ s2); [eapply star_step; [exact S1|exact S2]|exact V2|exact O2|].
    apply (dnext_sim f IH (X ++ [IBind (lnode m i); ICall (lmach m')]) m i n1 s2 k q Y Hm Hi); [|exact P2|exact J2|congruence].
    rewrite EP2 at 1. unfold kn. asn. reflexivity.
  - destruct R as (s2 & S2 & P2 & V2 & O2). exists s2. split; [eapply star_step; [exact S1|exact S2]|]. auto.
  - exact I.
  - destruct R as (N0 & s2 & L & S2). exists (S N0), s2. split; [lia|]. econstructor; eauto.
Qed.

(** A call of the parser, DryParserEM64T::operator() (CodeGenEM64T.hpp:104-109): the input only. *)
Definition dry_start (r : reg -> N) (x p : list N) (sv q : list slot) (o : wstate) (b : N) : st := mkS P r None x p (SRet [] :: q) sv o b.
Theorem dry_run r x p sv q o b m : net_index (c_nets C) root = Some m -> r RDI = a ->
  forall f, match run_machine C u f m 0 with
  | POk n _ => exists s, star P e (dry_start r x p sv q o b) s /\ pc s = [] /\ rg s RAX = (a + N.of_nat n)%N /\ out s = o /\
                  (forall i, i <> RAX -> rg s i = r i) /\ stk s = q /\ sav s = sv /\ n <= length u
  | PRej _ => exists s, star P e (dry_start r x p sv q o b) s /\ pc s = [] /\ rg s RAX = 0%N /\ out s = o /\
                  (forall i, i <> RAX -> rg s i = r i) /\ stk s = q /\ sav s = sv
  | PFuel => exists N s, f <= N /\ steps P e N (dry_start r x p sv q o b) s
  | PWild => True
  end.
Proof.
  intros HM R1 f. pose proof (net_index_lt _ _ _ HM) as Hm.
  set (k0 := [SVal (r RBX); SVal (r RCX); SVal (r RDX); SVal (r RSI); SVal (r RDI); SVal (r RBP); SVal (r R8); SSav sv; SRet []] ++ q).
  set (kc := epilog [] rej0 ++ dry_machines C 0 (c_nets C)).
  destruct (dfind_mach m Hm) as [Y FM]. set (km := dry_nodes C m 0 (snd (net_of C m)) ++ Y) in *.
  set (s1 := mkS km (setr RSI (r RDI) r) None x p (SRet kc :: k0) k0 o b).
  assert (S1 : star P e (dry_start r x p sv q o b) s1).
  { unfold dry_start. unfold dry_code at 2. cbn [prolog app]. do 9 (x1 idtac). x1 ltac:(reflexivity).
    unfold lcall. rewrite HM. x1 ltac:(exact FM). apply star_refl. }
  assert (J1 : DJ s1 0) by (split; [change (r RDI = (a + N.of_nat 0)%N); rewrite R1; cbn; lia|lia]).
  assert (FA : find_lab P [3] = Some (skipn 6 (epilog [] rej0) ++ dry_machines C 0 (c_nets C))).
  { apply (find_at' P (prolog ++ [ILoadS INPUT 4; ICall (lcall (c_nets C) root)] ++ firstn 5 (epilog [] rej0))); [|exact ND]. unfold dry_code. asn. reflexivity. }
  pose proof (dmachine_sim f (dnode_sim f) m 0 s1 kc k0 Hm FM J1 eq_refl) as R. apply <- (dres_pre s1 kc k0 f [start_word (fst (net_of C m)) (N.of_nat 0)]) in R. fold (run_machine C u f m 0) in R.
  destruct (run_machine C u f m 0) as [n ws|ws| |]; cbn [dres] in R.
  - destruct R as (s2 & S2 & P2 & K2 & V2 & O2 & I2 & N2). change (sav s1) with k0 in V2. change (out s1) with o in O2.
    destruct s2 as [pc2 rg2 fl2 xl2 xp2 stk2 sav2 out2 ob2]. cbn [pc stk sav rg out] in *. subst pc2 stk2 sav2 out2.
    eexists. split.
    { eapply star_trans; [exact S1|]. eapply star_trans; [exact S2|]. unfold kc, epilog. cbn [app]. x1 idtac. x1 ltac:(exact FA). unfold epilog. cbn [skipn app]. unfold k0. cbn [app]. do 9 (x1 idtac). apply star_refl. }
    cbn [pc rg stk sav out]. split; [reflexivity|]. split; [exact I2|]. split; [reflexivity|]. split; [|auto]. intros i Hi. destruct i; try reflexivity. congruence.
  - destruct R as (s2 & S2 & P2 & V2 & O2). change (sav s1) with k0 in V2. change (out s1) with o in O2. destruct s2 as [pc2 rg2 fl2 xl2 xp2 stk2 sav2 out2 ob2]. cbn [pc stk sav rg out] in *. subst pc2 sav2 out2.
    eexists. split.
    { eapply star_trans; [exact S1|]. eapply star_trans; [exact S2|]. unfold drej, epilog. cbn [skipn app]. x1 idtac. x1 idtac. x1 idtac. unfold k0. cbn [app]. do 9 (x1 idtac). apply star_refl. }
    cbn [pc rg stk sav out]. split; [reflexivity|]. split; [reflexivity|]. split; [reflexivity|]. split; [|auto]. intros i Hi. destruct i; try reflexivity. congruence.
  - exact I.
  - destruct R as (N0 & s2 & L & S2). destruct (star_steps_app _ _ _ _ _ _ S1 S2) as (k1 & L1 & S3). exists k1, s2. split; [lia|exact S3].
Qed.
End Sim.
