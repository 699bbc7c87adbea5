(** * Model of the chaser (src/core/CodeGenEM64T.cpp, ChaserEM64T; TCHAR = char, Linux) *)
From Coq Require Import List NArith ZArith Arith Bool Lia ZifyBool ZifyN ZifyNat.
From Verif Require Import CharClass CharClassSpec NFA DFA DFAProofs DFAMin Marker Reduction Writer WriterProofs X86 X86Step CodeGen CodeGenProofs CodeGenSimd CodeGenDfa CodeGenMisc CodeGenRoutine ATN Grammar ParserGen ParserRun ParserSim DryParser.
Import ListNotations.
Local Open Scope nat_scope.

(** CodeGenCommonEM64T.hpp:69. *)
Notation CHECKPOINT := RDI.
(** A chaser has one function per rule; rejectlabel and finishlabel are per rule (CodeGenEM64T.cpp:42, 224). *)
Definition crej (m : nat) : label := [18; m].
Definition cfin (m : nat) : label := [19; m].

Section Emit.
Variable C : compiled.
(** node.get_id(): the number in braces after a terminal (ATN.cpp:49-72), -1 without one.  The grammar
    model drops these numbers; here they are arbitrary. *)
Variable lid : nat -> nat -> Z.
(** Lines 237-247, 251-261, with call_abs (CodeGenUtilsEM64T.hpp:72-96): the arguments are pushed last first and popped
    into rdi, rsi, rdx, rcx. *)
Definition emit_term_call (z : Z) : code :=
  if (0 <=? z)%Z then
    [IPush INPUT; IPush CONTEXT; IPushSP;
     IPush INPUT; IPush CHECKPOINT; IPushI (Z.to_N z); IPush CONTEXT; IPop RDI; IPop RSI; IPop RDX; IPop RCX; ICallBack false;
     IPopSP; IPop CONTEXT; IPop INPUT]
  else [].
(** Lines 265-271.  grammar.get_machine_id throws for an unknown rule: then no code is made; here [ICallBack] of rule 0. *)
Definition rule_number (name : list N) : N := match net_index (c_nets C) name with Some m => fst (net_of C m) | None => 0%N end.
Definition emit_nonterm_call (id : N) : code :=
  [IPush CONTEXT; IPushSP; IPush INPUT; IPushI id; IPush CONTEXT; IPop RDI; IPop RSI; IPop RDX; ICallBack true; IPopSP; IPop CONTEXT; IMov INPUT RAX].
(** Lines 231-273. *)
Definition chase_sym (m i : nat) (n : nty) : code :=
  match n with
  | NBlank => []
  | NLit s => IMov CHECKPOINT INPUT :: emit_match (crej m) (c_junk C m i) s ++ emit_term_call (lid m i)
  | NInv name => emit_nonterm_call (rule_number name)
  | NReg A => IMov CHECKPOINT INPUT :: emit_dfa [8; m; i] (crej m) (c_dfa C A) ++ emit_term_call (lid m i)
  | NWs => emit_skip [10; m; i]
  end.
(** Lines 275-294. *)
Definition chase_next (m i : nat) (ts : list (nat * nat)) : code :=
  match ts with
  | [] => [IJmp (cfin m)]
  | [t] => [IJmp (lnode m (fst t))]
  | _ => emit_ldfa [9; m; i] (crej m) (map (fun t => lnode m (fst t)) ts) (c_look C m i)
  end.
Definition chase_node (m i : nat) (n : anode) : code := chase_sym m i (nt n) ++ chase_next m i (atrs n).
(** ChaserEM64T::emit_machine: lines 211-297. *)
Fixpoint chase_nodes (m i : nat) (M : atn) : code :=
  match M with
  | [] => []
  | n :: M' => IBind (lnode m i) :: chase_node m i n ++ chase_nodes m (S i) M'
  end.
(** ChaserEM64T::init: lines 39-54.  PATTERN_REG, loaded in line 49, is used by no emitted instruction
    (SkipRoutineEM64T::emit uses it in a comment only); the load is left out. *)
Definition chase_machine (m : nat) (M : atn) : code :=
  prolog ++ [ILoadS CONTEXT 4; ILoadS INPUT 3] ++ chase_nodes m 0 M ++ [IBind (cfin m)] ++ epilog [m] (crej m).
Fixpoint chase_machines (m : nat) (nets : list (list N * (N * atn))) : code :=
  match nets with
  | [] => []
  | p :: nets' => IBind (lmach m) :: chase_machine m (snd (snd p)) ++ chase_machines (S m) nets'
  end.
Definition chaser_code : code := chase_machines 0 (c_nets C).
End Emit.

(** ** The machine with a listener *)
(** What the listener is told: terminal_callback(id, start, end) and nonterminal_callback(id, input) (BaseListener.hpp:11-12). *)
Inductive event := Terminal (id start stop : N) | Nonterminal (id input : N).
(** A listener: the object, what nonterminal_callback returns, and what the callbacks leave in the caller-saved registers; all may
    depend on everything that was reported before (last: this call). *)
Record listener := mkL { l_self : N; l_answer : list event -> N; l_clob : list event -> reg -> N }.
Definition cst : Type := st * list event.
Inductive cres := CNext (c : cst) | CStop (c : cst) | CFault.
Section Machine.
Variables (P : code) (e : env) (L : listener).
(** push_terminal and request_nonterminal: CodeGenEM64T.cpp:298-312 call the virtual functions of the object in rdi with rsi, rdx, rcx. *)
Definition cstep (c : cst) : cres :=
  let (s, h) := c in
  match pc s with
  | ICallBack b :: k =>
    let r := rg s in
    if (r RDI =? l_self L)%N then
      let h' := h ++ [if b then Nonterminal (r RSI) (r RDX) else Terminal (r RSI) (r RDX) (r RCX)] in
      let g := l_clob L h' in
      CNext (mkS k (fun x => match x with RBX => r RBX | RBP => r RBP | RAX => if b then l_answer L h' else g RAX | _ => g x end)
               None [] [] (stk s) [] (out s) (obase s), h')
    else CFault
  | _ => match step P e s with Next s' => CNext (s', h) | Stop s' => CStop (s', h) | Fault => CFault end
  end.
Inductive cstar : cst -> cst -> Prop :=
| cstar_refl c : cstar c c
| cstar_step c c1 c2 : cstep c = CNext c1 -> cstar c1 c2 -> cstar c c2.
Inductive csteps : nat -> cst -> cst -> Prop :=
| csteps_O c : csteps 0 c c
| csteps_S n c c1 c2 : cstep c = CNext c1 -> csteps n c1 c2 -> csteps (S n) c c2.
Lemma cstar_trans a b c : cstar a b -> cstar b c -> cstar a c.
Proof. induction 1; intros; [assumption|]. econstructor; eauto. Qed.
Lemma cstep_step s s' h : step P e s = Next s' -> cstep (s, h) = CNext (s', h).
Proof. intros H. unfold cstep. destruct (pc s) as [|i k] eqn:E; [rewrite H; reflexivity|]. destruct i; try (rewrite H; reflexivity). unfold step in H. rewrite E in H. discriminate. Qed.
Lemma cstar_star s s' h : star P e s s' -> cstar (s, h) (s', h).
Proof. induction 1; [constructor|]. econstructor; [apply cstep_step; eassumption|eassumption]. Qed.
Lemma cstar_steps a b : cstar a b -> exists n, csteps n a b.
Proof. induction 1 as [|? ? ? ? _ [n IH]]; [exists 0; constructor|exists (S n); econstructor; eauto]. Qed.
Lemma csteps_app n a b : csteps n a b -> forall k c, csteps k b c -> csteps (n + k) a c.
Proof. induction 1; intros k c' K; [exact K|]. cbn. econstructor; eauto. Qed.
Lemma cstar_steps_app a b n c : cstar a b -> csteps n b c -> exists k, n <= k /\ csteps k a c.
Proof. intros H K. destruct (cstar_steps _ _ H) as [k Hk]. exists (k + n). split; [lia|]. eapply csteps_app; eauto. Qed.
Lemma csteps_det n a b : csteps n a b -> forall c, csteps n a c -> b = c.
Proof. induction 1 as [|n a a1 b E _ IH]; intros d H; inversion H as [|? ? a2 ? E2 H2]; subst; [reflexivity|]. rewrite E in E2. injection E2 as <-. auto. Qed.
Lemma csteps_split n a b : csteps n a b -> forall k, k <= n -> exists c, csteps k a c /\ csteps (n - k) c b.
Proof.
  induction 1 as [c|n a a1 b E H IH]; intros k Hk; [exists c; assert (k = 0) as -> by lia; split; constructor|]. destruct k as [|k]; [exists a; split; [constructor|econstructor; eauto]|].
  destruct (IH k ltac:(lia)) as (c & K1 & K2). exists c. split; [econstructor; eauto|exact K2].
Qed.
Lemma cfinal c : pc (fst c) = [] -> forall c', cstep c <> CNext c'.
Proof. destruct c as [s h]. cbn [fst]. intros E c'. unfold cstep. rewrite E. unfold step. rewrite E. discriminate. Qed.
Lemma cfinal_steps n a b : csteps n a b -> pc (fst b) = [] -> forall k c, csteps k a c -> k <= n.
Proof.
  intros H F k c K. destruct (Nat.le_gt_cases k n) as [L0|G]; [exact L0|exfalso]. destruct (csteps_split _ _ _ K n ltac:(lia)) as (d & D1 & D2). rewrite <- (csteps_det _ _ _ H _ D1) in D2.
  destruct (k - n) as [|j] eqn:J; [lia|]. inversion D2 as [|? ? x ? E _]; subst. exact (cfinal b F _ E).
Qed.
Lemma cfinal_eq a b c : cstar a b -> cstar a c -> pc (fst b) = [] -> pc (fst c) = [] -> b = c.
Proof.
  intros H K F G. destruct (cstar_steps _ _ H) as [n Hn]. destruct (cstar_steps _ _ K) as [k Hk]. pose proof (cfinal_steps _ _ _ Hn F _ _ Hk). pose proof (cfinal_steps _ _ _ Hk G _ _ Hn). assert (n = k) by lia. subst. eapply csteps_det; eauto.
Qed.
End Machine.

(** ** Interpreter *)
(** One rule, started at offset n of the text u; the listener answers with an offset ([ans], None: an address outside the text).
    Positions in events are offsets. *)
Inductive chres := ChOk (n : nat) (h : list event) | ChRej (h : list event) | ChLost (h : list event) | ChWild | ChFuel.
Section Interp.
Variables (C : compiled) (lid : nat -> nat -> Z) (u : list N) (ans : list event -> option nat).
Definition reported (m i n n1 : nat) : list event :=
  match nt (node_of C m i) with
  | NLit _ | NReg _ => if (0 <=? lid m i)%Z then [Terminal (Z.to_N (lid m i)) (N.of_nat n) (N.of_nat n1)] else []
  | _ => []
  end.
Fixpoint chase (fuel : nat) (m i n : nat) (h : list event) : chres :=
  match fuel with
  | O => ChFuel
  | S f =>
    let next (n1 : nat) (h1 : list event) : chres :=
      match atrs (node_of C m i) with
      | [] => ChOk n1 h1
      | [t] => chase f m (fst t) n1 h1
      | ts => match ldfa_go (c_look C m i) 0 (skipn n1 u ++ [0%N]) with
              | LExit j => chase f m (fst (nth j ts (0, 0))) n1 h1
              | LReject => ChRej h1
              | LMore => ChWild
              end
      end in
    match nt (node_of C m i) with
    | NInv name =>
      match net_index (c_nets C) name with
      | None => ChWild
      | Some m' => let h1 := h ++ [Nonterminal (fst (net_of C m')) (N.of_nat n)] in
                   match ans h1 with Some n1 => next n1 h1 | None => ChLost h1 end
      end
    | s => match term_step C u n s with Some n1 => next n1 (h ++ reported m i n n1) | None => ChRej h end
    end
  end.
Definition chase_go (f m i n1 : nat) (h1 : list event) : chres :=
  match atrs (node_of C m i) with
  | [] => ChOk n1 h1
  | [t] => chase f m (fst t) n1 h1
  | ts => match ldfa_go (c_look C m i) 0 (skipn n1 u ++ [0%N]) with
          | LExit j => chase f m (fst (nth j ts (0, 0))) n1 h1
          | LReject => ChRej h1
          | LMore => ChWild
          end
  end.
Lemma chase_S f m i n h : chase (S f) m i n h =
  match nt (node_of C m i) with
  | NInv name =>
    match net_index (c_nets C) name with
    | None => ChWild
    | Some m' => match ans (h ++ [Nonterminal (fst (net_of C m')) (N.of_nat n)]) with Some n1 => chase_go f m i n1 (h ++ [Nonterminal (fst (net_of C m')) (N.of_nat n)]) | None => ChLost (h ++ [Nonterminal (fst (net_of C m')) (N.of_nat n)]) end
    end
  | s => match term_step C u n s with Some n1 => chase_go f m i n1 (h ++ reported m i n n1) | None => ChRej h end
  end.
Proof. reflexivity. Qed.
End Interp.
(** Addresses instead of offsets. *)
Definition at_addr (a : N) (x : event) : event :=
  match x with Terminal id s t => Terminal id (a + s)%N (a + t)%N | Nonterminal id s => Nonterminal id (a + s)%N end.

(** ** Labels *)
Lemma binds_cterm z : binds (emit_term_call z) = [].
Proof. unfold emit_term_call. destruct (0 <=? z)%Z; reflexivity. Qed.
Lemma binds_csym C lid m i n : (forall l, In l (binds (chase_sym C lid m i n)) -> node_label m i l /\ l <> lnode m i /\ forall k, l <> lstate [9; m; i] k) /\ NoDup (binds (chase_sym C lid m i n)).
Proof.
  destruct n as [|id|s|A|]; cbn [chase_sym binds].
  - split; [intros l []|constructor].
  - split; [intros l []|constructor].
  - rewrite binds_app, binds_match, binds_cterm. split; [intros l []|constructor].
  - rewrite binds_app, binds_cterm, app_nil_r. destruct (binds_dfa [8; m; i] (crej m) (c_dfa C A)) as [B1 B2]. split; [|exact B2]. intros l H. apply B1 in H. split; [right; left; exact H|].
    destruct H as [[k ->]|[(k & j & ->)| ->]]; split; try discriminate; intros; discriminate.
  - split; [|repeat constructor; intros []]. intros l [<-|[]]. split; [right; right; right; reflexivity|]. split; [discriminate|]. intros; discriminate.
Qed.
Lemma binds_cnext C m i ts : (forall l, In l (binds (chase_next C m i ts)) -> exists k, l = lstate [9; m; i] k) /\ NoDup (binds (chase_next C m i ts)).
Proof.
  destruct ts as [|t [|t' ts]]; cbn [chase_next].
  - split; [intros l []|constructor].
  - split; [intros l []|constructor].
  - unfold emit_ldfa. cbn [binds]. destruct (binds_lstates [9; m; i] (crej m) (map (fun t => lnode m (fst t)) (t :: t' :: ts)) (c_look C m i) 0) as [B1 B2]. split; [|exact B2].
    intros l H. destruct (B1 l H) as (k & _ & ->). eauto.
Qed.
Lemma binds_cnode C lid m i n : (forall l, In l (binds (chase_node C lid m i n)) -> node_label m i l /\ l <> lnode m i) /\ NoDup (binds (chase_node C lid m i n)).
Proof.
  unfold chase_node. rewrite binds_app. destruct (binds_csym C lid m i (nt n)) as [A1 A2]. destruct (binds_cnext C m i (atrs n)) as [B1 B2]. split.
  - intros l H. apply in_app_or in H as [H|H]; [destruct (A1 l H) as (? & ? & _); auto|]. destruct (B1 l H) as [k ->]. split; [right; right; left; eauto|discriminate].
  - apply NoDup_app_intro; [exact A2|exact B2|]. intros l H K. destruct (A1 l H) as (_ & _ & N0). destruct (B1 l K) as [k ->]. exact (N0 k eq_refl).
Qed.
Lemma binds_cnodes C lid m : forall M i, (forall l, In l (binds (chase_nodes C lid m i M)) -> exists k, i <= k /\ node_label m k l) /\ NoDup (binds (chase_nodes C lid m i M)).
Proof.
  induction M as [|n M IH]; intros i; cbn [chase_nodes binds]; [split; [intros l []|constructor]|].
  destruct (IH (S i)) as [I1 I2]. destruct (binds_cnode C lid m i n) as [N1 N2]. rewrite binds_app. split.
  - intros l [<-|H]; [exists i; split; [lia|left; reflexivity]|]. apply in_app_or in H as [H|H]; [exists i; split; [lia|apply N1; exact H]|]. destruct (I1 l H) as (k & L & K). exists k. split; [lia|exact K].
  - constructor.
    + intros H. apply in_app_or in H as [H|H]; [apply (proj2 (N1 _ H)); reflexivity|]. destruct (I1 _ H) as (k & L & K).
      destruct (node_label_key m i m k (lnode m i)) as [_ E]; [left; reflexivity|exact K|lia].
    + apply NoDup_app_intro; [exact N2|exact I2|]. intros l H K. destruct (I1 _ K) as (k & L & K'). destruct (node_label_key m i m k l (proj1 (N1 _ H)) K') as [_ E]. lia.
Qed.
Definition cmach_label (m : nat) (l : label) : Prop := (exists i, node_label m i l) \/ In l [lmach m; cfin m; crej m; [3; m]].
Lemma node_not_c m i l : node_label m i l -> forall k, ~ In l [lmach k; cfin k; crej k; [3; k]].
Proof. intros H k [<-|[<-|[<-|[<-|[]]]]]; destruct H as [H|[[[a H]|[(a & b & H)|H]]|[[a H]|H]]]; discriminate. Qed.
Lemma cmach_label_key m m' l : cmach_label m l -> cmach_label m' l -> m = m'.
Proof.
  intros [[i H]|H] [[i' K]|K].
  - apply (node_label_key _ _ _ _ _ H K).
  - destruct (node_not_c _ _ _ H _ K).
  - destruct (node_not_c _ _ _ K _ H).
  - destruct H as [<-|[<-|[<-|[<-|[]]]]], K as [K|[K|[K|[K|[]]]]]; try discriminate; injection K; auto.
Qed.
Lemma binds_cmachine C lid m M : (forall l, In l (binds (chase_machine C lid m M)) -> cmach_label m l /\ l <> lmach m) /\ NoDup (binds (chase_machine C lid m M)).
Proof.
  unfold chase_machine. rewrite !binds_app. cbn [binds prolog epilog app]. destruct (binds_cnodes C lid m M 0) as [N1 N2]. split.
  - intros l H. apply in_app_or in H as [H|H].
    + destruct (N1 l H) as (k & _ & K). split; [left; eauto|]. intros ->. apply (node_not_c _ _ _ K m). left. reflexivity.
    + split; [right; right; exact H|]. cbn in H. destruct H as [<-|[<-|[<-|[]]]]; discriminate.
  - apply NoDup_app_intro; [exact N2|repeat constructor; cbn; intuition discriminate|]. intros l H K. destruct (N1 l H) as (k & _ & Hk). apply (node_not_c _ _ _ Hk m). right. exact K.
Qed.
Lemma binds_cmachines C lid : forall nets m, (forall l, In l (binds (chase_machines C lid m nets)) -> exists k, m <= k /\ cmach_label k l) /\ NoDup (binds (chase_machines C lid m nets)).
Proof.
  induction nets as [|p nets IH]; intros m; cbn [chase_machines binds]; [split; [intros l []|constructor]|].
  destruct (IH (S m)) as [I1 I2]. destruct (binds_cmachine C lid m (snd (snd p))) as [N1 N2]. rewrite binds_app.
  split.
  - intros l [<-|H]; [exists m; split; [lia|right; left; reflexivity]|]. apply in_app_or in H as [H|H]; [exists m; split; [lia|apply N1; exact H]|]. destruct (I1 l H) as (k & L & K). exists k. split; [lia|exact K].
  - constructor.
    + intros H. apply in_app_or in H as [H|H]; [apply (proj2 (N1 _ H)); reflexivity|]. destruct (I1 _ H) as (k & L & K).
      assert (m = k) by (apply (cmach_label_key m k (lmach m)); [right; left; reflexivity|exact K]). lia.
    + apply NoDup_app_intro; [exact N2|exact I2|]. intros l H K. destruct (I1 _ K) as (k & L & K'). assert (m = k) by (apply (cmach_label_key m k l); [apply N1; exact H|exact K']). lia.
Qed.
Lemma chaser_nodup C lid : NoDup (binds (chaser_code C lid)).
Proof. apply binds_cmachines. Qed.
Lemma cnodes_split C lid m : forall M i k, k < length M -> exists A B,
  chase_nodes C lid m i M = A ++ IBind (lnode m (i + k)) :: chase_node C lid m (i + k) (nth k M blank) ++ B.
Proof.
  induction M as [|n M IH]; intros i k Hk; [cbn in Hk; lia|]. cbn [chase_nodes]. destruct k as [|k].
  - exists [], (chase_nodes C lid m (S i) M). rewrite Nat.add_0_r. reflexivity.
  - destruct (IH (S i) k) as (A & B & E); [cbn in Hk; lia|]. rewrite E. exists (IBind (lnode m i) :: chase_node C lid m i n ++ A), B.
    replace (i + S k) with (S i + k) by lia. cbn [app nth]. rewrite <- app_assoc. reflexivity.
Qed.
Lemma cmachines_split C lid : forall nets m k, k < length nets -> exists A B,
  chase_machines C lid m nets = A ++ IBind (lmach (m + k)) :: chase_machine C lid (m + k) (snd (snd (nth k nets ([], (0%N, []))))) ++ B.
Proof.
  induction nets as [|p nets IH]; intros m k Hk; [cbn in Hk; lia|]. cbn [chase_machines]. destruct k as [|k].
  - exists [], (chase_machines C lid (S m) nets). rewrite Nat.add_0_r. reflexivity.
  - destruct (IH (S m) k) as (A & B & E); [cbn in Hk; lia|]. rewrite E. exists (IBind (lmach m) :: chase_machine C lid m (snd (snd p)) ++ A), B.
    replace (m + S k) with (S m + k) by lia. cbn [app nth]. rewrite <- app_assoc. reflexivity.
Qed.

(** ** Simulation *)
Local Ltac asn := repeat first [rewrite <- app_assoc | progress (cbn [app])].
Section Sim.
Variables (C : compiled) (lid : nat -> nat -> Z) (e : env) (a : N) (u pad : list N) (L : listener) (ans : list event -> option nat).
Notation P := (chaser_code C lid).
Hypothesis HG : gen_ok C (length pad).
Hypothesis HT : text_at (mem e) a (u ++ 0%N :: pad).
Hypothesis Ha : (0 < a)%N.
Hypothesis HU : forall c, In c u -> (c <> 0)%N.
(** The listener's answers as offsets. *)
Hypothesis HA : forall h n, ans h = Some n -> l_answer L (map (at_addr a) h) = (a + N.of_nat n)%N /\ n <= length u.
Notation hmap := (map (at_addr a)).

Let ND : NoDup (binds P) := chaser_nodup C lid.
(** What stands behind the nodes of a rule. *)
Definition ctail (m : nat) : code := [IBind (cfin m)] ++ epilog [m] (crej m).
Lemma cat_machine m : m < length (c_nets C) -> exists X Y, P = X ++ IBind (lmach m) :: chase_machine C lid m (snd (net_of C m)) ++ Y.
Proof. intros Hm. destruct (cmachines_split C lid (c_nets C) 0 m Hm) as (X & Y & E). exists X, Y. exact E. Qed.
Lemma cat_nodes m : m < length (c_nets C) -> exists X Y, P = X ++ chase_nodes C lid m 0 (snd (net_of C m)) ++ ctail m ++ Y.
Proof.
  intros Hm. destruct (cat_machine m Hm) as (X & Y & E). exists (X ++ IBind (lmach m) :: prolog ++ [ILoadS CONTEXT 4; ILoadS INPUT 3]), Y. rewrite E. unfold chase_machine, ctail. asn. reflexivity.
Qed.
Lemma cat_node m i : m < length (c_nets C) -> i < length (snd (net_of C m)) -> exists X Y,
  P = X ++ IBind (lnode m i) :: chase_node C lid m i (node_of C m i) ++ Y.
Proof.
  intros Hm Hi. destruct (cat_nodes m Hm) as (X & Y & E). destruct (cnodes_split C lid m (snd (net_of C m)) 0 i Hi) as (Z & W & F). cbn [Nat.add] in F. rewrite F in E.
  exists (X ++ Z), (W ++ ctail m ++ Y). rewrite E. clear E F. asn. reflexivity.
Qed.
Lemma cfind_node m i : m < length (c_nets C) -> i < length (snd (net_of C m)) -> exists Y, find_lab P (lnode m i) = Some (chase_node C lid m i (node_of C m i) ++ Y).
Proof. intros Hm Hi. destruct (cat_node m i Hm Hi) as (X & Y & E). exists Y. exact (find_at' P X _ _ E ND). Qed.
Lemma cfind_tail m : m < length (c_nets C) -> exists Y,
  find_lab P (cfin m) = Some (epilog [m] (crej m) ++ Y) /\ find_lab P (crej m) = Some (skipn 3 (epilog [m] (crej m)) ++ Y) /\ find_lab P [3; m] = Some (skipn 6 (epilog [m] (crej m)) ++ Y).
Proof.
  intros Hm. destruct (cat_nodes m Hm) as (X & Y & E). set (Q := chase_nodes C lid m 0 (snd (net_of C m))) in *. exists Y. split; [|split].
  - apply (find_at' P (X ++ Q)); [|exact ND]. rewrite E at 1. unfold ctail. asn. reflexivity.
  - apply (find_at' P (X ++ Q ++ firstn 3 (ctail m))); [|exact ND]. rewrite E at 1. unfold ctail. asn. reflexivity.
  - apply (find_at' P (X ++ Q ++ firstn 6 (ctail m))); [|exact ND]. rewrite E at 1. unfold ctail. asn. reflexivity.
Qed.

(** Between the nodes of rule m: K is the frame the prologue made. *)
Definition CJ (K : list slot) (s : st) (n : nat) : Prop := rg s INPUT = (a + N.of_nat n)%N /\ rg s CONTEXT = l_self L /\ stk s = K /\ sav s = K /\ n <= length u.
Definition cfrom (m : nat) (K : list slot) (s : st) (h : list event) (f : nat) (r : chres) : Prop :=
  match r with
  | ChOk n' h' => exists s', cstar P e L (s, hmap h) (s', hmap h') /\ find_lab P (cfin m) = Some (pc s') /\ CJ K s' n' /\ out s' = out s
  | ChRej h' => exists s', cstar P e L (s, hmap h) (s', hmap h') /\ find_lab P (crej m) = Some (pc s') /\ sav s' = K /\ out s' = out s
  | ChFuel => exists N c, f <= N /\ csteps P e L N (s, hmap h) c
  | ChLost h' => exists s', cstar P e L (s, hmap h) (s', hmap h') /\ rg s' INPUT = l_answer L (hmap h')
  | ChWild => True
  end.
Lemma cfrom_star m K s s1 h h1 f r : cstar P e L (s, hmap h) (s1, hmap h1) -> out s1 = out s -> cfrom m K s1 h1 f r -> cfrom m K s h f r.
Proof.
  intros S O H. destruct r as [n' v|v|v| |]; cbn [cfrom] in *.
  - destruct H as (s' & S' & K1 & K2 & K3). exists s'. split; [eapply cstar_trans; eauto|]. split; [exact K1|]. split; [exact K2|congruence].
  - destruct H as (s' & S' & K1 & K2 & K3). exists s'. split; [eapply cstar_trans; eauto|]. split; [exact K1|]. split; [exact K2|congruence].
  - destruct H as (s' & S' & K1). exists s'. split; [eapply cstar_trans; eauto|exact K1].
  - exact I.
  - destruct H as (N0 & c & L0 & S'). destruct (cstar_steps_app _ _ _ _ _ _ _ S S') as (k0 & L' & S''). exists k0, c. split; [lia|exact S''].
Qed.
Lemma cfrom_step m K s s1 h f r : step P e s = Next s1 -> out s1 = out s -> cfrom m K s1 h f r -> cfrom m K s h (S f) r.
Proof.
  intros S O H. assert (G := cfrom_star m K s s1 h h f r (cstar_star _ _ _ _ _ _ (star_one _ _ _ _ S)) O H). destruct r; try exact G. cbn [cfrom] in *.
  destruct H as (N0 & c & L0 & S'). exists (Datatypes.S N0), c. split; [lia|]. econstructor; [apply cstep_step; eassumption|exact S'].
Qed.

(** The callback for a terminal. *)
Lemma term_call_run K m i n n1 s k h t : nt (node_of C m i) = t -> (exists l, t = NLit l) \/ (exists A, t = NReg A) ->
  pc s = emit_term_call (lid m i) ++ k -> CJ K s n1 -> rg s CHECKPOINT = (a + N.of_nat n)%N ->
  exists s', cstar P e L (s, hmap h) (s', hmap (h ++ reported C lid m i n n1)) /\ pc s' = k /\ CJ K s' n1 /\ out s' = out s.
Proof.
  intros ET HTm HPC (J1 & J2 & J3 & J4 & J5) HC. assert (RE : reported C lid m i n n1 = if (0 <=? lid m i)%Z then [Terminal (Z.to_N (lid m i)) (N.of_nat n) (N.of_nat n1)] else []).
  { unfold reported. rewrite ET. destruct HTm as [[l ->]|[A ->]]; reflexivity. }
  rewrite RE. clear RE. unfold emit_term_call in HPC. destruct (0 <=? lid m i)%Z.
  - destruct s as [pc0 rg0 fl0 xl0 xp0 stk0 sav0 out0 ob0]. cbn [pc rg stk sav out] in *. subst pc0 stk0 sav0. cbn [app].
    eexists. split.
    { eapply cstar_trans; [apply cstar_star; do 11 (x1 idtac); apply star_refl|]. eapply cstar_step.
      { unfold cstep. cbn [pc rg]. change (setr RCX _ _ RDI) with (rg0 R8). rewrite J2, N.eqb_refl. cbn [stk out obase].
        change (setr RCX (rg0 RSI) (setr RDX (rg0 RDI) (setr RSI (Z.to_N (lid m i)) (setr RDI (rg0 R8) rg0))) RCX) with (rg0 RSI).
        change (setr RCX (rg0 RSI) (setr RDX (rg0 RDI) (setr RSI (Z.to_N (lid m i)) (setr RDI (rg0 R8) rg0))) RDX) with (rg0 RDI).
        change (setr RCX (rg0 RSI) (setr RDX (rg0 RDI) (setr RSI (Z.to_N (lid m i)) (setr RDI (rg0 R8) rg0))) RSI) with (Z.to_N (lid m i)). rewrite J1, HC. reflexivity. }
      rewrite map_app. cbn [map at_addr].
      apply cstar_star. do 3 (x1 idtac). apply star_refl. }
    cbn [pc out]. split; [reflexivity|]. split; [|reflexivity]. repeat split; cbn [rg stk sav setr reg_eqb]; try assumption; reflexivity.
  - rewrite app_nil_r. exists s. split; [constructor|]. split; [exact HPC|]. repeat split; assumption.
Qed.
Lemma csym_run K X m i k s n h : m < length (c_nets C) -> i < length (snd (net_of C m)) ->
  P = X ++ chase_sym C lid m i (nt (node_of C m i)) ++ k -> (forall id, nt (node_of C m i) <> NInv id) ->
  pc s = chase_sym C lid m i (nt (node_of C m i)) ++ k -> CJ K s n ->
  exists s', match term_step C u n (nt (node_of C m i)) with
    | Some n1 => cstar P e L (s, hmap h) (s', hmap (h ++ reported C lid m i n n1)) /\ pc s' = k /\ CJ K s' n1 /\ out s' = out s
    | None => cstar P e L (s, hmap h) (s', hmap h) /\ find_lab P (crej m) = Some (pc s') /\ sav s' = K /\ out s' = out s end.
Proof.
  intros Hm Hi EP HI HPC HJ. pose proof HJ as (J1 & J2 & J3 & J4 & Hn). pose proof (text_from e a u pad HT n Hn) as TX. destruct (cfind_tail m Hm) as (Y & _ & FR & _).
  destruct (node_facts C pad HG m i Hm Hi) as (_ & HL & HRg & _).
  set (t := nt (node_of C m i)) in *. assert (ET : nt (node_of C m i) = t) by reflexivity.
  pose proof (fun n1 => dterm_le C u n t n1 Hn) as LE.
  assert (REP : (forall l, t <> NLit l) -> (forall A, t <> NReg A) -> forall n1, reported C lid m i n n1 = []) by (intros R1 R2 n1; unfold reported; rewrite ET; destruct t; try reflexivity; congruence).
  clearbody t. destruct t as [|id|l|A|]; cbn [chase_sym term_step] in *.
  - exists s. rewrite REP by discriminate. rewrite app_nil_r. split; [constructor|]. auto.
  - destruct (HI id eq_refl).
  - destruct (HL l eq_refl) as [L1 L2]. cbn [app] in HPC. rewrite <- app_assoc in HPC.
    destruct s as [pc0 rg0 fl0 xl0 xp0 stk0 sav0 out0 ob0]. cbn [pc rg stk sav out] in *. subst pc0.
    set (s1 := mkS (emit_match (crej m) (c_junk C m i) l ++ emit_term_call (lid m i) ++ k) (setr RDI (rg0 RSI) rg0) fl0 xl0 xp0 stk0 sav0 out0 ob0).
    destruct (match_code_run P e (crej m) _ (c_junk C m i) l (skipn n u) pad (a + N.of_nat n)%N s1 (emit_term_call (lid m i) ++ k) FR L1 TX L2 eq_refl J1) as (s' & S & F & R).
    destruct F as (F1 & F2 & F3 & F4 & F5 & F6 & F7 & F8). cbn [s1 rg stk sav out setr reg_eqb] in F2, F4, F5, F6, F7.
    assert (S0 : cstar P e L (mkS (IMov RDI RSI :: emit_match (crej m) (c_junk C m i) l ++ emit_term_call (lid m i) ++ k) rg0 fl0 xl0 xp0 stk0 sav0 out0 ob0, hmap h) (s', hmap h)) by (apply cstar_star; eapply star_step; [apply st_mov|exact S]).
    destruct (prefixb l (skipn n u)) eqn:EPX.
    + destruct R as [R1 R2]. specialize (LE (n + length l) eq_refl). destruct (term_call_run K m i n (n + length l) s' k h (NLit l) ET) as (s2 & T1 & T2 & T3 & T4); [left; eauto|exact R1|repeat split; [rewrite R2; lia|congruence|congruence|congruence|lia]|congruence|].
      exists s2. split; [eapply cstar_trans; eassumption|]. split; [exact T2|]. split; [exact T3|congruence].
    + exists s'. split; [exact S0|]. split; [congruence|]. split; congruence.
  - destruct (HRg A eq_refl) as [R1 R2]. cbn [app] in HPC. rewrite <- app_assoc in HPC.
    destruct s as [pc0 rg0 fl0 xl0 xp0 stk0 sav0 out0 ob0]. cbn [pc rg stk sav out] in *. subst pc0.
    set (s1 := mkS (emit_dfa [8; m; i] (crej m) (c_dfa C A) ++ emit_term_call (lid m i) ++ k) (setr RDI (rg0 RSI) rg0) fl0 xl0 xp0 stk0 sav0 out0 ob0).
    assert (EP1 : P = (X ++ [IMov RDI RSI]) ++ emit_dfa [8; m; i] (crej m) (c_dfa C A) ++ emit_term_call (lid m i) ++ k) by (rewrite EP at 1; asn; reflexivity).
    destruct (dfa_code_run P e (X ++ [IMov RDI RSI]) (emit_term_call (lid m i) ++ k) [8; m; i] (crej m) (c_dfa C A) _ ND EP1 R1 FR (skipn n u) pad (a + N.of_nat n)%N s1 R2 TX (skip_nz u HU n) ltac:(lia) eq_refl J1) as (s' & S & F & R).
    destruct F as (F1 & F2 & F3 & F4 & F5 & F6 & F7 & F8). cbn [s1 rg stk sav out setr reg_eqb] in F2, F4, F5, F6, F7.
    assert (S0 : cstar P e L (mkS (IMov RDI RSI :: emit_dfa [8; m; i] (crej m) (c_dfa C A) ++ emit_term_call (lid m i) ++ k) rg0 fl0 xl0 xp0 stk0 sav0 out0 ob0, hmap h) (s', hmap h)) by (apply cstar_star; eapply star_step; [apply st_mov|exact S]).
    destruct (longest (c_dfa C A) 0 (skipn n u)) as [j|] eqn:EPX; cbn [option_map] in *.
    + destruct R as [R3 R4]. specialize (LE (n + j) eq_refl). destruct (term_call_run K m i n (n + j) s' k h (NReg A) ET) as (s2 & T1 & T2 & T3 & T4); [right; eauto|exact R3|repeat split; [rewrite R4; lia|congruence|congruence|congruence|lia]|congruence|].
      exists s2. split; [eapply cstar_trans; eassumption|]. split; [exact T2|]. split; [exact T3|congruence].
    + exists s'. split; [exact S0|]. split; [congruence|]. split; congruence.
  - destruct (skip_code_run P e ND [10; m; i] X k EP (skipn n u) pad _ s TX HPC J1) as (s' & S & F & K1 & K2).
    destruct F as (F1 & F2 & F3 & F4 & F5 & F6 & F7 & F8). exists s'. rewrite REP by discriminate. rewrite app_nil_r. split; [apply cstar_star; exact S|]. split; [exact K1|].
    specialize (LE (n + ws_len (skipn n u)) eq_refl). split; [|exact F7]. repeat split; [rewrite K2; lia|congruence|congruence|congruence|lia].
Qed.

Section Step.
Variable f : nat.
Hypothesis IHf : forall K m i n s h, m < length (c_nets C) -> i < length (snd (net_of C m)) ->
  find_lab P (lnode m i) = Some (pc s) -> CJ K s n -> cfrom m K s h f (chase C lid u ans f m i n h).
Lemma cnext_sim K X m i n1 s h Y : m < length (c_nets C) -> i < length (snd (net_of C m)) ->
  P = X ++ chase_next C m i (atrs (node_of C m i)) ++ Y -> pc s = chase_next C m i (atrs (node_of C m i)) ++ Y ->
  CJ K s n1 -> cfrom m K s h (S f) (chase_go C lid u ans f m i n1 h).
Proof.
  intros Hm Hi EP HPC HJ. destruct (node_facts C pad HG m i Hm Hi) as (ND0 & _ & _ & NL). unfold chase_go. pose proof HJ as (J1 & J2 & J3 & J4 & Hn).
  destruct (cfind_tail m Hm) as (Z0 & FF & FR & _).
  destruct (atrs (node_of C m i)) as [|t [|t' ts]] eqn:ET.
  - cbn [chase_next app] in *. destruct s as [pc1 rg1 fl1 xl1 xp1 stk1 sav1 out1 ob1]. cbn [pc stk sav rg] in *. subst pc1.
    eexists. split; [apply cstar_star; eapply star_step; [eapply st_jmp; exact FF|apply star_refl]|]. cbn [pc stk sav out]. split; [exact FF|]. split; [|reflexivity]. repeat split; assumption.
  - cbn [chase_next app] in *. assert (D : fst t < length (snd (net_of C m))) by (apply ND0; left; reflexivity). destruct (cfind_node m (fst t) Hm D) as [Z FN].
    destruct s as [pc0 rg0 fl0 xl0 xp0 stk0 sav0 out0 ob0]. cbn [pc stk sav rg] in *. subst pc0.
    eapply cfrom_step; [eapply st_jmp; exact FN|reflexivity|]. apply IHf; [exact Hm|exact D|exact FN|repeat split; assumption].
  - assert (LC := NL ltac:(cbn; lia)).
    assert (EX : forall l, In l (map (fun t => lnode m (fst t)) (t :: t' :: ts)) -> find_lab P l <> None).
    { intros l Hl. apply in_map_iff in Hl as (t0 & <- & Ht). destruct (cfind_node m (fst t0) Hm (ND0 _ Ht)) as [Z FN]. rewrite FN. discriminate. }
    assert (TX : text_at (mem e) (a + N.of_nat n1) (skipn n1 u ++ [0%N])).
    { pose proof (text_from e a u pad HT n1 Hn) as TX. change (0%N :: pad) with ([0%N] ++ pad) in TX. rewrite app_assoc in TX. exact (text_pre _ _ _ _ TX). }
    assert (LC' : lcodable (c_look C m i) (length (map (fun t => lnode m (fst t)) (t :: t' :: ts)))) by (rewrite map_length; exact LC).
    destruct (ldfa_go (c_look C m i) 0 (skipn n1 u ++ [0%N])) as [j| |] eqn:G; [| |exact I]; cbn [chase_next] in *.
    + destruct (ldfa_code_run1 P e ND [9; m; i] (crej m) _ (map (fun t => lnode m (fst t)) (t :: t' :: ts)) (c_look C m i) X Y FR EP) with (w := skipn n1 u ++ [0%N]) (a := (a + N.of_nat n1)%N) (st0 := s) as (s1 & s2 & S1 & S2 & F2 & I2 & R2); try assumption.
      { rewrite G. discriminate. }
      rewrite G in R2. pose proof (ldfa_exit_lt _ _ LC _ _ _ G) as LJ.
      assert (NTH : nth j (map (fun t0 : nat * nat => lnode m (fst t0)) (t :: t' :: ts)) [] = lnode m (fst (nth j (t :: t' :: ts) (0, 0)))).
      { rewrite (nth_indep _ _ (lnode m (fst (0, 0)))) by (rewrite map_length; exact LJ). apply (map_nth (fun t0 : nat * nat => lnode m (fst t0))). }
      rewrite NTH in R2. destruct F2 as (_ & _ & _ & F4 & F5 & F6 & F7 & _).
      assert (R : cfrom m K s2 h f (chase C lid u ans f m (fst (nth j (t :: t' :: ts) (0, 0))) n1 h)).
      { apply IHf; [exact Hm|apply ND0, nth_In; exact LJ|exact R2|repeat split; congruence]. }
      assert (S3 := star_step _ _ _ _ _ S1 S2).
      assert (G2 : cfrom m K s h f (chase C lid u ans f m (fst (nth j (t :: t' :: ts) (0, 0))) n1 h)) by (apply (cfrom_star m K s s2 h h); [apply cstar_star; exact S3|exact F7|exact R]).
      destruct (chase C lid u ans f m (fst (nth j (t :: t' :: ts) (0, 0))) n1 h); try exact G2. cbn [cfrom] in R |- *. destruct R as (N0 & s3 & L0 & S4). destruct (cstar_steps_app _ _ _ _ _ _ _ (cstar_star _ _ L _ _ (hmap h) S2) S4) as (k0 & L1 & S5).
      exists (S k0), s3. split; [lia|]. econstructor; [apply cstep_step; exact S1|exact S5].
    + destruct (ldfa_code_run P e ND [9; m; i] (crej m) _ (map (fun t => lnode m (fst t)) (t :: t' :: ts)) (c_look C m i) X Y FR EP) with (w := skipn n1 u ++ [0%N]) (a := (a + N.of_nat n1)%N) (st0 := s) as (s2 & S2 & F2 & I2 & R2); try assumption.
      { rewrite G. discriminate. }
      rewrite G in R2. destruct F2 as (_ & _ & _ & _ & _ & F6 & F7 & _). exists s2. split; [apply cstar_star; exact S2|]. split; [congruence|]. split; congruence.
Qed.
End Step.
Theorem cnode_sim : forall f K m i n s h, m < length (c_nets C) -> i < length (snd (net_of C m)) ->
  find_lab P (lnode m i) = Some (pc s) -> CJ K s n -> cfrom m K s h f (chase C lid u ans f m i n h).
Proof.
  induction f as [|f IH]; intros K m i n s h Hm Hi HF HJ.
  { exists 0, (s, hmap h). split; [lia|constructor]. }
  rewrite chase_S. destruct (cat_node m i Hm Hi) as (X & Y & EP).
  assert (HPC : pc s = chase_node C lid m i (node_of C m i) ++ Y). { rewrite (find_at' P X _ _ EP ND) in HF. congruence. }
  unfold chase_node in EP, HPC. rewrite <- app_assoc in EP, HPC.
  assert (EP2 : P = (X ++ IBind (lnode m i) :: chase_sym C lid m i (nt (node_of C m i))) ++ chase_next C m i (atrs (node_of C m i)) ++ Y) by (rewrite EP at 1; asn; reflexivity).
  assert (TERM : (forall id, nt (node_of C m i) <> NInv id) -> cfrom m K s h (S f) (match term_step C u n (nt (node_of C m i)) with Some n1 => chase_go C lid u ans f m i n1 (h ++ reported C lid m i n n1) | None => ChRej h end)).
  { intros NI. assert (EP1 : P = (X ++ [IBind (lnode m i)]) ++ chase_sym C lid m i (nt (node_of C m i)) ++ chase_next C m i (atrs (node_of C m i)) ++ Y) by (rewrite EP at 1; asn; reflexivity).
    destruct (csym_run K _ m i _ s n h Hm Hi EP1 NI HPC HJ) as (s1 & R1).
    destruct (term_step C u n (nt (node_of C m i))) as [n1|].
    - destruct R1 as (S1 & P1 & J1 & O1). apply (cfrom_star m K s s1 h _ _ _ S1 O1). apply (cnext_sim f IH K _ m i n1 s1 _ Y Hm Hi EP2 P1 J1).
    - exists s1. exact R1. }
  destruct (nt (node_of C m i)) as [|name|l|A|] eqn:ENT; try (apply TERM; discriminate).
  clear TERM. destruct (net_index (c_nets C) name) as [m'|] eqn:EI; [|exact I].
  cbn [chase_sym] in HPC, EP2. unfold rule_number in HPC, EP2. rewrite EI in HPC, EP2. set (id := fst (net_of C m')) in *. set (h1 := h ++ [Nonterminal id (N.of_nat n)]).
  destruct HJ as (J1 & J2 & J3 & J4 & J5). destruct s as [pc0 rg0 fl0 xl0 xp0 stk0 sav0 out0 ob0]. cbn [pc rg stk sav] in *. subst pc0 stk0 sav0.
  set (kn := chase_next C m i (atrs (node_of C m i)) ++ Y) in *.
  assert (S1 : exists s1, cstar P e L (mkS (emit_nonterm_call id ++ kn) rg0 fl0 xl0 xp0 K K out0 ob0, hmap h) (s1, hmap h1) /\ pc s1 = kn /\
      rg s1 INPUT = l_answer L (hmap h1) /\ rg s1 CONTEXT = l_self L /\ stk s1 = K /\ sav s1 = K /\ out s1 = out0).
  { eexists. split.
    { unfold emit_nonterm_call. cbn [app]. eapply cstar_trans; [apply cstar_star; do 8 (x1 idtac); apply star_refl|]. eapply cstar_step.
      { unfold cstep. cbn [pc rg]. change (setr RDX _ _ RDI) with (rg0 R8). rewrite J2, N.eqb_refl. cbn [stk out obase].
        change (setr RDX (rg0 RSI) (setr RSI id (setr RDI (rg0 R8) rg0)) RDX) with (rg0 RSI). change (setr RDX (rg0 RSI) (setr RSI id (setr RDI (rg0 R8) rg0)) RSI) with id. rewrite J1. reflexivity. }
      unfold h1. rewrite map_app. cbn [map at_addr]. apply cstar_star. do 3 (x1 idtac). apply star_refl. }
    cbn [pc rg stk sav out setr reg_eqb]. unfold h1. rewrite map_app. cbn [map at_addr]. auto 10. }
  destruct S1 as (s1 & S1 & P1 & I1 & C1 & K1 & V1 & O1).
  destruct (ans h1) as [n1|] eqn:EA; [|exists s1; split; assumption].
  destruct (HA _ _ EA) as [A1 A2]. apply (cfrom_star m K _ s1 h h1); [exact S1|exact O1|]. apply (cnext_sim f IH K (X ++ IBind (lnode m i) :: emit_nonterm_call id) m i n1 s1 h1 Y Hm Hi); [exact EP2|exact P1|].
  repeat split; [congruence|exact C1|exact K1|exact V1|exact A2].
Qed.

(** A call of the function of rule m: ChaserFunc(context, input) (CodeGenInterface.hpp:16); n: the offset of its input. *)
Definition chaser_start (P0 : code) (r : reg -> N) (x p : list N) (sv q : list slot) (o : wstate) (b : N) : st := mkS P0 r None x p (SRet [] :: q) sv o b.
Theorem chaser_run r x p sv q o b m n : m < length (c_nets C) -> r RDI = l_self L -> r RSI = (a + N.of_nat n)%N -> n <= length u -> forall P0, find_lab P (lmach m) = Some P0 ->
  forall f, match chase C lid u ans f m 0 n [] with
  | ChOk n' h => exists s, cstar P e L (chaser_start P0 r x p sv q o b, []) (s, hmap h) /\ pc s = [] /\ rg s RAX = (a + N.of_nat n')%N /\ out s = o /\
                  (forall i, i <> RAX -> rg s i = r i) /\ stk s = q /\ sav s = sv /\ n' <= length u
  | ChRej h => exists s, cstar P e L (chaser_start P0 r x p sv q o b, []) (s, hmap h) /\ pc s = [] /\ rg s RAX = 0%N /\ out s = o /\
                  (forall i, i <> RAX -> rg s i = r i) /\ stk s = q /\ sav s = sv
  | ChLost h => exists s, cstar P e L (chaser_start P0 r x p sv q o b, []) (s, hmap h) /\ rg s INPUT = l_answer L (hmap h)
  | ChFuel => exists N c, f <= N /\ csteps P e L N (chaser_start P0 r x p sv q o b, []) c
  | ChWild => True
  end.
Proof.
  intros Hm R1 R2 Hn P0 FP f.
  destruct (cat_machine m Hm) as (X & Y & EP). pose proof (find_at' P X _ _ EP ND) as FM. rewrite FM in FP. injection FP as <-.
  pose proof (dnet_ne C pad m HG Hm) as N0. destruct (cfind_node m 0 Hm N0) as [Z FN]. destruct (cfind_tail m Hm) as (W & FF & FR & FA).
  set (k0 := [SVal (r RBX); SVal (r RCX); SVal (r RDX); SVal (r RSI); SVal (r RDI); SVal (r RBP); SVal (r R8); SSav sv; SRet []] ++ q).
  assert (NE : exists M1, chase_nodes C lid m 0 (snd (net_of C m)) = IBind (lnode m 0) :: M1).
  { destruct (snd (net_of C m)) as [|n0 M0]; [cbn in N0; lia|]. cbn [chase_nodes]. eauto. }
  destruct NE as [M1 EM]. set (km := M1 ++ ctail m ++ Y).
  assert (FN' : find_lab P (lnode m 0) = Some km).
  { apply (find_at' P (X ++ IBind (lmach m) :: prolog ++ [ILoadS CONTEXT 4; ILoadS INPUT 3])); [|exact ND]. rewrite EP at 1. unfold chase_machine, km, ctail. rewrite EM. asn. reflexivity. }
  set (s1 := mkS km (setr RSI (r RSI) (setr R8 (r RDI) r)) None x p k0 k0 o b).
  assert (S1 : star P e (chaser_start (chase_machine C lid m (snd (net_of C m)) ++ Y) r x p sv q o b) s1).
  { unfold chaser_start, chase_machine. rewrite EM. cbn [prolog app]. do 9 (x1 idtac). do 2 (x1 ltac:(reflexivity)). x1 idtac. unfold s1, km, ctail. rewrite <- app_assoc. cbn [app]. apply star_refl. }
  assert (J1 : CJ k0 s1 n) by (repeat split; [exact R2|exact R1|exact Hn]).
  pose proof (cnode_sim f k0 m 0 n s1 [] Hm N0 FN' J1) as R. apply (cstar_star _ _ L _ _ []) in S1.
  destruct (chase C lid u ans f m 0 n []) as [n' h|h|h| |]; cbn [cfrom] in R.
  - destruct R as (s2 & S2 & P2 & (I2 & C2 & K2 & V2 & N2) & O2). change (out s1) with o in O2. rewrite FF in P2. injection P2 as P2. 
    destruct s2 as [pc2 rg2 fl2 xl2 xp2 stk2 sav2 out2 ob2]. cbn [pc stk sav rg out] in *. subst pc2 stk2 sav2 out2.
    eexists. split.
    { eapply cstar_trans; [exact S1|]. eapply cstar_trans; [exact S2|]. apply cstar_star. unfold epilog. cbn [app]. x1 idtac. x1 ltac:(exact FA). unfold epilog. cbn [skipn app]. unfold k0. cbn [app]. do 9 (x1 idtac). apply star_refl. }
    cbn [pc rg stk sav out]. split; [reflexivity|]. split; [exact I2|]. split; [reflexivity|]. split; [|auto]. intros i Hi. destruct i; try reflexivity. congruence.
  - destruct R as (s2 & S2 & P2 & V2 & O2). change (out s1) with o in O2. rewrite FR in P2. injection P2 as P2.
    destruct s2 as [pc2 rg2 fl2 xl2 xp2 stk2 sav2 out2 ob2]. cbn [pc stk sav rg out] in *. subst pc2 sav2 out2.
    eexists. split.
    { eapply cstar_trans; [exact S1|]. eapply cstar_trans; [exact S2|]. apply cstar_star. unfold epilog. cbn [skipn app]. x1 idtac. x1 idtac. x1 idtac. unfold k0. cbn [app]. do 9 (x1 idtac). apply star_refl. }
    cbn [pc rg stk sav out]. split; [reflexivity|]. split; [reflexivity|]. split; [reflexivity|]. split; [|auto]. intros i Hi. destruct i; try reflexivity. congruence.
  - destruct R as (s2 & S2 & I2). exists s2. split; [eapply cstar_trans; [exact S1|exact S2]|exact I2].
  - exact I.
  - destruct R as (N1 & s2 & L1 & S2). destruct (cstar_steps_app _ _ _ _ _ _ _ S1 S2) as (k1 & L2 & S3). exists k1, s2. split; [lia|exact S3].
Qed.
End Sim.
