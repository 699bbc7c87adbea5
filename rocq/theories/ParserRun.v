(** * The parser as a recursive-descent interpreter, and its generated code *)
From Coq Require Import List NArith ZArith Arith Bool Lia ZifyBool ZifyN ZifyNat.
From Verif Require Import CharClass CharClassSpec NFA DFA DFAProofs DFAMin Marker Reduction Writer WriterProofs X86 X86Step CodeGen CodeGenProofs CodeGenSimd CodeGenDfa CodeGenMisc CodeGenRoutine ATN Grammar ParserGen.
Import ListNotations.
Local Open Scope nat_scope.

(** ** Interpreter *)
(** Positions are offsets in the text [u].  [POk n ws]: ended at n after writing the markers ws. *)
Inductive pres := POk (n : nat) (ws : list N) | PRej (ws : list N) | PWild | PFuel.
Definition pre (ws : list N) (r : pres) : pres :=
  match r with POk n v => POk n (ws ++ v) | PRej v => PRej (ws ++ v) | PWild => PWild | PFuel => PFuel end.
Section Interp.
Variables (C : compiled) (u : list N).
Definition net_of (m : nat) : N * atn := snd (nth m (c_nets C) ([], (0%N, []))).
Definition node_of (m i : nat) : anode := nth i (snd (net_of m)) blank.
(** Where the node's own symbol leads. *)
Definition term_step (n : nat) (s : nty) : option nat :=
  match s with
  | NBlank => Some n
  | NLit s => if prefixb s (skipn n u) then Some (n + length s) else None
  | NReg A => option_map (Nat.add n) (longest (c_dfa C A) 0 (skipn n u))
  | NWs => Some (n + ws_len (skipn n u))
  | NInv _ => None
  end.
Fixpoint run_node (fuel : nat) (m i n : nat) : pres :=
  match fuel with
  | O => PFuel
  | S f =>
    let next (n1 : nat) : pres :=
      match atrs (node_of m i) with
      | [] => POk n1 [end_word (fst (net_of m)) (N.of_nat n1)]
      | [t] => run_node f m (fst t) n1
      | ts => match ldfa_go (c_look C m i) 0 (skipn n1 u ++ [0%N]) with
              | LExit j => run_node f m (fst (nth j ts (0, 0))) n1
              | LReject => PRej []
              | LMore => PWild
              end
      end in
    match nt (node_of m i) with
    | NInv id =>
      match net_index (c_nets C) id with
      | None => PWild
      | Some m' => match pre [start_word (fst (net_of m')) (N.of_nat n)] (run_node f m' 0 n) with
                   | POk n1 ws => pre ws (next n1)
                   | r => r
                   end
      end
    | s => match term_step n s with Some n1 => next n1 | None => PRej [] end
    end
  end.
Definition run_machine (fuel m n : nat) : pres := pre [start_word (fst (net_of m)) (N.of_nat n)] (run_node fuel m 0 n).
End Interp.

(** ** Labels of the parser are distinct *)
Definition node_label (m i : nat) (l : label) : Prop :=
  l = lnode m i \/ dfa_label [8; m; i] l \/ (exists k, l = lstate [9; m; i] k) \/ l = [10; m; i].
Lemma node_label_key m i m' i' l : node_label m i l -> node_label m' i' l -> m = m' /\ i = i'.
Proof.
  unfold node_label, dfa_label, lnode, lstate, lloop, lfinish.
  intros [->|[[[k ->]|[(k & j & ->)| ->]]|[[k ->]| ->]]] [H|[[[k' H]|[(k' & j' & H)|H]]|[[k' H]|H]]]; try discriminate; injection H; auto.
Qed.
Lemma binds_match rej junk s : binds (emit_match rej junk s) = [].
Proof.
  unfold emit_match. destruct (length s <? 8); [apply binds_flat; reflexivity|]. generalize (length s) as n. intros n. revert s.
  induction n as [|n IH]; intros s; [reflexivity|]. destruct s as [|x s]; [reflexivity|]. cbn [emit_chunks]. rewrite binds_app. rewrite IH. reflexivity.
Qed.
Lemma binds_sym C m i n : (forall l, In l (binds (emit_sym C m i n)) -> node_label m i l /\ l <> lnode m i /\ forall k, l <> lstate [9; m; i] k) /\ NoDup (binds (emit_sym C m i n)).
Proof.
  destruct n as [|id|s|A|]; cbn [emit_sym binds].
  - split; [intros l []|constructor].
  - split; [intros l []|constructor].
  - rewrite binds_match. split; [intros l []|constructor].
  - destruct (binds_dfa [8; m; i] rej0 (c_dfa C A)) as [B1 B2]. split; [|exact B2]. intros l H. apply B1 in H. split; [right; left; exact H|].
    destruct H as [[k ->]|[(k & j & ->)| ->]]; split; try discriminate; intros; discriminate.
  - split; [|repeat constructor; intros []]. intros l [<-|[]]. split; [right; right; right; reflexivity|]. split; [discriminate|]. intros; discriminate.
Qed.
Lemma binds_next C m id i ts : (forall l, In l (binds (emit_next C m id i ts)) -> exists k, l = lstate [9; m; i] k) /\ NoDup (binds (emit_next C m id i ts)).
Proof.
  destruct ts as [|t [|t' ts]]; cbn [emit_next].
  - split; [intros l []|constructor].
  - split; [intros l []|constructor].
  - unfold emit_ldfa. cbn [binds]. destruct (binds_lstates [9; m; i] rej0 (map (fun t => lnode m (fst t)) (t :: t' :: ts)) (c_look C m i) 0) as [B1 B2]. split; [|exact B2].
    intros l H. destruct (B1 l H) as (k & _ & ->). eauto.
Qed.
Lemma binds_node C m id i n : (forall l, In l (binds (emit_node C m id i n)) -> node_label m i l /\ l <> lnode m i) /\ NoDup (binds (emit_node C m id i n)).
Proof.
  unfold emit_node. rewrite binds_app. destruct (binds_sym C m i (nt n)) as [A1 A2]. destruct (binds_next C m id i (atrs n)) as [B1 B2]. split.
  - intros l H. apply in_app_or in H as [H|H]; [destruct (A1 l H) as (? & ? & _); auto|]. destruct (B1 l H) as [k ->]. split; [right; right; left; eauto|discriminate].
  - apply NoDup_app_intro; [exact A2|exact B2|]. intros l H K. destruct (A1 l H) as (_ & _ & N0). destruct (B1 l K) as [k ->]. exact (N0 k eq_refl).
Qed.
Lemma binds_nodes C m id : forall M i, (forall l, In l (binds (emit_nodes C m id i M)) -> exists k, i <= k /\ node_label m k l) /\ NoDup (binds (emit_nodes C m id i M)).
Proof.
  induction M as [|n M IH]; intros i; cbn [emit_nodes binds]; [split; [intros l []|constructor]|].
  destruct (IH (S i)) as [I1 I2]. destruct (binds_node C m id i n) as [N1 N2]. rewrite binds_app. split.
  - intros l [<-|H]; [exists i; split; [lia|left; reflexivity]|]. apply in_app_or in H as [H|H]; [exists i; split; [lia|apply N1; exact H]|]. destruct (I1 l H) as (k & L & K). exists k. split; [lia|exact K].
  - constructor.
    + intros H. apply in_app_or in H as [H|H]; [apply (proj2 (N1 _ H)); reflexivity|]. destruct (I1 _ H) as (k & L & K).
      destruct (node_label_key m i m k (lnode m i)) as [_ E]; [left; reflexivity|exact K|lia].
    + apply NoDup_app_intro; [exact N2|exact I2|]. intros l H K. destruct (I1 _ K) as (k & L & K'). destruct (node_label_key m i m k l (proj1 (N1 _ H)) K') as [_ E]. lia.
Qed.
Definition mach_label (m : nat) (l : label) : Prop := (exists i, node_label m i l) \/ l = lmach m \/ l = lreq1 m \/ l = lreq2 m.
Lemma node_not_mach m i l : node_label m i l -> forall k, l <> lmach k /\ l <> lreq1 k /\ l <> lreq2 k.
Proof. intros [->|[[[a ->]|[(a & b & ->)| ->]]|[[a ->]| ->]]] k; repeat split; discriminate. Qed.
Lemma mach_label_key m m' l : mach_label m l -> mach_label m' l -> m = m'.
Proof.
  intros [[i H]|H] [[i' K]|K].
  - apply (node_label_key _ _ _ _ _ H K).
  - destruct (node_not_mach _ _ _ H m') as (A & B & D). destruct K as [->|[->| ->]]; congruence.
  - destruct (node_not_mach _ _ _ K m) as (A & B & D). destruct H as [->|[->| ->]]; congruence.
  - destruct H as [->|[->| ->]], K as [K|[K|K]]; try discriminate; injection K; auto.
Qed.
Lemma binds_marker v l : binds (emit_marker v l) = []. Proof. reflexivity. Qed.
Lemma binds_request C : binds (emit_request C) = []. Proof. reflexivity. Qed.
Lemma binds_machine C m net : (forall l, In l (binds (emit_machine C m net)) -> mach_label m l /\ l <> lmach m) /\ NoDup (binds (emit_machine C m net)).
Proof.
  unfold emit_machine. rewrite !binds_app, binds_marker. cbn [binds app]. rewrite !binds_app, binds_request. cbn [binds app].
  destruct (binds_nodes C m (fst net) (snd net) 0) as [N1 N2]. split.
  - intros l H. apply in_app_or in H as [H|[<-|[<-|[]]]].
    + destruct (N1 l H) as (k & _ & K). split; [left; eauto|apply (node_not_mach _ _ _ K)].
    + split; [right; auto|discriminate].
    + split; [right; auto|discriminate].
  - apply NoDup_app_intro; [exact N2|repeat constructor; cbn; intuition discriminate|].
    intros l H K. destruct (N1 l H) as (k & _ & K'). destruct (node_not_mach _ _ _ K' m) as (_ & A & B). destruct K as [<-|[<-|[]]]; congruence.
Qed.
Lemma binds_machines C : forall nets m, (forall l, In l (binds (emit_machines C m nets)) -> exists k, m <= k /\ mach_label k l) /\ NoDup (binds (emit_machines C m nets)).
Proof.
  induction nets as [|p nets IH]; intros m; cbn [emit_machines binds]; [split; [intros l []|constructor]|].
  destruct (IH (S m)) as [I1 I2]. destruct (binds_machine C m (snd p)) as [N1 N2]. rewrite binds_app. split.
  - intros l [<-|H]; [exists m; split; [lia|right; auto]|]. apply in_app_or in H as [H|H]; [exists m; split; [lia|apply N1; exact H]|]. destruct (I1 l H) as (k & L & K). exists k. split; [lia|exact K].
  - constructor.
    + intros H. apply in_app_or in H as [H|H]; [apply (proj2 (N1 _ H)); reflexivity|]. destruct (I1 _ H) as (k & L & K).
      assert (m = k) by (apply (mach_label_key m k (lmach m)); [right; auto|exact K]). lia.
    + apply NoDup_app_intro; [exact N2|exact I2|]. intros l H K. destruct (I1 _ K) as (k & L & K'). assert (m = k) by (apply (mach_label_key m k l); [apply N1; exact H|exact K']). lia.
Qed.
Lemma mach_label_long m l : mach_label m l -> 2 <= length l.
Proof. intros [[i H]|[->|[->| ->]]]; cbn; try lia. destruct H as [->|[[[a ->]|[(a & b & ->)| ->]]|[[a ->]| ->]]]; cbn; lia. Qed.
Lemma parser_nodup C root : NoDup (binds (parser_code C root)).
Proof.
  unfold parser_code. rewrite !binds_app. destruct (binds_machines C (c_nets C) 0) as [B1 B2]. rewrite binds_epilog. cbn [binds prolog parser_head app].
  apply (NoDup_app_intro [lland]); [repeat constructor; intros []|apply NoDup_app_intro; [exact B2|repeat constructor; cbn; intuition discriminate|]|].
  - intros l H K. destruct (B1 l H) as (k & _ & K'). apply mach_label_long in K'. cbn in K. destruct K as [<-|[<-|[<-|[]]]]; cbn in K'; lia.
  - intros l [<-|[]] H. apply in_app_or in H as [H|H]; [|cbn in H; intuition discriminate]. destruct (B1 _ H) as (k & _ & K'). apply mach_label_long in K'. cbn in K'. lia.
Qed.

(** ** Where the code of a node is *)
Lemma nodes_split C m id : forall M i k, k < length M -> exists A B,
  emit_nodes C m id i M = A ++ IBind (lnode m (i + k)) :: emit_node C m id (i + k) (nth k M blank) ++ B.
Proof.
  induction M as [|n M IH]; intros i k Hk; [cbn in Hk; lia|]. cbn [emit_nodes]. destruct k as [|k].
  - exists [], (emit_nodes C m id (S i) M). rewrite Nat.add_0_r. reflexivity.
  - destruct (IH (S i) k) as (A & B & E); [cbn in Hk; lia|]. rewrite E. exists (IBind (lnode m i) :: emit_node C m id i n ++ A), B.
    replace (i + S k) with (S i + k) by lia. cbn [app nth]. rewrite <- app_assoc. reflexivity.
Qed.
Lemma machines_split C : forall nets m k, k < length nets -> exists A B,
  emit_machines C m nets = A ++ IBind (lmach (m + k)) :: emit_machine C (m + k) (snd (nth k nets ([], (0%N, [])))) ++ B.
Proof.
  induction nets as [|p nets IH]; intros m k Hk; [cbn in Hk; lia|]. cbn [emit_machines]. destruct k as [|k].
  - exists [], (emit_machines C (S m) nets). rewrite Nat.add_0_r. reflexivity.
  - destruct (IH (S m) k) as (A & B & E); [cbn in Hk; lia|]. rewrite E. exists (IBind (lmach m) :: emit_machine C m (snd p) ++ A), B.
    replace (m + S k) with (S m + k) by lia. cbn [app nth]. rewrite <- app_assoc. reflexivity.
Qed.

(** ** Counted executions *)
Inductive steps (P : code) (e : env) : nat -> st -> st -> Prop :=
| sn_0 s : steps P e 0 s s
| sn_S n s s1 s2 : step P e s = Next s1 -> steps P e n s1 s2 -> steps P e (S n) s s2.
Lemma star_steps P e a b : star P e a b -> exists n, steps P e n a b.
Proof. induction 1 as [|a b c H _ [n IH]]; [exists 0; constructor|exists (S n); econstructor; eauto]. Qed.
Lemma steps_app P e n a b : steps P e n a b -> forall k c, steps P e k b c -> steps P e (n + k) a c.
Proof. induction 1 as [|n a b c H _ IH]; intros k d K; [exact K|]. cbn. econstructor; [exact H|]. apply IH, K. Qed.
Lemma star_steps_app P e a b n c : star P e a b -> steps P e n b c -> exists k, n <= k /\ steps P e k a c.
Proof. intros H K. apply star_steps in H as [j H]. exists (j + n). split; [lia|]. exact (steps_app _ _ _ _ _ H _ _ K). Qed.
