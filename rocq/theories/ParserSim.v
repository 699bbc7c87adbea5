(** The generated parser does what the interpreter does. *)
From Coq Require Import List NArith ZArith Arith Bool Lia ZifyBool ZifyN ZifyNat.
From Verif Require Import CharClass CharClassSpec NFA DFA DFAProofs DFAMin Marker Reduction Writer WriterProofs X86 X86Step CodeGen CodeGenProofs CodeGenSimd CodeGenDfa CodeGenMisc CodeGenRoutine ATN Grammar ParserGen ParserRun.
Import ListNotations.
Local Open Scope nat_scope.

(** What the code generator needs of the compiled grammar, for inputs followed by [npad] mapped bytes. *)
Record gen_ok (C : compiled) (npad : nat) : Prop := {
  ok_ne : forall name id M, In (name, (id, M)) (c_nets C) -> M <> [];
  ok_dest : forall name id M n t, In (name, (id, M)) (c_nets C) -> In n M -> In t (atrs n) -> fst t < length M;
  ok_lit : forall name id M n s, In (name, (id, M)) (c_nets C) -> In n M -> nt n = NLit s -> (forall c, In c s -> (c <> 0 /\ c < 256)%N) /\ (8 <= length s -> 15 <= npad);
  ok_reg : forall name id M n A, In (name, (id, M)) (c_nets C) -> In n M -> nt n = NReg A -> codable (c_dfa C A) /\ ((exists q, self_loop (c_dfa C A) q) -> 15 <= npad);
  ok_look : forall m name id M i, nth_error (c_nets C) m = Some (name, (id, M)) -> i < length M -> 2 <= length (atrs (nth i M blank)) ->
    lcodable (c_look C m i) (length (atrs (nth i M blank))) }.

Lemma puts_app B M stale : forall ws s s1 vs, puts B M stale s ws = Ok s1 -> puts B M stale s (ws ++ vs) = puts B M stale s1 vs.
Proof.
  induction ws as [|w ws IH]; intros s s1 vs; cbn [puts app]; [intros E; injection E as ->; reflexivity|].
  destruct (put B M stale s w) as [s2|]; cbn [obind]; [|discriminate]. apply IH.
Qed.
Lemma net_index_lt nets name m : net_index nets name = Some m -> m < length nets.
Proof. revert m. induction nets as [|p nets IH]; intros m; cbn [net_index length]; [discriminate|]. destruct (eqname (fst p) name); [intros E; injection E as <-; lia|]. destruct (net_index nets name) as [k|]; [|discriminate]. intros E. injection E as <-. pose proof (IH k eq_refl). lia. Qed.

Local Ltac asn := repeat first [rewrite <- app_assoc | progress (cbn [app])].
Section Sim.
Variables (C : compiled) (root : list N) (e : env) (a : N) (u pad : list N) (B : nat).
Notation P := (parser_code C root).
Hypothesis HG : gen_ok C (length pad).
Hypothesis HT : text_at (mem e) a (u ++ 0%N :: pad).
Hypothesis Ha : (0 < a)%N.
Hypothesis HU : forall c, In c u -> (c <> 0)%N.
Hypothesis HB1 : 1 <= B.
Hypothesis HBw : page_words e = B.
Hypothesis HBc : c_buf C = (8 * N.of_nat B)%N.
Hypothesis HPA : forall k, (page_addr e k + 8 * N.of_nat B < 2 ^ 64)%N.

Let ND : NoDup (binds P) := parser_nodup C root.
Definition krej : code := skipn 3 (epilog [] rej0).
Definition kfin : code := epilog [] rej0.
Lemma find_rej : find_lab P rej0 = Some krej.
Proof.
  apply (find_at' P (prolog ++ parser_head C root ++ emit_machines C 0 (c_nets C) ++ [IBind lfin] ++ firstn 2 (epilog [] rej0))); [|exact ND]. unfold parser_code. rewrite <- !app_assoc. reflexivity.
Qed.
Lemma find_fin : find_lab P lfin = Some kfin.
Proof.
  apply (find_at' P (prolog ++ parser_head C root ++ emit_machines C 0 (c_nets C))); [|exact ND]. unfold parser_code. rewrite <- !app_assoc. reflexivity.
Qed.
(** Machine [m] and what stands around it. *)
Lemma at_machine m : m < length (c_nets C) -> exists X Y, P = X ++ IBind (lmach m) :: emit_machine C m (net_of C m) ++ Y.
Proof.
  intros Hm. destruct (machines_split C (c_nets C) 0 m Hm) as (X & Y & E). cbn [Nat.add] in E. unfold parser_code. rewrite E.
  exists (prolog ++ parser_head C root ++ X), (Y ++ [IBind lfin] ++ epilog [] rej0). asn. reflexivity.
Qed.
Lemma at_node m i : m < length (c_nets C) -> i < length (snd (net_of C m)) -> exists X Y,
  P = X ++ IBind (lnode m i) :: emit_node C m (fst (net_of C m)) i (node_of C m i) ++ Y.
Proof.
  intros Hm Hi. destruct (at_machine m Hm) as (X & Y & E). unfold emit_machine in E. destruct (nodes_split C m (fst (net_of C m)) (snd (net_of C m)) 0 i Hi) as (Z & W & F). cbn [Nat.add] in F. rewrite F in E.
  eexists (X ++ IBind (lmach m) :: emit_marker (N.lor (fst (net_of C m)) (2 ^ 15)) (lreq1 m) ++ Z), (W ++ _). rewrite E. clear E F. asn. reflexivity.
Qed.
Lemma find_node m i : m < length (c_nets C) -> i < length (snd (net_of C m)) -> exists Y,
  find_lab P (lnode m i) = Some (emit_node C m (fst (net_of C m)) i (node_of C m i) ++ Y).
Proof. intros Hm Hi. destruct (at_node m i Hm Hi) as (X & Y & E). exists Y. exact (find_at' P X _ _ E ND). Qed.
Lemma find_req1 m : m < length (c_nets C) -> exists Y, find_lab P (lreq1 m) = Some (emit_request C ++ IJmp (lnode m 0) :: Y).
Proof.
  intros Hm. destruct (at_machine m Hm) as (X & Y & E). eexists.
  apply (find_at' P (X ++ IBind (lmach m) :: emit_marker (N.lor (fst (net_of C m)) (2 ^ 15)) (lreq1 m) ++ emit_nodes C m (fst (net_of C m)) 0 (snd (net_of C m)))); [|exact ND].
  rewrite E. unfold emit_machine. asn. reflexivity.
Qed.
Lemma find_req2 m : m < length (c_nets C) -> exists Y, find_lab P (lreq2 m) = Some (emit_request C ++ IRet :: Y).
Proof.
  intros Hm. destruct (at_machine m Hm) as (X & Y & E). exists Y.
  apply (find_at' P (X ++ IBind (lmach m) :: emit_marker (N.lor (fst (net_of C m)) (2 ^ 15)) (lreq1 m) ++ emit_nodes C m (fst (net_of C m)) 0 (snd (net_of C m)) ++ IBind (lreq1 m) :: emit_request C ++ [IJmp (lnode m 0)])); [|exact ND].
  rewrite E. unfold emit_machine. asn. reflexivity.
Qed.
Lemma find_mach m : m < length (c_nets C) -> exists Y, find_lab P (lmach m) = Some (emit_marker (N.lor (fst (net_of C m)) (2 ^ 15)) (lreq1 m) ++ emit_nodes C m (fst (net_of C m)) 0 (snd (net_of C m)) ++ Y).
Proof.
  intros Hm. destruct (at_machine m Hm) as (X & Y & E). eexists. apply (find_at' P X); [|exact ND]. rewrite E. unfold emit_machine. rewrite <- !app_assoc. reflexivity.
Qed.

(** ** Registers between instructions of the parser *)
Record J (s : st) (n : nat) (w : wstate) : Prop := {
  j_in : rg s RSI = (a + N.of_nat n)%N; j_base : rg s RBP = a; j_ctx : rg s R8 = ctx e; j_out : out s = w;
  j_ob : obase s = page_addr e (length (released w)); j_di : rg s RDI = (obase s + 8 * N.of_nat (pos w))%N;
  j_dx : rg s RDX = (obase s + 8 * N.of_nat B)%N; j_pos : pos w < B; j_n : n <= length u }.
Notation PUTS := (puts B B (stale e)).
Lemma text_bound n : n <= length u -> (a + N.of_nat n < 2 ^ 64)%N.
Proof.
  intros H. rewrite <- (firstn_skipn n u), <- app_assoc in HT. pose proof (text_skip _ _ _ _ HT) as K. rewrite firstn_length_le in K by exact H.
  destruct (skipn n u) as [|c l]; cbn [app] in K; apply text_cons in K as (_ & _ & K & _); lia.
Qed.
Lemma text_from n : n <= length u -> text_at (mem e) (a + N.of_nat n) (skipn n u ++ 0%N :: pad).
Proof. intros H. rewrite <- (firstn_skipn n u), <- app_assoc in HT. pose proof (text_skip _ _ _ _ HT) as K. rewrite firstn_length_le in K by exact H. exact K. Qed.

(** The page request. *)
Lemma request_run k s n w : pc s = emit_request C ++ k -> rg s RSI = (a + N.of_nat n)%N -> rg s RBP = a -> rg s R8 = ctx e -> out s = w -> n <= length u ->
  exists s', star P e s s' /\ pc s' = k /\ stk s' = stk s /\ sav s' = sav s /\ J s' n (request_page (stale e) w).
Proof.
  intros Hpc H1 H2 H3 Hw Hn. destruct s as [pc0 rg0 fl0 xl0 xp0 stk0 sav0 out0 ob0]. cbn [pc rg out stk sav] in *. subst pc0 out0.
  set (nn := S (length (released w))).
  set (rg1 := setr RDI (rg0 R8) rg0).
  set (rg2 := fun x => match x with RBX => rg1 RBX | RBP => rg1 RBP | RAX => page_addr e nn | _ => clob e nn x end).
  set (A := page_addr e nn). set (w1 := request_page (stale e) w).
  set (rg3 := setr RDX (w64 (A + c_buf C)) (setr RDX A (setr RDI A rg2))).
  set (rg4 := setr RSI (rg0 RSI) (setr RBP (rg0 RBP) (setr R8 (ctx e) rg3))).
  exists (mkS k rg4 None [] [] stk0 sav0 w1 A). split.
  { unfold emit_request. cbn [app]. do 4 (x1 idtac). x1 ltac:(reflexivity). x1 idtac.
    eapply star_step; [unfold step; cbn [pc rg out stk]; unfold setr at 1; cbn [reg_eqb]; rewrite H3, N.eqb_refl; reflexivity|].
    do 7 (x1 idtac). cbn [setr reg_eqb]. apply star_refl. }
  cbn [pc stk sav]. split; [reflexivity|]. split; [reflexivity|]. split; [reflexivity|].
  assert (W : w64 (A + c_buf C) = (A + 8 * N.of_nat B)%N) by (rewrite HBc; apply w64_small; apply HPA).
  split; cbn [rg out obase]; unfold rg4, rg3; unfold setr; cbn [reg_eqb]; try assumption; try reflexivity.
  unfold w1, request_page. cbn [Writer.pos]. lia.
Qed.
(** Storing a word of the page. *)
Lemma st_store k r f x p q v o b d c i : sub64 (r d) b = (8 * N.of_nat i)%N -> i < B ->
  step P e (mkS (IStore d c :: k) r f x p q v o b) = Next (mkS k r f x p q v (mkW (released o) (store (page o) i (r c)) (S i)) b).
Proof.
  intros H L. unfold step. cbn [pc rg obase]. rewrite H. replace ((8 * N.of_nat i) mod 8 =? 0)%N with true by (rewrite N.mul_comm, N.mod_mul by lia; reflexivity).
  replace (N.to_nat (8 * N.of_nat i / 8)) with i by (rewrite N.mul_comm, N.div_mul by lia; lia). rewrite HBw. replace (i <? B) with true by lia. reflexivity.
Qed.
(** Writing a marker, with the page request if the page is full. *)
Lemma marker_run v req kreq k s n w : pc s = emit_marker v req ++ k -> find_lab P req = Some (emit_request C ++ kreq) -> J s n w ->
  let word := N.lor (u64 (N.of_nat n)) (u64 (N.shiftl v 48)) in
  exists s' w', star P e s s' /\ PUTS w [word] = Ok w' /\ (pc s' = k \/ pc s' = kreq) /\ stk s' = stk s /\ sav s' = sav s /\ J s' n w'.
Proof.
  intros Hpc Hreq HJ word. destruct HJ as [JI JB JC JO JOB JDI JDX JP JN]. destruct s as [pc0 rg0 fl0 xl0 xp0 stk0 sav0 out0 ob0]. cbn [pc rg out obase stk sav] in *. subst pc0 out0.
  set (w1 := mkW (released w) (store (page w) (pos w) word) (S (pos w))).
  pose proof (HPA (length (released w))) as HPw. rewrite <- JOB in HPw.
  assert (E8 : (rg0 RDI + 8 < 2 ^ 64)%N) by lia.
  assert (SUB : sub64 (rg0 RSI) (rg0 RBP) = N.of_nat n). { rewrite JI, JB. pose proof (text_bound n JN). rewrite sub64_le; lia. }
  assert (OFF : sub64 (rg0 RDI) ob0 = (8 * N.of_nat (pos w))%N) by (rewrite JDI, sub64_le; lia).
  set (rga := setr RAX (N.lor (sub64 (rg0 RSI) (rg0 RBP)) (w64 (N.shiftl v 48))) (setr RBX (w64 (N.shiftl v 48)) (setr RBX v (setr RAX (sub64 (rg0 RSI) (rg0 RBP)) (setr RAX (rg0 RSI) rg0))))).
  assert (WD : rga RAX = word).
  { change (rga RAX) with (N.lor (sub64 (rg0 RSI) (rg0 RBP)) (w64 (N.shiftl v 48))). rewrite SUB. unfold word. f_equal. unfold u64. rewrite N.mod_small; [reflexivity|]. pose proof (text_bound n JN). lia. }
  set (rg1 := setr RDI (w64 (rga RDI + 8)) rga).
  assert (RD : rg1 RDI = (rg0 RDI + 8)%N). { change (rg1 RDI) with (w64 (rg0 RDI + 8)). apply w64_small, E8. }
  assert (RX : rg1 RDX = rg0 RDX) by reflexivity.
  assert (S1 : star P e (mkS (emit_marker v req ++ k) rg0 fl0 xl0 xp0 stk0 sav0 w ob0) (mkS (IJcc JE req :: k) rg1 (Some (rg1 RDI, rg1 RDX)) xl0 xp0 stk0 sav0 w1 ob0)).
  { unfold emit_marker. cbn [app]. do 5 (x1 idtac).
    eapply star_step; [apply (st_store _ rga _ _ _ _ _ _ _ _ _ (pos w)); [exact OFF|exact JP]|]. rewrite WD. fold w1. x1 idtac. fold rg1. x1 idtac. apply star_refl. }
  assert (PUT : PUTS w [word] = Ok (if S (pos w) =? B then request_page (stale e) w1 else w1)).
  { cbn [puts]. unfold put. replace (pos w <? B) with true by lia. cbn [obind Writer.pos]. reflexivity. }
  destruct (S (pos w) =? B) eqn:EB.
  - apply Nat.eqb_eq in EB.
    assert (F : star P e (mkS (IJcc JE req :: k) rg1 (Some (rg1 RDI, rg1 RDX)) xl0 xp0 stk0 sav0 w1 ob0) (mkS (emit_request C ++ kreq) rg1 (Some (rg1 RDI, rg1 RDX)) xl0 xp0 stk0 sav0 w1 ob0)).
    { eapply star_step; [|apply star_refl]. apply st_jcc_t; [|exact Hreq]. unfold eval_cond. rewrite RD, RX, JDI, JDX. lia. }
    destruct (request_run kreq (mkS (emit_request C ++ kreq) rg1 (Some (rg1 RDI, rg1 RDX)) xl0 xp0 stk0 sav0 w1 ob0) n w1 eq_refl JI JB JC eq_refl JN) as (s' & S2 & K1 & K2 & K3 & K4).
    exists s', (request_page (stale e) w1). split; [eapply star_trans; [exact S1|]; eapply star_trans; [exact F|exact S2]|]. split; [exact PUT|]. split; [right; exact K1|]. split; [exact K2|]. split; [exact K3|exact K4].
  - apply Nat.eqb_neq in EB. eexists _, w1. split; [eapply star_trans; [exact S1|]; eapply star_step; [|apply star_refl]; apply st_jcc_f; unfold eval_cond; rewrite RD, RX, JDI, JDX; lia|].
    split; [exact PUT|]. split; [left; reflexivity|]. cbn [stk sav]. split; [reflexivity|]. split; [reflexivity|].
    split; cbn [rg out obase]; try assumption; try reflexivity.
    + rewrite RD. unfold w1. cbn [Writer.pos]. rewrite JDI. lia.
    + unfold w1. cbn [Writer.pos]. lia.
Qed.
(** The symbol of a node. *)
Lemma frame_J s s' n n1 w : frame s s' -> J s n w -> rg s' RSI = (a + N.of_nat n1)%N -> n1 <= length u -> J s' n1 w.
Proof. intros (F1 & F2 & F3 & F4 & F5 & F6 & F7 & F8) [JI JB JC JO JOB JDI JDX JP JN] H L. split; try congruence; try assumption. Qed.
Lemma longest_le D : forall v q k, longest D q v = Some k -> k <= length v.
Proof.
  induction v as [|c v IH]; intros q k; cbn [longest].
  - destruct (dacc (nth q D dnil)); [|discriminate]. intros E. injection E as <-. lia.
  - destruct (first_tr (dtrs (nth q D dnil)) c) as [d|]; [|destruct (dacc (nth q D dnil)); [|discriminate]; intros E; injection E as <-; lia].
    destruct (longest D d v) as [j|] eqn:L; cbn [option_map].
    + intros E. injection E as <-. pose proof (IH _ _ L). cbn [length]. lia.
    + destruct (dacc (nth q D dnil)); [|discriminate]. intros E; injection E as <-; lia.
Qed.
Lemma ws_len_le v : ws_len v <= length v.
Proof. induction v as [|c v IH]; cbn [ws_len]; [lia|]. match goal with |- context [if ?b then _ else _] => destruct b end; cbn [length]; lia. Qed.
Lemma term_le n s n1 : n <= length u -> term_step C u n s = Some n1 -> n <= n1 <= length u.
Proof.
  intros Hn. pose proof (skipn_length n u) as SL. destruct s as [|id|l|A|]; cbn [term_step].
  - intros E. injection E as <-. lia.
  - discriminate.
  - destruct (prefixb l (skipn n u)) eqn:E; [|discriminate]. intros K. injection K as <-. apply prefixb_len in E. lia.
  - destruct (longest (c_dfa C A) 0 (skipn n u)) as [k|] eqn:E; cbn [option_map]; [|discriminate]. intros K. injection K as <-. apply longest_le in E. lia.
  - intros K. injection K as <-. pose proof (ws_len_le (skipn n u)). lia.
Qed.
Lemma skip_nz n : forall i, nth_error (skipn n u) i <> Some 0%N.
Proof. apply input_nz. intros c H. apply HU. rewrite <- (firstn_skipn n u). apply in_or_app. right. exact H. Qed.
Lemma sym_run X m i t k s n w : P = X ++ emit_sym C m i t ++ k -> (forall id, t <> NInv id) ->
  (forall l, t = NLit l -> (forall c, In c l -> (c <> 0 /\ c < 256)%N) /\ (8 <= length l -> 15 <= length pad)) ->
  (forall A, t = NReg A -> codable (c_dfa C A) /\ ((exists q, self_loop (c_dfa C A) q) -> 15 <= length pad)) ->
  pc s = emit_sym C m i t ++ k -> J s n w ->
  exists s', star P e s s' /\ frame s s' /\ match term_step C u n t with Some n1 => pc s' = k /\ J s' n1 w | None => pc s' = krej end.
Proof.
  intros EP HI HL HRg HPC HJ. pose proof (j_n _ _ _ HJ) as Hn. pose proof (j_in _ _ _ HJ) as HA. pose proof (text_from n Hn) as TX. pose proof find_rej as FR.
  assert (LE := term_le n t). destruct t as [|id|l|A|]; cbn [emit_sym term_step] in *.
  - exists s. split; [apply star_refl|]. split; [apply frame_refl|]. auto.
  - destruct (HI id eq_refl).
  - destruct (HL l eq_refl) as [L1 L2].
    destruct (match_code_run P e rej0 krej (c_junk C m i) l (skipn n u) pad _ s k FR L1 TX L2 HPC HA) as (s' & S & F & K).
    exists s'. split; [exact S|]. split; [exact F|]. destruct (prefixb l (skipn n u)); [|exact K]. destruct K as [K1 K2]. split; [exact K1|].
    apply (frame_J s s' n); [exact F|exact HJ|rewrite K2; lia|]. apply (LE (n + length l)); [exact Hn|reflexivity].
  - destruct (HRg A eq_refl) as [R1 R2].
    destruct (dfa_code_run P e X k [8; m; i] rej0 (c_dfa C A) krej ND EP R1 FR (skipn n u) pad _ s R2 TX (skip_nz n) ltac:(lia) HPC HA) as (s' & S & F & K).
    exists s'. split; [exact S|]. split; [exact F|]. destruct (longest (c_dfa C A) 0 (skipn n u)) as [j|]; cbn [option_map] in *; [|exact K]. destruct K as [K1 K2]. split; [exact K1|].
    apply (frame_J s s' n); [exact F|exact HJ|rewrite K2; lia|]. apply (LE (n + j)); [exact Hn|reflexivity].
  - destruct (skip_code_run P e ND [10; m; i] X k EP (skipn n u) pad _ s TX HPC HA) as (s' & S & F & K1 & K2).
    exists s'. split; [exact S|]. split; [exact F|]. split; [exact K1|]. apply (frame_J s s' n); [exact F|exact HJ|rewrite K2; lia|]. apply (LE (n + ws_len (skipn n u))); [exact Hn|reflexivity].
Qed.

(** What a call does, up to its return to [k]. *)
Definition simres (s : st) (w : wstate) (k : code) (q : list slot) (f : nat) (r : pres) : Prop :=
  match r with
  | POk n' ws => exists s' w', star P e s s' /\ PUTS w ws = Ok w' /\ pc s' = k /\ stk s' = q /\ sav s' = sav s /\ J s' n' w'
  | PRej ws => exists s' w', star P e s s' /\ PUTS w ws = Ok w' /\ pc s' = krej /\ sav s' = sav s /\ out s' = w'
  | PFuel => exists N s', f <= N /\ steps P e N s s'
  | PWild => True
  end.
Lemma sim_pre s s1 w w1 k q f r ws : star P e s s1 -> PUTS w ws = Ok w1 -> sav s1 = sav s -> simres s1 w1 k q f r -> simres s w k q f (pre ws r).
Proof.
  intros S E SV H. destruct r as [n' v|v| |]; cbn [pre simres] in *.
  - destruct H as (s' & w' & S' & E' & K1 & K2 & K3 & K4). exists s', w'. split; [eapply star_trans; eauto|]. split; [rewrite (puts_app _ _ _ _ _ _ _ E); exact E'|]. split; [exact K1|]. split; [exact K2|]. split; [congruence|exact K4].
  - destruct H as (s' & w' & S' & E' & K1 & K2 & K3). exists s', w'. split; [eapply star_trans; eauto|]. split; [rewrite (puts_app _ _ _ _ _ _ _ E); exact E'|]. split; [exact K1|]. split; [congruence|exact K3].
  - exact I.
  - destruct H as (N0 & s' & L & S'). destruct (star_steps_app _ _ _ _ _ _ S S') as (k0 & L' & S''). exists k0, s'. split; [lia|exact S''].
Qed.
Lemma sim_star s s1 w k q f r : star P e s s1 -> sav s1 = sav s -> simres s1 w k q f r -> simres s w k q f r.
Proof. intros S E H. replace r with (pre [] r) by (destruct r; reflexivity). exact (sim_pre s s1 w w k q f r [] S eq_refl E H). Qed.
Lemma sim_step s s1 w k q f r : step P e s = Next s1 -> sav s1 = sav s -> simres s1 w k q f r -> simres s w k q (S f) r.
Proof.
  intros S E H. assert (G := sim_star s s1 w k q f r (star_one _ _ _ _ S) E H). destruct r; try exact G. cbn [simres] in *.
  destruct H as (N0 & s' & L & S'). exists (Datatypes.S N0), s'. split; [lia|]. econstructor; eauto.
Qed.

Lemma net_in m : m < length (c_nets C) -> exists name, In (name, net_of C m) (c_nets C) /\ nth_error (c_nets C) m = Some (name, net_of C m).
Proof.
  intros H. exists (fst (nth m (c_nets C) ([], (0%N, [])))). unfold net_of. rewrite <- surjective_pairing. split; [apply nth_In; exact H|]. apply nth_error_nth'. exact H.
Qed.
Lemma end_word_eq id n : end_word id (N.of_nat n) = N.lor (u64 (N.of_nat n)) (u64 (N.shiftl id 48)).
Proof. reflexivity. Qed.
Lemma start_word_eq id n : start_word id (N.of_nat n) = N.lor (u64 (N.of_nat n)) (u64 (N.shiftl (N.lor id (2 ^ 15)) 48)).
Proof. reflexivity. Qed.
Lemma node_facts m i : m < length (c_nets C) -> i < length (snd (net_of C m)) ->
  (forall t, In t (atrs (node_of C m i)) -> fst t < length (snd (net_of C m))) /\
  (forall l, nt (node_of C m i) = NLit l -> (forall c, In c l -> (c <> 0 /\ c < 256)%N) /\ (8 <= length l -> 15 <= length pad)) /\
  (forall A, nt (node_of C m i) = NReg A -> codable (c_dfa C A) /\ ((exists q, self_loop (c_dfa C A) q) -> 15 <= length pad)) /\
  (2 <= length (atrs (node_of C m i)) -> lcodable (c_look C m i) (length (atrs (node_of C m i)))).
Proof.
  intros Hm Hi. destruct (net_in m Hm) as (name & I1 & I2). assert (IN : In (node_of C m i) (snd (net_of C m))) by (apply nth_In; exact Hi). rewrite (surjective_pairing (net_of C m)) in I1, I2.
  split; [intros t Ht; exact (ok_dest _ _ HG _ _ _ _ _ I1 IN Ht)|]. split; [intros l El; exact (ok_lit _ _ HG _ _ _ _ _ I1 IN El)|].
  split; [intros A EA; exact (ok_reg _ _ HG _ _ _ _ _ I1 IN EA)|]. intros L. exact (ok_look _ _ HG _ _ _ _ _ I2 Hi L).
Qed.
Lemma net_ne m : m < length (c_nets C) -> 0 < length (snd (net_of C m)).
Proof. intros Hm. destruct (net_in m Hm) as (name & I1 & _). rewrite (surjective_pairing (net_of C m)) in I1. pose proof (ok_ne _ _ HG _ _ _ I1). destruct (snd (net_of C m)); [congruence|cbn; lia]. Qed.

Section Step.
Variable f : nat.
Hypothesis IHf : forall m i n s w k q, m < length (c_nets C) -> i < length (snd (net_of C m)) ->
  find_lab P (lnode m i) = Some (pc s) -> J s n w -> stk s = SRet k :: q -> simres s w k q f (run_node C u f m i n).
(** The start of a rule. *)
Lemma machine_sim m n s w k q : m < length (c_nets C) -> find_lab P (lmach m) = Some (pc s) -> J s n w -> stk s = SRet k :: q ->
  simres s w k q f (pre [start_word (fst (net_of C m)) (N.of_nat n)] (run_node C u f m 0 n)).
Proof.
  intros Hm HF HJ HS. destruct (find_mach m Hm) as [Y FM]. rewrite FM in HF. injection HF as HPC. symmetry in HPC. destruct (find_req1 m Hm) as [Y1 FR1].
  destruct (marker_run _ _ _ _ s n w HPC FR1 HJ) as (s1 & w1 & S1 & E1 & PC1 & K1 & V1 & J1). rewrite <- start_word_eq in E1.
  pose proof (net_ne m Hm) as N0. destruct (find_node m 0 Hm N0) as [Y0 FN].
  assert (G : exists s2, star P e s1 s2 /\ find_lab P (lnode m 0) = Some (pc s2) /\ stk s2 = stk s1 /\ sav s2 = sav s1 /\ J s2 n w1).
  { destruct s1 as [pc1 rg1 fl1 xl1 xp1 stk1 sav1 out1 ob1]. cbn [pc stk sav] in *. destruct PC1 as [-> | ->].
    - assert (NE : exists Z, emit_nodes C m (fst (net_of C m)) 0 (snd (net_of C m)) ++ Y = IBind (lnode m 0) :: Z).
      { destruct (snd (net_of C m)) as [|n0 M0]; [cbn in N0; lia|]. cbn [emit_nodes app]. eauto. }
      destruct NE as [Z EZ].
      assert (EZ' : find_lab P (lnode m 0) = Some Z).
      { destruct (at_machine m Hm) as (X & W & EP). assert (FM' : find_lab P (lmach m) = Some (emit_machine C m (net_of C m) ++ W)) by (apply (find_at' P X); [exact EP|exact ND]).
        assert (FE : emit_machine C m (net_of C m) ++ W = emit_marker (N.lor (fst (net_of C m)) (2 ^ 15)) (lreq1 m) ++ emit_nodes C m (fst (net_of C m)) 0 (snd (net_of C m)) ++ Y) by congruence.
        apply (find_at' P (X ++ IBind (lmach m) :: emit_marker (N.lor (fst (net_of C m)) (2 ^ 15)) (lreq1 m))); [|exact ND].
        rewrite EP at 1. rewrite FE. rewrite EZ. asn. reflexivity. }
      rewrite EZ. eexists. split; [x1 idtac; apply star_refl|]. split; [exact EZ'|]. cbn [stk sav]. split; [reflexivity|]. split; [reflexivity|]. destruct J1. split; assumption.
    - eexists. split; [x1 ltac:(exact FN); apply star_refl|]. split; [exact FN|]. cbn [stk sav]. split; [reflexivity|]. split; [reflexivity|]. destruct J1. split; assumption. }
  destruct G as (s2 & S2 & F2 & K2 & V2 & J2).
  apply (sim_pre s s2 w w1); [eapply star_trans; eauto|exact E1|congruence|]. apply IHf; [exact Hm|exact N0|exact F2|exact J2|congruence].
Qed.
(** After the symbol. *)
Definition next_res (m i n1 : nat) : pres :=
  match atrs (node_of C m i) with
  | [] => POk n1 [end_word (fst (net_of C m)) (N.of_nat n1)]
  | [t] => run_node C u f m (fst t) n1
  | ts => match ldfa_go (c_look C m i) 0 (skipn n1 u ++ [0%N]) with
          | LExit j => run_node C u f m (fst (nth j ts (0, 0))) n1
          | LReject => PRej []
          | LMore => PWild
          end
  end.
Lemma ldfa_exit_lt L n : lcodable L n -> forall w q j, ldfa_go L q w = LExit j -> j < n.
Proof.
  intros [L0 HL]. induction w as [|c w IH]; intros q j G; cbn [ldfa_go] in G; [discriminate|].
  destruct (first_lab (nth q L []) c) as [d|] eqn:FD; [|discriminate]. destruct (0 <=? d)%Z eqn:SG; [eauto|]. injection G as <-.
  assert (DD : exists cc, In (cc, d) (nth q L [])).
  { clear - FD. induction (nth q L []) as [|[cc x] l IH]; cbn in FD; [discriminate|]. destruct (includes cc c).
    - injection FD as ->. exists cc. left. reflexivity.
    - destruct (IH FD) as [cc' H]. exists cc'. right. exact H. }
  destruct DD as [cc Hin]. destruct (HL q cc d Hin) as [_ H2]. rewrite SG in H2. exact H2.
Qed.
Lemma next_sim X m i n1 s w k q Y : m < length (c_nets C) -> i < length (snd (net_of C m)) ->
  P = X ++ emit_next C m (fst (net_of C m)) i (atrs (node_of C m i)) ++ Y -> pc s = emit_next C m (fst (net_of C m)) i (atrs (node_of C m i)) ++ Y ->
  J s n1 w -> stk s = SRet k :: q -> simres s w k q (S f) (next_res m i n1).
Proof.
  intros Hm Hi EP HPC HJ HS. destruct (node_facts m i Hm Hi) as (ND0 & _ & _ & NL). unfold next_res.
  destruct (atrs (node_of C m i)) as [|t [|t' ts]] eqn:ET.
  - cbn [emit_next] in *. rewrite <- app_assoc in HPC. destruct (find_req2 m Hm) as [Y2 FR2].
    destruct (marker_run _ _ _ _ s n1 w HPC FR2 HJ) as (s1 & w1 & S1 & E1 & PC1 & K1 & V1 & J1). rewrite <- end_word_eq in E1.
    assert (EX : exists Z, pc s1 = IRet :: Z) by (destruct PC1 as [->| ->]; [exists Y|exists Y2]; reflexivity). destruct EX as [Z PZ]. clear PC1.
    destruct s1 as [pc1 rg1 fl1 xl1 xp1 stk1 sav1 out1 ob1]. cbn [pc stk sav] in *. subst pc1. rewrite HS in K1. subst stk1.
    exists (mkS k rg1 fl1 xl1 xp1 q sav1 out1 ob1), w1. split; [eapply star_trans; [exact S1|]; x1 idtac; apply star_refl|]. split; [exact E1|]. cbn [pc stk sav]. split; [reflexivity|]. split; [reflexivity|]. split; [exact V1|].
    destruct J1. split; assumption.
  - cbn [emit_next app] in *. assert (D : fst t < length (snd (net_of C m))) by (apply ND0; left; reflexivity). destruct (find_node m (fst t) Hm D) as [Z FN].
    destruct s as [pc0 rg0 fl0 xl0 xp0 stk0 sav0 out0 ob0]. cbn [pc stk sav] in *. subst pc0.
    eapply sim_step; [eapply st_jmp; exact FN|reflexivity|]. apply IHf; [exact Hm|exact D|exact FN|destruct HJ; split; assumption|exact HS].
  - destruct (ldfa_go (c_look C m i) 0 (skipn n1 u ++ [0%N])) as [j| |] eqn:G; [| |exact I].
    + assert (LC := NL ltac:(cbn; lia)). cbn [emit_next] in *.
      destruct (ldfa_code_run1 P e ND [9; m; i] rej0 krej (map (fun t => lnode m (fst t)) (t :: t' :: ts)) (c_look C m i) X Y find_rej EP) with (w := skipn n1 u ++ [0%N]) (a := (a + N.of_nat n1)%N) (st0 := s) as (s1 & s2 & S1 & S2 & F2 & I2 & R2).
      * rewrite map_length. exact LC.
      * intros l Hl. apply in_map_iff in Hl as (t0 & <- & Ht). destruct (find_node m (fst t0) Hm (ND0 _ Ht)) as [Z FN]. rewrite FN. discriminate.
      * pose proof (text_from n1 (j_n _ _ _ HJ)) as TX. change (0%N :: pad) with ([0%N] ++ pad) in TX. rewrite app_assoc in TX. exact (text_pre _ _ _ _ TX).
      * rewrite G. discriminate.
      * exact HPC.
      * exact (j_in _ _ _ HJ).
      * rewrite G in R2. pose proof (ldfa_exit_lt _ _ LC _ _ _ G) as LJ.
        assert (NTH : nth j (map (fun t0 : nat * nat => lnode m (fst t0)) (t :: t' :: ts)) [] = lnode m (fst (nth j (t :: t' :: ts) (0, 0)))).
        { rewrite (nth_indep _ _ (lnode m (fst (0, 0)))) by (rewrite map_length; exact LJ). apply (map_nth (fun t0 : nat * nat => lnode m (fst t0))). }
        rewrite NTH in R2. assert (J2 : J s2 n1 w) by (apply (frame_J s s2 n1); [exact F2|exact HJ|exact I2|apply (j_n _ _ _ HJ)]).
        destruct F2 as (_ & _ & _ & _ & F5 & F6 & _ & _).
        assert (R : simres s2 w k q f (run_node C u f m (fst (nth j (t :: t' :: ts) (0, 0))) n1)).
        { apply IHf; [exact Hm|apply ND0, nth_In; exact LJ|exact R2|exact J2|congruence]. }
        assert (G2 : simres s w k q f (run_node C u f m (fst (nth j (t :: t' :: ts) (0, 0))) n1)) by (apply (sim_star s s2); [eapply star_step; [exact S1|exact S2]|exact F6|exact R]).
        destruct (run_node C u f m (fst (nth j (t :: t' :: ts) (0, 0))) n1); try exact G2. cbn [simres] in R |- *. destruct R as (N0 & s3 & L & S3). destruct (star_steps_app _ _ _ _ _ _ S2 S3) as (k0 & L0 & S4).
        exists (S k0), s3. split; [lia|]. econstructor; eauto.
    + assert (LC := NL ltac:(cbn; lia)). cbn [emit_next] in *.
      destruct (ldfa_code_run P e ND [9; m; i] rej0 krej (map (fun t => lnode m (fst t)) (t :: t' :: ts)) (c_look C m i) X Y find_rej EP) with (w := skipn n1 u ++ [0%N]) (a := (a + N.of_nat n1)%N) (st0 := s) as (s2 & S2 & F2 & I2 & R2).
      * rewrite map_length. exact LC.
      * intros l Hl. apply in_map_iff in Hl as (t0 & <- & Ht). destruct (find_node m (fst t0) Hm (ND0 _ Ht)) as [Z FN]. rewrite FN. discriminate.
      * pose proof (text_from n1 (j_n _ _ _ HJ)) as TX. change (0%N :: pad) with ([0%N] ++ pad) in TX. rewrite app_assoc in TX. exact (text_pre _ _ _ _ TX).
      * rewrite G. discriminate.
      * exact HPC.
      * exact (j_in _ _ _ HJ).
      * rewrite G in R2. destruct F2 as (_ & _ & _ & _ & _ & F6 & F7 & _). exists s2, w. split; [exact S2|]. split; [reflexivity|]. split; [exact R2|]. split; [exact F6|]. rewrite F7. apply (j_out _ _ _ HJ).
Qed.
End Step.
Lemma run_node_S f m i n : run_node C u (S f) m i n =
  match nt (node_of C m i) with
  | NInv id =>
    match net_index (c_nets C) id with
    | None => PWild
    | Some m' => match pre [start_word (fst (net_of C m')) (N.of_nat n)] (run_node C u f m' 0 n) with
                 | POk n1 ws => pre ws (next_res f m i n1)
                 | r => r
                 end
    end
  | t => match term_step C u n t with Some n1 => next_res f m i n1 | None => PRej [] end
  end.
Proof. reflexivity. Qed.
Theorem node_sim : forall f m i n s w k q, m < length (c_nets C) -> i < length (snd (net_of C m)) ->
  find_lab P (lnode m i) = Some (pc s) -> J s n w -> stk s = SRet k :: q -> simres s w k q f (run_node C u f m i n).
Proof.
  induction f as [|f IH]; intros m i n s w k q Hm Hi HF HJ HS.
  { exists 0, s. split; [lia|constructor]. }
  rewrite run_node_S. destruct (at_node m i Hm Hi) as (X & Y & EP).
  assert (HPC : pc s = emit_node C m (fst (net_of C m)) i (node_of C m i) ++ Y). { rewrite (find_at' P X _ _ EP ND) in HF. congruence. }
  unfold emit_node in EP, HPC. rewrite <- app_assoc in EP, HPC.
  destruct (node_facts m i Hm Hi) as (_ & NLit0 & NReg0 & _).
  assert (EP2 : P = (X ++ IBind (lnode m i) :: emit_sym C m i (nt (node_of C m i))) ++ emit_next C m (fst (net_of C m)) i (atrs (node_of C m i)) ++ Y) by (rewrite EP at 1; asn; reflexivity).
  assert (TERM : (forall id, nt (node_of C m i) <> NInv id) -> simres s w k q (S f) (match term_step C u n (nt (node_of C m i)) with Some n1 => next_res f m i n1 | None => PRej [] end)).
  { intros NI. assert (EP1 : P = (X ++ [IBind (lnode m i)]) ++ emit_sym C m i (nt (node_of C m i)) ++ emit_next C m (fst (net_of C m)) i (atrs (node_of C m i)) ++ Y) by (rewrite EP at 1; asn; reflexivity).
    destruct (sym_run _ m i _ _ s n w EP1 NI NLit0 NReg0 HPC HJ) as (s1 & S1 & F1 & R1). destruct F1 as (_ & _ & _ & _ & F5 & F6 & F7 & _).
    destruct (term_step C u n (nt (node_of C m i))) as [n1|].
    - destruct R1 as [P1 J1]. apply (sim_star s s1); [exact S1|exact F6|]. apply (next_sim f IH _ m i n1 s1 w k q Y Hm Hi EP2 P1 J1). congruence.
    - exists s1, w. split; [exact S1|]. split; [reflexivity|]. split; [exact R1|]. split; [exact F6|]. rewrite F7. apply (j_out _ _ _ HJ). }
  destruct (nt (node_of C m i)) as [|id|l|A|] eqn:ENT; try (apply TERM; discriminate).
  clear TERM. destruct (net_index (c_nets C) id) as [m'|] eqn:EI; [|exact I].
  pose proof (net_index_lt _ _ _ EI) as Hm'. destruct (find_mach m' Hm') as [Y' FM].
  cbn [emit_sym app] in HPC, EP2. unfold lcall in HPC, EP2. rewrite EI in HPC, EP2.
  set (kn := emit_next C m (fst (net_of C m)) i (atrs (node_of C m i)) ++ Y) in *.
  destruct s as [pc0 rg0 fl0 xl0 xp0 stk0 sav0 out0 ob0]. cbn [pc stk] in *. subst pc0.
  set (s1 := mkS (emit_marker (N.lor (fst (net_of C m')) (2 ^ 15)) (lreq1 m') ++ emit_nodes C m' (fst (net_of C m')) 0 (snd (net_of C m')) ++ Y') rg0 fl0 xl0 xp0 (SRet kn :: stk0) sav0 out0 ob0).
  assert (S1 : step P e (mkS (ICall (lmach m') :: kn) rg0 fl0 xl0 xp0 stk0 sav0 out0 ob0) = Next s1) by (apply st_call; exact FM).
  assert (J1 : J s1 n w) by (destruct HJ; split; assumption).
  pose proof (machine_sim f IH m' n s1 w kn stk0 Hm' FM J1 eq_refl) as R.
  destruct (pre [start_word (fst (net_of C m')) (N.of_nat n)] (run_node C u f m' 0 n)) as [n1 ws|ws| |] eqn:ER.
  - destruct R as (s2 & w2 & S2 & E2 & P2 & K2 & V2 & J2).
    apply (sim_pre _ s2 w w2); [eapply star_step; [exact S1|exact S2]|exact E2|exact V2|].
    apply (next_sim f IH (X ++ [IBind (lnode m i); ICall (lmach m')]) m i n1 s2 w2 k q Y Hm Hi); [|exact P2|exact J2|congruence].
    rewrite EP2 at 1. unfold kn. asn. reflexivity.
  - destruct R as (s2 & w2 & S2 & E2 & P2 & V2 & O2). exists s2, w2. split; [eapply star_step; [exact S1|exact S2]|]. auto.
  - exact I.
  - destruct R as (N0 & s2 & L & S2). exists (S N0), s2. split; [lia|]. econstructor; eauto.
Qed.

(** ** The whole parser *)
(** A call of the parser, ParserEM64T::operator() (CodeGenEM64T.hpp:87-91): context, input, first page. *)
Definition start_state (r : reg -> N) (x p : list N) (sv q : list slot) : st :=
  mkS P r None x p (SRet [] :: q) sv (winit (stale e)) (page_addr e 0).
Definition banks (s : st) : list (list N) := rev (page (out s) :: released (out s)).
Lemma landfill_run : forall d s k n w, pos w + S d = B -> pc s = [IStore OUTPUT MARKER; IAddI OUTPUT 8; ICmp OUTPUT BOUND; IJcc JNE lland] ++ k ->
  find_lab P lland = Some (pc s) -> rg s RAX = 0%N -> J s n w ->
  exists s' w', star P e s s' /\ (forall d', d < d' -> landfill B B d' w = Ok w') /\ pc s' = k /\ stk s' = stk s /\ sav s' = sav s /\ out s' = w' /\ rg s' RSI = rg s RSI.
Proof.
  induction d as [|d IH]; intros s k n w HD HPC HF HAX [JI JB JC JO JOB JDI JDX JP JN].
  - destruct s as [pc0 rg0 fl0 xl0 xp0 stk0 sav0 out0 ob0]. cbn [pc rg out obase stk sav] in *. subst pc0 out0.
    pose proof (HPA (length (released w))) as HPw. rewrite <- JOB in HPw.
    set (w1 := mkW (released w) (store (page w) (pos w) 0%N) (S (pos w))).
    assert (OFF : sub64 (rg0 RDI) ob0 = (8 * N.of_nat (pos w))%N) by (rewrite JDI, sub64_le; lia).
    eexists _, w1. split; [|split].
    { eapply star_step; [apply (st_store _ rg0 _ _ _ _ _ _ _ _ _ (pos w)); [exact OFF|exact JP]|]. rewrite HAX. x1 idtac. x1 idtac. eapply star_step; [apply st_jcc_f|apply star_refl].
      unfold eval_cond, setr. cbn [reg_eqb]. rewrite w64_small by lia. rewrite JDI, JDX. replace (N.of_nat B) with (N.of_nat (pos w) + 1)%N by lia. replace (_ =? _)%N with true by lia. reflexivity. }
    { intros d' Hd'. destruct d' as [|d']; [lia|]. cbn [landfill]. replace (pos w <? B) with true by lia. cbn [Writer.pos]. replace (S (pos w) =? B) with true by lia. reflexivity. }
    cbn [pc stk sav out rg]. unfold setr; cbn [reg_eqb]. auto.
  - destruct s as [pc0 rg0 fl0 xl0 xp0 stk0 sav0 out0 ob0]. cbn [pc rg out obase stk sav] in *. subst pc0 out0.
    pose proof (HPA (length (released w))) as HPw. rewrite <- JOB in HPw.
    set (w1 := mkW (released w) (store (page w) (pos w) 0%N) (S (pos w))).
    assert (OFF : sub64 (rg0 RDI) ob0 = (8 * N.of_nat (pos w))%N) by (rewrite JDI, sub64_le; lia).
    set (rg1 := setr RDI (w64 (rg0 RDI + 8)) rg0). assert (RD : rg1 RDI = (rg0 RDI + 8)%N) by (change (rg1 RDI) with (w64 (rg0 RDI + 8)); apply w64_small; lia).
    set (s1 := mkS ([IStore OUTPUT MARKER; IAddI OUTPUT 8; ICmp OUTPUT BOUND; IJcc JNE lland] ++ k) rg1 (Some (rg1 RDI, rg1 RDX)) xl0 xp0 stk0 sav0 w1 ob0).
    assert (S1 : star P e (mkS ([IStore OUTPUT MARKER; IAddI OUTPUT 8; ICmp OUTPUT BOUND; IJcc JNE lland] ++ k) rg0 fl0 xl0 xp0 stk0 sav0 w ob0) s1).
    { cbn [app]. eapply star_step; [apply (st_store _ rg0 _ _ _ _ _ _ _ _ _ (pos w)); [exact OFF|exact JP]|]. rewrite HAX. fold w1. x1 idtac. fold rg1. x1 idtac. eapply star_step; [apply st_jcc_t; [|exact HF]|apply star_refl].
      unfold eval_cond. rewrite RD. change (rg1 RDX) with (rg0 RDX). rewrite JDI, JDX. replace (_ =? _)%N with false by lia. reflexivity. }
    destruct (IH s1 k n w1) as (s2 & w2 & S2 & L2 & P2 & K2 & V2 & O2 & I2).
    + unfold w1. cbn [Writer.pos]. lia.
    + reflexivity.
    + exact HF.
    + exact HAX.
    + split; try assumption; try reflexivity; [change (rg s1 RDI) with (rg1 RDI); change (obase s1) with ob0; unfold w1; cbn [Writer.pos]; rewrite RD; lia|unfold w1; cbn [Writer.pos]; lia].
    + exists s2, w2. split; [eapply star_trans; [exact S1|exact S2]|]. split; [|auto].
      intros d' Hd'. destruct d' as [|d']; [lia|]. cbn [landfill]. replace (pos w <? B) with true by lia. cbn [Writer.pos]. replace (S (pos w) =? B) with false by lia. apply L2. lia.
Qed.

(** The outcome of a call. *)
Theorem parser_run r x p sv q m : net_index (c_nets C) root = Some m -> r RDI = ctx e -> r RSI = a -> r RDX = page_addr e 0 ->
  forall f, match run_machine C u f m 0 with
  | POk n ws => exists s, star P e (start_state r x p sv q) s /\ pc s = [] /\ rg s RAX = (a + N.of_nat n)%N /\ write_accept B B (stale e) ws = Ok (banks s) /\
                  (forall i, i <> RAX -> rg s i = r i) /\ stk s = q /\ sav s = sv /\ n <= length u
  | PRej ws => exists s, star P e (start_state r x p sv q) s /\ pc s = [] /\ rg s RAX = 0%N /\ write_reject B B (stale e) ws = Ok (banks s) /\
                  (forall i, i <> RAX -> rg s i = r i) /\ stk s = q /\ sav s = sv
  | PFuel => exists N s, f <= N /\ steps P e N (start_state r x p sv q) s
  | PWild => True
  end.
Proof.
  intros HM R1 R2 R3 f. pose proof (net_index_lt _ _ _ HM) as Hm.
  set (k0 := [SVal (r RBX); SVal (r RCX); SVal (r RDX); SVal (r RSI); SVal (r RDI); SVal (r RBP); SVal (r R8); SSav sv; SRet []] ++ q).
  set (kc := [IXor MARKER MARKER; IBind lland; IStore OUTPUT MARKER; IAddI OUTPUT 8; ICmp OUTPUT BOUND; IJcc JNE lland; IFence; IJmp lfin] ++ emit_machines C 0 (c_nets C) ++ [IBind lfin] ++ epilog [] rej0).
  destruct (find_mach m Hm) as [Y FM]. set (km := emit_marker (N.lor (fst (net_of C m)) (2 ^ 15)) (lreq1 m) ++ emit_nodes C m (fst (net_of C m)) 0 (snd (net_of C m)) ++ Y) in *.
  set (rg1 := setr RBP (r RSI) (setr RDX (w64 (r RDX + c_buf C)) (setr RDX (r RDX) (setr RDI (r RDX) (setr RSI (r RSI) (setr R8 (r RDI) r)))))).
  set (s1 := mkS km rg1 None x p (SRet kc :: k0) k0 (winit (stale e)) (page_addr e 0)).
  assert (S1 : star P e (start_state r x p sv q) s1).
  { unfold start_state. unfold parser_code at 2. unfold parser_head. cbn [prolog app]. do 9 (x1 idtac). do 3 (x1 ltac:(reflexivity)). do 3 (x1 idtac).
    unfold lcall. rewrite HM. x1 ltac:(exact FM). apply star_refl. }
  assert (J1 : J s1 0 (winit (stale e))).
  { pose proof (HPA 0). split; try assumption; try reflexivity.
    - change (r RSI = (a + N.of_nat 0)%N). rewrite R2. cbn. lia.
    - change (r RDX = (page_addr e 0 + 8 * N.of_nat 0)%N). rewrite R3. cbn. lia.
    - change (w64 (r RDX + c_buf C) = (page_addr e 0 + 8 * N.of_nat B)%N). rewrite R3, HBc. apply w64_small. apply HPA.
    - lia. }
  assert (FA : find_lab P [3] = Some (skipn 6 (epilog [] rej0))).
  { apply (find_at' P (prolog ++ parser_head C root ++ emit_machines C 0 (c_nets C) ++ [IBind lfin] ++ firstn 5 (epilog [] rej0))); [|exact ND]. unfold parser_code. asn. reflexivity. }
  assert (FL : find_lab P lland = Some ([IStore OUTPUT MARKER; IAddI OUTPUT 8; ICmp OUTPUT BOUND; IJcc JNE lland] ++ [IFence; IJmp lfin] ++ emit_machines C 0 (c_nets C) ++ [IBind lfin] ++ epilog [] rej0)).
  { apply (find_at' P (prolog ++ firstn 8 (parser_head C root))); [|exact ND]. unfold parser_code. asn. reflexivity. }
  pose proof (machine_sim f (node_sim f) m 0 s1 (winit (stale e)) kc k0 Hm FM J1 eq_refl) as R. fold (run_machine C u f m 0) in R.
  destruct (run_machine C u f m 0) as [n ws|ws| |]; cbn [simres] in R.
  - destruct R as (s2 & w2 & S2 & E2 & P2 & K2 & V2 & J2). pose proof (j_pos _ _ _ J2) as JP2. pose proof (j_in _ _ _ J2) as JI2. pose proof (j_n _ _ _ J2) as JN2.
    destruct s2 as [pc2 rg2 fl2 xl2 xp2 stk2 sav2 out2 ob2]. cbn [pc stk sav rg] in *. subst pc2 stk2 sav2.
    set (s3 := mkS ([IStore OUTPUT MARKER; IAddI OUTPUT 8; ICmp OUTPUT BOUND; IJcc JNE lland] ++ [IFence; IJmp lfin] ++ emit_machines C 0 (c_nets C) ++ [IBind lfin] ++ epilog [] rej0)
                   (setr RAX (N.lxor (rg2 RAX) (rg2 RAX)) rg2) None xl2 xp2 k0 k0 out2 ob2).
    assert (S3 : star P e (mkS kc rg2 fl2 xl2 xp2 k0 k0 out2 ob2) s3) by (unfold kc; cbn [app]; do 2 (x1 idtac); apply star_refl).
    destruct (landfill_run (B - S (pos w2)) s3 ([IFence; IJmp lfin] ++ emit_machines C 0 (c_nets C) ++ [IBind lfin] ++ epilog [] rej0) n w2) as (s4 & w4 & S4 & L4 & P4 & K4 & V4 & O4 & I4).
    + lia.
    + reflexivity.
    + exact FL.
    + change (N.lxor (rg2 RAX) (rg2 RAX) = 0%N). apply N.lxor_nilpotent.
    + destruct J2 as [A1 A2 A3 A4 A5 A6 A7 A8 A9]. split; assumption.
    + destruct s4 as [pc4 rg4 fl4 xl4 xp4 stk4 sav4 out4 ob4]. cbn [pc stk sav out rg] in *. subst pc4 stk4 sav4 out4.
      eexists. split.
      { eapply star_trans; [exact S1|]. eapply star_trans; [exact S2|]. eapply star_trans; [exact S3|]. eapply star_trans; [exact S4|].
        cbn [app]. x1 idtac. x1 ltac:(exact find_fin). unfold kfin, epilog. x1 idtac. x1 ltac:(exact FA). unfold epilog. cbn [skipn]. change (stk s3) with k0. change (sav s3) with k0. unfold k0. cbn [app]. do 9 (x1 idtac). apply star_refl. }
      cbn [pc rg stk sav]. split; [reflexivity|]. split; [change (rg4 RSI = (a + N.of_nat n)%N); rewrite I4; exact JI2|]. split.
      { unfold write_accept. rewrite E2. cbn [obind]. rewrite L4 by lia. reflexivity. }
      split; [|auto]. intros i Hi. destruct i; try reflexivity. congruence.
  - destruct R as (s2 & w2 & S2 & E2 & P2 & V2 & O2). destruct s2 as [pc2 rg2 fl2 xl2 xp2 stk2 sav2 out2 ob2]. cbn [pc stk sav rg out] in *. subst pc2 sav2 out2.
    eexists. split.
    { eapply star_trans; [exact S1|]. eapply star_trans; [exact S2|]. unfold krej, epilog. cbn [skipn]. x1 idtac. x1 idtac. x1 idtac. change (sav s1) with k0. unfold k0. cbn [app]. do 9 (x1 idtac). apply star_refl. }
    cbn [pc rg stk sav]. split; [reflexivity|]. split; [reflexivity|]. split; [unfold write_reject; rewrite E2; reflexivity|].
    split; [|auto]. intros i Hi. destruct i; try reflexivity. congruence.
  - exact I.
  - destruct R as (N0 & s2 & L & S2). destruct (star_steps_app _ _ _ _ _ _ S1 S2) as (k1 & L1 & S3). exists k1, s2. split; [lia|exact S3].
Qed.
End Sim.
