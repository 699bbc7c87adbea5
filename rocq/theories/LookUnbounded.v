(** * Exactly when a decision has a table, in terms of the rules *)
From Coq Require Import List NArith ZArith Arith Bool Lia ZifyBool ZifyN ZifyNat Relations.
From Verif Require Import CharClass CharClassSpec Stream NFA NFASem NFAProofs DFA DFAMin DFADep DFAProofs DFATerm DFAPattern ATN Grammar GrammarProofs CodeGen ParseSpec Lookahead LookSpec LookImport LookClosure LookAuto LookFuel LookEnds LookMain LookGrammarSpec LookRead LookSim LookGrammar LookStuck LookTable TableSpec LookStuckSim.
Import ListNotations.
Local Open Scope nat_scope.

Section Unbounded.
Variable nets : list (list N * (N * atn)).
Variable D : list (list N * cmach).
Hypothesis HN : lookable nets.
Hypothesis HD : composite nets = Some D.
Hypothesis ACP : forall r i A, known nets r -> i < length (net nets r) -> sym nets r i = NReg A -> acyc A.
Variables (r : list N) (i : nat).
Hypothesis HK : known nets r.
Hypothesis Hi : i < length (net nets r).
Hypothesis HC : closed_end (sym nets r i).
Hypothesis H2 : 2 <= length (outs nets r i).

Lemma several_two w : several D r (exit_ nets r i) [] w <-> two_alts nets r i w.
Proof.
  clear ACP.
  unfold several, two_alts. split; intros (k & k' & A1 & A2 & A3); exists k, k'; (split; [exact A1|]); split; apply (branch_iff nets D HN HD r i _ w HK Hi HC H2); assumption.
Qed.
Lemma root_node : exists n, node_at D [(r, exit_ nets r i)] = Some n /\ ctrs n = map (fun x => mkCT (entry_lab (sym nets r (fst x))) (entry nets r (fst x)) (snd x)) (outs nets r i).
Proof.
  clear ACP.
  destruct (node_exit nets D HN HD r i [] HK Hi) as (c & C1 & _ & _ & C3). rewrite (frag_closed _ _ (size_pos nets HN r i HK Hi) HC) in C3. cbn [app] in C3. exists c. split; [exact C1|]. exact C3.
Qed.
Lemma start_interp d g : In (d, g) (outs nets r i) -> interp nets (At [(r, entry nets r d)]) (Before [(r, d)]) [].
Proof.
  clear ACP.
  intros Hd. pose proof (out_lt nets HN r i d g HK Hi Hd) as Ld. rewrite <- (Nat.add_0_r (entry nets r d)). apply (I_at nets r d 0 [] []); [exact HK|exact Ld|constructor|]. apply (fpos_start nets HN); [exact HK|exact Ld|]. exact (not_lit nets HN r i d g HK Hi H2 Hd).
Qed.
Theorem unbounded_stuck n : node_at D [(r, exit_ nets r i)] = Some n -> nowhere_stuck D r (exit_ nets r i) n -> ~ unbounded nets r i.
Proof.
  clear ACP. intros Hn. destruct root_node as (n' & Hn' & C3). rewrite Hn in Hn'. injection Hn' as <-.
  - intros NS (w & n0 & k & d & t & y & HW & N1 & N2 & TX & NW). apply (node_of_iff nets) in N1 as (_ & _ & ->). fold (outs nets r i) in N2. pose proof (nth_error_In _ _ N2) as Hd. pose proof (out_lt nets HN r i d t HK Hi Hd) as Ld.
    destruct (sim_runs nets D HN HD _ _ _ TX (At [(r, entry nets r d)])) as (x & R & HI).
    { apply (g_before nets r d []); [exact HK|exact Ld|constructor|exact (not_lit nets HN r i d t HK Hi H2 Hd)]. }
    apply (NS w k (mkCT (entry_lab (sym nets r d)) (entry nets r d) t) x).
    + destruct HW as [->|HW]; [left; reflexivity|right; apply several_two; exact HW].
    + rewrite C3, nth_error_map, N2. reflexivity.
    + exact R.
    + exact (rules_stuck nets D HN HD y x HI NW).
Qed.
Theorem stuck_unbounded n : node_at D [(r, exit_ nets r i)] = Some n -> ~ unbounded nets r i -> nowhere_stuck D r (exit_ nets r i) n.
Proof.
  intros Hn. destruct root_node as (n' & Hn' & C3). rewrite Hn in Hn'. injection Hn' as <-.
  - intros NU w k t x HW Ht R HS. rewrite C3, nth_error_map in Ht. destruct (nth_error (outs nets r i) k) as [[d g]|] eqn:E; [|discriminate]. injection Ht as <-. cbn [cdest fst] in R. pose proof (nth_error_In _ _ E) as Hd.
    destruct (sim_run nets D HN HD _ _ _ R _ _ (start_interp d g Hd)) as (y & a & u & HI & TX & EW). cbn [app] in EW.
    destruct (stuck_rules nets D HN HD ACP x y u HI HS) as (y' & T2 & NW). apply NU. exists w, (nth i (net nets r) blank), k, d, g, y'.
    split; [destruct HW as [->|HW]; [left; reflexivity|right; apply several_two; exact HW]|]. split; [apply node_of_iff; auto|]. split; [exact E|]. split; [|exact NW]. rewrite EW. eapply texts_trans; eassumption.
Qed.
Lemma decision_is f cf : decision D f cf r i = ldfa_build D f cf [(r, exit_ nets r i)].
Proof.
  clear ACP.
  unfold decision. destruct root_node as (n & Hn & _). destruct (mach D r) as [Q|] eqn:E; [|cbn [node_at] in Hn; rewrite E in Hn; discriminate]. rewrite (convert_exit nets D HN HD r i Q HK Hi E). reflexivity.
Qed.
Theorem table_exists : ~ unbounded nets r i -> exists k T, decision D k k r i = SOk T.
Proof.
  intros NU. destruct root_node as (n & Hn & _). destruct (table_if D (composite_ok nets D HN HD) r _ n Hn (stuck_unbounded n Hn NU)) as (f & cf & T & E).
  exists (Nat.max f cf), T. rewrite <- decision_is in E. rewrite <- E. apply (decision_more D); [lia|lia|rewrite E; discriminate].
Qed.
Theorem table_bounded f cf T : no_levels nets -> decision D f cf r i = SOk T -> ~ unbounded nets r i.
Proof.
  clear ACP. intros NL E. destruct root_node as (n & Hn & _). apply (unbounded_stuck n Hn). rewrite decision_is in E. exact (table_only_if D r _ n Hn f cf T (levels_flat nets D HN HD NL) E).
Qed.
End Unbounded.
