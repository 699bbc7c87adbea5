(** * Grammars whose decisions all have tables *)
From Coq Require Import List NArith ZArith Arith Bool Lia ZifyBool ZifyN ZifyNat Relations Relation_Operators.
From Verif Require Import CharClass Stream NFA NFASem NFABuild DFA RegexSpec GrammarSpec TreeSpec ParseSpec EmptySpec ATN ATNSem ATNBuild ATNLive ATNLoop Grammar GrammarProofs ParserTree ParserGround LookGrammarSpec TableSpec LookRead LookSim LookEmpty.
Import ListNotations.
Local Open Scope nat_scope.

Section Bounded.
Variable nets : list (list N * (N * atn)).
Hypothesis HN : lookable nets.
Variable rules : list N -> option (N * gsel).
Hypothesis HR : forall r g M, In (r, (g, M)) nets -> exists e, rules r = Some (g, e) /\ net_for e M /\ forall p, In (TPat p) (gsel_terms e) -> pat_ok p /\ pat_nl p.
Notation known := (known nets).
Notation net := (net nets).
Notation sym := (sym nets).
Notation outs := (outs nets).
Notation em2 := (em2 rules).

(** ** Within one rule *)
(** Before node i: (false, i); behind it: (true, i).  Steps that need not read anything but white space. *)
Inductive nmove (r : list N) : bool * nat -> bool * nat -> Prop :=
| nm_pass i : i < length (net r) -> Forall em2 (rd (net r) i) -> nmove r (false, i) (true, i)
| nm_next i d : In d (dests (net r) i) -> nmove r (true, i) (false, d).
Notation nreach r := (clos_refl_trans_n1 _ (nmove r)).
Lemma nreach_trans r a b c : nreach r a b -> nreach r b c -> nreach r a c.
Proof. intros H1 H2. apply clos_rt_rtn1. eapply rt_trans; apply clos_rtn1_rt; eassumption. Qed.
Lemma nreach_path r i x : nreach r (true, i) x -> match x with
  | (true, j) => exists w, apath (net r) i w j /\ Forall em2 w
  | (false, j) => exists k w, apath (net r) i w k /\ Forall em2 w /\ In j (dests (net r) k) end.
Proof.
  induction 1 as [|y z M _ IH]; [exists []; split; constructor|]. inversion M as [j Hj F|k j Hd]; subst.
  - destruct IH as (k & w & P & FW & Hk). exists (w ++ rd (net r) j). split; [|apply Forall_app; auto]. eapply path_app; [exact P|]. rewrite <- (app_nil_r (rd (net r) j)). econstructor; [exact Hk|constructor].
  - destruct IH as (w & P & FW). exists k, w. auto.
Qed.
Lemma first_blank r : known r -> rd (net r) 0 = [].
Proof. intros K. destruct (known_rule nets HN rules HR r K) as (g & e & _ & NF & _). unfold rd. rewrite (wn_first _ (net_for_wf _ _ NF)). reflexivity. Qed.
Lemma nreach_start r x : known r -> nreach r (false, 0) x -> x = (false, 0) \/ nreach r (true, 0) x.
Proof.
  intros K. induction 1 as [|y z M _ IH]; [left; reflexivity|]. right. destruct IH as [->|IH]; [inversion M; subst; constructor|]. econstructor; eassumption.
Qed.
Lemma last_node r i : known r -> i < length (net r) -> outs r i = [] -> i = length (net r) - 1.
Proof.
  intros K Hi E. destruct (known_rule nets HN rules HR r K) as (g & e & _ & NF & _). destruct (Nat.eq_dec i (length (net r) - 1)); [assumption|]. exfalso. apply (wn_go _ (net_for_wf _ _ NF) i); [lia|]. unfold dests, tonode. fold (outs r i). rewrite E. reflexivity.
Qed.
(** A rule passed from its first node to its last can be empty. *)
Lemma through r i : known r -> i < length (net r) -> outs r i = [] -> nreach r (false, 0) (true, i) -> em2 (NInv r).
Proof.
  intros K Hi E H. destruct (nreach_start r _ K H) as [H'|H']; [discriminate|]. apply nreach_path in H' as (w & P & F). rewrite (last_node r i K Hi E) in P. exact (rule_empty nets HN rules HR r w K P F).
Qed.
Lemma starts r i s : known r -> i < length (net r) -> nreach r (false, 0) (false, i) -> sym r i = NInv s -> starts_with rules patL r s.
Proof.
  intros K Hi H Es. destruct (known_rule nets HN rules HR r K) as (g & e & R & NF & HP). destruct (nreach_start r _ K H) as [H'|H'].
  - injection H' as ->. exfalso. pose proof (wn_first _ (net_for_wf _ _ NF)) as W. unfold tonode in W. change (sym r 0 = NBlank) in W. congruence.
  - apply nreach_path in H' as (k & w & P & F & Hk). destruct (net_for_reach e _ NF i Hi) as [w' Q].
    assert (A : apath (net r) 0 (w ++ NInv s :: w') (length (net r) - 1)).
    { eapply path_app; [exact P|]. change (NInv s :: w') with ([NInv s] ++ w'). replace [NInv s] with (rd (net r) i); [econstructor; [exact Hk|exact Q]|]. unfold rd, tonode. change (reads (sym r i) = [NInv s]). rewrite Es. reflexivity. }
    apply (net_for_language e _ NF) in A. destruct (proj2 (proj2 lift_all) e _ A) as (v & V1 & V2 & V3). symmetry in V2. destruct (words_split _ _ _ _ V2) as (v1 & v2 & -> & X1 & X2).
    exists g, e, v1, v2. split; [exact R|]. split; [exact V1|]. apply word_empty; [|rewrite X1; exact F]. intros p Hp. apply (HP p). apply V3. apply in_or_app. auto.
Qed.
Lemma reach_path r i : known r -> i < length (net r) -> exists w, apath (net r) 0 w i /\ (i <> 0 -> exists w', w = w' ++ rd (net r) i).
Proof.
  intros K Hi. destruct (known_net nets HN r K) as [g Hg]. pose proof (lk_reach _ HN _ _ _ i Hg Hi) as Q. clear Hi. induction Q as [|i d t Q IH Hd]; [exists []; split; [constructor|congruence]|].
  destruct IH as (w & P & _). exists (w ++ rd (net r) d). split; [|eauto]. eapply path_app; [exact P|]. rewrite <- (app_nil_r (rd (net r) d)). econstructor; [|constructor]. apply (in_map fst) in Hd. exact Hd.
Qed.
Lemma ends r i s e0 : known r -> i < length (net r) -> e0 < length (net r) -> outs r e0 = [] -> nreach r (true, i) (true, e0) -> sym r i = NInv s -> ends_with rules patL r s.
Proof.
  intros K Hi He E H Es. rewrite (last_node r e0 K He E) in H. destruct (known_rule nets HN rules HR r K) as (g & e & R & NF & HP). apply nreach_path in H as (w' & P & F).
  destruct (reach_path r i K Hi) as (w & Q & QE). assert (Ni : i <> 0). { intros ->. pose proof (wn_first _ (net_for_wf _ _ NF)) as W. unfold tonode in W. change (sym r 0 = NBlank) in W. congruence. }
  destruct (QE Ni) as [w0 ->]. assert (A : apath (net r) 0 (w0 ++ NInv s :: w') (length (net r) - 1)).
  { replace (w0 ++ NInv s :: w') with ((w0 ++ rd (net r) i) ++ w'); [eapply path_app; eassumption|]. rewrite <- app_assoc. f_equal. unfold rd, tonode. change (reads (sym r i) ++ w' = NInv s :: w'). rewrite Es. reflexivity. }
  apply (net_for_language e _ NF) in A. destruct (proj2 (proj2 lift_all) e _ A) as (v & V1 & V2 & V3). symmetry in V2. destruct (words_split _ _ _ _ V2) as (v1 & v2 & -> & X1 & X2).
  exists g, e, v1, v2. split; [exact R|]. split; [exact V1|]. apply word_empty; [|rewrite X2; exact F]. intros p Hp. apply (HP p). apply V3. apply in_or_app. right. right. exact Hp.
Qed.

(** ** Stacks reached without reading anything but white space *)
Hypothesis VIS : forall r i u, known r -> i < length (net r) -> spells (sym r i) u -> spaces u -> sym r i <> NWs -> u = [].
Lemma passable r i u : known r -> i < length (net r) -> spells (sym r i) u -> spaces u -> Forall em2 (rd (net r) i).
Proof.
  intros K Hi S B. unfold rd, tonode. change (Forall em2 (reads (sym r i))). pose proof (VIS r i u K Hi S B) as V. pose proof (lit_len nets HN r i) as LL. destruct (sym r i) as [|s|s|A|]; cbn [reads spells] in *; try (constructor; fail).
  - destruct S.
  - subst u. specialize (V ltac:(discriminate)). destruct s; [destruct (LL [] K Hi eq_refl eq_refl)|discriminate].
  - constructor; [|constructor]. rewrite (V ltac:(discriminate)) in S. exact S.
  - constructor; [exact Logic.I|constructor].
Qed.
(** The stack, up to the tail U: its bottom frame is in rule b0 and has been reached from x0; every other frame has been reached from the first node of its rule. *)
Inductive stk (U : list (list N * nat)) (b0 : list N) (x0 : bool * nat) : bool -> list (list N * nat) -> Prop :=
| stk_bot sd i : known b0 -> i < length (net b0) -> nreach b0 x0 (sd, i) -> stk U b0 x0 sd ((b0, i) :: U)
| stk_up r i sd s j up : known r -> i < length (net r) -> nreach r (false, 0) (sd, i) -> stk U b0 x0 false ((s, j) :: up) -> sym s j = NInv r -> stk U b0 x0 sd ((r, i) :: (s, j) :: up).
Definition okp U b0 x0 (y : spos) : Prop := match y with Before p => stk U b0 x0 false p | After p => stk U b0 x0 true p end.
Lemma stk_step U b0 x0 sd r i up sd' i' : stk U b0 x0 sd ((r, i) :: up) -> nmove r (sd, i) (sd', i') -> i' < length (net r) -> stk U b0 x0 sd' ((r, i') :: up).
Proof.
  intros H M Hi'. inversion H as [? ? K Hi P|? ? ? s j up' K Hi P HS Es]; subst.
  - apply stk_bot; [assumption..|econstructor; eassumption].
  - apply stk_up; try assumption. econstructor; eassumption.
Qed.
Lemma stk_len U b0 x0 sd p : stk U b0 x0 sd p -> length U < length p.
Proof. induction 1; cbn [length] in *; lia. Qed.
Lemma stk_base U b0 x0 sd r i : stk U b0 x0 sd ((r, i) :: U) -> r = b0 /\ nreach b0 x0 (sd, i) /\ known b0 /\ i < length (net b0).
Proof.
  intros H. inversion H as [? ? K Hi P|? ? ? s j up' K Hi P HS Es]; subst; [auto|]. apply stk_len in HS. cbn [length] in HS. lia.
Qed.
(** One move. *)
Lemma ok_move U b0 x0 y w z : okp U b0 x0 y -> tmove nets y w z -> spaces w ->
  okp U b0 x0 z \/ (exists e, y = After ((b0, e) :: U) /\ outs b0 e = [] /\ known b0 /\ e < length (net b0) /\ nreach b0 x0 (true, e) /\ w = [] /\
                      ((U <> [] /\ z = After U) \/ exists s j, U = [] /\ z = After [(s, j)] /\ known s /\ j < length (net s) /\ sym s j = NInv b0)).
Proof.
  intros H M B. inversion M as [p n v E1 E2|p n s E1 E2|r i up n d t E1 E2|a b up n E1 E2|r i n s j n' E1 E2 E3 E4]; subst; cbn [okp] in *.
  - left. destruct p as [|[r i] up]; [discriminate|]. apply (node_of_iff nets) in E1 as (K & Hi & ->). eapply stk_step; [exact H| |exact Hi]. constructor; [exact Hi|]. exact (passable r i w K Hi E2 B).
  - left. destruct p as [|[r i] up]; [discriminate|]. apply (node_of_iff nets) in E1 as (K & Hi & ->). pose proof (inv_known nets HN r i s K Hi E2) as Ks. apply stk_up; [exact Ks| |constructor|exact H|exact E2].
    destruct (known_net nets HN s Ks) as [g Hg]. pose proof (lk_ne _ HN _ _ _ Hg) as NE. destruct (net s); [congruence|cbn; lia].
  - left. apply (node_of_iff nets) in E1 as (K & Hi & ->). eapply stk_step; [exact H| |exact (out_lt nets HN r i d t K Hi E2)]. apply nm_next. apply (in_map fst) in E2. exact E2.
  - destruct a as [r i], b as [s j]. apply (node_of_iff nets) in E1 as (K & Hi & ->). change (outs r i = []) in E2. inversion H as [? ? K' Hi' P EU|? ? ? s' j' up' K' Hi' P HS Es]; subst.
    + right. exists i. split; [reflexivity|]. split; [exact E2|]. split; [exact K|]. split; [exact Hi|]. split; [exact P|]. split; [reflexivity|]. left. split; [discriminate|reflexivity].
    + left. assert (Ks : known s /\ j < length (net s)) by (inversion HS; subst; auto). destruct Ks as [Ks Hj]. eapply stk_step; [exact HS| |exact Hj]. constructor; [exact Hj|]. unfold rd, tonode. change (Forall em2 (reads (sym s j))). rewrite Es. cbn [reads]. constructor; [|constructor]. exact (through r i K Hi E2 P).
  - apply (node_of_iff nets) in E1 as (K & Hi & ->). apply (node_of_iff nets) in E3 as (K' & Hi' & ->). inversion H as [? ? K0 Hi0 P EU|]; subst. right. exists i. split; [reflexivity|]. split; [exact E2|]. split; [exact K|]. split; [exact Hi|]. split; [exact P|]. split; [reflexivity|]. right. exists s, j. auto.
Qed.
(** Whatever is reached is such a stack. *)
Lemma ok_reach y w z : texts nets y w z -> spaces w -> (exists b0 x0, okp [] b0 x0 y) -> exists b0 x0, okp [] b0 x0 z.
Proof.
  induction 1 as [y|y a y1 b z M T IH]; intros B H; [exact H|]. assert (Ba : spaces a /\ spaces b) by (split; intros c Hc; apply B; apply in_or_app; auto). destruct Ba as [Ba Bb]. apply (IH Bb). destruct H as (b0 & x0 & H).
  destruct (ok_move _ _ _ _ _ _ H M Ba) as [H'|(e & _ & _ & _ & _ & _ & _ & [[N _]|(s & j & _ & -> & Ks & Hj & _)])]; [eauto|congruence|]. exists s, (true, j). cbn [okp]. apply stk_bot; [exact Ks|exact Hj|constructor].
Qed.

(** ** No rule is entered at the same place inside itself *)
Lemma stk_known U b0 x0 sd r i up : stk U b0 x0 sd ((r, i) :: up) -> known r /\ i < length (net r).
Proof. intros H. inversion H; subst; auto. Qed.
Lemma chain b0 x0 sd p : stk [] b0 x0 sd p -> forall r i up, p = (r, i) :: up -> forall r' i', In (r', i') up -> exists s', sym r' i' = NInv s' /\ clos_refl_trans _ (starts_with rules patL) s' r.
Proof.
  induction 1 as [sd i K Hi P|r i sd s j up K Hi P HS IH Es]; intros r1 i1 up1 E r' i' HI; [injection E as <- <- <-; destruct HI|]. injection E as <- <- <-.
  destruct HI as [HI|HI]; [injection HI as <- <-; exists r; split; [exact Es|apply rt_refl]|]. destruct (IH s j up eq_refl r' i' HI) as (s' & E' & C). exists s'. split; [exact E'|]. eapply rt_trans; [exact C|]. apply rt_step.
  inversion HS as [? ? K' Hi' P' EU|? ? ? s2 j2 up2 K' Hi' P' HS2 Es2]; subst; [destruct HI|]. exact (starts s j r K' Hi' P' Es).
Qed.
Hypothesis LR : no_left_recursion rules patL.
Lemma no_recurs b0 x0 y : okp [] b0 x0 y -> ~ recurs nets y.
Proof.
  intros H HC. destruct y as [[|[r i] up]|p]; try exact HC. destruct HC as (n & s & E1 & E2 & HI). cbn [okp] in H. apply (node_of_iff nets) in E1 as (K & Hi & ->). change (sym r i = NInv s) in E2.
  destruct (chain _ _ _ _ H r i up eq_refl r i HI) as (s' & Es & C). rewrite E2 in Es. injection Es as <-.
  inversion H as [? ? K' Hi' P' EU|? ? ? s2 j2 up2 K' Hi' P' HS2 Es2]; subst; [destruct HI|]. pose proof (starts r i s K Hi P' E2) as ST. apply (LR s).
  apply clos_rt_rtn1 in C. assert (G : forall q, clos_refl_trans_n1 _ (starts_with rules patL) s q -> q = s \/ clos_trans _ (starts_with rules patL) s q).
  { induction 1 as [|a b0' M _ IH]; [left; reflexivity|right]. destruct IH as [->|IH]; [apply t_step; exact M|eapply t_trans; [exact IH|apply t_step; exact M]]. }
  destruct (G r C) as [->|C']; [apply t_step; exact ST|eapply t_trans; [exact C'|apply t_step; exact ST]].
Qed.

(** ** No place is come back to without reading *)
Hypothesis ER : no_empty_repetition rules patL.
Hypothesis RR : no_right_recursion rules patL.
Lemma nmove_acc r i : known r -> Acc (fun b a => nmove r a b) (true, i).
Proof.
  intros K. induction (step2_acc nets HN rules HR ER r i K) as [i _ IH]. constructor. intros y M. inversion M as [|? d Hd]; subst. constructor. intros y M2. inversion M2 as [? Hi F|]; subst. apply IH. split; assumption.
Qed.
Lemma nmove_all r x : known r -> Acc (fun b a => nmove r a b) x.
Proof. intros K. destruct x as [[|] i]; [apply nmove_acc; exact K|]. constructor. intros y M. inversion M; subst. apply nmove_acc. exact K. Qed.
Lemma no_nround r x y : known r -> nmove r x y -> nreach r y x -> False.
Proof.
  intros K M H. pose proof (nmove_all r x K) as A. revert y M H. induction A as [x _ IH]. intros y M H. destruct (clos_rt_rt1n _ _ _ _ (clos_rtn1_rt _ _ _ _ H)) as [|y' x' M' R'].
  - exact (IH _ M _ M ltac:(constructor)).
  - apply (IH y M y' M'). apply clos_rt_rtn1. eapply rt_trans; [apply clos_rt1n_rt; exact R'|apply rt_step; exact M].
Qed.
Definition omove (y z : spos) : Prop := exists r i s j, y = After [(r, i)] /\ z = After [(s, j)] /\ known r /\ i < length (net r) /\ outs r i = [] /\ known s /\ j < length (net s) /\ sym s j = NInv r.
Definition imove (y z : spos) : Prop := tmove nets y [] z /\ ~ omove y z.
Notation ireach := (clos_refl_trans_1n _ imove).
Lemma spaces_nil : spaces []. Proof. intros c []. Qed.
Lemma split_run U b0 x0 y z : ireach y z -> okp U b0 x0 y ->
  okp U b0 x0 z \/ exists e, U <> [] /\ known b0 /\ e < length (net b0) /\ outs b0 e = [] /\ nreach b0 x0 (true, e) /\ ireach y (After U) /\ ireach (After U) z.
Proof.
  induction 1 as [y|y y1 z [M NO] R IH]; intros H; [left; exact H|]. destruct (ok_move U b0 x0 y [] y1 H M spaces_nil) as [H'|(e & -> & E & K & Le & P & _ & [[NU ->]|(s & j & -> & -> & Ks & Hj & Es)])].
  - destruct (IH H') as [Q|(e & A1 & A2 & A3 & A4 & A5 & A6 & A7)]; [left; exact Q|right]. exists e. do 5 (split; [assumption|]). split; [|exact A7]. econstructor; [split; eassumption|exact A6].
  - right. exists e. split; [exact NU|]. do 4 (split; [assumption|]). split; [|exact R]. econstructor; [split; eassumption|constructor].
  - exfalso. apply NO. exists b0, e, s, j. auto 10.
Qed.
Lemma no_iround : forall n y z, (length (match y with Before p | After p => p end) <= n) -> imove y z -> ireach z y -> False.
Proof.
  induction n as [|n IH]; intros y z Hn [M NO] R.
  { assert (match y with Before p | After p => p end = []) as E by (destruct (match y with Before p | After p => p end); [reflexivity|cbn in Hn; lia]). destruct M as [p ? ? E1|p ? ? E1| | |]; try discriminate; subst; discriminate. }
  (* leaving the level: a circle further down *)
  assert (DOWN : forall U, U <> [] -> length U <= n -> ireach y (After U) -> ireach (After U) y -> y <> After U -> False).
  { intros U NU LU H1 H2 NE. inversion H2 as [|q z0 M1 R1]; subst; [congruence|]. apply (IH (After U) q LU M1). apply clos_rt_rt1n. eapply rt_trans; apply clos_rt1n_rt; eassumption. }
  assert (CONS : forall a b, ireach z a -> ireach b y -> ireach y a).
  { intros a b H _. econstructor; [split; eassumption|exact H]. }
  inversion M as [p n0 v E1 E2|p n0 s E1 E2|r i up n0 d t E1 E2|a b up n0 E1 E2|r i n0 s j n' E1 E2 E3 E4]; subst.
  - destruct p as [|[r i] up]; [discriminate|]. apply (node_of_iff nets) in E1 as (K & Hi & ->). pose proof (passable r i [] K Hi E2 spaces_nil) as PS. cbn [length] in Hn.
    destruct (split_run up r (true, i) _ _ R) as [H|(e & A1 & _ & _ & _ & _ & A6 & A7)]; [cbn [okp]; apply stk_bot; [exact K|exact Hi|constructor]| |].
    + cbn [okp] in H. apply stk_base in H as (_ & P & _). exact (no_nround r (false, i) (true, i) K (nm_pass r i Hi PS) P).
    + apply (DOWN up A1 ltac:(lia) (CONS _ _ A6 A7) A7). discriminate.
  - destruct p as [|[r i] up]; [discriminate|]. apply (node_of_iff nets) in E1 as (K & Hi & ->). change (sym r i = NInv s) in E2. pose proof (inv_known nets HN r i s K Hi E2) as Ks. cbn [length] in Hn.
    assert (Hs : 0 < length (net s)) by (destruct (known_net nets HN s Ks) as [g Hg]; pose proof (lk_ne _ HN _ _ _ Hg) as NE; destruct (net s); [congruence|cbn; lia]).
    destruct (split_run ((r, i) :: up) s (false, 0) _ _ R) as [H|(e & A1 & _ & A3 & A4 & A5 & A6 & A7)]; [cbn [okp]; apply stk_bot; [exact Ks|exact Hs|constructor]| |].
    + cbn [okp] in H. apply stk_len in H. lia.
    + assert (PS : Forall em2 (rd (net r) i)). { unfold rd, tonode. change (Forall em2 (reads (sym r i))). rewrite E2. cbn [reads]. constructor; [|constructor]. exact (through s e Ks A3 A4 A5). }
      destruct (split_run up r (true, i) _ _ A7) as [H|(e' & B1 & _ & _ & _ & _ & B6 & B7)]; [cbn [okp]; apply stk_bot; [exact K|exact Hi|constructor]| |].
      * cbn [okp] in H. apply stk_base in H as (_ & P & _). exact (no_nround r (false, i) (true, i) K (nm_pass r i Hi PS) P).
      * apply (DOWN up B1 ltac:(lia)); [|exact B7|discriminate]. apply (CONS _ (After up)); [|exact B7]. apply clos_rt_rt1n. eapply rt_trans; apply clos_rt1n_rt; [exact A6|exact B6].
  - apply (node_of_iff nets) in E1 as (K & Hi & ->). change (In (d, t) (outs r i)) in E2. pose proof (out_lt nets HN r i d t K Hi E2) as Ld. cbn [length] in Hn.
    destruct (split_run up r (false, d) _ _ R) as [H|(e & A1 & _ & _ & _ & _ & A6 & A7)]; [cbn [okp]; apply stk_bot; [exact K|exact Ld|constructor]| |].
    + cbn [okp] in H. apply stk_base in H as (_ & P & _). apply (no_nround r (true, i) (false, d) K); [|exact P]. apply nm_next. apply (in_map fst) in E2. exact E2.
    + apply (DOWN up A1 ltac:(lia) (CONS _ _ A6 A7) A7). intros X. injection X as X. apply (f_equal (@length _)) in X. cbn in X. lia.
  - cbn [length] in Hn. apply (DOWN (b :: up)); [discriminate|cbn; lia| |exact R|intros X; apply (f_equal (fun q => match q with After p => length p | Before p => length p end)) in X; cbn in X; lia]. econstructor; [split; eassumption|constructor].
  - apply NO. apply (node_of_iff nets) in E1 as (K & Hi & ->). apply (node_of_iff nets) in E3 as (K' & Hi' & ->). exists r, i, s, j. auto 10.
Qed.
(** Leaving the rule we started in. *)
Definition smove (y z : spos) : Prop := tmove nets y [] z.
Notation sreach := (clos_refl_trans_1n _ smove).
Lemma texts_silent y w z : texts nets y w z -> w = [] -> sreach y z.
Proof.
  induction 1 as [y|y a y1 b z M T IH]; intros E; [constructor|]. apply app_eq_nil in E as [-> ->]. econstructor; [exact M|apply IH; reflexivity].
Qed.
Lemma silent_cases y z : smove y z -> imove y z \/ omove y z.
Proof.
  intros M. inversion M as [p n v E1 E2|p n s E1 E2|r i up n d t E1 E2|a b up n E1 E2|r i n s j n' E1 E2 E3 E4]; subst; try (left; split; [exact M|intros (r1 & i1 & s1 & j1 & X1 & X2 & _); discriminate]).
  right. apply (node_of_iff nets) in E1 as (K & Hi & ->). apply (node_of_iff nets) in E3 as (K' & Hi' & ->). exists r, i, s, j. auto 10.
Qed.
Lemma out_chain y z : sreach y z -> forall s j r0 r i, okp [] s (true, j) y -> sym s j = NInv r0 -> known s -> j < length (net s) -> z = After [(r, i)] -> outs r i = [] -> clos_trans _ (ends_with rules patL) r r0.
Proof.
  induction 1 as [y|y y1 z M R IH]; intros s j r0 r i H Es Ks Hj -> E.
  - cbn [okp] in H. apply stk_base in H as (-> & P & _ & Hi). apply t_step. exact (ends s j r0 i Ks Hj Hi E P Es).
  - destruct (ok_move [] s (true, j) y [] y1 H M spaces_nil) as [H'|(e & -> & Ee & K & Le & P & _ & [[NU _]|(s' & j' & _ & -> & Ks' & Hj' & Es')])].
    + exact (IH s j r0 r i H' Es Ks Hj eq_refl E).
    + congruence.
    + apply t_trans with s.
      * apply (IH s' j' s r i); try assumption; [|reflexivity]. cbn [okp]. apply stk_bot; [exact Ks'|exact Hj'|constructor].
      * apply t_step. exact (ends s j r0 e Ks Hj Le Ee P Es).
Qed.
Lemma no_oround y z : omove y z -> sreach z y -> False.
Proof.
  intros (r & i & s & j & -> & -> & K & Hi & E & Ks & Hj & Es) R. apply (RR r). apply (out_chain _ _ R s j r r i); try assumption; [|reflexivity]. cbn [okp]. apply stk_bot; [exact Ks|exact Hj|constructor].
Qed.
Lemma sreach_trans x y z : sreach x y -> sreach y z -> sreach x z.
Proof. intros A B. apply clos_rt_rt1n. eapply rt_trans; apply clos_rt1n_rt; eassumption. Qed.
Lemma inner_run y z : sreach y z -> sreach z y -> ireach y z.
Proof.
  induction 1 as [y|y y1 z M R IH]; intros B; [constructor|]. destruct (silent_cases y y1 M) as [HI|HO].
  - econstructor; [exact HI|]. apply IH. eapply sreach_trans; [exact B|]. econstructor; [exact M|constructor].
  - destruct (no_oround y y1 HO). eapply sreach_trans; eassumption.
Qed.
Lemma no_comes_back y : ~ comes_back nets y.
Proof.
  intros (z & M & T). apply texts_silent in T; [|reflexivity]. destruct (silent_cases y z M) as [HI|HO]; [|exact (no_oround y z HO T)].
  apply (no_iround _ y z (le_n _) HI). apply inner_run; [exact T|]. econstructor; [exact M|constructor].
Qed.
(** Having read nothing but white space, one can always go on. *)
Theorem spaces_way r d w y : known r -> d < length (net r) -> texts nets (Before [(r, d)]) w y -> spaces w -> ~ no_way nets y.
Proof.
  intros K Hd T B [H|H]; [|exact (no_comes_back y H)]. destruct (ok_reach _ _ _ T B) as (b0 & x0 & HO); [exists r, (false, d); cbn [okp]; apply stk_bot; [exact K|exact Hd|constructor]|]. exact (no_recurs b0 x0 y HO H).
Qed.
Theorem blank_bounded r i : known r -> i < length (net r) -> (forall w, two_alts nets r i w -> spaces w) -> ~ unbounded nets r i.
Proof.
  intros K Hi HT (w & n & k & d & t & y & HW & N1 & N2 & TX & NW). apply (node_of_iff nets) in N1 as (_ & _ & ->). fold (outs r i) in N2. apply nth_error_In in N2. pose proof (out_lt nets HN r i d t K Hi N2) as Ld.
  apply (spaces_way r d w y K Ld TX); [|exact NW]. destruct HW as [->|HW]; [apply spaces_nil|apply HT; exact HW].
Qed.
End Bounded.
