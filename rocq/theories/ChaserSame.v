(** * A listener that answers with the chaser builds the parser's tree *)
From Coq Require Import List NArith ZArith Arith Bool Lia ZifyBool ZifyN ZifyNat.
From Verif Require Import CharClass NFA NFABuild DFA RegexSpec GrammarSpec Marker Reduction ReductionProofs TreeSpec ParseSpec Writer X86 CodeGen CodeGenProofs CodeGenSimd CodeGenDfa CodeGenMisc ATN ATNSem Grammar ParserGen ParserRun ParserSim ParserTree ParserTerm ParserTop ParserComplete DryParser Chaser ChaserTree ChaserSpec.
Import ListNotations.
Local Open Scope nat_scope.

Section Hist.
Variables (P : code) (e : env) (L : listener).
Lemma cstar_hist c c' : cstar P e L c c' -> exists d, snd c' = snd c ++ d.
Proof.
  induction 1 as [c|c c1 c2 E _ [d IH]]; [exists []; rewrite app_nil_r; reflexivity|]. assert (Q : exists d1, snd c1 = snd c ++ d1).
  { destruct c as [s h]. unfold cstep in E. destruct (pc s) as [|i k].
    - destruct (step P e s); try discriminate. injection E as <-. exists []. rewrite app_nil_r. reflexivity.
    - destruct i; try (destruct (step P e s); try discriminate; injection E as <-; exists []; rewrite app_nil_r; reflexivity). destruct (rg s RDI =? l_self L)%N; [|discriminate]. injection E as <-. eexists. reflexivity. }
  destruct Q as [d1 Q]. exists (d1 ++ d). rewrite IH, Q, app_assoc. reflexivity.
Qed.
Lemma cstar_join c f : cstar P e L c f -> pc (fst f) = [] -> forall b, cstar P e L c b -> cstar P e L b f.
Proof.
  intros H F b K. revert f H F. induction K as [c|c c1 c2 E _ IH]; intros f H F; [exact H|]. inversion H as [|? c1' ? E' H']; subst; [destruct (cfinal P e L _ F _ E)|]. rewrite E in E'. injection E' as <-. auto.
Qed.
End Hist.

Section Offs.
Variables (a : N) (u : list N).
(** The answers of a listener as offsets. *)
Definition offs (L : listener) (h : list event) : option nat :=
  let v := l_answer L (map (at_addr a) h) in if (a <=? v)%N && (v <=? a + N.of_nat (length u))%N then Some (N.to_nat (v - a)) else None.
Lemma offs_ok L h n : offs L h = Some n -> l_answer L (map (at_addr a) h) = (a + N.of_nat n)%N /\ n <= length u.
Proof. unfold offs. intros H. destruct (_ && _) eqn:E; [|discriminate]. injection H as <-. apply andb_true_iff in E as [E1 E2]. lia. Qed.
Lemma offs_some L h n : l_answer L (map (at_addr a) h) = (a + N.of_nat n)%N -> n <= length u -> offs L h = Some n.
Proof. unfold offs. intros -> Hn. replace ((a <=? a + N.of_nat n)%N && (a + N.of_nat n <=? a + N.of_nat (length u))%N) with true by (symmetry; apply andb_true_iff; lia). f_equal. lia. Qed.
Lemma at_addr_inj h h' : map (at_addr a) h = map (at_addr a) h' -> h = h'.
Proof.
  revert h'. induction h as [|x h IH]; intros [|y h'] E; try discriminate; [reflexivity|]. cbn [map] in E. injection E as E1 E2. f_equal; [|auto].
  destruct x, y; cbn [at_addr] in E1; try discriminate; injection E1; intros; subst; f_equal; lia.
Qed.
Lemma at_addr_cut h : forall g x d, map (at_addr a) h = g ++ x :: d -> exists g0 x0 d0, h = g0 ++ x0 :: d0 /\ map (at_addr a) g0 = g /\ at_addr a x0 = x /\ map (at_addr a) d0 = d.
Proof.
  induction h as [|y h IH]; intros g x d E; [destruct g; discriminate|]. destruct g as [|z g]; cbn [map app] in E; injection E as E1 E2.
  - exists [], y, h. auto.
  - destruct (IH g x d E2) as (g0 & x0 & d0 & -> & Q1 & Q2 & Q3). exists (y :: g0), x0, d0. cbn [map app]. rewrite E1, Q1. auto.
Qed.
End Offs.

Section Same.
Variables (C : compiled) (lid : nat -> nat -> Z) (e : env) (a : N) (u pad : list N).
Hypothesis HG : gen_ok C (length pad).
Hypothesis HT : text_at (mem e) a (u ++ 0%N :: pad).
Hypothesis Ha : (0 < a)%N.
Hypothesis HU0 : forall c, In c u -> (c <> 0)%N.
Hypothesis HK : linked C.
Hypothesis HD : forall m m', m < length (c_nets C) -> m' < length (c_nets C) -> fst (net_of C m) = fst (net_of C m') -> m = m'.

Lemma chase_lost (ans : list event -> option nat) : (forall h n, ans h = Some n -> n <= length u) -> forall f m i n h h', m < length (c_nets C) -> i < length (snd (net_of C m)) -> n <= length u ->
  chase C lid u ans f m i n h = ChLost h' -> exists d id p, h' = h ++ d ++ [Nonterminal id (N.of_nat p)] /\ p <= length u /\ ans h' = None.
Proof.
  intros HA. induction f as [|f IH]; intros m i n h h' Hm Hi Hn H; [discriminate|]. rewrite chase_S in H. destruct (node_facts C pad HG m i Hm Hi) as (ND & _ & _ & _).
  assert (NX : forall n1 d1, n1 <= length u -> chase_go C lid u ans f m i n1 (h ++ d1) = ChLost h' -> exists d id p, h' = h ++ d ++ [Nonterminal id (N.of_nat p)] /\ p <= length u /\ ans h' = None).
  { intros n1 d1 Hn1 E. unfold chase_go in E.
    assert (GO : forall t, In t (atrs (node_of C m i)) -> chase C lid u ans f m (fst t) n1 (h ++ d1) = ChLost h' -> exists d id p, h' = h ++ d ++ [Nonterminal id (N.of_nat p)] /\ p <= length u /\ ans h' = None).
    { intros t Ht Et. destruct (IH _ _ _ _ _ Hm (ND _ Ht) Hn1 Et) as (d & id & p & -> & Q). exists (d1 ++ d), id, p. rewrite <- !app_assoc in *. auto. }
    destruct (atrs (node_of C m i)) as [|t [|t' ts]] eqn:ET; [discriminate|apply (GO t); [left; reflexivity|exact E]|].
    destruct (ldfa_go (c_look C m i) 0 (skipn n1 u ++ [0%N])) as [j| |] eqn:G; try discriminate. apply (GO (nth j (t :: t' :: ts) (0, 0))); [|exact E]. exact (go_in C lid u pad HG m i n1 t' ts t j Hm Hi ET G). }
  destruct (nt (node_of C m i)) as [|x|l|A|] eqn:EN.
  2: { destruct (net_index (c_nets C) x) as [m'|] eqn:EI; [|discriminate]. destruct (ans (h ++ [Nonterminal (fst (net_of C m')) (N.of_nat n)])) as [n1|] eqn:EA; [exact (NX n1 _ (HA _ _ EA) H)|].
       injection H as <-. exists [], (fst (net_of C m')), n. cbn [app]. auto. }
  all: match type of H with context [term_step ?zC ?zu ?zn ?t] => destruct (term_step zC zu zn t) as [n1|] eqn:ET end; [|discriminate].
  all: exact (NX n1 _ (proj2 (dterm_le C u n _ n1 Hn ET)) H).
Qed.
Lemma chase_hist (ans : list event -> option nat) : forall f m i n h n' h', chase C lid u ans f m i n h = ChOk n' h' -> exists d, h' = h ++ d.
Proof.
  induction f as [|f IH]; intros m i n h n' h' H; [discriminate|]. rewrite chase_S in H.
  assert (NX : forall n1 d1, chase_go C lid u ans f m i n1 (h ++ d1) = ChOk n' h' -> exists d, h' = h ++ d).
  { intros n1 d1 E. unfold chase_go in E. assert (GO : forall i', chase C lid u ans f m i' n1 (h ++ d1) = ChOk n' h' -> exists d, h' = h ++ d) by (intros i' E'; destruct (IH _ _ _ _ _ _ E') as [d ->]; exists (d1 ++ d); rewrite app_assoc; reflexivity).
    destruct (atrs (node_of C m i)) as [|t [|t' ts]]; [injection E as _ <-; eauto|exact (GO _ E)|]. destruct (ldfa_go (c_look C m i) 0 (skipn n1 u ++ [0%N])); try discriminate. exact (GO _ E). }
  destruct (nt (node_of C m i)) as [|x|l|A|].
  2: { destruct (net_index (c_nets C) x) as [m'|]; [|discriminate]. destruct (ans _) as [n1|]; [exact (NX _ _ H)|discriminate]. }
  all: match type of H with context [term_step ?zC ?zu ?zn ?t] => destruct (term_step zC zu zn t) as [n1|] end; [exact (NX _ _ H)|discriminate].
Qed.

(** ** From the chase to the parser *)
(** The parser, too, goes from p to the end of c over the rule id, with the markers of c. *)
Definition parsed (id : N) (p : nat) (c : tree) : Prop :=
  exists f m q, m < length (c_nets C) /\ fst (net_of C m) = id /\ end_of c = N.of_nat q /\ q <= length u /\ run_machine C u f m p = POk q (stream c).
Inductive kids (ans : list event -> option nat) : list event -> list event -> list tree -> Prop :=
| kids_end g : kids ans g [] []
| kids_term g i s t h ch : kids ans (g ++ [Terminal i s t]) h ch -> kids ans g (Terminal i s t :: h) ch
| kids_rule g i p c h ch : parsed i p c -> option_map N.of_nat (ans (g ++ [Nonterminal i (N.of_nat p)])) = Some (end_of c) -> kids ans (g ++ [Nonterminal i (N.of_nat p)]) h ch -> kids ans g (Nonterminal i (N.of_nat p) :: h) (c :: ch).
Lemma look_all : forall mm ii, 2 <= length (atrs (node_of C mm ii)) -> lcodable (c_look C mm ii) (length (atrs (node_of C mm ii))).
Proof.
  clear HT Ha HU0 HK HD. intros k j H2. destruct (Nat.lt_ge_cases j (length (snd (net_of C k)))) as [Hj|Hj]; [|unfold node_of in H2; rewrite nth_overflow in H2 by exact Hj; cbn in H2; lia].
  destruct (Nat.lt_ge_cases k (length (c_nets C))) as [L0|L0]; [exact (proj2 (proj2 (proj2 (node_facts C pad HG k j L0 Hj))) H2)|]. unfold net_of in Hj. rewrite nth_overflow in Hj by exact L0. cbn in Hj. lia.
Qed.
Lemma next_mono f f' m i n1 : next_res C u f m i n1 <> PFuel -> f <= f' -> next_res C u f' m i n1 = next_res C u f m i n1.
Proof.
  intros H Hf. assert (HX : forall mm ii, 2 <= length (atrs (node_of C mm ii)) -> lcodable (c_look C mm ii) (length (atrs (node_of C mm ii)))) by exact look_all.
  revert H. unfold next_res. destruct (atrs (node_of C m i)) as [|t [|t' ts]]; [reflexivity|intros K; apply (fuel_mono C u HX); assumption|].
  destruct (ldfa_go _ 0 _); [|reflexivity|reflexivity]. intros K. apply (fuel_mono C u HX); assumption.
Qed.
Lemma back (ans : list event -> option nat) : forall f m i n h n' d ch, m < length (c_nets C) -> i < length (snd (net_of C m)) ->
  chase C lid u ans f m i n h = ChOk n' (h ++ d) -> kids ans h d ch ->
  exists F, run_node C u F m i n = POk n' (List.concat (map stream ch) ++ [end_word (fst (net_of C m)) (N.of_nat n')]).
Proof.
  induction f as [|f IH]; intros m i n h n' d ch Hm Hi H HKd; [discriminate|]. rewrite chase_S in H. destruct (node_facts C pad HG m i Hm Hi) as (ND & _ & _ & _).
  assert (NX : forall n1 h1 d1, chase_go C lid u ans f m i n1 h1 = ChOk n' (h1 ++ d1) -> forall ch1, kids ans h1 d1 ch1 -> exists F, next_res C u F m i n1 = POk n' (List.concat (map stream ch1) ++ [end_word (fst (net_of C m)) (N.of_nat n')])).
  { intros n1 h1 d1 E ch1 K1. unfold chase_go in E. unfold next_res.
    destruct (atrs (node_of C m i)) as [|t [|t' ts]] eqn:ET.
    - injection E as <- E. assert (d1 = []) as -> by (rewrite <- (app_nil_r h1) in E at 1; apply app_inv_head in E; auto). inversion K1; subst. exists 0. reflexivity.
    - exact (IH _ _ _ _ _ _ _ Hm (ND _ (or_introl eq_refl)) E K1).
    - destruct (ldfa_go (c_look C m i) 0 (skipn n1 u ++ [0%N])) as [j| |] eqn:G; try discriminate. exact (IH _ _ _ _ _ _ _ Hm (ND _ (go_in C lid u pad HG m i n1 t' ts t j Hm Hi ET G)) E K1). }
  destruct (nt (node_of C m i)) as [|x|l|A|] eqn:EN.
  2: { destruct (net_index (c_nets C) x) as [m'|] eqn:EI; [|discriminate]. set (ev := Nonterminal (fst (net_of C m')) (N.of_nat n)) in *. destruct (ans (h ++ [ev])) as [n1|] eqn:EA; [|discriminate].
       assert (Q : exists d', d = ev :: d').
       { assert (Q : exists d', h ++ d = (h ++ [ev]) ++ d'). { unfold chase_go in H. destruct (atrs (node_of C m i)) as [|t [|t' ts]]; [injection H as _ E; exists []; rewrite app_nil_r; auto|exact (chase_hist _ _ _ _ _ _ _ _ H)|]. destruct (ldfa_go _ 0 _); try discriminate. exact (chase_hist _ _ _ _ _ _ _ _ H). }
         destruct Q as [d' Q]. rewrite <- app_assoc in Q. apply app_inv_head in Q. eauto. }
       destruct Q as [d' ->]. change (h ++ ev :: d') with (h ++ [ev] ++ d') in H. rewrite app_assoc in H. unfold ev in HKd. inversion HKd as [| |g i0 p0 c d0 ch0 PA AN KD]; subst. assert (p0 = n) as -> by lia.
       fold ev in AN, KD. rewrite EA in AN. cbn [option_map] in AN. injection AN as AN. destruct (NX _ _ _ H _ KD) as [F2 R2].
       destruct PA as (f1 & m1 & q & M1 & M2 & M3 & M4 & R1). pose proof (net_index_lt _ _ _ EI) as Hm'. apply HD in M2; [|exact M1|exact Hm']. subst m1. unfold run_machine in R1.
       destruct (run_node C u f1 m' 0 n) as [n1' ws1| | |] eqn:ER1; cbn [pre] in R1; try discriminate. injection R1 as -> RS. assert (q = n1) as -> by lia.
       exists (S (max f1 F2)). rewrite run_node_S, EN, EI, (fuel_mono C u look_all f1 m' 0 n ltac:(congruence) (max f1 F2) ltac:(lia)), ER1. cbn [pre].
       rewrite (next_mono F2 (max f1 F2) m i n1 ltac:(congruence) ltac:(lia)), R2. cbn [pre map List.concat]. rewrite <- RS. cbn [app]. rewrite <- app_assoc. reflexivity. }
  all: match type of H with context [term_step ?zC ?zu ?zn ?t] => destruct (term_step zC zu zn t) as [n1|] eqn:ET end; [|discriminate].
  all: assert (KR : exists d', d = reported C lid m i n n1 ++ d' /\ kids ans (h ++ reported C lid m i n n1) d' ch).
  all: try (assert (Q : exists d', h ++ d = (h ++ reported C lid m i n n1) ++ d') by (unfold chase_go in H; destruct (atrs (node_of C m i)) as [|t [|t' ts]]; [injection H as _ E; exists []; rewrite app_nil_r; auto|exact (chase_hist _ _ _ _ _ _ _ _ H)|]; destruct (ldfa_go _ 0 _); try discriminate; exact (chase_hist _ _ _ _ _ _ _ _ H));
      destruct Q as [d' Q]; rewrite <- app_assoc in Q; apply app_inv_head in Q; exists d'; split; [exact Q|]; revert Q; unfold reported; rewrite EN; try (destruct (0 <=? lid m i)%Z); cbn [app]; intros ->; try (rewrite app_nil_r; exact HKd); inversion HKd; subst; assumption).
  all: destruct KR as (d' & -> & KD); rewrite app_assoc in H; destruct (NX _ _ _ H _ KD) as [F2 R2]; exists (S F2); rewrite run_node_S, EN, ET; exact R2.
Qed.
Definition in_text (h : list event) : Prop := forall i p, In (Nonterminal i p) h -> exists n, p = N.of_nat n /\ n <= length u.
Lemma way_in_text m xs : (forall x, In x xs -> fits C u m x) -> in_text (all_told C lid m xs).
Proof.
  intros H i p Hin. unfold all_told in Hin. apply in_flat_map in Hin as ([[k r] q] & H1 & H2). specialize (H _ H1). destruct H as (L1 & _). unfold told in H2. destruct (nt (node_of C m k)); try destruct H2; try (destruct (0 <=? lid m k)%Z; [destruct H2 as [H2|[]]; discriminate|destruct H2]).
  - injection H as <- <-. eauto.
  - destruct H.
Qed.
Lemma way_fits m i p xs j q : way C u m i p xs j q -> forall x, In x xs -> fits C u m x.
Proof. induction 1 as [|i p p1 k xs j q F K W IH]; intros x Hx; [destruct Hx|destruct Hx as [<-|Hx]; auto]. Qed.
Notation P := (chaser_code C lid).
(** What the interpreter says about a call that has ended. *)
Lemma call_cases L m n r x p sv q o b v h : m < length (c_nets C) -> r RDI = l_self L -> r RSI = (a + N.of_nat n)%N -> n <= length u -> call_ends C lid e L m r x p sv q o b v h ->
  exists f, match chase C lid u (offs a u L) f m 0 n [] with
  | ChOk n' h0 => h = map (at_addr a) h0 /\ v = (a + N.of_nat n')%N /\ n' <= length u
  | ChRej h0 => h = map (at_addr a) h0 /\ v = 0%N
  | ChLost h0 => exists d, h = map (at_addr a) h0 ++ d
  | _ => False
  end.
Proof.
  clear HD. intros Hm R1 R2 Hn (P0 & s & FP & S & PC & RV & _). destruct (cstar_steps _ _ _ _ _ S) as [k SN]. exists (Datatypes.S k).
  pose proof (chaser_run C lid e a u pad L (offs a u L) HG HT Ha HU0 (offs_ok a u L) r x p sv q o b m n Hm R1 R2 Hn P0 FP (Datatypes.S k)) as RUN.
  pose proof (chase_no_wild C lid u pad HG (offs a u L) HK (fun h n H => proj2 (offs_ok a u L h n H)) (Datatypes.S k) m 0 n [] Hm (dnet_ne C pad m HG Hm)) as NW.
  destruct (chase C lid u (offs a u L) (Datatypes.S k) m 0 n []) as [n' h0|h0|h0| |].
  - destruct RUN as (s' & S' & PC' & V' & _ & _ & _ & _ & N'). pose proof (cfinal_eq _ _ _ _ _ _ S S' PC PC') as E. injection E as -> ->. split; [reflexivity|]. split; [congruence|exact N'].
  - destruct RUN as (s' & S' & PC' & V' & _). pose proof (cfinal_eq _ _ _ _ _ _ S S' PC PC') as E. injection E as -> ->. split; [reflexivity|congruence].
  - destruct RUN as (s' & S' & _). destruct (cstar_hist _ _ _ _ _ (cstar_join _ _ _ _ _ S PC _ S')) as [d E]. exists d. exact E.
  - congruence.
  - destruct RUN as (N1 & c & L1 & S'). pose proof (cfinal_steps _ _ _ _ _ _ SN PC _ _ S'). lia.
Qed.
Theorem chased_parsed :
  (forall id p t, chased C lid e a id p t -> forall n, p = N.of_nat n -> n <= length u -> parsed id n t) /\
  (forall L g h ch, asked C lid e a L g h ch ->
     (forall g1 i p h2, h = g1 ++ Nonterminal i (a + p) :: h2 -> exists c, (forall n, p = N.of_nat n -> n <= length u -> parsed i n c) /\ l_answer L (g ++ g1 ++ [Nonterminal i (a + p)%N]) = (a + end_of c)%N) /\
     (forall g0 h0, g = map (at_addr a) g0 -> h = map (at_addr a) h0 -> in_text h0 -> kids (offs a u L) g0 h0 ch)).
Proof.
  apply (chased_ind2 C lid e a (fun id p t _ => forall n, p = N.of_nat n -> n <= length u -> parsed id n t)
    (fun L g h ch _ => (forall g1 i p h2, h = g1 ++ Nonterminal i (a + p) :: h2 -> exists c, (forall n, p = N.of_nat n -> n <= length u -> parsed i n c) /\ l_answer L (g ++ g1 ++ [Nonterminal i (a + p)%N]) = (a + end_of c)%N) /\
     (forall g0 h0, g = map (at_addr a) g0 -> h = map (at_addr a) h0 -> in_text h0 -> kids (offs a u L) g0 h0 ch))).
  - intros L id p q h ch (m & r & x & pp & sv & qq & o & b & Hm & EI & R1 & R2 & CE) _ [A1 A2] n -> Hn.
    destruct (call_cases L m n r x pp sv qq o b _ h Hm R1 R2 Hn CE) as [f R]. pose proof (dnet_ne C pad m HG Hm) as NE.
    destruct (chase C lid u (offs a u L) f m 0 n []) as [n' h0|h0|h0| |] eqn:EC; try contradiction.
    + destruct R as (-> & EV & Hn'). assert (q = N.of_nat n') as -> by lia.
      pose proof (chase_way C lid u pad HG (offs a u L) (fun h n H => proj2 (offs_ok a u L h n H)) f m 0 n [] Hm NE Hn) as W. rewrite EC in W. destruct W as (ys & k & r0 & W1 & W2 & W3 & W4 & W5). cbn [app] in W4.
      assert (IT : in_text h0). { rewrite W4. apply way_in_text. intros z Hz. apply in_app_or in Hz as [Hz|[<-|[]]]; [exact (way_fits _ _ _ _ _ _ W1 z Hz)|exact W2]. }
      destruct (back (offs a u L) f m 0 n [] n' h0 ch Hm NE EC (A2 [] h0 eq_refl eq_refl IT)) as [F RF]. exists F, m, n'. split; [exact Hm|]. split; [exact EI|]. split; [reflexivity|]. split; [exact Hn'|]. unfold run_machine. rewrite RF. cbn [pre stream]. rewrite EI. reflexivity.
    + destruct R as [_ R]. lia.
    + exfalso. destruct R as [d ->]. destruct (chase_lost (offs a u L) (fun h n H => proj2 (offs_ok a u L h n H)) f m 0 n [] h0 Hm NE Hn EC) as (d0 & i0 & p0 & EH & Hp & EA). cbn [app] in EH.
      destruct (A1 (map (at_addr a) d0) i0 (N.of_nat p0) d) as (c & PA & LA); [rewrite EH, map_app, <- app_assoc; reflexivity|]. destruct (PA p0 eq_refl Hp) as (f1 & m1 & q1 & _ & _ & Q3 & Q4 & _).
      rewrite (offs_some a u L h0 q1) in EA; [discriminate| |exact Q4]. rewrite EH, map_app, <- Q3. cbn [app] in LA. exact LA.
  - intros L g. split; [intros g1 i p h2 E; destruct g1; discriminate|]. intros g0 h0 _ E _. destruct h0; [constructor|discriminate].
  - intros L g i s t h ch _ [A1 A2]. split.
    + intros g1 i0 p h2 E. destruct g1 as [|z g1]; [discriminate|]. injection E as <- E. destruct (A1 _ _ _ _ E) as (c & PA & LA). exists c. split; [exact PA|]. rewrite <- app_assoc in LA. exact LA.
    + intros g0 h0 EG EH IT. destruct h0 as [|y h0]; [discriminate|]. cbn [map] in EH. injection EH as EY EH. destruct y as [i' s' t'|i' p']; [|discriminate]. constructor. apply A2; [rewrite EG, map_app; cbn [map]; congruence|exact EH|]. intros j p Hin. apply (IT j p). right. exact Hin.
  - intros L g i p c h ch _ PC LA _ [A1 A2]. split.
    + intros g1 i0 p0 h2 E. destruct g1 as [|z g1].
      * injection E as <- EP <-. assert (p0 = p) as -> by lia. exists c. split; [exact PC|exact LA].
      * injection E as <- E. destruct (A1 _ _ _ _ E) as (c' & PA & LA'). exists c'. split; [exact PA|]. rewrite <- app_assoc in LA'. exact LA'.
    + intros g0 h0 EG EH IT. destruct h0 as [|y h0]; [discriminate|]. cbn [map] in EH. injection EH as EY EH. destruct y as [i' s' t'|i' p']; [discriminate|]. cbn [at_addr] in EY. injection EY as <- EP. assert (p' = p) as -> by lia.
      destruct (IT i p (or_introl eq_refl)) as (n & -> & Hn). pose proof (PC n eq_refl Hn) as PA. constructor; [exact PA| |].
      * destruct PA as (f1 & m1 & q1 & _ & _ & Q3 & Q4 & _). rewrite (offs_some a u L _ q1); [cbn [option_map]; congruence| |exact Q4]. rewrite map_app, <- EG. cbn [map at_addr]. rewrite LA, Q3. reflexivity.
      * apply A2; [rewrite EG, map_app; reflexivity|exact EH|]. intros j p Hin. apply (IT j p). right. exact Hin.
Qed.

(** ** From the parser to the chase *)
Definition kid_listener (ch : list tree) : listener :=
  mkL 0 (fun g => match last g (Terminal 0 0 0) with
                  | Nonterminal i p => match find (fun c => (tid c =? i)%N && (a + tstart c =? p)%N) ch with Some c => (a + end_of c)%N | None => 0%N end
                  | _ => 0%N end) (fun _ _ => 0%N).
Hypothesis HN : forall m, m < length (c_nets C) -> (1 <= fst (net_of C m) < 2 ^ 15)%N.
Hypothesis HU : (N.of_nat (length u) < 2 ^ 48)%N.
Lemma run_det c c' : run_of C u c -> run_of C u c' -> tid c = tid c' -> tstart c = tstart c' -> end_of c = end_of c'.
Proof.
  intros (f & m & p & q & H1 & H2 & H3 & H4 & H5 & H6 & H7) (f' & m' & p' & q' & K1 & K2 & K3 & K4 & K5 & K6 & K7) E1 E2. assert (m = m') as <- by (apply HD; congruence). assert (p = p') as <- by lia.
  unfold run_machine in *. destruct (run_node C u f m 0 p) as [n1 w1| | |] eqn:R1; cbn [pre] in H7; try discriminate. destruct (run_node C u f' m 0 p) as [n2 w2| | |] eqn:R2; cbn [pre] in K7; try discriminate.
  injection H7 as -> _. injection K7 as -> _. pose proof (fuel_mono C u look_all f m 0 p ltac:(congruence) (max f f') ltac:(lia)) as M1. pose proof (fuel_mono C u look_all f' m 0 p ltac:(congruence) (max f f') ltac:(lia)) as M2. assert (q = q') by congruence. congruence.
Qed.
Lemma last_snoc {A} (g : list A) x d : last (g ++ [x]) d = x.
Proof. induction g as [|y g IH]; [reflexivity|]. cbn [app last]. destruct (g ++ [x]) eqn:E; [destruct g; discriminate|exact IH]. Qed.
Lemma kid_answer ch c g : In c ch -> Forall (run_of C u) ch -> l_answer (kid_listener ch) (g ++ [Nonterminal (tid c) (a + tstart c)%N]) = (a + end_of c)%N.
Proof.
  intros Hc HF. cbn [kid_listener l_answer]. rewrite last_snoc. rewrite Forall_forall in HF. destruct (find _ ch) as [c'|] eqn:EF.
  - apply find_some in EF as [F1 F2]. rewrite (run_det c' c); [reflexivity|auto|auto|lia|lia].
  - exfalso. pose proof (find_none _ _ EF c Hc) as F. cbv beta in F. lia.
Qed.
Lemma asked_way L m : forall xs (ch : list tree) g, passed C m xs = map (fun c => (tid c, tstart c, end_of c)) ch -> Forall (fun c => chased C lid e a (tid c) (tstart c) c) ch ->
  (forall c g, In c ch -> l_answer L (g ++ [Nonterminal (tid c) (a + tstart c)%N]) = (a + end_of c)%N) -> asked C lid e a L g (map (at_addr a) (all_told C lid m xs)) ch.
Proof.
  induction xs as [|[[i p] q] xs IH]; intros ch g EP HF HL; cbn [passed all_told flat_map map] in *.
  - destruct ch; [constructor|discriminate].
  - unfold all_told in IH. rewrite map_app. unfold told at 1. destruct (nt (node_of C m i)) as [|x|l|A|]; cbn [app map] in *; try (apply IH; assumption); try (destruct (0 <=? lid m i)%Z; cbn [app map at_addr]; [constructor|]; apply IH; assumption).
    destruct ch as [|c ch]; [discriminate|]. cbn [map] in EP. injection EP as E1 E2 E3 EP. inversion HF; subst. cbn [at_addr]. rewrite E1, E2. constructor; [assumption|apply HL; left; reflexivity|]. apply IH; [exact EP|assumption|]. intros c' g' Hc'. apply HL. right. exact Hc'.
Qed.
(** One node: a listener that knows where its children end. *)
Lemma node_chase t L : run_of C u t -> tree_ok t -> (forall c g, In c (tkids t) -> l_answer L (g ++ [Nonterminal (tid c) (a + tstart c)%N]) = (a + end_of c)%N) ->
  exists m xs, m < length (c_nets C) /\ fst (net_of C m) = tid t /\ passed C m xs = map (fun c => (tid c, tstart c, end_of c)) (tkids t) /\ Forall (run_of C u) (tkids t) /\ Forall tree_ok (tkids t) /\
  forall r x p sv q o b, r RDI = l_self L -> r RSI = (a + tstart t)%N -> call_ends C lid e L m r x p sv q o b (a + end_of t)%N (map (at_addr a) (all_told C lid m xs)).
Proof.
  intros RO OK HL. destruct (run_kids C lid u pad HG HN HU t RO OK) as (m & p & q & f & xs & Hm & EI & ES & EE & Hp & WW & PA & KR & KO & G). exists m, xs. split; [exact Hm|]. split; [congruence|]. split; [exact PA|]. split; [exact KR|]. split; [exact KO|].
  intros r x pp sv qq o b R1 R2. rewrite ES in R2.
  assert (AG : agreed C lid m (offs a u L) [] xs).
  { apply (kids_agree C lid u HN HU (offs a u L) m xs (tkids t) []); [exact PA|]. intros c h' Hc. rewrite Forall_forall in KR. destruct (KR c Hc) as (f1 & m1 & p1 & q1 & _ & _ & _ & Q4 & _ & Q6 & _). rewrite (offs_some a u L _ q1); [cbn [option_map]; congruence| |exact Q6].
    rewrite map_app. cbn [map at_addr]. rewrite (HL c _ Hc). congruence. }
  specialize (G (offs a u L) AG). destruct (cat_machine C lid m Hm) as (X & Y & EP). pose proof (find_at' P X _ _ EP (chaser_nodup C lid)) as FM.
  pose proof (chaser_run C lid e a u pad L (offs a u L) HG HT Ha HU0 (offs_ok a u L) r x pp sv qq o b m p Hm R1 R2 Hp _ FM f) as RUN. rewrite G in RUN. destruct RUN as (s & S & PC & V & O & RR & K & SV & _).
  eexists _, s. split; [exact FM|]. split; [exact S|]. split; [exact PC|]. split; [congruence|]. split; [exact RR|]. auto.
Qed.
Theorem parsed_chased : forall t, run_of C u t -> tree_ok t -> chased C lid e a (tid t) (tstart t) t.
Proof.
  induction t as [id s ee ch IH] using tree_ind'. intros RO OK.
  assert (KR : Forall (run_of C u) ch /\ Forall tree_ok ch) by (destruct (run_kids C lid u pad HG HN HU _ RO OK) as (m & p & q & f & xs & _ & _ & _ & _ & _ & _ & _ & K1 & K2 & _); auto). destruct KR as [KR KO].
  destruct (node_chase _ (kid_listener ch) RO OK) as (m & xs & Hm & EI & PA & _ & _ & CE); [intros c g Hc; apply kid_answer; assumption|]. cbn [tid tstart tkids end_of] in *.
  apply (chased_rule C lid e a (kid_listener ch) id s ee (map (at_addr a) (all_told C lid m xs)) ch).
  - exists m, (fun x => match x with RDI => 0%N | RSI => (a + s)%N | _ => 0%N end), [], [], [], [], (mkW [] [] 0), 0%N. split; [exact Hm|]. split; [exact EI|]. split; [reflexivity|]. split; [reflexivity|]. apply CE; reflexivity.
  - apply asked_way; [exact PA| |intros c g Hc; apply kid_answer; assumption]. rewrite Forall_forall in *. intros c Hc. apply IH; auto.
Qed.
(** The numbers of the tree fit the marker words. *)
Theorem chased_ok :
  (forall id p t, chased C lid e a id p t -> forall n, p = N.of_nat n -> n <= length u -> tree_ok t) /\
  (forall L g h ch, asked C lid e a L g h ch -> (forall i p, In (Nonterminal i (a + p)%N) h -> exists n, p = N.of_nat n /\ n <= length u) -> fold_right (fun c P => tree_ok c /\ P) True ch).
Proof.
  apply (chased_ind2 C lid e a (fun id p t _ => forall n, p = N.of_nat n -> n <= length u -> tree_ok t) (fun L g h ch _ => (forall i p, In (Nonterminal i (a + p)%N) h -> exists n, p = N.of_nat n /\ n <= length u) -> fold_right (fun c P => tree_ok c /\ P) True ch)).
  - intros L id p q h ch (m & r & x & pp & sv & qq & o & b & Hm & EI & R1 & R2 & CE) AS IH n -> Hn. destruct (proj2 chased_parsed _ _ _ _ AS) as [A1 _].
    destruct (call_cases L m n r x pp sv qq o b _ h Hm R1 R2 Hn CE) as [f R]. pose proof (dnet_ne C pad m HG Hm) as NE.
    destruct (chase C lid u (offs a u L) f m 0 n []) as [n' h0|h0|h0| |] eqn:EC; try contradiction.
    + destruct R as (-> & EV & Hn'). assert (q = N.of_nat n') as -> by lia.
      pose proof (chase_way C lid u pad HG (offs a u L) (fun h n H => proj2 (offs_ok a u L h n H)) f m 0 n [] Hm NE Hn) as W. rewrite EC in W. destruct W as (ys & k & r0 & W1 & W2 & W3 & W4 & W5). cbn [app] in W4.
      assert (IT : in_text h0). { rewrite W4. apply way_in_text. intros z Hz. apply in_app_or in Hz as [Hz|[<-|[]]]; [exact (way_fits _ _ _ _ _ _ W1 z Hz)|exact W2]. }
      cbn [tree_ok]. split; [rewrite <- EI; apply HN; exact Hm|]. split; [lia|]. split; [lia|]. apply IH. intros i p Hin. apply in_map_iff in Hin as (y & EY & Hy). destruct y as [i' s' t'|i' p']; [discriminate|]. cbn [at_addr] in EY. injection EY as <- EP. assert (p' = p) as -> by lia. exact (IT _ _ Hy).
    + destruct R as [_ R]. lia.
    + exfalso. destruct R as [d ->]. destruct (chase_lost (offs a u L) (fun h n H => proj2 (offs_ok a u L h n H)) f m 0 n [] h0 Hm NE Hn EC) as (d0 & i0 & p0 & EH & Hp & EA). cbn [app] in EH.
      destruct (A1 (map (at_addr a) d0) i0 (N.of_nat p0) d) as (c & PA & LA); [rewrite EH, map_app, <- app_assoc; reflexivity|]. destruct (PA p0 eq_refl Hp) as (f1 & m1 & q1 & _ & _ & Q3 & Q4 & _).
      rewrite (offs_some a u L h0 q1) in EA; [discriminate| |exact Q4]. rewrite EH, map_app, <- Q3. cbn [app] in LA. exact LA.
  - intros; exact Logic.I.
  - intros L g i s t h ch _ IH H. apply IH. intros j p Hin. apply (H j p). right. exact Hin.
  - intros L g i p c h ch _ IC _ _ IH H. cbn [fold_right]. destruct (H i p (or_introl eq_refl)) as (n & -> & Hn). split; [exact (IC n eq_refl Hn)|]. apply IH. intros j p' Hin. apply (H j p'). right. exact Hin.
Qed.
End Same.
