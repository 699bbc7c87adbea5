(** * From the networks to the rules: what a chase visits *)
From Coq Require Import List NArith ZArith Arith Bool Lia ZifyBool ZifyN ZifyNat.
From Verif Require Import CharClass NFA NFABuild DFA RegexSpec GrammarSpec Marker Reduction TreeSpec ParseSpec Writer X86 CodeGen CodeGenProofs CodeGenSimd CodeGenDfa CodeGenMisc ATN ATNSem ATNBuild ATNOpt ATNLive Grammar ParserGen ParserRun ParserSim ParserTree ParserTop ParserGround ParserComplete DryParser Chaser ChaserTree ChaserSpec.
Import ListNotations.
Local Open Scope nat_scope.

Section Lift.
Variables (C : compiled) (lid : nat -> nat -> Z) (u : list N) (rules : list N -> option (N * gsel)) (matches : pat -> list N -> Prop).
Definition vis (m : nat) (x : wstep) : list visit :=
  let '(i, p, q) := x in
  match nt (node_of C m i) with
  | NInv name => [Asked (rule_number C name) p q]
  | NLit _ | NReg _ => [Shown (if (0 <=? lid m i)%Z then Some (Z.to_N (lid m i)) else None) p q]
  | _ => []
  end.
Lemma hears_app a xs ys : hears a (xs ++ ys) = hears a xs ++ hears a ys. Proof. apply flat_map_app. Qed.
Lemma hears_vis a m x : hears a (vis m x) = map (at_addr a) (told C lid m x).
Proof. destruct x as [[i p] q]. unfold vis, told. destruct (nt (node_of C m i)); try reflexivity; destruct (0 <=? lid m i)%Z; reflexivity. Qed.
Lemma hears_all a m xs : hears a (flat_map (vis m) xs) = map (at_addr a) (all_told C lid m xs).
Proof. induction xs as [|x xs IH]; [reflexivity|]. cbn [flat_map all_told]. unfold all_told in IH. rewrite hears_app, hears_vis, IH, map_app. reflexivity. Qed.
Lemma agreed_answers (L : listener) (a : N) (ans : list event -> option nat) m : (forall h n, ans h = Some n -> l_answer L (map (at_addr a) h) = (a + N.of_nat n)%N) ->
  forall xs h, agreed C lid m ans h xs -> forall vs1 id p q vs2, flat_map (vis m) xs = vs1 ++ Asked id p q :: vs2 ->
    l_answer L (map (at_addr a) h ++ hears a (vs1 ++ [Asked id p q])) = (a + N.of_nat q)%N.
Proof.
  intros HA. induction xs as [|x xs IH]; intros h AG vs1 id p q vs2 E; [destruct vs1; discriminate|]. cbn [flat_map agreed] in *. destruct AG as [A1 A2].
  assert (STEP : forall v, vis m x = [v] -> forall w vs1', vs1 = w :: vs1' -> l_answer L (map (at_addr a) h ++ hears a (vs1 ++ [Asked id p q])) = (a + N.of_nat q)%N).
  { intros v EV w vs1' ->. rewrite EV in E. cbn [app] in E. injection E as <- E. specialize (IH (h ++ told C lid m x) A2 vs1' id p q vs2 E). rewrite map_app, <- hears_vis, EV, <- app_assoc, <- hears_app in IH. exact IH. }
  destruct x as [[i p0] q0]. cbn [fst snd] in A1. pose proof (hears_vis a m (i, p0, q0)) as HV. destruct (nt (node_of C m i)) as [|nm|l|A|] eqn:EN.
  - unfold vis in E, STEP, HV. rewrite EN in E, STEP, HV. cbn [app] in E. specialize (IH _ A2 vs1 id p q vs2 E). rewrite map_app, <- HV in IH. cbn [hears flat_map] in IH. rewrite app_nil_r in IH. exact IH.
  - unfold vis in E, STEP, HV. rewrite EN in E, STEP, HV. cbn [app] in E. destruct vs1 as [|w vs1]; [|apply (STEP _ eq_refl w vs1 eq_refl)]. injection E as <- <- <- _. apply HA in A1. rewrite map_app, <- HV in A1. exact A1.
  - unfold vis in E, STEP, HV. rewrite EN in E, STEP, HV. cbn [app] in E. destruct vs1 as [|w vs1]; [discriminate|]. eapply STEP; reflexivity.
  - unfold vis in E, STEP, HV. rewrite EN in E, STEP, HV. cbn [app] in E. destruct vs1 as [|w vs1]; [discriminate|]. eapply STEP; reflexivity.
  - unfold vis in E, STEP, HV. rewrite EN in E, STEP, HV. cbn [app] in E. specialize (IH _ A2 vs1 id p q vs2 E). rewrite map_app, <- HV in IH. cbn [hears flat_map] in IH. rewrite app_nil_r in IH. exact IH.
Qed.

(** At the level of the networks. *)
Inductive nvisits : list nty -> nat -> nat -> list visit -> Prop :=
| nv_end p : p <= length u -> nvisits [] p p []
| nv_inv name w p m q vs : p <= length u -> m <= length u -> nvisits w m q vs -> nvisits (NInv name :: w) p q (Asked (rule_number C name) p m :: vs)
| nv_lit k s w p m q vs : span u p m -> slice u p m = s -> nvisits w m q vs -> nvisits (NLit s :: w) p q (Shown k p m :: vs)
| nv_reg k A w p m q vs : span u p m -> dfa_run (c_dfa C A) 0 (slice u p m) = true -> nvisits w m q vs -> nvisits (NReg A :: w) p q (Shown k p m :: vs)
| nv_ws w p m q vs : span u p m -> spaces (slice u p m) -> nvisits w m q vs -> nvisits (NWs :: w) p q vs.
Lemma fits_visits m i p p1 w q vs : fits C u m (i, p, p1) -> nvisits w p1 q vs -> nvisits (ATNSem.reads (nt (node_of C m i)) ++ w) p q (vis m (i, p, p1) ++ vs).
Proof.
  intros (H1 & H2 & H3) V. unfold vis. destruct (nt (node_of C m i)) as [|x|l|A|]; cbn [ATNSem.reads app].
  - subst p1. exact V.
  - constructor; assumption.
  - destruct H3 as [H3 H4]. econstructor; [split; lia|exact H4|exact V].
  - destruct H3 as [H3 H4]. econstructor; [split; lia|exact H4|exact V].
  - destruct H3 as [H3 H4]. econstructor; [split; [exact H3|lia]|exact H4|exact V].
Qed.
Lemma way_visits m i p ys k r w q vs : way C u m i p ys k r -> nvisits (ATNSem.reads (nt (node_of C m k)) ++ w) r q vs ->
  exists w1, apath (snd (net_of C m)) i w1 k /\ exists w0, nvisits (ATNSem.reads (nt (node_of C m i)) ++ w0) p q (flat_map (vis m) ys ++ vs) /\ w0 = w1 ++ w.
Proof.
  induction 1 as [i p|i p p1 k xs j q' F K _ IH]; intros V.
  - exists []. split; [constructor|]. exists w. split; [exact V|reflexivity].
  - destruct (IH V) as (w1 & P1 & w0 & V1 & ->). exists (rd (snd (net_of C m)) k ++ w1). split; [econstructor; [exact K|exact P1]|]. exists ((rd (snd (net_of C m)) k ++ w1) ++ w). split; [|reflexivity].
    cbn [flat_map]. rewrite <- !app_assoc. apply (fits_visits m i p p1); [exact F|]. exact V1.
Qed.
Hypothesis HN : nets_of rules C.
Hypothesis HP : pats_sound rules matches C.
Hypothesis HK : linked C.
Definition okt (v : list term) : Prop := (forall x, In (TPat x) v -> forall t, dfa_run (c_dfa C (build_pat x)) 0 t = true -> matches x t) /\ (forall x, In (TRule x) v -> exists m', net_index (c_nets C) x = Some m').
Lemma okt_tail x v : okt (x :: v) -> okt v.
Proof. intros [A B]. split; intros y Hy; [apply A|apply B]; right; exact Hy. Qed.
Lemma visits_lift : forall v w1 w2 p q vs, nvisits w1 p q vs -> w1 ++ w2 = words v -> okt v -> exists v1 v2 q1, v = v1 ++ v2 /\ visits rules matches u v1 p q1 vs /\ (w2 = [] -> v2 = [] /\ q1 = q).
Proof.
  induction v as [|x v IH]; intros w1 w2 p q vs V E OK.
  - apply app_eq_nil in E as [-> ->]. inversion V; subst. exists [], [], q. split; [reflexivity|]. split; [constructor; assumption|auto].
  - pose proof (okt_tail _ _ OK) as OK'. destruct x as [nm|s|x]; cbn [words flat_map term_word app] in E.
    + inversion V as [p' Hp|name w p' m q' vs' Hp Hm V'|k s w p' m q' vs' Hs He V'|k A w p' m q' vs' Hs He V'|w p' m q' vs' Hs He V']; subst; cbn [app] in E; try discriminate.
      * exists [], (TRule nm :: v), q. split; [reflexivity|]. split; [constructor; assumption|]. intros ->. discriminate.
      * injection E as -> E. destruct (IH _ _ _ _ _ V' E OK') as (v1 & v2 & q1 & -> & A1 & A2). exists (TRule nm :: v1), v2, q1. split; [reflexivity|]. split; [|exact A2].
        destruct (proj2 OK nm (or_introl eq_refl)) as [m' EM]. destruct (nets_index rules C nm m' HN EM) as (e & E1 & _). rewrite (rule_number_of C _ _ EM). econstructor; eassumption.
    + inversion V as [p' Hp|name w p' m q' vs' Hp Hm V'|k s0 w p' m q' vs' Hs He V'|k A w p' m q' vs' Hs He V'|w p' m q' vs' Hs He V']; subst; cbn [app] in E; try discriminate.
      * exists [], (TLit s :: v), q. split; [reflexivity|]. split; [constructor; assumption|]. intros ->. discriminate.
      * injection E as E. inversion V' as [p'' Hp2|name w' p'' m' q'' vs'' Hp2 Hm2 V2|k s0 w' p'' m' q'' vs'' Hs2 He2 V2|k A w' p'' m' q'' vs'' Hs2 He2 V2|w' p'' m' q'' vs'' Hs2 He2 V2]; subst; cbn [app] in E; try discriminate.
        -- exists [], (TLit s :: v), p. split; [reflexivity|]. split; [constructor; unfold span in Hs; lia|]. intros ->. discriminate.
        -- injection E as E0 E. destruct (IH _ _ _ _ _ V2 E OK') as (v1 & v2 & q1 & -> & A1 & A2). exists (TLit s :: v1), v2, q1. split; [reflexivity|]. split; [|exact A2]. econstructor; [exact Hs|exact He|exact Hs2|exact E0|exact A1].
    + inversion V as [p' Hp|name w p' m q' vs' Hp Hm V'|k s0 w p' m q' vs' Hs He V'|k A w p' m q' vs' Hs He V'|w p' m q' vs' Hs He V']; subst; cbn [app] in E; try discriminate.
      * exists [], (TPat x :: v), q. split; [reflexivity|]. split; [constructor; assumption|]. intros ->. discriminate.
      * injection E as E. inversion V' as [p'' Hp2|name w' p'' m' q'' vs'' Hp2 Hm2 V2|k s0 w' p'' m' q'' vs'' Hs2 He2 V2|k A w' p'' m' q'' vs'' Hs2 He2 V2|w' p'' m' q'' vs'' Hs2 He2 V2]; subst; cbn [app] in E; try discriminate.
        -- exists [], (TPat x :: v), p. split; [reflexivity|]. split; [constructor; unfold span in Hs; lia|]. intros ->. discriminate.
        -- injection E as E0 E. destruct (IH _ _ _ _ _ V2 E OK') as (v1 & v2 & q1 & -> & A1 & A2). exists (TPat x :: v1), v2, q1. split; [reflexivity|]. split; [|exact A2]. econstructor; [exact Hs|exact He|exact Hs2| |exact A1].
           apply (proj1 OK x (or_introl eq_refl)). rewrite <- E0. exact He2.
Qed.
Lemma path_nodes M p w q : apath M p w q -> closed M -> forall x, In x w -> exists n, In n M /\ nt n = x.
Proof.
  induction 1 as [p|p q w r D _ IH]; intros CL x Hx; [destruct Hx|]. apply in_app_or in Hx as [Hx|Hx]; [|auto]. exists (tonode M q). split; [apply nth_In; exact (CL _ _ D)|].
  unfold rd, ATNSem.reads in Hx. destruct (nt (tonode M q)); [destruct Hx|destruct Hx as [<-|[]]; reflexivity..].
Qed.
Lemma words_rule x v : In (TRule x) v -> In (NInv x) (words v).
Proof. intros H. apply in_flat_map. exists (TRule x). split; [exact H|left; reflexivity]. Qed.
Lemma rule_okt name id M e w v : In (name, (id, M)) (c_nets C) -> rules name = Some (id, e) -> net_for e M -> atn_accepts M w -> w = words v -> (forall x, In x v -> In x (gsel_terms e)) -> okt v.
Proof.
  intros IN ER NF AC EW HT. split.
  - intros x Hx t. exact (HP name id e x t ER (HT _ Hx)).
  - intros x Hx. destruct (net_for_wf _ _ NF) as [W1 W2 _ _]. destruct (path_nodes _ _ _ _ AC W2 (NInv x)) as (n & N1 & N2); [rewrite EW; apply words_rule; exact Hx|]. exact (li_refs _ HK _ _ _ n x IN N1 N2).
Qed.
(** A whole way, and a way that stops somewhere. *)
Lemma whole_way_visits m p xs q : m < length (c_nets C) -> whole_way C u m p xs q ->
  exists name e w, rules name = Some (fst (net_of C m), e) /\ gselL term (fun x => [x]) e w /\ visits rules matches u w p q (flat_map (vis m) xs).
Proof.
  intros Hm (ys & k & r & -> & W & F & AT). destruct (net_in C m Hm) as (name & IN & _). destruct (net_of C m) as [id M] eqn:EM. cbn [fst snd] in *. destruct (proj2 HN _ _ _ IN) as (e & ER & NF).
  destruct (net_for_wf _ _ NF) as [W1 W2 W3 W4]. assert (EMs : snd (net_of C m) = M) by (rewrite EM; reflexivity).
  assert (V0 : nvisits (ATNSem.reads (nt (node_of C m k)) ++ []) r q (vis m (k, r, q) ++ [])) by (apply fits_visits; [exact F|constructor; exact (proj1 (proj2 F))]).
  destruct (way_visits m 0 p ys k r [] q _ W V0) as (w1 & P1 & w0 & V1 & ->). rewrite EMs in P1. rewrite app_nil_r in V1.
  assert (B : forall i w j, apath M i w j -> i < length M -> j < length M) by (clear - W2; induction 1 as [|i q w j D _ IH]; intros; [assumption|apply IH, (W2 _ _ D)]).
  assert (k = length M - 1) as ->.
  { destruct (Nat.eq_dec k (length M - 1)) as [E|NE]; [exact E|exfalso]. pose proof (B _ _ _ P1 ltac:(lia)) as HKl.
    apply (W4 k); [lia|]. unfold dests, tonode. unfold node_of in AT. rewrite EMs in AT. rewrite AT. reflexivity. }
  assert (R0 : ATNSem.reads (nt (node_of C m 0)) = []) by (unfold node_of; rewrite EMs; unfold tonode in W3; rewrite W3; reflexivity). rewrite R0 in V1. cbn [app] in V1.
  assert (AC : atn_accepts M w1) by exact P1. pose proof AC as AC'. apply (net_for_language e _ NF) in AC'. destruct (proj2 (proj2 lift_all) e w1 AC') as (v & V2 & V3 & V4).
  destruct (visits_lift v w1 [] p q _ V1 ltac:(rewrite app_nil_r; exact V3) (rule_okt _ _ _ _ _ _ IN ER NF AC V3 V4)) as (v1 & v2 & q1 & EV & A1 & A2). destruct (A2 eq_refl) as [-> ->]. rewrite app_nil_r in EV. subst v1.
  exists name, e, v. split; [exact ER|]. split; [exact V2|]. rewrite flat_map_app. cbn [flat_map]. exact A1.
Qed.
Lemma part_way_visits m p ys k r zs : m < length (c_nets C) -> way C u m 0 p ys k r -> p <= length u -> (zs = [] \/ exists r', zs = [(k, r, r')] /\ fits C u m (k, r, r')) ->
  exists name e w w' q, rules name = Some (fst (net_of C m), e) /\ gselL term (fun x => [x]) e (w ++ w') /\ visits rules matches u w p q (flat_map (vis m) (ys ++ zs)).
Proof.
  intros Hm W Hp HZ. destruct (net_in C m Hm) as (name & IN & _). destruct (net_of C m) as [id M] eqn:EM. cbn [fst snd] in *. destruct (proj2 HN _ _ _ IN) as (e & ER & NF).
  destruct (net_for_wf _ _ NF) as [W1 W2 W3 W4]. assert (EMs : snd (net_of C m) = M) by (rewrite EM; reflexivity).
  assert (B : forall i w j, apath M i w j -> i < length M -> j < length M) by (clear - W2; induction 1 as [|i q w j D _ IH]; intros; [assumption|apply IH, (W2 _ _ D)]).
  assert (HR : r <= length u). { clear - W Hp. induction W as [|i p p1 k xs j q F K W IH]; [exact Hp|]. apply IH. exact (proj1 (proj2 F)). }
  (* the words up to the point where it stopped, and from there to the end *)
  assert (G : exists w1 w2 q, nvisits w1 p q (flat_map (vis m) (ys ++ zs)) /\ atn_accepts M (w1 ++ w2)).
  { assert (R0 : ATNSem.reads (nt (node_of C m 0)) = []) by (unfold node_of; rewrite EMs; unfold tonode in W3; rewrite W3; reflexivity).
    assert (G1 : forall i p ys k r, way C u m i p ys k r -> r <= length u -> exists w1 w2, nvisits w1 p r (flat_map (vis m) ys) /\ forall w3, apath M k w3 (length M - 1) -> apath M i (w2 ++ w3) (length M - 1) /\ ATNSem.reads (nt (node_of C m i)) ++ w2 ++ w3 = w1 ++ ATNSem.reads (nt (node_of C m k)) ++ w3).
    { clear W Hp HR HZ p ys k r zs. induction 1 as [i p|i p p1 k xs j q F K W IH]; intros Hr.
      - exists [], []. split; [constructor; exact Hr|]. intros w3 P3. split; [exact P3|reflexivity].
      - destruct (IH Hr) as (w1 & w2 & V & G). exists (ATNSem.reads (nt (node_of C m i)) ++ w1), (ATNSem.reads (nt (node_of C m k)) ++ w2). split; [cbn [flat_map]; apply fits_visits; assumption|].
        intros w3 P3. destruct (G w3 P3) as [G1 G2]. split; [rewrite <- app_assoc; unfold node_of; rewrite EMs; apply (ap_step M i k); [unfold dests, tonode; unfold node_of in K; rewrite EMs in K; exact K|exact G1]|].
        rewrite <- !app_assoc. f_equal. exact G2. }
    destruct (G1 0 p ys k r W HR) as (w1 & w2 & V & G2).
    assert (HKl : k < length M). { assert (H : forall i p ys k r, way C u m i p ys k r -> i < length M -> k < length M); [|apply (H _ _ _ _ _ W); lia]. clear - W2 EMs. induction 1 as [|i p p1 k xs j q F K W IH]; intros Hi; [exact Hi|]. apply IH. apply (W2 i). unfold dests, tonode. unfold node_of in K. rewrite EMs in K. exact K. }
    destruct (net_for_reach e M NF k HKl) as [w3 P3]. destruct (G2 w3 P3) as [G3 G4]. rewrite R0 in G4. cbn [app] in G4. destruct HZ as [->|(r' & -> & F)].
    - exists w1, (ATNSem.reads (nt (node_of C m k)) ++ w3), r. rewrite app_nil_r. split; [exact V|]. rewrite <- G4. exact G3.
    - exists (w1 ++ ATNSem.reads (nt (node_of C m k))), w3, r'. split; [|rewrite <- app_assoc, <- G4; exact G3].
      rewrite flat_map_app. cbn [flat_map]. assert (V0 : nvisits (ATNSem.reads (nt (node_of C m k)) ++ []) r r' (vis m (k, r, r') ++ [])) by (apply fits_visits; [exact F|constructor; exact (proj1 (proj2 F))]). rewrite app_nil_r in V0.
      clear - V V0. revert V0. generalize (vis m (k, r, r') ++ []) as z. generalize (ATNSem.reads (nt (node_of C m k))) as wz. intros wz z V0. induction V; cbn [app]; [exact V0|econstructor; eauto..]. }
  destruct G as (w1 & w2 & q & V1 & AC). pose proof AC as AC'. apply (net_for_language e _ NF) in AC'. destruct (proj2 (proj2 lift_all) e _ AC') as (v & V2 & V3 & V4).
  destruct (visits_lift v w1 w2 p q _ V1 V3 (rule_okt _ _ _ _ _ _ IN ER NF AC V3 V4)) as (v1 & v2 & q1 & EV & A1 & A2). subst v. exists name, e, v1, v2, q1. auto.
Qed.
End Lift.
