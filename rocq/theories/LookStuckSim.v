(** * Where the composite network is stuck, the rules are, and the other way round *)
From Coq Require Import List NArith ZArith Arith Bool Lia ZifyBool ZifyN ZifyNat Relations.
From Verif Require Import CharClass CharClassSpec CharClassProofs Stream NFA NFASem NFAProofs DFA DFAMin DFADep DFAProofs DFATerm DFAPattern ATN Grammar GrammarProofs CodeGen ParseSpec Lookahead LookSpec LookClosure LookImport LookAuto LookFuel LookEnds LookMain LookGrammarSpec LookRead LookSim LookGrammar LookStuck LookTable TableSpec.
Import ListNotations.
Local Open Scope nat_scope.

Section Sim.
Variable nets : list (list N * (N * atn)).
Variable D : list (list N * cmach).
Hypothesis HN : lookable nets.
Hypothesis HD : composite nets = Some D.
Notation known := (known nets).
Notation net := (net nets).
Notation entry := (entry nets).
Notation exit_ := (exit_ nets).
Notation sym := (sym nets).
Notation outs := (outs nets).
Notation tr := (tr nets).
Notation call_ok := (call_ok nets).
Notation interp := (interp nets).
Notation img := (img nets).

(** ** The composite network is whole *)
Lemma node_some' r i q up : known r -> i < length (net r) -> q < nsize (sym r i) -> node_at D ((r, entry r i + q) :: up) <> None.
Proof. intros K Hi Hq H. destruct (node_some nets D HN HD r i q up K Hi Hq) as (c & C & _). congruence. Qed.
Lemma composite_ok : nodes_ok D.
Proof.
  split; [|split].
  - intros r p up n t E Ht. pose proof (node_known nets D HD r p up n E) as K. destruct (node_cases nets D HN HD r p up n K E) as (i & q & Hi & -> & Hq & _).
    destruct (node_trs nets D HN HD r i q up n t K Hi Hq E Ht) as [T1 T2 T3 T4|s T1 T2 T3 T4|A d T1 T2 T3 T4|d g T1 T2 T3 T4]; rewrite T4.
    + rewrite <- (Nat.add_0_r (entry r i)). apply node_some'; [exact K|exact Hi|rewrite T1; cbn; lia].
    + apply node_some'; [exact K|exact Hi|rewrite T1; cbn; lia].
    + apply node_some'; [exact K|exact Hi|rewrite T1; cbn]. destruct (reg_live nets HN r i A K Hi T1) as (_ & L & _). eapply L; exact T3.
    + pose proof (out_lt nets HN r i d g K Hi T2) as Ld. rewrite <- (Nat.add_0_r (entry r d)). apply node_some'; [exact K|exact Ld|]. apply (size_pos nets HN); assumption.
  - intros [|[r p] up] n E Hs; [discriminate|]. pose proof (node_known nets D HD r p up n E) as K. destruct (node_cases nets D HN HD r p up n K E) as (i & q & Hi & -> & Hq & _).
    rewrite (node_csub nets D HN HD r i q up n K Hi Hq E) in *. destruct (sym r i) as [|s|s|A|] eqn:Es; try congruence. pose proof (inv_known nets HN r i s K Hi Es) as Ks. destruct (entry0 nets D HN HD s Ks) as [S0 S1].
    rewrite <- S0 at 1. rewrite <- (Nat.add_0_r (entry s 0)). apply node_some'; [exact Ks|exact S1|]. apply (size_pos nets HN); assumption.
  - intros r [s p] Hs. apply (sites_iff nets D HN HD) in Hs as (_ & c & C & _). congruence.
Qed.

(** ** A place of the composite network belongs to one place of the rules *)
Lemma place_le r i j q q' : known r -> i < length (net r) -> j < length (net r) -> q < nsize (sym r i) -> q' < nsize (sym r j) -> entry r i + q = entry r j + q' -> exit_ r i <= exit_ r j -> i = j.
Proof.
  intros K Hi Hj Hq Hq' E L. destruct (node_exit nets D HN HD r i [] K Hi) as (c & C1 & _ & C2 & _).
  pose proof (exit_q nets HN r i K Hi) as Xi. pose proof (exit_q nets HN r j K Hj) as Xj.
  destruct (Nat.eq_dec (exit_ r i) (exit_ r j)) as [Q|Q].
  - destruct (node_exit nets D HN HD r j [] K Hj) as (c' & C1' & _ & C2' & _). rewrite <- Q, C1 in C1'. congruence.
  - exfalso. set (a := exit_ r i - entry r j). assert (Ea : exit_ r i = entry r j + a) by lia. rewrite Ea in C1. rewrite (node_inner nets D HN HD r j a [] K Hj) in C1 by lia. injection C1 as <-. rewrite frag_csrc in C2. discriminate.
Qed.
Lemma place_inj r i j q q' : known r -> i < length (net r) -> j < length (net r) -> q < nsize (sym r i) -> q' < nsize (sym r j) -> entry r i + q = entry r j + q' -> i = j.
Proof.
  intros K Hi Hj Hq Hq' E. destruct (Nat.le_ge_cases (exit_ r i) (exit_ r j)) as [L|L]; [eapply place_le; eassumption|]. symmetry. eapply place_le; [exact K|exact Hj|exact Hi|exact Hq'|exact Hq|lia|exact L].
Qed.
Lemma exit_inj r i j : known r -> i < length (net r) -> j < length (net r) -> exit_ r i = exit_ r j -> i = j.
Proof.
  intros K Hi Hj E. pose proof (size_pos nets HN r i K Hi). pose proof (size_pos nets HN r j K Hj). rewrite (exit_q nets HN r i K Hi), (exit_q nets HN r j K Hj) in E. eapply place_inj; [exact K|exact Hi|exact Hj| | |exact E]; lia.
Qed.
Lemma tr_inj : forall up up', Forall call_ok up -> Forall call_ok up' -> tr up = tr up' -> up = up'.
Proof.
  induction up as [|[r i] up IH]; intros [|[r' i'] up'] H H' E; try discriminate; [reflexivity|]. cbn [LookSim.tr map fst snd] in E. injection E as Er E1 E2. subst r'. inversion H as [|? ? (K & Hi & _) HH]; subst. inversion H' as [|? ? (_ & Hi' & _) HH']; subst. cbn [fst snd] in *.
  rewrite (exit_inj r i i' K Hi Hi' E1). f_equal. apply IH; assumption.
Qed.
Lemma interp_fun x y u y' u' : interp x y u -> interp x y' u' -> y = y'.
Proof.
  intros H H'. destruct H as [r i q up u K Hi Hup F|r i q up u K Hi Hup F NI|r i up s K Hi Hup F]; inversion H' as [r' i' q' up' u0 K' Hi' Hup' F' E|r' i' q' up' u0 K' Hi' Hup' F' NI' E|r' i' up' s' K' Hi' Hup' F' E]; subst.
  - assert (i' = i) by (eapply (place_inj r); [exact K|exact Hi'|exact Hi|eapply fpos_lt; exact F'|eapply fpos_lt; exact F|congruence]). subst i'. f_equal. f_equal. apply tr_inj; [assumption..|congruence].
  - assert (i' = i) by (eapply (place_inj r); [exact K|exact Hi'|exact Hi|eapply fpos_lt; exact F'|eapply fpos_lt; exact F|congruence]). subst i'. f_equal. f_equal. apply tr_inj; [assumption..|congruence].
  - exfalso. assert (i' = i); [|subst i'; exact (NI s' F')]. eapply (place_inj r); [exact K|exact Hi'|exact Hi| |eapply fpos_lt; exact F|]; [instantiate (1 := 0); rewrite F'; cbn; lia|]. rewrite (exit_q nets HN r i' K Hi'), F' in *. cbn [nsize] in *. lia.
  - exfalso. assert (i' = i); [|subst i'; exact (NI' s F)]. eapply (place_inj r); [exact K|exact Hi'|exact Hi|eapply fpos_lt; exact F'| |]; [instantiate (1 := 0); rewrite F; cbn; lia|]. rewrite (exit_q nets HN r i K Hi), F in *. cbn [nsize] in *. lia.
  - rewrite (exit_inj r i' i K Hi' Hi) by congruence. f_equal. f_equal. apply tr_inj; [assumption..|congruence].
Qed.

(** ** One move, told exactly *)
(** Moves that stay within a symbol. *)
Inductive inmove : pos -> list N -> pos -> Prop :=
| in_here p : inmove (At p) [] (Past p)
| in_edge r i q d up w : known r -> i < length (net r) -> q < nsize (sym r i) -> d < nsize (sym r i) -> (w = [] -> exists A, sym r i = NReg A /\ edge A q [] d) ->
    inmove (Past ((r, entry r i + q) :: up)) w (At ((r, entry r i + d) :: up)).
(** At least one move between places. *)
Definition ttexts (y : spos) (a : list N) (y' : spos) : Prop := exists b z c, tmove nets y b z /\ texts nets z c y' /\ a = b ++ c.
Lemma texts_trans x v y w z : texts nets x v y -> texts nets y w z -> texts nets x (v ++ w) z.
Proof. induction 1 as [x|x a y b y' M T IH]; intros H; [exact H|]. rewrite <- app_assoc. eapply tx_step; [exact M|auto]. Qed.
Lemma ttexts_texts x w y : ttexts x w y -> texts nets x w y.
Proof. intros (b & z & c & M & T & ->). eapply tx_step; eassumption. Qed.
Lemma ttexts_then x v y w z : ttexts x v y -> texts nets y w z -> ttexts x (v ++ w) z.
Proof. intros (b & z0 & c & M & T & ->) H. exists b, z0, (c ++ w). split; [exact M|]. split; [eapply texts_trans; eassumption|]. rewrite app_assoc. reflexivity. Qed.
Lemma one_tmove x a y : tmove nets x a y -> ttexts x a y.
Proof. intros M. exists a, y, []. split; [exact M|]. split; [constructor|]. rewrite app_nil_r. reflexivity. Qed.
Lemma two_tmoves x a y b z : tmove nets x a y -> tmove nets y b z -> ttexts x (a ++ b) z.
Proof. intros M1 M2. eapply ttexts_then; [apply one_tmove; exact M1|]. apply ttexts_texts, one_tmove. exact M2. Qed.

Definition stepped (x : pos) (y : spos) (u : list N) (w : list N) (x' : pos) : Prop :=
  (inmove x w x' /\ interp x' y (u ++ w)) \/ (exists y' a u', interp x' y' u' /\ ttexts y a y' /\ u ++ w = a ++ u' /\ (w = [] -> u' = [])).
Lemma sim_step x w x' y u : interp x y u -> move D x w x' -> stepped x y u w x'.
Proof.
  intros HI M. destruct HI as [r i q up u K Hi Hup F|r i q up u K Hi Hup F NI|r i up s K Hi Hup F].
  - pose proof (fpos_lt _ _ _ F) as Hq. inversion M as [p n E1 E2|p n E1 E2| | | |]; subst; pose proof (node_csub nets D HN HD _ _ _ _ _ K Hi Hq E1) as Ec; rewrite ?E2 in Ec.
    + left. split; [apply in_here|]. rewrite app_nil_r. apply I_past; try assumption. intros s Es. rewrite Es in Ec. pose proof (known_ne nets HN s (inv_known nets HN r i s K Hi Es)). congruence.
    + right. destruct (sym r i) as [|s|s|A|] eqn:Es; rewrite Ec in *; try congruence.
      destruct F as [-> ->]. pose proof (inv_known nets HN r i s K Hi Es) as Ks. destruct (entry0 nets D HN HD s Ks) as [S0 S1]. destruct (known_net nets HN s Ks) as [g Hg].
      exists (Before ((s, 0) :: (r, i) :: up)), [], []. split; [|split; [|auto]].
      * replace ((s, 0) :: (r, entry r i + 0) :: tr up) with ((s, entry s 0 + 0) :: tr ((r, i) :: up)).
        -- apply I_at; [exact Ks|exact S1|constructor; [split; [exact K|split; [exact Hi|eauto]]|exact Hup]|]. apply (fpos_start nets HN); [exact Ks|exact S1|apply (lk_ready _ HN _ _ _ Hg)].
        -- cbn [LookSim.tr map fst snd]. rewrite S0. unfold LookRead.exit_. rewrite Es. cbn [nsize]. do 2 f_equal. f_equal. lia.
      * apply one_tmove. eapply tm_enter; [apply (nodeOf nets); assumption|exact Es].
  - pose proof (fpos_lt _ _ _ F) as Hq. inversion M as [| |id i0 up0 n t E1 E2 E3|id i0 up0 n t c E1 E2 E3|x0 y0 up0 n E1 E2 HX|id i0 n s0 E1 E2 E3 HX]; subst.
    + destruct (node_trs nets D HN HD r i q _ _ t K Hi Hq E1 E2) as [T1 T2 T3 T4|s T1 T2 T3 T4|A d T1 T2 T3 T4|d g T1 T2 T3 T4].
      * rewrite E3 in T3. discriminate.
      * rewrite E3 in T3. destruct (lit_class_ne _ (eq_sym T3)).
      * left. rewrite T4. destruct (reg_live nets HN r i A K Hi T1) as (_ & L & _). assert (Ld : d < length A) by (eapply L; exact T3). rewrite E3 in T3. split.
        -- apply in_edge; try assumption; [rewrite T1; exact Ld|]. intros _. exists A. auto.
        -- rewrite app_nil_r. apply I_at; try assumption. rewrite T1 in *. destruct F as [F1 F2]. split; [exact Ld|]. exact (proj1 (path_snoc _ _ _ _ _ _ 0%N F2 T3) eq_refl).
      * right. rewrite T4. rewrite E3 in T3. exists (Before ((r, d) :: up)), u, []. split; [|split; [|auto]].
        -- eapply (link_interp nets HN); [exact K|exact Hi|exact Hup|exact T2| |exact T3|reflexivity]. left. auto.
        -- rewrite <- (app_nil_r u). eapply two_tmoves; [eapply tm_text; [apply (nodeOf nets); assumption|eapply fpos_full; eauto]|eapply tm_next; [apply (nodeOf nets); assumption|exact T2]].
    + destruct (node_trs nets D HN HD r i q _ _ t K Hi Hq E1 E2) as [T1 T2 T3 T4|s T1 T2 T3 T4|A d T1 T2 T3 T4|d g T1 T2 T3 T4].
      * left. rewrite T4. rewrite <- (Nat.add_0_r (entry r i)) at 2. rewrite <- (Nat.add_0_r (entry r i)) at 3. split; [apply in_edge; try assumption; [rewrite T1; cbn; lia|discriminate]|].
        apply I_at; try assumption. rewrite T1 in *. destruct F as [F1 F2]. split; [reflexivity|]. intros x Hx. apply in_app_or in Hx as [Hx|[<-|[]]]; [auto|]. apply ws_includes. rewrite <- T3. exact E3.
      * left. rewrite T4. split; [apply in_edge; try assumption; [rewrite T1; exact T2|discriminate]|].
        apply I_at; try assumption. rewrite T1 in *. destruct F as [F1 F2]. split; [exact T2|]. rewrite T3 in E3. apply lit_includes in E3. rewrite (firstn_snoc s (S q) 0%N T2). unfold lit_bytes in *. rewrite map_app, <- F2, E3. reflexivity.
      * left. rewrite T4. destruct (reg_live nets HN r i A K Hi T1) as (_ & L & _). assert (Ld : d < length A) by (eapply L; exact T3). split; [apply in_edge; try assumption; [rewrite T1; exact Ld|discriminate]|].
        apply I_at; try assumption. rewrite T1 in *. destruct F as [F1 F2]. split; [exact Ld|]. exact (proj2 (path_snoc _ _ _ _ _ _ c F2 T3) E3).
      * right. rewrite T4. exists (Before ((r, d) :: up)), u, [c]. split; [|split; [|split; [reflexivity|discriminate]]].
        -- eapply (link_interp nets HN); [exact K|exact Hi|exact Hup|exact T2| |exact T3|reflexivity]. right. eauto.
        -- rewrite <- (app_nil_r u). eapply two_tmoves; [eapply tm_text; [apply (nodeOf nets); assumption|eapply fpos_full; eauto]|eapply tm_next; [apply (nodeOf nets); assumption|exact T2]].
    + match goal with H : _ :: _ = tr up |- _ => rename H into HX end. destruct up as [|[r' i'] up]; [discriminate|]. cbn [LookSim.tr map fst snd] in HX. injection HX as -> ->. inversion Hup as [|? ? (K' & Hi' & s' & Es') Hup']; subst. cbn [fst snd] in *.
      destruct (node_end nets D HN HD r i q _ _ K Hi Hq E1 E2) as (N1 & N2 & ->). rewrite N2 in F. destruct F as [_ ->]. right. exists (After ((r', i') :: up)), [], []. split; [eapply I_after; eassumption|]. split; [|auto].
      apply (two_tmoves _ [] (After ((r, i) :: (r', i') :: up)) []); [eapply tm_text; [apply (nodeOf nets); assumption|fold (sym r i); rewrite N2; reflexivity]|eapply tm_leave; [apply (nodeOf nets); assumption|exact N1]].
    + match goal with H : [] = tr up |- _ => rename H into HX end. destruct up as [|]; [|discriminate]. destruct (node_end nets D HN HD r i q _ _ K Hi Hq E1 E2) as (N1 & N2 & ->). destruct s0 as [s0 p0]. apply (sites_iff nets D HN HD) in E3 as (Ks & c & C1 & C2).
      destruct (node_cases nets D HN HD _ _ _ _ Ks C1) as (j & q' & Hj & Ep & Hq' & Hc).
      assert (Ec : csub c = match sym s0 j with NInv s => s | _ => [] end) by (destruct Hc as [(_ & _ & H & _)|[_ ->]]; [exact H|apply frag_csub; exact Hq']).
      destruct (sym s0 j) as [|s1|s1|A|] eqn:Ej; rewrite C2 in Ec; try (destruct (known_ne nets HN r K Ec)). subst s1.
      destruct Hc as [(_ & Ep' & _)|[X _]]; [|cbn in X; lia]. rewrite N2 in F. destruct F as [_ ->]. right. exists (After [(s0, j)]), [], []. split; [rewrite Ep'; apply (I_after nets s0 j [] r); auto|]. split; [|auto].
      apply (two_tmoves _ [] (After [(r, i)]) []); [eapply tm_text; [apply (nodeOf nets); assumption|fold (sym r i); rewrite N2; reflexivity]|eapply tm_out; [apply (nodeOf nets); assumption|exact N1|apply (nodeOf nets); assumption|exact Ej]].
  - assert (Hn : nsize (sym r i) = 1) by (rewrite F; reflexivity). assert (Ex : exit_ r i = entry r i + 0) by (unfold LookRead.exit_; lia). rewrite Ex in M.
    inversion M as [| |id i0 up0 n t E1 E2 E3|id i0 up0 n t c E1 E2 E3|x0 y0 up0 n E1 E2 HX|id i0 n s0 E1 E2 E3 HX]; subst.
    + destruct (node_trs nets D HN HD r i 0 _ _ t K Hi ltac:(lia) E1 E2) as [T1 T2 T3 T4|s1 T1 T2 T3 T4|A d T1 T2 T3 T4|d g T1 T2 T3 T4]; [congruence..|].
      right. rewrite T4. rewrite E3 in T3. exists (Before ((r, d) :: up)), [], []. split; [eapply (link_interp nets HN); [exact K|exact Hi|exact Hup|exact T2| |exact T3|reflexivity]; left; auto|]. split; [|auto].
      apply one_tmove. eapply tm_next; [apply (nodeOf nets); assumption|exact T2].
    + destruct (node_trs nets D HN HD r i 0 _ _ t K Hi ltac:(lia) E1 E2) as [T1 T2 T3 T4|s1 T1 T2 T3 T4|A d T1 T2 T3 T4|d g T1 T2 T3 T4]; [congruence..|].
      right. rewrite T4. exists (Before ((r, d) :: up)), [], [c]. split; [eapply (link_interp nets HN); [exact K|exact Hi|exact Hup|exact T2| |exact T3|reflexivity]; right; eauto|]. split; [|split; [reflexivity|discriminate]].
      apply one_tmove. eapply tm_next; [apply (nodeOf nets); assumption|exact T2].
    + destruct (node_end nets D HN HD r i 0 _ _ K Hi ltac:(lia) E1 E2) as (_ & N2 & _). congruence.
    + destruct (node_end nets D HN HD r i 0 _ _ K Hi ltac:(lia) E1 E2) as (_ & N2 & _). congruence.
Qed.
Lemma sim_run x w x' : runs D x w x' -> forall y u, interp x y u -> exists y' a u', interp x' y' u' /\ texts nets y a y' /\ u ++ w = a ++ u'.
Proof.
  induction 1 as [x|x w1 x1 w2 x2 M R IH]; intros y u HI; [exists y, [], u; split; [exact HI|]; split; [constructor|rewrite app_nil_r; reflexivity]|].
  destruct (sim_step x w1 x1 y u HI M) as [[_ H]|(y1 & a1 & u1 & H & T & E & _)].
  - destruct (IH _ _ H) as (y' & a & u' & H1 & H2 & H3). exists y', a, u'. split; [exact H1|]. split; [exact H2|]. rewrite app_assoc. exact H3.
  - destruct (IH _ _ H) as (y' & a & u' & H1 & H2 & H3). exists y', (a1 ++ a), u'. split; [exact H1|]. split; [eapply texts_trans; [apply ttexts_texts; exact T|exact H2]|]. rewrite app_assoc, E, <- !app_assoc, H3. reflexivity.
Qed.
(** Silent readings. *)
Inductive inruns : pos -> pos -> Prop :=
| ir_refl x : inruns x x
| ir_step x y z : inmove x [] y -> inruns y z -> inruns x z.
Lemma sim_silent x w x' : runs D x w x' -> w = [] -> forall y u, interp x y u -> (inruns x x' /\ interp x' y u) \/ exists y', interp x' y' [] /\ ttexts y u y'.
Proof.
  induction 1 as [x|x w1 x1 w2 x2 M R IH]; intros E y u HI; [left; split; [constructor|exact HI]|]. apply app_eq_nil in E as [-> ->].
  destruct (sim_step x [] x1 y u HI M) as [[H0 H]|(y1 & a1 & u1 & H & T & E & E')].
  - rewrite app_nil_r in H. destruct (IH eq_refl _ _ H) as [[H1 H2]|H1]; [left; split; [eapply ir_step; eassumption|exact H2]|right; exact H1].
  - rewrite (E' eq_refl) in *. rewrite !app_nil_r in E. subst a1. right. destruct (IH eq_refl _ _ H) as [[_ H2]|(y2 & H2 & T2)]; [exists y1; auto|]. exists y2. split; [exact H2|]. rewrite <- (app_nil_r u). eapply ttexts_then; [exact T|]. apply ttexts_texts. exact T2.
Qed.
(** Within a symbol nothing comes back. *)
Hypothesis ACP : forall r i A, known r -> i < length (net r) -> sym r i = NReg A -> acyc A.
Lemma inruns_edges x x' : inruns x x' -> forall r i q up, known r -> i < length (net r) -> q < nsize (sym r i) -> (x = At ((r, entry r i + q) :: up) \/ x = Past ((r, entry r i + q) :: up)) ->
  exists q', q' < nsize (sym r i) /\ (x' = At ((r, entry r i + q') :: up) \/ x' = Past ((r, entry r i + q') :: up)) /\
    (q' = q \/ exists A, sym r i = NReg A /\ clos_trans _ (fun a b => edge A a [] b) q q') /\ (q' = q -> x = x' \/ (x = At ((r, entry r i + q) :: up) /\ x' = Past ((r, entry r i + q) :: up)) \/ exists A, sym r i = NReg A /\ clos_trans _ (fun a b => edge A a [] b) q q).
Proof.
  induction 1 as [x|x y z M R IH]; intros r i q up K Hi Hq Hx; [exists q; auto 10|]. inversion M as [p|r0 i0 q0 d up0 w K0 Hi0 Hq0 Hd HE]; subst.
  - destruct Hx as [Hx|Hx]; [|discriminate]. injection Hx as ->. destruct (IH r i q up K Hi Hq (or_intror eq_refl)) as (q' & H1 & H2 & H3 & H4). exists q'. split; [exact H1|]. split; [exact H2|]. split; [exact H3|]. intros E. destruct (H4 E) as [H|[[H _]|H]]; [|discriminate|auto]. right. left. split; [reflexivity|]. symmetry. exact H.
  - destruct Hx as [Hx|Hx]; [discriminate|]. injection Hx as -> Ep ->. assert (i0 = i) by (eapply place_inj; eassumption). subst i0. assert (q0 = q) by lia. subst q0. destruct (HE eq_refl) as (A & EA & ED).
    destruct (IH r i d up K Hi Hd (or_introl eq_refl)) as (q' & H1 & H2 & H3 & _). exists q'. split; [exact H1|]. split; [exact H2|].
    assert (X : exists A, sym r i = NReg A /\ clos_trans _ (fun a b => edge A a [] b) q q').
    { exists A. split; [exact EA|]. destruct H3 as [->|(A' & EA' & C)]; [apply t_step; exact ED|]. rewrite EA in EA'. injection EA' as <-. eapply t_trans; [apply t_step; exact ED|exact C]. }
    split; [right; exact X|]. intros ->. right. right. exact X.
Qed.
Lemma acyc_no A q : acyc A -> ~ clos_trans _ (fun a b => edge A a [] b) q q.
Proof.
  intros H C. specialize (H q). induction H as [q _ IH]. apply clos_trans_t1n in C. inversion C as [y M|y z M R]; subst.
  - exact (IH q M (t_step _ _ _ _ M)).
  - apply (IH y M). apply clos_t1n_trans in R. eapply t_trans; [exact R|apply t_step; exact M].
Qed.
Lemma interp_parts x y u : interp x y u -> exists r i q up, known r /\ i < length (net r) /\ q < nsize (sym r i) /\ (x = At ((r, entry r i + q) :: up) \/ x = Past ((r, entry r i + q) :: up)).
Proof.
  intros [r i q up u' K Hi _ F|r i q up u' K Hi _ F _|r i up s K Hi _ F].
  - exists r, i, q, (tr up). split; [exact K|]. split; [exact Hi|]. split; [eapply fpos_lt; exact F|auto].
  - exists r, i, q, (tr up). split; [exact K|]. split; [exact Hi|]. split; [eapply fpos_lt; exact F|auto].
  - exists r, i, 0, (tr up). split; [exact K|]. split; [exact Hi|]. split; [rewrite F; cbn; lia|]. right. rewrite (exit_q nets HN r i K Hi), F. reflexivity.
Qed.
Lemma in_no_circle x z y u : interp x y u -> inmove x [] z -> ~ inruns z x.
Proof.
  intros HI M R. destruct (interp_parts x y u HI) as (r & i & q & up & K & Hi & Hq & Hx).
  assert (NA : ~ exists A, sym r i = NReg A /\ clos_trans _ (fun a b => edge A a [] b) q q) by (intros (A & EA & C); exact (acyc_no A q (ACP r i A K Hi EA) C)).
  assert (X : forall z, (z = At ((r, entry r i + q) :: up) /\ x = Past ((r, entry r i + q) :: up) \/ False) -> True) by auto. clear X.
  inversion M as [p|r0 i0 q0 d up0 w K0 Hi0 Hq0 Hd HE]; subst.
  - destruct Hx as [Hx|Hx]; [|discriminate]. injection Hx as ->. destruct (inruns_edges _ _ R r i q up K Hi Hq (or_intror eq_refl)) as (q' & _ & [E|E] & _ & H4); [|discriminate]. injection E as E. assert (q' = q) by lia. subst q'. destruct (H4 eq_refl) as [H|[[H _]|H]]; [discriminate|discriminate|exact (NA H)].
  - destruct Hx as [Hx|Hx]; [discriminate|]. injection Hx as -> Ep ->. assert (i0 = i) by (eapply place_inj; eassumption). subst i0. assert (q0 = q) by lia. subst q0. destruct (HE eq_refl) as (A & EA & ED).
    destruct (inruns_edges _ _ R r i d up K Hi Hd (or_introl eq_refl)) as (q' & _ & [E|E] & H3 & _); [discriminate|]. injection E as E. assert (q' = q) by lia. subst q'. apply NA. exists A. split; [exact EA|].
    destruct H3 as [->|(A' & EA' & C)]; [apply t_step; exact ED|]. rewrite EA in EA'. injection EA' as <-. eapply t_trans; [apply t_step; exact ED|exact C].
Qed.
(** ** Stuck, both ways *)
Theorem stuck_rules x y u : interp x y u -> stuck D x -> exists y', texts nets y u y' /\ no_way nets y'.
Proof.
  intros HI [HS|(z & M & R)].
  - destruct x as [[|c cs]|p]; try destruct HS. rename x into n. destruct H as (E1 & E2 & E3). inversion HI as [r i q up u' K Hi Hup F E| |]; subst. pose proof (fpos_lt _ _ _ F) as Hq.
    rewrite (node_csub nets D HN HD r i q _ n K Hi Hq E1) in E2. destruct (sym r i) as [|s|s|A|] eqn:Es; try congruence. destruct F as [-> ->]. exists (Before ((r, i) :: up)). split; [constructor|]. left. exists (nth i (net r) blank), s.
    split; [apply (nodeOf nets); assumption|]. split; [exact Es|]. unfold LookSim.tr in E3. apply in_map_iff in E3 as ([r' j] & E & Hj). cbn [fst snd] in E. injection E as -> E. rewrite Forall_forall in Hup. destruct (Hup _ Hj) as (_ & Lj & s' & Es'). cbn [fst snd] in *.
    rewrite (exit_q nets HN r j K Lj), Es' in E. cbn [nsize] in E. replace i with j; [exact Hj|]. eapply (place_inj r j i 0 0); [exact K|exact Lj|exact Hi|rewrite Es'; cbn; lia|rewrite Es; cbn; lia|lia].
  - assert (ONE : forall y u, interp x y u -> exists y', interp x y' [] /\ ttexts y u y').
    { intros y0 u0 H0. destruct (sim_step x [] z y0 u0 H0 M) as [[H1 H2]|(y1 & a1 & u1 & H & T & E & E')].
      - rewrite app_nil_r in H2. destruct (sim_silent z [] x R eq_refl _ _ H2) as [[H3 _]|H3]; [destruct (in_no_circle x z y0 u0 H0 H1 H3)|exact H3].
      - rewrite (E' eq_refl) in *. rewrite !app_nil_r in E. subst a1. destruct (sim_silent z [] x R eq_refl _ _ H) as [[_ H2]|(y2 & H2 & T2)]; [exists y1; auto|]. exists y2. split; [exact H2|]. rewrite <- (app_nil_r u0). eapply ttexts_then; [exact T|]. apply ttexts_texts. exact T2. }
    destruct (ONE y u HI) as (y2 & H2 & T2). destruct (ONE y2 [] H2) as (y3 & H3 & (b & z3 & c & M3 & T3 & E3)). pose proof (interp_fun _ _ _ _ _ H2 H3) as Ey. subst y3. symmetry in E3. apply app_eq_nil in E3 as [-> ->].
    exists y2. split; [apply ttexts_texts; exact T2|]. right. exists z3. auto.
Qed.
Lemma img_fun y x x' : (forall r i up, y = Before ((r, i) :: up) -> ~ is_lit (net r) i) -> img y x -> img y x' -> x = x'.
Proof.
  clear ACP.
  intros NL H H'. destruct H as [r i up K Hi Hup NL'|r i up j t K Hi Hup HL Hj Ht|r i up K Hi Hup]; [|destruct (NL r i up eq_refl HL)|]; inversion H'; subst; try reflexivity. contradiction.
Qed.
Lemma lit_stays r i up v z : known r -> i < length (net r) -> is_lit (net r) i -> tmove nets (Before ((r, i) :: up)) v z -> v <> [].
Proof.
  clear ACP.
  intros K Hi [s Es] M E. inversion M as [p n v' E1 E2|p n s' E1 E2| | |]; subst; apply (node_of_iff nets) in E1 as (_ & _ & ->); [|congruence]. rewrite Es in E2. cbn [spells] in E2. destruct s; [exact (lit_len nets HN r i [] K Hi Es eq_refl)|discriminate].
Qed.
Lemma lit_held r i up w z : known r -> i < length (net r) -> is_lit (net r) i -> texts nets (Before ((r, i) :: up)) w z -> w = [] -> z = Before ((r, i) :: up).
Proof.
  clear ACP.
  intros K Hi HL T. remember (Before ((r, i) :: up)) as x eqn:Ex. destruct T as [x|x a y b y' M T]; intros E; [reflexivity|]. apply app_eq_nil in E as [-> ->]. subst x. destruct (lit_stays r i up [] y K Hi HL M eq_refl).
Qed.
Theorem rules_stuck y x : img y x -> no_way nets y -> stuck D x.
Proof.
  clear ACP.
  intros HI [HS|(z & M & T)].
  - destruct y as [[|c up]|p]; try destruct HS. rename x0 into n. destruct H as (s & E1 & E2 & E3). left. inversion HI as [r i up' K Hi Hup NL|r i up' j t K Hi Hup HL Hj Ht|]; subst; apply (node_of_iff nets) in E1 as (_ & _ & ->); fold (sym r i) in E2.
    2:{ destruct HL as [s' Es]. fold (sym r i) in Es. congruence. }
    cbn [repeats]. destruct (node_some nets D HN HD r i 0 (tr up) K Hi) as (n & C1 & _); [rewrite E2; cbn; lia|]. rewrite Nat.add_0_r in C1. exists n. split; [exact C1|]. split.
    + rewrite <- (Nat.add_0_r (entry r i)) in C1. rewrite (node_csub nets D HN HD r i 0 (tr up) n K Hi ltac:(rewrite E2; cbn; lia) C1), E2. apply (known_ne nets HN). exact (inv_known nets HN r i s K Hi E2).
    + apply (in_map (fun x => (fst x, exit_ (fst x) (snd x)))) in E3. cbn [fst snd] in E3. rewrite (exit_q nets HN r i K Hi), E2 in E3. cbn [nsize] in E3. replace (entry r i + (1 - 1)) with (entry r i) in E3 by lia. exact E3.
  - right. assert (NL : forall r i up, y = Before ((r, i) :: up) -> ~ is_lit (net r) i).
    { intros r i up -> HL. inversion HI; subst; exact (lit_stays r i up [] z ltac:(assumption) ltac:(assumption) HL M eq_refl). }
    destruct (sim_move nets D HN HD y [] z M x HI) as (x1 & R1 & I1). destruct (sim_runs nets D HN HD z [] y T x1 I1) as (x2 & R2 & I2). pose proof (img_fun y x2 x NL I2 HI) as Ex. subst x2.
    assert (DF : x1 <> x).
    { intros ->. inversion M as [p n v E1 E2|p n s E1 E2|r i up n d t E1 E2|a b up n E1 E2|r i n s j n' E1 E2 E3 E4]; subst.
      - inversion I1; subst. inversion HI; subst. exact (NL _ _ _ eq_refl ltac:(assumption)).
      - inversion I1 as [r i up K Hi Hup N0 Ey Ex|r i up j t K Hi Hup HL Hj Ht|]; subst.
        + inversion HI as [r' i' up' K' Hi' Hup' N' Ey' Ex'| |]. match goal with H : LookSim.tr _ _ = _ :: LookSim.tr _ _ |- _ => apply (f_equal (@length _)) in H; cbn [length] in H; lia end.
        + destruct (known_net nets HN s K) as [g Hg]. assert (NL0 : ~ is_lit (net s) 0) by (apply (lk_ready _ HN _ _ _ Hg)). exact (NL0 HL).
      - inversion HI; subst. inversion I1; subst. assert (ZT : texts nets (Before ((r, d) :: up)) [] (After ((r, i) :: up))) by exact T. apply lit_held in ZT; [discriminate|assumption..|reflexivity].
      - inversion HI as [| |r' i' up' K' Hi' Hup' Ey' Ex']. subst. inversion I1 as [| |r2 i2 up2 K2 Hi2 Hup2 Ey2 Ex2]. subst.
        repeat match goal with H : ?a = ?b |- _ => match type of a with list _ => apply (f_equal (@length _)) in H end end. unfold LookSim.tr in *. cbn [map length] in *. rewrite ?map_length in *. cbn [length] in *. lia.
      - inversion HI as [| |r' i' up' K' Hi' Hup' Ey' Ex']. subst. inversion I1 as [| |r2 i2 up2 K2 Hi2 Hup2 Ey2 Ex2]. subst. match goal with H : LookRead.exit_ _ _ _ = LookRead.exit_ _ _ _ |- _ => rename H into Ee end. apply (node_of_iff nets) in E1 as (_ & _ & ->). apply (node_of_iff nets) in E3 as (_ & _ & ->). pose proof (exit_inj r j i K' Hi2 Hi' Ee) as Eij. subst j.
        fold (outs r i) in E2. change (sym r i = NInv r) in E4. rewrite (end_blank nets HN r i K' Hi' E2) in E4. discriminate. }
    apply (LookClosure.runs_inv D) in R1 as [[E _]|(a & x' & b & E & M1 & R1)]; [congruence|]. apply nil_app in E as [-> ->]. exists x'. split; [exact M1|]. exact (LookClosure.runs_trans D x' [] x1 [] x R1 R2).
Qed.
End Sim.
