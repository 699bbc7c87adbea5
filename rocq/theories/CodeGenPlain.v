(** The automata of patterns meet the conditions of the code generator. *)
From Coq Require Import List NArith ZArith Arith Bool Lia ZifyBool ZifyN ZifyNat Permutation.
From Verif Require Import CharClass CharClassSpec CharClassProofs RegexSpec NFA NFASem NFAProofs NFABuild DFA DFADep DFAProofs DFAMin CodeGen CodeGenProofs CodeGenSimd CodeGenDfa.
Import ListNotations.
Local Open Scope nat_scope.

Lemma dep_add_ne items r cl : cl <> [] -> (forall cc s, In (cc, s) items -> s <> []) -> forall cc s, In (cc, s) (dep_add items r cl) -> s <> [].
Proof.
  intros Hc. induction items as [|[c0 s0] items IH]; intros H cc s; cbn [dep_add].
  - intros [E|[]]. injection E as <- <-. exact Hc.
  - destruct (list_eqb cl s0).
    + intros [E|E]; [injection E as <- <-; apply (H c0 s0); left; reflexivity|apply (H cc s); right; exact E].
    + intros [E|E]; [injection E as <- <-; apply (H c0 s0); left; reflexivity|]. apply (IH (fun c x K => H c x (or_intror K)) cc s E).
Qed.
Lemma dep_loop_ne ts : forall bs items, (forall cc s, In (cc, s) items -> s <> []) -> forall cc s, In (cc, s) (dep_loop ts bs items) -> s <> [].
Proof.
  induction bs as [|a bs IH]; intros items H; [exact H|]. cbn [dep_loop]. destruct bs as [|b bs]; [exact H|].
  apply IH. destruct (dep_closure ts (mkR a b)) eqn:E; [exact H|]. apply dep_add_ne; [discriminate|exact H].
Qed.
Lemma departures_ne ts cc s : In (cc, s) (departures ts) -> s <> [].
Proof. apply dep_loop_ne. intros ? ? []. Qed.

(** Every character of a label of the DFA is in a label of the NFA. *)
Lemma plain_label fuel ef A D i t ch : dfa_plain fuel ef A = Some D -> In t (dtrs (nth i D dnil)) -> includes (tlab t) ch = true ->
  exists q u, In u (nth q A []) /\ includes (tlab u) ch = true.
Proof.
  intros H Ht Hc. destruct (dfa_plain_inv _ _ _ _ H) as (D0 & -> & [HB HF] & L & _).
  destruct (Nat.lt_ge_cases i (length D0)) as [Q|Q]; [|rewrite nth_overflow in Ht by (rewrite map_length; exact Q); destruct Ht].
  rewrite nth_finish in Ht by exact Q. cbn [finish_state dtrs] in Ht. apply (Permutation_in _ (sort_trs_perm _)) in Ht.
  destruct (HF i Q) as (_ & H1 & _). destruct (H1 t Ht) as (_ & _ & lab & _ & K). apply includes_Den in Hc as (r & Hr & Hx).
  apply K in Hr as (cc & s & I & _ & Hr). unfold items_at in I.
  assert (E : s = on_char (label_trs A (dlab (nth i D0 dnil))) ch).
  { destruct (departures_spec (label_trs A (dlab (nth i D0 dnil)))) as (_ & DI & _). apply (DI cc s I). apply includes_Den. exists r. auto. }
  apply departures_ne in I. destruct s as [|x s]; [congruence|].
  destruct (on_char_spec (label_trs A (dlab (nth i D0 dnil))) ch) as [_ OI].
  destruct (proj1 (OI x)) as (u & Hu & Hi & _); [rewrite <- E; left; reflexivity|].
  unfold label_trs in Hu. apply in_flat_map in Hu as (q & _ & Hu). exists q, u. auto.
Qed.

Definition nfa_text (A : nfa) : Prop := forall q u ch, In u (nth q A []) -> includes (tlab u) ch = true -> (1 <= ch < 256)%N.
Lemma Sorted_lt cc lo r : SortedFrom lo cc -> In r cc -> (rs r < re r)%N.
Proof. revert lo. induction cc as [|x cc IH]; intros lo H Hr; [destruct Hr|]. cbn in H. destruct Hr as [<-|Hr]; [tauto|]. apply (IH (re x)); tauto. Qed.
Lemma plain_ranges fuel ef A D : dfa_plain fuel ef A = Some D -> nfa_text A ->
  forall i t r, In t (dtrs (nth i D dnil)) -> In r (tlab t) -> (rs r < re r /\ 1 <= rs r /\ re r <= 256)%N.
Proof.
  intros H HA i t r Ht Hr. destruct (dfa_plain_range _ _ _ _ H) as (_ & _ & HS). destruct (HS i t Ht) as [S _].
  pose proof (Sorted_lt _ _ _ S Hr) as L.
  assert (K : forall ch, (rs r <= ch < re r)%N -> (1 <= ch < 256)%N).
  { intros ch Hc. destruct (plain_label _ _ _ _ i t ch H Ht) as (q & u & Hu & Hi); [apply includes_Den; exists r; auto|].
    exact (HA q u ch Hu Hi). }
  pose proof (K (rs r) ltac:(lia)). pose proof (K (re r - 1)%N ltac:(lia)). lia.
Qed.

Lemma plain_dests_nodup fuel ef A D i : dfa_plain fuel ef A = Some D -> NoDup (map tdest (dtrs (nth i D dnil))).
Proof.
  intros H. destruct (dfa_plain_inv _ _ _ _ H) as (D0 & -> & [HB HF] & L & _).
  destruct (Nat.lt_ge_cases i (length D0)) as [Q|Q]; [|rewrite nth_overflow by (rewrite map_length; exact Q); constructor].
  rewrite nth_finish by exact Q. cbn [finish_state dtrs]. apply (Permutation_NoDup (l := map tdest (trs_at D0 i))); [|apply (HF i Q)].
  apply Permutation_map. apply Permutation_sym. apply sort_trs_perm.
Qed.

Definition loops_fit (D : dfa) : Prop := forall q t, dlong (nth q D dnil) = true -> In t (dtrs (nth q D dnil)) -> tdest t = q -> length (tlab t) <= 8.
Theorem plain_codable fuel ef A D : dfa_plain fuel ef A = Some D -> nfa_text A -> loops_fit D -> codable D.
Proof.
  intros H HA HL. destruct (dfa_plain_range _ _ _ _ H) as (L & HR & _). split.
  - intros ->. cbn in L. lia.
  - intros q t Ht. split; [exact (HR q t Ht)|].
    assert (K := fun r => plain_ranges _ _ _ _ H HA q t r Ht). split; [intros r Hr; split; apply K in Hr; lia|].
    destruct (includes (tlab t) 0) eqn:E; [|reflexivity]. apply includes_Den in E as (r & Hr & X). apply K in Hr. lia.
  - intros q HQ. split; [apply (plain_dests_nodup _ _ _ _ q H)|]. split; [|intros t Ht E; exact (HL q t HQ Ht E)].
    intros t t' c Ht Ht' Hc Hc'. destruct (Nat.lt_ge_cases q (length D)) as [Q|Q]; [|rewrite nth_overflow in HQ by exact Q; discriminate].
    exact (dfa_plain_det _ _ _ _ q t t' c H Q Ht Ht' Hc Hc').
Qed.

(** Without possessive repetition there are no long states. *)
Definition no_long (A : nfa) : Prop := forall q u, In u (nth q A []) -> tlong u = false.
Lemma eclose_sub_nolong A : no_long A -> forall ef cl q cl' lg, eclose_sub ef A cl q = Some (cl', lg) -> lg = false.
Proof.
  intros HA. induction ef as [|ef IH]; intros cl q cl' lg; cbn [eclose_sub]; [discriminate|].
  assert (E : existsb tlong (nth q A []) = false).
  { destruct (existsb tlong (nth q A [])) eqn:E; [|reflexivity]. apply existsb_exists in E as (u & Hu & E). rewrite (HA q u Hu) in E. discriminate. }
  rewrite E. clear E. set (go := fix go (l : list ntr) (cl : list nat) (lg : bool) : option (list nat * bool) := _).
  assert (G : forall l cl, forall cl' lg, go l cl false = Some (cl', lg) -> lg = false).
  { induction l as [|t l IHl]; intros c c' g; cbn [go]; [intros K; injection K as <- <-; reflexivity|].
    fold go. destruct (teps t); [|apply IHl]. destruct (eclose_sub ef A c (tdest t)) as [[c1 g1]|] eqn:E; [|discriminate].
    apply IH in E. subst g1. cbn [orb]. apply IHl. }
  apply G.
Qed.
Lemma eclose_set_nolong A : no_long A -> forall ef qs cl lg cl' lg', eclose_set ef A qs cl lg = Some (cl', lg') -> lg = false -> lg' = false.
Proof.
  intros HA ef. induction qs as [|q qs IH]; intros cl lg cl' lg'; cbn [eclose_set]; [intros K; injection K as <- <-; auto|].
  destruct (eclose_sub ef A cl q) as [[c g]|] eqn:E; [|discriminate]. apply eclose_sub_nolong in E; [|exact HA]. subst g.
  intros K ->. eapply IH; eauto.
Qed.
Definition nolongD (D : dfa) : Prop := forall s, In s D -> dlong s = false.
Lemma nolong_upd D i f : (forall s, dlong s = false -> dlong (f s) = false) -> nolongD D -> nolongD (upd_nth D i f).
Proof.
  intros Hf. revert i. induction D as [|s D IH]; intros i H; [destruct i; exact H|]. intros x Hx.
  destruct i as [|i]; cbn in Hx; destruct Hx as [<-|Hx].
  - apply Hf. apply H. left. reflexivity.
  - apply H. right. exact Hx.
  - apply H. left. reflexivity.
  - eapply IH; [|exact Hx]. intros y Hy. apply H. right. exact Hy.
Qed.
Lemma fork_items_nolong ef A : no_long A -> forall items D i D', fork_items ef A D i items = Some D' -> nolongD D -> nolongD D'.
Proof.
  intros HA. induction items as [|[cc s] items IH]; intros D i D'; cbn [fork_items]; [intros K; injection K as <-; auto|].
  destruct (eclose_set ef A s [] false) as [[ec lg]|] eqn:E; [|discriminate]. apply eclose_set_nolong in E; [|exact HA|reflexivity]. subst lg.
  unfold dfa_add_state. destruct (find_label D ec 0) as [j|].
  - intros K HD. eapply IH; [exact K|]. apply nolong_upd; [intros x; exact (fun y => y)|]. apply nolong_upd; [|exact HD]. intros x Hx. cbn. rewrite Hx. reflexivity.
  - intros K HD. eapply IH; [exact K|]. apply nolong_upd; [intros x; exact (fun y => y)|]. intros x Hx. apply in_app_or in Hx as [Hx|[<-|[]]]; [auto|reflexivity].
Qed.
Lemma fork_nolong ef A : no_long A -> forall fuel,
  (forall D i D', fork_states fuel ef A D i = Some D' -> nolongD D -> nolongD D') /\
  (forall D i D', fork_loop fuel ef A D i = Some D' -> nolongD D -> nolongD D').
Proof.
  intros HA. induction fuel as [|f [I1 I2]]; (split; [intros D i D'; cbn [fork_states]|intros D i D'; cbn [fork_loop]]); try discriminate.
  - destruct (fork_items _ _ _ _ _) as [D1|] eqn:E; [|discriminate]. intros K HD. eapply I2; [exact K|]. eapply fork_items_nolong; eauto.
  - destruct (i <? length D); [|intros K; injection K as <-; auto]. destruct (fork_states f ef A D i) as [D1|] eqn:E; [|discriminate]. intros K HD. eapply I2; [exact K|]. eapply I1; eauto.
Qed.
Lemma plain_nolong fuel ef A D : dfa_plain fuel ef A = Some D -> no_long A -> nolongD D.
Proof.
  unfold dfa_plain. intros H HA. destruct (eclose_sub ef A [] 0) as [[ec lg]|] eqn:E; [|discriminate]. apply eclose_sub_nolong in E; [|exact HA]. subst lg.
  destruct (fork_states fuel ef A _ 0) as [D0|] eqn:F; [|discriminate]. injection H as <-.
  apply (fork_nolong ef A HA fuel) in F; [|intros s [<-|[]]; reflexivity].
  intros s Hs. apply in_map_iff in Hs as (s0 & <- & Hs). exact (F s0 Hs).
Qed.
Lemma nolong_no_loop D : nolongD D -> forall q, dlong (nth q D dnil) = false.
Proof. intros H q. destruct (nth_in_or_default q D dnil) as [K| ->]; [exact (H _ K)|reflexivity]. Qed.
Lemma nolong_fits D : nolongD D -> loops_fit D.
Proof. intros H q t HL. rewrite nolong_no_loop in HL by exact H. discriminate. Qed.
Lemma nolong_enough D pad : nolongD D -> enough D pad.
Proof. intros H (q & HL & _). rewrite nolong_no_loop in HL by exact H. discriminate. Qed.

(** ** From the pattern *)
Definition allT (P : cclass -> bool -> Prop) (A : nfa) : Prop := forall st t, In st A -> In t st -> P (tlab t) (tlong t).
Section Build.
Variable P : cclass -> bool -> Prop.
Hypothesis P0 : P [] false.
Lemma allT_nth A q t : allT P A -> In t (nth q A []) -> P (tlab t) (tlong t).
Proof. intros H Ht. destruct (nth_in_or_default q A []) as [K|K]; [exact (H _ t K Ht)|rewrite K in Ht; destruct Ht]. Qed.
Lemma allT_app A B : allT P A -> allT P B -> allT P (A ++ B).
Proof. intros HA HB st t Hs. apply in_app_or in Hs as [Hs|Hs]; [exact (HA st t Hs)|exact (HB st t Hs)]. Qed.
Lemma allT_shift k A : allT P A -> allT P (map (shift k) A).
Proof. intros H st t Hs Ht. apply in_map_iff in Hs as (s0 & <- & Hs). unfold shift in Ht. apply in_map_iff in Ht as (t0 & <- & Ht). exact (H s0 t0 Hs Ht). Qed.
Lemma allT_tl A : allT P A -> allT P (tl A).
Proof. intros H st t Hs. apply H. destruct A; [destruct Hs|right; exact Hs]. Qed.
Lemma allT_upd A i f : (forall st, (forall t, In t st -> P (tlab t) (tlong t)) -> forall t, In t (f st) -> P (tlab t) (tlong t)) -> allT P A -> allT P (upd_nth A i f).
Proof.
  intros Hf. revert i. induction A as [|s A IH]; intros i H st t; [destruct i; intros []|].
  destruct i as [|i]; cbn; intros [<-|Hs] Ht.
  - apply (Hf s); [intros u Hu; exact (H s u (or_introl eq_refl) Hu)|exact Ht].
  - exact (H st t (or_intror Hs) Ht).
  - exact (H s t (or_introl eq_refl) Ht).
  - apply (IH i (fun x u Hx => H x u (or_intror Hx)) st t Hs Ht).
Qed.
Lemma allT_add_eps A i d lg : P [] lg -> allT P A -> allT P (upd_nth A i (add_tr [] d lg)).
Proof.
  intros HL. apply allT_upd. intros st H t Ht. unfold add_tr in Ht. cbn in Ht. apply in_app_or in Ht as [Ht|[<-|[]]]; [exact (H t Ht)|exact HL].
Qed.
Lemma allT_hd A k t : allT P A -> In t (shift k (hd [] A)) -> P (tlab t) (tlong t).
Proof.
  intros H Ht. unfold shift in Ht. apply in_map_iff in Ht as (t0 & <- & Ht). destruct A as [|s A]; [destruct Ht|]. exact (H s t0 (or_introl eq_refl) Ht).
Qed.
Lemma allT_concat A B : allT P A -> allT P B -> allT P (concat A B).
Proof.
  intros HA HB. unfold concat. apply allT_upd.
  - intros st H t Ht. apply in_app_or in Ht as [Ht|Ht]; [exact (H t Ht)|exact (allT_hd B _ t HB Ht)].
  - apply allT_app; [exact HA|]. apply allT_shift. apply allT_tl. exact HB.
Qed.
Lemma allT_add_state_eps A : allT P A -> allT P (add_state A []).
Proof. intros H. unfold add_state. apply allT_app; [apply allT_add_eps; [exact P0|exact H]|]. intros st t [<-|[]] []. Qed.
Lemma allT_select A B : allT P A -> allT P B -> allT P (select A B).
Proof.
  intros HA HB. unfold select, add_from. apply allT_add_eps; [exact P0|]. apply allT_add_state_eps. apply allT_upd.
  - intros st H t Ht. apply in_app_or in Ht as [Ht|Ht]; [exact (H t Ht)|exact (allT_hd B _ t HB Ht)].
  - apply allT_app; [apply allT_add_eps; [exact P0|exact HA]|]. apply allT_shift. apply allT_tl. exact HB.
Qed.
Lemma allT_base : allT P nfa_base.
Proof. intros st t [<-|[<-|[]]] Ht; [|destruct Ht]. destruct Ht as [<-|[]]. exact P0. Qed.
Lemma allT_quant q A : (forall lg, q = QPlus lg \/ q = QStar lg -> P [] lg) -> allT P A -> allT P (quantA q A).
Proof.
  intros HQ HA. destruct q as [|lg|lg|]; cbn [quantA].
  - exact HA.
  - apply allT_add_eps; [apply HQ; auto|exact HA].
  - unfold starA, add_from. apply allT_add_eps; [exact P0|]. apply allT_add_state_eps. apply allT_add_eps; [apply HQ; auto|exact HA].
  - apply allT_add_eps; [exact P0|exact HA].
Qed.
End Build.

(** No dot in the pattern: labels hold characters 1..254 only. *)
Fixpoint unit_nodot (u : unit_) : Prop :=
  match u with UAtom a => a <> ADot | UGroup p => pat_nodot p end
with sel_nodot (s : sel) : Prop :=
  match s with SOne u _ => unit_nodot u | SAlt s u _ => sel_nodot s /\ unit_nodot u end
with pat_nodot (p : pat) : Prop :=
  match p with PNil => True | PSnoc p s => pat_nodot p /\ sel_nodot s end.
(** No possessive quantifier. *)
Definition qshort (q : quant) : Prop := q <> QPlus true /\ q <> QStar true.
Fixpoint unit_short (u : unit_) : Prop :=
  match u with UAtom a => True | UGroup p => pat_short p end
with sel_short (s : sel) : Prop :=
  match s with SOne u q => unit_short u /\ qshort q | SAlt s u q => sel_short s /\ unit_short u /\ qshort q end
with pat_short (p : pat) : Prop :=
  match p with PNil => True | PSnoc p s => pat_short p /\ sel_short s end.

Definition Ptext (cc : cclass) (_ : bool) : Prop := forall ch, includes cc ch = true -> (1 <= ch < 256)%N.
Definition Pshort (_ : cclass) (lg : bool) : Prop := lg = false.
Lemma Ptext0 lg : Ptext [] lg. Proof. intros ch H. discriminate H. Qed.
Lemma atom_text a : atom_ok a -> a <> ADot -> Ptext (atom_cc a) false.
Proof.
  intros Ha Hd ch Hc. apply (atom_cc_ok a Ha) in Hc. destruct a as [c| |l|l]; cbn [atom_ok atom_den] in *; [lia|congruence| |lia].
  destruct Ha as (Ha & _). destruct Hc as (i & Hi & Hc). rewrite Forall_forall in Ha. specialize (Ha i Hi). destruct i; cbn in *; lia.
Qed.
Lemma allT_atom (P : cclass -> bool -> Prop) cc : P [] false -> cc <> [] -> P cc false -> allT P (add_state nfa_base cc).
Proof.
  intros P0 Hn Hc. unfold add_state, nfa_base. cbn [length Nat.sub upd_nth app]. unfold add_tr. destruct cc as [|r cc]; [congruence|]. cbn [is_epsilon merge_tr app].
  intros st t [<-|[<-|[<-|[]]]] Ht; [| |destruct Ht]; destruct Ht as [<-|[]]; [exact P0|exact Hc].
Qed.
Lemma build_text :
  (forall u, unit_ok u -> unit_nodot u -> allT Ptext (build_unit u)) /\
  (forall s, sel_ok s -> sel_nodot s -> allT Ptext (build_sel s)) /\
  (forall p, pat_ok p -> pat_nodot p -> allT Ptext (build_pat p)).
Proof.
  apply regex_ind; cbn [unit_ok sel_ok pat_ok unit_nodot sel_nodot pat_nodot build_unit build_sel build_pat].
  - intros a Ha Hd. apply allT_atom; [apply Ptext0|apply (atom_cc_ok a Ha)|apply atom_text; assumption].
  - intros p IH Hp Hd. apply allT_concat; [apply allT_base; apply Ptext0|auto].
  - intros u IH q Hu Hd. apply allT_quant; [apply Ptext0|intros; apply Ptext0|auto].
  - intros s IHs u IHu q [Hs Hu] [Ds Du]. apply allT_select; [apply Ptext0|auto|]. apply allT_quant; [apply Ptext0|intros; apply Ptext0|auto].
  - intros _ _. apply allT_base. apply Ptext0.
  - intros p IHp s IHs [Hp Hs] [Dp Ds]. apply allT_concat; auto.
Qed.
Lemma short_q q : qshort q -> forall lg, q = QPlus lg \/ q = QStar lg -> Pshort [] lg.
Proof. intros [H1 H2] lg [->| ->]; destruct lg; (reflexivity || congruence). Qed.
Lemma build_short :
  (forall u, unit_ok u -> unit_short u -> allT Pshort (build_unit u)) /\
  (forall s, sel_ok s -> sel_short s -> allT Pshort (build_sel s)) /\
  (forall p, pat_ok p -> pat_short p -> allT Pshort (build_pat p)).
Proof.
  apply regex_ind; cbn [unit_ok sel_ok pat_ok unit_short sel_short pat_short build_unit build_sel build_pat].
  - intros a Ha Hd. apply allT_atom; [reflexivity|apply (atom_cc_ok a Ha)|reflexivity].
  - intros p IH Hp Hd. apply allT_concat; [apply allT_base; reflexivity|auto].
  - intros u IH q Hu [Hd Hq]. apply allT_quant; [reflexivity|apply short_q; exact Hq|auto].
  - intros s IHs u IHu q [Hs Hu] (Ds & Du & Hq). apply allT_select; [reflexivity|auto|]. apply allT_quant; [reflexivity|apply short_q; exact Hq|auto].
  - intros _ _. apply allT_base. reflexivity.
  - intros p IHp s IHs [Hp Hs] [Dp Ds]. apply allT_concat; auto.
Qed.
Lemma pat_text p : pat_ok p -> pat_nodot p -> nfa_text (build_pat p).
Proof. intros H D q u ch Hu. apply (allT_nth Ptext (build_pat p) q u); [apply build_text; assumption|exact Hu]. Qed.
Lemma pat_no_long p : pat_ok p -> pat_short p -> no_long (build_pat p).
Proof. intros H D q u Hu. apply (allT_nth Pshort (build_pat p) q u); [apply build_short; assumption|exact Hu]. Qed.

(** ** The minimised automaton (the default) *)
Section Minimised.
Variable P : cclass -> Prop.
Definition allD (D : dfa) : Prop := forall s, In s D -> dlong s = false /\ forall t, In t (dtrs s) -> P (tlab t).
Lemma allD_nth D i : allD D -> dlong (nth i D dnil) = false /\ forall t, In t (dtrs (nth i D dnil)) -> P (tlab t).
Proof. intros H. destruct (nth_in_or_default i D dnil) as [K| ->]; [exact (H _ K)|]. split; [reflexivity|intros t []]. Qed.
Lemma allD_upd_long D i lg : lg = false -> allD D -> allD (upd_nth D i (set_long lg)).
Proof.
  intros ->. revert i. induction D as [|s D IH]; intros i H x; [destruct i; intros []|]. destruct i as [|i]; cbn; intros [<-|Hx].
  - destruct (H s (or_introl eq_refl)) as [H1 H2]. cbn. rewrite H1. auto.
  - exact (H x (or_intror Hx)).
  - exact (H s (or_introl eq_refl)).
  - exact (IH i (fun y Hy => H y (or_intror Hy)) x Hx).
Qed.
Lemma min_scan_all : forall todo D reps remap D' reps' remap', allD D -> min_scan D todo reps remap = (D', reps', remap') -> allD D'.
Proof.
  induction todo as [|i todo IH]; intros D reps remap D' reps' remap' H; cbn [min_scan]; [intros E; injection E as <- <- <-; exact H|].
  destruct (find_equiv D reps (nth i D dnil)); [|apply IH; exact H]. apply IH. apply allD_upd_long; [apply (allD_nth D i H)|exact H].
Qed.
Lemma redirect_allD a b D : allD D -> allD (redirect a b D).
Proof.
  intros H s Hs. unfold redirect in Hs. apply in_map_iff in Hs as (s0 & <- & Hs). destruct (H s0 Hs) as [H1 H2]. cbn. split; [exact H1|].
  intros t Ht. apply in_map_iff in Ht as (t0 & <- & Ht). specialize (H2 t0 Ht). destruct (tdest t0 =? a); exact H2.
Qed.
Lemma redirects_allD remap : forall D, allD D -> allD (fold_left (fun D p => redirect (fst p) (snd p) D) remap D).
Proof. induction remap as [|x remap IH]; intros D H; [exact H|]. cbn. apply IH. apply redirect_allD. exact H. Qed.
Lemma filter_nodes_all keep D : allD D -> allD (filter_nodes keep D) /\ forall s t, In s (filter_nodes keep D) -> In t (dtrs s) -> tdest t < length keep.
Proof.
  intros H. split.
  - intros s Hs. unfold filter_nodes in Hs. apply in_map_iff in Hs as (i & <- & Hs). cbn. destruct (allD_nth D i H) as [H1 H2]. split; [exact H1|].
    intros t Ht. apply in_map_iff in Ht as (t0 & <- & Ht). apply filter_In in Ht as [Ht _]. exact (H2 t0 Ht).
  - intros s t Hs Ht. unfold filter_nodes in Hs. apply in_map_iff in Hs as (i & <- & Hs). cbn in Ht.
    apply in_map_iff in Ht as (t0 & <- & Ht). apply filter_In in Ht as [_ Ht]. cbn. apply existsb_exists in Ht as (x & Hx & E). apply Nat.eqb_eq in E. subst x.
    apply (index_of_nth _ _ Hx).
Qed.
End Minimised.
Lemma min_scan_ne : forall todo D reps remap D' reps' remap', reps <> [] -> min_scan D todo reps remap = (D', reps', remap') -> reps' <> [].
Proof.
  induction todo as [|i todo IH]; intros D reps remap D' reps' remap' H; cbn [min_scan]; [intros E; injection E as <- <- <-; exact H|].
  destruct (find_equiv D reps (nth i D dnil)); apply IH; [exact H|]. destruct reps; [congruence|discriminate].
Qed.
Theorem minimize_codable D : codable D -> nolongD D -> codable (minimize D) /\ nolongD (minimize D).
Proof.
  intros [HN HT _] HL. unfold minimize. destruct (min_scan D (seq 0 (length D)) [] []) as [[D1 reps] remap] eqn:E.
  set (P := fun cc => proper cc /\ includes cc 0 = false).
  assert (A0 : allD P D).
  { intros s Hs. split; [exact (HL s Hs)|]. intros t Ht. destruct (In_nth D s dnil Hs) as (q & _ & Eq). subst s. destruct (HT q t Ht) as (_ & K). exact K. }
  pose proof (min_scan_all P _ _ _ _ _ _ _ A0 E) as A1. apply redirects_allD with (remap := remap) in A1.
  destruct (filter_nodes_all P reps _ A1) as [A2 R2]. set (M := filter_nodes reps _) in *.
  assert (LM : length M = length reps) by (unfold M, filter_nodes; apply map_length).
  assert (NR : reps <> []).
  { destruct D as [|s D]; [congruence|]. cbn [length seq min_scan find_equiv app] in E. eapply min_scan_ne; [|exact E]. discriminate. }
  split; [|intros s Hs; apply (A2 s Hs)]. split.
  - intros Z. rewrite Z in LM. destruct reps; [congruence|discriminate].
  - intros q t Ht. destruct (nth_in_or_default q M dnil) as [K|K]; [|rewrite K in Ht; destruct Ht].
    split; [rewrite LM; exact (R2 _ t K Ht)|]. exact (proj2 (A2 _ K) t Ht).
  - intros q Hq. destruct (allD_nth P M q A2) as [K _]. congruence.
Qed.
