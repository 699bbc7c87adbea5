(** * Exactly when the construction of a decision automaton succeeds *)
From Coq Require Import List NArith ZArith Arith Bool Lia ZifyBool ZifyN ZifyNat Relations.
From Verif Require Import CharClass Stream NFA DFA DFADep DFAMin ATN Grammar GrammarProofs CodeGen CodeGenProofs Lookahead LookSpec LookOrder LookClosure LookItems LookAuto LookFuel LookEnds LookMain LookStuck.
Import ListNotations.
Local Open Scope nat_scope.

Lemma ok_max {A} (r1 r2 : sres A) a : more r1 r2 -> r1 = SOk a -> r2 = SOk a.
Proof. apply more_ok. Qed.

Section Table.
Variable D : list (list N * cmach).
Hypothesis WF : nodes_ok D.
Variables (id : list N) (i : nat) (n : cnode).
Hypothesis Hroot : node_at D [(id, i)] = Some n.
Notation root := [(id, i)].
Notation br := (branch D root).
(** Texts the automaton has to look beyond. *)
Definition live (w : list N) : Prop := w = [] \/ several D id i [] w.
Definition nowhere_stuck : Prop := forall w j t y, live w -> nth_error (ctrs n) j = Some t -> runs D (At [(id, cdest t)]) w y -> ~ stuck D y.

Lemma live_prefix v w : live (v ++ w) -> live v.
Proof.
  intros [E|(k & k' & N & H1 & H2)]; [apply app_eq_nil in E as [-> _]; left; reflexivity|]. right. exists k, k'. split; [exact N|]. split; eapply br_prefix; eassumption.
Qed.
Lemma pvalid_runs x w y : runs D x w y -> pvalid D (path_of x) -> pvalid D (path_of y).
Proof. induction 1 as [x|x a y b z M R IH]; intros H; [exact H|]. apply IH. eapply pvalid_move; eassumption. Qed.
Lemma pvalid_start j t : nth_error (ctrs n) j = Some t -> pvalid D [(id, cdest t)].
Proof. intros H. split; [discriminate|]. constructor; [|constructor]. exact (proj1 WF id i [] n t Hroot (nth_error_In _ _ H)). Qed.

Section Forward.
Hypothesis NS : nowhere_stuck.
Lemma reached w j t y : live w -> nth_error (ctrs n) j = Some t -> runs D (At [(id, cdest t)]) w y -> posok D y /\ pvalid D (path_of y) /\ Ns D y.
Proof.
  intros HL Ht HR. pose proof (pvalid_start j t Ht) as PV. split; [|split; [exact (pvalid_runs _ _ _ HR PV)|]].
  2:{ intros z Rz. apply (NS w j t z HL Ht). rewrite <- (app_nil_r w). exact (runs_trans D _ _ _ _ _ HR Rz). }
  assert (G : forall x u y, runs D x u y -> forall v, live (v ++ u) -> runs D (At [(id, cdest t)]) v x -> posok D x -> posok D y).
  { clear - NS Ht PV WF Hroot. induction 1 as [x|x a y b z M R IH]; intros v HL HV HX; [exact HX|]. rewrite app_assoc in HL. apply (IH (v ++ a) HL).
    - eapply runs_trans; [exact HV|]. apply runs_one. exact M.
    - eapply posok_move; [exact WF|exact HX|exact (pvalid_runs _ _ _ HV PV)| |exact M]. intros Q. apply (NS v j t x); [|exact Ht|exact HV|left; exact Q]. apply (live_prefix v a). apply (live_prefix _ b). exact HL. }
  apply (G _ _ _ HR []); [exact HL|constructor|]. unfold posok. cbn [path_of pok]. split; [exact (dest_in_U D id i [] n t Hroot (nth_error_In _ _ Ht))|]. split; [constructor|intros ? []].
Qed.
Notation K0 := (length (ctrs n)).
Notation labels w cl := (forall k, K k cl -> conf D id [] n w k).
Definition seen (cl : closure) : Prop := exists w, live w /\ labels w cl.
(** Where departures lead. *)
Definition ahead (s : closure) : Prop := s <> [] /\ exists w c, live w /\ forall e, In e s -> next D id [] n w c (key e).
Lemma departures cl : seen cl -> exists f items, departure_set D f cl = SOk items.
Proof.
  intros (w & HL & HC).
  assert (UN : exists f, forall e, In e cl -> forall ds col pr, exists ds', dep_from D f ds (epath e) col pr [] = SOk ds').
  { apply (uniform (fun f e => forall ds col pr, exists ds', dep_from D f ds (epath e) col pr [] = SOk ds')).
    - intros f f' e Hf Q ds col pr. destruct (Q ds col pr) as [ds' E]. exists ds'. eapply more_ok; [|exact E]. apply dep_more. exact Hf.
    - intros e He. destruct (HC (key e) (in_map key _ _ He)) as ((m & M1 & M2) & j & t & H1 & _ & H3). cbn [key fst] in *.
      assert (RP : runs D (At [(id, cdest t)]) w (Past (epath e))) by (rewrite <- (app_nil_r w); eapply runs_trans; [exact H3|]; apply runs_one; eapply mv_here; eassumption).
      destruct (reached w j t _ HL H1 RP) as (P1 & P2 & P3). pose proof (ends D WF _ P1 P2 P3) as AC. exact (dfin_all D WF _ AC (epath e) eq_refl P3 P2 [] (fun s h => match h with end)). }
  destruct UN as [f Hf]. exists f. unfold departure_set.
  destruct (sfold_okay (fun ds e => dep_from D f ds (epath e) (ecol e) (eprio e) []) cl (fun b e h => Hf e h b (ecol e) (eprio e)) []) as [ds E]. rewrite E. eauto.
Qed.
Lemma items_ahead f cl items : seen cl -> departure_set D f cl = SOk items -> forall r s, In (r, s) items -> ahead s.
Proof.
  intros (w & HL & HC) H r s Hi. apply departure_set_inv in H as (ds & -> & HD & _). destruct (items_char ds 0%N) as (I1 & _ & _). destruct (I1 r s Hi) as [_ NE]. split; [exact NE|].
  destruct (dep_char_all_items ds r s Hi) as [c ->]. exists w, c. split; [exact HL|]. intros e He. apply conf_next. apply (in_map key) in He. apply dep_char_sub in He. apply HD in He as (p & z & H1 & H2). exists p, z. split; [apply HC, H1|exact H2].
Qed.
Lemma ahead_live s : ahead s -> (closure_color 0 s <= 0)%Z -> exists w, live w /\ (exists v c, w = v ++ [c] /\ forall e, In e s -> next D id [] n v c (key e)).
Proof.
  intros (NE & w & c & HL & HN) HC. exists (w ++ [c]). split; [|exists w, c; auto]. right.
  assert (CP : forall e, In e s -> 1 <= ecol e) by (intros e He; destruct (HN e He) as (? & ? & ? & _ & Q & _); cbn [key snd] in Q; rewrite Q; apply le_n_S, Nat.le_0_l).
  pose proof (color_spec s CP NE) as CS.
  assert (X : exists e e', In e s /\ In e' s /\ ecol e <> ecol e') by (destruct (closure_color 0 s); [exact CS|lia|exact CS]). clear CS.
  destruct X as (e & e' & H1 & H2 & H3). exists (ecol e - 1), (ecol e' - 1). pose proof (CP e H1). pose proof (CP e' H2). split; [lia|].
  assert (G : forall e, In e s -> br (ecol e - 1) (w ++ [c])). { intros x Hx. apply (next_branch D id i [] n Hroot). exists (epath x). specialize (HN x Hx). unfold key in HN. specialize (CP x Hx). replace (S (ecol x - 1)) with (ecol x) by lia. exact HN. }
  split; apply G; assumption.
Qed.
Lemma next_reached v c e : live (v ++ [c]) -> next D id [] n v c (key e) -> posok D (At (epath e)) /\ pvalid D (epath e) /\ Ns D (At (epath e)).
Proof.
  intros HL (j & t & z & H1 & _ & H3 & H4). cbn [key fst] in H4. apply (reached (v ++ [c]) j t (At (epath e)) HL H1). eapply runs_trans; [exact H3|]. apply runs_one. exact H4.
Qed.
Lemma closes s : ahead s -> (closure_color 0 s <= 0)%Z -> exists f ec, build_closure D f s = SOk ec.
Proof.
  intros HA HC. destruct (ahead_live s HA HC) as (w & HL & v & c & -> & HN).
  assert (UN : exists f, forall e, In e s -> forall cl col pr, exists cl', cl_incl D f cl (epath e) col [] pr = SOk cl').
  { apply (uniform (fun f e => forall cl col pr, exists cl', cl_incl D f cl (epath e) col [] pr = SOk cl')).
    - intros f f' e Hf Q ds col pr. destruct (Q ds col pr) as [ds' E]. exists ds'. eapply more_ok; [|exact E]. apply cl_more. exact Hf.
    - intros e He. destruct (next_reached v c e HL (HN e He)) as (P1 & P2 & P3). exact (fin_all D WF (At (epath e)) (ends D WF _ P1 P2 P3) P3 P2 [] (fun s h => match h with end)). }
  destruct UN as [f Hf]. exists f. unfold build_closure. apply sfold_okay. intros b e He. apply Hf. exact He.
Qed.
Lemma closes_seen f s ec : ahead s -> (closure_color 0 s <= 0)%Z -> build_closure D f s = SOk ec -> seen ec.
Proof.
  intros HA HC HB. destruct (ahead_live s HA HC) as (w & HL & v & c & -> & HN). exists (v ++ [c]). split; [exact HL|]. intros k Hk. apply (build_closure_spec D f s ec HB) in Hk as (T & q & Hq & HR).
  apply next_conf. split; [exact T|]. exists q. split; [|exact HR]. unfold K in Hq. apply in_map_iff in Hq as (e & E & He). rewrite <- E. exact (HN e He).
Qed.

(** ** The lists of states *)
Definition lw (L : list lstate_) : Prop := lok D K0 L /\ forall s, In s L -> seen (llab s).
Lemma lw_upd L k cc d : lw L -> lw (upd_nth L k (add_ltr cc d)) /\ length (upd_nth L k (add_ltr cc d)) = length L.
Proof.
  intros [H1 H2]. destruct (lok_upd D K0 L k cc d H1) as [A B]. split; [|exact B]. split; [exact A|]. intros s Hs. apply (in_map llab) in Hs. rewrite llab_upd in Hs. apply in_map_iff in Hs as (s' & <- & Hs). auto.
Qed.
Lemma lw_add L cl : lw L -> cok D K0 cl -> seen cl -> lw (fst (l_add_state L cl)) /\ length L <= length (fst (l_add_state L cl)).
Proof.
  intros [H1 H2] HC HS. destruct (lok_add D K0 L cl H1 HC) as [A B]. split; [|exact B]. split; [exact A|]. unfold l_add_state. destruct (find_closure L cl 0); cbn [fst]; [exact H2|]. intros s Hs. apply in_app_or in Hs as [Hs|[<-|[]]]; [auto|exact HS].
Qed.
Definition good_items (items : list (range * closure)) : Prop := forall r s, In (r, s) items -> ahead s /\ forall e, In e s -> eok D K0 e.
Lemma good_tail r s items : good_items ((r, s) :: items) -> good_items items.
Proof. intros H r0 s0 H0. apply (H r0 s0). right. exact H0. Qed.
Lemma items_lw f index : forall items L L', lw L -> good_items items -> l_items D f L index items = SOk L' -> lw L' /\ length L <= length L'.
Proof.
  induction items as [|[r s] items IH]; intros L L' HL HI H; cbn [l_items] in H; [injection H as <-; auto|]. pose proof (good_tail _ _ _ HI) as HI'. destruct (HI r s (or_introl eq_refl)) as [HA HE].
  destruct (0 <? closure_color 0 s)%Z eqn:EC.
  - destruct (lw_upd L index [r] (- closure_color 0 s)%Z HL) as [A B]. destruct (IH _ _ A HI' H) as [A' B']. split; [exact A'|]. rewrite B in B'. exact B'.
  - destruct (build_closure D f s) as [ec| |] eqn:E; try discriminate. assert (C : cok D K0 ec) by (eapply build_cok; [exact HE|exact E]). assert (SE : seen ec) by (eapply closes_seen; [exact HA|clear - EC; lia|exact E]).
    destruct (lw_add L ec HL C SE) as [A B]. destruct (l_add_state L ec) as [L1 j]. cbn [fst] in *. destruct (lw_upd L1 index [r] (Z.of_nat j) A) as [A2 B2]. destruct (IH _ _ A2 HI' H) as [A' B']. split; [exact A'|]. rewrite B2 in B'. etransitivity; eassumption.
Qed.
Lemma items_okay index : forall items L, lw L -> good_items items -> exists f L', l_items D f L index items = SOk L'.
Proof.
  induction items as [|[r s] items IH]; intros L HL HI; [exists 0; eexists; reflexivity|]. pose proof (good_tail _ _ _ HI) as HI'. destruct (HI r s (or_introl eq_refl)) as [HA HE].
  destruct (0 <? closure_color 0 s)%Z eqn:EC.
  - destruct (IH _ (proj1 (lw_upd L index [r] (- closure_color 0 s)%Z HL)) HI') as (f & L' & E). exists f, L'. cbn [l_items]. rewrite EC. exact E.
  - assert (EC' : (closure_color 0 s <= 0)%Z) by (clear - EC; lia). destruct (closes s HA EC') as (f1 & ec & E1).
    destruct (lw_add L ec HL (build_cok D K0 f1 s ec HE E1) (closes_seen f1 s ec HA EC' E1)) as [A B]. destruct (l_add_state L ec) as [L1 j] eqn:EA. cbn [fst] in *.
    destruct (IH _ (proj1 (lw_upd L1 index [r] (Z.of_nat j) A)) HI') as (f2 & L' & E2). exists (max f1 f2), L'. cbn [l_items]. rewrite EC.
    rewrite (more_ok _ _ _ (build_closure_more D f1 (max f1 f2) s (Nat.le_max_l _ _)) E1). rewrite EA. exact (more_ok _ _ _ (l_items_more D f2 (max f1 f2) (Nat.le_max_r _ _) _ _ _) E2).
Qed.
Lemma departed_good L k f items : lw L -> k < length L -> departure_set D f (llab (nth k L lnil)) = SOk items -> good_items items.
Proof.
  intros [H1 H2] Hk E r s Hi. pose proof (nth_In L lnil Hk) as HN. split; [exact (items_ahead f _ items (H2 _ HN) E r s Hi)|]. exact (departure_eok D K0 f _ items (proj2 H1 _ HN) E r s Hi).
Qed.
Lemma fork_lw cf : forall f,
  (forall L k L', lw L -> k < length L -> l_fork D f cf L k = SOk L' -> lw L' /\ length L <= length L') /\
  (forall L k L', lw L -> l_loop D f cf L k = SOk L' -> lw L' /\ length L <= length L').
Proof.
  induction f as [|f (IH1 & IH2)]; [split; discriminate|]. split; intros L k L' HL.
  - intros Hk H. rewrite LookFuel.l_fork_S in H. destruct (departure_set D cf (llab (nth k L lnil))) as [items| |] eqn:Ed; try discriminate. destruct (l_items D cf L k items) as [L1| |] eqn:Ei; try discriminate.
    destruct (items_lw cf k items L L1 HL (departed_good L k cf items HL Hk Ed) Ei) as [A B]. destruct (IH2 _ _ _ A H) as [A' B']. split; [exact A'|]. etransitivity; eassumption.
  - intros H. rewrite LookFuel.l_loop_S in H. destruct (k <? length L) eqn:E; [|injection H as <-; auto]. destruct (l_fork D f cf L k) as [L1| |] eqn:E1; try discriminate. destruct (IH1 L k L1 HL (proj1 (Nat.ltb_lt _ _) E) E1) as [A B]. destruct (IH2 _ _ _ A H) as [A' B']. split; [exact A'|]. etransitivity; eassumption.
Qed.
Definition lfo (L : list lstate_) (k : nat) : Prop := exists f cf L', l_fork D f cf L k = SOk L'.
Definition llo (L : list lstate_) (k : nat) : Prop := exists f cf L', l_loop D f cf L k = SOk L'.
Lemma fork_okay L k : lw L -> k < length L -> (forall L', lw L' -> length L < length L' -> llo L' (length L)) -> lfo L k.
Proof.
  intros HL Hk IH. destruct (departures _ (proj2 HL _ (nth_In L lnil Hk))) as (f1 & items & E1). pose proof (departed_good L k f1 items HL Hk E1) as GI.
  destruct (items_okay k items L HL GI) as (f2 & L1 & E2). destruct (items_lw f2 k items L L1 HL GI E2) as [A B].
  assert (LO : llo L1 (length L)).
  { destruct (Nat.eq_dec (length L1) (length L)) as [Q|Q]; [|apply IH; [exact A|clear - B Q; lia]]. exists 1, 0, L1. rewrite LookFuel.l_loop_S. rewrite Q, Nat.ltb_irrefl. reflexivity. }
  destruct LO as (f3 & cf & L2 & E3). set (C := max (max f1 f2) cf). exists (S f3), C, L2. rewrite LookFuel.l_fork_S.
  rewrite (more_ok _ _ _ (departure_more D f1 C _ ltac:(unfold C; lia)) E1). rewrite (more_ok _ _ _ (l_items_more D f2 C ltac:(unfold C; lia) _ _ _) E2).
  exact (more_ok _ _ _ (proj2 (l_more D cf C ltac:(unfold C; lia) f3) L1 (length L) f3 (le_n _)) E3).
Qed.
Lemma loop_okay : forall d L k, lw L -> length (CU D K0) - length L < d -> llo L k.
Proof.
  induction d as [|d IHd]; intros L k HL Hd; [lia|].
  assert (F : forall L k, lw L -> k < length L -> length (CU D K0) - length L < S d -> lfo L k).
  { intros L0 i0 H0 Hi0 Hd0. apply fork_okay; [exact H0|exact Hi0|]. intros L' H' Hlt. apply IHd; [exact H'|]. pose proof (lok_length D K0 _ (proj1 H')). lia. }
  assert (G : forall b L k, lw L -> length (CU D K0) - length L < S d -> length L - k < b -> llo L k).
  { induction b as [|b IHb]; intros L0 i0 H0 Hd0 Hk; [lia|]. destruct (i0 <? length L0) eqn:E.
    - destruct (F L0 i0 H0 ltac:(lia) Hd0) as (f1 & c1 & L1 & E1). destruct (proj1 (fork_lw c1 f1) L0 i0 L1 H0 ltac:(lia) E1) as [A B]. assert (X : llo L1 (S i0)).
      { destruct (Nat.eq_dec (length L1) (length L0)) as [Q|Q]; [apply IHb; [exact A|lia|lia]|]. apply IHd; [exact A|]. pose proof (lok_length D K0 _ (proj1 A)). lia. }
      destruct X as (f2 & c2 & L2 & E2). exists (S (max f1 f2)), (max c1 c2), L2. rewrite LookFuel.l_loop_S, E.
      rewrite (more_ok _ _ _ (proj1 (l_more D c1 (max c1 c2) (Nat.le_max_l _ _) f1) L0 i0 (max f1 f2) (Nat.le_max_l _ _)) E1).
      exact (more_ok _ _ _ (proj2 (l_more D c2 (max c1 c2) (Nat.le_max_r _ _) f2) L1 (S i0) (max f1 f2) (Nat.le_max_r _ _)) E2).
    - exists 1, 0, L0. rewrite LookFuel.l_loop_S, E. reflexivity. }
  apply (G (S (length L - k))); [exact HL|exact Hd|lia].
Qed.
Theorem table_if : exists f cf T, ldfa_build D f cf root = SOk T.
Proof.
  assert (exists f cf T, ldfa_plain D f cf root = SOk T) as (f & cf & T & E).
  2:{ exists f, cf. unfold ldfa_build. rewrite E. eauto. }
  assert (RL : exists f, forall ts, (forall t, In t ts -> In t (ctrs n)) -> forall col cl, exists cl', root_loop D f id i [] ts col cl = SOk cl').
  { assert (UN : exists f, forall t, In t (ctrs n) -> forall cl col pr, exists cl', cl_incl D f cl [(id, cdest t)] col [] pr = SOk cl').
    { apply (uniform (fun f t => forall cl col pr, exists cl', cl_incl D f cl [(id, cdest t)] col [] pr = SOk cl')).
      - intros f f' e Hf Q ds col pr. destruct (Q ds col pr) as [ds' E]. exists ds'. eapply more_ok; [|exact E]. apply cl_more. exact Hf.
      - intros t Ht. apply In_nth_error in Ht as [j Hj]. destruct (reached [] j t _ (or_introl eq_refl) Hj (runs_refl _ _)) as (P1 & P2 & P3). exact (fin_all D WF (At [(id, cdest t)]) (ends D WF _ P1 P2 P3) P3 P2 [] (fun s h => match h with end)). }
    destruct UN as [f Hf]. exists f. induction ts as [|t ts IH]; intros HT col cl; cbn [root_loop]; [eauto|]. destruct (Hf t (HT t (or_introl eq_refl)) cl col [(id, i, ctag t)]) as [cl' E]. rewrite E. apply IH. intros t0 H0. apply HT. right. exact H0. }
  destruct RL as [f1 Hf]. destruct (Hf (ctrs n) (fun t h => h) 1 []) as [cl ER].
  assert (HC : cok D K0 cl) . { refine (root_cok D K0 f1 id i [] n (conj _ _) Hroot (ctrs n) 1 [] cl _ (nil_cok D K0) ER); [constructor|intros ? []|exact (le_n _)]. }
  assert (HW : lw [mkL cl []]).
  { split; [split; [cbn; constructor; [intros []|constructor]|intros s [<-|[]]; exact HC]|]. intros s [<-|[]]. exists []. split; [left; reflexivity|]. cbn [llab]. intros k Hk. apply (root_loop_spec D f1 id i [] _ _ _ _ ER) in Hk as [[]|(H1 & j & t & H2 & H3 & H4)]. split; [exact H1|]. exists j, t. auto. }
  destruct (fork_okay [mkL cl []] 0 HW (le_n 1)) as (f2 & cf & L & EL).
  { intros L' H' _. apply (loop_okay (S (length (CU D K0) - length L'))); [exact H'|apply le_n]. }
  exists f2, (max f1 cf). eexists. unfold ldfa_plain.
  assert (E1 : root_closure D f1 root = SOk cl) by (unfold root_closure; rewrite Hroot; exact ER). rewrite (more_ok _ _ _ (root_closure_more D f1 (max f1 cf) root (Nat.le_max_l _ _)) E1).
  rewrite (more_ok _ _ _ (proj1 (l_more D cf (max f1 cf) (Nat.le_max_r _ _) f2) [mkL cl []] 0 f2 (le_n _)) EL). reflexivity.
Qed.
End Forward.

(** ** A finished table has met nothing stuck *)
Theorem table_only_if f cf T : no_preference D -> ldfa_build D f cf root = SOk T -> nowhere_stuck.
Proof.
  intros HP HB. unfold ldfa_build in HB. destruct (ldfa_plain D f cf root) as [T0| |] eqn:E; try discriminate. clear HB T.
  destruct (plain_inv D f cf id i [] n T0 Hroot E) as (L & _ & HL & HF & HR).
  assert (RT : exists cl, root_loop D cf id i [] (ctrs n) 1 [] = SOk cl).
  { unfold ldfa_plain, root_closure in E. rewrite Hroot in E. destruct (root_loop D cf id i [] (ctrs n) 1 []) as [cl| |]; try discriminate. eauto. }
  (* every live text leads to a state *)
  assert (ST : forall w, live w -> exists q, represents D id [] n L q w).
  { intros w. pattern w. apply rev_ind; clear w; [intros _; exists 0; exact HR|]. intros c w IH HW. destruct (IH (live_prefix _ _ HW)) as [q Hq].
    pose proof (step_exact D cf _ id i [] n Hroot L HL HF q w c HP Hq) as SE. destruct HW as [HW|(k & k' & Nk & B1 & B2)]; [destruct w; discriminate|].
    destruct (first_lab (ltrs_at L q) c) as [d|]; [|destruct (SE _ B1)]. destruct (0 <=? d)%Z; [eexists; apply SE|]. destruct SE as [_ SE]. rewrite (SE _ B1), (SE _ B2) in Nk. destruct (Nk eq_refl). }
  intros w j t y HW Ht HR'. pattern w in HW. destruct (list_eq_dec N.eq_dec w []) as [->|NW].
  - destruct RT as [cl RT]. assert (X : exists cl1 cl2, cl_incl D cf cl1 [(id, cdest t)] (1 + j) [] [(id, i, ctag t)] = SOk cl2).
    { clear - RT Ht. revert RT. generalize (@nil celem) 1 cl. revert j Ht. induction (ctrs n) as [|t0 ts IH]; intros j Ht cl0 col cl1 RT; [destruct j; discriminate|]. cbn [root_loop] in RT. destruct (cl_incl D cf cl0 ((id, cdest t0) :: []) col [] [(id, i, ctag t0)]) as [cl2| |] eqn:E; try discriminate.
      destruct j as [|j]; cbn in Ht; [injection Ht as ->; rewrite Nat.add_0_r; eauto|]. destruct (IH j Ht _ _ _ RT) as (a & b & H). exists a, b. rewrite Nat.add_succ_r. exact H. }
    destruct X as (a & b & X). apply (ok_stuck D cf (At [(id, cdest t)]) y); [cbn [okf]; eauto 8|exact HR'].
  - destruct (exists_last NW) as (v & c & ->). destruct (ST v (live_prefix _ _ HW)) as [q Hq].
    apply runs_snoc_char in HR' as (z & p & R1 & M & R2).
    assert (NX : next D id [] n v c (p, S j)) by (exists j, t, z; auto).
    pose proof (step_exact D cf _ id i [] n Hroot L HL HF q v c HP Hq) as SE. destruct (step_items D cf _ L HL HF q c (proj1 Hq)) as (ds & HD & HT & SI).
    destruct HW as [HW|(k & k' & Nk & B1 & B2)]; [destruct v; discriminate|]. destruct (first_lab (ltrs_at L q) c) as [d|]; [|destruct (SE _ B1)].
    destruct (0 <=? d)%Z eqn:Ed; [|destruct SE as [_ SE]; rewrite (SE _ B1), (SE _ B2) in Nk; destruct (Nk eq_refl)].
    destruct SI as [NE [[X1 X2]|(X1 & ec & jj & X2 & X3 & X4)]]; [lia|].
    assert (IN : K (p, S j) (dep_char ds c)).
    { apply dep_char_full; [intros d1 d2 Q1 Q2; apply (prio_eq D); [exact HP|apply HT; exact Q1|apply HT; exact Q2]|]. apply HD. cbn [fst snd]. apply conf_next in NX as (p0 & z0 & C & P & M0). exists p0, z0. split; [apply Hq; exact C|auto]. }
    unfold K in IN. apply in_map_iff in IN as (e & Ee & He). injection Ee as E1 E2. unfold build_closure in X2. apply (sfold_step _ _ _ _ e) in X2; [|exact He]. destruct X2 as (b1 & b2 & X2).
    apply (ok_stuck D cf (At (epath e)) y); [cbn [okf]; eauto 8|]. rewrite E1. exact R2.
Qed.
End Table.
