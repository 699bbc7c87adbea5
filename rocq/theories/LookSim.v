(** Readings of the composite network are readings of the rules, and the other way round. *)
From Coq Require Import List NArith ZArith Arith Bool Lia ZifyBool ZifyN ZifyNat.
From Verif Require Import CharClass CharClassSpec CharClassProofs Stream NFA NFASem NFAProofs DFA DFAMin ATN Grammar GrammarProofs CodeGen ParseSpec Lookahead LookSpec LookClosure LookImport LookAuto LookGrammarSpec LookRead.
Import ListNotations.
Local Open Scope nat_scope.

Lemma ws_includes c : CharClass.includes ws_class c = true <-> (c = 9 \/ c = 10 \/ c = 13 \/ c = 32)%N.
Proof. change ws_class with [mkR 32 33; mkR 9 10; mkR 13 14; mkR 10 11]%N. cbn [CharClass.includes existsb rs re]. lia. Qed.
Lemma narrow_lt x : (narrow x < 256)%N. Proof. unfold narrow. apply N.mod_lt. discriminate. Qed.
Lemma lit_includes x c : CharClass.includes (lit_class x) c = true -> c = narrow x.
Proof.
  unfold lit_class, cc_range. pose proof (narrow_lt x) as H. assert (E : narrow (narrow x) = narrow x) by (unfold narrow; apply N.mod_mod; discriminate). rewrite E.
  assert (H1 : (narrow (narrow x + 1) <= narrow x + 1)%N) by (unfold narrow at 1; apply N.mod_le; discriminate). revert H1. generalize (narrow (narrow x + 1)), (narrow x). intros m n. cbn [CharClass.includes existsb rs re]. lia.
Qed.
Lemma lit_includes_own x : narrow x <> 255%N -> CharClass.includes (lit_class x) (narrow x) = true.
Proof.
  unfold lit_class, cc_range. pose proof (narrow_lt x) as H. assert (E : narrow (narrow x) = narrow x) by (unfold narrow; apply N.mod_mod; discriminate). rewrite E. intros Hn.
  assert (H1 : narrow (narrow x + 1) = (narrow x + 1)%N) by (unfold narrow at 1; apply N.mod_small; change (char_max + 1)%N with 256%N; lia). rewrite H1. revert Hn H. generalize (narrow x). intros n. cbn [CharClass.includes existsb rs re]. lia.
Qed.
Lemma lit_class_ne x : lit_class x <> []. Proof. discriminate. Qed.
Lemma firstn_snoc {A} (s : list A) q d : q < length s -> firstn (S q) s = firstn q s ++ [nth q s d].
Proof. revert q. induction s as [|x s IH]; intros [|q] H; cbn in *; try lia; [reflexivity|]. f_equal. apply IH. lia. Qed.
Lemma path_snoc E q0 u q lab d c : NFASem.path E q0 u q -> E q lab d -> (lab = [] -> NFASem.path E q0 u d) /\ (CharClass.includes lab c = true -> NFASem.path E q0 (u ++ [c]) d).
Proof.
  induction 1 as [q|q p w q' H1 H2 IH|q l ch p w q' H1 H2 H3 IH]; intros HE.
  - split; [intros ->; eapply p_eps; [exact HE|constructor]|intros Hi; eapply p_chr; [exact HE|exact Hi|constructor]].
  - destruct (IH HE) as [A B]. split; intros X; eapply p_eps; eauto.
  - destruct (IH HE) as [A B]. split; intros X; cbn; eapply p_chr; eauto.
Qed.

Lemma skipn_skipn' {A} (s : list A) : forall q, skipn 1 (skipn q s) = skipn (S q) s.
Proof. induction s as [|x s IH]; intros [|q]; try reflexivity. cbn [skipn] in *. rewrite <- IH. reflexivity. Qed.
Lemma nth_skipn {A} (s : list A) d : forall q n, nth n (skipn q s) d = nth (q + n) s d.
Proof. induction s as [|x s IH]; intros [|q] n; cbn; try reflexivity; [destruct n; reflexivity|apply IH]. Qed.

Section Sim.
Variable nets : list (list N * (N * atn)).
Variable D : list (list N * cmach).
Hypothesis HN : lookable nets.
Hypothesis HD : composite nets = Some D.
Notation known := (known nets).
Notation net := (net nets).
Notation entry := (entry nets).
Notation exit_ := (exit_ nets).
Notation sym := (sym nets).
Notation outs := (outs nets).

Definition tr (up : path) : path := map (fun x => (fst x, exit_ (fst x) (snd x))) up.
Definition call_ok (x : list N * nat) : Prop := known (fst x) /\ snd x < length (net (fst x)) /\ exists s, sym (fst x) (snd x) = NInv s.
Definition fpos (n : nty) (q : nat) (u : list N) : Prop :=
  match n with
  | NBlank | NInv _ => q = 0 /\ u = []
  | NWs => q = 0 /\ spaces u
  | NLit s => q < length s /\ u = lit_bytes (firstn (S q) s)
  | NReg A => q < length A /\ NFASem.path (edge A) 0 u q
  end.
Inductive interp : pos -> spos -> list N -> Prop :=
| I_at r i q up u : known r -> i < length (net r) -> Forall call_ok up -> fpos (sym r i) q u -> interp (At ((r, entry r i + q) :: tr up)) (Before ((r, i) :: up)) u
| I_past r i q up u : known r -> i < length (net r) -> Forall call_ok up -> fpos (sym r i) q u -> (forall s, sym r i <> NInv s) -> interp (Past ((r, entry r i + q) :: tr up)) (Before ((r, i) :: up)) u
| I_after r i up s : known r -> i < length (net r) -> Forall call_ok up -> sym r i = NInv s -> interp (Past ((r, exit_ r i) :: tr up)) (After ((r, i) :: up)) [].

Lemma fpos_lt n q u : fpos n q u -> q < nsize n.
Proof. destruct n; cbn; intros [H _]; lia. Qed.
Lemma fpos_full n q u : fpos n q u -> S q = nsize n -> (forall s, n <> NInv s) -> spells n u.
Proof.
  destruct n as [|s|s|A|]; cbn [fpos nsize spells]; intros [H1 H2] Hq Hn; try assumption; [destruct (Hn s eq_refl)| |].
  - subst u. rewrite (firstn_all2 s (n := S q)) by lia. reflexivity.
  - unfold accepts. replace (length A - 1) with q by lia. exact H2.
Qed.
Lemma texts_one x v y w z : tmove nets x v y -> texts nets y w z -> texts nets x (v ++ w) z.
Proof. apply tx_step. Qed.
Lemma texts_eps x y w z : tmove nets x [] y -> texts nets y w z -> texts nets x w z.
Proof. intros H1 H2. exact (tx_step nets x [] y w z H1 H2). Qed.
Lemma nodeOf r i up : known r -> i < length (net r) -> node_of nets ((r, i) :: up) = Some (nth i (net r) blank).
Proof. intros K Hi. apply (node_of_iff nets). auto. Qed.
Lemma out_lt r i d t : known r -> i < length (net r) -> In (d, t) (outs r i) -> d < length (net r).
Proof. intros K Hi H. destruct (known_net nets HN r K) as [g Hg]. exact (r_dest _ (lk_ready _ HN _ _ _ Hg) _ _ _ H). Qed.
Lemma end_blank r i : known r -> i < length (net r) -> outs r i = [] -> sym r i = NBlank.
Proof. intros K Hi H. destruct (known_net nets HN r K) as [g Hg]. exact (lk_end _ HN _ _ _ _ Hg Hi H). Qed.
Lemma reg_live r i A : known r -> i < length (net r) -> sym r i = NReg A -> live_nfa A.
Proof. intros K Hi H. destruct (known_net nets HN r K) as [g Hg]. exact (lk_reg _ HN _ _ _ _ _ Hg Hi H). Qed.
Lemma inv_known r i s : known r -> i < length (net r) -> sym r i = NInv s -> known s.
Proof. intros K Hi H. destruct (known_net nets HN r K) as [g Hg]. exact (lk_inv _ HN _ _ _ _ _ Hg Hi H). Qed.
Lemma known_ne r : known r -> r <> [].
Proof. intros K. destruct (known_net nets HN r K) as [g Hg]. exact (lk_name _ HN _ _ Hg). Qed.
Lemma lit_len r i s : known r -> i < length (net r) -> sym r i = NLit s -> s <> [].
Proof. intros K Hi H. pose proof (size_pos nets HN r i K Hi) as P. rewrite H in P. cbn in P. intros ->. cbn in P. lia. Qed.

(** The moves of a composite node, told in terms of the rules. *)
Inductive cmove (r : list N) (i q : nat) (t : ctr) : Prop :=
| cm_ws : sym r i = NWs -> q = 0 -> clab t = ws_class -> cdest t = entry r i -> cmove r i q t
| cm_lit s : sym r i = NLit s -> S q < length s -> clab t = lit_class (nth (S q) s 0%N) -> cdest t = entry r i + S q -> cmove r i q t
| cm_reg A d : sym r i = NReg A -> q < length A -> edge A q (clab t) d -> cdest t = entry r i + d -> cmove r i q t
| cm_link d g : S q = nsize (sym r i) -> In (d, g) (outs r i) -> clab t = entry_lab (sym r d) -> cdest t = entry r d -> cmove r i q t.
Lemma lit_nodes_at s : forall a q, q <= length s -> nth q (lit_nodes a s) cblank = if q <? length s then mkCN [mkCT (lit_class (nth q s 0%N)) (a + S q) 0] [] None else cblank.
Proof.
  induction s as [|c s IH]; intros a [|q] H; cbn [lit_nodes nth length] in *; try lia; try reflexivity.
  - rewrite Nat.add_1_r. reflexivity.
  - rewrite IH by lia. replace (S q <? S (length s)) with (q <? length s) by lia. destruct (q <? length s); [|reflexivity]. do 3 f_equal. lia.
Qed.
Lemma frag_trs r i q t : q < nsize (sym r i) -> In t (ctrs (nth q (frag (sym r i) (entry r i)) cblank)) -> cmove r i q t.
Proof.
  intros Hq H. destruct (sym r i) as [|s|[|c s]|A|] eqn:E; cbn [frag nsize length] in *.
  - destruct q; [destruct H|lia].
  - destruct q; [destruct H|lia].
  - lia.
  - rewrite lit_nodes_at in H by lia. destruct (q <? length s) eqn:El; [|destruct H]. destruct H as [<-|[]]. eapply cm_lit; [exact E|cbn; lia|reflexivity|reflexivity].
  - rewrite (nth_map_lt _ A [] cblank q Hq) in H. unfold import_state in H. cbn [ctrs] in H. apply in_map_iff in H as (x & <- & Hx). cbn [clab cdest].
    eapply cm_reg; [exact E|exact Hq|exists x; cbn [clab]; eauto|cbn [cdest]; lia].
  - destruct q; [|lia]. destruct H as [<-|[]]. apply cm_ws; auto.
Qed.
Lemma node_trs r i q up c t : known r -> i < length (net r) -> q < nsize (sym r i) -> node_at D ((r, entry r i + q) :: up) = Some c -> In t (ctrs c) -> cmove r i q t.
Proof.
  intros K Hi Hq H Ht. destruct (Nat.eq_dec (S q) (nsize (sym r i))) as [E|E].
  - destruct (node_exit nets D HN HD r i up K Hi) as (c' & C1 & _ & _ & C3). replace (exit_ r i) with (entry r i + q) in C1 by (unfold LookRead.exit_; lia). rewrite C1 in H. injection H as <-.
    rewrite C3 in Ht. apply in_app_or in Ht as [Ht|Ht].
    + apply frag_trs; [exact Hq|]. replace q with (nsize (sym r i) - 1) by lia. exact Ht.
    + apply in_map_iff in Ht as ([d g] & <- & Ht). eapply cm_link; eauto.
  - rewrite (node_inner nets D HN HD r i q up K Hi) in H by lia. injection H as <-. apply frag_trs; assumption.
Qed.
Lemma node_csub r i q up c : known r -> i < length (net r) -> q < nsize (sym r i) -> node_at D ((r, entry r i + q) :: up) = Some c -> csub c = match sym r i with NInv s => s | _ => [] end.
Proof.
  intros K Hi Hq H. destruct (Nat.eq_dec (S q) (nsize (sym r i))) as [E|E].
  - destruct (node_exit nets D HN HD r i up K Hi) as (c' & C1 & C2 & _). replace (exit_ r i) with (entry r i + q) in C1 by (unfold LookRead.exit_; lia). congruence.
  - rewrite (node_inner nets D HN HD r i q up K Hi) in H by lia. injection H as <-. apply frag_csub. exact Hq.
Qed.
(** A composite node without transitions is the end of its rule. *)
Lemma node_end r i q up c : known r -> i < length (net r) -> q < nsize (sym r i) -> node_at D ((r, entry r i + q) :: up) = Some c -> ctrs c = [] ->
  outs r i = [] /\ sym r i = NBlank /\ q = 0.
Proof.
  intros K Hi Hq H Ht. destruct (Nat.eq_dec (S q) (nsize (sym r i))) as [E|E].
  - destruct (node_exit nets D HN HD r i up K Hi) as (c' & C1 & _ & _ & C3). replace (exit_ r i) with (entry r i + q) in C1 by (unfold LookRead.exit_; lia). rewrite C1 in H. injection H as <-.
    rewrite Ht in C3. symmetry in C3. apply app_eq_nil in C3 as [_ C3]. apply map_eq_nil in C3. split; [exact C3|]. pose proof (end_blank r i K Hi C3) as B. split; [exact B|]. rewrite B in E. cbn in E. lia.
  - exfalso. rewrite (node_inner nets D HN HD r i q up K Hi) in H by lia. injection H as <-. destruct (sym r i) as [|s|[|x s]|A|] eqn:Es; cbn [nsize frag length] in *; try lia.
    + rewrite lit_nodes_at in Ht by lia. replace (q <? length s) with true in Ht by lia. discriminate.
    + rewrite (nth_map_lt _ A [] cblank q Hq) in Ht. unfold import_state in Ht. cbn [ctrs] in Ht. apply map_eq_nil in Ht.
      destruct (reg_live r i A K Hi Es) as (_ & _ & L). destruct (L q Hq) as [v P].
      inversion P as [|? ? ? ? (t & T1 & _)|? ? ? ? ? ? (t & T1 & _)]; subst; [lia|rewrite Ht in T1; destruct T1..].
Qed.
Lemma fpos_start r i : known r -> i < length (net r) -> ~ is_lit (net r) i -> fpos (sym r i) 0 [].
Proof.
  intros K Hi NL. destruct (sym r i) as [|s|s|A|] eqn:E; cbn; auto.
  - destruct NL. exists s. exact E.
  - split; [|constructor]. destruct (reg_live r i A K Hi E) as [Ne _]. destruct A; [congruence|cbn; lia].
  - split; [reflexivity|intros c []].
Qed.
(** Following a link of the network. *)
Lemma link_interp r i up d g w z :
  known r -> i < length (net r) -> Forall call_ok up -> In (d, g) (outs r i) ->
  forall lab, (lab = [] /\ w = [] \/ exists c, w = [c] /\ CharClass.includes lab c = true) -> lab = entry_lab (sym r d) -> z = (At ((r, entry r d) :: tr up)) ->
  interp z (Before ((r, d) :: up)) w.
Proof.
  intros K Hi Hup Hd lab Hl El ->. pose proof (out_lt r i d g K Hi Hd) as Ld. rewrite <- (Nat.add_0_r (entry r d)). apply I_at; try assumption.
  destruct (sym r d) as [|s|s|A|] eqn:E; cbn [entry_lab] in El; try (subst lab; destruct Hl as [[_ ->]|(c & _ & Hc)]; [|discriminate]; rewrite <- E; apply fpos_start; [assumption..|intros [s' E']; unfold LookRead.sym in E; congruence]).
  destruct s as [|x s]; [destruct (lit_len r d [] K Ld E eq_refl)|]. subst lab. destruct Hl as [[Hl _]|(c & -> & Hc)]; [destruct (lit_class_ne x Hl)|].
  apply lit_includes in Hc. subst c. cbn. split; [lia|reflexivity].
Qed.
Lemma sim_texts x w z : runs D x w z -> forall y u, interp x y u -> exists v y', texts nets y (u ++ w ++ v) y'.
Proof.
  induction 1 as [x|x w1 x1 w2 z M R IH]; intros y u HI.
  - cbn [app]. destruct HI as [r i q up u K Hi Hup F|r i q up u K Hi Hup F _|r i up s K Hi Hup F].
    1,2: (assert (X : (exists s, sym r i = NInv s /\ u = []) \/ exists v, spells (sym r i) (u ++ v));
      [destruct (sym r i) as [|s|s|A|] eqn:E; cbn [fpos] in F;
       [right; exists []; destruct F as [_ ->]; reflexivity
       |left; exists s; split; [reflexivity|apply F]
       |right; exists (lit_bytes (skipn (S q) s)); destruct F as [_ ->]; cbn [spells]; unfold lit_bytes; rewrite <- map_app, firstn_skipn; reflexivity
       |right; destruct F as [F1 F2]; destruct (reg_live r i A K Hi E) as (_ & _ & L); destruct (L q F1) as [v P]; exists v; cbn [spells]; unfold accepts; exact (path_app _ _ _ _ _ _ F2 P)
       |right; exists []; rewrite app_nil_r; apply F]|];
      destruct X as [(s & _ & ->)|[v X]]; [exists [], (Before ((r, i) :: up)); constructor|];
      exists v, (After ((r, i) :: up)); rewrite <- (app_nil_r (u ++ v)); eapply tx_step; [eapply tm_text; [apply nodeOf; assumption|exact X]|constructor]).
    exists [], (After ((r, i) :: up)). constructor.
  - destruct HI as [r i q up u K Hi Hup F|r i q up u K Hi Hup F NI|r i up s K Hi Hup F].
    + pose proof (fpos_lt _ _ _ F) as Hq. inversion M as [p n E1 E2|p n E1 E2| | | |]; subst; pose proof (node_csub _ _ _ _ _ K Hi Hq E1) as Ec; rewrite ?E2 in Ec.
      * cbn [app]. apply IH. apply I_past; try assumption. intros s Es. rewrite Es in Ec. pose proof (known_ne s (inv_known r i s K Hi Es)). congruence.
      * destruct (sym r i) as [|s|s|A|] eqn:Es; rewrite Ec in *; try congruence.
        destruct F as [-> ->]. pose proof (inv_known r i s K Hi Es) as Ks. destruct (entry0 nets D HN HD s Ks) as [S0 S1]. destruct (known_net nets HN s Ks) as [g Hg].
        assert (I0 : interp (At ((s, 0) :: (r, entry r i + 0) :: tr up)) (Before ((s, 0) :: (r, i) :: up)) []).
        { replace ((s, 0) :: (r, entry r i + 0) :: tr up) with ((s, entry s 0 + 0) :: tr ((r, i) :: up)).
          - apply I_at; [exact Ks|exact S1|constructor; [split; [exact K|split; [exact Hi|eauto]]|exact Hup]|]. apply fpos_start; [exact Ks|exact S1|apply (lk_ready _ HN _ _ _ Hg)].
          - cbn [tr map fst snd]. rewrite S0. unfold LookRead.exit_. rewrite Es. cbn [nsize]. do 2 f_equal. f_equal. lia. }
        destruct (IH _ _ I0) as (v & y' & T). exists v, y'. cbn [app] in *. eapply texts_eps; [|exact T]. eapply tm_enter; [apply nodeOf; assumption|exact Es].
    + pose proof (fpos_lt _ _ _ F) as Hq. inversion M as [| |id i0 up0 n t E1 E2 E3|id i0 up0 n t c E1 E2 E3|x0 y0 up0 n E1 E2 HX|id i0 n s0 E1 E2 E3 HX]; subst.
      * (* epsilon *)
        destruct (node_trs r i q _ _ t K Hi Hq E1 E2) as [T1 T2 T3 T4|s T1 T2 T3 T4|A d T1 T2 T3 T4|d g T1 T2 T3 T4].
        -- rewrite E3 in T3. discriminate.
        -- rewrite E3 in T3. destruct (lit_class_ne _ (eq_sym T3)).
        -- rewrite T4 in IH. apply (IH (Before ((r, i) :: up)) u). apply I_at; try assumption. rewrite T1 in *. destruct F as [F1 F2]. destruct (reg_live r i A K Hi T1) as (_ & L & _). split; [eapply L; exact T3|].
           rewrite E3 in T3. exact (proj1 (path_snoc _ _ _ _ _ _ 0%N F2 T3) eq_refl).
        -- rewrite T4 in IH. rewrite E3 in T3. destruct (IH (Before ((r, d) :: up)) []) as (v & y' & T).
           { eapply link_interp; [exact K|exact Hi|exact Hup|exact T2| |exact T3|reflexivity]. left. auto. }
           exists v, y'. eapply tx_step; [eapply tm_text; [apply nodeOf; assumption|eapply fpos_full; eauto]|]. eapply texts_eps; [eapply tm_next; [apply nodeOf; assumption|exact T2]|]. exact T.
      * (* a character *)
        destruct (node_trs r i q _ _ t K Hi Hq E1 E2) as [T1 T2 T3 T4|s T1 T2 T3 T4|A d T1 T2 T3 T4|d g T1 T2 T3 T4].
        -- rewrite T4 in IH. destruct (IH (Before ((r, i) :: up)) (u ++ [c])) as (v & y' & T).
           { rewrite <- (Nat.add_0_r (entry r i)). apply I_at; try assumption. rewrite T1 in *. destruct F as [F1 F2]. split; [reflexivity|]. intros x Hx. apply in_app_or in Hx as [Hx|[<-|[]]]; [auto|]. apply ws_includes. rewrite <- T3. exact E3. }
           exists v, y'. rewrite <- app_assoc in T. exact T.
        -- rewrite T4 in IH. destruct (IH (Before ((r, i) :: up)) (u ++ [c])) as (v & y' & T).
           { apply I_at; try assumption. rewrite T1 in *. destruct F as [F1 F2]. split; [exact T2|]. rewrite T3 in E3. apply lit_includes in E3. rewrite (firstn_snoc s (S q) 0%N T2). unfold lit_bytes in *. rewrite map_app, <- F2, E3. reflexivity. }
           exists v, y'. rewrite <- app_assoc in T. exact T.
        -- rewrite T4 in IH. destruct (IH (Before ((r, i) :: up)) (u ++ [c])) as (v & y' & T).
           { apply I_at; try assumption. rewrite T1 in *. destruct F as [F1 F2]. destruct (reg_live r i A K Hi T1) as (_ & L & _). split; [eapply L; exact T3|]. exact (proj2 (path_snoc _ _ _ _ _ _ c F2 T3) E3). }
           exists v, y'. rewrite <- app_assoc in T. exact T.
        -- rewrite T4 in IH. destruct (IH (Before ((r, d) :: up)) [c]) as (v & y' & T).
           { eapply link_interp; [exact K|exact Hi|exact Hup|exact T2| |exact T3|reflexivity]. right. eauto. }
           exists v, y'. eapply tx_step; [eapply tm_text; [apply nodeOf; assumption|eapply fpos_full; eauto]|]. eapply texts_eps; [eapply tm_next; [apply nodeOf; assumption|exact T2]|]. exact T.
      * (* return *)
        match goal with H : _ :: _ = tr up |- _ => rename H into HX end. destruct up as [|[r' i'] up]; [discriminate|]. cbn [tr map fst snd] in HX. injection HX as -> ->. inversion Hup as [|? ? (K' & Hi' & s' & Es') Hup']; subst. cbn [fst snd] in *.
        destruct (node_end r i q _ _ K Hi Hq E1 E2) as (N1 & N2 & ->). destruct (IH (After ((r', i') :: up)) []) as (v & y' & T); [eapply I_after; eassumption|].
        exists v, y'. rewrite N2 in F. destruct F as [_ ->]. cbn [app]. eapply texts_eps; [eapply tm_text; [apply nodeOf; assumption|]|].
        { fold (sym r i). rewrite N2. reflexivity. }
        eapply texts_eps; [eapply tm_leave; [apply nodeOf; assumption|exact N1]|exact T].
      * (* out *)
        match goal with H : [] = tr up |- _ => rename H into HX end. destruct up as [|]; [|discriminate]. destruct (node_end r i q _ _ K Hi Hq E1 E2) as (N1 & N2 & ->). destruct s0 as [s0 p0]. apply (sites_iff nets D HN HD) in E3 as (Ks & c & C1 & C2).
        destruct (node_cases nets D HN HD _ _ _ _ Ks C1) as (j & q' & Hj & Ep & Hq' & Hc).
        assert (Ec : csub c = match sym s0 j with NInv s => s | _ => [] end) by (destruct Hc as [(_ & _ & H & _)|[_ ->]]; [exact H|apply frag_csub; exact Hq']).
        destruct (sym s0 j) as [|s1|s1|A|] eqn:Ej; rewrite C2 in Ec; try (destruct (known_ne r K Ec)). subst s1.
        destruct Hc as [(_ & Ep' & _)|[X _]]; [|cbn in X; lia].
        destruct (IH (After [(s0, j)]) []) as (v & y' & T); [rewrite Ep'; apply (I_after s0 j [] r); auto|].
        exists v, y'. rewrite N2 in F. destruct F as [_ ->]. cbn [app]. eapply texts_eps; [eapply tm_text; [apply nodeOf; assumption|]|].
        { fold (sym r i). rewrite N2. reflexivity. }
        eapply texts_eps; [|exact T]. eapply tm_out; [apply nodeOf; assumption|exact N1|apply nodeOf; assumption|exact Ej].
    + assert (Hn : nsize (sym r i) = 1) by (rewrite F; reflexivity). assert (Ex : exit_ r i = entry r i + 0) by (unfold LookRead.exit_; lia). rewrite Ex in M.
      inversion M as [| |id i0 up0 n t E1 E2 E3|id i0 up0 n t c E1 E2 E3|x0 y0 up0 n E1 E2 HX|id i0 n s0 E1 E2 E3 HX]; subst.
      * destruct (node_trs r i 0 _ _ t K Hi ltac:(lia) E1 E2) as [T1 T2 T3 T4|s1 T1 T2 T3 T4|A d T1 T2 T3 T4|d g T1 T2 T3 T4]; [congruence..|].
        rewrite T4 in IH. rewrite E3 in T3. destruct (IH (Before ((r, d) :: up)) []) as (v & y' & T).
        { eapply link_interp; [exact K|exact Hi|exact Hup|exact T2| |exact T3|reflexivity]. left. auto. }
        exists v, y'. cbn [app]. eapply texts_eps; [eapply tm_next; [apply nodeOf; assumption|exact T2]|]. exact T.
      * destruct (node_trs r i 0 _ _ t K Hi ltac:(lia) E1 E2) as [T1 T2 T3 T4|s1 T1 T2 T3 T4|A d T1 T2 T3 T4|d g T1 T2 T3 T4]; [congruence..|].
        rewrite T4 in IH. destruct (IH (Before ((r, d) :: up)) [c]) as (v & y' & T).
        { eapply link_interp; [exact K|exact Hi|exact Hup|exact T2| |exact T3|reflexivity]. right. eauto. }
        exists v, y'. cbn [app]. eapply texts_eps; [eapply tm_next; [apply nodeOf; assumption|exact T2]|]. exact T.
      * destruct (node_end r i 0 _ _ K Hi ltac:(lia) E1 E2) as (_ & N2 & _). congruence.
      * destruct (node_end r i 0 _ _ K Hi ltac:(lia) E1 E2) as (_ & N2 & _). congruence.
Qed.

(** The other way: a text of the rules is read by the composite network. *)
Inductive img : spos -> pos -> Prop :=
| g_before r i up : known r -> i < length (net r) -> Forall call_ok up -> ~ is_lit (net r) i -> img (Before ((r, i) :: up)) (At ((r, entry r i) :: tr up))
| g_lit r i up j t : known r -> i < length (net r) -> Forall call_ok up -> is_lit (net r) i -> j < length (net r) -> In (i, t) (outs r j) ->
    img (Before ((r, i) :: up)) (Past ((r, exit_ r j) :: tr up))
| g_after r i up : known r -> i < length (net r) -> Forall call_ok up -> img (After ((r, i) :: up)) (Past ((r, exit_ r i) :: tr up)).
Lemma runs_app x v y : runs D x v y -> forall w z, runs D y w z -> runs D x (v ++ w) z.
Proof. induction 1 as [x|x a y b z M R IH]; intros w z' H; [exact H|]. rewrite <- app_assoc. eapply runs_step; eauto. Qed.
Lemma runs_eps x y w z : move D x [] y -> runs D y w z -> runs D x w z.
Proof. intros M R. exact (runs_step D x [] y w z M R). Qed.
Lemma runs_chr x c y w z : move D x [c] y -> runs D y w z -> runs D x (c :: w) z.
Proof. intros M R. exact (runs_step D x [c] y w z M R). Qed.
Lemma runs_one x w y : move D x w y -> runs D x w y.
Proof. intros M. rewrite <- (app_nil_r w). eapply runs_step; [exact M|constructor]. Qed.
(** The node for position q of node i, and its transitions. *)
Lemma node_some r i q up : known r -> i < length (net r) -> q < nsize (sym r i) -> exists c, node_at D ((r, entry r i + q) :: up) = Some c /\
  (forall t, In t (ctrs (nth q (frag (sym r i) (entry r i)) cblank)) -> In t (ctrs c)) /\
  (S q = nsize (sym r i) -> forall d g, In (d, g) (outs r i) -> In (mkCT (entry_lab (sym r d)) (entry r d) g) (ctrs c)).
Proof.
  intros K Hi Hq. destruct (Nat.eq_dec (S q) (nsize (sym r i))) as [E|E].
  - destruct (node_exit nets D HN HD r i up K Hi) as (c & C1 & _ & _ & C3). replace (exit_ r i) with (entry r i + q) in C1 by (unfold LookRead.exit_; lia). exists c. split; [exact C1|]. split.
    + intros t Ht. rewrite C3. apply in_or_app. left. replace (nsize (sym r i) - 1) with q by lia. exact Ht.
    + intros _ d g Hd. rewrite C3. apply in_or_app. right. apply in_map_iff. exists (d, g). auto.
  - eexists. split; [apply (node_inner nets D HN HD r i q up K Hi); lia|]. split; [auto|]. intros X. lia.
Qed.
Lemma here r i q up : known r -> i < length (net r) -> q < nsize (sym r i) -> (forall s, sym r i <> NInv s) -> move D (At ((r, entry r i + q) :: up)) [] (Past ((r, entry r i + q) :: up)).
Proof.
  intros K Hi Hq NI. destruct (node_some r i q up K Hi Hq) as (c & C1 & _). eapply mv_here; [exact C1|]. rewrite (node_csub r i q up c K Hi Hq C1). destruct (sym r i) as [|s|s|A|]; auto. destruct (NI s eq_refl).
Qed.
Lemma exit_q r i : known r -> i < length (net r) -> exit_ r i = entry r i + (nsize (sym r i) - 1).
Proof. intros K Hi. pose proof (size_pos nets HN r i K Hi). unfold LookRead.exit_. lia. Qed.
Lemma inner_char r i q up t c : known r -> i < length (net r) -> q < nsize (sym r i) -> In t (ctrs (nth q (frag (sym r i) (entry r i)) cblank)) -> CharClass.includes (clab t) c = true ->
  move D (Past ((r, entry r i + q) :: up)) [c] (At ((r, cdest t) :: up)).
Proof. intros K Hi Hq Ht Hc. destruct (node_some r i q up K Hi Hq) as (n & C1 & C2 & _). eapply mv_char; [exact C1|apply C2, Ht|exact Hc]. Qed.
Lemma inner_eps r i q up t : known r -> i < length (net r) -> q < nsize (sym r i) -> In t (ctrs (nth q (frag (sym r i) (entry r i)) cblank)) -> clab t = [] ->
  move D (Past ((r, entry r i + q) :: up)) [] (At ((r, cdest t) :: up)).
Proof. intros K Hi Hq Ht Hc. destruct (node_some r i q up K Hi Hq) as (n & C1 & C2 & _). eapply mv_eps; [exact C1|apply C2, Ht|exact Hc]. Qed.
Lemma lit_own r i s c : known r -> i < length (net r) -> sym r i = NLit s -> In c s -> CharClass.includes (lit_class c) (narrow c) = true.
Proof. intros K Hi E Hc. apply lit_includes_own. destruct (known_net nets HN r K) as [g Hg]. exact (lk_chr _ HN _ _ _ _ _ _ Hg Hi E Hc). Qed.
Lemma lit_rest r i up s : known r -> i < length (net r) -> sym r i = NLit s -> forall v q, q < length s -> v = skipn (S q) s ->
  runs D (At ((r, entry r i + q) :: up)) (lit_bytes v) (Past ((r, exit_ r i) :: up)).
Proof.
  intros K Hi E. assert (NI : forall s, sym r i <> NInv s) by (intros s'; rewrite E; discriminate). assert (Hn : nsize (sym r i) = length s) by (rewrite E; reflexivity).
  assert (Hs : exists x s', s = x :: s') by (destruct s; [destruct (lit_len r i [] K Hi E eq_refl)|eauto]). destruct Hs as (x & s' & Es).
  induction v as [|c v IH]; intros q Hq Ev.
  - assert (S q = length s) by (assert (length (skipn (S q) s) = 0) by (rewrite <- Ev; reflexivity); rewrite skipn_length in *; lia).
    rewrite (exit_q r i K Hi). replace (nsize (sym r i) - 1) with q by lia. apply runs_one. apply here; try assumption. lia.
  - assert (Hq' : S q < length s) by (destruct (Nat.lt_ge_cases (S q) (length s)) as [L|L]; [exact L|rewrite skipn_all2 in Ev by exact L; discriminate]).
    assert (Ec : nth (S q) s 0%N = c) by (rewrite <- (Nat.add_0_r (S q)), <- nth_skipn, <- Ev; reflexivity).
    eapply runs_eps; [apply here; try assumption; lia|]. cbn [lit_bytes map]. eapply runs_chr.
    + eapply (inner_char r i q up (mkCT (lit_class c) (entry r i + S q) 0)); try assumption; [lia| |].
      * rewrite E, Es. cbn [frag]. rewrite lit_nodes_at by (rewrite Es in Hq'; cbn in Hq'; lia). rewrite Es in Hq', Ec. cbn [length nth] in Hq', Ec. replace (q <? length s') with true by lia. rewrite Ec. left. reflexivity.
      * cbn [clab]. apply (lit_own r i s c K Hi E). rewrite <- Ec. apply nth_In. exact Hq'.
    + cbn [cdest]. apply IH; [exact Hq'|]. rewrite <- (skipn_skipn' s (S q)), <- Ev. reflexivity.
Qed.
Lemma ws_runs r i up : known r -> i < length (net r) -> sym r i = NWs -> forall v, spaces v -> runs D (At ((r, entry r i + 0) :: up)) v (Past ((r, entry r i + 0) :: up)).
Proof.
  intros K Hi E. assert (NI : forall s, sym r i <> NInv s) by (intros s'; rewrite E; discriminate).
  induction v as [|c v IH]; intros Hv; [apply runs_one, here; try assumption; rewrite E; cbn; lia|].
  eapply runs_eps; [apply here; try assumption; rewrite E; cbn; lia|]. eapply runs_chr.
  - eapply (inner_char r i 0 up (mkCT ws_class (entry r i) 0)); try assumption; [rewrite E; cbn; lia|rewrite E; left; reflexivity|]. cbn [clab]. apply ws_includes. apply Hv. left. reflexivity.
  - cbn [cdest]. rewrite <- (Nat.add_0_r (entry r i)) at 1. apply IH. intros x Hx. apply Hv. right. exact Hx.
Qed.
Lemma reg_runs r i up A : known r -> i < length (net r) -> sym r i = NReg A -> forall q v q', NFASem.path (edge A) q v q' -> q < length A ->
  runs D (At ((r, entry r i + q) :: up)) v (At ((r, entry r i + q') :: up)).
Proof.
  intros K Hi E. assert (NI : forall s, sym r i <> NInv s) by (intros s'; rewrite E; discriminate). destruct (reg_live r i A K Hi E) as (_ & L & _).
  assert (T : forall q lab d, q < length A -> edge A q lab d -> In (mkCT lab (entry r i + d) 0) (ctrs (nth q (frag (sym r i) (entry r i)) cblank))).
  { intros q lab d Hq (t & T1 & <- & <-). rewrite E. cbn [frag]. rewrite (nth_map_lt _ A [] cblank q Hq). unfold import_state. cbn [ctrs]. apply in_map_iff. exists t. split; [|exact T1]. f_equal. lia. }
  induction 1 as [q|q p w q' H1 H2 IH|q l ch p w q' H1 H2 H3 IH]; intros Hq; [constructor| |]; (eapply runs_eps; [apply here; try assumption; rewrite E; exact Hq|]).
  - eapply runs_eps; [|apply IH; eapply L; exact H1]. apply (inner_eps r i q up (mkCT [] (entry r i + p) 0)); try assumption; [rewrite E; exact Hq|apply T; assumption|reflexivity].
  - eapply runs_chr; [|apply IH; eapply L; exact H1]. apply (inner_char r i q up (mkCT l (entry r i + p) 0)); try assumption; [rewrite E; exact Hq|apply T; assumption].
Qed.
Lemma exit_end r i up : known r -> i < length (net r) -> outs r i = [] -> exists c, node_at D ((r, exit_ r i) :: up) = Some c /\ ctrs c = [].
Proof.
  intros K Hi H. destruct (node_exit nets D HN HD r i up K Hi) as (c & C1 & _ & _ & C3). exists c. split; [exact C1|]. rewrite C3, H, (end_blank r i K Hi H). reflexivity.
Qed.
Lemma sim_move y v y' : tmove nets y v y' -> forall x, img y x -> exists x', runs D x v x' /\ img y' x'.
Proof.
  intros M. destruct M as [p n v E1 E2|p n s E1 E2|r i up n d t E1 E2|x y up n E1 E2|r i n s j n' E1 E2 E3 E4]; intros x0 HI.
  - inversion HI as [r i up K Hi Hup NL|r i up j t K Hi Hup HL Hj Ht|]; subst; apply (node_of_iff nets) in E1 as (_ & _ & ->); fold (sym r i) in E2; (eexists; split; [|apply g_after; assumption]).
    + destruct (sym r i) as [|s|s|A|] eqn:Es; cbn [spells] in E2.
      * subst v. apply runs_one. rewrite (exit_q r i K Hi), Es. cbn [nsize]. rewrite <- (Nat.add_0_r (entry r i)) at 1. apply here; try assumption; rewrite Es; [cbn; lia|discriminate].
      * destruct E2.
      * destruct NL. exists s. exact Es.
      * destruct (reg_live r i A K Hi Es) as (NE & _ & _). assert (0 < length A) by (destruct A; [congruence|cbn; lia]).
        rewrite <- (app_nil_r v), <- (Nat.add_0_r (entry r i)). eapply runs_app; [eapply reg_runs; [exact K|exact Hi|exact Es|exact E2|exact H]|].
        rewrite (exit_q r i K Hi), Es. cbn [nsize]. apply runs_one, here; try assumption; rewrite Es; [cbn [nsize]; lia|discriminate].
      * rewrite (exit_q r i K Hi), Es. cbn [nsize]. rewrite <- (Nat.add_0_r (entry r i)) at 1. apply ws_runs; assumption.
    + destruct HL as [s Es]. fold (sym r i) in Es. rewrite Es in E2. cbn [spells] in E2. subst v. destruct s as [|c s]; [destruct (lit_len r i [] K Hi Es eq_refl)|]. cbn [lit_bytes map]. fold (lit_bytes s).
      eapply (runs_chr _ _ (At ((r, entry r i + 0) :: tr up))); [|eapply (lit_rest r i _ (c :: s)); [exact K|exact Hi|exact Es|cbn; lia|reflexivity]].
      pose proof (size_pos nets HN r j K Hj) as Pj. destruct (node_some r j (nsize (sym r j) - 1) (tr up) K Hj ltac:(lia)) as (n & C1 & _ & C2). rewrite <- (exit_q r j K Hj) in C1.
      specialize (C2 ltac:(lia) i t Ht). rewrite Es in C2. cbn [entry_lab] in C2. rewrite Nat.add_0_r. exact (mv_char D r _ _ n _ (narrow c) C1 C2 (lit_own r i _ c K Hi Es (or_introl eq_refl))).
  - inversion HI as [r i up K Hi Hup NL|r i up j t K Hi Hup HL Hj Ht|]; subst; apply (node_of_iff nets) in E1 as (_ & _ & ->); fold (sym r i) in E2.
    2:{ destruct HL as [s' Es]. fold (sym r i) in Es. congruence. }
    pose proof (inv_known r i s K Hi E2) as Ks. destruct (entry0 nets D HN HD s Ks) as [S0 S1]. destruct (known_net nets HN s Ks) as [g Hg].
    exists (At ((s, entry s 0) :: tr ((r, i) :: up))). split; [|apply g_before; [exact Ks|exact S1|constructor; [split; [exact K|split; [exact Hi|eauto]]|exact Hup]|apply (lk_ready _ HN _ _ _ Hg)]].
    apply runs_one. cbn [tr map fst snd]. rewrite (exit_q r i K Hi), E2. cbn [nsize]. replace (entry r i + (1 - 1)) with (entry r i + 0) by lia. rewrite S0.
    destruct (node_some r i 0 (tr up) K Hi) as (n & C1 & _); [rewrite E2; cbn; lia|]. pose proof (node_csub r i 0 (tr up) n K Hi ltac:(rewrite E2; cbn; lia) C1) as Ec. rewrite E2 in Ec.
    rewrite <- (Nat.add_0_r (entry r i)) at 1. rewrite <- Ec. apply mv_call; [exact C1|]. rewrite Ec. apply known_ne, Ks.
  - inversion HI as [| |r' i' up' K Hi Hup]; subst. apply (node_of_iff nets) in E1 as (_ & _ & ->). fold (outs r i) in E2. pose proof (out_lt r i d t K Hi E2) as Ld.
    destruct (known_net nets HN r K) as [g Hg].
    assert (DL : is_lit (net r) d \/ ~ is_lit (net r) d) by (unfold is_lit; destruct (nt (nth d (net r) blank)) eqn:X; try (right; intros [? ?]; congruence); left; eauto).
    destruct DL as [DL|DL].
    + eexists. split; [constructor|]. eapply g_lit; eassumption.
    + eexists. split; [|apply g_before; assumption]. apply runs_one.
      pose proof (size_pos nets HN r i K Hi) as Pj. destruct (node_some r i (nsize (sym r i) - 1) (tr up) K Hi ltac:(lia)) as (n & C1 & _ & C2). rewrite <- (exit_q r i K Hi) in C1.
      specialize (C2 ltac:(lia) d t E2). exact (mv_eps D r _ _ n _ C1 C2 ltac:(cbn [clab]; unfold entry_lab; destruct (sym r d) as [|s|s|A|] eqn:X; try reflexivity; destruct DL; exists s; exact X)).
  - inversion HI as [| |r' i' up' K Hi Hup]; subst. apply (node_of_iff nets) in E1 as (_ & _ & ->). fold (outs r' i') in E2. destruct y as [r2 i2]. inversion Hup as [|? ? (K' & Hi' & s' & Es') Hup']; subst. cbn [fst snd] in *.
    eexists. split; [|apply g_after; assumption]. apply runs_one. destruct (exit_end r' i' (tr ((r2, i2) :: up)) K Hi E2) as (c & C1 & C2). eapply mv_ret; eassumption.
  - inversion HI as [| |r' i' up' K Hi Hup]; subst. apply (node_of_iff nets) in E1 as (_ & _ & ->). fold (outs r i) in E2. apply (node_of_iff nets) in E3 as (Ks & Hj & ->). fold (sym s j) in E4.
    eexists. split; [|apply (g_after s j []); [assumption..|constructor]]. apply runs_one. destruct (exit_end r i [] K Hi E2) as (c & C1 & C2). eapply mv_out; [exact C1|exact C2|].
    apply (sites_iff nets D HN HD). split; [exact Ks|]. destruct (node_exit nets D HN HD s j [] Ks Hj) as (c' & C3 & C4 & _). exists c'. split; [exact C3|]. rewrite C4, E4. reflexivity.
Qed.
Lemma sim_runs y v y' : texts nets y v y' -> forall x, img y x -> exists x', runs D x v x' /\ img y' x'.
Proof.
  induction 1 as [y|y a y1 b y2 M T IH]; intros x HI; [exists x; split; [constructor|exact HI]|]. destruct (sim_move _ _ _ M _ HI) as (x1 & R1 & HI1). destruct (IH _ HI1) as (x2 & R2 & HI2). exists x2. split; [eapply runs_app; eassumption|exact HI2].
Qed.
(** What can be read at a node that is no literal. *)
Theorem reads_iff r i w : known r -> i < length (net r) -> ~ is_lit (net r) i -> (can_read D (At [(r, entry r i)]) w <-> can_begin nets (Before [(r, i)]) w).
Proof.
  intros K Hi NL. split.
  - intros [y R]. destruct (sim_texts _ _ _ R (Before [(r, i)]) []) as (v & y' & T).
    { rewrite <- (Nat.add_0_r (entry r i)). apply (I_at r i 0 []); try assumption; [constructor|]. apply fpos_start; assumption. }
    exists v, y'. exact T.
  - intros (v & y' & T). destruct (sim_runs _ _ _ T _ (g_before r i [] K Hi (Forall_nil _) NL)) as (x' & R & _). eapply LookAuto.can_read_prefix. exists x'. exact R.
Qed.
End Sim.
