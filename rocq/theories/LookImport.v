(** Importing a transition network into the composite network. *)
From Coq Require Import List NArith ZArith Arith Bool Lia ZifyBool ZifyN ZifyNat.
From Verif Require Import CharClass Stream NFA NFAProofs DFA DFAMin ATN Grammar CodeGen Lookahead.
Import ListNotations.
Local Open Scope nat_scope.

(** The label on the way to a node, the number of composite nodes it becomes, and these nodes without
    the transitions of the network. *)
Definition lit_class (c : N) : cclass := cc_range (narrow c) (narrow c + 1).
Definition entry_lab (n : nty) : cclass := match n with NLit (c :: _) => lit_class c | _ => [] end.
Definition nsize (n : nty) : nat := match n with NLit s => length s | NReg A => length A | _ => 1 end.
Fixpoint lit_nodes (a : nat) (s : list N) : list cnode :=
  match s with [] => [cblank] | c :: s' => mkCN [mkCT (lit_class c) (S a) 0] [] None :: lit_nodes (S a) s' end.
Definition frag (n : nty) (a : nat) : list cnode :=
  match n with
  | NBlank => [cblank]
  | NInv id => [mkCN [] id None]
  | NWs => [mkCN [mkCT ws_class a 0] [] None]
  | NLit [] => []
  | NLit (_ :: s) => lit_nodes a s
  | NReg A => map (import_state a) A
  end.
Lemma lit_nodes_length s : forall a, length (lit_nodes a s) = S (length s).
Proof. induction s as [|c s IH]; intros a; cbn; [reflexivity|]. rewrite IH. reflexivity. Qed.
Lemma frag_length n a : length (frag n a) = nsize n.
Proof. destruct n as [|id|[|c s]|A|]; cbn [frag nsize]; try reflexivity; [apply lit_nodes_length|apply map_length]. Qed.
Lemma c_link_length Q cc o tag : length (c_link Q cc o tag) = length Q.
Proof. destruct o; cbn; [apply upd_length|reflexivity]. Qed.
Lemma upd_app_r {A} (f : A -> A) l1 : forall l2 k, upd_nth (l1 ++ l2) (length l1 + k) f = l1 ++ upd_nth l2 k f.
Proof. induction l1 as [|x l1 IH]; intros l2 k; cbn; [reflexivity|]. rewrite IH. reflexivity. Qed.
Lemma import_lit_chain s : forall (Q0 : cmach),
  import_lit (Q0 ++ [cblank]) s (Some (length Q0)) 0 = (Q0 ++ lit_nodes (length Q0) s, Some (length Q0 + length s)).
Proof.
  induction s as [|c s IH]; intros Q0; cbn [import_lit lit_nodes length]; [f_equal; f_equal; lia|].
  fold (lit_class c). set (Q1 := Q0 ++ [mkCN [mkCT (lit_class c) (S (length Q0)) 0] [] None]).
  assert (E : c_add (Q0 ++ [cblank]) (lit_class c) (Some (length Q0)) 0 cblank = Q1 ++ [cblank]).
  { unfold c_add, c_link, Q1. f_equal. pose proof (upd_app_r (add_ctr (lit_class c) (length (Q0 ++ [cblank])) 0) Q0 [cblank] 0) as E. rewrite Nat.add_0_r in E. rewrite E. cbn [upd_nth].
    rewrite app_length. cbn [length]. rewrite Nat.add_1_r. reflexivity. }
  assert (L1 : length (Q0 ++ [cblank]) = length Q1) by (unfold Q1; rewrite !app_length; reflexivity).
  rewrite E, L1, IH. assert (L2 : length Q1 = S (length Q0)) by (unfold Q1; rewrite app_length; cbn; lia). rewrite L2. unfold Q1. rewrite <- app_assoc. cbn [app].
  f_equal. f_equal. lia.
Qed.
Lemma import_sym_spec Q n o tag : 0 < nsize n ->
  import_sym Q n o tag = (c_link Q (entry_lab n) o tag ++ frag n (length Q), Some (length Q + nsize n - 1)).
Proof.
  intros Hn. destruct n as [|id|[|c s]|A|]; cbn [import_sym entry_lab frag nsize] in *; unfold c_add, import_reg.
  - f_equal. f_equal. lia.
  - f_equal. f_equal. lia.
  - cbn in Hn. lia.
  - cbn [import_lit]. unfold c_add.
    pose proof (import_lit_chain s (c_link Q (lit_class c) o tag)) as E. rewrite c_link_length in E. fold (lit_class c). rewrite E. f_equal. f_equal. cbn [length]. lia.
  - reflexivity.
  - f_equal. f_equal. lia.
Qed.

Section Import.
Variable M : atn.
Notation node i := (nth i M blank).
Definition is_lit (i : nat) : Prop := exists s, nt (node i) = NLit s.
(** What the import relies on: every symbol has at least one composite node, edges lead to nodes, and
    a literal is entered only from the node before it, which leads nowhere else. *)
Record ready : Prop := {
  r_size : forall i, i < length M -> 0 < nsize (nt (node i));
  r_dest : forall i d t, In (d, t) (atrs (node i)) -> d < length M;
  r_lit : forall i d t, In (d, t) (atrs (node i)) -> is_lit d -> d = S i /\ atrs (node i) = [(d, t)];
  r_start : ~ is_lit 0 }.
Hypothesis HM : ready.

Notation imap := (list (option nat)).
Definition ent (m : imap) (d : nat) : nat := match nth d m None with Some a => a | None => 0 end.
Definition mapped (m : imap) (d : nat) : Prop := nth d m None <> None.
Definition links (m : imap) (ts : list (nat * nat)) : list ctr := map (fun t => mkCT (entry_lab (nt (node (fst t)))) (ent m (fst t)) (snd t)) ts.
Definition finish (m : imap) (i : nat) (ts : list (nat * nat)) (x : cnode) : cnode := mkCN (ctrs x ++ links m ts) (csub x) (Some i).
(** The nodes of node i, placed at a, with the transitions ts. *)
Definition placed (Q : cmach) (m : imap) (i : nat) (ts : list (nat * nat)) (a : nat) : Prop :=
  let n := nt (node i) in a + nsize n <= length Q /\
  forall q, q < nsize n -> nth (a + q) Q cblank = (if S q =? nsize n then finish m i ts (nth q (frag n a) cblank) else nth q (frag n a) cblank).
Definition ext_map (m m' : imap) : Prop := forall j a, nth j m None = Some a -> nth j m' None = Some a.
Lemma links_ext m m' ts : ext_map m m' -> (forall d t, In (d, t) ts -> mapped m d) -> links m' ts = links m ts.
Proof.
  intros HX Hd. apply map_ext_in. intros [d t] H. cbn [fst snd]. f_equal. unfold ent. specialize (Hd d t H). unfold mapped in Hd.
  destruct (nth d m None) as [a|] eqn:E; [|congruence]. rewrite (HX _ _ E). reflexivity.
Qed.
Lemma placed_ext Q m Q' m' i ts a : ext_map m m' -> (forall d t, In (d, t) ts -> mapped m d) -> length Q <= length Q' ->
  (forall p, a <= p < a + nsize (nt (node i)) -> nth p Q' cblank = nth p Q cblank) -> placed Q m i ts a -> placed Q' m' i ts a.
Proof.
  intros HX Hd HL HQ [H1 H2]. split; [cbn; lia|]. intros q Hq. rewrite HQ by lia. rewrite (H2 q Hq). unfold finish. rewrite (links_ext m m' ts HX Hd). reflexivity.
Qed.
Definition litinv (m : imap) : Prop := forall d, is_lit d -> mapped m d -> 0 < d /\ mapped m (d - 1).
(** Everything mapped in m' but not in m is complete, and covers the nodes from b on. *)
Definition complete (Q : cmach) (m : imap) (j : nat) : Prop :=
  j < length M /\ exists a, nth j m None = Some a /\ placed Q m j (atrs (node j)) a /\ forall d t, In (d, t) (atrs (node j)) -> mapped m d.
Definition covers_node (m : imap) (p j : nat) : Prop := exists a, nth j m None = Some a /\ a <= p < a + nsize (nt (node j)).

Definition import_go (F : nat -> option nat -> nat -> cmach * imap -> option (cmach * imap)) (o : option nat) :=
  fix go (ts : list (nat * nat)) (st : cmach * imap) : option (cmach * imap) :=
  match ts with
  | [] => Some st
  | (d, tg) :: ts' =>
    match nth d (snd st) None with
    | None => match F d o tg st with Some st' => go ts' st' | None => None end
    | Some j => go ts' (c_upd (fst st) o (add_ctr [] j tg), snd st)
    end
  end.
Lemma import_node_S f index origin tag Q map0 : import_node (S f) M index origin tag (Q, map0) =
  let '(Q1, o) := import_sym Q (nt (node index)) origin tag in
  import_go (import_node f M) o (atrs (node index)) (c_upd Q1 o (set_source index), upd_nth map0 index (fun _ => Some (length Q))).
Proof. reflexivity. Qed.

Definition pre (index : nat) (origin : option nat) (Q : cmach) (m : imap) : Prop :=
  index < length M /\ length m = length M /\ ~ mapped m index /\ (forall o, origin = Some o -> o < length Q) /\ litinv m /\ (is_lit index -> 0 < index /\ mapped m (index - 1)).
Definition post (index : nat) (origin : option nat) (tag : nat) (Q : cmach) (m : imap) (Q' : cmach) (m' : imap) : Prop :=
  length m' = length M /\ litinv m' /\ ext_map m m' /\ nth index m' None = Some (length Q) /\
  (exists New, Q' = c_link Q (entry_lab (nt (node index))) origin tag ++ New) /\
  (forall j a, ~ mapped m j -> nth j m' None = Some a -> length Q <= a /\ complete Q' m' j) /\
  (forall p, length Q <= p < length Q' -> exists j, ~ mapped m j /\ covers_node m' p j).

(** The state in the middle of the loop over the transitions of [index]. *)
Section Loop.
Variables (index : nat) (Q B : cmach) (m0 : imap).
Notation a := (length B).
Notation n := (nt (node index)).
Notation o := (a + nsize n - 1).
Notation m1 := (upd_nth m0 index (fun _ => Some a)).
Hypothesis Hi : index < length M.
Hypothesis Hm : length m0 = length M.
Hypothesis Hu : ~ mapped m0 index.
Hypothesis Hl : litinv m0.
Lemma m1_index : nth index m1 None = Some a.
Proof. rewrite nth_upd, Nat.eqb_refl. replace (index <? length m0) with true by lia. reflexivity. Qed.
Lemma m1_other j : j <> index -> nth j m1 None = nth j m0 None.
Proof. intros H. rewrite nth_upd. replace (j =? index) with false by lia. reflexivity. Qed.
Definition GI (done : list (nat * nat)) (st : cmach * imap) : Prop :=
  let '(Qc, mc) := st in
  length mc = length M /\ litinv mc /\ ext_map m1 mc /\ (done = [] -> mc = m1) /\
  (exists New, Qc = B ++ New) /\ placed Qc mc index done a /\ (forall d t, In (d, t) done -> mapped mc d) /\
  (forall j x, ~ mapped m1 j -> nth j mc None = Some x -> o < x /\ complete Qc mc j) /\
  (forall p, o < p < length Qc -> exists j, ~ mapped m1 j /\ covers_node mc p j).
Lemma ext_map_mapped m m' j : ext_map m m' -> mapped m j -> mapped m' j.
Proof. intros HX H. unfold mapped in *. destruct (nth j m None) as [x|] eqn:E; [rewrite (HX _ _ E); discriminate|congruence]. Qed.
Lemma complete_ext Qc mc Qc' mc' j x : ext_map mc mc' -> length Qc <= length Qc' -> nth j mc None = Some x -> (forall p, x <= p < length Qc -> nth p Qc' cblank = nth p Qc cblank) -> complete Qc mc j -> complete Qc' mc' j.
Proof.
  intros HX HL Hj HQ (J & y & H1 & H2 & H3). split; [exact J|]. exists y. rewrite H1 in Hj. injection Hj as ->. split; [apply HX, H1|].
  split; [|intros d t Hd; eapply ext_map_mapped; eauto]. eapply placed_ext; [exact HX|exact H3|exact HL| |exact H2]. destruct H2 as [H2 _]. intros p Hp. apply HQ. lia.
Qed.
Lemma step_inv done Qc mc d tg y New' Qc' mc' : 0 < nsize n ->
  GI done (Qc, mc) -> ext_map mc mc' -> nth d mc' None = Some y -> Qc' = upd_nth Qc o (add_ctr (entry_lab (nt (node d))) y tg) ++ New' -> length mc' = length M -> litinv mc' ->
  (forall j x, ~ mapped mc j -> nth j mc' None = Some x -> length Qc <= x /\ complete Qc' mc' j) ->
  (forall p, length Qc <= p < length Qc' -> exists j, ~ mapped mc j /\ covers_node mc' p j) -> GI (done ++ [(d, tg)]) (Qc', mc').
Proof.
  intros Hn (G1 & G2 & G3 & G4 & (New & GQ) & GP & GD & GC & GV) HX Hd EQ HL HI HC HV.
  assert (LQ : length Qc' = length Qc + length New') by (rewrite EQ, app_length, upd_length; reflexivity).
  assert (NP : forall p, p < length Qc -> nth p Qc' cblank = if p =? o then add_ctr (entry_lab (nt (node d))) y tg (nth p Qc cblank) else nth p Qc cblank).
  { intros p Hp. rewrite EQ, app_nth1 by (rewrite upd_length; exact Hp). rewrite nth_upd. destruct (p =? o) eqn:E; [|reflexivity]. replace (o <? length Qc) with true by lia. cbn [andb]. f_equal. f_equal. lia. }
  pose proof GP as [GP1 GP2]. cbn zeta in GP1, GP2.
  split; [exact HL|]. split; [exact HI|]. split; [intros j x Hj; apply HX, G3, Hj|]. split; [intros E; destruct done; discriminate|].
  split.
  { exists (upd_nth New (o - a) (add_ctr (entry_lab (nt (node d))) y tg) ++ New'). rewrite EQ, GQ, app_assoc. f_equal. rewrite <- upd_app_r. f_equal. lia. }
  split.
  { split; [cbn; lia|]. intros q Hq. rewrite NP by lia. rewrite (GP2 q Hq). destruct (S q =? nsize n) eqn:E.
    - replace (a + q =? o) with true by lia. unfold finish, add_ctr. cbn [ctrs csub csrc]. f_equal. rewrite (links_ext mc mc' done HX GD) || idtac.
      unfold links. rewrite map_app. cbn [map fst snd]. rewrite app_assoc. f_equal.
      + f_equal. symmetry. apply (links_ext mc mc' done HX GD).
      + unfold ent. rewrite Hd. reflexivity.
    - replace (a + q =? o) with false by lia. reflexivity. }
  split.
  { intros d' t' H. apply in_app_or in H as [H|[H|[]]]; [eapply ext_map_mapped; eauto|]. injection H as <- <-. unfold mapped. congruence. }
  split.
  { intros j x Nj Hj. destruct (nth j mc None) as [x'|] eqn:E.
    - pose proof (HX _ _ E) as E'. rewrite Hj in E'. injection E' as <-. destruct (GC j x Nj E) as [C1 C2]. split; [exact C1|].
      apply (complete_ext Qc mc Qc' mc' j x HX); [lia|exact E| |exact C2]. intros p Hp. rewrite NP by lia. replace (p =? o) with false by lia. reflexivity.
    - destruct (HC j x) as [C1 C2]; [unfold mapped; congruence|exact Hj|]. split; [lia|exact C2]. }
  intros p Hp. destruct (Nat.lt_ge_cases p (length Qc)) as [K|K].
  - destruct (GV p ltac:(lia)) as (j & Nj & x & J1 & J2). exists j. split; [exact Nj|]. exists x. split; [apply HX, J1|exact J2].
  - destruct (HV p ltac:(lia)) as (j & Nj & J). exists j. split; [|exact J]. intros K1. apply Nj. eapply ext_map_mapped; eauto.
Qed.
End Loop.

(** The fuel is enough: every call fills an entry. *)
Definition unmapped (m : imap) : nat := length (filter (fun x => match x with None => true | Some _ => false end) m).
Lemma unmapped_ext : forall m m' : imap, length m' = length m -> ext_map m m' -> unmapped m' <= unmapped m.
Proof.
  unfold unmapped. induction m as [|x m IH]; intros [|y m'] L HX; try discriminate; cbn; [lia|].
  specialize (IH m' ltac:(cbn in L; lia) (fun j a h => HX (S j) a h)). pose proof (HX 0) as H0. cbn in H0. destruct x as [x|]; [rewrite (H0 x eq_refl); exact IH|]. destruct y; cbn; lia.
Qed.
Lemma unmapped_upd : forall (m : imap) i a, i < length m -> nth i m None = None -> unmapped m = S (unmapped (upd_nth m i (fun _ => Some a))).
Proof.
  unfold unmapped. induction m as [|x m IH]; intros [|i] a L H; cbn in *; try lia; [subst; reflexivity|].
  specialize (IH i a ltac:(lia) H). destruct x; cbn; lia.
Qed.
Lemma import_node_spec : forall fuel index origin tag Q m0 Q' m', pre index origin Q m0 ->
  (import_node fuel M index origin tag (Q, m0) = Some (Q', m') -> post index origin tag Q m0 Q' m') /\
  (unmapped m0 <= fuel -> exists r, import_node fuel M index origin tag (Q, m0) = Some r).
Proof.
  induction fuel as [|f IH]; intros index origin tag Q m0 Q' m' (Hi & Hm & Hu & Ho & Hl & Hlit).
  { split; [discriminate|]. intros HF. rewrite (unmapped_upd m0 index 0) in HF; [lia|lia|]. unfold mapped in Hu. destruct (nth index m0 None); [destruct Hu; discriminate|reflexivity]. }
  pose proof (r_size HM index Hi) as Hn. rewrite import_node_S, (import_sym_spec Q _ origin tag Hn).
  set (B := c_link Q (entry_lab (nt (node index))) origin tag) in *.
  assert (LB : length B = length Q) by apply c_link_length.
  rewrite <- LB. set (o := length B + nsize (nt (node index)) - 1) in *. cbn [c_upd].
  set (Q1 := upd_nth (B ++ frag (nt (node index)) (length B)) o (set_source index)) in *.
  set (m1 := upd_nth m0 index (fun _ => Some (length B))) in *.
  assert (I1 : nth index m1 None = Some (length B)) by (apply m1_index; assumption).
  assert (IO : forall j, j <> index -> nth j m1 None = nth j m0 None) by (apply m1_other; assumption).
  assert (G0 : GI index B m0 [] (Q1, m1)).
  { split; [unfold m1; rewrite upd_length; exact Hm|]. split; [|split; [intros ? ? h; exact h|split; [reflexivity|split; [|split; [|split; [intros ? ? []|split]]]]]].
    - intros d Ld Md. unfold mapped in *. destruct (Nat.eq_dec d index) as [->|Nd].
      + destruct (Hlit Ld) as [L1 L2]. split; [exact L1|]. rewrite IO by lia. exact L2.
      + rewrite (IO d Nd) in Md. destruct (Hl d Ld Md) as [L1 L2]. split; [exact L1|]. destruct (Nat.eq_dec (d - 1) index) as [E|E]; [rewrite E, I1; discriminate|]. rewrite (IO _ E). exact L2.
    - exists (upd_nth (frag (nt (node index)) (length B)) (nsize (nt (node index)) - 1) (set_source index)). unfold Q1, o. rewrite <- upd_app_r. f_equal. lia.
    - split; [cbn; unfold Q1; rewrite upd_length, app_length, frag_length; lia|]. intros q Hq. unfold Q1. rewrite nth_upd, app_length, frag_length.
      rewrite app_nth2_plus. destruct (S q =? nsize (nt (node index))) eqn:E.
      + replace (length B + q =? o) with true by (unfold o; lia). replace (o <? _) with true by (unfold o; lia). cbn [andb].
        replace o with (length B + q) by (unfold o; lia). rewrite app_nth2_plus. unfold finish, set_source. cbn [links map]. rewrite app_nil_r. reflexivity.
      + replace (length B + q =? o) with false by (unfold o; lia). reflexivity.
    - intros j x Nj Hj. exfalso. apply Nj. unfold mapped. fold m1. congruence.
    - intros p Hp. exfalso. unfold Q1 in Hp. rewrite upd_length, app_length, frag_length in Hp. lia. }
  assert (STEP : forall ts done d tg Qc mc, done ++ (d, tg) :: ts = atrs (node index) -> GI index B m0 done (Qc, mc) ->
    match nth d mc None with
    | Some y => GI index B m0 (done ++ [(d, tg)]) (upd_nth Qc o (add_ctr [] y tg), mc)
    | None => pre d (Some o) Qc mc /\ forall st, import_node f M d (Some o) tg (Qc, mc) = Some st -> GI index B m0 (done ++ [(d, tg)]) st
    end).
  { intros ts done d tg Qc mc Ed G.
    assert (Hd : In (d, tg) (atrs (node index))) by (rewrite <- Ed; apply in_or_app; right; left; reflexivity).
    pose proof G as (G1 & G2 & G3 & G4 & (New & GQ) & GP & GD & GC & GV).
    assert (Lo : o < length Qc) by (destruct GP as [GP _]; cbn in GP; unfold o; lia).
    assert (LD : is_lit d -> d = S index /\ ~ mapped mc d).
    { intros Ld. destruct (r_lit HM _ _ _ Hd Ld) as [E1 E2]. split; [exact E1|]. rewrite E2 in Ed.
      assert (done = []) by (destruct done as [|x done]; [reflexivity|]; cbn in Ed; injection Ed as _ Ed; destruct done; discriminate).
      rewrite (G4 H). intros Md. unfold mapped in Md. fold m1 in Md. rewrite (IO d ltac:(lia)) in Md. destruct (Hl d Ld Md) as [_ K]. apply Hu. replace index with (d - 1) by lia. exact K. }
    destruct (nth d mc None) as [y|] eqn:Ey.
    - assert (EL : entry_lab (nt (node d)) = []).
      { destruct (nt (node d)) as [| |s| |] eqn:En; try reflexivity. exfalso. apply (proj2 (LD (ex_intro _ s En))). unfold mapped. congruence. }
      eapply step_inv with (Qc := Qc) (mc := mc) (y := y) (New' := []); try eassumption.
      + intros ? ? h; exact h.
      + rewrite EL, app_nil_r. reflexivity.
      + intros j x Nj Hj. exfalso. apply Nj. unfold mapped. congruence.
      + rewrite upd_length. lia.
    - assert (PD : pre d (Some o) Qc mc).
      { split; [exact (r_dest HM _ _ _ Hd)|]. split; [exact G1|]. split; [unfold mapped; congruence|]. split; [intros o' E; injection E as <-; exact Lo|]. split; [exact G2|].
        intros Ld. destruct (LD Ld) as [-> _]. split; [lia|]. replace (S index - 1) with index by lia. unfold mapped. rewrite (G3 _ _ I1). discriminate. }
      split; [exact PD|]. intros [Qc' mc'] En. destruct (proj1 (IH _ _ _ _ _ _ _ PD) En) as (P1 & P2 & P3 & P4 & (New' & P5) & P6 & P7).
      eapply step_inv with (Qc := Qc) (mc := mc) (y := length Qc) (New' := New'); eassumption. }
  assert (SNOC : forall (done : list (nat * nat)) x ts, done ++ x :: ts = (done ++ [x]) ++ ts) by (intros; rewrite <- app_assoc; reflexivity).
  assert (LOOP : forall ts done st, done ++ ts = atrs (node index) -> GI index B m0 done st -> import_go (import_node f M) (Some o) ts st = Some (Q', m') -> GI index B m0 (atrs (node index)) (Q', m')).
  { induction ts as [|[d tg] ts IHt]; intros done [Qc mc] Ed G H.
    - cbn in H. injection H as -> ->. rewrite app_nil_r in Ed. subst done. exact G.
    - specialize (STEP ts done d tg Qc mc Ed G). rewrite SNOC in Ed.
      cbn [import_go fst snd] in H. destruct (nth d mc None) as [y|] eqn:Ey; [exact (IHt _ _ Ed STEP H)|].
      destruct (import_node f M d (Some o) tg (Qc, mc)) as [st|] eqn:En; [|discriminate]. exact (IHt _ _ Ed (proj2 STEP _ eq_refl) H). }
  split.
  2:{ intros HF. assert (U1 : unmapped m1 <= f).
    { rewrite (unmapped_upd m0 index (length B)) in HF; [unfold m1; lia|lia|]. unfold mapped in Hu. destruct (nth index m0 None); [destruct Hu; discriminate|reflexivity]. }
    assert (G : forall ts done st, done ++ ts = atrs (node index) -> GI index B m0 done st -> exists r, import_go (import_node f M) (Some o) ts st = Some r).
    { clear LOOP. induction ts as [|[d tg] ts IHt]; intros done [Qc mc] Ed G; [eexists; reflexivity|].
      specialize (STEP ts done d tg Qc mc Ed G). rewrite SNOC in Ed. cbn [import_go fst snd]. destruct (nth d mc None) as [y|] eqn:Ey; [exact (IHt _ _ Ed STEP)|].
      destruct STEP as [PD STEP]. destruct G as (G1 & _ & G3 & _).
      destruct (proj2 (IH d (Some o) tg Qc mc [] [] PD)) as [st En].
      { eapply Nat.le_trans; [|exact U1]. apply unmapped_ext; [unfold m1; rewrite upd_length; lia|exact G3]. }
      rewrite En. exact (IHt _ _ Ed (STEP _ En)). }
    exact (G _ [] _ eq_refl G0). }
  intros H.
  specialize (LOOP (atrs (node index)) [] (Q1, m1) eq_refl G0 H). destruct LOOP as (G1 & G2 & G3 & _ & (New & GQ) & GP & GD & GC & GV).
  split; [exact G1|]. split; [exact G2|]. split.
  { intros j x Hj. apply G3. fold m1. destruct (Nat.eq_dec j index) as [->|Nj]; [exfalso; apply Hu; unfold mapped; congruence|]. rewrite (IO j Nj). exact Hj. }
  pose proof (G3 _ _ I1) as I2. split; [rewrite I2, LB; reflexivity|]. split; [exists New; exact GQ|]. split.
  - intros j x Nj Hj. destruct (Nat.eq_dec j index) as [->|Ne].
    + rewrite I2 in Hj. injection Hj as <-. split; [lia|]. split; [exact Hi|]. exists (length B). split; [exact I2|]. split; [exact GP|exact GD].
    + destruct (GC j x) as [C1 C2]; [unfold mapped; fold m1; rewrite (IO j Ne); exact Nj|exact Hj|]. split; [lia|exact C2].
  - intros p Hp. destruct (Nat.lt_ge_cases o p) as [K|K].
    + destruct (GV p ltac:(unfold o in K; lia)) as (j & Nj & J). exists j. split; [|exact J]. intros Mj. apply Nj. unfold mapped in *. fold m1.
      destruct (Nat.eq_dec j index) as [->|Ne]; [rewrite I1; discriminate|rewrite (IO j Ne); exact Mj].
    + exists index. split; [exact Hu|]. exists (length B). split; [exact I2|]. unfold o in K. lia.
Qed.

(** The whole machine. *)
Definition placement (Q : cmach) (m : imap) : Prop :=
  nth 0 m None = Some 0 /\
  (forall j, mapped m j -> complete Q m j) /\
  (forall p, p < length Q -> exists j, covers_node m p j).
Lemma start_pre : M <> [] -> pre 0 None [] (repeat None (length M)).
Proof.
  intros HN. assert (N0 : forall k j, nth j (repeat (@None nat) k) None = None) by (induction k as [|k IHk]; intros [|j]; cbn; auto).
  split; [destruct M; [congruence|cbn; lia]|]. split; [apply repeat_length|]. split; [unfold mapped; rewrite N0; auto|]. split; [discriminate|].
  split; [intros d _ Md; exfalso; apply Md, N0|]. intros L. destruct (r_start HM L).
Qed.
Definition imap_of : imap := match import_node (length M) M 0 None 0 ([], repeat None (length M)) with Some (_, m) => m | None => [] end.
Theorem import_atn_spec Q : M <> [] -> import_atn M = Some Q -> placement Q imap_of.
Proof.
  intros HN H. unfold imap_of. unfold import_atn in H. destruct (import_node _ _ _ _ _ _) as [[Q' m]|] eqn:E; [|discriminate]. injection H as <-.
  assert (N0 : forall k j, nth j (repeat (@None nat) k) None = None) by (induction k as [|k IHk]; intros [|j]; cbn; auto).
  apply (import_node_spec (length M) 0 None 0 [] _ Q' m) in E.
  - destruct E as (P1 & P2 & P3 & P4 & _ & P6 & P7). cbn [length] in P4, P6, P7. split; [exact P4|]. split.
    + intros j Mj. unfold mapped in Mj. destruct (nth j m None) as [a|] eqn:Ej; [|congruence]. apply (P6 j a); [unfold mapped; rewrite N0; auto|exact Ej].
    + intros p Hp. destruct (P7 p ltac:(lia)) as (j & _ & J). exists j. exact J.
  - apply start_pre, HN.
Qed.
Theorem import_atn_total : M <> [] -> exists Q, import_atn M = Some Q.
Proof.
  intros HN. assert (U : forall k, unmapped (repeat None k) <= k) by (unfold unmapped; induction k as [|k IHk]; cbn; lia).
  destruct (proj2 (import_node_spec (length M) 0 None 0 [] (repeat None (length M)) [] [] (start_pre HN)) (U _)) as [[Q m] E].
  exists Q. unfold import_atn. rewrite E. reflexivity.
Qed.
End Import.
