(** * Checking left recursion and empty repetition on concrete grammars
    A function and the proof that its yes is right.  Only used for examples; no code is modelled here. *)
From Coq Require Import List NArith Arith Bool Lia Relations.
From Verif Require Import RegexSpec GrammarSpec TreeSpec ParseSpec EmptySpec Grammar GrammarProofs.
Import ListNotations.
Local Open Scope nat_scope.

(** Patterns that match the empty text. *)
Definition qnull (q : quant) (b : bool) : bool := match q with QOne | QPlus _ => b | QStar _ | QOpt => true end.
Fixpoint unull (u : unit_) : bool := match u with UAtom _ => false | UGroup p => pnull p end
with senull (s : sel) : bool := match s with SOne u q => qnull q (unull u) | SAlt s u q => senull s || qnull q (unull u) end
with pnull (p : pat) : bool := match p with PNil => true | PSnoc p s => pnull p && senull s end.
Lemma qnull_spec q (L : list N -> Prop) b : (L [] -> b = true) -> quantL q L [] -> qnull q b = true.
Proof.
  intros H. destruct q; cbn; try reflexivity; [exact H|]. intros (u & v & E & K & _). symmetry in E. apply app_eq_nil in E as [-> _]. auto.
Qed.
Lemma pnull_spec : (forall u, unitL u [] -> unull u = true) /\ (forall s, selL s [] -> senull s = true) /\ (forall p, patL p [] -> pnull p = true).
Proof.
  apply regex_ind.
  - intros a (ch & E & _). discriminate.
  - intros p IH H. exact (IH H).
  - intros u IH q H. eapply qnull_spec; [exact IH|exact H].
  - intros s IHs u IHu q [H|H]; cbn [senull]; apply orb_true_iff; [left; auto|right]. eapply qnull_spec; [exact IHu|exact H].
  - reflexivity.
  - intros p IHp s IHs (u & v & E & H1 & H2). symmetry in E. apply app_eq_nil in E as [-> ->]. cbn [pnull]. apply andb_true_iff. auto.
Qed.
Definition memb (x : list N) (l : list (list N)) : bool := existsb (eqname x) l.
Lemma memb_in x l : memb x l = true <-> In x l.
Proof.
  unfold memb. rewrite existsb_exists. split; [intros (y & H & E); apply eqname_spec in E; subst; exact H|intros H; exists x; split; [exact H|apply eqname_spec; reflexivity]].
Qed.
Section Check.
Variable nulls : list (list N).     (* the rules that can be empty *)
Definition tnull (x : term) : bool := match x with TRule n => memb n nulls | TLit s => match s with [] => true | _ => false end | TPat p => pnull p end.
Definition gqnull (q : gquant) (b : bool) : bool := match q with GOne | GPlus => b | GStar | GOpt => true end.
Fixpoint anull (a : gatom) : bool := match a with GTerm x => tnull x | GGroup e => enull e end
with snull (s : gseq) : bool := match s with GNil => true | GCons a q s => gqnull q (anull a) && snull s end
with enull (e : gsel) : bool := match e with GFirst s => snull s | GAlt e _ s => enull e || snull s end.
(** The rules a body can start with. *)
Fixpoint afirst (a : gatom) : list (list N) := match a with GTerm (TRule x) => [x] | GTerm _ => [] | GGroup e => efirst e end
with sfirst (s : gseq) : list (list N) := match s with GNil => [] | GCons a q s => afirst a ++ (if gqnull q (anull a) then sfirst s else []) end
with efirst (e : gsel) : list (list N) := match e with GFirst s => sfirst s | GAlt e _ s => efirst e ++ sfirst s end.
Fixpoint areps (a : gatom) : bool := match a with GTerm _ => true | GGroup e => ereps e end
with sreps (s : gseq) : bool := match s with GNil => true | GCons a q s => areps a && match q with GStar | GPlus => negb (anull a) | _ => true end && sreps s end
with ereps (e : gsel) : bool := match e with GFirst s => sreps s | GAlt e _ s => ereps e && sreps s end.

Notation sing := (fun x : term => [x]).
Notation nulls_all := (Forall (fun x => tnull x = true)).
Lemma gqnull_spec q (L : list term -> Prop) b : (forall v, L v -> nulls_all v -> b = true) -> forall v, gquantL term q L v -> nulls_all v -> gqnull q b = true.
Proof.
  intros H v. destruct q; cbn; try reflexivity; [apply H|]. intros (x & y & -> & K & _) F. apply Forall_app in F as [F _]. eauto.
Qed.
Lemma null_spec : (forall a v, gatomL term sing a v -> nulls_all v -> anull a = true) /\ (forall s v, gseqL term sing s v -> nulls_all v -> snull s = true) /\ (forall e v, gselL term sing e v -> nulls_all v -> enull e = true).
Proof.
  apply g_ind.
  - intros x v -> F. inversion F; subst. assumption.
  - intros e IH v H F. exact (IH v H F).
  - reflexivity.
  - intros a IHa q s IHs v (x & y & -> & H1 & H2) F. apply Forall_app in F as [F1 F2]. cbn [snull]. apply andb_true_iff. split; [|eauto]. eapply gqnull_spec; [exact IHa|exact H1|exact F1].
  - intros s IH v H F. exact (IH v H F).
  - intros e IHe up s IHs v [H|H] F; cbn [enull]; apply orb_true_iff; eauto.
Qed.
Definition starts (L : list term -> Prop) (l : list (list N)) : Prop := forall v b v', L (v ++ TRule b :: v') -> nulls_all v -> In b l.
Lemma split_app (x y v : list term) b v' : x ++ y = v ++ b :: v' -> (exists z, x = v ++ b :: z /\ v' = z ++ y) \/ (exists z, v = x ++ z /\ y = z ++ b :: v').
Proof.
  revert v. induction x as [|c x IH]; intros v H; [right; exists v; auto|]. destruct v as [|d v]; cbn in H.
  - injection H as -> <-. left. exists x. auto.
  - injection H as -> H. destruct (IH v H) as [(z & -> & ->)|(z & -> & ->)]; [left; exists z; auto|right; exists z; auto].
Qed.
Lemma starts_star L l : starts L l -> starts (GStarL term L) l.
Proof.
  intros H v b v' K. remember (v ++ TRule b :: v') as w eqn:E. revert v E. induction K as [|x y Hx Hy IH]; intros v E F; [destruct v; discriminate|].
  apply split_app in E as [(z & -> & ->)|(z & -> & ->)]; [eapply H; eassumption|]. apply Forall_app in F as [_ F]. eapply IH; [reflexivity|exact F].
Qed.
Lemma starts_quant q L l : starts L l -> starts (gquantL term q L) l.
Proof.
  intros H. destruct q; cbn [gquantL]; [exact H|apply starts_star; exact H| |].
  - intros v b v' (x & y & E & Hx & Hy) F. symmetry in E. apply split_app in E as [(z & -> & ->)|(z & -> & ->)]; [eapply H; eassumption|]. apply Forall_app in F as [_ F]. exact (starts_star L l H _ _ _ Hy F).
  - intros v b v' [E|K] F; [destruct v; discriminate|]. exact (H _ _ _ K F).
Qed.
Lemma first_spec : (forall a, starts (gatomL term sing a) (afirst a)) /\ (forall s, starts (gseqL term sing s) (sfirst s)) /\ (forall e, starts (gselL term sing e) (efirst e)).
Proof.
  apply g_ind.
  - intros x v b v' H _. cbn in H. destruct v as [|y [|z v]]; try discriminate. injection H as H; subst. left. reflexivity.
  - intros e IH. exact IH.
  - intros v b v' H. destruct v; discriminate.
  - intros a IHa q s IHs v b v' (x & y & E & H1 & H2) F. cbn [sfirst]. apply in_or_app. symmetry in E. apply split_app in E as [(z & -> & ->)|(z & -> & ->)].
    + left. exact (starts_quant q _ _ IHa _ _ _ H1 F).
    + right. apply Forall_app in F as [F1 F2]. rewrite (gqnull_spec q (gatomL term sing a) (anull a) (proj1 null_spec a) x H1 F1). exact (IHs _ _ _ H2 F2).
  - intros s IH. exact IH.
  - intros e IHe up s IHs v b v' [H|H] F; cbn [efirst]; apply in_or_app; [left; exact (IHe _ _ _ H F)|right; exact (IHs _ _ _ H F)].
Qed.

(** [order]: callees before callers. *)
Variable order : list (list N).
Fixpoint pos (l : list (list N)) (x : list N) : nat := match l with [] => 0 | y :: l => if eqname y x then 0 else S (pos l x) end.
Definition ends_check (ds : list (list N * gsel)) : bool :=
  forallb (fun d => (negb (enull (snd d)) || memb (fst d) nulls) && ereps (snd d) && forallb (fun x => pos order x <? pos order (fst d)) (efirst (snd d))) ds.
Section Rules.
Variables (ds : list (list N * gsel)) (rules : list N -> option (N * gsel)).
Hypothesis HR : forall name id e, rules name = Some (id, e) -> In (name, e) ds.
Hypothesis HC : ends_check ds = true.
Lemma check_at name id e : rules name = Some (id, e) -> (enull e = true -> In name nulls) /\ ereps e = true /\ forall x, In x (efirst e) -> pos order x < pos order name.
Proof.
  intros R. unfold ends_check in HC. rewrite forallb_forall in HC. specialize (HC _ (HR _ _ _ R)). cbn [fst snd] in HC. rewrite !andb_true_iff in HC. destruct HC as [[H1 H2] H3]. split; [|split; [exact H2|]].
  - intros E. rewrite E in H1. apply memb_in. exact H1.
  - intros x Hx. rewrite forallb_forall in H3. apply Nat.ltb_lt. auto.
Qed.
Lemma empty_nulls v : can_be_empty rules patL v -> nulls_all v.
Proof.
  intros [ch H].
  assert (G : (forall name p q t, derives rules patL [] name p q t -> In name nulls) /\ (forall w p q ch, matched rules patL [] w p q ch -> nulls_all w)).
  { apply (parse_ind rules patL [] (fun name _ _ _ _ => In name nulls) (fun w _ _ _ _ => nulls_all w)).
    - intros name id e w p q c R K _ IH. destruct (check_at _ _ _ R) as [N _]. apply N. exact (proj2 (proj2 null_spec) e w K IH).
    - constructor.
    - intros name w p m q t c _ IH1 _ IH2. constructor; [apply memb_in; exact IH1|exact IH2].
    - intros s w p b m q c _ _ _ E _ IH. constructor; [|exact IH]. unfold slice in E. rewrite skipn_nil, firstn_nil in E. destruct s; [reflexivity|discriminate].
    - intros x w p b m q c _ _ _ E _ IH. constructor; [|exact IH]. unfold slice in E. rewrite skipn_nil, firstn_nil in E. exact (proj2 (proj2 pnull_spec) x E). }
  exact (proj2 G _ _ _ _ H).
Qed.
Lemma reps_spec : (forall a, areps a = true -> reps_atom rules patL a) /\ (forall s, sreps s = true -> reps_seq rules patL s) /\ (forall e, ereps e = true -> reps_sel rules patL e).
Proof.
  apply g_ind.
  - intros x _. exact I.
  - intros e IH H. exact (IH H).
  - intros _. exact I.
  - intros a IHa q s IHs H. cbn [sreps] in H. rewrite !andb_true_iff in H. destruct H as [[H1 H2] H3]. refine (conj (IHa H1) (conj _ (IHs H3))). intros Q (v & V1 & V2). apply empty_nulls in V2. pose proof (proj1 null_spec a v V1 V2) as K.
    rewrite K in H2. destruct Q as [->| ->]; discriminate.
  - intros s IH H. exact (IH H).
  - intros e IHe up s IHs H. cbn [ereps] in H. apply andb_true_iff in H as [H1 H2]. exact (conj (IHe H1) (IHs H2)).
Qed.
Theorem ends_ok : no_left_recursion rules patL /\ no_empty_repetition rules patL.
Proof.
  split.
  - assert (G : forall a b, clos_trans _ (starts_with rules patL) a b -> pos order b < pos order a).
    { intros a b K. induction K as [a b K0|]; [|lia]. destruct K0 as (id & e & v & v' & R & K0 & F). destruct (check_at _ _ _ R) as (_ & _ & H). apply H. exact (proj2 (proj2 first_spec) e v b v' K0 (empty_nulls _ F)). }
    intros a K. specialize (G _ _ K). lia.
  - intros name id e R. apply reps_spec. apply (check_at _ _ _ R).
Qed.
End Rules.
End Check.
