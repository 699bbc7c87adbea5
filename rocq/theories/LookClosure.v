(** Closures and departures of the lookahead construction, in terms of what the network can read. *)
From Coq Require Import List NArith ZArith Arith Bool Lia.
From Verif Require Import CharClass Stream NFA DFA DFADep ATN Grammar GrammarProofs Lookahead LookSpec LookOrder.
Import ListNotations.
Local Open Scope nat_scope.

(** ** Loops *)
Lemma sfold_set {A B K} (In' : K -> B -> Prop) (R : A -> K -> Prop) (f : B -> A -> sres B) : forall l b b',
  sfold f l b = SOk b' -> (forall x b1 b2, In x l -> f b1 x = SOk b2 -> forall k, In' k b2 <-> In' k b1 \/ R x k) ->
  forall k, In' k b' <-> In' k b \/ exists x, In x l /\ R x k.
Proof.
  induction l as [|x l IH]; cbn [sfold]; intros b b' H HF k.
  - injection H as <-. split; [auto|]. intros [K1|(x & [] & _)]. exact K1.
  - destruct (f b x) as [b1| |] eqn:E; try discriminate.
    rewrite (IH b1 b' H ltac:(intros; eapply HF; [right|]; eassumption) k), (HF x b b1 (or_introl eq_refl) E k). split.
    + intros [[K1|K1]|(y & K1 & K2)]; [auto|right; exists x; cbn; auto|right; exists y; cbn; auto].
    + intros [K1|(y & [<-|K1] & K2)]; eauto.
Qed.
Lemma sfold_inv {A B} (P : B -> Prop) (f : B -> A -> sres B) : forall l b b',
  sfold f l b = SOk b' -> P b -> (forall x b1 b2, In x l -> P b1 -> f b1 x = SOk b2 -> P b2) -> P b'.
Proof.
  induction l as [|x l IH]; cbn [sfold]; intros b b' H H0 HF; [injection H as <-; exact H0|].
  destruct (f b x) as [b1| |] eqn:E; try discriminate. apply (IH b1 b' H); [eapply HF; [left; reflexivity|exact H0|exact E]|]. intros; eapply HF; [right|..]; eassumption.
Qed.

Section Closure.
Variable D : list (list N * cmach).
Notation move := (move D).
Notation runs := (runs D).
Notation node_at := (node_at D).

Lemma runs_trans x w y v z : runs x w y -> runs y v z -> runs x (w ++ v) z.
Proof. induction 1 as [|x w y v' z' M R IH]; intros H; [exact H|]. rewrite <- app_assoc. eapply runs_step; eauto. Qed.
Lemma runs_one x w y : move x w y -> runs x w y.
Proof. intros M. rewrite <- (app_nil_r w). eapply runs_step; [exact M|constructor]. Qed.
Lemma runs_eps x y w z : move x [] y -> runs y w z -> runs x w z.
Proof. exact (runs_step D x [] y w z). Qed.
Lemma runs_inv x w z : runs x w z -> (x = z /\ w = []) \/ exists w1 y w2, w = w1 ++ w2 /\ move x w1 y /\ runs y w2 z.
Proof. intros H. inversion H; subst; [auto|right; eauto 8]. Qed.
(** Snoc form. *)
Lemma runs_last x w z : runs x w z -> (x = z /\ w = []) \/ exists w1 y w2, w = w1 ++ w2 /\ runs x w1 y /\ move y w2 z.
Proof.
  induction 1 as [|x w y v z M R IH]; [auto|right]. destruct IH as [[-> ->]|(w1 & y' & w2 & -> & R1 & M1)].
  - exists [], x, w. rewrite app_nil_r. repeat split; auto. constructor.
  - exists (w ++ w1), y', w2. rewrite app_assoc. repeat split; auto. eapply runs_step; eauto.
Qed.
Definition terminal (p : path) : Prop := exists n, node_at p = Some n /\ csub n = [].

(** ** Closures *)
Definition K (k : path * nat) (cl : closure) : Prop := In k (map key cl).
Lemma nil_app {A} (a b : list A) : [] = a ++ b -> a = [] /\ b = [].
Proof. intros H. symmetry in H. apply app_eq_nil in H. exact H. Qed.
Lemma at_inv p q : runs (At p) [] (At q) -> p = q \/
  (terminal p /\ runs (Past p) [] (At q)) \/ (exists n, node_at p = Some n /\ csub n <> [] /\ runs (At ((csub n, 0) :: p)) [] (At q)).
Proof.
  intros H. apply runs_inv in H as [[H _]|(w1 & y & w2 & E & M & R)]; [left; congruence|].
  apply nil_app in E as [-> ->]. inversion M; subst; [right; left; split; [eexists; eauto|assumption]|right; right; eauto].
Qed.
Lemma cl_spec : forall fuel,
  (forall cl id col st pr cl', cl_wild D fuel cl id col st pr = SOk cl' ->
     forall k, K k cl' <-> K k cl \/ (snd k = col /\ terminal (fst k) /\ exists s, In s (sites D id) /\ runs (Past [s]) [] (At (fst k)))) /\
  (forall cl p col st pr cl', cl_excl D fuel cl p col st pr = SOk cl' ->
     forall k, K k cl' <-> K k cl \/ (snd k = col /\ terminal (fst k) /\ runs (Past p) [] (At (fst k)))) /\
  (forall cl p col st pr cl', cl_incl D fuel cl p col st pr = SOk cl' ->
     forall k, K k cl' <-> K k cl \/ (snd k = col /\ terminal (fst k) /\ runs (At p) [] (At (fst k)))).
Proof.
  induction fuel as [|f (IHw & IHe & IHi)]; [repeat split; intros; discriminate|].
  split; [|split].
  - intros cl id col st pr cl' H k. cbn [cl_wild] in H.
    rewrite (sfold_set K (fun s k => snd k = col /\ terminal (fst k) /\ runs (Past [s]) [] (At (fst k))) _ _ _ _ H); [firstorder|].
    intros s b1 b2 _ Hs k'. destruct (2 <=? pcount st s); [discriminate|]. exact (IHe _ _ _ _ _ _ Hs k').
  - intros cl p col st pr cl' H k. cbn [cl_excl] in H. destruct p as [|[id i] up]; [discriminate|]. destruct (node_at ((id, i) :: up)) as [n|] eqn:En; [|discriminate].
    destruct (ctrs n) as [|t0 ts0] eqn:Et.
    + destruct up as [|y up].
      * rewrite (IHw _ _ _ _ _ _ H k). apply or_iff_compat_l. split.
        -- intros (H1 & H2 & s & H3 & H4). repeat split; auto. eapply runs_eps; [eapply mv_out; eauto|exact H4].
        -- intros (H1 & H2 & H3). repeat split; auto. apply runs_inv in H3 as [[H3 _]|(w1 & z & w2 & E & M & R)]; [discriminate|].
           apply nil_app in E as [-> ->]. inversion M; subst; try congruence.
           ++ rewrite En in *. match goal with X : Some n = Some _ |- _ => injection X as <- end. rewrite Et in *. contradiction.
           ++ eauto.
      * rewrite (IHe _ _ _ _ _ _ H k). apply or_iff_compat_l. split.
        -- intros (H1 & H2 & H4). repeat split; auto. eapply runs_eps; [eapply mv_ret; eauto|exact H4].
        -- intros (H1 & H2 & H3). repeat split; auto. apply runs_inv in H3 as [[H3 _]|(w1 & z & w2 & E & M & R)]; [discriminate|].
           apply nil_app in E as [-> ->]. inversion M; subst; try congruence.
           rewrite En in *. match goal with X : Some n = Some _ |- _ => injection X as <- end. rewrite Et in *. contradiction.
    + rewrite (sfold_set K (fun t k => snd k = col /\ terminal (fst k) /\ clab t = [] /\ runs (At ((id, cdest t) :: up)) [] (At (fst k))) _ _ _ _ H).
      * apply or_iff_compat_l. split.
        -- intros (t & H0 & H1 & H2 & H3 & H4). repeat split; auto. eapply runs_eps; [eapply mv_eps; [exact En|rewrite Et; exact H0|exact H3]|exact H4].
        -- intros (H1 & H2 & H3). apply runs_inv in H3 as [[H3 _]|(w1 & z & w2 & E & M & R)]; [discriminate|].
           apply nil_app in E as [-> ->]. inversion M; subst; try congruence.
           rewrite En in *. match goal with X : Some n = Some _ |- _ => injection X as <- end. rewrite Et in *. eauto 8.
      * intros t b1 b2 _ Hs k'. destruct (is_epsilon (clab t)) eqn:Ee.
        -- assert (EL : clab t = []) by (destruct (clab t); [reflexivity|discriminate]).
           destruct (node_at ((id, cdest t) :: up)) as [m|] eqn:Em; [|discriminate]. destruct (csub m) as [|c0 sub] eqn:Es.
           ++ rewrite (IHe _ _ _ _ _ _ Hs k'). unfold K. rewrite cl_ins_keys. unfold key at 1. cbn [epath ecol]. split.
              ** intros [[->|H1]|(H1 & H2 & H3)]; [right|left; exact H1|right].
                 --- cbn. split; [reflexivity|]. split; [eexists; eauto|]. split; [exact EL|constructor].
                 --- repeat split; auto. eapply runs_eps; [eapply mv_here; eauto|exact H3].
              ** intros [H1|(H1 & H2 & _ & H3)]; [auto|]. apply at_inv in H3 as [H3|[(_ & H3)|(n' & H3 & H4 & _)]]; [|auto|congruence].
                 left. left. destruct k'. cbn in *. congruence.
           ++ destruct (2 <=? _); [discriminate|]. rewrite (IHi _ _ _ _ _ _ Hs k'). apply or_iff_compat_l. split.
              ** intros (H1 & H2 & H3). repeat split; auto. eapply runs_eps; [eapply mv_call; [exact Em|congruence]|rewrite Es; exact H3].
              ** intros (H1 & H2 & _ & H3). repeat split; auto. apply at_inv in H3 as [H3|[((n' & H3 & H4) & _)|(n' & H3 & H4 & H5)]]; [|congruence|].
                 --- destruct H2 as (n' & H2 & H4). congruence.
                 --- rewrite Em in H3. injection H3 as <-. rewrite Es in H5. exact H5.
        -- injection Hs as <-. split; [auto|]. intros [H1|(_ & _ & H1 & _)]; [exact H1|]. rewrite H1 in Ee. discriminate.
  - intros cl p col st pr cl' H k. cbn [cl_incl] in H. destruct p as [|x up]; [discriminate|]. destruct (node_at (x :: up)) as [m|] eqn:Em; [|discriminate]. destruct (csub m) as [|c0 sub] eqn:Es.
    + rewrite (IHe _ _ _ _ _ _ H k). unfold K. rewrite cl_ins_keys. unfold key at 1. cbn [epath ecol]. split.
      * intros [[->|H1]|(H1 & H2 & H3)]; [right|left; exact H1|right].
        -- cbn. split; [reflexivity|]. split; [eexists; eauto|constructor].
        -- repeat split; auto. eapply runs_eps; [eapply mv_here; eauto|exact H3].
      * intros [H1|(H1 & H2 & H3)]; [auto|]. apply at_inv in H3 as [H3|[(_ & H3)|(n' & H3 & H4 & _)]]; [|auto|congruence].
        left. left. destruct k. cbn in *. congruence.
    + destruct (2 <=? _); [discriminate|]. rewrite (IHi _ _ _ _ _ _ H k). apply or_iff_compat_l. split.
      * intros (H1 & H2 & H3). repeat split; auto. eapply runs_eps; [eapply mv_call; [exact Em|congruence]|rewrite Es; exact H3].
      * intros (H1 & H2 & H3). repeat split; auto. apply at_inv in H3 as [H3|[((n' & H3 & H4) & _)|(n' & H3 & H4 & H5)]]; [|congruence|].
        -- destruct H2 as (n' & H2 & H4). congruence.
        -- rewrite Em in H3. injection H3 as <-. rewrite Es in H5. exact H5.
Qed.

(** Ascending, and priorities made of tags of the network. *)
Definition chain_ok (T : list N * nat * nat -> Prop) (cl : closure) : Prop := forall e, In e cl -> Forall T (eprio e).
Lemma ins_ok T e cl : Forall T (eprio e) -> chain_ok T cl -> chain_ok T (cl_ins e cl).
Proof. intros H1 H2 x Hx. apply cl_ins_in in Hx as [->|Hx]; auto. Qed.
(** The tags on the way. *)
Definition tag_of (x : list N * nat * nat) : Prop :=
  exists n t, node_at [(fst (fst x), snd (fst x))] = Some n /\ In t (ctrs n) /\ snd x = ctag t.
Lemma cl_inv : forall fuel,
  (forall cl id col st pr cl', cl_wild D fuel cl id col st pr = SOk cl' -> Forall tag_of pr -> asc (map key cl) /\ chain_ok tag_of cl -> asc (map key cl') /\ chain_ok tag_of cl') /\
  (forall cl p col st pr cl', cl_excl D fuel cl p col st pr = SOk cl' -> Forall tag_of pr -> asc (map key cl) /\ chain_ok tag_of cl -> asc (map key cl') /\ chain_ok tag_of cl') /\
  (forall cl p col st pr cl', cl_incl D fuel cl p col st pr = SOk cl' -> Forall tag_of pr -> asc (map key cl) /\ chain_ok tag_of cl -> asc (map key cl') /\ chain_ok tag_of cl').
Proof.
  induction fuel as [|f (IHw & IHe & IHi)]; [repeat split; intros; discriminate|].
  split; [|split].
  - intros cl id col st pr cl' H HP. cbn [cl_wild] in H. intros H0. eapply (sfold_inv (fun cl => asc (map key cl) /\ chain_ok tag_of cl)); [exact H|exact H0|].
    intros s b1 b2 _ H1 Hs. cbn beta in Hs. destruct (2 <=? pcount st s); [discriminate|]. eapply IHe; eassumption.
  - intros cl p col st pr cl' H HP H0. cbn [cl_excl] in H. destruct p as [|[id i] up]; [discriminate|]. destruct (node_at ((id, i) :: up)) as [n|] eqn:En; [|discriminate].
    destruct (ctrs n) as [|t0 ts0] eqn:Et.
    + destruct up as [|y up]; [eapply IHw; eassumption|eapply IHe; eassumption].
    + eapply (sfold_inv (fun cl => asc (map key cl) /\ chain_ok tag_of cl)); [exact H|exact H0|].
      intros t b1 b2 Ht H1 Hs. cbn beta in Hs. destruct (is_epsilon (clab t)) eqn:Ee; [|injection Hs as <-; exact H1].
      assert (HP' : Forall tag_of (pr ++ [(id, i, ctag t)])).
      { apply Forall_app. split; [exact HP|]. constructor; [|constructor]. exists n, t. rewrite Et. auto. }
      destruct (node_at ((id, cdest t) :: up)) as [m|] eqn:Em; [|discriminate]. destruct (csub m) as [|c0 sub] eqn:Es.
      * eapply IHe; [eassumption..|]. split; [apply cl_ins_asc, H1|apply ins_ok; [exact HP'|apply H1]].
      * destruct (2 <=? _); [discriminate|]. eapply IHi; eassumption.
  - intros cl p col st pr cl' H HP H0. cbn [cl_incl] in H. destruct p as [|x up]; [discriminate|]. destruct (node_at (x :: up)) as [m|] eqn:Em; [|discriminate]. destruct (csub m) as [|c0 sub] eqn:Es.
    + eapply IHe; [eassumption..|]. split; [apply cl_ins_asc, H0|apply ins_ok; [exact HP|apply H0]].
    + destruct (2 <=? _); [discriminate|]. eapply IHi; eassumption.
Qed.

Lemma build_closure_spec fuel s cl : build_closure D fuel s = SOk cl ->
  forall k, K k cl <-> terminal (fst k) /\ exists q, K (q, snd k) s /\ runs (At q) [] (At (fst k)).
Proof.
  intros H k. unfold build_closure in H.
  rewrite (sfold_set K (fun e k => snd k = ecol e /\ terminal (fst k) /\ runs (At (epath e)) [] (At (fst k))) _ _ _ _ H).
  - split.
    + intros [[]|(e & H1 & H2 & H3 & H4)]. split; [exact H3|]. exists (epath e). split; [|exact H4]. rewrite H2. apply (in_map key), H1.
    + intros (H1 & q & H2 & H3). right. unfold K in H2. apply in_map_iff in H2 as (e & H2 & H4). injection H2 as H2 H5. exists e. rewrite H2, H5. auto.
  - intros e b1 b2 _ Hs k'. exact (proj2 (proj2 (cl_spec fuel)) _ _ _ _ _ _ Hs k').
Qed.
Lemma build_closure_inv fuel s cl : build_closure D fuel s = SOk cl -> chain_ok tag_of s -> asc (map key cl) /\ chain_ok tag_of cl.
Proof.
  intros H HS. unfold build_closure in H. eapply (sfold_inv (fun cl => asc (map key cl) /\ chain_ok tag_of cl)); [exact H|split; [constructor|intros ? []]|].
  intros e b1 b2 He H1 Hs. eapply (proj2 (proj2 (cl_inv fuel))); [exact Hs|apply HS, He|exact H1].
Qed.
Lemma root_loop_spec fuel id i up : forall ts col cl cl', root_loop D fuel id i up ts col cl = SOk cl' ->
  forall k, K k cl' <-> K k cl \/ (terminal (fst k) /\ exists j t, nth_error ts j = Some t /\ snd k = col + j /\ runs (At ((id, cdest t) :: up)) [] (At (fst k))).
Proof.
  induction ts as [|t ts IH]; cbn [root_loop]; intros col cl cl' H k.
  - injection H as <-. split; [auto|]. intros [H|(_ & [|j] & t & H & _)]; [exact H|discriminate..].
  - destruct (cl_incl D fuel cl ((id, cdest t) :: up) col [] [(id, i, ctag t)]) as [cl1| |] eqn:E; try discriminate.
    rewrite (IH _ _ _ H k), (proj2 (proj2 (cl_spec fuel)) _ _ _ _ _ _ E k). split.
    + intros [[H1|(H1 & H2 & H3)]|(H1 & j & t' & H2 & H3 & H4)]; [auto|right|right].
      * split; [exact H2|]. exists 0, t. cbn. repeat split; auto. lia.
      * split; [exact H1|]. exists (S j), t'. cbn. repeat split; auto. lia.
    + intros [H1|(H1 & [|j] & t' & H2 & H3 & H4)]; [auto|left; right|right].
      * injection H2 as <-. repeat split; auto. lia.
      * split; [exact H1|]. exists j, t'. repeat split; auto. lia.
Qed.
Lemma root_loop_inv fuel id i up n : node_at ((id, i) :: up) = Some n -> forall ts col cl cl', (forall t, In t ts -> In t (ctrs n)) -> root_loop D fuel id i up ts col cl = SOk cl' ->
  asc (map key cl) /\ chain_ok tag_of cl -> asc (map key cl') /\ chain_ok tag_of cl'.
Proof.
  intros En. induction ts as [|t ts IH]; cbn [root_loop]; intros col cl cl' Hts H H0; [injection H as <-; exact H0|].
  destruct (cl_incl D fuel cl ((id, cdest t) :: up) col [] [(id, i, ctag t)]) as [cl1| |] eqn:E; try discriminate.
  eapply IH; [intros; apply Hts; right; assumption|exact H|]. eapply (proj2 (proj2 (cl_inv fuel))); [exact E| |exact H0].
  constructor; [|constructor]. exists n, t. split; [exact En|]. split; [apply Hts; left; reflexivity|reflexivity].
Qed.

(** ** Departures *)
(** Leaving finished machines. *)
Inductive pops : path -> path -> Prop :=
| pops_refl p : pops p p
| pops_ret x y up n q : node_at (x :: y :: up) = Some n -> ctrs n = [] -> pops (y :: up) q -> pops (x :: y :: up) q
| pops_out id i n s q : node_at [(id, i)] = Some n -> ctrs n = [] -> In s (sites D id) -> pops [s] q -> pops [(id, i)] q.
Lemma pops_runs p q : pops p q -> runs (Past p) [] (Past q).
Proof.
  induction 1 as [|x y up n q H1 H2 H3 IH|id i n s q H1 H2 H3 H4 IH]; [constructor|..].
  - eapply runs_eps; [eapply mv_ret; eauto|exact IH].
  - eapply runs_eps; [eapply mv_out; eauto|exact IH].
Qed.
Lemma pops_snoc p q r : pops p q -> move (Past q) [] (Past r) -> pops p r.
Proof.
  induction 1 as [p|x y up n q H1 H2 H3 IH|id i n s q H1 H2 H3 H4 IH]; intros M.
  - inversion M; subst; [eapply pops_ret; [eassumption..|constructor]|eapply pops_out; [eassumption..|constructor]].
  - eapply pops_ret; eauto.
  - eapply pops_out; eauto.
Qed.
Lemma past_reached r z : runs (At r) [] (Past z) -> exists p, terminal p /\ runs (At r) [] (At p) /\ pops p z.
Proof.
  assert (G : forall x w y, runs x w y -> forall r, x = At r -> w = [] -> match y with At _ => True | Past z => exists p, terminal p /\ runs (At r) [] (At p) /\ pops p z end).
  { intros x w y H. 
    (* induction on the length of the run from the end *)
    assert (I : forall x w y, runs x w y -> forall v z, runs y v z -> forall r, x = At r -> w ++ v = [] ->
       (match y with At _ => True | Past q => exists p, terminal p /\ runs (At r) [] (At p) /\ pops p q end) ->
       match z with At _ => True | Past q => exists p, terminal p /\ runs (At r) [] (At p) /\ pops p q end).
    { clear. intros x w y H v z R. revert x w H. induction R as [y|y u y' v z M R IH]; intros x w H r Er Ew HY; [exact HY|].
      assert (Eu : w = [] /\ u = [] /\ v = []) by (destruct w; [|discriminate]; destruct u; [|discriminate]; auto). destruct Eu as (-> & -> & ->).
      apply (IH x [] (runs_trans _ _ _ _ _ H (runs_one _ _ _ M)) r Er eq_refl). subst x.
      inversion M; subst; try exact I.
      - exists p. split; [eexists; eauto|]. split; [exact H|constructor].
      - destruct HY as (p & H3 & H4 & H5). exists p. split; [exact H3|]. split; [exact H4|]. eapply pops_snoc; eauto.
      - destruct HY as (p & H3 & H4 & H5). exists p. split; [exact H3|]. split; [exact H4|]. eapply pops_snoc; eauto. }
    intros r0 -> ->. apply (I (At r0) [] (At r0) (runs_refl D _) [] y H r0 eq_refl eq_refl Logic.I). }
  intros H. exact (G _ _ _ H r eq_refl eq_refl).
Qed.
(** The departures on a character. *)
Notation departure := (cclass * celem)%type.
Definition dep (c : N) (k : path * nat) (ds : list departure) : Prop := exists lab e, In (lab, e) ds /\ CharClass.includes lab c = true /\ key e = k.
Lemma dep_spec c : forall fuel,
  (forall ds id col pr st ds', dep_wild D fuel ds id col pr st = SOk ds' ->
     forall k, dep c k ds' <-> dep c k ds \/ (snd k = col /\ exists s z, In s (sites D id) /\ pops [s] z /\ move (Past z) [c] (At (fst k)))) /\
  (forall ds p col pr st ds', dep_from D fuel ds p col pr st = SOk ds' ->
     forall k, dep c k ds' <-> dep c k ds \/ (snd k = col /\ exists z, pops p z /\ move (Past z) [c] (At (fst k)))).
Proof.
  induction fuel as [|f (IHw & IHe)]; [split; intros; discriminate|]. split.
  - intros ds id col pr st ds' H k. cbn [dep_wild] in H.
    rewrite (sfold_set (dep c) (fun s k => snd k = col /\ exists z, pops [s] z /\ move (Past z) [c] (At (fst k))) _ _ _ _ H); [firstorder|].
    intros s b1 b2 _ Hs k'. destruct (2 <=? pcount st s); [discriminate|]. exact (IHe _ _ _ _ _ _ Hs k').
  - intros ds p col pr st ds' H k. cbn [dep_from] in H. destruct p as [|[id i] up]; [discriminate|]. destruct (node_at ((id, i) :: up)) as [n|] eqn:En; [|discriminate].
    destruct (ctrs n) as [|t0 ts0] eqn:Et.
    + destruct up as [|y up].
      * rewrite (IHw _ _ _ _ _ _ H k). apply or_iff_compat_l. split.
        -- intros (H1 & s & z & H2 & H3 & H4). split; [exact H1|]. exists z. split; [eapply pops_out; eauto|exact H4].
        -- intros (H1 & z & H3 & H4). split; [exact H1|]. inversion H3; subst.
           ++ inversion H4; subst. rewrite En in *. match goal with X : Some n = Some _ |- _ => injection X as <- end. rewrite Et in *. contradiction.
           ++ eauto 6.
      * rewrite (IHe _ _ _ _ _ _ H k). apply or_iff_compat_l. split.
        -- intros (H1 & z & H3 & H4). split; [exact H1|]. exists z. split; [eapply pops_ret; eauto|exact H4].
        -- intros (H1 & z & H3 & H4). split; [exact H1|]. inversion H3; subst.
           ++ inversion H4; subst. rewrite En in *. match goal with X : Some n = Some _ |- _ => injection X as <- end. rewrite Et in *. contradiction.
           ++ eauto.
    + rewrite <- Et in *. injection H as <-. unfold dep. split.
      * intros (lab & e & H1 & H2 & H3). apply in_app_iff in H1 as [H1|H1]; [left; eauto|right].
        apply in_map_iff in H1 as (t & H1 & H4). injection H1 as <- <-. apply filter_In in H4 as [H4 _]. subst k. cbn. split; [reflexivity|].
        exists ((id, i) :: up). split; [constructor|]. eapply mv_char; eauto.
      * intros [(lab & e & H1 & H2)|(H1 & z & H2 & H3)]; [exists lab, e; rewrite in_app_iff; auto|].
        inversion H2; subst; try (rewrite En in *; match goal with X : Some n = Some _ |- _ => injection X as <- end; rewrite Et in *; discriminate).
        inversion H3; subst. rewrite En in *. match goal with X : Some n = Some _ |- _ => injection X as <- end.
        exists (clab t), (mkE ((id, cdest t) :: up) (snd k) pr). rewrite in_app_iff. split; [right|split; [assumption|destruct k; cbn in *; unfold key; cbn; congruence]].
        apply in_map_iff. exists t. split; [reflexivity|]. apply filter_In. split; [assumption|]. destruct (clab t); [discriminate|reflexivity].
Qed.
(** Labels of departures are not empty; priorities. *)
Lemma dep_inv (P : chain -> Prop) : forall fuel,
  (forall ds id col pr st ds', dep_wild D fuel ds id col pr st = SOk ds' -> P pr -> (forall d, In d ds -> P (eprio (snd d))) -> forall d, In d ds' -> P (eprio (snd d))) /\
  (forall ds p col pr st ds', dep_from D fuel ds p col pr st = SOk ds' -> P pr -> (forall d, In d ds -> P (eprio (snd d))) -> forall d, In d ds' -> P (eprio (snd d))).
Proof.
  induction fuel as [|f (IHw & IHe)]; [split; intros; discriminate|]. split.
  - intros ds id col pr st ds' H HP H0. cbn [dep_wild] in H. eapply (sfold_inv (fun ds => forall d, In d ds -> P (eprio (snd d)))); [exact H|exact H0|].
    intros s b1 b2 _ H1 Hs. cbn beta in Hs. destruct (2 <=? pcount st s); [discriminate|]. eapply IHe; eassumption.
  - intros ds p col pr st ds' H HP H0. cbn [dep_from] in H. destruct p as [|[id i] up]; [discriminate|]. destruct (node_at ((id, i) :: up)) as [n|] eqn:En; [|discriminate].
    destruct (ctrs n) as [|t0 ts0] eqn:Et.
    + destruct up as [|y up]; [eapply IHw; eassumption|eapply IHe; eassumption].
    + rewrite <- Et in *. injection H as <-. intros d Hd. apply in_app_iff in Hd as [Hd|Hd]; [auto|]. apply in_map_iff in Hd as (t & <- & _). exact HP.
Qed.
(** Labels of departures are labels of the network. *)
Lemma dep_labels (P : cclass -> Prop) : (forall p n t, node_at p = Some n -> In t (ctrs n) -> P (clab t)) -> forall fuel,
  (forall ds id col pr st ds', dep_wild D fuel ds id col pr st = SOk ds' -> (forall d, In d ds -> P (fst d)) -> forall d, In d ds' -> P (fst d)) /\
  (forall ds p col pr st ds', dep_from D fuel ds p col pr st = SOk ds' -> (forall d, In d ds -> P (fst d)) -> forall d, In d ds' -> P (fst d)).
Proof.
  intros HP. induction fuel as [|f (IHw & IHe)]; [split; intros; discriminate|]. split.
  - intros ds id col pr st ds' H H0. cbn [dep_wild] in H. eapply (sfold_inv (fun ds => forall d, In d ds -> P (fst d))); [exact H|exact H0|].
    intros s b1 b2 _ H1 Hs. cbn beta in Hs. destruct (2 <=? pcount st s); [discriminate|]. eapply IHe; eassumption.
  - intros ds p col pr st ds' H H0. cbn [dep_from] in H. destruct p as [|[id i] up]; [discriminate|]. destruct (node_at ((id, i) :: up)) as [n|] eqn:En; [|discriminate].
    destruct (ctrs n) as [|t0 ts0] eqn:Et.
    + destruct up as [|y up]; [eapply IHw; eassumption|eapply IHe; eassumption].
    + rewrite <- Et in *. injection H as <-. intros d Hd. apply in_app_iff in Hd as [Hd|Hd]; [auto|]. apply in_map_iff in Hd as (t & <- & Ht). apply filter_In in Ht as [Ht _]. eapply HP; eauto.
Qed.
End Closure.
