(** * More fuel does not change an answer: closures, departures, decision automata *)
From Coq Require Import List NArith ZArith Arith Bool Lia.
From Verif Require Import CharClass Stream NFA DFA ATN Grammar CodeGen Lookahead.
Import ListNotations.
Local Open Scope nat_scope.

Definition done {A} (r : sres A) : Prop := r <> SFuel.
(** r' answers what r answers, if r answers. *)
Definition more {A} (r r' : sres A) : Prop := done r -> r' = r.
Lemma sfold_more {A B} (f f' : B -> A -> sres B) : (forall b x, more (f b x) (f' b x)) -> forall l b, more (sfold f l b) (sfold f' l b).
Proof.
  intros H. induction l as [|x l IH]; intros b; cbn [sfold]; [intros _; reflexivity|]. intros K. pose proof (H b x) as E. destruct (f b x) as [b'| |]; [|rewrite (E ltac:(discriminate)); reflexivity|destruct (K eq_refl)].
  rewrite (E ltac:(discriminate)). apply IH. exact K.
Qed.
Section Fuel.
Variable D : list (list N * cmach).
Lemma cl_more : forall f,
  (forall cl id col st pr f', f <= f' -> more (cl_wild D f cl id col st pr) (cl_wild D f' cl id col st pr)) /\
  (forall cl p col st pr f', f <= f' -> more (cl_excl D f cl p col st pr) (cl_excl D f' cl p col st pr)) /\
  (forall cl p col st pr f', f <= f' -> more (cl_incl D f cl p col st pr) (cl_incl D f' cl p col st pr)).
Proof.
  induction f as [|f (IH1 & IH2 & IH3)]; [split; [|split]; intros; intros K; destruct (K eq_refl)|]. split; [|split]; intros cl x col st pr f' Hf; (destruct f' as [|f']; [lia|]); cbn [cl_wild cl_excl cl_incl].
  - apply sfold_more. intros b s. destruct (2 <=? pcount st s); [intros _; reflexivity|apply IH2; lia].
  - destruct x as [|[id i] up]; [intros _; reflexivity|]. destruct (node_at D ((id, i) :: up)) as [n|]; [|intros _; reflexivity]. destruct (ctrs n) as [|t0 ts0].
    + destruct up; [apply IH1; lia|apply IH2; lia].
    + apply sfold_more. intros b t. destruct (is_epsilon (clab t)); [|intros _; reflexivity]. destruct (node_at D ((id, cdest t) :: up)) as [m|]; [|intros _; reflexivity]. destruct (csub m); [apply IH2; lia|]. destruct (2 <=? pcount _ _); [intros _; reflexivity|apply IH3; lia].
  - destruct x as [|y up]; [intros _; reflexivity|]. destruct (node_at D (y :: up)) as [n|]; [|intros _; reflexivity]. destruct (csub n); [apply IH2; lia|]. destruct (2 <=? pcount _ _); [intros _; reflexivity|apply IH3; lia].
Qed.
Lemma build_closure_more f f' s : f <= f' -> more (build_closure D f s) (build_closure D f' s).
Proof. intros H. apply sfold_more. intros b e. apply cl_more. exact H. Qed.
Lemma root_loop_more f f' id i up : f <= f' -> forall ts col cl, more (root_loop D f id i up ts col cl) (root_loop D f' id i up ts col cl).
Proof.
  intros H. induction ts as [|t ts IH]; intros col cl; cbn [root_loop]; [intros _; reflexivity|]. pose proof (proj2 (proj2 (cl_more f)) cl ((id, cdest t) :: up) col [] [(id, i, ctag t)] f' H) as E. intros K.
  destruct (cl_incl D f cl ((id, cdest t) :: up) col [] [(id, i, ctag t)]); [|rewrite (E ltac:(discriminate)); reflexivity|destruct (K eq_refl)]. rewrite (E ltac:(discriminate)). apply IH. exact K.
Qed.
Lemma root_closure_more f f' p : f <= f' -> more (root_closure D f p) (root_closure D f' p).
Proof. intros H. unfold root_closure. destruct p as [|[id i] up]; [intros _; reflexivity|]. destruct (node_at D _); [apply root_loop_more; exact H|intros _; reflexivity]. Qed.
Lemma dep_more : forall f,
  (forall ds id col pr st f', f <= f' -> more (dep_wild D f ds id col pr st) (dep_wild D f' ds id col pr st)) /\
  (forall ds p col pr st f', f <= f' -> more (dep_from D f ds p col pr st) (dep_from D f' ds p col pr st)).
Proof.
  induction f as [|f (IH1 & IH2)]; [split; intros; intros K; destruct (K eq_refl)|]. split; intros ds x col pr st f' Hf; (destruct f' as [|f']; [lia|]); cbn [dep_wild dep_from].
  - apply sfold_more. intros b s. destruct (2 <=? pcount st s); [intros _; reflexivity|apply IH2; lia].
  - destruct x as [|[id i] up]; [intros _; reflexivity|]. destruct (node_at D ((id, i) :: up)) as [n|]; [|intros _; reflexivity]. destruct (ctrs n); [|intros _; reflexivity]. destruct up; [apply IH1; lia|apply IH2; lia].
Qed.
Lemma departure_more f f' cl : f <= f' -> more (departure_set D f cl) (departure_set D f' cl).
Proof.
  intros H K. unfold departure_set in *. pose proof (sfold_more (fun ds e => dep_from D f ds (epath e) (ecol e) (eprio e) []) (fun ds e => dep_from D f' ds (epath e) (ecol e) (eprio e) []) ltac:(intros b e; apply dep_more; exact H) cl []) as E.
  destruct (sfold _ cl []) as [ds| |]; [rewrite (E ltac:(discriminate)); reflexivity|rewrite (E ltac:(discriminate)); reflexivity|destruct (K eq_refl)].
Qed.
Lemma l_items_more f f' : f <= f' -> forall items L index, more (l_items D f L index items) (l_items D f' L index items).
Proof.
  intros H. induction items as [|[r s] items IH]; intros L index; cbn [l_items]; [intros _; reflexivity|]. destruct (0 <? closure_color 0 s)%Z; [apply IH|]. pose proof (build_closure_more f f' s H) as E. intros K.
  destruct (build_closure D f s) as [ec| |]; [|rewrite (E ltac:(discriminate)); reflexivity|destruct (K eq_refl)]. rewrite (E ltac:(discriminate)). destruct (l_add_state L ec) as [L1 j]. apply IH. exact K.
Qed.
Lemma l_fork_S f cf L i : l_fork D (S f) cf L i = match departure_set D cf (llab (nth i L lnil)) with
  | SOk items => match l_items D cf L i items with SOk L1 => l_loop D f cf L1 (length L) | SThrow => SThrow | SFuel => SFuel end
  | SThrow => SThrow | SFuel => SFuel end.
Proof. reflexivity. Qed.
Lemma l_loop_S f cf L i : l_loop D (S f) cf L i = if i <? length L then match l_fork D f cf L i with SOk L1 => l_loop D f cf L1 (S i) | SThrow => SThrow | SFuel => SFuel end else SOk L.
Proof. reflexivity. Qed.
Lemma l_more cf cf' : cf <= cf' -> forall f,
  (forall L i f', f <= f' -> more (l_fork D f cf L i) (l_fork D f' cf' L i)) /\
  (forall L i f', f <= f' -> more (l_loop D f cf L i) (l_loop D f' cf' L i)).
Proof.
  intros HC. induction f as [|f (IH1 & IH2)]; [split; intros; intros K; destruct (K eq_refl)|]. split; intros L i f' Hf K; (destruct f' as [|f']; [lia|]); rewrite ?l_fork_S, ?l_loop_S in *.
  - pose proof (departure_more cf cf' (llab (nth i L lnil)) HC) as E. destruct (departure_set D cf _) as [items| |]; [|rewrite (E ltac:(discriminate)); reflexivity|destruct (K eq_refl)]. rewrite (E ltac:(discriminate)).
    pose proof (l_items_more cf cf' HC items L i) as E2. destruct (l_items D cf L i items) as [L1| |]; [|rewrite (E2 ltac:(discriminate)); reflexivity|destruct (K eq_refl)]. rewrite (E2 ltac:(discriminate)). apply IH2; [lia|exact K].
  - destruct (i <? length L); [|reflexivity]. pose proof (IH1 L i f' ltac:(lia)) as E. destruct (l_fork D f cf L i) as [L1| |]; [|rewrite (E ltac:(discriminate)); reflexivity|destruct (K eq_refl)]. rewrite (E ltac:(discriminate)). apply IH2; [lia|exact K].
Qed.
Lemma plain_more f f' cf cf' p : f <= f' -> cf <= cf' -> more (ldfa_plain D f cf p) (ldfa_plain D f' cf' p).
Proof.
  intros H HC K. unfold ldfa_plain in *. pose proof (root_closure_more cf cf' p HC) as E. destruct (root_closure D cf p) as [cl| |]; [|rewrite (E ltac:(discriminate)); reflexivity|destruct (K eq_refl)]. rewrite (E ltac:(discriminate)).
  pose proof (proj1 (l_more cf cf' HC f) [mkL cl []] 0 f' H) as E2. destruct (l_fork D f cf [mkL cl []] 0) as [L| |]; [rewrite (E2 ltac:(discriminate)); reflexivity|rewrite (E2 ltac:(discriminate)); reflexivity|destruct (K eq_refl)].
Qed.
Theorem decision_more f f' cf cf' id i : f <= f' -> cf <= cf' -> more (decision D f cf id i) (decision D f' cf' id i).
Proof.
  intros H HC. unfold decision, ldfa_build. destruct (mach D id) as [Q|]; [|intros _; reflexivity]. destruct (convert_index Q i 0) as [j|]; [|intros _; reflexivity]. intros K. pose proof (plain_more f f' cf cf' [(id, j)] H HC) as E.
  destruct (ldfa_plain D f cf [(id, j)]) as [L| |]; [rewrite (E ltac:(discriminate)); reflexivity|rewrite (E ltac:(discriminate)); reflexivity|destruct (K eq_refl)].
Qed.
(** One answer. *)
Corollary decision_one f f' cf cf' id i : done (decision D f cf id i) -> done (decision D f' cf' id i) -> decision D f cf id i = decision D f' cf' id i.
Proof.
  intros H H'. rewrite <- (decision_more f (max f f') cf (max cf cf') id i ltac:(lia) ltac:(lia) H). apply (decision_more f' (max f f') cf' (max cf cf') id i ltac:(lia) ltac:(lia) H').
Qed.
Corollary decision_throws f cf id i : decision D f cf id i = SThrow -> forall f' cf' T, decision D f' cf' id i <> SOk T.
Proof. intros H f' cf' T E. rewrite (decision_one f f' cf cf' id i) in H; congruence. Qed.

(** ** Circles of empty edges *)
(** An edge without a label from node i to node j of a machine, at a node that refers to no rule. *)
Definition eps_edge (Q : cmach) (i j : nat) : Prop := exists n t m, nth_error Q i = Some n /\ In t (ctrs n) /\ is_epsilon (clab t) = true /\ cdest t = j /\ nth_error Q j = Some m /\ csub m = [].
Lemma sfold_step {A B} (f : B -> A -> sres B) l : forall b b' x, sfold f l b = SOk b' -> In x l -> exists b1 b2, f b1 x = SOk b2.
Proof.
  induction l as [|y l IH]; intros b b' x H Hx; [destruct Hx|]. cbn [sfold] in H. destruct (f b y) as [b2| |] eqn:E; try discriminate. destruct Hx as [<-|Hx]; [eauto|eauto].
Qed.
Lemma circle_diverges id Q (X : nat -> Prop) : mach D id = Some Q -> (forall i, X i -> exists j, eps_edge Q i j /\ X j) ->
  forall f cl i up col st pr r, X i -> cl_excl D f cl ((id, i) :: up) col st pr <> SOk r.
Proof.
  intros HM HX. induction f as [|f IH]; intros cl i up col st pr r Hi E; [discriminate|]. destruct (HX i Hi) as (j & (n & t & m & H1 & H2 & H3 & H4 & H5 & H6) & Hj). cbn [cl_excl] in E.
  unfold node_at in E at 1. rewrite HM, H1 in E. destruct (ctrs n) as [|t0 ts0] eqn:ET; [destruct H2|]. apply (sfold_step _ _ _ _ t) in E as (b1 & b2 & E); [|exact H2].
  rewrite H3 in E. unfold node_at in E. rewrite HM, H4, H5, H6 in E. exact (IH _ _ _ _ _ _ _ Hj E).
Qed.
End Fuel.
