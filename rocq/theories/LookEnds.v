(** * The construction of a decision automaton ends, if no node of the composite network can come back
    to itself without reading *)
From Coq Require Import List NArith ZArith Arith Bool Lia ZifyBool ZifyN ZifyNat.
From Verif Require Import CharClass Stream NFA DFA DFADep DFAMin ATN Grammar GrammarProofs CodeGen Lookahead LookOrder LookClosure LookItems LookAuto LookFuel.
Import ListNotations.
Local Open Scope nat_scope.

(** ** Finite sets of lists *)
Fixpoint lists {A} (n : nat) (l : list A) : list (list A) :=
  match n with O => [[]] | S n => [] :: flat_map (fun s => map (fun x => x :: s) l) (lists n l) end.
Lemma lists_in {A} (l : list A) : forall n s, length s <= n -> incl s l -> In s (lists n l).
Proof.
  induction n as [|n IH]; intros s Hn HI; [destruct s; [left; reflexivity|cbn in Hn; lia]|]. destruct s as [|x s]; [left; reflexivity|]. right. apply in_flat_map. exists s. split.
  - apply IH; [cbn in Hn; lia|intros y Hy; apply HI; right; exact Hy].
  - apply in_map_iff. exists x. split; [reflexivity|]. apply HI. left. reflexivity.
Qed.
Lemma asc_nodup l : asc l -> NoDup l.
Proof.
  induction 1 as [|x l Hx _ IH]; constructor; [|exact IH]. intros H. specialize (Hx x H). rewrite (proj2 (tc_eq _ key_total x x) eq_refl) in Hx. discriminate.
Qed.
Lemma sfold_done {A B} (f : B -> A -> sres B) : forall l, (forall b x, In x l -> done (f b x)) -> forall b, done (sfold f l b).
Proof.
  induction l as [|x l IH]; intros H b; cbn [sfold]; [discriminate|]. pose proof (H b x (or_introl eq_refl)) as K. destruct (f b x); [|discriminate|destruct (K eq_refl)]. apply IH. intros b0 y Hy. apply H. right. exact Hy.
Qed.
Lemma uniform {A} (P : nat -> A -> Prop) (mono : forall f f' x, f <= f' -> P f x -> P f' x) : forall l, (forall x, In x l -> exists f, P f x) -> exists f, forall x, In x l -> P f x.
Proof.
  induction l as [|x l IH]; intros H; [exists 0; intros ? []|]. destruct (IH (fun y h => H y (or_intror h))) as [f Hf]. destruct (H x (or_introl eq_refl)) as [f' Hf']. exists (max f f').
  intros y [<-|Hy]; [eapply mono; [|exact Hf']; lia|eapply mono; [|exact (Hf y Hy)]; lia].
Qed.
Lemma more_done {A} (r r' : sres A) : more r r' -> done r -> done r'.
Proof. intros H K. rewrite (H K). exact K. Qed.
Lemma filter_le {A} (f g : A -> bool) l : (forall x, In x l -> f x = true -> g x = true) -> length (filter f l) <= length (filter g l).
Proof.
  induction l as [|x l IH]; intros H; [cbn; lia|]. cbn [filter]. specialize (IH (fun y h => H y (or_intror h))). pose proof (H x (or_introl eq_refl)) as K.
  destruct (f x); [rewrite (K eq_refl); cbn; lia|destruct (g x); cbn; lia].
Qed.
Lemma filter_lt {A} (f g : A -> bool) l a : (forall x, In x l -> f x = true -> g x = true) -> In a l -> f a = false -> g a = true -> length (filter f l) < length (filter g l).
Proof.
  induction l as [|x l IH]; intros H Ha Fa Ga; [destruct Ha|]. cbn [filter]. pose proof (filter_le f g l (fun y h => H y (or_intror h))) as LE. pose proof (H x (or_introl eq_refl)) as K.
  destruct Ha as [->|Ha]; [rewrite Fa, Ga; cbn; lia|]. specialize (IH (fun y h => H y (or_intror h)) Ha Fa Ga). destruct (f x); [rewrite (K eq_refl); cbn; lia|destruct (g x); cbn; lia].
Qed.

Section Ends.
Variable D : list (list N * cmach).
Notation node := (list N * nat)%type.
Definition node_eqb (x y : node) : bool := eqname (fst y) (fst x) && (snd y =? snd x).
Lemma node_eqb_eq x y : node_eqb x y = true <-> x = y.
Proof.
  destruct x as [a i], y as [b j]. unfold node_eqb. cbn [fst snd]. rewrite andb_true_iff, eqname_spec, Nat.eqb_eq. split; [intros [-> ->]; reflexivity|intros E; injection E as -> ->; auto].
Qed.
Lemma pcount_pos (p : path) x : In x p <-> 1 <= pcount p x.
Proof.
  unfold pcount. split.
  - intros H. assert (K : In x (filter (fun y => eqname (fst y) (fst x) && (snd y =? snd x)) p)) by (apply filter_In; split; [exact H|]; exact (proj2 (node_eqb_eq x x) eq_refl)). destruct (filter _ p); [destruct K|cbn; lia].
  - intros H. destruct (filter _ p) as [|y l] eqn:E; [cbn in H; lia|]. assert (K : In y (y :: l)) by (left; reflexivity). rewrite <- E in K. apply filter_In in K as [K1 K2]. fold (node_eqb x y) in K2. apply node_eqb_eq in K2. subst y. exact K1.
Qed.
Lemma pcount_head (p : path) x : pcount (x :: p) x = S (pcount p x).
Proof. unfold pcount. cbn [filter]. fold (node_eqb x x). rewrite (proj2 (node_eqb_eq x x) eq_refl). reflexivity. Qed.
Lemma pcount_le (p : path) x y : pcount p x <= pcount (y :: p) x.
Proof. unfold pcount. cbn [filter]. destruct (_ && _); cbn; lia. Qed.
Lemma pushable (up : path) x : (2 <=? pcount (x :: up) x) = false -> ~ In x up.
Proof. intros H K. rewrite pcount_head in H. apply pcount_pos in K. lia. Qed.

(** All nodes, and all places transitions lead to. *)
Definition U : list node := flat_map (fun m => map (pair (fst m)) (seq 0 (length (snd m)) ++ flat_map (fun n => map cdest (ctrs n)) (snd m))) D.
Lemma mach_in id Q : mach D id = Some Q -> In (id, Q) D.
Proof.
  unfold mach. intros H. destruct (find _ D) as [[b Q']|] eqn:E; [|discriminate]. injection H as ->. apply find_some in E as [E1 E2]. cbn in E2. apply eqname_spec in E2. subst b. exact E1.
Qed.
Lemma node_in_U (x : node) up n : node_at D (x :: up) = Some n -> In x U.
Proof.
  destruct x as [id i]. cbn [node_at]. destruct (mach D id) as [Q|] eqn:E; [|discriminate]. intros H. apply in_flat_map. exists (id, Q). split; [apply mach_in; exact E|]. cbn [fst snd]. apply in_map. apply in_or_app. left.
  apply in_seq. assert (nth_error Q i <> None) as K by congruence. apply nth_error_Some in K. lia.
Qed.
Lemma dest_in_U id i up n t : node_at D ((id, i) :: up) = Some n -> In t (ctrs n) -> In (id, cdest t) U.
Proof.
  cbn [node_at]. destruct (mach D id) as [Q|] eqn:E; [|discriminate]. intros H Ht. apply in_flat_map. exists (id, Q). split; [apply mach_in; exact E|]. cbn [fst snd]. apply in_map. apply in_or_app. right.
  apply in_flat_map. exists n. split; [apply nth_error_In in H; exact H|]. apply in_map. exact Ht.
Qed.
Lemma node_at_up (x : node) up up' : node_at D (x :: up) = node_at D (x :: up').
Proof. destruct x. reflexivity. Qed.
Lemma site_in s id : In s (sites D id) -> exists m, In m D /\ fst s = fst m /\ snd s < length (snd m).
Proof.
  unfold sites. intros H. apply in_flat_map in H as (m & Hm & H). apply in_map_iff in H as (i & <- & H). apply filter_In in H as [H _]. apply in_seq in H. exists m. cbn. split; [exact Hm|]. split; [reflexivity|lia].
Qed.
Lemma site_in_U s id : In s (sites D id) -> In s U.
Proof.
  intros H. destruct (site_in s id H) as (m & Hm & E & L). apply in_flat_map. exists m. split; [exact Hm|]. destruct s as [r i]. cbn in E. subst r. cbn in L. apply in_map. apply in_or_app. left. apply in_seq. lia.
Qed.

(** ** Silence *)
(** [csil id i]: from node i of machine id one comes to the end of the machine, reading nothing. *)
Inductive csil : list N -> nat -> Prop :=
| cs_end id i n : node_at D [(id, i)] = Some n -> ctrs n = [] -> csil id i
| cs_step id i n t m : node_at D [(id, i)] = Some n -> In t (ctrs n) -> is_epsilon (clab t) = true -> node_at D [(id, cdest t)] = Some m -> (csub m <> [] -> csil (csub m) 0) -> csil id (cdest t) -> csil id i.
(** From node i to node j, and past what j refers to, reading nothing. *)
Definition hush (id : list N) (i j : nat) : Prop :=
  exists n t m, node_at D [(id, i)] = Some n /\ In t (ctrs n) /\ is_epsilon (clab t) = true /\ cdest t = j /\ node_at D [(id, j)] = Some m /\ (csub m <> [] -> csil (csub m) 0).
Hypothesis ACY : forall id i, Acc (fun b a => hush id a b) i.
Hypothesis START : forall id n, node_at D [(id, 0)] = Some n -> csub n = [].

(** ** Closures end *)
Definition Tx (p st : path) : Prop := exists f, forall cl col pr, done (cl_excl D f cl p col st pr).
Definition Ti (p st : path) : Prop := exists f, forall cl col pr, done (cl_incl D f cl p col st pr).
Definition Tw (id : list N) (st : path) : Prop := exists f, forall cl col pr, done (cl_wild D f cl id col st pr).
Definition Tc (id : list N) (up st : path) : Prop := match up with [] => Tw id st | _ => Tx up st end.
Lemma Ti_start sub q st : (forall n, node_at D ((sub, 0) :: q) = Some n -> Tx ((sub, 0) :: q) st) -> Ti ((sub, 0) :: q) st.
Proof.
  intros H. destruct (node_at D ((sub, 0) :: q)) as [n|] eqn:E.
  - destruct (H n eq_refl) as [f Hf]. exists (S f). intros cl col pr. cbn [cl_incl]. rewrite E. rewrite (START sub n) by exact E. apply Hf.
  - exists 1. intros cl col pr. cbn [cl_incl]. rewrite E. discriminate.
Qed.
Lemma Tx_node id i up st :
  (forall n, node_at D ((id, i) :: up) = Some n -> ctrs n = [] -> Tc id up st) ->
  (forall n t m, node_at D ((id, i) :: up) = Some n -> In t (ctrs n) -> is_epsilon (clab t) = true -> node_at D ((id, cdest t) :: up) = Some m ->
     match csub m with [] => Tx ((id, cdest t) :: up) st | sub => ~ In (id, cdest t) up -> Ti ((sub, 0) :: (id, cdest t) :: up) st end) ->
  Tx ((id, i) :: up) st.
Proof.
  intros H1 H2. destruct (node_at D ((id, i) :: up)) as [n|] eqn:E; [|exists 1; intros cl col pr; cbn [cl_excl]; rewrite E; discriminate].
  specialize (H1 n eq_refl). pose proof (fun t m => H2 n t m eq_refl) as H3. clear H2. destruct (ctrs n) as [|t0 ts0] eqn:ET.
  - specialize (H1 eq_refl). destruct up as [|x up]; destruct H1 as [f Hf]; exists (S f); intros cl col pr; cbn [cl_excl]; rewrite E, ET; apply Hf.
  - rewrite <- ET in H3. clear H1.
    set (F := fun (f : nat) (pr : chain) (col : nat) (cl : closure) (t : ctr) => if is_epsilon (clab t) then
            let q := (id, cdest t) :: up in let pr' := pr ++ [(id, i, ctag t)] in
            match node_at D q with
            | None => SThrow
            | Some m => match csub m with
              | [] => cl_excl D f (cl_ins (mkE q col pr') cl) q col st pr'
              | sub => if 2 <=? pcount q (id, cdest t) then SThrow else cl_incl D f cl ((sub, 0) :: q) col st pr'
              end
            end else SOk cl).
    assert (UN : exists f, forall t, In t (ctrs n) -> forall pr col cl, done (F f pr col cl t)).
    { apply (uniform (fun f t => forall pr col cl, done (F f pr col cl t))).
      - intros f f' t Hf K pr col cl. eapply more_done; [|exact (K pr col cl)]. unfold F. destruct (is_epsilon (clab t)); [|intros _; reflexivity]. cbn zeta. destruct (node_at D ((id, cdest t) :: up)) as [m|]; [|intros _; reflexivity]. destruct (csub m) as [|c sub]; [apply cl_more; exact Hf|].
        destruct (2 <=? _); [intros _; reflexivity|apply cl_more; exact Hf].
      - intros t Ht. unfold F. destruct (is_epsilon (clab t)) eqn:EE; [|exists 0; intros; discriminate]. cbn zeta. destruct (node_at D ((id, cdest t) :: up)) as [m|] eqn:Em; [|exists 0; intros; discriminate].
        specialize (H3 t m Ht EE Em). destruct (csub m) as [|c sub]; [destruct H3 as [f Hf]; exists f; intros; apply Hf|]. destruct (2 <=? _) eqn:EC; [exists 0; intros; discriminate|].
        destruct (H3 (pushable _ _ EC)) as [f Hf]. exists f. intros. apply Hf. }
    destruct UN as [f Hf]. exists (S f). intros cl col pr. cbn [cl_excl]. rewrite E, ET. rewrite ET in Hf. apply (sfold_done (fun cl t => F f pr col cl t)). intros b x Hx. apply Hf. exact Hx.
Qed.
Definition room (up : path) : nat := length (filter (fun x => negb (existsb (node_eqb x) up)) U).
Lemma existsb_in (x : node) up : existsb (node_eqb x) up = true <-> In x up.
Proof. rewrite existsb_exists. split; [intros (y & H & E); apply node_eqb_eq in E; subst y; exact H|intros H; exists x; split; [exact H|apply node_eqb_eq; reflexivity]]. Qed.
Lemma room_push x up : In x U -> ~ In x up -> room (x :: up) < room up.
Proof.
  intros HU HI. unfold room. apply (filter_lt _ _ U x); [|exact HU| |].
  - intros y _ H. cbn [existsb] in H. destruct (existsb (node_eqb y) up); [rewrite orb_true_r in H; discriminate|reflexivity].
  - cbn [existsb]. rewrite (proj2 (node_eqb_eq x x) eq_refl). reflexivity.
  - destruct (existsb (node_eqb x) up) eqn:E; [destruct (HI (proj1 (existsb_in x up) E))|reflexivity].
Qed.
Lemma Tx_any : forall b id i up st, room up < b -> (csil id i -> Tc id up st) -> Tx ((id, i) :: up) st.
Proof.
  induction b as [|b IHb]; intros id i up st Hb; [lia|]. induction (ACY id i) as [i _ IHi]. intros HC. apply Tx_node.
  - intros n En Et. apply HC. eapply cs_end; [rewrite (node_at_up (id, i) [] up); exact En|exact Et].
  - intros n t m En Ht Ee Em. rewrite (node_at_up _ up []) in En. rewrite (node_at_up _ up []) in Em. 
    assert (STEP : (csub m <> [] -> csil (csub m) 0) -> Tx ((id, cdest t) :: up) st).
    { intros HS. apply IHi; [exists n, t, m; auto 10|]. intros K. apply HC. eapply cs_step; eassumption. }
    destruct (csub m) as [|c sub] eqn:Es; [apply STEP; intros X; congruence|]. intros NI. rewrite <- Es in STEP |- *. apply Ti_start. intros _ _. apply IHb.
    + assert (room ((id, cdest t) :: up) < room up); [|lia]. apply room_push; [eapply node_in_U; exact Em|exact NI].
    + intros K. cbn [Tc]. apply STEP. intros _. exact K.
Qed.
Definition slack (st : path) : nat := fold_right (fun x k => (2 - pcount st x) + k) 0 U.
Lemma slack_push x st : In x U -> pcount st x < 2 -> slack (x :: st) < slack st.
Proof.
  intros HU HX. unfold slack. induction U as [|y l IH]; [destruct HU|]. cbn [fold_right].
  assert (LE : forall l, fold_right (fun z k => (2 - pcount (x :: st) z) + k) 0 l <= fold_right (fun z k => (2 - pcount st z) + k) 0 l).
  { clear. induction l as [|z l IH]; cbn [fold_right]; [lia|]. pose proof (pcount_le st z x). lia. }
  destruct HU as [->|HU].
  - rewrite pcount_head. specialize (LE l). lia.
  - specialize (IH HU). pose proof (pcount_le st y x). lia.
Qed.
Lemma Tw_any : forall b id st, slack st < b -> Tw id st.
Proof.
  induction b as [|b IHb]; intros id st Hb; [lia|].
  assert (UN : exists f, forall s, In s (sites D id) -> forall cl col pr, done (if 2 <=? pcount st s then SThrow else cl_excl D f cl [s] col (s :: st) pr)).
  { apply (uniform (fun f s => forall cl col pr, done (if 2 <=? pcount st s then SThrow else cl_excl D f cl [s] col (s :: st) pr))).
    - intros f f' s Hf K cl col pr. specialize (K cl col pr). destruct (2 <=? pcount st s); [exact K|]. eapply more_done; [apply cl_more; exact Hf|exact K].
    - intros s Hs. destruct (2 <=? pcount st s) eqn:E; [exists 0; intros; discriminate|]. destruct s as [r i]. destruct (Tx_any (S (room [])) r i [] ((r, i) :: st) ltac:(lia)) as [f Hf].
      + intros _. cbn [Tc]. apply IHb. assert (slack ((r, i) :: st) < slack st); [|lia]. apply slack_push; [eapply site_in_U; exact Hs|lia].
      + exists f. intros. apply Hf. }
  destruct UN as [f Hf]. exists (S f). intros cl col pr. cbn [cl_wild]. apply sfold_done. intros b0 s Hs. apply Hf. exact Hs.
Qed.
Lemma Tx_all st : forall p, Tx p st.
Proof.
  induction p as [|[id i] up IH]; [exists 1; intros cl col pr; discriminate|]. apply (Tx_any (S (room up))); [lia|]. intros _. destruct up as [|x up]; cbn [Tc]; [apply (Tw_any (S (slack st))); lia|exact IH].
Qed.
Lemma Ti_all st p : Ti p st.
Proof.
  destruct p as [|x up]; [exists 1; intros cl col pr; discriminate|]. destruct (node_at D (x :: up)) as [n|] eqn:E; [|exists 1; intros cl col pr; cbn [cl_incl]; rewrite E; discriminate].
  destruct (csub n) as [|c sub] eqn:Es.
  - destruct (Tx_all st (x :: up)) as [f Hf]. exists (S f). intros cl col pr. cbn [cl_incl]. rewrite E, Es. apply Hf.
  - destruct (2 <=? pcount (x :: up) x) eqn:EC; [exists 1; intros cl col pr; cbn [cl_incl]; rewrite E, Es, EC; discriminate|].
    destruct (Ti_start (c :: sub) (x :: up) st (fun _ _ => Tx_all st _)) as [f Hf]. exists (S f). intros cl col pr. cbn [cl_incl]. rewrite E, Es, EC. apply Hf.
Qed.

(** ** Departures end, always *)
Definition Dx (p st : path) : Prop := exists f, forall ds col pr, done (dep_from D f ds p col pr st).
Definition Dw (id : list N) (st : path) : Prop := exists f, forall ds col pr, done (dep_wild D f ds id col pr st).
Lemma Dx_pop st (W : forall id, Dw id st) : forall p, Dx p st.
Proof.
  induction p as [|[id i] up IH]; [exists 1; intros ds col pr; discriminate|]. destruct (node_at D ((id, i) :: up)) as [n|] eqn:E; [|exists 1; intros ds col pr; cbn [dep_from]; rewrite E; discriminate].
  destruct (ctrs n) as [|t ts] eqn:ET; [|exists 1; intros ds col pr; cbn [dep_from]; rewrite E, ET; discriminate].
  destruct up as [|x up]; [destruct (W id) as [f Hf]|destruct IH as [f Hf]]; exists (S f); intros ds col pr; cbn [dep_from]; rewrite E, ET; apply Hf.
Qed.
Lemma Dw_any : forall b id st, slack st < b -> Dw id st.
Proof.
  induction b as [|b IHb]; intros id st Hb; [lia|].
  assert (UN : exists f, forall s, In s (sites D id) -> forall ds col pr, done (if 2 <=? pcount st s then SThrow else dep_from D f ds [s] col pr (s :: st))).
  { apply (uniform (fun f s => forall ds col pr, done (if 2 <=? pcount st s then SThrow else dep_from D f ds [s] col pr (s :: st)))).
    - intros f f' s Hf K ds col pr. specialize (K ds col pr). destruct (2 <=? pcount st s); [exact K|]. eapply more_done; [apply dep_more; exact Hf|exact K].
    - intros s Hs. destruct (2 <=? pcount st s) eqn:E; [exists 0; intros; discriminate|]. destruct (Dx_pop (s :: st)) with (p := [s]) as [f Hf].
      + intros id'. apply IHb. assert (slack (s :: st) < slack st); [|lia]. apply slack_push; [eapply site_in_U; exact Hs|lia].
      + exists f. intros. apply Hf. }
  destruct UN as [f Hf]. exists (S f). intros ds col pr. cbn [dep_wild]. apply sfold_done. intros b0 s Hs. apply Hf. exact Hs.
Qed.
Lemma Dx_all st p : Dx p st.
Proof. apply Dx_pop. intros id. apply (Dw_any (S (slack st))). lia. Qed.

(** ** Configurations are finitely many *)
Variable K0 : nat.
Definition tails (up : path) : Prop := NoDup up /\ incl up U.
Definition pok (p : path) : Prop := match p with [] => False | x :: up => In x U /\ tails up end.
Definition eok (e : celem) : Prop := pok (epath e) /\ ecol e <= K0.
Definition cok (cl : closure) : Prop := asc (map key cl) /\ forall e, In e cl -> eok e.
Lemma ins_cok e cl : eok e -> cok cl -> cok (cl_ins e cl).
Proof. clear ACY START. intros He [A B]. split; [apply cl_ins_asc; exact A|]. intros x Hx. apply cl_ins_in in Hx as [->|Hx]; auto. Qed.
Definition PU : list path := lists (S (length U)) U.
Lemma pok_in p : pok p -> In p PU.
Proof. clear ACY START.
  destruct p as [|x up]; [intros []|]. intros (Hx & ND & HI). apply lists_in; [cbn; pose proof (NoDup_incl_length ND HI); lia|]. intros y [<-|Hy]; auto.
Qed.
Definition KU : list (path * nat) := flat_map (fun p => map (pair p) (seq 0 (S K0))) PU.
Lemma key_in e : eok e -> In (key e) KU.
Proof. clear ACY START. intros [H1 H2]. apply in_flat_map. exists (epath e). split; [apply pok_in; exact H1|]. unfold key. apply in_map. apply in_seq. lia. Qed.
Definition CU : list (list (path * nat)) := lists (length KU) KU.
Lemma cok_in cl : cok cl -> In (map key cl) CU.
Proof. clear ACY START.
  intros [A B]. assert (I0 : incl (map key cl) KU) by (intros k Hk; apply in_map_iff in Hk as (e & <- & He); apply key_in; auto). apply lists_in; [|exact I0]. apply NoDup_incl_length; [apply asc_nodup; exact A|exact I0].
Qed.
Lemma cl_cok : forall f,
  (forall cl id col st pr cl', cok cl -> col <= K0 -> cl_wild D f cl id col st pr = SOk cl' -> cok cl') /\
  (forall cl p col st pr cl', cok cl -> col <= K0 -> tails (tl p) -> cl_excl D f cl p col st pr = SOk cl' -> cok cl') /\
  (forall cl p col st pr cl', cok cl -> col <= K0 -> tails (tl p) -> cl_incl D f cl p col st pr = SOk cl' -> cok cl').
Proof. clear ACY START.
  assert (T0 : tails []) by (split; [constructor|intros ? []]). assert (TP : forall x up n, tails up -> node_at D (x :: up) = Some n -> (2 <=? pcount (x :: up) x) = false -> tails (x :: up)).
  { intros x up n [ND HI] E C. split; [constructor; [exact (pushable _ _ C)|exact ND]|]. intros y [<-|Hy]; [eapply node_in_U; exact E|auto]. }
  induction f as [|f (IH1 & IH2 & IH3)]; [split; [|split]; discriminate|]. split; [|split]; intros cl x col st pr cl' HC HK.
  - cbn [cl_wild cl_excl cl_incl]. intros H. apply (sfold_inv cok _ _ _ _ H HC). intros s b1 b2 _ Hb E. destruct (2 <=? pcount st s); [discriminate|]. exact (IH2 _ [s] _ _ _ _ Hb HK T0 E).
  - cbn [cl_wild cl_excl cl_incl]. intros HT H. destruct x as [|[id i] up]; [discriminate|]. cbn [tl] in HT. destruct (node_at D ((id, i) :: up)) as [n|] eqn:E; [|discriminate]. destruct (ctrs n) as [|t0 ts0] eqn:ET.
    + destruct up as [|y up]; [eapply IH1; eassumption|]. refine (IH2 _ (y :: up) _ _ _ _ HC HK _ H). cbn [tl]. destruct HT as [ND HI]. inversion ND; subst. split; [assumption|]. intros z Hz. apply HI. right. exact Hz.
    + apply (sfold_inv cok _ _ _ _ H HC). intros t b1 b2 Ht Hb K. destruct (is_epsilon (clab t)); [|injection K as <-; exact Hb]. destruct (node_at D ((id, cdest t) :: up)) as [m|] eqn:Em; [|discriminate].
      destruct (csub m) as [|c sub].
      * refine (IH2 _ ((id, cdest t) :: up) _ _ _ _ _ HK HT K). apply ins_cok; [|exact Hb]. split; [|exact HK]. cbn [epath pok]. split; [eapply node_in_U; exact Em|exact HT].
      * destruct (2 <=? pcount _ _) eqn:EC; [discriminate|]. refine (IH3 _ ((c :: sub, 0) :: (id, cdest t) :: up) _ _ _ _ Hb HK _ K). cbn [tl]. eapply TP; eassumption.
  - cbn [cl_wild cl_excl cl_incl]. intros HT H. destruct x as [|y up]; [discriminate|]. cbn [tl] in HT. destruct (node_at D (y :: up)) as [n|] eqn:E; [|discriminate]. destruct (csub n) as [|c sub].
    + refine (IH2 _ (y :: up) _ _ _ _ _ HK HT H). apply ins_cok; [|exact HC]. split; [|exact HK]. cbn [epath pok]. split; [eapply node_in_U; exact E|exact HT].
    + destruct (2 <=? pcount _ _) eqn:EC; [discriminate|]. refine (IH3 _ ((c :: sub, 0) :: y :: up) _ _ _ _ HC HK _ H). cbn [tl]. eapply TP; eassumption.
Qed.
Lemma pok_tl p : pok p -> tails (tl p).
Proof. clear ACY START. destruct p; [intros []|]. intros [_ H]. exact H. Qed.
Lemma nil_cok : cok []. Proof. split; [constructor|intros ? []]. Qed.
Lemma build_cok f s cl : (forall e, In e s -> eok e) -> build_closure D f s = SOk cl -> cok cl.
Proof. clear ACY START.
  intros HS H. apply (sfold_inv cok _ _ _ _ H nil_cok). intros e b1 b2 He Hb E. destruct (HS e He) as [H1 H2]. exact (proj2 (proj2 (cl_cok f)) _ _ _ _ _ _ Hb H2 (pok_tl _ H1) E).
Qed.
Lemma dep_eok : forall f,
  (forall ds id col pr st ds', col <= K0 -> (forall d, In d ds -> eok (snd d)) -> dep_wild D f ds id col pr st = SOk ds' -> forall d, In d ds' -> eok (snd d)) /\
  (forall ds p col pr st ds', col <= K0 -> tails (tl p) -> (forall d, In d ds -> eok (snd d)) -> dep_from D f ds p col pr st = SOk ds' -> forall d, In d ds' -> eok (snd d)).
Proof. clear ACY START.
  assert (T0 : tails []) by (split; [constructor|intros ? []]).
  induction f as [|f (IH1 & IH2)]; [split; discriminate|]. split; intros ds x col pr st ds' HK.
  - intros HD. cbn [dep_wild dep_from]. intros H. apply (sfold_inv (fun ds => forall d, In d ds -> eok (snd d)) _ _ _ _ H HD). intros s b1 b2 _ Hb E. destruct (2 <=? pcount st s); [discriminate|]. exact (IH2 _ [s] _ _ _ _ HK T0 Hb E).
  - intros HT HD. cbn [dep_wild dep_from]. intros H. destruct x as [|[id i] up]; [discriminate|]. cbn [tl] in HT. destruct (node_at D ((id, i) :: up)) as [n|] eqn:E; [|discriminate]. destruct (ctrs n) as [|t0 ts0] eqn:ET.
    + destruct up as [|y up]; [eapply IH1; eassumption|]. refine (IH2 _ (y :: up) _ _ _ _ HK _ HD H). cbn [tl]. destruct HT as [ND HI]. inversion ND; subst. split; [assumption|]. intros z Hz. apply HI. right. exact Hz.
    + rewrite <- ET in H. injection H as <-. intros d Hd. apply in_app_or in Hd as [Hd|Hd]; [auto|]. apply in_map_iff in Hd as (t & <- & Ht). apply filter_In in Ht as [Ht _]. split; [|exact HK]. cbn [snd epath pok]. split; [|exact HT]. eapply dest_in_U; eassumption.
Qed.
Lemma closure_add_in cl e x : In x (closure_add cl e) -> x = e \/ In x cl.
Proof. clear ACY START. unfold closure_add. destruct (existsb _ cl); [auto|]. intros H. apply cl_ins_in in H as [H|H]; [auto|]. apply filter_In in H as [H _]. auto. Qed.
Lemma dep_at_in ds r x : In x (dep_at ds r) -> exists lab, In (lab, x) ds.
Proof. clear ACY START.
  unfold dep_at. intros H. assert (G : forall ds (cl : closure), In x (fold_left (fun cl d => if includes_range (fst d) r then closure_add cl (snd d) else cl) ds cl) -> In x cl \/ exists lab, In (lab, x) ds).
  { clear. induction ds as [|[lab e] ds IH]; intros cl H; [auto|]. cbn [fold_left] in H. apply IH in H as [H|[l H]]; [|right; exists l; right; exact H]. destruct (includes_range _ r); [|auto]. apply closure_add_in in H as [->|H]; [right; exists lab; left; reflexivity|auto]. }
  destruct (G ds [] H) as [[]|K]. exact K.
Qed.
Lemma dep_items_in ds : forall bs r s, In (r, s) (dep_items ds bs) -> s = dep_at ds r.
Proof. clear ACY START.
  induction bs as [|a bs IH]; intros r s H; [destruct H|]. cbn [dep_items] in H. destruct bs as [|b bs]; [destruct H|]. destruct (dep_at ds (mkR a b)) as [|e l] eqn:E; [auto|]. destruct H as [H|H]; [|auto]. injection H as <- <-. auto.
Qed.
Lemma departure_eok f cl items : cok cl -> departure_set D f cl = SOk items -> forall r s, In (r, s) items -> forall e, In e s -> eok e.
Proof. clear ACY START.
  intros [_ HC] H r s Hi e He. unfold departure_set in H. destruct (sfold _ cl []) as [ds| |] eqn:E; try discriminate. injection H as <-. apply dep_items_in in Hi. subst s. apply dep_at_in in He as [lab He].
  assert (G : forall d, In d ds -> eok (snd d)); [|exact (G _ He)]. apply (sfold_inv (fun ds => forall d, In d ds -> eok (snd d)) _ _ _ _ E); [intros ? []|]. intros x b1 b2 Hx Hb Q. destruct (HC x Hx) as [X1 X2]. exact (proj2 (dep_eok f) _ _ _ _ _ _ X2 (pok_tl _ X1) Hb Q).
Qed.
Lemma root_cok f id i up n : tails up -> node_at D ((id, i) :: up) = Some n -> forall ts col cl cl', col + length ts <= S K0 -> cok cl -> root_loop D f id i up ts col cl = SOk cl' -> cok cl'.
Proof. clear ACY START.
  intros HT _. induction ts as [|t ts IH]; intros col cl cl' HK HC H; cbn [root_loop] in H; [injection H as <-; exact HC|]. cbn [length] in HK. destruct (cl_incl D f cl ((id, cdest t) :: up) col [] [(id, i, ctag t)]) as [cl1| |] eqn:E; try discriminate.
  apply (IH (S col) cl1 cl' ltac:(lia)) in H; [exact H|]. exact (proj2 (proj2 (cl_cok f)) _ ((id, cdest t) :: up) col _ _ _ HC ltac:(lia) HT E).
Qed.

(** ** The automaton is finished *)
Notation klabs := (map (fun s => map key (llab s))).
Definition lok (L : list lstate_) : Prop := NoDup (klabs L) /\ forall s, In s L -> cok (llab s).
Lemma lok_length L : lok L -> length L <= length CU.
Proof. clear ACY START.
  intros [ND H]. rewrite <- (map_length (fun s => map key (llab s)) L). apply NoDup_incl_length; [exact ND|]. intros k Hk. apply in_map_iff in Hk as (s & <- & Hs). apply cok_in. auto.
Qed.
Lemma lok_upd L i cc d : lok L -> lok (upd_nth L i (add_ltr cc d)) /\ length (upd_nth L i (add_ltr cc d)) = length L.
Proof. clear ACY START.
  intros [ND H]. pose proof (llab_upd L i cc d) as E. split; [|apply (f_equal (@length _)) in E; rewrite !map_length in E; exact E]. split.
  - rewrite klabs_llab, E, <- klabs_llab. exact ND.
  - intros s Hs. apply (in_map llab) in Hs. rewrite E in Hs. apply in_map_iff in Hs as (s' & <- & Hs). auto.
Qed.
Lemma lok_add L cl : lok L -> cok cl -> lok (fst (l_add_state L cl)) /\ length L <= length (fst (l_add_state L cl)).
Proof. clear ACY START.
  intros [ND H] HC. unfold l_add_state. pose proof (find_closure_spec (fun _ => True) L cl 0) as F. destruct (find_closure L cl 0); cbn [fst]; [split; [split; assumption|lia]|]. split; [|rewrite app_length; lia]. split.
  - rewrite map_app. cbn [map llab]. apply (Permutation.Permutation_NoDup (Permutation.Permutation_cons_append _ _)). constructor; assumption.
  - intros s Hs. apply in_app_or in Hs as [Hs|[<-|[]]]; [auto|exact HC].
Qed.
Lemma items_lok f index : forall items L L', lok L -> (forall r s, In (r, s) items -> forall e, In e s -> eok e) -> l_items D f L index items = SOk L' -> lok L' /\ length L <= length L'.
Proof. clear ACY START.
  induction items as [|[r s] items IH]; intros L L' HL HI H; cbn [l_items] in H; [injection H as <-; auto|].
  assert (HI' : forall r s, In (r, s) items -> forall e, In e s -> eok e) by (intros r0 s0 H0; apply (HI r0 s0); right; exact H0).
  destruct (0 <? closure_color 0 s)%Z.
  - destruct (lok_upd L index [r] (- closure_color 0 s)%Z HL) as [A B]. destruct (IH _ _ A HI' H) as [A' B']. split; [exact A'|lia].
  - destruct (build_closure D f s) as [ec| |] eqn:E; try discriminate. assert (EC : cok ec) by (eapply build_cok; [exact (HI r s (or_introl eq_refl))|exact E]).
    destruct (lok_add L ec HL EC) as [A B]. destruct (l_add_state L ec) as [L1 j]. cbn [fst] in *. destruct (lok_upd L1 index [r] (Z.of_nat j) A) as [A2 B2]. destruct (IH _ _ A2 HI' H) as [A' B']. split; [exact A'|lia].
Qed.
Lemma fork_lok cf : forall f,
  (forall L i L', lok L -> i < length L -> l_fork D f cf L i = SOk L' -> lok L' /\ length L <= length L') /\
  (forall L i L', lok L -> l_loop D f cf L i = SOk L' -> lok L' /\ length L <= length L').
Proof. clear ACY START.
  induction f as [|f (IH1 & IH2)]; [split; discriminate|]. split; intros L i L' HL.
  - intros Hi H. rewrite LookFuel.l_fork_S in H. destruct (departure_set D cf (llab (nth i L lnil))) as [items| |] eqn:Ed; try discriminate. destruct (l_items D cf L i items) as [L1| |] eqn:Ei; try discriminate.
    destruct (items_lok cf i items L L1 HL) as [A B]; [|exact Ei|]. { eapply departure_eok; [|exact Ed]. apply (proj2 HL). apply nth_In. exact Hi. }
    destruct (IH2 _ _ _ A H) as [A' B']. split; [exact A'|lia].
  - intros H. rewrite LookFuel.l_loop_S in H. destruct (i <? length L) eqn:E; [|injection H as <-; auto]. destruct (l_fork D f cf L i) as [L1| |] eqn:E1; try discriminate. destruct (IH1 L i L1 HL ltac:(lia) E1) as [A B]. destruct (IH2 _ _ _ A H) as [A' B']. split; [exact A'|lia].
Qed.
Lemma enough : exists cf, forall p, In p PU -> (forall cl col pr, done (cl_incl D cf cl p col [] pr)) /\ (forall ds col pr, done (dep_from D cf ds p col pr [])).
Proof.
  apply (uniform (fun cf p => (forall cl col pr, done (cl_incl D cf cl p col [] pr)) /\ (forall ds col pr, done (dep_from D cf ds p col pr [])))).
  - intros f f' p Hf [A B]. split; intros; (eapply more_done; [|first [apply A|apply B]]); [apply cl_more; exact Hf|apply dep_more; exact Hf].
  - intros p _. destruct (Ti_all [] p) as [f1 H1]. destruct (Dx_all [] p) as [f2 H2]. exists (max f1 f2). split; intros; (eapply more_done; [|first [apply H1|apply H2]]); [apply cl_more; lia|apply dep_more; lia].
Qed.
Section Built.
Variable cf : nat.
Hypothesis HCF : forall p, In p PU -> (forall cl col pr, done (cl_incl D cf cl p col [] pr)) /\ (forall ds col pr, done (dep_from D cf ds p col pr [])).
Lemma departure_done cl : cok cl -> done (departure_set D cf cl).
Proof. clear ACY START.
  intros [_ HC]. unfold departure_set. assert (K : done (sfold (fun ds e => dep_from D cf ds (epath e) (ecol e) (eprio e) []) cl [])).
  { apply sfold_done. intros b e He. apply (HCF (epath e)). apply pok_in. apply (HC e He). }
  destruct (sfold _ cl []); [discriminate|discriminate|destruct (K eq_refl)].
Qed.
Lemma items_done index : forall items L, (forall r s, In (r, s) items -> forall e, In e s -> eok e) -> done (l_items D cf L index items).
Proof. clear ACY START.
  induction items as [|[r s] items IH]; intros L HI; cbn [l_items]; [discriminate|]. assert (HI' : forall r s, In (r, s) items -> forall e, In e s -> eok e) by (intros r0 s0 H0; apply (HI r0 s0); right; exact H0).
  destruct (0 <? closure_color 0 s)%Z; [apply IH; exact HI'|]. assert (K : done (build_closure D cf s)).
  { apply sfold_done. intros b e He. apply (HCF (epath e)). apply pok_in. apply (HI r s (or_introl eq_refl) e He). }
  destruct (build_closure D cf s) as [ec| |]; [|discriminate|destruct (K eq_refl)]. destruct (l_add_state L ec). apply IH. exact HI'.
Qed.
Definition Lf (L : list lstate_) (i : nat) : Prop := exists f, done (l_fork D f cf L i).
Definition Ll (L : list lstate_) (i : nat) : Prop := exists f, done (l_loop D f cf L i).
Lemma fork_step L i : lok L -> i < length L -> (forall L', lok L' -> length L < length L' -> Ll L' (length L)) -> Lf L i.
Proof. clear ACY START.
  intros HL Hi IH. pose proof (departure_done _ (proj2 HL _ (nth_In L lnil Hi))) as K1. destruct (departure_set D cf (llab (nth i L lnil))) as [items| |] eqn:Ed; [| |destruct (K1 eq_refl)].
  - assert (IE : forall r s, In (r, s) items -> forall e, In e s -> eok e) by (eapply departure_eok; [|exact Ed]; apply (proj2 HL); apply nth_In; exact Hi).
    pose proof (items_done i items L IE) as K2. destruct (l_items D cf L i items) as [L1| |] eqn:Ei; [| |destruct (K2 eq_refl)].
    + destruct (items_lok cf i items L L1 HL IE Ei) as [A B]. destruct (Nat.eq_dec (length L1) (length L)) as [Q|Q].
      * exists 2. rewrite LookFuel.l_fork_S, Ed, Ei, LookFuel.l_loop_S. replace (length L <? length L1) with false by lia. discriminate.
      * destruct (IH L1 A ltac:(lia)) as [f Hf]. exists (S f). rewrite LookFuel.l_fork_S, Ed, Ei. exact Hf.
    + exists 1. rewrite LookFuel.l_fork_S, Ed, Ei. discriminate.
  - exists 1. rewrite LookFuel.l_fork_S, Ed. discriminate.
Qed.
Lemma loop_any : forall d L i, lok L -> length CU - length L < d -> Ll L i.
Proof. clear ACY START.
  induction d as [|d IHd]; intros L i HL Hd; [lia|].
  assert (F : forall L i, lok L -> i < length L -> length CU - length L < S d -> Lf L i).
  { intros L0 i0 H0 Hi0 Hd0. apply fork_step; [exact H0|exact Hi0|]. intros L' H' Hlt. apply IHd; [exact H'|]. pose proof (lok_length _ H'). lia. }
  assert (G : forall k L i, lok L -> length CU - length L < S d -> length L - i < k -> Ll L i).
  { induction k as [|k IHk]; intros L0 i0 H0 Hd0 Hk; [lia|]. destruct (i0 <? length L0) eqn:E.
    - destruct (F L0 i0 H0 ltac:(lia) Hd0) as [f1 K1]. destruct (l_fork D f1 cf L0 i0) as [L1| |] eqn:E1; [| |destruct (K1 eq_refl)].
      + destruct (proj1 (fork_lok cf f1) L0 i0 L1 H0 ltac:(lia) E1) as [A B]. assert (X : Ll L1 (S i0)).
        { destruct (Nat.eq_dec (length L1) (length L0)) as [Q|Q]; [apply IHk; [exact A|lia|lia]|]. apply IHd; [exact A|]. pose proof (lok_length _ A). lia. }
        destruct X as [f2 K2]. exists (S (max f1 f2)). rewrite LookFuel.l_loop_S, E.
        rewrite (proj1 (l_more D cf cf (le_n _) f1) L0 i0 (max f1 f2) ltac:(lia)) by (rewrite E1; discriminate). rewrite E1. eapply more_done; [|exact K2]. apply l_more; lia.
      + exists (S f1). rewrite LookFuel.l_loop_S, E, E1. discriminate.
    - exists 1. rewrite LookFuel.l_loop_S, E. discriminate. }
  apply (G (S (length L - i))); [exact HL|exact Hd|lia].
Qed.
Lemma fork_any L i : lok L -> i < length L -> Lf L i.
Proof. clear ACY START. intros HL Hi. apply fork_step; [exact HL|exact Hi|]. intros L' H' _. apply (loop_any (S (length CU - length L'))); [exact H'|lia]. Qed.
End Built.
End Ends.

(** The construction for one node ends, with an automaton or an exception. *)
Theorem build_ends D : (forall id i, Acc (fun b a => hush D id a b) i) -> (forall id n, node_at D [(id, 0)] = Some n -> csub n = []) ->
  forall id j, exists f cf, done (ldfa_build D f cf [(id, j)]).
Proof.
  intros ACY START id j. assert (exists f cf, done (ldfa_plain D f cf [(id, j)])) as (f & cf & K).
  2: { exists f, cf. unfold ldfa_build. destruct (ldfa_plain D f cf [(id, j)]); [discriminate|discriminate|destruct (K eq_refl)]. }
  unfold ldfa_plain, root_closure. destruct (node_at D [(id, j)]) as [n|] eqn:E; [|exists 0, 0; discriminate].
  pose (K0 := length (ctrs n)). destruct (enough D ACY START) as [cf HCF].
  assert (RD : forall ts, (forall t, In t ts -> In t (ctrs n)) -> forall col cl, done (root_loop D cf id j [] ts col cl)).
  { induction ts as [|t ts IH]; intros HT col cl; cbn [root_loop]; [discriminate|]. assert (X : done (cl_incl D cf cl [(id, cdest t)] col [] [(id, j, ctag t)])).
    { apply HCF. apply pok_in. cbn [pok]. split; [eapply dest_in_U; [exact E|apply HT; left; reflexivity]|]. split; [constructor|intros ? []]. }
    destruct (cl_incl D cf cl [(id, cdest t)] col [] _); [|discriminate|destruct (X eq_refl)]. apply IH. intros t0 H0. apply HT. right. exact H0. }
  pose proof (RD (ctrs n) (fun t h => h) 1 []) as K1. destruct (root_loop D cf id j [] (ctrs n) 1 []) as [cl| |] eqn:ER; [| |destruct (K1 eq_refl)].
  - assert (HC : cok D K0 cl). { eapply (root_cok D K0 cf id j [] n); [split; [constructor|intros ? []]|exact E| |apply nil_cok|exact ER]. unfold K0. lia. }
    assert (HL : lok D K0 [mkL cl []]). { split; [constructor; [intros []|constructor]|]. intros s [<-|[]]. exact HC. }
    destruct (fork_any D K0 cf HCF [mkL cl []] 0 HL ltac:(cbn; lia)) as [f Hf]. exists f, cf. rewrite ER. destruct (l_fork D f cf [mkL cl []] 0); [discriminate|discriminate|destruct (Hf eq_refl)].
  - exists 0, cf. rewrite ER. discriminate.
Qed.
