(** * When a decision automaton exists: closures, readings that repeat themselves *)
From Coq Require Import List NArith ZArith Arith Bool Lia ZifyBool ZifyN ZifyNat Relations.
From Verif Require Import CharClass Stream NFA DFA DFADep DFAMin ATN Grammar GrammarProofs CodeGen Lookahead LookSpec LookOrder LookClosure LookItems LookAuto LookFuel LookEnds LookMain.
Import ListNotations.
Local Open Scope nat_scope.

(** ** Relations on finite sets *)
Lemma acc_finite {A} (R : A -> A -> Prop) (Uv : list A) x : (forall y, clos_refl_trans _ R x y -> In y Uv /\ ~ clos_trans _ R y y) -> Acc (fun b a => R a b) x.
Proof.
  assert (G : forall n l x, NoDup l -> incl l Uv -> (forall y, In y l -> clos_trans _ R y x) -> (forall y, clos_refl_trans _ R x y -> In y Uv /\ ~ clos_trans _ R y y) -> length Uv - length l < n -> Acc (fun b a => R a b) x).
  { clear x. induction n as [|n IH]; intros l x ND HI HR HX Hn; [lia|]. constructor. intros y Hy.
    assert (NX : ~ In x l) by (intros Q; destruct (HX x (rt_refl _ _ _)) as [_ Q']; exact (Q' (HR x Q))).
    assert (ND' : NoDup (x :: l)) by (constructor; assumption). assert (HI' : incl (x :: l) Uv) by (intros z [<-|Hz]; [apply (HX x (rt_refl _ _ _))|auto]).
    apply (IH (x :: l) y ND' HI').
    - intros z [<-|Hz]; [apply t_step; exact Hy|]. eapply t_trans; [exact (HR z Hz)|apply t_step; exact Hy].
    - intros z Hz. apply HX. eapply rt_trans; [apply rt_step; exact Hy|exact Hz].
    - pose proof (NoDup_incl_length ND' HI'). cbn [length] in *. lia. }
  intros H. apply (G (S (length Uv)) [] x); [constructor|intros ? []|intros ? []|exact H|cbn; lia].
Qed.
Lemma sfold_okay {A B} (f : B -> A -> sres B) : forall l, (forall b x, In x l -> exists b', f b x = SOk b') -> forall b, exists b', sfold f l b = SOk b'.
Proof.
  induction l as [|x l IH]; intros H b; cbn [sfold]; [eauto|]. destruct (H b x (or_introl eq_refl)) as [b1 E]. rewrite E. apply IH. intros b0 y Hy. apply H. right. exact Hy.
Qed.
Lemma more_ok {A} (r r' : sres A) a : more r r' -> r = SOk a -> r' = SOk a.
Proof. intros H E. rewrite H; [exact E|]. rewrite E. discriminate. Qed.

Lemma clos_trans_in_rt {A} (R : A -> A -> Prop) x y : clos_trans _ R x y -> clos_refl_trans _ R x y.
Proof. induction 1; [apply rt_step; assumption|eapply rt_trans; eassumption]. Qed.

Section Stuck.
Variable D : list (list N * cmach).
Notation node := (list N * nat)%type.
(** The innermost reference is pending already. *)
Definition repeats (x : pos) : Prop :=
  match x with At (y :: up) => exists n, node_at D (y :: up) = Some n /\ csub n <> [] /\ In y up | _ => False end.
(** One can come back here without reading. *)
Definition circles (x : pos) : Prop := exists z, move D x [] z /\ runs D z [] x.
Definition stuck (x : pos) : Prop := repeats x \/ circles x.

(** ** A finished closure has seen nothing of the kind *)
Definition okf (f : nat) (x : pos) : Prop :=
  match x with
  | At p => exists cl col st pr cl', cl_incl D f cl p col st pr = SOk cl'
  | Past p => exists cl col st pr cl', cl_excl D f cl p col st pr = SOk cl'
  end.
Definition meas (f : nat) (x : pos) : nat := match x with At _ => 2 * f | Past _ => 2 * f + 1 end.
Lemma ok_move f x y : okf f x -> move D x [] y -> exists f', okf f' y /\ meas f' y < meas f x.
Proof.
  intros H M. inversion M as [p n E1 E2|p n E1 E2|id i up n t E1 E2 E3| |a b up n E1 E2|id i n s E1 E2 E3]; subst; destruct H as (cl & col & st & pr & cl' & H); destruct f as [|f]; try discriminate; cbn [cl_incl cl_excl] in H.
  - destruct p as [|z up]; [discriminate|]. rewrite E1, E2 in H. exists f. split; [cbn; eauto 8|cbn; lia].
  - destruct p as [|z up]; [discriminate|]. rewrite E1 in H. destruct (csub n) as [|c sub]; [congruence|]. destruct (2 <=? _); [discriminate|]. exists f. split; [cbn; eauto 8|cbn; lia].
  - rewrite E1 in H. destruct (ctrs n) as [|t0 ts] eqn:ET; [destruct E2|]. apply (sfold_step _ _ _ _ t) in H; [|exact E2]. destruct H as (b1 & b2 & H). rewrite E3 in H. cbn [is_epsilon] in H. exists (S f). split; [|cbn; lia].
    destruct (node_at D ((id, cdest t) :: up)) as [m|] eqn:Em; [|discriminate]. exists b1, col, st, (pr ++ [(id, i, ctag t)]), b2. cbn [cl_incl]. rewrite Em. exact H.
  - destruct a as [ia ja]. rewrite E1, E2 in H. exists f. split; [cbn; eauto 8|cbn; lia].
  - rewrite E1, E2 in H. destruct f as [|f]; [discriminate|]. cbn [cl_wild] in H. apply (sfold_step _ _ _ _ s) in H; [|exact E3]. destruct H as (b1 & b2 & H). destruct (2 <=? _); [discriminate|]. exists f. split; [cbn; eauto 8|cbn; lia].
Qed.
Lemma ok_repeat f x : okf f x -> ~ repeats x.
Proof.
  destruct x as [[|y up]|p]; cbn [okf repeats]; [tauto| |tauto]. intros (cl & col & st & pr & cl' & H) (n & E1 & E2 & HI). destruct f as [|f]; [discriminate|]. cbn [cl_incl] in H. rewrite E1 in H.
  destruct (csub n) as [|c sub]; [congruence|]. destruct (2 <=? pcount (y :: up) y) eqn:EC; [discriminate|]. exact (pushable _ _ EC HI).
Qed.
Lemma ok_runs x w y : runs D x w y -> w = [] -> forall f, okf f x -> exists f', okf f' y /\ meas f' y <= meas f x.
Proof.
  induction 1 as [x|x a y b z M R IH]; intros E f H; [exists f; split; [exact H|lia]|]. apply app_eq_nil in E as [-> ->]. destruct (ok_move f x y H M) as (f1 & H1 & L1). destruct (IH eq_refl f1 H1) as (f2 & H2 & L2). exists f2. split; [exact H2|lia].
Qed.
Lemma ok_circle : forall m f x, meas f x < m -> okf f x -> ~ circles x.
Proof.
  induction m as [|m IH]; intros f x Hm H (z & M & R); [lia|]. destruct (ok_move f x z H M) as (f1 & H1 & L1). destruct (ok_runs z [] x R eq_refl f1 H1) as (f2 & H2 & L2). apply (IH f2 x); [lia|exact H2|]. exists z. auto.
Qed.
Lemma ok_stuck f x y : okf f x -> runs D x [] y -> ~ stuck y.
Proof.
  intros H R. destruct (ok_runs x [] y R eq_refl f H) as (f' & H' & _). intros [K|K]; [exact (ok_repeat f' y H' K)|exact (ok_circle _ f' y (Nat.lt_succ_diag_r _) H' K)].
Qed.

(** ** Where nothing is stuck, closures finish *)
Definition nodes_ok : Prop :=
  (forall id i up n t, node_at D ((id, i) :: up) = Some n -> In t (ctrs n) -> node_at D ((id, cdest t) :: up) <> None) /\
  (forall p n, node_at D p = Some n -> csub n <> [] -> node_at D ((csub n, 0) :: p) <> None) /\
  (forall id s, In s (sites D id) -> node_at D [s] <> None).
Hypothesis WF : nodes_ok.
Definition path_of (x : pos) : path := match x with At p | Past p => p end.
Definition pvalid (p : path) : Prop := p <> [] /\ Forall (fun x => node_at D [x] <> None) p.
Lemma pvalid_node x up : pvalid (x :: up) -> exists n, node_at D (x :: up) = Some n.
Proof. intros [_ H]. inversion H as [|? ? K _]; subst. rewrite (node_at_up D x up []). destruct (node_at D [x]); [eauto|congruence]. Qed.
Lemma pvalid_move x w y : pvalid (path_of x) -> move D x w y -> pvalid (path_of y).
Proof.
  intros [H0 H] M. destruct WF as (W1 & W2 & W3). split; [inversion M; subst; cbn [path_of] in *; try discriminate; auto|].
  inversion M as [p n E1 E2|p n E1 E2|id i up n t E1 E2 E3|id i up n t c E1 E2 E3|a b up n E1 E2|id i n s E1 E2 E3]; subst; cbn [path_of] in *.
  - exact H.
  - constructor; [|exact H]. intros Q. apply (W2 p n E1 E2). rewrite (node_at_up D _ p []). exact Q.
  - inversion H; subst. constructor; [|assumption]. intros Q. apply (W1 id i up n t E1 E2). rewrite (node_at_up D _ up []). exact Q.
  - inversion H; subst. constructor; [|assumption]. intros Q. apply (W1 id i up n t E1 E2). rewrite (node_at_up D _ up []). exact Q.
  - inversion H; subst. assumption.
  - constructor; [|constructor]. exact (W3 id s E3).
Qed.
Definition Ns (x : pos) : Prop := forall y, runs D x [] y -> ~ stuck y.
Lemma Ns_move x y : Ns x -> move D x [] y -> Ns y.
Proof. intros H M z R. apply H. eapply runs_eps; eassumption. Qed.
Lemma circle_of x y : runs D x [] y -> move D y [] x -> circles x.
Proof.
  intros R M. apply runs_inv in R as [[-> _]|(a & z & b & E & M1 & R1)]; [exists y; split; [exact M|constructor]|].
  apply nil_app in E as [-> ->]. exists z. split; [exact M1|]. apply (runs_trans D z [] y [] x R1). apply runs_one. exact M.
Qed.
Lemma pcount_zero (p : path) x : ~ In x p -> pcount p x = 0.
Proof. intros H. destruct (pcount p x) eqn:E; [reflexivity|]. destruct H. apply pcount_pos. lia. Qed.
Definition fin (st : path) (x : pos) : Prop :=
  exists f, forall cl col pr, exists cl', match x with At p => cl_incl D f cl p col st pr | Past p => cl_excl D f cl p col st pr end = SOk cl'.
Lemma fin_all x : Acc (fun b a => move D a [] b) x -> Ns x -> pvalid (path_of x) -> forall st, (forall s, In s st -> runs D (Past [s]) [] x) -> fin st x.
Proof.
  induction 1 as [x _ IH]. intros HN HV st HS.
  assert (NEXT : forall y, move D x [] y -> fin st y).
  { intros y M. apply IH; [exact M|exact (Ns_move x y HN M)|exact (pvalid_move x [] y HV M)|]. intros s Hs. apply (runs_trans D _ [] x [] y (HS s Hs)). apply runs_one. exact M. }
  destruct x as [p|p]; cbn [path_of] in HV.
  - destruct p as [|x up]; [destruct (proj1 HV eq_refl)|]. destruct (pvalid_node x up HV) as [n En]. destruct (csub n) as [|c sub] eqn:Es.
    + destruct (NEXT (Past (x :: up))) as [f Hf]; [eapply mv_here; eassumption|]. exists (S f). intros cl col pr. cbn [cl_incl]. rewrite En, Es. apply Hf.
    + destruct (NEXT (At ((c :: sub, 0) :: x :: up))) as [f Hf]; [rewrite <- Es; eapply mv_call; [exact En|congruence]|]. exists (S f). intros cl col pr. cbn [cl_incl]. rewrite En, Es.
      replace (2 <=? pcount (x :: up) x) with false; [apply Hf|]. symmetry. apply Nat.leb_gt. rewrite pcount_head. rewrite pcount_zero; [lia|]. intros HI. apply (HN (At (x :: up)) (runs_refl _ _)). left. exists n. split; [exact En|]. split; [congruence|exact HI].
  - destruct p as [|[id i] up]; [destruct (proj1 HV eq_refl)|]. destruct (pvalid_node (id, i) up HV) as [n En]. destruct (ctrs n) as [|t0 ts] eqn:ET.
    + destruct up as [|y up].
      * assert (UN : exists f, forall s, In s (sites D id) -> forall cl col pr, exists cl', (if 2 <=? pcount st s then SThrow else cl_excl D f cl [s] col (s :: st) pr) = SOk cl').
        { apply (uniform (fun f s => forall cl col pr, exists cl', (if 2 <=? pcount st s then SThrow else cl_excl D f cl [s] col (s :: st) pr) = SOk cl')).
          - intros f f' s Hf Q cl col pr. destruct (Q cl col pr) as [cl' E]. exists cl'. destruct (2 <=? _); [discriminate|]. eapply more_ok; [|exact E]. apply cl_more. exact Hf.
          - intros s Hs. assert (M : move D (Past [(id, i)]) [] (Past [s])) by (eapply mv_out; eassumption).
            assert (NI : ~ In s st) by (intros Q; apply (HN (Past [s]) (runs_one D _ _ _ M)); right; exact (circle_of _ _ (HS s Q) M)).
            destruct (IH (Past [s]) M (Ns_move _ _ HN M) (pvalid_move (Past [(id, i)]) _ _ HV M) (s :: st)) as [f Hf].
            + intros z [<-|Hz]; [constructor|]. apply (runs_trans D _ [] (Past [(id, i)]) [] _ (HS z Hz)). apply runs_one. exact M.
            + exists f. intros cl col pr. rewrite (pcount_zero st s NI). apply Hf. }
        destruct UN as [f Hf]. exists (S (S f)). intros cl col pr. cbn [cl_excl cl_wild]. rewrite En, ET. apply sfold_okay. intros b s Hs. exact (Hf s Hs b col pr).
      * destruct (NEXT (Past (y :: up))) as [f Hf]; [eapply mv_ret; eassumption|]. exists (S f). intros cl col pr. cbn [cl_excl]. rewrite En, ET. apply Hf.
    + set (F := fun (f : nat) (pr : chain) (col : nat) (cl : closure) (t : ctr) => if is_epsilon (clab t) then
            let q := (id, cdest t) :: up in let pr' := pr ++ [(id, i, ctag t)] in
            match node_at D q with
            | None => SThrow
            | Some m => match csub m with
              | [] => cl_excl D f (cl_ins (mkE q col pr') cl) q col st pr'
              | sub => if 2 <=? pcount q (id, cdest t) then SThrow else cl_incl D f cl ((sub, 0) :: q) col st pr'
              end
            end else SOk cl).
      assert (UN : exists f, forall t, In t (ctrs n) -> forall pr col cl, exists cl', F f pr col cl t = SOk cl').
      { apply (uniform (fun f t => forall pr col cl, exists cl', F f pr col cl t = SOk cl')).
        - intros f f' t Hf Q pr col cl. destruct (Q pr col cl) as [cl' E]. exists cl'. eapply more_ok; [|exact E]. unfold F. destruct (is_epsilon (clab t)); [|intros _; reflexivity]. cbn zeta. destruct (node_at D ((id, cdest t) :: up)) as [m|]; [|intros _; reflexivity]. destruct (csub m) as [|c sub]; [apply cl_more; exact Hf|].
          destruct (2 <=? _); [intros _; reflexivity|apply cl_more; exact Hf].
        - intros t Ht. unfold F. destruct (is_epsilon (clab t)) eqn:EE; [|exists 0; eauto]. assert (EL : clab t = []) by (destruct (clab t); [reflexivity|discriminate]).
          destruct (NEXT (At ((id, cdest t) :: up))) as [f Hf]; [eapply mv_eps; eassumption|]. cbn zeta. destruct (node_at D ((id, cdest t) :: up)) as [m|] eqn:Em; [|destruct (proj1 WF id i up n t En Ht Em)].
          destruct f as [|f]; [destruct (Hf [] 0 []) as [? Q]; discriminate|]. exists f. intros pr col cl. specialize (Hf cl col (pr ++ [(id, i, ctag t)])). cbn [cl_incl] in Hf. rewrite Em in Hf. exact Hf. }
      destruct UN as [f Hf]. exists (S f). intros cl col pr. cbn [cl_excl]. rewrite En, ET. apply (sfold_okay (fun cl t => F f pr col cl t)). intros b t Ht. apply Hf. rewrite ET. exact Ht.
Qed.
(** Departures. *)
Definition dfin (st : path) (p : path) : Prop := exists f, forall ds col pr, exists ds', dep_from D f ds p col pr st = SOk ds'.
Lemma dfin_all x : Acc (fun b a => move D a [] b) x -> forall p, x = Past p -> Ns x -> pvalid p -> forall st, (forall s, In s st -> runs D (Past [s]) [] x) -> dfin st p.
Proof.
  induction 1 as [x _ IH]. intros p -> HN HV st HS. destruct p as [|[id i] up]; [destruct (proj1 HV eq_refl)|]. destruct (pvalid_node (id, i) up HV) as [n En]. destruct (ctrs n) as [|t0 ts] eqn:ET.
  - destruct up as [|y up].
    + assert (UN : exists f, forall s, In s (sites D id) -> forall ds col pr, exists ds', (if 2 <=? pcount st s then SThrow else dep_from D f ds [s] col pr (s :: st)) = SOk ds').
      { apply (uniform (fun f s => forall ds col pr, exists ds', (if 2 <=? pcount st s then SThrow else dep_from D f ds [s] col pr (s :: st)) = SOk ds')).
        - intros f f' s Hf Q cl col pr. destruct (Q cl col pr) as [cl' E]. exists cl'. destruct (2 <=? _); [discriminate|]. eapply more_ok; [|exact E]. apply dep_more. exact Hf.
        - intros s Hs. assert (M : move D (Past [(id, i)]) [] (Past [s])) by (eapply mv_out; eassumption).
          assert (NI : ~ In s st) by (intros Q; apply (HN (Past [s]) (runs_one D _ _ _ M)); right; exact (circle_of _ _ (HS s Q) M)).
          destruct (IH (Past [s]) M [s] eq_refl (Ns_move _ _ HN M) (pvalid_move (Past [(id, i)]) _ _ HV M) (s :: st)) as [f Hf].
          + intros z [<-|Hz]; [constructor|]. apply (runs_trans D _ [] (Past [(id, i)]) [] _ (HS z Hz)). apply runs_one. exact M.
          + exists f. intros cl col pr. rewrite (pcount_zero st s NI). apply Hf. }
      destruct UN as [f Hf]. exists (S (S f)). intros cl col pr. cbn [dep_from dep_wild]. rewrite En, ET. apply sfold_okay. intros b s Hs. exact (Hf s Hs b col pr).
    + assert (M : move D (Past ((id, i) :: y :: up)) [] (Past (y :: up))) by (eapply mv_ret; eassumption).
      destruct (IH _ M (y :: up) eq_refl (Ns_move _ _ HN M) (pvalid_move (Past ((id, i) :: y :: up)) _ _ HV M) st) as [f Hf].
      { intros s Hs. apply (runs_trans D _ [] _ [] _ (HS s Hs)). apply runs_one. exact M. }
      exists (S f). intros cl col pr. cbn [dep_from]. rewrite En, ET. apply Hf.
  - exists 1. intros ds col pr. cbn [dep_from]. rewrite En, ET. eauto.
Qed.

(** ** Positions are finitely many *)
Definition posok (x : pos) : Prop := pok D (path_of x).
Lemma pvalid_U p x : pvalid p -> In x p -> In x (U D).
Proof. intros [_ H] Hx. rewrite Forall_forall in H. specialize (H x Hx). destruct (node_at D [x]) as [n|] eqn:E; [|congruence]. eapply node_in_U; exact E. Qed.
Lemma posok_move x w y : posok x -> pvalid (path_of x) -> ~ repeats x -> move D x w y -> posok y.
Proof.
  intros H HV NR M. pose proof (pvalid_move x w y HV M) as HV'. unfold posok in *. destruct (path_of y) as [|z up'] eqn:EY; [destruct (proj1 HV' eq_refl)|]. split; [apply (pvalid_U _ z HV'); left; reflexivity|].
  split; [|intros q Hq; apply (pvalid_U _ q HV'); right; exact Hq].
  inversion M as [p n E1 E2|p n E1 E2|id i up n t E1 E2 E3|id i up n t c E1 E2 E3|a b up n E1 E2|id i n s E1 E2 E3]; subst; cbn [path_of] in *.
  - subst p. apply H.
  - injection EY as <- ->. destruct up' as [|q up']; [discriminate|]. constructor; [|apply H]. intros HI. apply NR. exists n. auto.
  - injection EY as <- <-. apply H.
  - injection EY as <- <-. apply H.
  - injection EY as <- <-. destruct H as (_ & ND & _). inversion ND; assumption.
  - injection EY as <- <-. constructor.
Qed.
Lemma silent_runs x y : clos_refl_trans _ (fun a b => move D a [] b) x y -> runs D x [] y.
Proof. induction 1 as [x y M|x|x y z _ R1 _ R2]; [apply runs_one; exact M|constructor|exact (runs_trans D x [] y [] z R1 R2)]. Qed.
Lemma silent_circle x : clos_trans _ (fun a b => move D a [] b) x x -> circles x.
Proof.
  intros H. apply clos_trans_t1n in H. inversion H as [y M|y z M R]; subst; [exists x; split; [exact M|constructor]|]. exists y. split; [exact M|]. apply silent_runs. apply clos_t1n_trans in R. apply clos_trans_in_rt. exact R.
Qed.
Lemma ends x : posok x -> pvalid (path_of x) -> Ns x -> Acc (fun b a => move D a [] b) x.
Proof.
  intros H1 H2 H3. apply (acc_finite (fun a b => move D a [] b) (map At (PU D) ++ map Past (PU D))). intros y R.
  assert (K : posok y /\ pvalid (path_of y) /\ Ns y).
  { apply clos_rt_rt1n in R. induction R as [x|x y z M R IH]; [auto|]. apply IH; [exact (posok_move x [] y H1 H2 (fun q => H3 x (runs_refl _ _) (or_introl q)) M)|exact (pvalid_move x [] y H2 M)|exact (Ns_move x y H3 M)]. }
  destruct K as (K1 & K2 & K3). split; [|intros C; apply (K3 y (runs_refl _ _)); right; apply silent_circle; exact C].
  pose proof (pok_in D _ K1) as KI. apply in_or_app. destruct y as [p|p]; [left|right]; apply in_map; exact KI.
Qed.
End Stuck.
