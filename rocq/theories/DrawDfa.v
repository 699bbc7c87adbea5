(** The deterministic automata the tool draws have labels that can be drawn (proofs for Properties_Draw.v). *)
From Coq Require Import List NArith Arith Bool Lia.
From Verif Require Import CharClass NFA NFAProofs DFA NFASem DFADep DFAProofs.
Import ListNotations.
Local Open Scope nat_scope.

Definition br (r : range) : Prop := (rs r < re r /\ re r <= 256)%N.
Definition brs (cc : cclass) : Prop := forall r, In r cc -> br r.
Lemma br_merge a b : br a -> br b -> br (r_merge a b).
Proof. unfold br, r_merge. cbn [rs re]. lia. Qed.
Lemma union_loop_br f : forall ri li rj lj c, br ri -> br rj -> brs li -> brs lj -> union_loop f ri li rj lj = Some c -> brs c.
Proof.
  induction f as [|f IH]; intros ri li rj lj c Hi Hj Li Lj H.
  - destruct li as [|x li]; [injection H as <-; exact Lj|]. destruct lj as [|y lj]; [injection H as <-; exact Li|discriminate].
  - destruct li as [|x li]; [injection H as <-; exact Lj|]. destruct lj as [|y lj]; [injection H as <-; exact Li|]. cbn [union_loop] in H.
    assert (Ni : br (next_r li ri)) by (destruct li; [exact Hi|apply Li; right; left; reflexivity]).
    assert (Nj : br (next_r lj rj)) by (destruct lj; [exact Hj|apply Lj; right; left; reflexivity]).
    assert (Li' : brs li) by (intros z Hz; apply Li; right; exact Hz). assert (Lj' : brs lj) by (intros z Hz; apply Lj; right; exact Hz).
    destruct (r_lt ri rj); [|destruct (r_gt ri rj); [|destruct (re ri <? re rj)%N]].
    + destruct (union_loop f (next_r li ri) li rj (y :: lj)) as [u|] eqn:E; [|discriminate]. injection H as <-. intros z [<-|Hz]; [exact Hi|exact (IH _ _ _ _ _ Ni Hj Li' Lj E z Hz)].
    + destruct (union_loop f ri (x :: li) (next_r lj rj) lj) as [u|] eqn:E; [|discriminate]. injection H as <-. intros z [<-|Hz]; [exact Hj|exact (IH _ _ _ _ _ Hi Nj Li Lj' E z Hz)].
    + exact (IH _ _ _ _ _ Ni (br_merge _ _ Hj Hi) Li' Lj H).
    + exact (IH _ _ _ _ _ (br_merge _ _ Hi Hj) Nj Li Lj' H).
Qed.
Lemma union_br a b c : brs a -> brs b -> union a b = Some c -> brs c.
Proof.
  unfold union. intros A B. destruct a as [|x a].
  - destruct b; cbn [length union_loop]; intros H; [destruct (0 + 0); cbn in H; injection H as <-; exact B|].
    cbn [Nat.add length] in H. injection H as <-. exact B.
  - destruct b as [|y b].
    + intros H. destruct (length (x :: a) + length (@nil range)); cbn in H; injection H as <-; exact A.
    + apply union_loop_br; auto; [apply A|apply B]; left; reflexivity.
Qed.
Lemma cc_or_br a b : brs a -> brs b -> brs (cc_or a b).
Proof. intros A B. unfold cc_or. destruct (union a b) eqn:E; [exact (union_br _ _ _ A B E)|intros r []]. Qed.
Definition trb (l : list ntr) : Prop := forall t, In t l -> brs (tlab t).
Lemma merge_tr_br cc d lg : brs cc -> forall st st', trb st -> merge_tr st cc d lg = Some st' -> trb st'.
Proof.
  intros C. induction st as [|t st IH]; intros st' T H; [discriminate|]. cbn [merge_tr] in H. assert (T' : trb st) by (intros u Hu; apply T; right; exact Hu).
  destruct (Nat.eqb (tdest t) d && negb (teps t))%bool.
  - injection H as <-. intros u [<-|Hu]; [cbn [tlab]; apply cc_or_br; [apply T; left; reflexivity|exact C]|exact (T' u Hu)].
  - destruct (merge_tr st cc d lg) as [s|]; [|discriminate]. injection H as <-. intros u [<-|Hu]; [apply T; left; reflexivity|exact (IH s T' eq_refl u Hu)].
Qed.
Lemma add_tr_br cc d lg st : brs cc -> trb st -> trb (add_tr cc d lg st).
Proof.
  intros C T. assert (K : trb (st ++ [mkT cc d lg])) by (intros u Hu; apply in_app_or in Hu as [Hu|[<-|[]]]; [exact (T u Hu)|exact C]).
  unfold add_tr. destruct (is_epsilon cc); [exact K|]. destruct (merge_tr st cc d lg) as [s|] eqn:E; [exact (merge_tr_br cc d lg C st s T E)|exact K].
Qed.
Lemma add_merge_br l : forall r, br r -> brs l -> brs (add_merge l r).
Proof.
  induction l as [|i l IH]; intros r R L; cbn [add_merge]; [intros x [<-|[]]; exact R|]. assert (L' : brs l) by (intros x Hx; apply L; right; exact Hx).
  destruct (r_overlaps i r); [|intros x [<-|Hx]; [exact R|exact (L x Hx)]]. apply IH; [apply br_merge; [exact R|apply L; left; reflexivity]|exact L'].
Qed.
Lemma add_range_br l : forall r, br r -> brs l -> brs (add_range l r).
Proof.
  induction l as [|i l IH]; intros r R L; cbn [add_range]; [intros x [<-|[]]; exact R|]. assert (L' : brs l) by (intros x Hx; apply L; right; exact Hx).
  destruct (r_overlaps i r); [apply add_merge_br; assumption|]. intros x [<-|Hx]; [apply L; left; reflexivity|exact (IH r R L' x Hx)].
Qed.
Definition items_br (l : list (cclass * list nat)) : Prop := forall cc s, In (cc, s) l -> brs cc /\ s <> [].
Lemma dep_add_br r cl : br r -> cl <> [] -> forall l, items_br l -> items_br (dep_add l r cl).
Proof.
  intros R C. induction l as [|[cc s] l IH]; intros H c x Hx; cbn [dep_add] in Hx.
  - destruct Hx as [E|[]]. injection E as <- <-. split; [intros y [<-|[]]; exact R|exact C].
  - destruct (list_eqb cl s).
    + destruct Hx as [E|Hx]; [|apply (H c x); right; exact Hx]. injection E as <- <-. destruct (H cc s (or_introl eq_refl)) as [H1 H2]. split; [apply add_range_br; assumption|exact H2].
    + destruct Hx as [E|Hx]; [injection E as <- <-; apply H; left; reflexivity|]. apply (IH (fun c' s' h => H c' s' (or_intror h)) c x Hx).
Qed.
Lemma dep_loop_br ts : forall bs l, nsorted bs -> (forall b, In b bs -> (b <= 256)%N) -> items_br l -> items_br (dep_loop ts bs l).
Proof.
  induction bs as [|a bs IH]; intros l NS B H; [exact H|]. cbn [dep_loop]. destruct bs as [|b bs]; [exact H|]. inversion NS as [|? ? Ha NS']; subst. cbv zeta.
  apply IH; [exact NS'|intros x Hx; apply B; right; exact Hx|]. destruct (dep_closure ts (mkR a b)) as [|c cl] eqn:E; [exact H|].
  apply dep_add_br; [|discriminate|exact H]. unfold br. cbn [rs re]. specialize (Ha b (or_introl eq_refl)). specialize (B b (or_intror (or_introl eq_refl))). lia.
Qed.
Definition dok (s : dstate) : Prop := dlab s <> [] /\ trb (dtrs s).
Definition doks (D : dfa) : Prop := forall s, In s D -> dok s.
Lemma upd_in {A} (l : list A) : forall i f x, In x (upd_nth l i f) -> In x l \/ exists y, In y l /\ x = f y.
Proof.
  induction l as [|y l IH]; intros i f x H; [destruct H|]. destruct i as [|i]; cbn [upd_nth] in H.
  - destruct H as [<-|H]; [right; exists y; split; [left; reflexivity|reflexivity]|left; right; exact H].
  - destruct H as [<-|H]; [left; left; reflexivity|]. destruct (IH i f x H) as [K|(z & K & E)]; [left; right; exact K|right; exists z; split; [right; exact K|exact E]].
Qed.
Lemma departures_br ts : trb ts -> items_br (departures ts).
Proof.
  intros T. unfold departures. cbv zeta. set (u := filter _ ts). assert (U : trb u) by (intros t Ht; apply T; apply filter_In in Ht as [Ht _]; exact Ht).
  destruct (borders_spec u) as [S1 S2]. apply dep_loop_br; [exact S1| |intros cc s []]. intros b Hb. apply S2 in Hb as (t & r & Ht & Hr & E). pose proof (U t Ht r Hr) as [B1 B2]. destruct E as [->| ->]; lia.
Qed.
Lemma eclose_ne ef A s : s <> [] -> forall r lg, eclose_set ef A s [] false = Some (r, lg) -> r <> [].
Proof.
  intros NE r lg H. destruct (eclose_set_spec _ _ _ _ _ _ _ ss_nil H) as [_ I1]. destruct s as [|q s]; [congruence|].
  intros ->. apply (I1 q). right. exists q. split; [left; reflexivity|constructor].
Qed.
Section Fork.
Variable A : nfa.
Hypothesis HA : forall st, In st A -> trb st.
Lemma label_trs_br l : trb (label_trs A l).
Proof.
  intros t Ht. unfold label_trs in Ht. apply in_flat_map in Ht as (q & _ & Ht). destruct (nth_in_or_default q A []) as [I1|E]; [exact (HA _ I1 t Ht)|rewrite E in Ht; destruct Ht].
Qed.
Lemma fork_items_dok ef index : forall items D D', items_br items -> doks D -> fork_items ef A D index items = Some D' -> doks D'.
Proof.
  induction items as [|[cc s] items IH]; intros D D' HI HD H; cbn [fork_items] in H; [injection H as <-; exact HD|].
  destruct (eclose_set ef A s [] false) as [[ec lg]|] eqn:Ee; [|discriminate]. destruct (HI cc s (or_introl eq_refl)) as [HC HS]. pose proof (eclose_ne _ _ _ HS _ _ Ee) as NE.
  destruct (dfa_add_state D ec lg) as [D1 j] eqn:Ed.
  assert (H1 : doks D1).
  { unfold dfa_add_state in Ed. destruct (find_label D ec 0) as [i|]; injection Ed as <- <-.
    - intros x Hx. apply upd_in in Hx as [Hx|(y & Hy & ->)]; [exact (HD x Hx)|]. destruct (HD y Hy) as [K1 K2]. split; [exact K1|exact K2].
    - intros x Hx. apply in_app_or in Hx as [Hx|[<-|[]]]; [exact (HD x Hx)|]. split; [exact NE|intros t []]. }
  refine (IH _ _ (fun c x h => HI c x (or_intror h)) _ H). intros x Hx. apply upd_in in Hx as [Hx|(y & Hy & ->)]; [exact (H1 x Hx)|].
  destruct (H1 y Hy) as [K1 K2]. split; [exact K1|]. cbn [dfa_add_tr dtrs]. apply add_tr_br; assumption.
Qed.
Lemma fork_dok ef f : (forall D i D', doks D -> fork_states f ef A D i = Some D' -> doks D') /\ (forall D i D', doks D -> fork_loop f ef A D i = Some D' -> doks D').
Proof.
  induction f as [|f [IH1 IH2]]; [split; discriminate|]. split; intros D i D' HD H; cbn [fork_states fork_loop] in H.
  - destruct (fork_items ef A D i (departures (label_trs A (dlab (nth i D dnil))))) as [D1|] eqn:E; [|discriminate].
    exact (IH2 _ _ _ (fork_items_dok _ _ _ _ _ (departures_br _ (label_trs_br _)) HD E) H).
  - destruct (i <? length D); [|injection H as <-; exact HD]. destruct (fork_states f ef A D i) as [D1|] eqn:E; [|discriminate]. exact (IH2 _ _ _ (IH1 _ _ _ HD E) H).
Qed.
Lemma ins_tr_in t l : forall x, In x (ins_tr t l) -> x = t \/ In x l.
Proof. induction l as [|u l IH]; intros x H; cbn [ins_tr] in H; [destruct H as [<-|[]]; auto|]. destruct (tdest t <? tdest u); destruct H as [<-|H]; cbn; auto. destruct (IH x H); auto. Qed.
Lemma sort_trs_in l : forall x, In x (sort_trs l) -> In x l.
Proof. induction l as [|t l IH]; intros x H; [exact H|]. change (sort_trs (t :: l)) with (ins_tr t (sort_trs l)) in H. apply ins_tr_in in H as [->|H]; cbn; auto. Qed.
Lemma plain_dok fuel ef X : dfa_plain fuel ef A = Some X -> doks X.
Proof.
  unfold dfa_plain. destruct (eclose_sub ef A [] 0) as [[ec lg]|] eqn:E; [|discriminate]. destruct (fork_states fuel ef A [mkD ec [] lg false] 0) as [D|] eqn:F; [|discriminate]. intros H. injection H as <-.
  assert (HD : doks D).
  { refine (proj1 (fork_dok ef fuel) _ _ _ _ F). intros s [<-|[]]. split; [|intros t []]. cbn [dlab]. destruct (eclose_sub_spec _ _ _ _ _ _ ss_nil E) as [_ I1]. intros ->. apply (I1 0). right. constructor. }
  intros s Hs. apply in_map_iff in Hs as (x & <- & Hx). destruct (HD x Hx) as [K1 K2]. split; [exact K1|]. cbn [finish_state dtrs]. intros t Ht. exact (K2 t (sort_trs_in _ _ Ht)).
Qed.
Lemma min_scan_dok : forall todo D reps remap, doks D -> doks (fst (fst (min_scan D todo reps remap))).
Proof.
  induction todo as [|i todo IH]; intros D reps remap HD; [exact HD|]. cbn [min_scan]. destruct (find_equiv D reps (nth i D dnil)) as [r|]; [|apply IH; exact HD].
  apply IH. intros x Hx. apply upd_in in Hx as [Hx|(y & Hy & ->)]; [exact (HD x Hx)|]. destruct (HD y Hy) as [K1 K2]. split; assumption.
Qed.
Lemma redirect_dok l : forall D, doks D -> doks (fold_left (fun D p => redirect (fst p) (snd p) D) l D).
Proof.
  induction l as [|p l IH]; intros D HD; [exact HD|]. cbn [fold_left]. apply IH. intros s Hs. unfold redirect in Hs. apply in_map_iff in Hs as (x & <- & Hx). destruct (HD x Hx) as [K1 K2]. split; [exact K1|].
  cbn [dtrs]. intros t Ht. apply in_map_iff in Ht as (u & <- & Hu). destruct (tdest u =? fst p); [exact (K2 u Hu)|exact (K2 u Hu)].
Qed.
Lemma redirect_len l : forall D, length (fold_left (fun D p => redirect (fst p) (snd p) D) l D) = length D.
Proof. induction l as [|p l IH]; intros D; [reflexivity|]. cbn [fold_left]. rewrite IH. unfold redirect. apply map_length. Qed.
Lemma min_scan_reps n : forall todo D reps remap, (forall i, In i todo -> i < n) -> (forall i, In i reps -> i < n) ->
  length (fst (fst (min_scan D todo reps remap))) = length D /\ forall i, In i (snd (fst (min_scan D todo reps remap))) -> i < n.
Proof.
  induction todo as [|i todo IH]; intros D reps remap HT HR; [split; [reflexivity|exact HR]|]. cbn [min_scan]. assert (HT' : forall i, In i todo -> i < n) by (intros x Hx; apply HT; right; exact Hx).
  destruct (find_equiv D reps (nth i D dnil)) as [r|].
  - destruct (IH (upd_nth D r (set_long (dlong (nth i D dnil)))) reps (remap ++ [(i, r)]) HT' HR) as [L1 L2]. split; [rewrite L1; apply NFAProofs.upd_length|exact L2].
  - apply IH; [exact HT'|]. intros x Hx. apply in_app_or in Hx as [Hx|[<-|[]]]; [exact (HR x Hx)|apply HT; left; reflexivity].
Qed.
Theorem build_dok fuel ef X : dfa_build fuel ef A = Some X -> doks X.
Proof.
  unfold dfa_build. destruct (dfa_plain fuel ef A) as [P|] eqn:E; [|discriminate]. intros H. injection H as <-. pose proof (plain_dok _ _ _ E) as HP.
  unfold minimize. pose proof (min_scan_dok (seq 0 (length P)) P [] [] HP) as M1.
  pose proof (min_scan_reps (length P) (seq 0 (length P)) P [] [] ltac:(intros i Hi; apply in_seq in Hi; lia) ltac:(intros i [])) as [M2 M3].
  destruct (min_scan P (seq 0 (length P)) [] []) as [[D1 reps] remap]. cbn [fst snd] in *.
  pose proof (redirect_dok remap D1 M1) as R1. pose proof (redirect_len remap D1) as R2. set (D2 := fold_left _ remap D1) in *.
  intros s Hs. unfold filter_nodes in Hs. apply in_map_iff in Hs as (i & <- & Hi). cbv zeta. specialize (M3 i Hi). assert (I2 : In (nth i D2 dnil) D2) by (apply nth_In; lia).
  destruct (R1 _ I2) as [K1 K2]. split; [exact K1|]. cbn [dtrs]. intros t Ht. apply in_map_iff in Ht as (u & <- & Hu). apply filter_In in Hu as [Hu _]. exact (K2 u Hu).
Qed.
End Fork.
