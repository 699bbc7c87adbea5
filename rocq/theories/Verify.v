(** * Model of grammar verification and of the construction of tables by the code generator
    (src/core/Grammar.cpp, ATN.cpp, CompositeATN.cpp, CodeGenEM64T.cpp) *)
From Coq Require Import List NArith ZArith Arith Bool Lia.
From Verif Require Import CharClass Stream NFA DFA DFATerm ATN Grammar GrammarProofs CodeGen ParserGen Lookahead LookFuel LookEnds.
Import ListNotations.
Local Open Scope nat_scope.

Notation rulenets := (list (list N * (N * atn))).
(** ATNMachine::verify_invocations: ATN.cpp:210-226. *)
Definition invocations_ok (nets : rulenets) (M : atn) : bool :=
  forallb (fun n => match nt n with NInv id => match lookup nets id with Some _ => true | None => false end | _ => true end) M.
(** CompositeATN::verify_decisions: CompositeATN.cpp:158-182.  The nodes of one machine from number [i] on; an exception
    of the construction is caught and answered with false.  SFuel: the construction has not ended. *)
Fixpoint check_nodes (D : list (list N * cmach)) (k : nat) (name : list N) (i : nat) (M : atn) : sres bool :=
  match M with
  | [] => SOk true
  | n :: M' =>
    if 1 <? length (atrs n) then
      match decision D k k name i with
      | SOk _ => check_nodes D k name (S i) M'
      | SThrow => SOk false
      | SFuel => SFuel
      end
    else check_nodes D k name (S i) M'
  end.
Fixpoint check_nets (D : list (list N * cmach)) (k : nat) (nets : rulenets) : sres bool :=
  match nets with
  | [] => SOk true
  | (name, (_, M)) :: nets' =>
    match check_nodes D k name 0 M with
    | SOk true => check_nets D k nets'
    | r => r
    end
  end.
(** Grammar::verify: Grammar.cpp:134-150. [k] bounds the steps.  (None of [composite]: the depth of a bounded
    recursion is exceeded; excluded below for the networks of grammars.) *)
Definition verify (k : nat) (nets : rulenets) : sres bool :=
  if forallb (fun p => invocations_ok nets (snd (snd p))) nets then
    match composite nets with Some D => check_nets D k nets | None => SFuel end
  else SOk false.

(** What ParserEM64T builds while it emits the code of a node, CodeGenEM64T.cpp:346-405: the automaton of a pattern (368),
    then the decision table if there are two ways on or more (405).  The result: the table ([] if there is none). *)
Definition gen_look (D : list (list N * cmach)) (k : nat) (name : list N) (i : nat) (n : anode) : sres ldfa :=
  if 1 <? length (atrs n) then decision D k k name i else SOk [].
Definition gen_node (D : list (list N * cmach)) (k : nat) (name : list N) (i : nat) (n : anode) : sres ldfa :=
  match nt n with
  | NReg A => match dfa_build k k A with Some _ => gen_look D k name i n | None => SFuel end
  | _ => gen_look D k name i n
  end.
(** emit_machine: CodeGenEM64T.cpp:315-411; the loop of the constructor: 126-131. *)
Fixpoint gen_nodes (D : list (list N * cmach)) (k : nat) (name : list N) (i : nat) (M : atn) : sres (list ldfa) :=
  match M with
  | [] => SOk []
  | n :: M' =>
    match gen_node D k name i n with
    | SOk T => match gen_nodes D k name (S i) M' with SOk Ts => SOk (T :: Ts) | SThrow => SThrow | SFuel => SFuel end
    | SThrow => SThrow | SFuel => SFuel
    end
  end.
Fixpoint gen_nets (D : list (list N * cmach)) (k : nat) (nets : rulenets) : sres (list (list ldfa)) :=
  match nets with
  | [] => SOk []
  | (name, (_, M)) :: nets' =>
    match gen_nodes D k name 0 M with
    | SOk Ts => match gen_nets D k nets' with SOk X => SOk (Ts :: X) | SThrow => SThrow | SFuel => SFuel end
    | SThrow => SThrow | SFuel => SFuel
    end
  end.
(** ParserEM64T(grammar): CodeGenEM64T.cpp:83-150.  An exception is not caught.  The machine code itself is a function of the
    networks and of these tables (ParserGen.v). *)
Definition generate (k : nat) (nets : rulenets) : sres (list (list ldfa)) :=
  match composite nets with Some D => gen_nets D k nets | None => SFuel end.
(** The program emitted: networks, automata of the patterns and tables. *)
Definition program (k : nat) (nets : rulenets) (looks : list (list ldfa)) (junk : nat -> nat -> N -> N) (buf : N) : compiled :=
  mkC nets (fun A => match dfa_build k k A with Some X => X | None => [] end) (fun m i => nth i (nth m looks []) []) junk buf.

(** ** More steps change nothing *)
Lemma eclose_set_mono f f' A : f <= f' -> forall qs cl lg r, eclose_set f A qs cl lg = Some r -> eclose_set f' A qs cl lg = Some r.
Proof.
  intros Hf. induction qs as [|q qs IH]; intros cl lg r H; cbn [eclose_set] in *; [exact H|]. destruct (eclose_sub f A cl q) as [[c l]|] eqn:E; [|discriminate].
  rewrite (eclose_mono f f' _ _ _ _ Hf E). apply IH. exact H.
Qed.
Lemma fork_items_mono f f' A index : f <= f' -> forall items D D', fork_items f A D index items = Some D' -> fork_items f' A D index items = Some D'.
Proof.
  intros Hf. induction items as [|[cc s] items IH]; intros D D' H; cbn [fork_items] in *; [exact H|]. destruct (eclose_set f A s [] false) as [[ec lg]|] eqn:E; [|discriminate].
  rewrite (eclose_set_mono f f' A Hf _ _ _ _ E). destruct (dfa_add_state D ec lg) as [D1 j]. apply IH. exact H.
Qed.
Lemma fork_ef_mono ef ef' A : ef <= ef' -> forall f,
  (forall D i D', fork_states f ef A D i = Some D' -> fork_states f ef' A D i = Some D') /\
  (forall D i D', fork_loop f ef A D i = Some D' -> fork_loop f ef' A D i = Some D').
Proof.
  intros He. induction f as [|f [IH1 IH2]]; split; intros D i D' H; try discriminate; cbn [fork_states fork_loop] in *.
  - destruct (fork_items ef A D i _) as [D1|] eqn:E; [|discriminate]. rewrite (fork_items_mono ef ef' A i He _ _ _ E). apply IH2. exact H.
  - destruct (i <? length D); [|exact H]. destruct (fork_states f ef A D i) as [D1|] eqn:E; [|discriminate]. rewrite (IH1 _ _ _ E). apply IH2. exact H.
Qed.
Lemma dfa_build_mono k k' A X : k <= k' -> dfa_build k k A = Some X -> dfa_build k' k' A = Some X.
Proof.
  intros Hk. unfold dfa_build, dfa_plain. destruct (eclose_sub k A [] 0) as [[ec lg]|] eqn:E; [|discriminate]. rewrite (eclose_mono k k' _ _ _ _ Hk E).
  destruct (fork_states k k A _ 0) as [D|] eqn:F; [|discriminate]. apply (proj1 (fork_ef_mono k k' A Hk k)) in F. apply (proj1 (fork_mono k' A k) k') in F; [|exact Hk]. rewrite F. auto.
Qed.
Lemma check_nodes_more D k k' name : k <= k' -> forall M i, more (check_nodes D k name i M) (check_nodes D k' name i M).
Proof.
  intros Hk. induction M as [|n M IH]; intros i; cbn [check_nodes]; [intros _; reflexivity|]. destruct (1 <? length (atrs n)); [|apply IH].
  pose proof (decision_more D k k' k k' name i Hk Hk) as K. destruct (decision D k k name i) as [T| |]; [rewrite K by discriminate; apply IH|rewrite K by discriminate; intros _; reflexivity|intros H; destruct (H eq_refl)].
Qed.
Lemma check_nets_more D k k' : k <= k' -> forall nets, more (check_nets D k nets) (check_nets D k' nets).
Proof.
  intros Hk. induction nets as [|[name [id M]] nets IH]; cbn [check_nets]; [intros _; reflexivity|].
  pose proof (check_nodes_more D k k' name Hk M 0) as K. destruct (check_nodes D k name 0 M) as [[]| |]; [rewrite K by discriminate; exact IH|rewrite K by discriminate; intros _; reflexivity|rewrite K by discriminate; intros _; reflexivity|intros H; destruct (H eq_refl)].
Qed.
Lemma verify_more k k' nets : k <= k' -> more (verify k nets) (verify k' nets).
Proof.
  intros Hk. unfold verify. destruct (forallb _ nets); [|intros _; reflexivity]. destruct (composite nets) as [D|]; [apply check_nets_more; exact Hk|intros _; reflexivity].
Qed.
Lemma gen_look_more D k k' name i n : k <= k' -> more (gen_look D k name i n) (gen_look D k' name i n).
Proof. intros Hk. unfold gen_look. destruct (1 <? length (atrs n)); [apply decision_more; exact Hk|intros _; reflexivity]. Qed.
Lemma gen_node_more D k k' name i n : k <= k' -> more (gen_node D k name i n) (gen_node D k' name i n).
Proof.
  intros Hk. unfold gen_node. destruct (nt n) as [|id|s|A|]; try (apply gen_look_more; exact Hk). destruct (dfa_build k k A) as [X|] eqn:E; [|intros H; destruct (H eq_refl)].
  rewrite (dfa_build_mono k k' A X Hk E). apply gen_look_more. exact Hk.
Qed.
Lemma gen_nodes_more D k k' name : k <= k' -> forall M i, more (gen_nodes D k name i M) (gen_nodes D k' name i M).
Proof.
  intros Hk. induction M as [|n M IH]; intros i; cbn [gen_nodes]; [intros _; reflexivity|]. pose proof (gen_node_more D k k' name i n Hk) as K.
  destruct (gen_node D k name i n) as [T| |]; [rewrite K by discriminate|rewrite K by discriminate; intros _; reflexivity|intros H; destruct (H eq_refl)].
  pose proof (IH (S i)) as K2. destruct (gen_nodes D k name (S i) M) as [Ts| |]; [rewrite K2 by discriminate; intros _; reflexivity|rewrite K2 by discriminate; intros _; reflexivity|intros H; destruct (H eq_refl)].
Qed.
Lemma gen_nets_more D k k' : k <= k' -> forall nets, more (gen_nets D k nets) (gen_nets D k' nets).
Proof.
  intros Hk. induction nets as [|[name [id M]] nets IH]; cbn [gen_nets]; [intros _; reflexivity|]. pose proof (gen_nodes_more D k k' name Hk M 0) as K.
  destruct (gen_nodes D k name 0 M) as [T| |]; [rewrite K by discriminate|rewrite K by discriminate; intros _; reflexivity|intros H; destruct (H eq_refl)].
  destruct (gen_nets D k nets) as [Ts| |]; [rewrite IH by discriminate; intros _; reflexivity|rewrite IH by discriminate; intros _; reflexivity|intros H; destruct (H eq_refl)].
Qed.
Lemma generate_more k k' nets : k <= k' -> more (generate k nets) (generate k' nets).
Proof. intros Hk. unfold generate. destruct (composite nets) as [D|]; [apply gen_nets_more; exact Hk|intros H; destruct (H eq_refl)]. Qed.

(** ** What the answers say *)
Section Says.
Variables (D : list (list N * cmach)) (k : nat).
Definition asks (M : atn) (i : nat) : Prop := i < length M /\ 2 <= length (atrs (nth i M blank)).
Lemma check_nodes_true name : forall M i, check_nodes D k name i M = SOk true <-> forall j, asks M j -> exists T, decision D k k name (i + j) = SOk T.
Proof.
  induction M as [|n M IH]; intros i; cbn [check_nodes]; [split; [intros _ j [H _]; cbn in H; lia|reflexivity]|]. unfold asks.
  assert (R : (forall j, asks M j -> exists T, decision D k k name (S i + j) = SOk T) <-> forall j, 1 <= j -> j < length (n :: M) /\ 2 <= length (atrs (nth j (n :: M) blank)) -> exists T, decision D k k name (i + j) = SOk T).
  { split.
    - intros H [|j] Hj [A B]; [lia|]. destruct (H j) as [T E]; [split; [cbn in A; lia|exact B]|]. exists T. rewrite <- E. f_equal. lia.
    - intros H j [A B]. destruct (H (S j) ltac:(lia)) as [T E]; [split; [cbn; lia|exact B]|]. exists T. rewrite <- E. f_equal. lia. }
  destruct (1 <? length (atrs n)) eqn:E1.
  - apply Nat.ltb_lt in E1. destruct (decision D k k name i) as [T| |] eqn:ED.
    + rewrite IH, R. split; intros H j; [|intros _; apply H]. destruct j as [|j]; [intros _; exists T; rewrite Nat.add_0_r; exact ED|apply H; lia].
    + split; [discriminate|]. intros H. destruct (H 0) as [T E]; [cbn; split; lia|]. rewrite Nat.add_0_r in E. congruence.
    + split; [discriminate|]. intros H. destruct (H 0) as [T E]; [cbn; split; lia|]. rewrite Nat.add_0_r in E. congruence.
  - apply Nat.ltb_ge in E1. rewrite IH, R. split; intros H j; [|intros _; apply H]. destruct j as [|j]; [cbn; lia|apply H; lia].
Qed.
Lemma check_nodes_false name : forall M i, check_nodes D k name i M = SOk false -> exists j, asks M j /\ decision D k k name (i + j) = SThrow.
Proof.
  induction M as [|n M IH]; intros i; cbn [check_nodes]; [discriminate|]. intros H.
  assert (R : check_nodes D k name (S i) M = SOk false -> exists j, asks (n :: M) j /\ decision D k k name (i + j) = SThrow).
  { intros F. destruct (IH _ F) as (j & [A B] & E). exists (S j). split; [split; [cbn; lia|exact B]|]. rewrite <- E. f_equal. lia. }
  destruct (1 <? length (atrs n)) eqn:E1; [|auto]. apply Nat.ltb_lt in E1. destruct (decision D k k name i) as [T| |] eqn:ED; [auto| |discriminate].
  exists 0. split; [split; [cbn; lia|cbn; lia]|]. rewrite Nat.add_0_r. exact ED.
Qed.
Lemma check_nodes_throw name : forall M i, check_nodes D k name i M <> SThrow.
Proof. induction M as [|n M IH]; intros i; cbn [check_nodes]; [discriminate|]. destruct (1 <? length (atrs n)); [destruct (decision D k k name i)|]; auto; discriminate. Qed.
Lemma check_nets_true : forall nets, check_nets D k nets = SOk true <-> forall name id M i, In (name, (id, M)) nets -> asks M i -> exists T, decision D k k name i = SOk T.
Proof.
  induction nets as [|[name [id M]] nets IH]; cbn [check_nets]; [split; [intros _ ? ? ? ? []|reflexivity]|].
  destruct (check_nodes D k name 0 M) as [[]| |] eqn:E.
  - rewrite IH. pose proof (proj1 (check_nodes_true name M 0) E) as K. split.
    + intros H name' id' M' i [Q|Q]; [injection Q as <- <- <-; apply K|exact (H _ _ _ _ Q)].
    + intros H name' id' M' i Q. exact (H _ _ _ _ (or_intror Q)).
  - split; [discriminate|]. intros H. rewrite (proj2 (check_nodes_true name M 0)) in E; [discriminate|]. intros j. exact (H _ _ _ _ (or_introl eq_refl)).
  - split; [discriminate|]. intros H. rewrite (proj2 (check_nodes_true name M 0)) in E; [discriminate|]. intros j. exact (H _ _ _ _ (or_introl eq_refl)).
  - split; [discriminate|]. intros H. rewrite (proj2 (check_nodes_true name M 0)) in E; [discriminate|]. intros j. exact (H _ _ _ _ (or_introl eq_refl)).
Qed.
Lemma check_nets_false : forall nets, check_nets D k nets = SOk false -> exists name id M i, In (name, (id, M)) nets /\ asks M i /\ decision D k k name i = SThrow.
Proof.
  induction nets as [|[name [id M]] nets IH]; cbn [check_nets]; [discriminate|]. destruct (check_nodes D k name 0 M) as [[]| |] eqn:E; intros H; try discriminate.
  - destruct (IH H) as (name' & id' & M' & i & A & B). exists name', id', M', i. split; [right; exact A|exact B].
  - destruct (check_nodes_false name M 0 E) as (j & A & B). exists name, id, M, j. split; [left; reflexivity|auto].
Qed.
Lemma check_nets_done nets : (forall name id M i, In (name, (id, M)) nets -> asks M i -> decision D k k name i <> SFuel) -> check_nets D k nets <> SFuel.
Proof.
  assert (P : forall name M i, (forall j, asks M j -> decision D k k name (i + j) <> SFuel) -> check_nodes D k name i M <> SFuel).
  { induction M as [|n M IH]; intros i H; cbn [check_nodes]; [discriminate|].
    assert (R : check_nodes D k name (S i) M <> SFuel). { apply IH. intros j [A B]. replace (S i + j) with (i + S j) by lia. apply H. split; [cbn; lia|exact B]. }
    destruct (1 <? length (atrs n)) eqn:E1; [|exact R]. apply Nat.ltb_lt in E1. assert (Q : decision D k k name i <> SFuel) by (rewrite <- (Nat.add_0_r i); apply H; split; cbn; lia).
    destruct (decision D k k name i); [exact R|discriminate|destruct (Q eq_refl)]. }
  induction nets as [|[name [id M]] nets IH]; intros H; cbn [check_nets]; [discriminate|].
  assert (Q : check_nodes D k name 0 M <> SFuel) by (apply P; intros j; exact (H _ _ _ _ (or_introl eq_refl))).
  destruct (check_nodes D k name 0 M) as [[]| |]; [|discriminate|discriminate|destruct (Q eq_refl)]. apply IH. intros name' id' M' i Hi. exact (H _ _ _ _ (or_intror Hi)).
Qed.
Lemma check_nets_throw : forall nets, check_nets D k nets <> SThrow.
Proof. induction nets as [|[name [id M]] nets IH]; cbn [check_nets]; [discriminate|]. pose proof (check_nodes_throw name M 0). destruct (check_nodes D k name 0 M) as [[]| |]; auto; discriminate. Qed.

Lemma gen_nodes_spec name : forall M i Ts, gen_nodes D k name i M = SOk Ts <-> length Ts = length M /\ forall j, j < length M -> gen_node D k name (i + j) (nth j M blank) = SOk (nth j Ts []).
Proof.
  induction M as [|n M IH]; intros i Ts; cbn [gen_nodes].
  - split; [intros E; injection E as <-; split; [reflexivity|cbn; lia]|]. intros [L _]. destruct Ts; [reflexivity|discriminate].
  - split.
    + destruct (gen_node D k name i n) as [T| |] eqn:E; try discriminate. destruct (gen_nodes D k name (S i) M) as [Ts'| |] eqn:E2; try discriminate. intros Q. injection Q as <-.
      destruct (proj1 (IH (S i) Ts') E2) as [L H]. split; [cbn; lia|]. intros [|j] Hj; cbn [nth]; [rewrite Nat.add_0_r; exact E|]. rewrite <- H by (cbn in Hj; lia). f_equal. lia.
    + intros [L H]. destruct Ts as [|T Ts]; [discriminate|]. pose proof (H 0 ltac:(cbn; lia)) as H0. rewrite Nat.add_0_r in H0. cbn [nth] in H0. rewrite H0.
      rewrite (proj2 (IH (S i) Ts)); [reflexivity|]. split; [cbn in L; lia|]. intros j Hj. specialize (H (S j) ltac:(cbn; lia)). cbn [nth] in H. rewrite <- H. f_equal. lia.
Qed.
Lemma gen_nets_spec : forall nets X, gen_nets D k nets = SOk X <-> length X = length nets /\ forall m name id M, nth_error nets m = Some (name, (id, M)) -> gen_nodes D k name 0 M = SOk (nth m X []).
Proof.
  induction nets as [|[name [id M]] nets IH]; intros X; cbn [gen_nets].
  - split; [intros E; injection E as <-; split; [reflexivity|intros [|m] ? ? ?; discriminate]|]. intros [L _]. destruct X; [reflexivity|discriminate].
  - split.
    + destruct (gen_nodes D k name 0 M) as [T| |] eqn:E; try discriminate. destruct (gen_nets D k nets) as [X'| |] eqn:E2; try discriminate. intros Q. injection Q as <-.
      destruct (proj1 (IH X') eq_refl) as [L H]. split; [cbn; lia|]. intros [|m] name' id' M' Hm; cbn in Hm; [injection Hm as <- <- <-; exact E|]. cbn [nth]. exact (H _ _ _ _ Hm).
    + intros [L H]. destruct X as [|T X]; [discriminate|]. rewrite (H 0 name id M eq_refl). cbn [nth]. rewrite (proj2 (IH X)); [reflexivity|]. split; [cbn in L; lia|]. intros m name' id' M' Hm. exact (H (S m) _ _ _ Hm).
Qed.
(** The construction succeeds iff every piece does. *)
Lemma gen_nets_ok nets : (exists X, gen_nets D k nets = SOk X) <-> forall name id M i, In (name, (id, M)) nets -> i < length M -> exists T, gen_node D k name i (nth i M blank) = SOk T.
Proof.
  assert (P : forall name M i, (exists Ts, gen_nodes D k name i M = SOk Ts) <-> forall j, j < length M -> exists T, gen_node D k name (i + j) (nth j M blank) = SOk T).
  { induction M as [|n M IH]; intros i; cbn [gen_nodes]; [split; [intros _ j Hj; cbn in Hj; lia|eauto]|]. split.
    - intros [Ts E] j Hj. change (gen_nodes D k name i (n :: M) = SOk Ts) in E. apply gen_nodes_spec in E as [_ E]. eauto.
    - intros H. destruct (H 0 ltac:(cbn; lia)) as [T E]. rewrite Nat.add_0_r in E. cbn [nth] in E. rewrite E.
      destruct (proj2 (IH (S i))) as [Ts ->]; [|eauto]. intros j Hj. destruct (H (S j) ltac:(cbn; lia)) as [T' E']. exists T'. rewrite <- E'. cbn [nth]. f_equal. lia. }
  induction nets as [|[name [id M]] nets IH]; cbn [gen_nets]; [split; [intros _ ? ? ? ? []|eauto]|]. split.
  - intros [X E]. destruct (gen_nodes D k name 0 M) as [T| |] eqn:E1; try discriminate. destruct (gen_nets D k nets) as [X'| |] eqn:E2; try discriminate.
    pose proof (proj1 IH (ex_intro _ _ eq_refl)) as K. intros name' id' M' i [Q|Q] Hi; [|exact (K _ _ _ _ Q Hi)]. injection Q as <- <- <-. exact (proj1 (P name M 0) (ex_intro _ _ E1) i Hi).
  - intros H. destruct (proj2 (P name M 0)) as [T ->]; [intros j; exact (H _ _ _ _ (or_introl eq_refl))|]. destruct (proj2 IH) as [X ->]; [|eauto]. intros name' id' M' i Hi. exact (H _ _ _ _ (or_intror Hi)).
Qed.
(** A table is never empty. *)
Lemma upd_len {A} (f : A -> A) : forall l i, length (upd_nth l i f) = length l.
Proof. induction l as [|x l IH]; intros [|i]; cbn; auto. Qed.
Lemma items_grow cf index : forall items L L', l_items D cf L index items = SOk L' -> length L <= length L'.
Proof.
  induction items as [|[r s] items IH]; intros L L' H; cbn [l_items] in H; [injection H as <-; lia|]. destruct (0 <? closure_color 0 s)%Z.
  - apply IH in H. rewrite upd_len in H. exact H.
  - destruct (build_closure D cf s) as [ec| |]; try discriminate. unfold l_add_state in H. destruct (find_closure L ec 0); apply IH in H; rewrite upd_len in H; [exact H|rewrite app_length in H; lia].
Qed.
Lemma fork_grow cf : forall f, (forall L i L', l_fork D f cf L i = SOk L' -> length L <= length L') /\ (forall L i L', l_loop D f cf L i = SOk L' -> length L <= length L').
Proof.
  induction f as [|f [IH1 IH2]]; [split; discriminate|]. split; intros L i L' H.
  - rewrite l_fork_S in H. destruct (departure_set D cf _) as [items| |]; try discriminate. destruct (l_items D cf L i items) as [L1| |] eqn:E; try discriminate. apply items_grow in E. apply IH2 in H. lia.
  - rewrite l_loop_S in H. destruct (i <? length L); [|injection H as <-; lia]. destruct (l_fork D f cf L i) as [L1| |] eqn:E; try discriminate. apply IH1 in E. apply IH2 in H. lia.
Qed.
Lemma scan_keeps L : forall todo reps remap, incl reps (fst (l_scan L todo reps remap)).
Proof.
  induction todo as [|i todo IH]; intros reps remap x Hx; cbn [l_scan]; [exact Hx|]. destruct (l_equiv L reps (nth i L [])) as [r|]; apply IH; [exact Hx|apply in_or_app; left; exact Hx].
Qed.
Lemma minimize_ne L : L <> [] -> l_minimize L <> [].
Proof.
  intros H. unfold l_minimize. destruct (l_scan L (seq 0 (length L)) [] []) as [reps remap] eqn:E. destruct L as [|s L]; [destruct (H eq_refl)|].
  assert (K : In 0 reps). { change (In 0 (fst (reps, remap))). rewrite <- E. cbn [length seq l_scan l_equiv]. apply scan_keeps. left. reflexivity. }
  unfold l_filter. destruct reps; [destruct K|discriminate].
Qed.
Lemma decision_ne f cf name i T : decision D f cf name i = SOk T -> T <> [].
Proof.
  unfold decision. destruct (mach D name) as [Q|]; [|discriminate]. destruct (convert_index Q i 0) as [j|]; [|discriminate]. unfold ldfa_build. destruct (ldfa_plain D f cf [(name, j)]) as [L| |] eqn:E; try discriminate.
  intros H. injection H as <-. apply minimize_ne. unfold ldfa_plain in E. destruct (root_closure D cf _) as [cl| |]; try discriminate. destruct (l_fork D f cf [mkL cl []] 0) as [L'| |] eqn:F; try discriminate.
  injection E as <-. apply (proj1 (fork_grow cf f)) in F. cbn in F. destruct L'; [cbn in F; lia|discriminate].
Qed.
End Says.
