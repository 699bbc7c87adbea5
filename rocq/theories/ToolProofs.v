(** Places as text: printing and reading them. *)
From Coq Require Import List NArith Arith Bool Lia ZifyBool ZifyN ZifyNat.
From Verif Require Import CharClass Stream StreamSpec StreamProofs GrammarSpec ATNParse GrammarProofs PathSpec Tool.
Import ListNotations.
Local Open Scope nat_scope.

(** ** Numbers *)
Lemma decimal_app a b : decimal (a ++ b) = fold_left (fun v c => 10 * v + (c - 48))%N b (decimal a).
Proof. unfold decimal. apply fold_left_app. Qed.
Lemma decimal_shift b : forall v, fold_left (fun v c => 10 * v + (c - 48))%N b v = (v * 10 ^ N.of_nat (length b) + decimal b)%N.
Proof.
  unfold decimal. induction b as [|c b IH]; intros v; [cbn; lia|]. cbn [fold_left length]. rewrite IH, (IH (10 * 0 + (c - 48))%N).
  replace (N.of_nat (S (length b))) with (N.succ (N.of_nat (length b))) by lia. rewrite N.pow_succ_r'. ring.
Qed.
Lemma digits_f_spec fuel : forall n acc, (n < 2 ^ N.of_nat fuel)%N -> (0 < fuel) ->
  exists w, digits_f fuel n acc = w ++ acc /\ numeral w n.
Proof.
  induction fuel as [|f IH]; intros n acc H L; [lia|]. cbn [digits_f]. destruct (n <? 10)%N eqn:E.
  - exists [(48 + n mod 10)%N]. split; [reflexivity|]. rewrite N.mod_small by lia. split; [discriminate|]. split; [intros c [<-|[]]; lia|]. unfold decimal. cbn [fold_left]. lia.
  - assert (f <> 0) by (intros ->; cbn in H; lia). assert (Q : (n / 10 < 2 ^ N.of_nat f)%N).
    { replace (N.of_nat (S f)) with (N.succ (N.of_nat f)) in H by lia. rewrite N.pow_succ_r' in H. apply N.div_lt_upper_bound; lia. }
    destruct (IH (n / 10)%N ((48 + n mod 10)%N :: acc) Q ltac:(lia)) as (w & -> & W1 & W2 & W3). exists (w ++ [(48 + n mod 10)%N]). rewrite <- app_assoc. split; [reflexivity|].
    assert (n mod 10 < 10)%N by (apply N.mod_lt; lia). split; [destruct w; discriminate|]. split.
    + intros c Hc. apply in_app_or in Hc as [Hc|[<-|[]]]; [auto|lia].
    + rewrite decimal_app. cbn [fold_left]. rewrite W3. pose proof (N.div_mod n 10 ltac:(lia)). lia.
Qed.
Lemma digits_spec n : numeral (digits n) n.
Proof.
  unfold digits. destruct (digits_f_spec (S (N.to_nat (N.log2 n))) n []) as (w & E & W).
  - replace (N.of_nat (S (N.to_nat (N.log2 n)))) with (N.succ (N.log2 n)) by lia. destruct (N.eq_dec n 0) as [->|N0]; [reflexivity|]. apply N.log2_spec. lia.
  - lia.
  - rewrite E, app_nil_r. exact W.
Qed.
Lemma digit_loop_app w r : (forall c, In c w -> (48 <= c <= 57)%N) -> match r with c :: _ => isdigit c = false | [] => True end -> digit_loop (w ++ r) = (w, r).
Proof.
  intros H Hr. induction w as [|c w IH]; cbn [app digit_loop].
  - destruct r as [|c r]; [reflexivity|]. cbn [digit_loop]. rewrite Hr. reflexivity.
  - replace (isdigit c) with true by (specialize (H c (or_introl eq_refl)); unfold isdigit; lia). rewrite IH by (intros x Hx; apply H; right; exact Hx). reflexivity.
Qed.
Lemma digit_loop_inv l : forall w r, digit_loop l = (w, r) -> l = w ++ r /\ (forall c, In c w -> (48 <= c <= 57)%N).
Proof.
  induction l as [|c l IH]; intros w r H; cbn [digit_loop] in H; [injection H as <- <-; split; [reflexivity|intros c []]|].
  destruct (isdigit c) eqn:E.
  - destruct (digit_loop l) as [a t]. injection H as <- <-. destruct (IH a t eq_refl) as [-> K]. split; [reflexivity|]. intros x [<-|Hx]; [unfold isdigit in E; lia|auto].
  - injection H as <- <-. split; [reflexivity|intros x []].
Qed.
Lemma stoi_spec w n : stoi w = Some n <-> decimal w = n /\ (n < 2 ^ 31)%N.
Proof.
  unfold stoi. change (fold_left _ w 0%N) with (decimal w). destruct (decimal w <? 2 ^ 31)%N eqn:E; split.
  - intros H. injection H as <-. split; [reflexivity|lia].
  - intros [-> _]. reflexivity.
  - discriminate.
  - intros [<- H]. lia.
Qed.
(** ** Names *)
Lemma lident_inv l s r : lident l = SOk (s, r) -> l = s ++ r /\ is_name s.
Proof.
  unfold lident. destruct l as [|c t]; [discriminate|]. destruct (is_leader c) eqn:E; [|discriminate]. destruct (lident_loop t) as [a r'] eqn:EL. intros H. injection H as <- <-.
  destruct (lident_loop_spec t a r' EL) as (-> & F & _). split; [reflexivity|]. split.
  - unfold is_leader, isalpha, letter in *. lia.
  - intros x Hx. apply symchar_spec. rewrite forallb_forall in F || rewrite Forall_forall in F. exact (F x Hx).
Qed.
(** ** Reading *)
Definition path_fits (p : list place) : Prop := Forall (fun x => (snd x < 2 ^ 31)%N) p.
Lemma w_place_head x t r : w_place x t -> match t ++ r with c :: _ => c <> 13%N | [] => False end.
Proof. intros (w & N1 & _ & ->). destruct (fst x) as [|c s]; [destruct N1|]. cbn. destruct N1 as [N1 _]. unfold letter in N1. lia. Qed.
Lemma name_nocr s : is_name s -> ~ In 13%N s.
Proof. destruct s as [|c s]; [intros []|]. intros [H1 H2] [->|H]; [unfold letter in H1; lia|]. specialize (H2 _ H). unfold sym_char, letter, digit in H2. lia. Qed.
Lemma w_path_nocr p t : w_path p t -> ~ In 13%N t.
Proof.
  assert (P : forall x t, w_place x t -> ~ In 13%N t).
  { intros x u (w & N1 & (_ & W & _) & ->) H. apply in_app_or in H as [H|[H|H]]; [exact (name_nocr _ N1 H)|discriminate|specialize (W _ H); lia]. }
  induction 1 as [x t H|x p t r H _ IH]; [exact (P x t H)|]. intros K. apply in_app_or in K as [K|[K|K]]; [exact (P _ _ H K)|discriminate|auto].
Qed.
Lemma path_parse_written p t : w_path p t -> path_fits p -> forall r fuel, match r with c :: _ => c = 0%N | [] => True end -> length t < fuel -> path_parse fuel (t ++ r) = SOk p.
Proof.
  assert (DOT : ~ sym_char 46%N) by (unfold sym_char, letter, digit; lia).
  induction 1 as [x t (w & N1 & (W1 & W2 & W3) & ->)|x p t r0 (w & N1 & (W1 & W2 & W3) & ->) _ IH]; intros F r fuel Hr L; inversion F as [|? ? F1 F2]; subst; (destruct fuel as [|f]; [lia|]); cbn [path_parse].
  - rewrite <- app_assoc. cbn [app]. rewrite is_name_lident; [|exact N1|exact DOT]. change (46 =? 46)%N with true. cbv iota. rewrite digit_loop_app; [|exact W2|destruct r as [|c r]; [exact I|subst c; reflexivity]].
    destruct w as [|c w]; [congruence|]. rewrite (proj2 (stoi_spec (c :: w) (snd x))) by auto. destruct r as [|d r]; [rewrite <- surjective_pairing; reflexivity|]. subst d. cbv beta iota. change (0 =? 0)%N with true. rewrite <- surjective_pairing. reflexivity.
  - repeat (rewrite <- app_assoc; cbn [app]). rewrite is_name_lident; [|exact N1|exact DOT]. change (46 =? 46)%N with true. cbv iota. rewrite digit_loop_app; [|exact W2|reflexivity].
    destruct w as [|c w]; [congruence|]. rewrite (proj2 (stoi_spec (c :: w) (snd x))) by auto. change (47 =? 0)%N with false. change (47 =? 47)%N with true. cbv iota.
    rewrite (IH F2 r f Hr); [rewrite <- surjective_pairing; reflexivity|]. rewrite !app_length in L. cbn in L. lia.
Qed.
Lemma path_parse_inv fuel : forall l p, path_parse fuel l = SOk p -> exists t, w_path p t /\ path_fits p /\ (l = t \/ exists r, l = t ++ 0%N :: r).
Proof.
  induction fuel as [|f IH]; intros l p H; [discriminate|]. cbn [path_parse] in H. destruct (lident l) as [[id t]| |] eqn:E; try discriminate. apply lident_inv in E as [-> N1].
  destruct t as [|c t1]; [discriminate|]. destruct (c =? 46)%N eqn:Ec; [|discriminate]. apply N.eqb_eq in Ec. subst c. destruct (digit_loop t1) as [w t2] eqn:Ew. apply digit_loop_inv in Ew as [-> W2].
  destruct w as [|c w]; [discriminate|]. destruct (stoi (c :: w)) as [n|] eqn:En; [|discriminate]. apply stoi_spec in En as [W3 L].
  assert (P : w_place (id, n) (id ++ 46%N :: c :: w)). { exists (c :: w). split; [exact N1|]. split; [|reflexivity]. split; [discriminate|]. split; [exact W2|exact W3]. }
  destruct t2 as [|d t3].
  { injection H as <-. eexists. split; [constructor; exact P|]. split; [constructor; [exact L|constructor]|]. left. rewrite app_nil_r. reflexivity. }
  destruct (d =? 0)%N eqn:E0.
  { apply N.eqb_eq in E0. subst d. injection H as <-. eexists. split; [constructor; exact P|]. split; [constructor; [exact L|constructor]|]. right. exists t3. rewrite <- app_assoc. reflexivity. }
  destruct (d =? 47)%N eqn:E1; [|discriminate]. apply N.eqb_eq in E1. subst d. destruct (path_parse f t3) as [q| |] eqn:EP; try discriminate. injection H as <-.
  destruct (IH _ _ EP) as (u & U1 & U2 & U3). exists ((id ++ 46%N :: c :: w) ++ 47%N :: u). split; [constructor; [exact P|exact U1]|]. split; [constructor; [exact L|exact U2]|].
  destruct U3 as [->|[r ->]]; [left|right; exists r]; repeat rewrite <- app_assoc; cbn [app]; repeat rewrite <- app_assoc; reflexivity.
Qed.
Lemma path_parse_total fuel : forall l, length l < fuel -> path_parse fuel l <> SFuel.
Proof.
  induction fuel as [|f IH]; intros l L; [lia|]. cbn [path_parse]. destruct (lident l) as [[id t]| |] eqn:E; try discriminate.
  - pose proof (lident_len _ _ _ E) as L1. destruct t as [|c t1]; [discriminate|]. destruct (c =? 46)%N; [|discriminate]. destruct (digit_loop t1) as [w t2] eqn:Ew. apply digit_loop_inv in Ew as [-> _].
    destruct w as [|x w]; [discriminate|]. destruct (stoi _); [|discriminate]. destruct t2 as [|d t3]; [discriminate|]. destruct (d =? 0)%N; [discriminate|]. destruct (d =? 47)%N; [|discriminate].
    specialize (IH t3). destruct (path_parse f t3); try discriminate. intros _. apply IH; [|reflexivity]. cbn in L1. rewrite app_length in L1. cbn in L1. lia.
  - unfold lident in E. destruct l as [|c t]; [discriminate|]. destruct (is_leader c); [destruct (lident_loop t)|]; discriminate.
Qed.
Lemma deliver_app x : ~ In 13%N x -> forall y, deliver (x ++ y) = x ++ deliver y.
Proof. induction x as [|c x IH]; intros H y; [reflexivity|]. cbn [app]. rewrite deliver_notcr by (intros ->; apply H; left; reflexivity). rewrite IH by (intros K; apply H; right; exact K). reflexivity. Qed.
Lemma deliver_front x : ~ In 13%N x -> ~ In 10%N x -> forall t y, deliver t = x ++ y -> exists z, t = x ++ z /\ deliver z = y.
Proof.
  induction x as [|c x IH]; intros H H' t y E; [exists t; auto|]. destruct t as [|d t]; [discriminate|]. assert (c <> 13%N) by (intros ->; apply H; left; reflexivity). assert (c <> 10%N) by (intros ->; apply H'; left; reflexivity).
  destruct (N.eq_dec d 13) as [->|N0].
  - exfalso. cbn [deliver] in E. change (13 =? 13)%N with true in E. cbv iota in E. destruct t as [|d2 t2]; [injection E; congruence|]. destruct (d2 =? 10)%N; injection E; congruence.
  - rewrite deliver_notcr in E by exact N0. injection E as -> E. destruct (IH ltac:(intros K; apply H; right; exact K) ltac:(intros K; apply H'; right; exact K) t y E) as (z & -> & Z). exists z. auto.
Qed.
Lemma w_path_nolf p t : w_path p t -> ~ In 10%N t.
Proof.
  assert (NN : forall s, is_name s -> ~ In 10%N s) by (intros [|c s]; [intros []|]; intros [H1 H2] [->|H]; [unfold letter in H1; lia|]; specialize (H2 _ H); unfold sym_char, letter, digit in H2; lia).
  assert (P : forall x t, w_place x t -> ~ In 10%N t).
  { intros x u (w & N1 & (_ & W & _) & ->) H. apply in_app_or in H as [H|[H|H]]; [exact (NN _ N1 H)|discriminate|specialize (W _ H); lia]. }
  induction 1 as [x t H|x p t r H _ IH]; [exact (P x t H)|]. intros K. apply in_app_or in K as [K|[K|K]]; [exact (P _ _ H K)|discriminate|auto].
Qed.
(** Exactly the written paths are read. *)
Theorem read_path_iff t p : read_path t = SOk p <-> path_fits p /\ exists x, w_path p x /\ (t = x \/ exists r, t = x ++ 0%N :: r).
Proof.
  unfold read_path. split.
  - intros H. destruct (path_parse_inv _ _ _ H) as (x & W & F & K). split; [exact F|]. exists x. split; [exact W|]. pose proof (w_path_nocr _ _ W) as NC. pose proof (w_path_nolf _ _ W) as NL.
    destruct K as [K|[r K]].
    + rewrite <- (app_nil_r x) in K. destruct (deliver_front x NC NL t [] K) as (z & -> & Z). apply (proj1 (deliver_nil z)) in Z. subst z. rewrite app_nil_r. left. reflexivity.
    + right. destruct (deliver_front x NC NL t _ K) as (z & -> & Z). destruct (deliver_front [0%N] ltac:(intros [Q|[]]; discriminate) ltac:(intros [Q|[]]; discriminate) z r Z) as (z' & -> & _). exists z'. reflexivity.
  - intros (F & x & W & K). pose proof (w_path_nocr _ _ W) as NC. destruct K as [->|[r ->]].
    + rewrite (deliver_nocr x NC). pose proof (path_parse_written p x W F [] (S (length x)) I ltac:(lia)) as Q. rewrite app_nil_r in Q. exact Q.
    + rewrite deliver_app by exact NC. rewrite (deliver_notcr 0) by discriminate. apply (path_parse_written p x W F); [reflexivity|]. rewrite app_length. cbn. lia.
Qed.
Theorem read_path_total t : read_path t <> SFuel.
Proof. apply path_parse_total. lia. Qed.
Theorem path_text_written p : p <> [] -> (forall x, In x p -> is_name (fst x)) -> w_path p (path_text p).
Proof.
  induction p as [|x p IH]; intros H N1; [congruence|]. assert (P : w_place x (fst x ++ 46%N :: digits (snd x))) by (exists (digits (snd x)); split; [apply N1; left; reflexivity|split; [apply digits_spec|reflexivity]]).
  destruct p as [|y p]; [constructor; exact P|].
  change (path_text (x :: y :: p)) with (fst x ++ 46%N :: digits (snd x) ++ 47%N :: path_text (y :: p)).
  assert (E : fst x ++ 46%N :: digits (snd x) ++ 47%N :: path_text (y :: p) = (fst x ++ 46%N :: digits (snd x)) ++ 47%N :: path_text (y :: p)) by (rewrite <- app_assoc; reflexivity).
  rewrite E. constructor; [exact P|]. apply IH; [discriminate|]. intros z Hz. apply N1. right. exact Hz.
Qed.
