(** The pattern parser: fuel, and what it builds for a written pattern. *)
From Coq Require Import List NArith Arith Bool Lia ZifyBool ZifyN ZifyNat.
From Verif Require Import CharClass CharClassSpec CharClassProofs CharClassParse Stream RegexSpec NFA NFASem NFAProofs NFABuild.
Import ListNotations.
Local Open Scope nat_scope.

(** ** Fuel *)
Lemma cc_loop_rest text : forall st cc x rest, cc_loop text st cc = POk x rest -> length rest < length text.
Proof.
  assert (G : forall n text st cc x rest, length text <= n -> cc_loop text st cc = POk x rest -> length rest < length text).
  { induction n as [|n IH]; intros [|c t] st cc x rest Hn; cbn [length] in *; try (cbn; discriminate); try lia.
    cbn [cc_loop]. destruct (c =? 93)%N; [intros E; injection E as _ <-; lia|].
    destruct ((c =? 0) || (c =? 65535))%N; [discriminate|]. destruct (c =? 92)%N.
    - destruct t as [|e t']; [discriminate|]. destruct (cc_escape e) as [ch'|]; [|discriminate].
      destruct (cc_step st cc true ch') as [[st' cc']|]; [|discriminate]. intros E. apply IH in E; cbn [length] in *; lia.
    - destruct (cc_step st cc false c) as [[st' cc']|]; [|discriminate]. intros E. apply IH in E; lia. }
  intros st cc x rest. apply (G (length text)). lia.
Qed.
Lemma cc_parse_rest text c rest : cc_parse text = POk c rest -> length rest < length text.
Proof.
  unfold cc_parse.
  assert (G : exists b body, (match text with 94%N :: t => (true, t) | _ => (false, text) end) = (b, body) /\ length body <= length text).
  { destruct text as [|h t]; [exists false, []; auto|].
    destruct (N.eq_dec h 94) as [->|N0]; [exists true, t; cbn; auto|].
    exists false, (h :: t). split; [|auto]. destruct h as [|h]; [reflexivity|]. repeat (destruct h; try reflexivity). congruence. }
  destruct G as (b & body & -> & L). destruct (cc_loop body CStart []) as [[st cc] r|] eqn:E; [|discriminate].
  apply cc_loop_rest in E. destruct (cc_finish st cc b); [|discriminate]. intros K; injection K as _ <-. lia.
Qed.
Lemma suffix_rest A t : length (snd (parse_suffix A t)) <= length t.
Proof.
  unfold parse_suffix.
  repeat match goal with |- context [match ?x with _ => _ end] => destruct x; cbn [snd length] end; lia.
Qed.

Lemma parse_len f :
  (forall A t B r, parse_pat f A t = SOk (B, r) -> length r <= length t) /\
  (forall A t B r, parse_alts f A t = SOk (B, r) -> length r <= length t) /\
  (forall A c t B r, parse_unit f A c t = SOk (B, r) -> length r <= length t).
Proof.
  induction f as [|f (IHp & IHa & IHu)].
  { repeat split; intros; discriminate. }
  split; [|split].
  - intros A t B r. cbn [parse_pat]. destruct t as [|c t]; cbn [lget].
    + cbn. intros E; injection E as _ <-. cbn. lia.
    + destruct ((c =? 41) || (c =? 47) || (c =? 0))%N; [intros E; injection E as _ <-; cbn; lia|].
      destruct (parse_unit f nfa_base c t) as [[B0 t2]| |] eqn:E1; try discriminate.
      destruct (parse_alts f B0 t2) as [[B1 t3]| |] eqn:E2; try discriminate.
      intros E3. apply IHu in E1. apply IHa in E2. apply IHp in E3. cbn. lia.
  - intros A t B r. cbn [parse_alts]. destruct (lpeek t =? 124)%N; [|intros E; injection E as _ <-; lia].
    destruct t as [|c0 t0]; cbn [tl lget].
    + destruct (parse_unit f nfa_base 0 []) as [[B0 t2]| |] eqn:E1; try discriminate.
      intros E3. apply IHu in E1. apply IHa in E3. lia.
    + destruct t0 as [|c t]; cbn [lget].
      * destruct (parse_unit f nfa_base 0 []) as [[B0 t2]| |] eqn:E1; try discriminate.
        intros E3. apply IHu in E1. apply IHa in E3. cbn in *. lia.
      * destruct (parse_unit f nfa_base c t) as [[B0 t2]| |] eqn:E1; try discriminate.
        intros E3. apply IHu in E1. apply IHa in E3. cbn in *. lia.
  - intros A c t B r. cbn [parse_unit].
    match goal with |- match ?X with _ => _ end = _ -> _ => assert (G : forall A1 t1, X = SOk (A1, t1) -> length t1 <= length t); [|destruct X as [[A1 t1]| |]; try discriminate] end.
    { intros A1 t1. destruct (c =? 92)%N.
      - destruct t as [|e t]; cbn [lget]; destruct (nfa_escapable _); try discriminate; intros E; injection E as _ <-; cbn; lia.
      - destruct (c =? 91)%N.
        + destruct (cc_parse t) as [cc r0|] eqn:E; [|discriminate]. apply cc_parse_rest in E. intros K; injection K as _ <-. lia.
        + destruct (c =? 46)%N; [intros K; injection K as _ <-; lia|].
          destruct (c =? 40)%N; [|intros K; injection K as _ <-; lia].
          destruct (parse_pat f nfa_base t) as [[B0 t2]| |] eqn:E; try discriminate. apply IHp in E. intros K; injection K as _ <-. exact E. }
    specialize (G A1 t1 eq_refl). intros E. assert (E' : parse_suffix A1 t1 = (B, r)) by congruence.
    pose proof (suffix_rest A1 t1) as L. rewrite E' in L. cbn in L. lia.
Qed.

Lemma parse_enough f :
  (forall A t, 2 * length t + 1 <= f -> parse_pat f A t <> SFuel) /\
  (forall A t, 2 * length t + 1 <= f -> parse_alts f A t <> SFuel) /\
  (forall A c t, 2 * length t + 2 <= f -> parse_unit f A c t <> SFuel).
Proof.
  induction f as [|f (IHp & IHa & IHu)].
  { repeat split; intros; lia. }
  split; [|split].
  - intros A t Hf. cbn [parse_pat]. destruct t as [|c t]; cbn [lget length] in *; [discriminate|].
    destruct ((c =? 41) || (c =? 47) || (c =? 0))%N; [discriminate|].
    destruct (parse_unit f nfa_base c t) as [[B0 t2]| |] eqn:E1; [|discriminate|eapply IHu in E1; [destruct E1|lia]].
    apply parse_len in E1.
    destruct (parse_alts f B0 t2) as [[B1 t3]| |] eqn:E2; [|discriminate|eapply IHa in E2; [destruct E2|lia]].
    apply parse_len in E2. apply IHp. lia.
  - intros A t Hf. cbn [parse_alts]. destruct t as [|c0 t0].
    { cbn. discriminate. }
    destruct (lpeek (c0 :: t0) =? 124)%N; [|discriminate]. cbn [tl length] in *.
    destruct t0 as [|c t]; cbn [lget length] in *.
    + destruct (parse_unit f nfa_base 0 []) as [[B0 t2]| |] eqn:E1; [|discriminate|eapply IHu in E1; [destruct E1|cbn; lia]].
      apply parse_len in E1. cbn in E1. apply IHa. lia.
    + destruct (parse_unit f nfa_base c t) as [[B0 t2]| |] eqn:E1; [|discriminate|eapply IHu in E1; [destruct E1|lia]].
      apply parse_len in E1. apply IHa. lia.
  - intros A c t Hf. cbn [parse_unit].
    match goal with |- match ?X with _ => _ end <> _ => assert (G : X <> SFuel); [|destruct X as [[A1 t1]| |]; congruence] end.
    destruct (c =? 92)%N; [destruct t; cbn [lget]; destruct (nfa_escapable _); discriminate|].
    destruct (c =? 91)%N; [destruct (cc_parse t); discriminate|].
    destruct (c =? 46)%N; [discriminate|].
    destruct (c =? 40)%N; [|discriminate].
    destruct (parse_pat f nfa_base t) as [[B0 t2]| |] eqn:E; [discriminate|discriminate|]. eapply IHp in E; [destruct E|lia].
Qed.
Lemma nfa_parse_total t : nfa_parse t <> SFuel.
Proof. apply parse_enough. lia. Qed.

Lemma parse_mono f :
  (forall A t x, parse_pat f A t = x -> x <> SFuel -> parse_pat (S f) A t = x) /\
  (forall A t x, parse_alts f A t = x -> x <> SFuel -> parse_alts (S f) A t = x) /\
  (forall A c t x, parse_unit f A c t = x -> x <> SFuel -> parse_unit (S f) A c t = x).
Proof.
  induction f as [|f (IHp & IHa & IHu)].
  { repeat split; intros; cbn in *; congruence. }
  split; [|split].
  - intros A t x. cbn [parse_pat]. destruct (lget t) as [c t1].
    destruct ((c =? 41) || (c =? 47) || (c =? 0))%N; [auto|].
    destruct (parse_unit f nfa_base c t1) as [[B0 t2]| |] eqn:E1; [| |intros <- K; congruence].
    2:{ intros <- _. rewrite (IHu _ _ _ _ E1) by discriminate. reflexivity. }
    change (parse_unit (S f) nfa_base c t1) with (parse_unit (S f) nfa_base c t1).
    pose proof (IHu _ _ _ _ E1 ltac:(discriminate)) as E1'. 
    destruct (parse_alts f B0 t2) as [[B1 t3]| |] eqn:E2; [| |intros <- K; congruence].
    2:{ intros <- _. pose proof (IHa _ _ _ E2 ltac:(discriminate)) as E2'. rewrite E1', E2'. reflexivity. }
    pose proof (IHa _ _ _ E2 ltac:(discriminate)) as E2'. rewrite E1', E2'. apply IHp.
  - intros A t x. cbn [parse_alts]. destruct (lpeek t =? 124)%N; [|auto].
    destruct (lget (tl t)) as [c t1].
    destruct (parse_unit f nfa_base c t1) as [[B0 t2]| |] eqn:E1; [| |intros <- K; congruence];
      rewrite (IHu _ _ _ _ E1) by discriminate; [apply IHa|auto].
  - intros A c t x. cbn [parse_unit].
    destruct (c =? 92)%N; [auto|]. destruct (c =? 91)%N; [auto|]. destruct (c =? 46)%N; [auto|]. destruct (c =? 40)%N; [|auto].
    destruct (parse_pat f nfa_base t) as [[B0 t2]| |] eqn:E; [| |intros <- K; congruence];
      rewrite (IHp _ _ _ E) by discriminate; auto.
Qed.
Lemma parse_le f g : f <= g ->
  (forall A t x, parse_pat f A t = x -> x <> SFuel -> parse_pat g A t = x) /\
  (forall A t x, parse_alts f A t = x -> x <> SFuel -> parse_alts g A t = x) /\
  (forall A c t x, parse_unit f A c t = x -> x <> SFuel -> parse_unit g A c t = x).
Proof.
  induction 1 as [|g H (IHp & IHa & IHu)]; [auto|].
  destruct (parse_mono g) as (Mp & Ma & Mu). repeat split; intros; eauto.
Qed.

(** ** Big-step view *)
Definition Ppat A t r := exists f, parse_pat f A t = SOk r.
Definition Palts A t r := exists f, parse_alts f A t = SOk r.
Definition Punit A c t r := exists f, parse_unit f A c t = SOk r.

Lemma Ppat_end c A t : c = 41%N \/ c = 47%N -> Ppat A (c :: t) (A, t).
Proof. intros [-> | ->]; exists 1; reflexivity. Qed.
Lemma Ppat_eof A : Ppat A [] (A, []).
Proof. exists 1. reflexivity. Qed.
Lemma Ppat_step c A t B t2 B' t3 r :
  c <> 41%N -> c <> 47%N -> c <> 0%N ->
  Punit nfa_base c t (B, t2) -> Palts B t2 (B', t3) -> Ppat (concat A B') t3 r -> Ppat A (c :: t) r.
Proof.
  intros N1 N2 N3 [f1 H1] [f2 H2] [f3 H3]. exists (S (Nat.max f1 (Nat.max f2 f3))).
  cbn [parse_pat lget]. destruct ((c =? 41) || (c =? 47) || (c =? 0))%N eqn:E; [lia|]. clear E.
  destruct (parse_le f1 (Nat.max f1 (Nat.max f2 f3)) ltac:(lia)) as (_ & _ & M1). rewrite (M1 _ _ _ _ H1) by discriminate.
  destruct (parse_le f2 (Nat.max f1 (Nat.max f2 f3)) ltac:(lia)) as (_ & M2 & _). rewrite (M2 _ _ _ H2) by discriminate.
  destruct (parse_le f3 (Nat.max f1 (Nat.max f2 f3)) ltac:(lia)) as (M3 & _ & _). rewrite (M3 _ _ _ H3) by discriminate.
  reflexivity.
Qed.
Lemma Palts_stop A t : lpeek t <> 124%N -> Palts A t (A, t).
Proof. intros H. exists 1. cbn. destruct (lpeek t =? 124)%N eqn:E; [lia|reflexivity]. Qed.
Lemma Palts_bar c A t B t2 r :
  Punit nfa_base c t (B, t2) -> Palts (select A B) t2 r -> Palts A (124%N :: c :: t) r.
Proof.
  intros [f1 H1] [f2 H2]. exists (S (Nat.max f1 f2)). cbn [parse_alts lpeek tl lget].
  change (124 =? 124)%N with true.
  destruct (parse_le f1 (Nat.max f1 f2) ltac:(lia)) as (_ & _ & M1). rewrite (M1 _ _ _ _ H1) by discriminate.
  destruct (parse_le f2 (Nat.max f1 f2) ltac:(lia)) as (_ & M2 & _). rewrite (M2 _ _ _ H2) by discriminate.
  reflexivity.
Qed.

(** The suffix. *)
Definition noq (t : list N) : Prop := lpeek t <> 43%N /\ lpeek t <> 42%N /\ lpeek t <> 63%N.
Lemma suffix_q A q x rest : In x (q_texts q) -> noq rest -> parse_suffix A (x ++ rest) = (quantA q A, rest).
Proof.
  intros Hx (N1 & N2 & N3).
  destruct rest as [|c rest].
  - destruct q as [|[]|[]|]; cbn [q_texts] in Hx; repeat (destruct Hx as [<-|Hx]; [reflexivity|]); destruct Hx.
  - cbn [lpeek] in *.
    assert (C : (exists p, c = N.pos p /\ p <> 43%positive /\ p <> 42%positive /\ p <> 63%positive) \/ c = 0%N).
    { destruct c as [|p]; [auto|left; exists p; split; [reflexivity|repeat split; congruence]]. }
    destruct q as [|[]|[]|]; cbn [q_texts] in Hx; repeat (destruct Hx as [<-|Hx]; [|]); try destruct Hx; cbn [app];
      try reflexivity.
    all: destruct C as [(p & -> & M1 & M2 & M3)| ->]; [|reflexivity].
    all: unfold parse_suffix; do 6 (destruct p as [p|p|]; try reflexivity); congruence.
Qed.

Definition ustart (c : N) : Prop := c <> 41%N /\ c <> 47%N /\ c <> 0%N /\ c <> 124%N /\ c <> 43%N /\ c <> 42%N /\ c <> 63%N.

Lemma parse_unit_char f A c t : is_meta c = false -> c <> 47%N ->
  parse_unit (S f) A c t = SOk (parse_suffix (add_state A (cc_single c)) t).
Proof.
  intros H N0. unfold is_meta in H. cbn [existsb] in H.
  cbn [parse_unit]. destruct (c =? 92)%N eqn:E1; [lia|]. destruct (c =? 91)%N eqn:E2; [lia|].
  destruct (c =? 46)%N eqn:E3; [lia|]. destruct (c =? 40)%N eqn:E4; [lia|]. reflexivity.
Qed.

(** ** Written patterns are parsed into the automaton of their tree *)
Lemma parse_written :
  (forall u, unit_ok u -> forall t, w_unit u t -> exists c t', t = c :: t' /\ ustart c /\
     forall q x rest, In x (q_texts q) -> noq rest -> Punit nfa_base c (t' ++ x ++ rest) (quantA q (build_unit u), rest)) /\
  (forall s, sel_ok s -> forall t, w_sel s t -> exists c t', t = c :: t' /\ ustart c /\
     forall rest r, noq rest -> Palts (build_sel s) rest r ->
       exists B t2, Punit nfa_base c (t' ++ rest) (B, t2) /\ Palts B t2 r) /\
  (forall p, pat_ok p -> forall t, w_pat p t ->
     forall rest r, noq rest -> lpeek rest <> 124%N -> Ppat (build_pat p) rest r -> Ppat nfa_base (t ++ rest) r).
Proof.
  apply regex_ind; cbn [unit_ok sel_ok pat_ok build_unit build_sel build_pat].
  - (* atom *) intros a Ha t Ht. inversion Ht as [? ? Hw|]; subst.
    inversion Hw as [c Hm H47|c Hm| |l w Hl|l w Hl]; subst; cbn [atom_ok atom_cc] in *.
    + exists c, []. split; [reflexivity|]. split; [unfold ustart, is_meta in *; cbn [existsb] in Hm; lia|].
      intros q x rest Hx Hq. exists 1. rewrite parse_unit_char by assumption. cbn [app]. rewrite (suffix_q _ q) by assumption. reflexivity.
    + exists 92%N, [c]. split; [reflexivity|]. split; [unfold ustart; lia|].
      intros q x rest Hx Hq. exists 1. cbn [parse_unit app lget]. change (92 =? 92)%N with true. cbn match.
      change (nfa_escapable c) with (is_meta c). rewrite Hm. rewrite (suffix_q _ q) by assumption. reflexivity.
    + exists 46%N, []. split; [reflexivity|]. split; [unfold ustart; lia|].
      intros q x rest Hx Hq. exists 1. cbn [app]. change (parse_unit 1 nfa_base 46%N (x ++ rest)) with (SOk (parse_suffix (add_state nfa_base make_star) (x ++ rest))).
      rewrite (suffix_q _ q) by assumption. reflexivity.
    + exists 91%N, (w ++ [93%N]). split; [reflexivity|]. split; [unfold ustart; lia|].
      intros q x rest Hx Hq. exists 1. destruct Ha as (H1 & H2 & _). cbn [parse_unit].
      change (91 =? 92)%N with false. change (91 =? 91)%N with true. cbn match.
      rewrite <- app_assoc. cbn [app]. rewrite (cc_parse_plain l) by assumption. rewrite (suffix_q _ q) by assumption. reflexivity.
    + exists 91%N, (94%N :: w ++ [93%N]). split; [reflexivity|]. split; [unfold ustart; lia|].
      intros q x rest Hx Hq. exists 1. destruct Ha as (H1 & H2 & _). cbn [parse_unit].
      change (91 =? 92)%N with false. change (91 =? 91)%N with true. cbn match.
      cbn [app]. rewrite <- app_assoc. cbn [app]. rewrite (cc_parse_negated l) by assumption. rewrite (suffix_q _ q) by assumption. reflexivity.
  - (* group *) intros p IH Hp t Ht. inversion Ht as [|? t0 Hw]; subst.
    exists 40%N, (t0 ++ [41%N]). split; [reflexivity|]. split; [unfold ustart; lia|].
    intros q x rest Hx Hq. destruct (IH Hp _ Hw (41%N :: x ++ rest) (build_pat p, x ++ rest)) as [f Hf].
    + unfold noq; cbn; lia.
    + cbn; lia.
    + apply Ppat_end. auto.
    + exists (S f). cbn [parse_unit]. change (40 =? 92)%N with false. change (40 =? 91)%N with false.
      change (40 =? 46)%N with false. change (40 =? 40)%N with true. cbn match.
      rewrite <- app_assoc. cbn [app]. rewrite Hf. rewrite (suffix_q _ q) by assumption. reflexivity.
  - (* one unit *) intros u IH q Hu t Ht. inversion Ht as [? ? t0 x Hw Hx|]; subst.
    destruct (IH Hu _ Hw) as (c & t' & -> & Hs & K). exists c, (t' ++ x). split; [reflexivity|]. split; [exact Hs|].
    intros rest r Hq HA. exists (quantA q (build_unit u)), rest. split; [|exact HA].
    rewrite <- app_assoc. apply K; assumption.
  - (* alternatives *) intros s IHs u IHu q [Hs Hu] t Ht. inversion Ht as [|? ? ? t0 t1 x Hws Hwu Hx]; subst.
    destruct (IHs Hs _ Hws) as (c & t0' & -> & Hc & K). destruct (IHu Hu _ Hwu) as (c1 & t1' & -> & Hc1 & K1).
    exists c, (t0' ++ 124%N :: (c1 :: t1') ++ x). split; [reflexivity|]. split; [exact Hc|].
    intros rest r Hq HA. rewrite <- app_assoc. apply K.
    + unfold noq; cbn; lia.
    + cbn [app]. eapply Palts_bar; [|exact HA]. rewrite <- app_assoc. apply K1; assumption.
  - intros _ t Ht. inversion Ht; subst. auto.
  - intros p IHp s IHs [Hp Hs] t Ht. inversion Ht as [|? ? t0 x Hwp Hws]; subst.
    intros rest r Hq Hb HA. destruct (IHs Hs _ Hws) as (c & x' & -> & Hc & K).
    rewrite <- app_assoc. apply (IHp Hp _ Hwp).
    + unfold noq, ustart in *; cbn; lia.
    + unfold ustart in Hc; cbn; lia.
    + destruct (K rest (build_sel s, rest) Hq (Palts_stop _ _ Hb)) as (B & t2 & HU & HP).
      cbn [app]. unfold ustart in Hc. eapply Ppat_step; [lia|lia|lia|exact HU|exact HP|exact HA].
Qed.

Lemma nfa_parse_big t r : Ppat nfa_base t r -> nfa_parse t = SOk r.
Proof.
  intros [f Hf]. unfold nfa_parse. pose proof (nfa_parse_total t) as N0. unfold nfa_parse in N0.
  set (g := 4 * length t + 4) in *.
  destruct (Nat.le_ge_cases f g) as [L|L].
  - destruct (parse_le f g L) as (M & _ & _). apply M; [exact Hf|discriminate].
  - destruct (parse_le g f L) as (M & _ & _). rewrite <- Hf. symmetry. apply M; [reflexivity|exact N0].
Qed.
Lemma nfa_parse_written p t e rest : pat_ok p -> w_pat p t -> (e = 41%N \/ e = 47%N) ->
  nfa_parse (t ++ e :: rest) = SOk (build_pat p, rest).
Proof.
  intros Hp Hw He. apply nfa_parse_big. apply (proj2 (proj2 parse_written) p Hp t Hw).
  - unfold noq; cbn; lia.
  - cbn; lia.
  - apply Ppat_end. exact He.
Qed.
Lemma nfa_parse_written_eof p t : pat_ok p -> w_pat p t -> nfa_parse t = SOk (build_pat p, []).
Proof.
  intros Hp Hw. apply nfa_parse_big. rewrite <- (app_nil_r t). apply (proj2 (proj2 parse_written) p Hp t Hw).
  - unfold noq; cbn; lia.
  - cbn; lia.
  - apply Ppat_eof.
Qed.

(** ** NFA::run *)
Lemma nfa_run_true f A seq : forall i pos, pos <= length seq -> nfa_run f A seq i pos = RunTrue ->
  path (edge A) i (skipn pos seq) (length A - 1).
Proof.
  induction f as [|f IH]; intros i pos Hp; [discriminate|]. cbn [nfa_run].
  destruct ((i =? length A - 1) && (length seq =? pos)) eqn:E0.
  { intros _. apply andb_true_iff in E0 as [E1 E2]. apply Nat.eqb_eq in E1, E2. subst. rewrite skipn_all. constructor. }
  assert (G : forall l, (forall t, In t l -> In t (nth i A [])) ->
    (fix try (l : list ntr) : runres :=
         match l with
         | [] => RunFalse
         | t :: l' =>
           if teps t then
             match nfa_run f A seq (tdest t) pos with RunFalse => try l' | r => r end
           else if (Nat.ltb (length seq) pos) then RunUB
           else if includes (tlab t) (nth pos seq 0%N) then
             match nfa_run f A seq (tdest t) (S pos) with RunFalse => try l' | r => r end
           else try l'
         end) l = RunTrue -> path (edge A) i (skipn pos seq) (length A - 1)).
  2:{ apply G. auto. }
  induction l as [|t l IHl]; intros Hin; [discriminate|].
  assert (Ht : In t (nth i A [])) by (apply Hin; left; reflexivity).
  assert (Hl : forall t, In t l -> In t (nth i A [])) by (intros; apply Hin; right; assumption).
  destruct (teps t) eqn:Et.
  - destruct (nfa_run f A seq (tdest t) pos) eqn:Er; try discriminate; [|apply IHl; exact Hl].
    intros _. eapply p_eps; [|apply IH; eassumption]. exists t. split; [exact Ht|]. split; [|reflexivity].
    unfold teps, is_epsilon in Et. destruct (tlab t); [reflexivity|discriminate].
  - destruct (length seq <? pos) eqn:Eo; [discriminate|].
    destruct (includes (tlab t) (nth pos seq 0%N)) eqn:Ei; [|apply IHl; exact Hl].
    destruct (nfa_run f A seq (tdest t) (S pos)) eqn:Er; try discriminate; [|apply IHl; exact Hl].
    intros _. destruct (Nat.eq_dec pos (length seq)) as [Ep|Ep].
    + (* the terminating zero was consumed: the recursive call is already past the end *)
      exfalso. subst pos. clear - Er. revert t Er.
      assert (K : forall f i p, length seq < p -> nfa_run f A seq i p <> RunTrue).
      { clear. induction f as [|f IH]; intros i p Hp; [discriminate|]. cbn [nfa_run].
        destruct ((i =? length A - 1) && (length seq =? p)) eqn:E; [apply andb_true_iff in E as [_ E]; apply Nat.eqb_eq in E; lia|].
        generalize (nth i A []). intros l. induction l as [|t l IHl]; [discriminate|].
        destruct (teps t).
        - destruct (nfa_run f A seq (tdest t) p) eqn:Er; try discriminate; [|exact IHl]. exfalso. eapply IH; eauto.
        - destruct (length seq <? p) eqn:Eo; [discriminate|]. apply Nat.ltb_ge in Eo. lia. }
      intros t Er. eapply K; [|exact Er]. lia.
    + assert (Hlt : pos < length seq) by lia.
      assert (Es : skipn pos seq = nth pos seq 0%N :: skipn (S pos) seq).
      { clear - Hlt. revert seq Hlt. induction pos as [|pos IHp]; intros [|c seq] Hlt; cbn in *; try lia; [reflexivity|]. apply IHp. lia. }
      rewrite Es. eapply p_chr; [exists t; split; [exact Ht|split; reflexivity]|exact Ei|]. apply IH; [lia|exact Er].
Qed.
Lemma nfa_run_false f A seq : forall i pos, pos <= length seq -> nfa_run f A seq i pos = RunFalse ->
  ~ path (edge A) i (skipn pos seq) (length A - 1).
Proof.
  induction f as [|f IH]; intros i pos Hp; [discriminate|]. cbn [nfa_run].
  destruct ((i =? length A - 1) && (length seq =? pos)) eqn:E0; [discriminate|]. intros H P.
  assert (G : forall l, (fix try (l : list ntr) : runres :=
         match l with
         | [] => RunFalse
         | t :: l' =>
           if teps t then
             match nfa_run f A seq (tdest t) pos with RunFalse => try l' | r => r end
           else if (Nat.ltb (length seq) pos) then RunUB
           else if includes (tlab t) (nth pos seq 0%N) then
             match nfa_run f A seq (tdest t) (S pos) with RunFalse => try l' | r => r end
           else try l'
         end) l = RunFalse -> forall t, In t l ->
         (teps t = true -> nfa_run f A seq (tdest t) pos = RunFalse) /\
         (teps t = false -> includes (tlab t) (nth pos seq 0%N) = true -> nfa_run f A seq (tdest t) (S pos) = RunFalse)).
  { induction l as [|t0 l IHl]; intros K t [].
    - subst t0. destruct (teps t) eqn:Et.
      + split; [|discriminate]. destruct (nfa_run f A seq (tdest t) pos); congruence.
      + split; [discriminate|]. intros _ Hi. destruct (length seq <? pos) eqn:Eo; [apply Nat.ltb_lt in Eo; lia|]. rewrite Hi in K.
        destruct (nfa_run f A seq (tdest t) (S pos)); congruence.
    - apply IHl; [|assumption]. destruct (teps t0).
      + destruct (nfa_run f A seq (tdest t0) pos); congruence.
      + destruct (length seq <? pos); [congruence|]. destruct (includes (tlab t0) _); [|exact K].
        destruct (nfa_run f A seq (tdest t0) (S pos)); congruence. }
  specialize (G _ H).
  inversion P as [q Eq Ew Er|q d w r (t & Ht & El & Ed) Hq Eq Ew Er|q lab ch d w r (t & Ht & El & Ed) Hi Hq Eq Ew Er]; subst.
  - apply andb_false_iff in E0 as [E0|E0]; apply Nat.eqb_neq in E0; [lia|].
    assert (length (skipn pos seq) = 0) by (rewrite <- Ew; reflexivity). rewrite skipn_length in H0. lia.
  - destruct (G t Ht) as [G1 _]. assert (Et : teps t = true) by (unfold teps; rewrite El; reflexivity).
    eapply IH; [|apply G1; exact Et|exact Hq]. exact Hp.
  - destruct (G t Ht) as [_ G2].
    assert (Hlt : pos < length seq).
    { assert (L : length (skipn pos seq) = S (length w)) by (rewrite <- Ew; reflexivity). rewrite skipn_length in L. lia. }
    assert (Es : skipn pos seq = nth pos seq 0%N :: skipn (S pos) seq).
    { clear - Hlt. revert seq Hlt. induction pos as [|pos IHp]; intros [|c seq] Hlt; cbn in *; try lia; [reflexivity|]. apply IHp. lia. }
    rewrite Es in Ew. assert (Ec : ch = nth pos seq 0%N) by congruence. assert (Ew' : w = skipn (S pos) seq) by congruence. subst ch w.
    assert (Et : teps t = false) by (unfold teps, is_epsilon; destruct (tlab t); [discriminate Hi|reflexivity]).
    eapply (IH (tdest t) (S pos)); [lia|apply G2; assumption|exact Hq].
Qed.
