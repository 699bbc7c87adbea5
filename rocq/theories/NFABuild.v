(** The automaton the parser builds for a syntax tree, and its exact language. *)
From Coq Require Import List NArith Arith Bool Lia.
From Verif Require Import CharClass CharClassSpec CharClassProofs CharClassParse Stream RegexSpec NFA NFASem NFAProofs.
Import ListNotations.
Local Open Scope nat_scope.

Definition atom_cc (a : atom) : cclass :=
  match a with
  | AChar c => cc_single c
  | ADot => make_star
  | ASet l => sort_ranges (acc l)
  | ANot l => compl (sort_ranges (acc l))
  end.
Lemma atom_cc_ok a : atom_ok a -> atom_cc a <> [] /\ forall ch, includes (atom_cc a) ch = true <-> atom_den a ch.
Proof.
  intros H.
  assert (G : forall ch, includes (atom_cc a) ch = true <-> atom_den a ch).
  { destruct a as [c| |l|l]; cbn [atom_ok atom_cc atom_den] in *; intros ch.
    - unfold cc_single. rewrite !narrow_id by lia. cbn. lia.
    - cbn. destruct ch as [|p]; cbn; [split; auto; reflexivity|]. rewrite orb_false_r. apply N.ltb_lt.
    - destruct H as (H1 & H2 & _). destruct (bracket_plain l _ [] (write_items_text l H1) H1 H2) as (c & E & K).
      rewrite (cc_parse_plain l) in E by (try assumption; apply write_items_text; assumption). injection E as <-. apply K.
    - destruct H as (H1 & H2 & _). destruct (bracket_negated l _ [] (write_items_text l H1) H1 H2) as (c & E & _ & K).
      rewrite (cc_parse_negated l) in E by (try assumption; apply write_items_text; assumption). injection E as <-. apply K. }
  split; [|exact G].
  assert (X : exists ch, atom_den a ch).
  { destruct a as [c| |l|l]; cbn [atom_ok atom_den] in *.
    - eauto.
    - exists 1%N. lia.
    - destruct H as (H1 & _ & H3). destruct l as [|i l]; [congruence|]. inversion H1; subst. 
      exists (item_lo i), i. split; [left; reflexivity|]. destruct i; cbn in *; lia.
    - destruct H as (_ & _ & H). exact H. }
  destruct X as [ch X]. apply G in X. intros E. rewrite E in X. discriminate X.
Qed.

Definition quantA (q : quant) (A : nfa) : nfa :=
  match q with
  | QOne => A
  | QPlus lg => add_to A [] 1 lg
  | QStar lg => starA A lg
  | QOpt => add_from A [] 1
  end.
Fixpoint build_unit (u : unit_) : nfa :=
  match u with
  | UAtom a => add_state nfa_base (atom_cc a)
  | UGroup p => concat nfa_base (build_pat p)
  end
with build_sel (s : sel) : nfa :=
  match s with
  | SOne u q => quantA q (build_unit u)
  | SAlt s u q => select (build_sel s) (quantA q (build_unit u))
  end
with build_pat (p : pat) : nfa :=
  match p with
  | PNil => nfa_base
  | PSnoc p s => concat (build_pat p) (build_sel s)
  end.

(** Implemented language and words readable at the final state. *)
Definition qI (q : quant) (L T : list N -> Prop) : list N -> Prop :=
  match q with QOne => L | QPlus _ => Plus L | QStar _ => Star L | QOpt => fun w => L w \/ T w end.
Definition qT (q : quant) (L T : list N -> Prop) : list N -> Prop :=
  match q with
  | QOne => T
  | QPlus _ => fun w => exists u v, w = u ++ v /\ T u /\ Star L v
  | QStar _ => fun w => w = []
  | QOpt => T
  end.
Fixpoint uI (u : unit_) : list N -> Prop :=
  match u with UAtom a => fun w => exists ch, w = [ch] /\ atom_den a ch | UGroup p => pI p end
with uT (u : unit_) : list N -> Prop :=
  match u with UAtom a => fun w => w = [] | UGroup p => pT p end
with sI (s : sel) : list N -> Prop :=
  match s with SOne u q => qI q (uI u) (uT u) | SAlt s u q => fun w => sI s w \/ qI q (uI u) (uT u) w end
with sT (s : sel) : list N -> Prop :=
  match s with SOne u q => qT q (uI u) (uT u) | SAlt _ _ _ => fun w => w = [] end
with pI (p : pat) : list N -> Prop :=
  match p with PNil => fun w => w = [] | PSnoc p s => fun w => exists u v, w = u ++ v /\ pI p u /\ sI s v end
with pT (p : pat) : list N -> Prop :=
  match p with PNil => fun w => w = [] | PSnoc p s => sT s end.

Lemma Star_ext (L L' : list N -> Prop) w : (forall w, L w -> L' w) -> Star L w -> Star L' w.
Proof. intros H. induction 1; constructor; auto. Qed.
Lemma Plus_ext (L L' : list N -> Prop) w : (forall w, L w -> L' w) -> Plus L w -> Plus L' w.
Proof. intros H (u & v & -> & K & S). exists u, v. split; [reflexivity|]. split; [auto|eapply Star_ext; eauto]. Qed.

Lemma quantA_spec q A L T : unitA A -> (forall w, body A w <-> L w) -> (forall w, tail A w <-> T w) ->
  wf (quantA q A) /\ edge (quantA q A) 0 [] 1 /\
  (forall w, accepts (quantA q A) w <-> qI q L T w) /\ (forall w, tail (quantA q A) w <-> qT q L T w).
Proof.
  intros HU HL HT. pose proof HU as (HW & H3 & H0 & H1).
  assert (S1 : forall w, Star (body A) w <-> Star L w) by (split; apply Star_ext; intros; apply HL; assumption).
  destruct q as [|lg|lg|]; cbn [quantA qI qT].
  - split; [exact HW|]. split; [apply H0; auto|]. split; [|exact HT]. intros w. rewrite from_0 by (assumption || lia). apply HL.
  - split; [apply wf_add_to; [exact HW|lia|lia]|]. split; [apply edge_add_to; [lia|left; apply H0; auto]|]. split; intros w.
    + rewrite quant_plus by exact HU. split; apply Plus_ext; intros; apply HL; assumption.
    + rewrite tail_plus by exact HU. split; intros (u & v & -> & P & Q); exists u, v; (split; [reflexivity|]); rewrite ?HT, ?S1 in *; auto.
  - split.
    { unfold starA. apply wf_add_from; [apply wf_add_state; apply wf_add_to; [exact HW|lia|lia]|].
      rewrite add_state_length. unfold add_to. rewrite upd_length. lia. }
    split; [apply star_edges; [exact HU|left; apply H0; auto]|]. split; intros w.
    + rewrite quant_star by exact HU. apply S1.
    + apply tail_star. exact HU.
  - split; [apply wf_add_from; [exact HW|lia]|]. split; [apply edge_add_from; [lia|left; apply H0; auto]|]. split; intros w.
    + rewrite quant_opt by exact HU. rewrite HL, HT. reflexivity.
    + rewrite tail_opt by exact HU. apply HT.
Qed.

Lemma build_spec :
  (forall u, unit_ok u -> unitA (build_unit u) /\ (forall w, body (build_unit u) w <-> uI u w) /\ (forall w, tail (build_unit u) w <-> uT u w)) /\
  (forall s, sel_ok s -> wf (build_sel s) /\ (forall w, accepts (build_sel s) w <-> sI s w) /\ (forall w, tail (build_sel s) w <-> sT s w)) /\
  (forall p, pat_ok p -> wf (build_pat p) /\ (forall w, accepts (build_pat p) w <-> pI p w) /\ (forall w, tail (build_pat p) w <-> pT p w)).
Proof.
  apply regex_ind; cbn [unit_ok sel_ok pat_ok build_unit build_sel build_pat uI uT sI sT pI pT].
  - intros a Ha. destruct (unit_state (atom_cc a)) as (HU & HB & HT). destruct (atom_cc_ok a Ha) as [N0 D].
    split; [exact HU|]. split; [|exact HT]. intros w. rewrite HB. split.
    + intros [(E & _)|(ch & -> & Hi)]; [congruence|]. exists ch. split; [reflexivity|]. apply D. exact Hi.
    + intros (ch & -> & Hi). right. exists ch. split; [reflexivity|]. apply D. exact Hi.
  - intros p IH Hp. destruct (IH Hp) as (W & HA & HT). destruct (unit_group _ W) as (HU & HB & HT').
    split; [exact HU|]. split; intros w; [rewrite HB; apply HA|rewrite HT'; apply HT].
  - intros u IH q Hu. destruct (IH Hu) as (HU & HB & HT). destruct (quantA_spec q _ _ _ HU HB HT) as (W & _ & HA & HT').
    auto.
  - intros s IHs u IHu q [Hs Hu]. destruct (IHs Hs) as (WA & AA & TA). destruct (IHu Hu) as (HU & HB & HT).
    destruct (quantA_spec q _ _ _ HU HB HT) as (W & E01 & HA & HT').
    destruct (select_spec _ _ WA W) as (_ & WS & _). split; [exact WS|]. split; intros w.
    + rewrite accepts_select by assumption. rewrite AA, HA. reflexivity.
    + apply tail_select; assumption.
  - intros _. split; [apply wf_base|]. split; intros w; [apply accepts_base|apply tail_base].
  - intros p IHp s IHs [Hp Hs]. destruct (IHp Hp) as (WA & AA & TA). destruct (IHs Hs) as (WB & AB & TB).
    split; [apply wf_concat; assumption|]. split; intros w.
    + rewrite accepts_concat by assumption. split; intros (u & v & -> & P & Q); exists u, v; (split; [reflexivity|]); split;
        try (apply AA; exact P); apply AB; exact Q.
    + rewrite tail_concat by assumption. apply TB.
Qed.

(** Nothing of the pattern's language is ever lost. *)
Lemma tail_nil : (forall u, uT u []) /\ (forall s, sT s []) /\ (forall p, pT p []).
Proof.
  apply regex_ind; cbn [uT sT pT]; auto.
  - intros u H q. destruct q; cbn [qT]; auto. exists [], []. split; [reflexivity|]. split; [exact H|constructor].
Qed.
Lemma complete : (forall u w, unitL u w -> uI u w) /\ (forall s w, selL s w -> sI s w) /\ (forall p w, patL p w -> pI p w).
Proof.
  assert (Q : forall q u, (forall w, unitL u w -> uI u w) -> forall w, quantL q (unitL u) w -> qI q (uI u) (uT u) w).
  { intros q u H w. destruct q; cbn [quantL qI]; auto.
    - apply Plus_ext; exact H.
    - apply Star_ext; exact H.
    - intros [->|K]; [right; apply tail_nil|left; auto]. }
  apply regex_ind; cbn [unitL selL patL uI sI pI]; auto.
  - intros s IHs u IHu q w [H|H]; [left; auto|right]. apply Q; auto.
  - intros p IHp s IHs w (u & v & -> & P & S). exists u, v. auto.
Qed.
(** Without a question mark on a '+'-ended group nothing is added either. *)
Lemma tail_only_nil :
  (forall u, ends_plus_unit u = false -> forall w, uT u w -> w = []) /\
  (forall s, ends_plus_sel s = false -> forall w, sT s w -> w = []) /\
  (forall p, ends_plus_pat p = false -> forall w, pT p w -> w = []).
Proof.
  apply regex_ind; cbn [ends_plus_unit ends_plus_sel ends_plus_pat uT sT pT]; auto.
  intros u H q. destruct q; cbn [qT]; auto. discriminate.
Qed.
Lemma sound :
  (forall u, unit_safe u -> forall w, uI u w -> unitL u w) /\
  (forall s, sel_safe s -> forall w, sI s w -> selL s w) /\
  (forall p, pat_safe p -> forall w, pI p w -> patL p w).
Proof.
  assert (Q : forall q u, (forall w, uI u w -> unitL u w) -> (q = QOpt -> ends_plus_unit u = false \/ just_plus u = true) ->
     forall w, qI q (uI u) (uT u) w -> quantL q (unitL u) w).
  { intros q u H HQ w. destruct q; cbn [quantL qI]; auto.
    - apply Plus_ext; exact H.
    - apply Star_ext; exact H.
    - intros [K|K]; [right; auto|]. destruct (HQ eq_refl) as [E|E].
      + left. exact (proj1 tail_only_nil u E w K).
      + destruct u as [a|[|[|] [v [|lg|lg|]|]]]; try discriminate E. cbn [just_plus] in E. apply negb_true_iff in E.
        cbn in K. destruct K as (x & y & -> & Hx & Hy). apply tail_only_nil in Hx; [|exact E]. subst x. cbn.
        inversion Hy as [|a b Ha Hb]; subst; [left; reflexivity|right]. apply H. cbn.
        exists [], (a ++ b). split; [reflexivity|]. split; [reflexivity|]. exists a, b. auto. }
  apply regex_ind; cbn [unit_safe sel_safe pat_safe unitL selL patL uI sI pI]; auto.
  - intros u IHu q [Hu HQ]. apply Q; auto.
  - intros s IHs u IHu q (Hs & Hu & HQ) w [H|H]; [left; auto|right]. apply Q; auto.
  - intros p IHp s IHs [Hp Hs] w (u & v & -> & P & S). exists u, v. auto.
Qed.
