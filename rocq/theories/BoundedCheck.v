(** * Checking right recursion and visible tokens on concrete grammars
    Functions and the proofs that their yes is right.  Only used for examples; no code is modelled here. *)
From Coq Require Import List NArith Arith Bool Lia Relations.
From Verif Require Import CharClassSpec RegexSpec GrammarSpec TreeSpec ParseSpec EmptySpec ATNLive Grammar GrammarProofs TableSpec EmptyCheck GrammarCheck.
Import ListNotations.
Local Open Scope nat_scope.

Section Check.
Variable nulls : list (list N).
Notation anull := (anull nulls). Notation snull := (snull nulls). Notation enull := (enull nulls).
Notation sing := (fun x : term => [x]).
Notation nulls_all := (Forall (fun x => tnull nulls x = true)).
(** The rules a body can end with. *)
Fixpoint alast (a : gatom) : list (list N) := match a with GTerm (TRule x) => [x] | GTerm _ => [] | GGroup e => elast e end
with slast (s : gseq) : list (list N) := match s with GNil => [] | GCons a q s => (if snull s then alast a else []) ++ slast s end
with elast (e : gsel) : list (list N) := match e with GFirst s => slast s | GAlt e _ s => elast e ++ slast s end.
Definition stops (L : list term -> Prop) (l : list (list N)) : Prop := forall v b v', L (v ++ TRule b :: v') -> nulls_all v' -> In b l.
Lemma stops_star L l : stops L l -> stops (GStarL term L) l.
Proof.
  intros H v b v' K. remember (v ++ TRule b :: v') as w eqn:E. revert v E. induction K as [|x y Hx Hy IH]; intros v E F; [destruct v; discriminate|].
  apply split_app in E as [(z & -> & ->)|(z & -> & ->)]; [|eapply IH; [reflexivity|exact F]]. apply Forall_app in F as [F _]. eapply H; eassumption.
Qed.
Lemma stops_quant q L l : stops L l -> stops (gquantL term q L) l.
Proof.
  intros H. destruct q; cbn [gquantL]; [exact H|apply stops_star; exact H| |].
  - intros v b v' (x & y & E & Hx & Hy) F. symmetry in E. apply split_app in E as [(z & -> & ->)|(z & -> & ->)]; [apply Forall_app in F as [F _]; eapply H; eassumption|]. exact (stops_star L l H _ _ _ Hy F).
  - intros v b v' [E|K] F; [destruct v; discriminate|]. exact (H _ _ _ K F).
Qed.
Lemma last_spec : (forall a, stops (gatomL term sing a) (alast a)) /\ (forall s, stops (gseqL term sing s) (slast s)) /\ (forall e, stops (gselL term sing e) (elast e)).
Proof.
  apply g_ind.
  - intros x v b v' H _. cbn in H. destruct v as [|y [|z v]]; try discriminate. injection H as H; subst. left. reflexivity.
  - intros e IH. exact IH.
  - intros v b v' H. destruct v; discriminate.
  - intros a IHa q s IHs v b v' (x & y & E & H1 & H2) F. cbn [slast]. apply in_or_app. symmetry in E. apply split_app in E as [(z & -> & ->)|(z & -> & ->)].
    + left. apply Forall_app in F as [F1 F2]. rewrite (proj1 (proj2 (null_spec nulls)) s y H2 F2). exact (stops_quant q _ _ IHa _ _ _ H1 F1).
    + right. exact (IHs _ _ _ H2 F).
  - intros s IH. exact IH.
  - intros e IHe up s IHs v b v' [H|H] F; cbn [elast]; apply in_or_app; [left; exact (IHe _ _ _ H F)|right; exact (IHs _ _ _ H F)].
Qed.
Variable order : list (list N).
Definition rights_check (ds : list (list N * gsel)) : bool := forallb (fun d => forallb (fun x => pos order x <? pos order (fst d)) (elast (snd d))) ds.
Theorem rights_ok order0 ds rules : (forall name id e, rules name = Some (id, e) -> In (name, e) ds) -> ends_check nulls order0 ds = true -> rights_check ds = true -> no_right_recursion rules patL.
Proof.
  intros HR HC HD. assert (G : forall a b, clos_trans _ (ends_with rules patL) a b -> pos order b < pos order a).
  { intros a b K. induction K as [a b K0|]; [|lia]. destruct K0 as (id & e & v & v' & R & K0 & F). unfold rights_check in HD. rewrite forallb_forall in HD. specialize (HD _ (HR _ _ _ R)). cbn [fst snd] in HD. rewrite forallb_forall in HD. apply Nat.ltb_lt, HD.
    exact (proj2 (proj2 last_spec) e v b v' K0 (empty_nulls nulls order0 ds rules HR HC _ F)). }
  intros a K. specialize (G _ _ K). lia.
Qed.
End Check.

(** ** Visible tokens *)
Definition blank_chars : list N := [9; 10; 13; 32]%N.
Definition item_blank (i : item) : bool := existsb (fun c => match i with Single x => N.eqb c x | Span a b => N.leb a c && N.leb c b end) blank_chars.
(** No white space among the characters. *)
Definition atom_inky (a : atom) : bool := match a with AChar c => negb (existsb (N.eqb c) blank_chars) | ADot => false | ASet l => negb (existsb item_blank l) | ANot _ => false end.
Definition blankc (c : N) : Prop := c = 9%N \/ c = 10%N \/ c = 13%N \/ c = 32%N.
Lemma blankc_in c : blankc c -> In c blank_chars.
Proof. unfold blankc, blank_chars. cbn [In]. intuition. Qed.
Lemma inky_spec a c : atom_inky a = true -> atom_den a c -> ~ blankc c.
Proof.
  destruct a as [x| |l|l]; cbn [atom_inky atom_den]; try discriminate; intros H D B; apply blankc_in in B.
  - subst x. apply negb_true_iff in H. assert (K : existsb (N.eqb c) blank_chars = true) by (apply existsb_exists; exists c; split; [exact B|apply N.eqb_refl]). congruence.
  - destruct D as (i & Hi & Di). apply negb_true_iff in H. assert (K : existsb item_blank l = true); [|congruence]. apply existsb_exists. exists i. split; [exact Hi|]. unfold item_blank. apply existsb_exists. exists c. split; [exact B|].
    destruct i; cbn [item_den] in Di; [apply N.eqb_eq; exact Di|]. destruct Di. apply andb_true_iff. split; apply N.leb_le; assumption.
Qed.
(** All characters visible. *)
Fixpoint uinky (u : unit_) : bool := match u with UAtom a => atom_inky a | UGroup p => pinky p end
with sinky (s : sel) : bool := match s with SOne u _ => uinky u | SAlt s u _ => sinky s && uinky u end
with pinky (p : pat) : bool := match p with PNil => true | PSnoc p s => pinky p && sinky s end.
(** Some visible character in every text. *)
Definition qsure (q : quant) (b : bool) : bool := match q with QOne | QPlus _ => b | _ => false end.
Fixpoint usure (u : unit_) : bool := match u with UAtom a => atom_inky a | UGroup p => psure p end
with ssure (s : sel) : bool := match s with SOne u q => qsure q (usure u) | SAlt s u q => ssure s && qsure q (usure u) end
with psure (p : pat) : bool := match p with PNil => false | PSnoc p s => psure p || ssure s end.
Lemma spaces_app_l u v : spaces (u ++ v) -> spaces u. Proof. intros H c Hc. apply H. apply in_or_app. auto. Qed.
Lemma spaces_app_r u v : spaces (u ++ v) -> spaces v. Proof. intros H c Hc. apply H. apply in_or_app. auto. Qed.
Lemma star_inky (L : list N -> Prop) : (forall w, L w -> spaces w -> w = []) -> forall w, Star L w -> spaces w -> w = [].
Proof. intros H w K. induction K as [|u v Hu Hv IH]; intros B; [reflexivity|]. rewrite (H u Hu (spaces_app_l _ _ B)), (IH (spaces_app_r _ _ B)). reflexivity. Qed.
Lemma quant_inky q (L : list N -> Prop) : (forall w, L w -> spaces w -> w = []) -> forall w, quantL q L w -> spaces w -> w = [].
Proof.
  intros H w. destruct q; cbn [quantL]; [apply H| |apply star_inky; exact H|intros [->|K]; [reflexivity|apply H; exact K]].
  intros (u & v & -> & Hu & Hv) B. rewrite (H u Hu (spaces_app_l _ _ B)), (star_inky L H v Hv (spaces_app_r _ _ B)). reflexivity.
Qed.
Lemma inky_all : (forall u, uinky u = true -> forall w, unitL u w -> spaces w -> w = []) /\ (forall s, sinky s = true -> forall w, selL s w -> spaces w -> w = []) /\ (forall p, pinky p = true -> forall w, patL p w -> spaces w -> w = []).
Proof.
  apply regex_ind.
  - intros a H w (ch & -> & D) B. destruct (inky_spec a ch H D). apply B. left. reflexivity.
  - intros p IH H. exact (IH H).
  - intros u IH q H. exact (quant_inky q _ (IH H)).
  - intros s IHs u IHu q H w K B. cbn [sinky] in H. apply andb_true_iff in H as [H1 H2]. destruct K as [K|K]; [exact (IHs H1 w K B)|exact (quant_inky q _ (IHu H2) w K B)].
  - intros _ w -> _. reflexivity.
  - intros p IHp s IHs H w (u & v & -> & K1 & K2) B. cbn [pinky] in H. apply andb_true_iff in H as [H1 H2]. rewrite (IHp H1 u K1 (spaces_app_l _ _ B)), (IHs H2 v K2 (spaces_app_r _ _ B)). reflexivity.
Qed.
Lemma quant_sure q (L : list N -> Prop) b : (b = true -> forall w, L w -> ~ spaces w) -> qsure q b = true -> forall w, quantL q L w -> ~ spaces w.
Proof.
  intros H E w. destruct q; cbn [quantL qsure] in *; try discriminate; [apply H; exact E|]. intros (u & v & -> & Hu & Hv) B. exact (H E u Hu (spaces_app_l _ _ B)).
Qed.
Lemma sure_all : (forall u, usure u = true -> forall w, unitL u w -> ~ spaces w) /\ (forall s, ssure s = true -> forall w, selL s w -> ~ spaces w) /\ (forall p, psure p = true -> forall w, patL p w -> ~ spaces w).
Proof.
  apply regex_ind.
  - intros a H w (ch & -> & D) B. destruct (inky_spec a ch H D). apply B. left. reflexivity.
  - intros p IH H. exact (IH H).
  - intros u IH q H. exact (quant_sure q _ _ IH H).
  - intros s IHs u IHu q H w K. cbn [ssure] in H. apply andb_true_iff in H as [H1 H2]. destruct K as [K|K]; [exact (IHs H1 w K)|exact (quant_sure q _ _ IHu H2 w K)].
  - discriminate.
  - intros p IHp s IHs H w (u & v & -> & K1 & K2) B. cbn [psure] in H. apply orb_true_iff in H as [H|H]; [exact (IHp H u K1 (spaces_app_l _ _ B))|exact (IHs H v K2 (spaces_app_r _ _ B))].
Qed.
Definition visible_check (ds : list (list N * gsel)) : bool := forallb (fun d => forallb (fun x => match x with
  | TPat p => pat_fine p && (psure p || pinky p)
  | TLit s => match s with [] => true | _ => existsb (fun c => negb (existsb (N.eqb (c mod 256)) blank_chars)) s end
  | _ => true end) (gsel_terms (snd d))) ds.
Theorem visible_ok ds : visible_check ds = true -> tokens_visible ds.
Proof.
  intros F name b Hd. unfold visible_check in F. rewrite forallb_forall in F. specialize (F _ Hd). cbn [snd] in F. rewrite forallb_forall in F. split.
  - intros s Hs B. specialize (F _ Hs). cbv beta iota in F. destruct s as [|c0 s]; [reflexivity|]. exfalso. apply existsb_exists in F as (c & Hc & E). apply negb_true_iff in E. assert (K : existsb (N.eqb (c mod 256)) blank_chars = true); [|congruence].
    apply existsb_exists. exists (c mod 256)%N. split; [|apply N.eqb_refl]. apply blankc_in. apply B. unfold lit_bytes. exact (in_map (fun c => (c mod 256)%N) _ _ Hc).
  - intros p Hp. specialize (F _ Hp). cbv beta iota in F. apply andb_true_iff in F as [F1 F2]. apply fine_spec in F1 as [_ F1]. split; [exact F1|]. intros w K B. apply orb_true_iff in F2 as [F2|F2]; [destruct (proj2 (proj2 sure_all) p F2 w K B)|exact (proj2 (proj2 inky_all) p F2 w K B)].
Qed.
