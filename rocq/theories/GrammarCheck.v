(** * Recognising the text of a concrete grammar file
    Only used to show that concrete files meet the hypotheses of the theorems: a function that
    compares a text with a list of rules, and the proof that its yes is right.  No code is modelled here. *)
From Coq Require Import List NArith Arith Bool Lia ZifyBool ZifyN ZifyNat.
From Verif Require Import CharClassSpec CharClassParse StreamSpec RegexSpec GrammarSpec.
Import ListNotations.
Local Open Scope N_scope.

Fixpoint pref (s t : list N) : option (list N) :=
  match s, t with
  | [], _ => Some t
  | a :: s', b :: t' => if a =? b then pref s' t' else None
  | _, _ => None
  end.
Lemma pref_spec s : forall t r, pref s t = Some r -> t = s ++ r.
Proof. induction s as [|a s IH]; intros [|b t] r; cbn; try discriminate; try congruence. destruct (a =? b) eqn:E; [|discriminate]. intros H. apply IH in H. apply N.eqb_eq in E. congruence. Qed.
Definition is_blank (c : N) : bool := (c =? 32) || ((9 <=? c) && (c <=? 13)).
Fixpoint skipb (t : list N) : list N := match t with c :: t' => if is_blank c then skipb t' else t | [] => [] end.
Lemma skipb_spec t : exists b, btext b /\ t = b ++ skipb t.
Proof.
  induction t as [|c t (b & H & E)]; [exists []; split; [constructor|reflexivity]|]. cbn [skipb]. destruct (is_blank c) eqn:B.
  - exists (c :: b). split; [apply bt_space; [unfold is_blank in B; lia|exact H]|cbn; congruence].
  - exists []. split; [constructor|reflexivity].
Qed.
Definition obind {A B} (o : option A) (f : A -> option B) : option B := match o with Some x => f x | None => None end.
Lemma obind_some {A B} (o : option A) (f : A -> option B) y : obind o f = Some y -> exists x, o = Some x /\ f x = Some y.
Proof. destruct o; cbn; [eauto|discriminate]. Qed.

(** ** Patterns *)
Definition check_atom (a : atom) (t : list N) : option (list N) :=
  match a with
  | AChar c => if is_meta c then pref [92; c] t else if c =? 47 then None else pref [c] t
  | ADot => pref [46] t
  | ASet l => if forallb (fun i => match i with Single c => (1 <=? c) && (c <? 255) | Span a b => (1 <=? a) && (a <=? b) && (b <? 255) end) l then pref (91 :: write_items l ++ [93]) t else None
  | ANot l => if forallb (fun i => match i with Single c => (1 <=? c) && (c <? 255) | Span a b => (1 <=? a) && (a <=? b) && (b <? 255) end) l then pref (91 :: 94 :: write_items l ++ [93]) t else None
  end.
Lemma item_okb0 l : forallb (fun i => match i with Single c => (1 <=? c) && (c <? 255) | Span a b => (1 <=? a) && (a <=? b) && (b <? 255) end) l = true -> Forall item_ok l.
Proof. intros H. rewrite forallb_forall in H. apply Forall_forall. intros i Hi. specialize (H i Hi). destruct i; cbn in *; lia. Qed.
Lemma check_atom_spec a t r : check_atom a t = Some r -> exists x, w_atom a x /\ t = x ++ r.
Proof.
  destruct a as [c| |l|l]; cbn [check_atom].
  - destruct (is_meta c) eqn:M; [intros H; apply pref_spec in H; eexists; split; [apply wa_esc; exact M|exact H]|]. destruct (c =? 47) eqn:E; [discriminate|]. intros H. apply pref_spec in H. eexists. split; [apply wa_plain; [exact M|lia]|exact H].
  - intros H. apply pref_spec in H. eexists. split; [constructor|exact H].
  - destruct (forallb _ l) eqn:F; [|discriminate]. intros H. apply pref_spec in H. eexists. split; [apply wa_set, write_items_text, item_okb0; exact F|exact H].
  - destruct (forallb _ l) eqn:F; [|discriminate]. intros H. apply pref_spec in H. eexists. split; [apply wa_not, write_items_text, item_okb0; exact F|exact H].
Qed.
Fixpoint first_pref (l : list (list N)) (t : list N) : option (list N) :=
  match l with [] => None | x :: l' => match pref x t with Some r => Some r | None => first_pref l' t end end.
Lemma first_pref_spec l t r : first_pref l t = Some r -> exists x, In x l /\ t = x ++ r.
Proof. induction l as [|x l IH]; cbn; [discriminate|]. destruct (pref x t) eqn:E; [intros H; injection H as ->; apply pref_spec in E; eauto|]. intros H. destruct (IH H) as (y & Hy & Ey). eauto. Qed.
Definition check_q (q : quant) (t : list N) : option (list N) := first_pref (q_texts q) t.
Fixpoint check_unit (u : unit_) (t : list N) : option (list N) :=
  match u with
  | UAtom a => check_atom a t
  | UGroup p => obind (pref [40] t) (fun t1 => obind (check_pat p t1) (pref [41]))
  end
with check_sel (s : sel) (t : list N) : option (list N) :=
  match s with
  | SOne u q => obind (check_unit u t) (check_q q)
  | SAlt s u q => obind (check_sel s t) (fun t1 => obind (pref [124] t1) (fun t2 => obind (check_unit u t2) (check_q q)))
  end
with check_pat (p : pat) (t : list N) : option (list N) :=
  match p with PNil => Some t | PSnoc p s => obind (check_pat p t) (check_sel s) end.
Lemma check_regex :
  (forall u t r, check_unit u t = Some r -> exists x, w_unit u x /\ t = x ++ r) /\
  (forall s t r, check_sel s t = Some r -> exists x, RegexSpec.w_sel s x /\ t = x ++ r) /\
  (forall p t r, check_pat p t = Some r -> exists x, w_pat p x /\ t = x ++ r).
Proof.
  apply regex_ind; cbn [check_unit check_sel check_pat].
  - intros a t r H. apply check_atom_spec in H as (x & W & ->). exists x. split; [constructor; exact W|reflexivity].
  - intros p IH t r H. apply obind_some in H as (t1 & H1 & H). apply pref_spec in H1 as ->. apply obind_some in H as (t2 & H2 & H). apply IH in H2 as (x & W & ->). apply pref_spec in H as ->.
    exists (40 :: x ++ [41]). split; [constructor; exact W|]. cbn. rewrite <- app_assoc. reflexivity.
  - intros u IH q t r H. apply obind_some in H as (t1 & H1 & H). apply IH in H1 as (x & W & ->). apply first_pref_spec in H as (y & Hy & ->). exists (x ++ y). split; [constructor; assumption|]. rewrite <- app_assoc. reflexivity.
  - intros s IHs u IH q t r H. apply obind_some in H as (t0 & H0 & H). apply IHs in H0 as (x0 & W0 & ->). apply obind_some in H as (t1 & H1 & H). apply pref_spec in H1 as ->. apply obind_some in H as (t2 & H2 & H).
    apply IH in H2 as (x & W & ->). apply first_pref_spec in H as (y & Hy & ->). exists (x0 ++ 124 :: x ++ y). split; [constructor; assumption|]. cbn. rewrite <- !app_assoc. cbn. rewrite <- app_assoc. reflexivity.
  - intros t r H. injection H as ->. exists []. split; [constructor|reflexivity].
  - intros p IHp s IHs t r H. apply obind_some in H as (t1 & H1 & H). apply IHp in H1 as (x & W & ->). apply IHs in H as (y & W2 & ->). exists (x ++ y). split; [constructor; assumption|]. rewrite <- app_assoc. reflexivity.
Qed.

(** ** Well-formed patterns *)
Definition item_okb (i : item) : bool := match i with Single c => (1 <=? c) && (c <? 255) | Span a b => (1 <=? a) && (a <=? b) && (b <? 255) end.
Definition apartb (i j : item) : bool := (item_hi i <? item_lo j) || (item_hi j <? item_lo i).
Fixpoint allapartb (l : list item) : bool := match l with [] => true | i :: l' => forallb (apartb i) l' && allapartb l' end.
Definition item_denb (i : item) (ch : N) : bool := match i with Single c => ch =? c | Span a b => (a <=? ch) && (ch <=? b) end.
(** Brackets: negated ones list items that are apart and leave out the tilde (126). *)
Definition atom_okb (a : atom) : bool :=
  match a with
  | AChar c => (1 <=? c) && (c <? 255)
  | ADot => true
  | ASet l => forallb item_okb l && match l with [] => false | i :: _ => negb (item_lo i =? 94) end
  | ANot l => forallb item_okb l && allapartb l && negb (existsb (fun i => item_denb i 126) l)
  end.
Lemma item_okb_spec l : forallb item_okb l = true -> Forall item_ok l.
Proof. intros H. rewrite forallb_forall in H. apply Forall_forall. intros i Hi. specialize (H i Hi). destruct i; cbn in *; lia. Qed.
Lemma allapartb_spec l : allapartb l = true -> AllApart l.
Proof.
  induction l as [|i l IH]; cbn; [auto|]. intros H. apply andb_true_iff in H as [H1 H2]. split; [|auto]. rewrite forallb_forall in H1. apply Forall_forall. intros j Hj. specialize (H1 j Hj). unfold apartb, apart in *. lia.
Qed.
Lemma atom_okb_spec a : atom_okb a = true -> atom_ok a.
Proof.
  destruct a as [c| |l|l]; cbn [atom_okb atom_ok].
  - lia.
  - auto.
  - intros H. apply andb_true_iff in H as [H1 H2]. split; [apply item_okb_spec; exact H1|]. destruct l as [|i l]; [discriminate|]. split; [cbn; lia|discriminate].
  - intros H. apply andb_true_iff in H as [H H3]. apply andb_true_iff in H as [H1 H2]. split; [apply item_okb_spec; exact H1|]. split; [apply apart_NoBridge; [apply item_okb_spec; exact H1|apply allapartb_spec; exact H2]|]. exists 126. cbn. split; [lia|]. split; [lia|].
    intros (i & Hi & K). assert (X : existsb (fun i => item_denb i 126) l = true) by (apply existsb_exists; exists i; split; [exact Hi|destruct i; unfold item_denb, item_den in *; lia]). rewrite X in H3. discriminate.
Qed.
Definition not_optb (q : quant) (u : unit_) : bool := match q with QOpt => negb (ends_plus_unit u) || just_plus u | _ => true end.
Fixpoint unit_fine (u : unit_) : bool := match u with UAtom ADot => false | UAtom a => atom_okb a | UGroup p => pat_fine p end
with sel_fine (s : sel) : bool := match s with SOne u q => unit_fine u && not_optb q u | SAlt s u q => sel_fine s && unit_fine u && not_optb q u end
with pat_fine (p : pat) : bool := match p with PNil => true | PSnoc p s => pat_fine p && sel_fine s end.
Lemma not_optb_spec q u : not_optb q u = true -> q = QOpt -> ends_plus_unit u = false \/ just_plus u = true.
Proof. intros H ->. cbn in H. destruct (ends_plus_unit u), (just_plus u); auto; discriminate. Qed.
Lemma fine_spec : (forall u, unit_fine u = true -> unit_ok u /\ unit_safe u) /\ (forall s, sel_fine s = true -> sel_ok s /\ sel_safe s) /\ (forall p, pat_fine p = true -> pat_ok p /\ pat_safe p).
Proof.
  apply regex_ind; cbn [unit_fine sel_fine pat_fine unit_ok sel_ok pat_ok unit_safe sel_safe pat_safe].
  - intros a H. split; [|exact I]. apply atom_okb_spec. destruct a; [exact H|reflexivity|exact H|exact H].
  - auto.
  - intros u IH q H. apply andb_true_iff in H as [H1 H2]. destruct (IH H1). split; [assumption|]. split; [assumption|]. apply not_optb_spec; exact H2.
  - intros s IHs u IH q H. apply andb_true_iff in H as [H H2]. apply andb_true_iff in H as [H0 H1]. destruct (IH H1), (IHs H0). split; [auto|]. split; [assumption|]. split; [assumption|]. apply not_optb_spec; exact H2.
  - auto.
  - intros p IHp s IHs H. apply andb_true_iff in H as [H0 H1]. destruct (IHp H0), (IHs H1). auto.
Qed.

(** ** Rule bodies *)
Definition symb (c : N) : bool := (c =? 95) || ((65 <=? c) && (c <=? 90)) || ((97 <=? c) && (c <=? 122)) || ((48 <=? c) && (c <=? 57)).
Definition firstb (c : N) : bool := (c =? 95) || ((65 <=? c) && (c <=? 90)) || ((97 <=? c) && (c <=? 122)).
Definition nameb (s : list N) : bool := match s with c :: s => firstb c && forallb symb s | [] => false end.
Lemma symb_spec c : symb c = true <-> sym_char c.
Proof. unfold symb, sym_char, letter, digit. rewrite !orb_true_iff, !andb_true_iff, !N.leb_le, N.eqb_eq. tauto. Qed.
Lemma nameb_spec s : nameb s = true -> is_name s.
Proof. destruct s as [|c s]; cbn; [discriminate|]. intros H. apply andb_true_iff in H as [H1 H2]. split; [unfold firstb, letter in *; lia|]. rewrite forallb_forall in H2. intros x Hx. apply symb_spec, H2, Hx. Qed.
Definition inb (c : N) (s : list N) : bool := existsb (N.eqb c) s.
Lemma inb_spec c s : inb c s = false -> ~ In c s.
Proof. intros H K. assert (inb c s = true) by (apply existsb_exists; exists c; split; [exact K|apply N.eqb_refl]). congruence. Qed.
Definition check_term (x : term) (t : list N) : option (list N) :=
  match x with
  | TRule id => if nameb id then obind (pref id t) (fun r => match r with c :: _ => if symb c then None else Some r | [] => Some r end) else None
  | TLit s => match t with
              | q :: t1 => if ((q =? 34) || (q =? 39)) && negb (inb q s) && negb (inb 0 s) then pref (s ++ [q]) t1 else None
              | [] => None
              end
  | TPat p => if pat_fine p then match p with PNil => None | _ => obind (pref [47] t) (fun t1 => obind (check_pat p t1) (pref [47])) end else None
  end.
Lemma check_term_spec x t r : check_term x t = Some r -> exists y, w_term x y /\ t = y ++ r /\ separated x r.
Proof.
  destruct x as [id|s|p]; cbn [check_term].
  - destruct (nameb id) eqn:E; [|discriminate]. intros H. apply obind_some in H as (r' & H1 & H). apply pref_spec in H1 as ->. apply nameb_spec in E. destruct id as [|c id]; [destruct E|]. destruct E as [E1 E2].
    exists (c :: id). split; [constructor; assumption|]. destruct r' as [|d r']; [injection H as <-; split; [reflexivity|exact I]|]. destruct (symb d) eqn:S; [discriminate|]. injection H as <-. split; [reflexivity|]. cbn. rewrite <- symb_spec. congruence.
  - destruct t as [|q t]; [discriminate|]. destruct (((q =? 34) || (q =? 39)) && negb (inb q s) && negb (inb 0 s)) eqn:E; [|discriminate]. intros H. apply pref_spec in H as ->.
    apply andb_true_iff in E as [E E3]. apply andb_true_iff in E as [E1 E2]. exists (q :: s ++ [q]). split; [constructor; [lia|apply inb_spec; destruct (inb q s); [discriminate|reflexivity]|apply inb_spec; destruct (inb 0 s); [discriminate|reflexivity]]|]. split; [reflexivity|exact I].
  - destruct (pat_fine p) eqn:F; [|discriminate]. destruct p as [|p0 s0]; [discriminate|]. set (p := PSnoc p0 s0) in *. assert (EP : p <> PNil) by discriminate. intros H. apply obind_some in H as (t1 & H1 & H). apply pref_spec in H1 as ->. apply obind_some in H as (t2 & H2 & H). apply (proj2 (proj2 check_regex)) in H2 as (x & W & ->). apply pref_spec in H as ->.
    exists (47 :: x ++ [47]). split; [constructor; [apply (proj2 (proj2 fine_spec)); exact F|exact EP|exact W]|]. split; [cbn; rewrite <- app_assoc; reflexivity|exact I].
Qed.
Definition check_gq (q : gquant) (t : list N) : option (list N) := pref (gq_text q) t.
Fixpoint check_gatom (a : gatom) (t : list N) : option (list N) :=
  match a with
  | GTerm x => check_term x t
  | GGroup e => obind (pref [40] t) (fun t1 => obind (check_gsel e t1) (pref [41]))
  end
with check_gseq (s : gseq) (t : list N) : option (list N) :=
  match s with
  | GNil => Some (skipb t)
  | GCons a q s => obind (check_gatom a (skipb t)) (fun t1 => obind (check_gq q (skipb t1)) (check_gseq s))
  end
with check_gsel (e : gsel) (t : list N) : option (list N) :=
  match e with
  | GFirst s => check_gseq s t
  | GAlt e up s => obind (check_gsel e t) (fun t1 => obind (pref (124 :: (if up then [62] else [])) t1) (check_gseq s))
  end.
Lemma separated_prefix x a b : separated x (a ++ b) -> separated x a.
Proof. destruct x; cbn; auto. destruct a; cbn; auto. Qed.
Lemma check_body_spec :
  (forall a t r, check_gatom a t = Some r -> match a with
     | GTerm x => exists y, w_term x y /\ t = y ++ r /\ separated x r
     | GGroup e => exists y, GrammarSpec.w_sel e y /\ t = 40 :: y ++ 41 :: r end) /\
  (forall s t r, check_gseq s t = Some r -> exists y, w_seq s y /\ t = y ++ r) /\
  (forall e t r, check_gsel e t = Some r -> exists y, GrammarSpec.w_sel e y /\ t = y ++ r).
Proof.
  apply g_ind; cbn [check_gatom check_gseq check_gsel].
  - intros x t r H. apply check_term_spec. exact H.
  - intros e IH t r H. apply obind_some in H as (t1 & H1 & H). apply pref_spec in H1 as ->. apply obind_some in H as (t2 & H2 & H). apply IH in H2 as (y & W & ->). apply pref_spec in H as ->. exists y. split; [exact W|reflexivity].
  - intros t r H. injection H as <-. destruct (skipb_spec t) as (b & B & E). exists b. split; [constructor; exact B|exact E].
  - intros a IHa q s IHs t r H. apply obind_some in H as (t1 & H1 & H). apply obind_some in H as (t2 & H2 & H). apply IHs in H as (z & W & ->). apply pref_spec in H2.
    destruct (skipb_spec t) as (b & B & E). destruct (skipb_spec t1) as (b1 & B1 & E1). specialize (IHa _ _ H1). destruct a as [x|e].
    + destruct IHa as (y & WY & EY & SE). exists (b ++ y ++ b1 ++ [] ++ gq_text q ++ z). split.
      * constructor; [exact B|exact WY|exact B1|constructor|exact W|]. rewrite E1, H2 in SE. apply (separated_prefix x _ r). cbn [app]. rewrite <- !app_assoc. exact SE.
      * rewrite E, EY, E1, H2. cbn [app]. rewrite <- !app_assoc. reflexivity.
    + destruct IHa as (y & WY & EY). exists (b ++ 40 :: y ++ 41 :: b1 ++ gq_text q ++ z). split.
      * constructor; assumption.
      * rewrite E, EY, E1, H2. rewrite <- app_assoc. cbn [app]. rewrite <- !app_assoc. cbn [app]. rewrite <- !app_assoc. reflexivity.
  - intros s IH t r H. apply IH in H as (y & W & E). exists y. split; [constructor; exact W|exact E].
  - intros e IHe up s IHs t r H. apply obind_some in H as (t1 & H1 & H). apply IHe in H1 as (y & W & ->). apply obind_some in H as (t2 & H2 & H). apply pref_spec in H2 as ->. apply IHs in H as (z & WZ & ->).
    exists (y ++ 124 :: (if up then [62] else []) ++ z). split; [constructor; assumption|]. rewrite <- !app_assoc. cbn [app]. rewrite <- app_assoc. reflexivity.
Qed.

(** ** Files: an optional title, then rules *)
Fixpoint eqb_list (a b : list N) : bool := match a, b with [], [] => true | x :: a, y :: b => (x =? y) && eqb_list a b | _, _ => false end.
Lemma eqb_list_refl a : eqb_list a a = true.
Proof. induction a as [|x a IH]; cbn; [reflexivity|]. rewrite N.eqb_refl. exact IH. Qed.
Definition plain_name (id : list N) : bool := nameb id && negb (eqb_list id word_grammar) && negb (eqb_list id word_include).
Fixpoint check_rules (ds : list (list N * gsel)) (t : list N) : bool :=
  match ds with
  | [] => match skipb t with [] => true | _ => false end
  | (id, e) :: ds =>
    plain_name id && match obind (pref id (skipb t)) (fun t1 => obind (pref [58] (skipb t1)) (fun t2 => obind (check_gsel e t2) (pref [59]))) with Some r => check_rules ds r | None => false end
  end.
Definition check_file (title : option (list N)) (ds : list (list N * gsel)) (t : list N) : bool :=
  match title with
  | None => check_rules ds t
  | Some id => nameb id && match obind (pref word_grammar (skipb t)) (fun t1 => obind (pref [32] t1) (fun t2 => obind (pref id (skipb t2)) (fun t3 => pref [59] (skipb t3)))) with Some r => check_rules ds r | None => false end
  end.
Lemma check_rules_spec chars resolve f ds : forall t, check_rules ds t = true -> w_file chars resolve f t ds.
Proof.
  induction ds as [|[id e] ds IH]; intros t; cbn [check_rules].
  - destruct (skipb_spec t) as (b & B & E). destruct (skipb t); [|discriminate]. intros _. rewrite E, app_nil_r. constructor. exact B.
  - intros H. apply andb_true_iff in H as [HN H]. unfold plain_name in HN. apply andb_true_iff in HN as [HN N3]. apply andb_true_iff in HN as [N1 N2].
    destruct (obind (pref id (skipb t)) _) as [r|] eqn:E; [|discriminate]. apply obind_some in E as (t1 & E1 & E). apply obind_some in E as (t2 & E2 & E). apply obind_some in E as (t3 & E3 & E).
    apply pref_spec in E1, E2, E. apply (proj2 (proj2 check_body_spec)) in E3 as (y & W & ->). subst t3. destruct (skipb_spec t) as (b & B & EB). destruct (skipb_spec t1) as (b1 & B1 & EB1).
    replace t with (b ++ id ++ (b1 ++ 58 :: y ++ [59]) ++ r).
    + constructor; [exact B|apply nameb_spec; exact N1|intros ->; rewrite eqb_list_refl in N2; discriminate|intros ->; rewrite eqb_list_refl in N3; discriminate| |apply IH; exact H]. exists b1, y. auto.
    + rewrite EB, E1, EB1, E2. cbn [app]. rewrite <- !app_assoc. cbn [app]. rewrite <- !app_assoc. reflexivity.
Qed.
Theorem check_file_spec chars resolve f title ds t : check_file title ds t = true -> w_file chars resolve f t ds.
Proof.
  destruct title as [id|]; cbn [check_file]; [|apply check_rules_spec]. intros H. apply andb_true_iff in H as [HN H].
  destruct (obind (pref word_grammar (skipb t)) _) as [r|] eqn:E; [|discriminate]. apply obind_some in E as (t1 & E1 & E). apply obind_some in E as (t2 & E2 & E). apply obind_some in E as (t3 & E3 & E).
  apply pref_spec in E1, E2, E3, E. destruct (skipb_spec t) as (b & B & EB). destruct (skipb_spec t2) as (b2 & B2 & EB2). destruct (skipb_spec t3) as (b3 & B3 & EB3).
  replace t with (b ++ word_grammar ++ (32 :: b2) ++ id ++ b3 ++ 59 :: r).
  - constructor; [exact B|apply bt_space; [auto|exact B2]|discriminate|apply nameb_spec; exact HN|exact B3|apply check_rules_spec; exact H].
  - rewrite EB, E1, E2, EB2, E3, EB3, E. cbn [app]. reflexivity.
Qed.
