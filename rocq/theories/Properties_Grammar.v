(** * C16, C17, C37: reading grammar files, rule ids, the callback table *)
From Coq Require Import List NArith Arith Bool Lia ZifyBool ZifyN ZifyNat.
From Verif Require Import CharClass Stream StreamSpec StreamProofs RegexSpec NFA NFABuild Marker MarkerProofs GrammarSpec ATN ATNSem ATNBuild ATNParse Suffix Grammar GrammarProofs.
Import ListNotations.
Local Open Scope nat_scope.

(** The rules a file declares (with those of the files it includes), as texts say it. *)
Definition declares (fs : list N -> list N) (file : list N) (ds : list (list N * gsel)) : Prop :=
  w_file (fun f => deliver (fs f)) include_path file (deliver (fs file)) ds.
(** Reading the file ends, with this grammar. *)
Definition reads (fs : list N -> list N) (file : list N) (g : gstate) : Prop := exists fuel mid, read_grammar fuel fs file = SOk (mid, g).

(** A file that declares rules is read; the grammar has these rules in this order, the network
    of a name is that of its first declaration. *)
Theorem C16_declared_rules : forall fs file ds, declares fs file ds -> (N.of_nat (length ds) <= 65534)%N ->
  exists g, reads fs file g /\ g_ids g = map fst ds /\
    forall k id e, nth_error ds k = Some (id, e) -> ~ In id (map fst (firstn k ds)) -> lookup (g_nets g) id = Some (N.of_nat (S k), build_body true e).
Proof.
  intros fs file ds H L. destruct (gread_written _ _ _ _ H 1%N empty_grammar ltac:(lia)) as (fu & g & E & S1 & S2 & _).
  exists g. split; [exists fu; eexists; exact E|]. split; [rewrite S2, gather_ids; reflexivity|].
  intros k id e Hk Hn. rewrite S1, (gather_lookup _ _ _ _ _ _ Hk Hn) by reflexivity. replace (0 <? 1 + N.of_nat k)%N with true by lia. do 3 f_equal. lia.
Qed.
Print Assumptions C16_declared_rules.

(** Whatever text was read: different names have different ids; exactly the declared names have
    one; the id is the position of the first declaration, at most 65535; the root is the first. *)
Theorem C16_ids : forall fs file g, reads fs file g ->
  (forall a b id, machine_id g a = Some id -> machine_id g b = Some id -> a = b) /\
  (forall a, In a (g_ids g) <-> exists id, machine_id g a = Some id) /\
  (forall a id, machine_id g a = Some id -> (1 <= id <= 65535)%N /\ nth_error (g_ids g) (N.to_nat id - 1) = Some a /\ ~ In a (firstn (N.to_nat id - 1) (g_ids g))) /\
  g_root g = hd [] (g_ids g).
Proof.
  intros fs file g (fu & mid & E). pose proof (gread_inv _ _ _ _ _ _ _ _ inv_empty E) as I. pose proof (machine_id_iff _ _ I) as MI.
  split; [|split; [|split; [|exact (i_root _ _ I)]]].
  - intros a b id Ha Hb. apply MI in Ha as (k & Ka & ->). apply MI in Hb as (k' & Kb & Ek). assert (k' = k) as -> by lia. exact (first_at_name _ _ _ _ Ka Kb).
  - intros a. split.
    + intros H. destruct (first_at_ex _ _ H) as [k K]. exists (N.of_nat (S k)). apply MI. eauto.
    + intros [id H]. apply MI in H as (k & (l1 & l2 & -> & _) & _). apply in_or_app. right. left. reflexivity.
  - intros a id H. apply MI in H as (k & K & ->). pose proof (first_at_lt _ _ _ K) as L. pose proof (i_len _ _ I). pose proof (i_max _ _ I).
    split; [lia|]. replace (N.to_nat (N.of_nat (S k)) - 1) with k by lia. destruct K as (l1 & l2 & -> & Hn & <-). split.
    + rewrite nth_error_app2 by lia. rewrite Nat.sub_diag. reflexivity.
    + rewrite firstn_app, Nat.sub_diag, firstn_all. cbn. rewrite app_nil_r. exact Hn.
Qed.
Print Assumptions C16_ids.
(** The rest of C16, where it holds: no name declared twice, at most 32767 rules. *)
Theorem C16_ids_in_range_partial : forall fs file g, reads fs file g -> NoDup (g_ids g) ->
  machine_num g = N.of_nat (length (g_ids g)) /\
  (forall a id, machine_id g a = Some id -> (1 <= id <= machine_num g)%N) /\
  ((N.of_nat (length (g_ids g)) <= 32767)%N -> forall a id off, machine_id g a = Some id -> (off < 2 ^ 48)%N ->
     (id < 2 ^ 15)%N /\ get_machine_id (start_word id off) = id /\ get_machine_id (end_word id off) = id).
Proof.
  intros fs file g (fu & mid & E) ND. pose proof (gread_inv _ _ _ _ _ _ _ _ inv_empty E) as I. pose proof (machine_id_iff _ _ I) as MI.
  pose proof (nets_length _ _ I ND) as NL. unfold machine_num. rewrite NL. split; [reflexivity|]. split.
  - intros a id H. apply MI in H as (k & K & ->). pose proof (first_at_lt _ _ _ K). lia.
  - intros L a id off H Ho. apply MI in H as (k & K & ->). pose proof (first_at_lt _ _ _ K). assert (R : (N.of_nat (S k) < 2 ^ 15)%N) by (change (2 ^ 15)%N with 32768%N; lia).
    split; [exact R|]. split; [apply (MarkerProofs.marker_start _ off); [lia|exact Ho]|apply (MarkerProofs.marker_end _ off); [lia|exact Ho]].
Qed.
Print Assumptions C16_ids_in_range_partial.

(** Not refused: grammars with more than 32767 rules.  Rule number k is named aa..a (k+1 times)
    and has an empty body. *)
Definition rule_name (k : nat) : list N := repeat 97%N (S k).
Definition many_rules (n : nat) : list (list N * gsel) := map (fun k => (rule_name k, GFirst GNil)) (seq 0 n).
Definition many_text (n : nat) : list N := flat_map (fun k => rule_name k ++ [58; 59]%N) (seq 0 n).
Lemma rule_name_name k : is_name (rule_name k).
Proof. cbn. split; [unfold letter; lia|]. intros x H. apply repeat_spec in H. subst. unfold sym_char, letter. lia. Qed.
Lemma rule_name_kw k w : In 103%N w \/ In 105%N w -> rule_name k <> w.
Proof. intros H <-. destruct H as [H|H]; apply repeat_spec in H; discriminate. Qed.
Lemma many_written chars res f l : w_file chars res f (flat_map (fun k => rule_name k ++ [58; 59]%N) l) (map (fun k => (rule_name k, GFirst GNil)) l).
Proof.
  induction l as [|k l IH]; [apply wf_end; constructor|]. cbn [flat_map map].
  assert (E : (rule_name k ++ [58; 59]%N) ++ flat_map (fun k => rule_name k ++ [58; 59]%N) l = [] ++ rule_name k ++ [58; 59]%N ++ flat_map (fun k => rule_name k ++ [58; 59]%N) l) by (rewrite <- app_assoc; reflexivity).
  rewrite E. apply wf_rule; [constructor|apply rule_name_name|apply rule_name_kw; left; cbn; auto|apply rule_name_kw; right; cbn; auto| |exact IH].
  exists [], []. split; [constructor|]. split; [|reflexivity]. constructor. constructor. constructor.
Qed.
Lemma rule_name_inj j k : rule_name j = rule_name k -> j = k.
Proof. intros H. apply (f_equal (@length N)) in H. unfold rule_name in H. rewrite !repeat_length in H. lia. Qed.
Lemma many_nocr l : ~ In 13%N (flat_map (fun k => rule_name k ++ [58; 59]%N) l).
Proof. intros H. apply in_flat_map in H as (k & _ & H). apply in_app_or in H as [H|[H|[H|[]]]]; [apply repeat_spec in H|..]; discriminate. Qed.
Lemma many_names n : map fst (many_rules n) = map rule_name (seq 0 n).
Proof. unfold many_rules. rewrite map_map. reflexivity. Qed.
Lemma rules_nodup l : NoDup l -> NoDup (map rule_name l).
Proof. induction 1 as [|k l H _ IH]; constructor; [|exact IH]. intros K. apply in_map_iff in K as (j & E & K). apply rule_name_inj in E. subst. exact (H K). Qed.
Theorem C16_too_many_rules_refuted : exists fs file g a b,
  reads fs file g /\ NoDup (g_ids g) /\ a <> b /\
  exists i j, machine_id g a = Some i /\ machine_id g b = Some j /\ (2 ^ 15 <= j <= machine_num g)%N /\
    end_word j 0 = start_word i 0 /\ get_machine_id (start_word j 0) = i.
Proof.
  set (n := N.to_nat 32769). set (fs := fun _ : list N => many_text n). exists fs, [].
  assert (D : declares fs [] (many_rules n)). { unfold declares, fs, many_rules. rewrite deliver_nocr by apply many_nocr. apply many_written. }
  assert (LN : length (many_rules n) = n) by (unfold many_rules; rewrite map_length, seq_length; reflexivity).
  destruct (C16_declared_rules fs [] (many_rules n) D ltac:(rewrite LN; unfold n; lia)) as (g & R & Ids & Look).
  assert (ND : NoDup (g_ids g)) by (rewrite Ids, many_names; apply rules_nodup, seq_NoDup).
  exists g, (rule_name 0), (rule_name (n - 1)). split; [exact R|]. split; [exact ND|].
  assert (NE : forall k, k < n -> machine_id g (rule_name k) = Some (N.of_nat (S k))).
  { intros k Hk. unfold machine_id. rewrite (Look k (rule_name k) (GFirst GNil)); [reflexivity| |].
    - unfold many_rules. rewrite (map_nth_error (fun k => (rule_name k, GFirst GNil)) k (seq 0 n) (d := k)); [reflexivity|]. rewrite (nth_error_nth' _ 0) by (rewrite seq_length; exact Hk). rewrite seq_nth by exact Hk. reflexivity.
    - unfold many_rules. rewrite firstn_map, map_map. cbn [fst]. intros K. apply in_map_iff in K as (j & Ej & K). apply rule_name_inj in Ej. subst j.
      assert (SP : seq 0 n = seq 0 k ++ seq k (n - k)) by (rewrite <- seq_app; f_equal; lia). rewrite SP, firstn_app, seq_length, Nat.sub_diag, firstn_all2 in K by (rewrite seq_length; lia). cbn in K. rewrite app_nil_r in K. apply in_seq in K. lia. }
  split. { intros E. apply rule_name_inj in E. unfold n in E. lia. }
  exists 1%N, 32769%N. split; [rewrite NE by (unfold n; lia); reflexivity|]. split; [rewrite NE by (unfold n; lia); f_equal; unfold n; lia|].
  destruct (C16_ids_in_range_partial fs [] g R ND) as (MN & _). split; [rewrite MN, Ids, map_length, LN; unfold n; change (2 ^ 15)%N with 32768%N; lia|].
  split; vm_compute; reflexivity.
Qed.
Print Assumptions C16_too_many_rules_refuted.

(** ** C17 *)
(** Attaching several callbacks, one after the other, to a new table. *)
Fixpoint attach_all {C} (g : gstate) (t : list (option C)) (l : list (list N * C)) : @attach_result C :=
  match l with
  | [] => Attached t
  | (a, cb) :: l => match attach g t a cb with Attached t' => attach_all g t' l | e => e end
  end.
(** The last callback attached to a rule. *)
Fixpoint last_for {C} (l : list (list N * C)) (a : list N) : option C :=
  match l with
  | [] => None
  | (b, cb) :: l => match last_for l a with Some c => Some c | None => if eqname a b then Some cb else None end
  end.
Lemma upd_length {A} (l : list A) i f : length (upd_nth l i f) = length l.
Proof. revert i. induction l as [|x l IH]; intros [|i]; cbn; [reflexivity..|]. f_equal. apply IH. Qed.
Lemma upd_at {A} (l : list A) i f d : i < length l -> nth i (upd_nth l i f) d = f (nth i l d).
Proof. revert i. induction l as [|x l IH]; intros [|i] H; cbn in *; [lia..|reflexivity|]. apply IH. lia. Qed.
Lemma upd_other {A} (l : list A) i j f d : i <> j -> nth j (upd_nth l i f) d = nth j l d.
Proof. revert i j. induction l as [|x l IH]; intros [|i] [|j] H; cbn in *; try reflexivity; try congruence. apply IH. congruence. Qed.
(** If no rule is declared twice: attaching to declared rules never leaves the table, and the
    callback called for a rule's id is the one attached last to that rule. *)
Theorem C17_attach_partial : forall (C : Type) fs file g (l : list (list N * C)), reads fs file g -> NoDup (g_ids g) ->
  (forall a cb, In (a, cb) l -> In a (g_ids g)) ->
  exists t, attach_all g (new_table g) l = Attached t /\ length t = length (@new_table C g) /\
    forall a id, machine_id g a = Some id -> called t id = last_for l a.
Proof.
  intros C fs file g l R ND Hl. destruct (C16_ids fs file g R) as (INJ & ALL & _). destruct (C16_ids_in_range_partial fs file g R ND) as (_ & RG & _).
  assert (G : forall t, length t = S (length (g_nets g)) -> exists t', attach_all g t l = Attached t' /\ length t' = length t /\
     forall a id, machine_id g a = Some id -> called t' id = match last_for l a with Some c => Some c | None => called t id end).
  { induction l as [|[a cb] l IH]; intros t Ht; cbn [attach_all last_for].
    { exists t. split; [reflexivity|]. split; [reflexivity|]. intros; reflexivity. }
    destruct (proj1 (ALL a) (Hl a cb (or_introl eq_refl))) as [i Hi]. pose proof (RG _ _ Hi) as Ri. unfold machine_num in Ri.
    assert (AT : attach g t a cb = Attached (upd_nth t (N.to_nat i) (fun _ => Some cb))) by (unfold attach; rewrite Hi; replace (i <? N.of_nat (length t))%N with true by lia; reflexivity).
    rewrite AT. destruct (IH (fun a' cb' K => Hl a' cb' (or_intror K)) (upd_nth t (N.to_nat i) (fun _ => Some cb))) as (t' & A & L & F); [rewrite upd_length; exact Ht|].
    exists t'. split; [exact A|]. split; [rewrite L, upd_length; reflexivity|]. intros b id Hb. rewrite (F b id Hb). destruct (last_for l b); [reflexivity|].
    pose proof (RG _ _ Hb) as Rb. unfold machine_num in Rb. unfold called. rewrite upd_length. replace (id <? N.of_nat (length t))%N with true by lia.
    destruct (eqname b a) eqn:E.
    - apply eqname_spec in E. subst b. assert (id = i) as -> by congruence. rewrite upd_at by lia. reflexivity.
    - rewrite upd_other; [reflexivity|]. intros K. assert (id = i) as -> by lia. rewrite (INJ b a i Hb Hi), eqname_refl in E. discriminate. }
  destruct (G (new_table g)) as (t & A & L & F); [unfold new_table; rewrite repeat_length; reflexivity|]. exists t. split; [exact A|]. split; [exact L|].
  intros a id H. rewrite (F a id H). destruct (last_for l a); [reflexivity|]. unfold called. destruct (id <? _)%N; [|reflexivity]. unfold new_table.
  generalize (S (length (g_nets g))). clear. intros n. revert n. induction (N.to_nat id) as [|k IH]; intros [|n]; cbn; try reflexivity. apply IH.
Qed.
Print Assumptions C17_attach_partial.
(** Exactly, whatever was declared twice.  The table has an entry for each of the different names, a
    rule's entry is the position of its first declaration: attaching to a rule stays inside the table if
    and only if not more declarations than different names end with its first one. *)
Definition names_num (g : gstate) : nat := length (nodup (list_eq_dec N.eq_dec) (g_ids g)).
Definition in_table (g : gstate) (a : list N) : Prop := exists l1 l2, g_ids g = l1 ++ a :: l2 /\ ~ In a l1 /\ length l1 < names_num g.
Lemma nets_names mid g : inv mid g -> length (g_nets g) = names_num g.
Proof.
  intros I. unfold names_num. rewrite <- (map_length fst). apply Nat.le_antisymm.
  - apply NoDup_incl_length; [exact (i_nodup _ _ I)|]. intros x H. apply nodup_In. apply in_map_iff in H as ([n [i M]] & <- & H). destruct (i_net _ _ I _ _ _ H) as (k & (l1 & l2 & -> & _) & _). apply in_or_app. right. left. reflexivity.
  - apply NoDup_incl_length; [apply NoDup_nodup|]. intros x H. apply nodup_In in H. exact (i_all _ _ I _ H).
Qed.
Lemma attach_in {C} fs file g : reads fs file g -> forall a (t : list (option C)) cb, length t = S (length (g_nets g)) -> In a (g_ids g) ->
  (in_table g a -> exists i, machine_id g a = Some i /\ (i < N.of_nat (length t))%N /\ attach g t a cb = Attached (upd_nth t (N.to_nat i) (fun _ => Some cb))) /\
  (~ in_table g a -> attach g t a cb = OutOfBounds).
Proof.
  intros (fu & mid & E) a t cb Ht Ha. pose proof (gread_inv _ _ _ _ _ _ _ _ inv_empty E) as I. pose proof (machine_id_iff _ _ I) as MI.
  destruct (first_at_ex _ _ Ha) as [k K]. assert (Hi : machine_id g a = Some (N.of_nat (S k))) by (apply MI; eauto). pose proof (nets_names _ _ I) as NN. split.
  - intros (l1 & l2 & E1 & Hn & L). assert (length l1 = k) as Ek by (apply (first_at_det (g_ids g) a); [exists l1, l2; auto|exact K]).
    exists (N.of_nat (S k)). split; [exact Hi|]. split; [lia|]. unfold attach. rewrite Hi. replace (N.of_nat (S k) <? N.of_nat (length t))%N with true by lia. reflexivity.
  - intros H. unfold attach. rewrite Hi. destruct (N.of_nat (S k) <? N.of_nat (length t))%N eqn:L; [|reflexivity]. destruct H. destruct K as (l1 & l2 & E1 & Hn & L1). exists l1, l2. split; [exact E1|]. split; [exact Hn|]. lia.
Qed.
Theorem C17_attach_exact : forall (C : Type) fs file g (l : list (list N * C)), reads fs file g ->
  (forall a cb, In (a, cb) l -> In a (g_ids g)) ->
  ((forall a cb, In (a, cb) l -> in_table g a) -> exists t, attach_all g (new_table g) l = Attached t /\ length t = length (@new_table C g) /\
     forall a id, machine_id g a = Some id -> called t id = last_for l a) /\
  ((exists a cb, In (a, cb) l /\ ~ in_table g a) -> attach_all g (new_table g) l = OutOfBounds).
Proof.
  intros C fs file g l R Hl. destruct (C16_ids fs file g R) as (INJ & ALL & _). split.
  - intros HT.
    assert (G : forall t, length t = S (length (g_nets g)) -> exists t', attach_all g t l = Attached t' /\ length t' = length t /\
       forall a id, machine_id g a = Some id -> called t' id = match last_for l a with Some c => Some c | None => called t id end).
    { induction l as [|[a cb] l IH]; intros t Ht; cbn [attach_all last_for].
      { exists t. split; [reflexivity|]. split; [reflexivity|]. intros; reflexivity. }
      destruct (proj1 (attach_in fs file g R a t cb Ht (Hl a cb (or_introl eq_refl))) (HT a cb (or_introl eq_refl))) as (i & Hi & Ri & AT).
      rewrite AT. destruct (IH (fun a' cb' K => Hl a' cb' (or_intror K)) (fun a' cb' K => HT a' cb' (or_intror K)) (upd_nth t (N.to_nat i) (fun _ => Some cb))) as (t' & A & L & F); [rewrite upd_length; exact Ht|].
      exists t'. split; [exact A|]. split; [rewrite L, upd_length; reflexivity|]. intros b id Hb. rewrite (F b id Hb). destruct (last_for l b); [reflexivity|].
      unfold called. rewrite upd_length. destruct (eqname b a) eqn:E.
      - apply eqname_spec in E. subst b. assert (id = i) as -> by congruence. replace (i <? N.of_nat (length t))%N with true by lia. rewrite upd_at by lia. reflexivity.
      - destruct (id <? _)%N; [|reflexivity]. rewrite upd_other; [reflexivity|]. intros K. assert (id = i) as -> by lia. rewrite (INJ b a i Hb Hi), eqname_refl in E. discriminate. }
    destruct (G (new_table g)) as (t & A & L & F); [unfold new_table; rewrite repeat_length; reflexivity|]. exists t. split; [exact A|]. split; [exact L|].
    intros a id H. rewrite (F a id H). destruct (last_for l a); [reflexivity|]. unfold called. destruct (id <? _)%N; [|reflexivity]. unfold new_table.
    generalize (S (length (g_nets g))). clear. intros n. revert n. induction (N.to_nat id) as [|k IH]; intros [|n]; cbn; try reflexivity. apply IH.
  - assert (G : forall t : list (option C), length t = S (length (g_nets g)) -> (exists a cb, In (a, cb) l /\ ~ in_table g a) -> attach_all g t l = OutOfBounds).
    { induction l as [|[a cb] l IH]; intros t Ht (b & cb' & K & NT); cbn [attach_all]; [destruct K|].
      destruct (attach_in fs file g R a t cb Ht (Hl a cb (or_introl eq_refl))) as [A1 A2].
      destruct (attach g t a cb) as [t'| |] eqn:EA.
      - apply IH; [intros x y Z; exact (Hl x y (or_intror Z))| |].
        + unfold attach in EA. destruct (machine_id g a) as [i|]; [|discriminate]. destruct (i <? _)%N; [|discriminate]. injection EA as <-. rewrite upd_length. exact Ht.
        + exists b, cb'. split; [|exact NT]. destruct K as [K|K]; [|exact K]. injection K as -> ->. specialize (A2 NT). discriminate.
      - unfold attach in EA. destruct (proj1 (ALL a) (Hl a cb (or_introl eq_refl))) as [i Hi]. rewrite Hi in EA. destruct (i <? _)%N; discriminate.
      - reflexivity. }
    intros K. apply G; [unfold new_table; rewrite repeat_length; reflexivity|exact K].
Qed.
Print Assumptions C17_attach_exact.
(** So the claim is right for all rules of a grammar if and only if no rule is declared again
    before all rules have been declared. *)
Lemma nodup_app_nodup (l1 l2 : list (list N)) : NoDup l1 -> length l1 <= length (nodup (list_eq_dec N.eq_dec) (l1 ++ l2)).
Proof. intros H. apply NoDup_incl_length; [exact H|]. intros x K. apply nodup_In, in_or_app. auto. Qed.
Lemma nodup_short (l : list (list N)) : ~ NoDup l -> length (nodup (list_eq_dec N.eq_dec) l) < length l.
Proof.
  intros H. assert (L : forall m : list (list N), length (nodup (list_eq_dec N.eq_dec) m) <= length m) by (induction m as [|x m IH]; cbn; [lia|]; destruct (in_dec _ x m); cbn; lia).
  induction l as [|x l IH]; [destruct H; constructor|]. cbn [nodup]. destruct (in_dec (list_eq_dec N.eq_dec) x l) as [K|K].
  - specialize (L l). cbn [length]. lia.
  - cbn [length]. assert (~ NoDup l) by (intros J; apply H; constructor; assumption). specialize (IH H0). lia.
Qed.
Lemma last_new (l : list (list N)) : l = [] \/ exists l1 a l2, l = l1 ++ a :: l2 /\ ~ In a l1 /\ (forall x, In x l2 -> In x (l1 ++ [a])).
Proof.
  induction l as [|x l [->|(l1 & a & l2 & -> & Hn & HA)]] using rev_ind; [left; reflexivity| |].
  - right. exists [], x, []. split; [reflexivity|]. split; [intros []|intros y []].
  - right. destruct (in_dec (list_eq_dec N.eq_dec) x (l1 ++ a :: l2)) as [K|K].
    + exists l1, a, (l2 ++ [x]). split; [rewrite <- app_assoc; reflexivity|]. split; [exact Hn|]. intros y Y. apply in_app_or in Y as [Y|[<-|[]]]; [exact (HA y Y)|].
      apply in_app_or in K as [K|[<-|K]]; [apply in_or_app; auto|apply in_or_app; right; left; reflexivity|exact (HA x K)].
    + exists (l1 ++ a :: l2), x, []. split; [reflexivity|]. split; [exact K|intros y []].
Qed.
Theorem C17_every_rule_iff : forall fs file g, reads fs file g ->
  ((forall a, In a (g_ids g) -> in_table g a) <-> forall l1 a l2, g_ids g = l1 ++ a :: l2 -> ~ In a l1 -> NoDup l1).
Proof.
  intros fs file g _. split.
  - intros H l1 a l2 E Hn.
    destruct (last_new (g_ids g)) as [E0|(m1 & b & m2 & Em & Hb & HA)]; [rewrite E0 in E; destruct l1; discriminate|].
    destruct (H b) as (k1 & k2 & Ek & Hk & L); [rewrite Em; apply in_or_app; right; left; reflexivity|].
    assert (length k1 = length m1) as LE by (apply (first_at_det (g_ids g) b); [exists k1, k2; auto|exists m1, m2; auto]).
    assert (ND : NoDup (m1 ++ [b])).
    { destruct (ListDec.NoDup_dec (list_eq_dec N.eq_dec) (m1 ++ [b])) as [K|K]; [exact K|]. exfalso. pose proof (nodup_short _ K) as S1. unfold names_num in L.
      assert (I1 : length (nodup (list_eq_dec N.eq_dec) (g_ids g)) <= length (nodup (list_eq_dec N.eq_dec) (m1 ++ [b]))).
      { apply NoDup_incl_length; [apply NoDup_nodup|]. intros x X. apply nodup_In. apply nodup_In in X. rewrite Em in X. apply in_app_or in X as [X|[<-|X]]; [apply in_or_app; auto|apply in_or_app; right; left; reflexivity|exact (HA x X)]. }
      rewrite app_length in S1. cbn [length] in S1. lia. }
    assert (P : exists z, m1 ++ [b] = l1 ++ z).
    { assert (LL : length l1 <= length m1).
      { destruct (Nat.le_gt_cases (length l1) (length m1)) as [K|K]; [exact K|]. exfalso. assert (I1 : In a (m1 ++ [b])).
        { assert (N1 : nth_error (g_ids g) (length l1) = Some a) by (rewrite E, nth_error_app2, Nat.sub_diag by lia; reflexivity).
          rewrite Em, nth_error_app2 in N1 by lia. destruct (length l1 - length m1) as [|d] eqn:D; [lia|]. cbn [nth_error] in N1. apply nth_error_In in N1. exact (HA a N1). }
        assert (I2 : In a (firstn (length l1) (g_ids g))).
        { rewrite Em, firstn_app, firstn_all2 by lia. destruct (length l1 - length m1) as [|d] eqn:D; [lia|]. cbn [firstn]. apply in_app_or in I1 as [I1|[<-|[]]]; apply in_or_app; [auto|right; left; reflexivity]. }
        rewrite E, firstn_app, Nat.sub_diag, firstn_all in I2. cbn [firstn] in I2. rewrite app_nil_r in I2. exact (Hn I2). }
      exists (skipn (length l1) (m1 ++ [b])). assert (FN : firstn (length l1) (m1 ++ [b]) = l1).
      { transitivity (firstn (length l1) (g_ids g)).
        - rewrite Em. rewrite !firstn_app. replace (length l1 - length m1) with 0 by lia. reflexivity.
        - rewrite E, firstn_app, Nat.sub_diag, firstn_all. cbn [firstn]. apply app_nil_r. }
      rewrite <- FN at 1. symmetry. apply firstn_skipn. }
    destruct P as [z P]. rewrite P in ND. clear - ND. induction l1 as [|x l1 IH]; [constructor|]. cbn in ND. inversion ND as [|? ? N1 N2]; subst. constructor; [|exact (IH N2)]. intros K. apply N1, in_or_app. auto.
  - intros H a Ha. destruct (first_at_ex _ _ Ha) as (k & l1 & l2 & E & Hn & L). exists l1, l2. split; [exact E|]. split; [exact Hn|].
    pose proof (H l1 a l2 E Hn) as ND. unfold names_num. rewrite E.
    assert (ND' : NoDup (l1 ++ [a])) by (apply NoDup_Add with (a := a) (l := l1); [pose proof (Add_app a l1 []) as K; rewrite app_nil_r in K; exact K|auto]).
    pose proof (nodup_app_nodup (l1 ++ [a]) l2 ND') as K. rewrite <- app_assoc in K. rewrite app_length in K. cbn [length app] in K. lia.
Qed.
Print Assumptions C17_every_rule_iff.
(** The same for C16's range: the number of rules is the number of different names, and all ids are
    in it exactly in those grammars. *)
Theorem C16_range_iff : forall fs file g, reads fs file g -> machine_num g = N.of_nat (names_num g) /\
  ((forall a id, machine_id g a = Some id -> (1 <= id <= machine_num g)%N) <-> forall l1 a l2, g_ids g = l1 ++ a :: l2 -> ~ In a l1 -> NoDup l1).
Proof.
  intros fs file g R. rewrite <- (C17_every_rule_iff fs file g R). destruct R as (fu & mid & E). pose proof (gread_inv _ _ _ _ _ _ _ _ inv_empty E) as I. pose proof (machine_id_iff _ _ I) as MI.
  unfold machine_num. rewrite (nets_names _ _ I). split; [reflexivity|]. split.
  - intros H a Ha. destruct (first_at_ex _ _ Ha) as [k K]. assert (R : (N.of_nat (S k) <= N.of_nat (names_num g))%N) by (apply (H a); apply MI; eauto).
    destruct K as (l1 & l2 & E1 & Hn & L). exists l1, l2. split; [exact E1|]. split; [exact Hn|lia].
  - intros H a id Hi. apply MI in Hi as (k & K & ->). assert (Ha : In a (g_ids g)) by (destruct K as (l1 & l2 & -> & _); apply in_or_app; right; left; reflexivity).
    destruct (H a Ha) as (l1 & l2 & E1 & Hn & L). assert (length l1 = k) by (apply (first_at_det (g_ids g) a); [exists l1, l2; auto|exact K]). lia.
Qed.
Print Assumptions C16_range_iff.
(** A : ; A : ; B : ;  -- rule B gets id 3, the table has the entries 0, 1, 2. *)
Definition C17_text : list N := [65;58;59; 65;58;59; 66;58;59]%N.
Definition C17_read : sres (N * gstate) := Eval vm_compute in read_grammar 5 (fun _ => C17_text) [].
Theorem C17_duplicate_rule_refuted : exists fs file g a, reads fs file g /\ In a (g_ids g) /\ machine_num g = 2%N /\ machine_id g a = Some 3%N /\
  forall cb : nat, attach g (new_table g) a cb = OutOfBounds.
Proof.
  exists (fun _ => C17_text), [].
  assert (E : read_grammar 5 (fun _ => C17_text) [] = C17_read) by (vm_compute; reflexivity).
  exists (match C17_read with SOk (_, g) => g | _ => empty_grammar end), [66%N].
  split; [exists 5, 4%N; exact E|]. split; [vm_compute; auto|]. split; [vm_compute; reflexivity|]. split; [vm_compute; reflexivity|]. intros cb. vm_compute. reflexivity.
Qed.
Print Assumptions C17_duplicate_rule_refuted.
(** The same grammar refutes C16's range. *)
Corollary C16_duplicate_rule_refuted : exists fs file g a id, reads fs file g /\ machine_id g a = Some id /\ (machine_num g < id)%N.
Proof. destruct C17_duplicate_rule_refuted as (fs & file & g & a & R & _ & N2 & I3 & _). exists fs, file, g, a, 3%N. split; [exact R|]. split; [exact I3|]. lia. Qed.
Print Assumptions C16_duplicate_rule_refuted.

(** ** C37 *)
(** Reading ends when files do not include each other in circles and include's quotes are closed. *)
Theorem C37_reading_ends_partial : forall fs file, Acc (fun d f => includes fs f d) file ->
  (forall f, reaches fs file f -> ~ occurs word_include (deliver (fs f)) \/ (quotes_closed fs f /\ ~ In 0%N (deliver (fs f)))) ->
  exists fuel, read_grammar fuel fs file <> SFuel.
Proof. intros fs file A H. apply gread_ends; [exact A|exact H|apply suf_refl]. Qed.
Print Assumptions C37_reading_ends_partial.
(** In particular: every text without the word include. *)
Theorem C37_no_include_ends_partial : forall fs file, ~ occurs word_include (deliver (fs file)) -> exists fuel, read_grammar fuel fs file <> SFuel.
Proof.
  intros fs file H. assert (N0 : forall d, ~ includes fs file d) by (intros d (a & b & p & c & E & _); apply H; exists a, (b ++ 34%N :: p ++ 34%N :: c); exact E).
  apply C37_reading_ends_partial; [constructor; intros d K; destruct (N0 d K)|].
  intros f R. inversion R as [|f0 d e I0 R0]; subst; [left; exact H|]. destruct (N0 d I0).
Qed.
Print Assumptions C37_no_include_ends_partial.
(** More fuel never changes an outcome, so the outcome is one. *)
Theorem C37_one_outcome : forall fs file f1 f2, read_grammar f1 fs file <> SFuel -> read_grammar f2 fs file <> SFuel -> read_grammar f1 fs file = read_grammar f2 fs file.
Proof.
  intros fs file f1 f2 H1 H2. unfold read_grammar in *. destruct (Nat.le_ge_cases f1 f2) as [L|L].
  - symmetry. apply (gread_le _ _ _ _ _ _ _ _ L eq_refl H1).
  - apply (gread_le _ _ _ _ _ _ _ _ L eq_refl H2).
Qed.
Print Assumptions C37_one_outcome.
(** The word include, a quote, x, and no more -- the closing quote is missing: the characters after the end of the text are
    collected for ever. *)
Theorem C37_open_quote_refuted : exists fs file, forall fuel, read_grammar fuel fs file = SFuel.
Proof.
  exists (fun _ => word_include ++ [32; 34; 120]%N), []. intros [|f]; [reflexivity|]. unfold read_grammar. set (t := deliver _). vm_compute in t. subst t. cbn [gread].
  set (q := lskip1 _). vm_compute in q. subst q. cbv iota. set (q := lident _). vm_compute in q. subst q. cbv iota. cbn [lpeek N.eqb N.leb].
  set (q := eqname _ _). vm_compute in q. subst q. set (q := eqname _ _). vm_compute in q. subst q. cbv iota. set (q := lskip1 _). vm_compute in q. subst q. cbv iota.
  cbn [lpeek N.eqb Pos.eqb tl]. rewrite path_endless; [reflexivity|]. cbn. intuition discriminate.
Qed.
Print Assumptions C37_open_quote_refuted.
(** File f includes file f. *)
Theorem C37_circle_refuted : exists fs file, deliver (fs file) = word_include ++ [32; 34; 102; 34; 59]%N /\ forall fuel, read_grammar fuel fs file = SFuel.
Proof.
  exists (fun _ => word_include ++ [32; 34; 102; 34; 59]%N), [102%N]. split; [reflexivity|]. unfold read_grammar. set (t := deliver _). vm_compute in t.
  assert (G : forall fuel, gread fuel (fun _ => word_include ++ [32; 34; 102; 34; 59]%N) [102%N] t 1 empty_grammar = SFuel); [|exact G].
  induction fuel as [|f IH]; [reflexivity|]. cbn [gread].
  set (q := lskip1 t). vm_compute in q. subst q. cbv iota. set (q := lident _). vm_compute in q. subst q. cbv iota. cbn [lpeek N.eqb N.leb].
  set (q := eqname _ _). vm_compute in q. subst q. set (q := eqname _ _). vm_compute in q. subst q. cbv iota. set (q := lskip1 _). vm_compute in q. subst q. cbv iota.
  cbn [lpeek N.eqb Pos.eqb tl].
  destruct (path_loop f [102; 34; 59]%N []) as [[p t4]| |] eqn:EP; [|destruct (path_nothrow _ _ _ EP)|reflexivity].
  assert (X : p = [102%N] /\ t4 = [59%N]). { destruct f as [|[|[|f]]]; cbn in EP; try discriminate; injection EP as <- <-; auto. }
  destruct X as [-> ->]. set (q := lskip1 _). vm_compute in q. subst q. cbv iota. cbn [lpeek N.eqb Pos.eqb tl].
  set (q := include_path _ _). vm_compute in q. subst q. fold t. change (deliver (word_include ++ [32; 34; 102; 34; 59]%N)) with t. rewrite IH. reflexivity.
Qed.
Print Assumptions C37_circle_refuted.

(** Met: A : ; B : ; A : ;  -- both rules can be attached to, although A is declared twice. *)
Example C17_exact_hyp : exists fs file g, reads fs file g /\ ~ NoDup (g_ids g) /\ (forall a, In a (g_ids g) -> in_table g a).
Proof.
  pose (r := read_grammar 5 (fun _ => [65;58;59; 66;58;59; 65;58;59]%N) []). vm_compute in r.
  exists (fun _ => [65;58;59; 66;58;59; 65;58;59]%N), [], (match r with SOk (_, g) => g | _ => empty_grammar end).
  split; [exists 5, 4%N; vm_compute; reflexivity|]. split.
  - intros K. vm_compute in K. inversion K as [|? ? N1 _]; subst. apply N1. right. left. reflexivity.
  - intros a Ha. vm_compute in Ha. assert (a = [65%N] \/ a = [66%N]) as [->| ->] by intuition.
    + exists [], [[66%N]; [65%N]]. split; [reflexivity|]. split; [intros []|vm_compute; lia].
    + exists [[65%N]], [[65%N]]. split; [reflexivity|]. split; [intros [K|[]]; discriminate|vm_compute; lia].
Qed.

(** ** The hypotheses are met *)
(** File m: grammar G; include (quoted) d/b ; A : B ;   File d/b: // c (line end) B : 'x' ; *)
Definition ex_main : list N := (word_grammar ++ [32;71;59] ++ word_include ++ [32; 34; 100;47;98; 34; 32; 59; 10; 65;58;32;66;59])%N.
Definition ex_sub : list N := [47;47;32;99;10; 66;32;58;39;120;39;59; 32]%N.
Definition ex_fs (f : list N) : list N := if eqname f [109%N] then ex_main else if eqname f [100;47;98]%N then ex_sub else [].
Definition ex_rules : list (list N * gsel) :=
  [([66%N], GFirst (GCons (GTerm (TLit [120%N])) GOne GNil)); ([65%N], GFirst (GCons (GTerm (TRule [66%N])) GOne GNil))].
Lemma sp_bt b : btext b -> btext (32%N :: b).
Proof. apply bt_space. auto. Qed.
Example Grammar_hyp : declares ex_fs [109%N] ex_rules /\ NoDup (map fst ex_rules) /\ exists mid g, read_grammar 10 ex_fs [109%N] = SOk (mid, g) /\ machine_id g [65%N] = Some 2%N.
Proof.
  split; [|split].
  - unfold declares. change (deliver (ex_fs [109%N])) with ex_main. unfold ex_main, ex_rules.
    apply (wf_name _ _ _ [] [32%N] [71%N] [] (word_include ++ [32; 34; 100;47;98; 34; 32; 59; 10; 65;58;32;66;59])%N); [constructor|apply sp_bt; constructor|discriminate|cbn; split; [right; unfold letter; lia|intros x []]|constructor|].
    apply (wf_include _ _ _ [] [32%N] [100;47;98]%N [32%N] [10;65;58;32;66;59]%N [_] [_]); [constructor|apply sp_bt; constructor|cbn; intuition discriminate|apply sp_bt; constructor| |].
    + change (deliver (ex_fs (include_path [109%N] [100; 47; 98]%N))) with ([47;47;32;99;10] ++ [66] ++ ([32;58;39;120;39;59]) ++ [32])%N.
      apply wf_rule; [apply (bt_line [32;99]%N []); [cbn; intuition discriminate|cbn; intuition discriminate|constructor]|cbn; split; [right; unfold letter; lia|intros x []]|discriminate|discriminate| |apply wf_end; apply sp_bt; constructor].
      exists [32%N], [39;120;39]%N. split; [apply sp_bt; constructor|]. split; [|reflexivity]. constructor.
      apply (wq_term [] (TLit [120%N]) [39;120;39]%N [] [] GOne GNil []); [constructor|apply (wt_lit 39%N [120%N]); [auto|cbn; intuition discriminate|cbn; intuition discriminate]|constructor|constructor|constructor; constructor|exact I].
    + apply (wf_rule _ _ _ [10%N] [65%N] _ [58;32;66;59]%N []); [apply bt_space; [lia|constructor]|cbn; split; [right; unfold letter; lia|intros x []]|discriminate|discriminate| |apply wf_end; constructor].
      exists [], [32;66]%N. split; [constructor|]. split; [|reflexivity]. constructor.
      apply (wq_term [32%N] (TRule [66%N]) [66%N] [] [] GOne GNil []); [apply sp_bt; constructor|apply wt_rule; [right; unfold letter; lia|intros x []]|constructor|constructor|constructor; constructor|exact I].
  - repeat constructor; cbn; intuition discriminate.
  - pose (r := read_grammar 10 ex_fs [109%N]). destruct r as [[mid g]| |] eqn:E; [|vm_compute in E; discriminate..]. exists mid, g. split; [exact E|].
    assert (K : match r with SOk (_, g) => machine_id g [65%N] | _ => None end = Some 2%N) by (vm_compute; reflexivity). rewrite E in K. exact K.
Qed.
(** The termination theorem applies to the two files. *)
Lemma occ_dec p l : {occurs p l} + {~ occurs p l}.
Proof.
  induction l as [|c l IH].
  - destruct p as [|a p]; [left; exists [], []; reflexivity|right; intros (x & y & E); destruct x; discriminate].
  - destruct (list_eq_dec N.eq_dec p (firstn (length p) (c :: l))) as [E|E].
    + left. exists [], (skipn (length p) (c :: l)). cbn [app]. rewrite E at 1. symmetry. apply firstn_skipn.
    + destruct IH as [Y|Y]; [left; destruct Y as (x & y & ->); exists (c :: x), y; reflexivity|right].
      intros (x & y & K). destruct x as [|d x]; cbn [app] in K.
      * apply E. rewrite K, firstn_app, firstn_all, Nat.sub_diag. cbn. rewrite app_nil_r. reflexivity.
      * injection K as <- ->. apply Y. exists x, y. reflexivity.
Defined.
Lemma no_inc l : (if occ_dec word_include l then true else false) = false -> ~ occurs word_include l.
Proof. destruct (occ_dec word_include l); [discriminate|auto]. Qed.
Lemma ex_main_split a r : ex_main = a ++ kw_include ++ r -> r = [32; 34; 100;47;98; 34; 32; 59; 10; 65;58;32;66;59]%N.
Proof.
  unfold ex_main. intros E. do 10 (destruct a as [|? a]; [discriminate|injection E as _ E]). destruct a as [|x a]; [injection E as E; symmetry; exact E|].
  exfalso. injection E as _ E. assert (O : occurs word_include (tl (word_include ++ [32; 34; 100;47;98; 34; 32; 59; 10; 65;58;32;66;59]%N))) by (exists a, r; exact E). revert O. apply no_inc. vm_compute. reflexivity.
Qed.
Lemma blank_quote b r : btext b -> [32; 34; 100;47;98; 34; 32; 59; 10; 65;58;32;66;59]%N = b ++ 34%N :: r -> b = [32%N].
Proof.
  intros Hb E. destruct b as [|x b]; [discriminate|]. injection E as <- E. inversion Hb as [|? ? _ Hb'| |]; subst. destruct (btext_head _ Hb') as [->|(c & b' & -> & K)]; [reflexivity|].
  injection E as <- _. cbn in K. destruct K; discriminate.
Qed.
Example C37_hyp : Acc (fun d f => includes ex_fs f d) [109%N] /\
  forall f, reaches ex_fs [109%N] f -> ~ occurs word_include (deliver (ex_fs f)) \/ (quotes_closed ex_fs f /\ ~ In 0%N (deliver (ex_fs f))).
Proof.
  assert (SUB : forall d, includes ex_fs [109%N] d -> d = [100;47;98]%N).
  { intros d (a & b & p & c & E & Hb & Hp & ->). change (deliver (ex_fs [109%N])) with ex_main in E. apply ex_main_split in E. symmetry in E. pose proof (blank_quote _ _ Hb E) as ->. injection E as E.
    assert (p = [100;47;98]%N) as ->; [|vm_compute; reflexivity].
    destruct p as [|p0 p]; [discriminate|injection E as <- E]. destruct p as [|p0 p]; [discriminate|injection E as <- E]. destruct p as [|p0 p]; [discriminate|injection E as <- E]. destruct p as [|p0 p]; [reflexivity|injection E as <- E]. destruct Hp. cbn. auto 6. }
  assert (LEAF : forall d, ~ includes ex_fs [100;47;98]%N d).
  { intros d (a & b & p & c & E & _). assert (O : occurs word_include (deliver (ex_fs [100;47;98]%N))) by (exists a, (b ++ 34%N :: p ++ 34%N :: c); exact E). revert O. apply no_inc. vm_compute. reflexivity. }
  split.
  - constructor. intros d H. rewrite (SUB d H). constructor. intros e K. destruct (LEAF e K).
  - intros f R. inversion R as [|f0 d e I0 R0]; subst.
    + right. change (deliver (ex_fs [109%N])) with ex_main. split; [|vm_compute; intuition discriminate]. intros a b c E Hb. change (deliver (ex_fs [109%N])) with ex_main in E. apply ex_main_split in E. symmetry in E. pose proof (blank_quote _ _ Hb E) as ->. injection E as <-. cbn. auto 6.
    + apply SUB in I0. subst d. inversion R0 as [|f0 d e I0 R1]; subst; [left; apply no_inc; vm_compute; reflexivity|destruct (LEAF _ I0)].
Qed.
