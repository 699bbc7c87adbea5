(** * C48: the methods of a Python listener *)
From Coq Require Import String Ascii.
From Coq Require Import List NArith ZArith Arith Bool Lia ZifyBool ZifyN ZifyNat.
From Verif Require Import CharClass Stream NFA ATN Grammar GrammarProofs RegexSpec GrammarSpec TreeSpec ParseSpec Properties_Grammar Properties_Parser Properties_Compile Properties_CompileCases PyGrammar.
Import ListNotations.
Local Open Scope nat_scope.

(** The method of the listener that belongs to a rule: parseRULE, or defaultact. *)
Definition method_for {H} (attr : list N -> option H) (rule : list N) : option H :=
  match attr (kw_parse ++ rule) with Some h => Some h | None => attr kw_defaultact end.

Lemma dict_get_set {V} (d : list (list N * V)) k v x : dict_get (dict_set d k v) x = if eqname k x then Some v else dict_get d x.
Proof.
  induction d as [|[k' v'] d IH]; cbn [dict_set dict_get]; [reflexivity|]. destruct (eqname k' k) eqn:E; cbn [dict_get].
  - apply eqname_spec in E as ->. destruct (eqname k x); reflexivity.
  - rewrite IH. destruct (eqname k' x) eqn:E2; [|reflexivity]. apply eqname_spec in E2 as ->. destruct (eqname k x) eqn:E3; [|reflexivity]. apply eqname_spec in E3 as ->. rewrite eqname_refl in E. discriminate.
Qed.
Lemma dict_set_new {V} (d : list (list N * V)) k v : ~ In k (map fst d) -> dict_set d k v = d ++ [(k, v)].
Proof.
  induction d as [|[k' v'] d IH]; intros H; [reflexivity|]. cbn [dict_set]. destruct (eqname k' k) eqn:E; [apply eqname_spec in E as ->; destruct H; left; reflexivity|]. rewrite IH; [reflexivity|]. intros K. apply H. right. exact K.
Qed.
Lemma dict_set_old {V} (d : list (list N * V)) k v : In k (map fst d) -> length (dict_set d k v) = length d.
Proof.
  induction d as [|[k' v'] d IH]; intros H; [destruct H|]. cbn [dict_set]. destruct (eqname k' k) eqn:E; [reflexivity|]. cbn. f_equal. apply IH. destruct H as [H|H]; [cbn in H; subst; rewrite eqname_refl in E; discriminate|exact H].
Qed.
Lemma dict_set_keys {V} (d : list (list N * V)) k v x : In x (map fst (dict_set d k v)) <-> x = k \/ In x (map fst d).
Proof.
  induction d as [|[k' v'] d IH]; cbn [dict_set]; [cbn; intuition congruence|]. destruct (eqname k' k) eqn:E; [apply eqname_spec in E as ->; cbn; intuition congruence|]. cbn [map In fst]. rewrite IH. tauto.
Qed.
Lemma dict_set_len {V} (d : list (list N * V)) k v : length (dict_set d k v) <= S (length d).
Proof. induction d as [|[k' v'] d IH]; [cbn; lia|]. cbn [dict_set]. destruct (eqname k' k); cbn; lia. Qed.
(** The dict after the enumeration. *)
Lemma ids_nodup l : forall a (d : list (list N * nat)), NoDup l -> (forall x, In x l -> ~ In x (map fst d)) -> fold_left (fun d c => dict_set d (fst c) (snd c)) (combine l (seq a (length l))) d = d ++ combine l (seq a (length l)).
Proof.
  induction l as [|x l IH]; intros a d ND HD; [cbn; rewrite app_nil_r; reflexivity|]. inversion ND as [|? ? N1 N2]; subst. cbn [length seq combine fold_left fst snd]. rewrite dict_set_new by (apply HD; left; reflexivity).
  rewrite IH; [rewrite <- app_assoc; reflexivity|exact N2|]. intros y Hy K. rewrite map_app in K. apply in_app_or in K as [K|[K|[]]]; [exact (HD y (or_intror Hy) K)|]. cbn in K. subst. exact (N1 Hy).
Qed.
Lemma ids_len l : forall a (d : list (list N * nat)), length (fold_left (fun d c => dict_set d (fst c) (snd c)) (combine l (seq a (length l))) d) <= length d + length l.
Proof. induction l as [|x l IH]; intros a d; cbn [length seq combine fold_left fst snd]; [lia|]. specialize (IH (S a) (dict_set d x a)). pose proof (dict_set_len d x a). lia. Qed.
Lemma keys_keep l : forall (d : list (list N * nat)) x, In x (map fst d) -> In x (map fst (fold_left (fun d c => dict_set d (fst c) (snd c)) l d)).
Proof. induction l as [|c l IH]; intros d x H; [exact H|]. cbn [fold_left]. apply IH. apply dict_set_keys. right. exact H. Qed.
Lemma ids_dup l : forall a (d : list (list N * nat)), ~ NoDup l \/ (exists x, In x l /\ In x (map fst d)) -> length (fold_left (fun d c => dict_set d (fst c) (snd c)) (combine l (seq a (length l))) d) < length d + length l.
Proof.
  induction l as [|x l IH]; intros a d HD.
  - destruct HD as [H|(x & [] & _)]. destruct H. constructor.
  - cbn [length seq combine fold_left fst snd]. destruct (in_dec (list_eq_dec N.eq_dec) x (map fst d)) as [I|I].
    + pose proof (ids_len l (S a) (dict_set d x a)) as E. rewrite (dict_set_old d x a I) in E. lia.
    + assert (HD' : ~ NoDup l \/ exists y, In y l /\ In y (map fst (dict_set d x a))).
      { destruct (in_dec (list_eq_dec N.eq_dec) x l) as [J|J]; [right; exists x; split; [exact J|apply dict_set_keys; left; reflexivity]|]. destruct HD as [H|(y & [->|Y1] & Y2)]; [left; intros K; apply H; constructor; assumption|contradiction|right; exists y; split; [exact Y1|apply dict_set_keys; right; exact Y2]]. }
      specialize (IH (S a) (dict_set d x a) HD'). rewrite (dict_set_new d x a I), app_length in *. cbn [length] in *. lia.
Qed.
(** The last declaration has the number of declarations. *)
Lemma last_id l : forall a (d : list (list N * nat)), l <> [] -> exists x, dict_get (fold_left (fun d c => dict_set d (fst c) (snd c)) (combine l (seq a (length l))) d) x = Some (a + length l - 1).
Proof.
  induction l as [|x l IH]; intros a d H; [congruence|]. cbn [length seq combine fold_left fst snd]. destruct l as [|y l]; [|destruct (IH (S a) (dict_set d x a) ltac:(discriminate)) as [z E]; exists z; rewrite E; f_equal; cbn; lia].
  exists x. cbn. rewrite dict_get_set, eqname_refl. f_equal. lia.
Qed.
Lemma dict_get_in {V} (d : list (list N * V)) x v : dict_get d x = Some v -> In (x, v) d.
Proof. induction d as [|[k w] d IH]; [discriminate|]. cbn. destruct (eqname k x) eqn:E; [apply eqname_spec in E as ->; intros H; injection H as ->; left; reflexivity|right; auto]. Qed.
(** Writing the names. *)
Lemma names_none ids : fold_left (fun r c => match r with Some l => py_set l (Z.of_nat (snd c) - 1) (fst c) | None => None end) ids (@None (list (list N))) = None.
Proof. induction ids; [reflexivity|]. exact IHids. Qed.
Lemma names_over (ids : list (list N * nat)) : forall l, (exists c, In c ids /\ length l < snd c) -> fold_left (fun r c => match r with Some l => py_set l (Z.of_nat (snd c) - 1) (fst c) | None => None end) ids (Some l) = None.
Proof.
  induction ids as [|c ids IH]; intros l (c' & Hc & Hl); [destruct Hc|]. destruct Hc as [<-|Hc].
  - cbn [fold_left]. unfold py_set, py_index. replace (0 <=? Z.of_nat (snd c) - 1)%Z with true by lia. replace (Z.of_nat (snd c) - 1 <? Z.of_nat (length l))%Z with false by lia. apply names_none.
  - cbn [fold_left]. unfold py_set. destruct (py_index (length l) (Z.of_nat (snd c) - 1)) as [k|]; cbn [option_map]; [|apply names_none]. apply IH. exists c'. split; [exact Hc|]. rewrite upd_length. exact Hl.
Qed.
Lemma names_fill (l2 : list (list N)) : forall (l1 : list (list N)) n, length l2 <= n -> fold_left (fun r c => match r with Some l => py_set l (Z.of_nat (snd c) - 1) (fst c) | None => None end) (combine l2 (seq (S (length l1)) (length l2))) (Some (l1 ++ repeat [] n)) = Some (l1 ++ l2 ++ repeat [] (n - length l2)).
Proof.
  induction l2 as [|x l2 IH]; intros l1 n H; [cbn; rewrite Nat.sub_0_r; reflexivity|]. cbn [length] in *. destruct n as [|n]; [lia|]. cbn [seq combine fold_left fst snd]. unfold py_set at 2. unfold py_index. rewrite app_length, repeat_length.
  replace (0 <=? Z.of_nat (S (length l1)) - 1)%Z with true by lia. replace (Z.of_nat (S (length l1)) - 1 <? Z.of_nat (length l1 + S n))%Z with true by lia. cbn [option_map]. replace (Z.to_nat (Z.of_nat (S (length l1)) - 1)) with (length l1) by lia.
  assert (E : upd_nth (l1 ++ repeat [] (S n)) (length l1) (fun _ => x) = (l1 ++ [x]) ++ repeat [] n).
  { clear. induction l1 as [|y l1 IH]; [reflexivity|]. cbn [app length upd_nth]. rewrite IH. reflexivity. }
  rewrite E. specialize (IH (l1 ++ [x]) n ltac:(lia)). rewrite app_length in IH. cbn [length] in IH. rewrite Nat.add_1_r in IH. rewrite IH. rewrite <- !app_assoc. reflexivity.
Qed.
Lemma combine_len (l : list (list N)) a : length (combine l (seq a (length l))) = length l.
Proof. rewrite combine_length, seq_length. lia. Qed.

(** C48, names: whatever grammar was read, creating the Python object fails with an exception exactly if a rule is declared twice;
    otherwise the Python object knows every rule by the id that the markers of its nodes carry, and by no other. *)
Theorem C48_names : forall fs file g, reads fs file g ->
  (py_grammar g = None <-> ~ NoDup (g_ids g)) /\
  forall p, py_grammar g = Some p ->
    (forall name, option_map N.of_nat (py_machine_id p name) = machine_id g name) /\
    (forall name id, machine_id g name = Some id <-> (1 <= id)%N /\ py_machine_name p (N.to_nat id) = Some name) /\
    N.of_nat (py_machine_num p) = machine_num g.
Proof.
  intros fs file g R. destruct (C16_ids fs file g R) as (INJ & ALL & POS & _).
  assert (DUP : ~ NoDup (g_ids g) -> py_grammar g = None).
  { intros ND. unfold py_grammar. enough (py_names (py_ids g) = None) as -> by reflexivity. unfold py_names. apply names_over. unfold py_ids, enum_machines in *.
    destruct (last_id (g_ids g) 1 []) as [x E]; [intros E; rewrite E in ND; apply ND; constructor|]. exists (x, length (g_ids g)). split; [apply dict_get_in; rewrite E; f_equal; lia|].
    rewrite repeat_length. cbn [snd]. pose proof (ids_dup (g_ids g) 1 [] (or_introl ND)) as K. cbn [length] in K. lia. }
  assert (OK : NoDup (g_ids g) -> py_grammar g = Some (mkPG (enum_machines g) (g_ids g))).
  { intros ND. unfold py_grammar. assert (E : py_ids g = enum_machines g) by (unfold py_ids, enum_machines; rewrite ids_nodup; [reflexivity|exact ND|intros x _ []]). rewrite E. unfold py_names.
    assert (F := names_fill (g_ids g) [] (length (g_ids g)) ltac:(lia)). cbn [app length] in F. unfold enum_machines. rewrite combine_len, F, Nat.sub_diag. cbn [repeat]. rewrite app_nil_r. reflexivity. }
  assert (DEC : NoDup (g_ids g) \/ ~ NoDup (g_ids g)) by (destruct (ListDec.NoDup_dec (list_eq_dec N.eq_dec) (g_ids g)); auto).
  split.
  - split; [|exact DUP]. intros H ND. rewrite (OK ND) in H. discriminate.
  - intros p Hp. destruct DEC as [ND|ND]; [|rewrite (DUP ND) in Hp; discriminate]. rewrite (OK ND) in Hp. injection Hp as <-. unfold py_machine_id, py_machine_name, py_machine_num. cbn [pg_ids pg_names].
    assert (NTH : forall name id, machine_id g name = Some id -> (1 <= id)%N /\ nth_error (g_ids g) (N.to_nat id - 1) = Some name) by (intros name id H; destruct (POS _ _ H) as (A & B & _); split; [lia|exact B]).
    assert (NTH' : forall name k, nth_error (g_ids g) k = Some name -> machine_id g name = Some (N.of_nat (S k))).
    { intros name k H. destruct (proj1 (ALL name) (nth_error_In _ _ H)) as [id Hid]. rewrite Hid. destruct (NTH _ _ Hid) as [A B]. f_equal. assert (L : k < length (g_ids g)) by (apply nth_error_Some; congruence).
      pose proof (proj1 (NoDup_nth_error (g_ids g)) ND k (N.to_nat id - 1) L ltac:(congruence)). lia. }
    split; [|split].
    + intros name. assert (G : forall l a name, NoDup l -> dict_get (combine l (seq a (length l))) name = match find (fun k => eqname (nth k l []) name) (seq 0 (length l)) with Some k => Some (a + k) | None => None end).
      { clear. intros l. induction l as [|x l IH]; intros a name ND; [reflexivity|]. inversion ND; subst. cbn [length seq combine dict_get find nth]. destruct (eqname x name) eqn:E; [f_equal; lia|]. rewrite IH by assumption. rewrite <- seq_shift.
        clear. induction (seq 0 (length l)) as [|k r IH]; [reflexivity|]. cbn [map find nth]. destruct (eqname (nth k l []) name); [f_equal; lia|exact IH]. }
      unfold enum_machines. rewrite G by exact ND. destruct (find _ _) as [k|] eqn:F; cbn [option_map].
      * apply find_some in F as [F1 F2]. apply eqname_spec in F2. apply in_seq in F1. symmetry. rewrite (NTH' name k); [f_equal; lia|]. rewrite <- F2. apply nth_error_nth'. lia.
      * destruct (machine_id g name) as [id|] eqn:E; [|reflexivity]. destruct (NTH _ _ E) as [A B]. exfalso. assert (L : N.to_nat id - 1 < length (g_ids g)) by (apply nth_error_Some; congruence).
        pose proof (find_none _ _ F (N.to_nat id - 1) ltac:(apply in_seq; lia)) as K. cbv beta in K. rewrite (nth_error_nth _ _ [] B), eqname_refl in K. discriminate.
    + intros name id. unfold py_get, py_index. split.
      * intros H. destruct (NTH _ _ H) as [A B]. split; [exact A|]. assert (L : N.to_nat id - 1 < length (g_ids g)) by (apply nth_error_Some; congruence).
        replace (0 <=? Z.of_nat (N.to_nat id) - 1)%Z with true by lia. replace (Z.of_nat (N.to_nat id) - 1 <? Z.of_nat (length (g_ids g)))%Z with true by lia. replace (Z.to_nat (Z.of_nat (N.to_nat id) - 1)) with (N.to_nat id - 1) by lia. exact B.
      * intros [A B]. replace (0 <=? Z.of_nat (N.to_nat id) - 1)%Z with true in B by lia. destruct (Z.of_nat (N.to_nat id) - 1 <? Z.of_nat (length (g_ids g)))%Z eqn:L; [|discriminate]. rewrite (NTH' _ _ B). f_equal. lia.
    + destruct (C16_ids_in_range_partial fs file g R ND) as (E & _). rewrite E. unfold enum_machines. rewrite combine_len. reflexivity.
Qed.
Print Assumptions C48_names.

(** C48, handlers: creating the adapter for a listener fails exactly if some rule has neither a method of its own nor defaultact, and
    says which; otherwise the handler called for a node (whose marker carries the id of its rule) is the method of that rule. *)
Theorem C48_handlers : forall (H : Type) fs file g p (attr : list N -> option H), reads fs file g -> py_grammar g = Some p ->
  match new_adapter attr p with
  | Adapter hs => forall name id, machine_id g name = Some id -> handler_called hs id = method_for attr name /\ method_for attr name <> None
  | Missing name => In name (g_ids g) /\ method_for attr name = None
  | AdapterIndexError => False
  end.
Proof.
  intros H fs file g p attr R HP. destruct (C48_names fs file g R) as [_ HN]. destruct (HN p HP) as (N1 & N2 & N3). destruct (C16_ids fs file g R) as (_ & ALL & POS & _).
  assert (NAME : forall i, 1 <= i <= py_machine_num p -> exists name, py_machine_name p i = Some name /\ machine_id g name = Some (N.of_nat i)).
  { intros i Hi. clear - N2 N3 HP HN Hi R.
    assert (ND : NoDup (g_ids g)). { destruct (ListDec.NoDup_dec (list_eq_dec N.eq_dec) (g_ids g)) as [E|E]; [exact E|]. apply (proj1 (C48_names fs file g R)) in E. congruence. }
    destruct (C16_ids_in_range_partial fs file g R ND) as (E & _). assert (L : i - 1 < length (g_ids g)) by lia. destruct (nth_error (g_ids g) (i - 1)) as [name|] eqn:EN; [|apply nth_error_None in EN; lia].
    destruct (C16_ids fs file g R) as (_ & ALL & POS & _). destruct (proj1 (ALL name) (nth_error_In _ _ EN)) as [id Hid]. destruct (POS _ _ Hid) as (A & B & _).
    pose proof (proj1 (NoDup_nth_error (g_ids g)) ND (i - 1) (N.to_nat id - 1) L ltac:(congruence)). assert (id = N.of_nat i) as -> by lia. exists name. split; [|exact Hid]. apply N2 in Hid as [_ Hid]. rewrite Nat2N.id in Hid. exact Hid. }
  assert (G : forall k i hs, i + k = S (py_machine_num p) -> length hs = i -> 1 <= i ->
    (forall name id, machine_id g name = Some id -> (id < N.of_nat i)%N -> nth_error hs (N.to_nat id) = Some (method_for attr name) /\ method_for attr name <> None) ->
    match adapter_loop attr p (seq i k) hs with
    | Adapter hs' => length hs' = S (py_machine_num p) /\ forall name id, machine_id g name = Some id -> nth_error hs' (N.to_nat id) = Some (method_for attr name) /\ method_for attr name <> None
    | Missing name => In name (g_ids g) /\ method_for attr name = None
    | AdapterIndexError => False
    end).
  { induction k as [|k IH]; intros i hs E L Hi HI; cbn [seq adapter_loop].
    - split; [lia|]. intros name id Hid. apply HI; [exact Hid|]. assert (ND : NoDup (g_ids g)). { destruct (ListDec.NoDup_dec (list_eq_dec N.eq_dec) (g_ids g)) as [E'|E']; [exact E'|]. apply (proj1 (C48_names fs file g R)) in E'. congruence. }
      destruct (C16_ids_in_range_partial fs file g R ND) as (_ & RG & _). specialize (RG _ _ Hid). lia.
    - destruct (NAME i ltac:(lia)) as (name & E1 & E2). rewrite E1.
      assert (STEP : forall m, method_for attr name = Some m -> match adapter_loop attr p (seq (S i) k) (hs ++ [Some m]) with
        | Adapter hs' => length hs' = S (py_machine_num p) /\ forall name id, machine_id g name = Some id -> nth_error hs' (N.to_nat id) = Some (method_for attr name) /\ method_for attr name <> None
        | Missing name => In name (g_ids g) /\ method_for attr name = None
        | AdapterIndexError => False
        end).
      { intros m Hm. apply IH; [lia|rewrite app_length; cbn; lia|lia|]. intros name' id' Hid' Lid'. destruct (N.eq_dec id' (N.of_nat i)) as [->|NE].
        - assert (name' = name) as -> by (apply (proj1 (C16_ids fs file g R)) with (N.of_nat i); assumption). rewrite Nat2N.id, nth_error_app2 by lia. rewrite L, Nat.sub_diag, Hm. split; [reflexivity|discriminate].
        - destruct (HI name' id' Hid' ltac:(lia)) as [A B]. split; [|exact B]. rewrite nth_error_app1 by lia. exact A. }
      unfold method_for in STEP at 1. destruct (attr (kw_parse ++ name)) as [m|] eqn:E3; [exact (STEP m eq_refl)|]. destruct (attr kw_defaultact) as [m|] eqn:E4; [exact (STEP m eq_refl)|].
      split; [apply ALL; eauto|]. unfold method_for. rewrite E3. exact E4. }
  specialize (G (py_machine_num p) 1 [None] ltac:(lia) eq_refl ltac:(lia)). unfold new_adapter. destruct (adapter_loop attr p (seq 1 (py_machine_num p)) [None]) as [hs|name|].
  - destruct G as [LH G]; [intros name id Hid Lid; destruct (POS _ _ Hid); lia|]. intros name id Hid. destruct (G name id Hid) as [A B]. split; [|exact B]. unfold handler_called, py_get, py_index.
    assert (L : N.to_nat id < length hs) by (apply nth_error_Some; rewrite A; discriminate). replace (0 <=? Z.of_N id)%Z with true by lia. replace (Z.of_N id <? Z.of_nat (length hs))%Z with true by lia. replace (Z.to_nat (Z.of_N id)) with (N.to_nat id) by lia.
    rewrite A. destruct (method_for attr name); reflexivity.
  - apply G. intros n id Hid Lid. destruct (POS _ _ Hid); lia.
  - apply G. intros n id Hid Lid. destruct (POS _ _ Hid); lia.
Qed.
Print Assumptions C48_handlers.

(** On derivations: the node of a rule in a parse is handled by the method of that rule (sub-derivations are derivations, so this is every node). *)
Theorem C48_nodes : forall (H : Type) fs file ds g p (attr : list N -> option H) hs u name a b id s e ch,
  declares fs file ds -> (N.of_nat (length ds) <= 65534)%N -> reads fs file g -> py_grammar g = Some p -> new_adapter attr p = Adapter hs ->
  derives (rules_of ds) patL u name a b (Node id s e ch) ->
  handler_called hs id = method_for attr name /\ method_for attr name <> None.
Proof.
  intros H fs file ds g p attr hs u name a b id s e ch HD HL R HP HA D. inversion D as [? ? body w ? ? ? RU _ _]; subst.
  pose proof (C48_handlers H fs file g p attr R HP) as G. rewrite HA in G. apply G. destruct (declared_nets fs file ds g HD HL R) as (_ & LK & _). specialize (LK name). unfold machine_id.
  destruct (lookup (g_nets g) name) as [[id' M]|]; [destruct LK as (e' & E & _); rewrite RU in E; injection E as <- _; reflexivity|congruence].
Qed.
Print Assumptions C48_nodes.

(** The grammar of grammars/json.cgr with a listener that has parseObject and defaultact: the root's nodes go to the first, all others to the second. *)
Local Open Scope string_scope.
Definition demo_listener (a : list N) : option nat := if eqname a (str "parseObject") then Some 1 else if eqname a (str "defaultact") then Some 2 else None.
Definition bare_listener (a : list N) : option nat := if eqname a (str "parseObject") then Some 1 else None.
Local Close Scope string_scope.
Example C48_hyp : reads (fun _ => json_text) [] json_g /\ declares (fun _ => json_text) [] json_ds /\
  (exists p, py_grammar json_g = Some p /\ (exists hs, new_adapter demo_listener p = Adapter hs /\ handler_called hs 1 = Some 1 /\ handler_called hs 2 = Some 2) /\
    exists r, new_adapter bare_listener p = Missing r).
Proof.
  destruct json_read as [mid E]. split; [exists 100, mid; exact E|]. split; [exact (proj1 (go_file _ _ _ _ _ json_ok))|].
  exists (match py_grammar json_g with Some p => p | None => mkPG [] [] end). split; [vm_compute; reflexivity|]. split; [eexists; split; [vm_compute; reflexivity|split; reflexivity]|]. eexists. vm_compute. reflexivity.
Qed.
(** A : 'a'; B : 'b'; A : 'c';  - the object cannot be created. *)
Example C48_duplicate_case : exists fs file g, reads fs file g /\ py_grammar g = None.
Proof.
  exists (fun _ => str "A : 'a'; B : 'b'; A : 'c';"%string), [], (match read_grammar 100 (fun _ => str "A : 'a'; B : 'b'; A : 'c';"%string) [] with SOk (_, g) => g | _ => empty_grammar end). split; [|vm_compute; reflexivity].
  exists 100. eexists. vm_compute. reflexivity.
Qed.
