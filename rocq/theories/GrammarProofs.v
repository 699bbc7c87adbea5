(** Reading grammar files: fuel, termination, ids. *)
From Coq Require Import List NArith Arith Bool Lia ZifyBool ZifyN ZifyNat.
From Verif Require Import CharClass Stream StreamSpec StreamProofs RegexSpec NFA NFABuild GrammarSpec ATN ATNSem ATNBuild ATNParse Suffix Grammar.
Import ListNotations.
Local Open Scope nat_scope.

Lemma eqname_spec a : forall b, eqname a b = true <-> a = b.
Proof. induction a as [|x a IH]; intros [|y b]; cbn [eqname]; split; try discriminate; try reflexivity; intros H. - apply andb_true_iff in H as [E H]. apply IH in H. f_equal; [lia|exact H]. - injection H as -> ->. rewrite N.eqb_refl. apply IH. reflexivity. Qed.
Lemma eqname_refl a : eqname a a = true.
Proof. apply eqname_spec. reflexivity. Qed.
Lemma eqname_ne a b : a <> b -> eqname a b = false.
Proof. intros H. destruct (eqname a b) eqn:E; [|reflexivity]. apply eqname_spec in E. congruence. Qed.

(** ** Fuel *)
Lemma path_mono f : forall t acc r, path_loop f t acc = SOk r -> path_loop (S f) t acc = SOk r.
Proof.
  induction f as [|f IH]; intros t acc r H; [discriminate|]. cbn [path_loop] in H. change (path_loop (S (S f)) t acc) with (match t with [] => path_loop (S f) [] (0%N :: acc) | c :: t' => if (c =? 34)%N then SOk (rev acc, t') else path_loop (S f) t' (c :: acc) end).
  destruct t as [|c t]; [apply IH; exact H|]. destruct (c =? 34)%N; [exact H|apply IH; exact H].
Qed.
Lemma path_nothrow f : forall t acc, path_loop f t acc <> SThrow.
Proof. induction f as [|f IH]; intros t acc; cbn [path_loop]; [discriminate|]. destruct t as [|c t]; [apply IH|]. destruct (c =? 34)%N; [discriminate|apply IH]. Qed.
Lemma gread_mono f fs : forall file t mid g x, gread f fs file t mid g = x -> x <> SFuel -> gread (S f) fs file t mid g = x.
Proof.
  induction f as [|f IH]; intros file t mid g x H Hx; [cbn in H; congruence|].
  remember (S f) as F eqn:EF. rewrite EF in H. cbn [gread] in *. 
  destruct (lskip1 t) as [t1| |]; try exact H. destruct (lpeek t1 =? 0)%N; [exact H|]. destruct (65536 <=? mid)%N; [exact H|].
  destruct (lident t1) as [[id t2]| |]; try exact H. destruct (eqname id kw_grammar).
  { destruct (lskip1 t2) as [t3| |]; try exact H. destruct (lident t3) as [[nm t4]| |]; try exact H. destruct (lskip1 t4) as [t5| |]; try exact H.
    destruct (lpeek t5 =? 59)%N; [|exact H]. subst F. apply IH; assumption. }
  destruct (eqname id kw_include).
  { destruct (lskip1 t2) as [t3| |]; try exact H. destruct (lpeek t3 =? 34)%N; [|exact H].
    destruct (path_loop f (tl t3) []) as [[p t4]| |] eqn:EP; [|destruct (path_nothrow _ _ _ EP)|congruence].
    subst F. rewrite (path_mono _ _ _ _ EP). destruct (lskip1 t4) as [t5| |]; try exact H. destruct (lpeek t5 =? 59)%N; [|exact H].
    destruct (gread f fs (include_path file p) (deliver (fs (include_path file p))) mid g) as [[m' g']| |] eqn:E1.
    - rewrite (IH _ _ _ _ _ E1) by discriminate. apply IH; assumption.
    - rewrite (IH _ _ _ _ _ E1) by discriminate. exact H.
    - congruence. }
  destruct (atn_parse (0 <? mid)%N t2) as [[M t3]| |]; try exact H. subst F. apply IH; assumption.
Qed.
Lemma gread_le f f' fs file t mid g x : f <= f' -> gread f fs file t mid g = x -> x <> SFuel -> gread f' fs file t mid g = x.
Proof. induction 1 as [|f' _ IH]; intros H Hx; [exact H|]. apply gread_mono; [apply IH; assumption|exact Hx]. Qed.

(** ** Termination *)
(** File [f] mentions file [d]: somewhere in it stand the word include, blanks and d's name in quotes. *)
Definition includes (fs : list N -> list N) (f d : list N) : Prop :=
  exists a b p c, deliver (fs f) = a ++ kw_include ++ b ++ 34%N :: p ++ 34%N :: c /\ btext b /\ ~ In 34%N p /\ d = include_path f p.
Inductive reaches (fs : list N -> list N) : list N -> list N -> Prop :=
| re_here f : reaches fs f f
| re_next f d e : includes fs f d -> reaches fs d e -> reaches fs f e.
(** Every quote opened after the word include is closed. *)
Definition quotes_closed (fs : list N -> list N) (f : list N) : Prop :=
  forall a b c, deliver (fs f) = a ++ kw_include ++ b ++ 34%N :: c -> btext b -> In 34%N c.
Lemma path_ends t : forall acc, In 34%N t -> exists f p c, path_loop f t acc = SOk (rev acc ++ p, c) /\ t = p ++ 34%N :: c /\ ~ In 34%N p.
Proof.
  induction t as [|c t IH]; intros acc H; [destruct H|]. destruct (N.eq_dec c 34) as [->|N0].
  - exists 1, [], t. cbn. rewrite app_nil_r. auto.
  - destruct H as [->|H]; [congruence|]. destruct (IH (c :: acc) H) as (f & p & q & E & -> & Hp). exists (S f), (c :: p), q. cbn [path_loop].
    replace (c =? 34)%N with false by lia. cbn [rev] in E. rewrite <- app_assoc in E. split; [exact E|]. split; [reflexivity|]. intros [K|K]; [congruence|exact (Hp K)].
Qed.
Lemma path_le f f' t acc r : f <= f' -> path_loop f t acc = SOk r -> path_loop f' t acc = SOk r.
Proof. induction 1; intros H1; [exact H1|]. apply path_mono. auto. Qed.
Theorem gread_ends fs : forall file, Acc (fun d f => includes fs f d) file ->
  (forall f, reaches fs file f -> ~ occurs kw_include (deliver (fs f)) \/ (quotes_closed fs f /\ ~ In 0%N (deliver (fs f)))) ->
  forall t mid g, suf t (deliver (fs file)) -> exists fuel, gread fuel fs file t mid g <> SFuel.
Proof.
  intros file A. induction A as [file _ IHf]. intros HQ t. remember (length t) as n eqn:En. assert (Hn : length t <= n) by lia. clear En. revert t Hn.
  induction n as [|n IHn]; intros t Hn mid g Ht.
  { destruct t; [|cbn in Hn; lia]. exists 1. cbn. discriminate. }
  assert (STOP : (exists x, gread 1 fs file t mid g = x /\ x <> SFuel) -> exists fuel, gread fuel fs file t mid g <> SFuel) by (intros (x & <- & Hx); exists 1; exact Hx).
  assert (NX : forall t', suf t' t -> length t' < length t -> forall mid' g', exists fuel, gread fuel fs file t' mid' g' <> SFuel).
  { intros t' S L mid' g'. apply IHn; [lia|exact (suf_trans _ _ _ S Ht)]. }
  destruct (lskip1 t) as [t1| |] eqn:E1; [|apply STOP; cbn [gread]; rewrite E1; eexists; split; [reflexivity|discriminate]|destruct (lskip1_total _ E1)].
  pose proof (lskip1_suf _ _ E1) as S1. pose proof (suf_len _ _ S1) as L1.
  destruct (lpeek t1 =? 0)%N eqn:E2; [apply STOP; cbn [gread]; rewrite E1, E2; eexists; split; [reflexivity|discriminate]|].
  destruct (65536 <=? mid)%N eqn:E3; [apply STOP; cbn [gread]; rewrite E1, E2, E3; eexists; split; [reflexivity|discriminate]|].
  destruct (lident t1) as [[id t2]| |] eqn:E4; [|apply STOP; cbn [gread]; rewrite E1, E2, E3, E4; eexists; split; [reflexivity|discriminate]|unfold lident in E4; destruct t1 as [|? ?]; [discriminate|]; destruct (is_leader n0); [destruct (lident_loop t1)|]; discriminate].
  pose proof (lident_len _ _ _ E4) as L2. pose proof (lident_split _ _ _ E4) as P2.
  assert (S2 : suf t2 t) by (apply (suf_trans _ t1); [exists id; exact P2|exact S1]).
  destruct (eqname id kw_grammar) eqn:E5.
  { destruct (lskip1 t2) as [t3| |] eqn:E6; [|apply STOP; cbn [gread]; rewrite E1, E2, E3, E4, E5, E6; eexists; split; [reflexivity|discriminate]|destruct (lskip1_total _ E6)].
    destruct (lident t3) as [[nm t4]| |] eqn:E7; [|apply STOP; cbn [gread]; rewrite E1, E2, E3, E4, E5, E6, E7; eexists; split; [reflexivity|discriminate]|unfold lident in E7; destruct t3 as [|? ?]; [discriminate|]; destruct (is_leader n0); [destruct (lident_loop t3)|]; discriminate].
    destruct (lskip1 t4) as [t5| |] eqn:E8; [|apply STOP; cbn [gread]; rewrite E1, E2, E3, E4, E5, E6, E7, E8; eexists; split; [reflexivity|discriminate]|destruct (lskip1_total _ E8)].
    destruct (lpeek t5 =? 59)%N eqn:E9; [|apply STOP; cbn [gread]; rewrite E1, E2, E3, E4, E5, E6, E7, E8, E9; eexists; split; [reflexivity|discriminate]].
    pose proof (lskip1_suf _ _ E6). pose proof (lident_split _ _ _ E7). pose proof (lskip1_suf _ _ E8).
    assert (S5 : suf (tl t5) t2). { apply (suf_trans _ t5); [apply suf_tl|]. apply (suf_trans _ t4); [assumption|]. apply (suf_trans _ t3); [exists nm; assumption|assumption]. }
    destruct (NX (tl t5) (suf_trans _ _ _ S5 S2) ltac:(pose proof (suf_len _ _ S5); lia) mid (mkG (g_nets g) (g_ids g) (g_root g) nm)) as [fu Hfu].
    exists (S fu). cbn [gread]. rewrite E1, E2, E3, E4, E5, E6, E7, E8, E9. exact Hfu. }
  destruct (eqname id kw_include) eqn:E6.
  { apply eqname_spec in E6. subst id.
    destruct (HQ file (re_here _ _)) as [NO|[QC NZ]].
    { destruct NO. destruct (suf_trans _ _ _ S1 Ht) as [a Ea]. exists a, t2. rewrite Ea, P2. reflexivity. }
    destruct (lskip1 t2) as [t3| |] eqn:E7; [|apply STOP; cbn [gread]; rewrite E1, E2, E3, E4, E5, eqname_refl, E7; eexists; split; [reflexivity|discriminate]|destruct (lskip1_total _ E7)].
    destruct (lpeek t3 =? 34)%N eqn:E8; [|apply STOP; cbn [gread]; rewrite E1, E2, E3, E4, E5, eqname_refl, E7, E8; eexists; split; [reflexivity|discriminate]].
    destruct (peek_cons t3 34%N) as [t3' ->]; [lia|lia|]. pose proof (lskip1_suf _ _ E7) as S3.
    assert (Z2 : ~ In 0%N t2) by (intros K; apply NZ; exact (suf_in _ _ _ (suf_trans _ _ _ S2 Ht) K)).
    destruct (lskip1_btext _ _ E7 ltac:(discriminate) Z2) as (b & Hb & Eb).
    assert (W : exists a, deliver (fs file) = a ++ kw_include ++ b ++ 34%N :: t3').
    { destruct (suf_trans _ _ _ S1 Ht) as [a Ea]. exists a. rewrite Ea, P2, Eb. reflexivity. }
    destruct W as [a Wa].
    destruct (path_ends t3' [] (QC _ _ _ Wa Hb)) as (pf & p & t4 & EP & Et3 & Hp). cbn [rev app] in EP.
    assert (INC : includes fs file (include_path file p)). { exists a, b, p, t4. split; [rewrite Wa, Et3; reflexivity|]. auto. }
    assert (S4 : suf t4 t2). { apply (suf_trans _ t3'); [exists (p ++ [34%N]); rewrite Et3, <- app_assoc; reflexivity|]. apply (suf_trans _ (34%N :: t3')); [apply suf_cons, suf_refl|exact S3]. }
    destruct (lskip1 t4) as [t5| |] eqn:E9; [| |destruct (lskip1_total _ E9)].
    2:{ exists (S pf). cbn [gread tl]. rewrite E1, E2, E3, E4, E5, eqname_refl, E7, E8. cbn [tl]. rewrite EP, E9. discriminate. }
    destruct (lpeek t5 =? 59)%N eqn:E10.
    2:{ exists (S pf). cbn [gread tl]. rewrite E1, E2, E3, E4, E5, eqname_refl, E7, E8. cbn [tl]. rewrite EP, E9, E10. discriminate. }
    destruct (IHf (include_path file p) INC (fun f R => HQ f (re_next _ _ _ _ INC R)) (deliver (fs (include_path file p))) mid g (suf_refl _)) as [f1 Hf1].
    assert (S5 : suf (tl t5) t2) by (apply (suf_trans _ t5); [apply suf_tl|]; apply (suf_trans _ t4); [apply lskip1_suf; exact E9|exact S4]).
    destruct (gread f1 fs (include_path file p) (deliver (fs (include_path file p))) mid g) as [[m' g']| |] eqn:G1; [| |congruence].
    - destruct (NX (tl t5) (suf_trans _ _ _ S5 S2) ltac:(pose proof (suf_len _ _ S5); lia) m' g') as [f2 Hf2].
      exists (S (pf + f1 + f2)). cbn [gread]. rewrite E1, E2, E3, E4, E5, eqname_refl, E7, E8. cbn [tl]. rewrite (path_le pf (pf + f1 + f2) _ _ _ ltac:(lia) EP), E9, E10.
      rewrite (gread_le f1 (pf + f1 + f2) _ _ _ _ _ _ ltac:(lia) G1) by discriminate.
      rewrite (gread_le f2 (pf + f1 + f2) _ _ _ _ _ _ ltac:(lia) eq_refl Hf2). exact Hf2.
    - exists (S (pf + f1)). cbn [gread]. rewrite E1, E2, E3, E4, E5, eqname_refl, E7, E8. cbn [tl]. rewrite (path_le pf (pf + f1) _ _ _ ltac:(lia) EP), E9, E10.
      rewrite (gread_le f1 (pf + f1) _ _ _ _ _ _ ltac:(lia) G1) by discriminate. discriminate. }
  destruct (atn_parse (0 <? mid)%N t2) as [[M t3]| |] eqn:E7; [| |destruct (atn_parse_total _ _ E7)].
  - destruct (NX t3 (suf_trans _ _ _ (atn_parse_suf _ _ _ _ E7) S2) ltac:(pose proof (atn_parse_len _ _ _ _ E7); lia) (mid + 1)%N (define g id mid M)) as [fu Hfu].
    exists (S fu). cbn [gread]. rewrite E1, E2, E3, E4, E5, E6, E7. exact Hfu.
  - apply STOP. cbn [gread]. rewrite E1, E2, E3, E4, E5, E6, E7. eexists. split; [reflexivity|discriminate].
Qed.

(** ** Endless readings *)
Lemma path_endless f : forall acc t, ~ In 34%N t -> path_loop f t acc = SFuel.
Proof.
  induction f as [|f IH]; intros acc t H; [reflexivity|]. cbn [path_loop]. destruct t as [|c t]; [apply IH; intros []|].
  destruct (N.eqb_spec c 34) as [->|N0]; [destruct H; left; reflexivity|]. apply IH. intros K. apply H. right. exact K.
Qed.

(** ** The rules read *)
(** Position of the first definition of a name. *)
Definition first_at (ids : list (list N)) (name : list N) (k : nat) : Prop :=
  exists l1 l2, ids = l1 ++ name :: l2 /\ ~ In name l1 /\ length l1 = k.
Record inv (mid : N) (g : gstate) : Prop := {
  i_len : (N.of_nat (length (g_ids g)) + 1 = mid)%N;
  i_max : (mid <= 65536)%N;
  i_net : forall name id M, In (name, (id, M)) (g_nets g) -> exists k, first_at (g_ids g) name k /\ id = N.of_nat (S k);
  i_all : forall name, In name (g_ids g) -> In name (map fst (g_nets g));
  i_nodup : NoDup (map fst (g_nets g));
  i_names : forall name, In name (g_ids g) -> name <> [];
  i_root : g_root g = hd [] (g_ids g) }.
Lemma first_at_app ids name k x : first_at ids name k -> first_at (ids ++ x) name k.
Proof. intros (l1 & l2 & -> & H & L). exists l1, (l2 ++ x). rewrite <- app_assoc. auto. Qed.
Lemma first_at_det ids name k k' : first_at ids name k -> first_at ids name k' -> k = k'.
Proof.
  intros (l1 & l2 & -> & H & <-) (m1 & m2 & E & H' & <-). revert m1 E H'. induction l1 as [|a l1 IH]; intros [|b m1] E H'; cbn in *; [reflexivity| | |].
  - injection E as <- _. destruct H'. auto.
  - injection E as -> _. destruct H. auto.
  - injection E as <- E. f_equal. apply IH; [intros K; apply H; auto|exact E|intros K; apply H'; auto].
Qed.
Lemma first_at_name ids n1 n2 k : first_at ids n1 k -> first_at ids n2 k -> n1 = n2.
Proof.
  intros (l1 & l2 & E1 & _ & L1) (m1 & m2 & E2 & _ & L2).
  assert (A : nth_error ids k = Some n1) by (rewrite E1, nth_error_app2, L1 by lia; rewrite Nat.sub_diag; reflexivity).
  assert (B : nth_error ids k = Some n2) by (rewrite E2, nth_error_app2, L2 by lia; rewrite Nat.sub_diag; reflexivity). congruence.
Qed.
Lemma lookup_in nets name p : lookup nets name = Some p -> In (name, p) nets.
Proof.
  unfold lookup. destruct (find _ nets) as [[n q]|] eqn:E; [|discriminate]. intros H. injection H as <-. apply find_some in E as [E1 E2]. cbn [fst] in E2. apply eqname_spec in E2. subst. exact E1.
Qed.
Lemma lookup_none nets name : lookup nets name = None -> ~ In name (map fst nets).
Proof.
  unfold lookup. destruct (find _ nets) as [[n q]|] eqn:E; [discriminate|]. intros _ H. apply in_map_iff in H as ([n q] & <- & H). pose proof (find_none _ _ E _ H) as K. cbn [fst] in K. rewrite eqname_refl in K. discriminate.
Qed.
Lemma lookup_some nets name : In name (map fst nets) -> exists p, lookup nets name = Some p.
Proof. intros H. destruct (lookup nets name) as [p|] eqn:E; [eauto|]. destruct (lookup_none _ _ E H). Qed.
Lemma inv_define mid g name M : inv mid g -> (mid < 65536)%N -> name <> [] -> inv (mid + 1) (define g name mid M).
Proof.
  intros I Hm Hn. destruct I as [IL IM IN IA ID INm IR]. unfold define.
  split; cbn [g_nets g_ids g_root]; [rewrite app_length; cbn; lia|lia| | | | |].
  - intros x id Q H. destruct (lookup (g_nets g) name) as [p|] eqn:E.
    + destruct (IN _ _ _ H) as (k & K1 & K2). exists k. split; [apply first_at_app; exact K1|exact K2].
    + apply in_app_or in H as [H|[H|[]]].
      * destruct (IN _ _ _ H) as (k & K1 & K2). exists k. split; [apply first_at_app; exact K1|exact K2].
      * injection H as <- <- <-. exists (length (g_ids g)). split; [|lia]. exists (g_ids g), []. split; [reflexivity|]. split; [|reflexivity]. intros K. exact (lookup_none _ _ E (IA _ K)).
  - intros x H. apply in_app_or in H as [H|[<-|[]]].
    + destruct (lookup (g_nets g) name); [auto|]. rewrite map_app. apply in_or_app. auto.
    + destruct (lookup (g_nets g) name) as [p|] eqn:E; [apply lookup_in in E; apply (in_map fst) in E; exact E|]. rewrite map_app. apply in_or_app. right. left. reflexivity.
  - destruct (lookup (g_nets g) name) as [p|] eqn:E; [exact ID|]. rewrite map_app. cbn [map fst]. apply NoDup_Add with (a := name) (l := map fst (g_nets g)); [|split; [exact ID|apply lookup_none; exact E]].
    pose proof (Add_app name (map fst (g_nets g)) []) as K. rewrite app_nil_r in K. exact K.
  - intros x H. apply in_app_or in H as [H|[<-|[]]]; [auto|exact Hn].
  - rewrite IR. destruct (g_ids g) as [|a l] eqn:E; cbn [hd app]; [reflexivity|]. destruct a as [|x a]; [exfalso; apply (INm []); [left; reflexivity|reflexivity]|reflexivity].
Qed.
Lemma lident_ne t id r : lident t = SOk (id, r) -> id <> [].
Proof. unfold lident. destruct t as [|c t]; [discriminate|]. destruct (is_leader c); [|discriminate]. destruct (lident_loop t). intros E. injection E as <- _. discriminate. Qed.
Lemma gread_inv f fs : forall file t mid g mid' g', inv mid g -> gread f fs file t mid g = SOk (mid', g') -> inv mid' g'.
Proof.
  induction f as [|f IH]; intros file t mid g mid' g' I H; [discriminate|]. cbn [gread] in H.
  destruct (lskip1 t) as [t1| |]; try discriminate. destruct (lpeek t1 =? 0)%N; [injection H as <- <-; exact I|]. destruct (65536 <=? mid)%N eqn:EM; [discriminate|].
  destruct (lident t1) as [[id t2]| |] eqn:EI; try discriminate. destruct (eqname id kw_grammar).
  { destruct (lskip1 t2) as [t3| |]; try discriminate. destruct (lident t3) as [[nm t4]| |]; try discriminate. destruct (lskip1 t4) as [t5| |]; try discriminate.
    destruct (lpeek t5 =? 59)%N; [|discriminate]. eapply IH; [|exact H]. destruct I. split; assumption. }
  destruct (eqname id kw_include).
  { destruct (lskip1 t2) as [t3| |]; try discriminate. destruct (lpeek t3 =? 34)%N; [|discriminate].
    destruct (path_loop f (tl t3) []) as [[p t4]| |]; try discriminate. destruct (lskip1 t4) as [t5| |]; try discriminate. destruct (lpeek t5 =? 59)%N; [|discriminate].
    destruct (gread f fs (include_path file p) (deliver (fs (include_path file p))) mid g) as [[m1 g1]| |] eqn:E1; try discriminate. eapply IH; [|exact H]. eapply IH; [exact I|exact E1]. }
  destruct (atn_parse (0 <? mid)%N t2) as [[M t3]| |]; try discriminate. eapply IH; [|exact H]. apply inv_define; [exact I|lia|eapply lident_ne; exact EI].
Qed.
Lemma inv_empty : inv 1 empty_grammar.
Proof. split; cbn; try tauto; try lia. constructor. Qed.
Lemma machine_id_iff mid g : inv mid g -> forall name id, machine_id g name = Some id <-> exists k, first_at (g_ids g) name k /\ id = N.of_nat (S k).
Proof.
  intros I name id. unfold machine_id. split.
  - destruct (lookup (g_nets g) name) as [[i M]|] eqn:E; [|discriminate]. intros H. injection H as <-. apply lookup_in in E. exact (i_net _ _ I _ _ _ E).
  - intros (k & K & ->). assert (J : In name (g_ids g)) by (destruct K as (l1 & l2 & -> & _); apply in_or_app; right; left; reflexivity).
    apply (i_all _ _ I) in J. destruct (lookup_some _ _ J) as [[i M] E]. rewrite E. cbn [fst]. apply lookup_in in E. destruct (i_net _ _ I _ _ _ E) as (k' & K' & ->). do 3 f_equal. exact (first_at_det _ _ _ _ K' K).
Qed.
Lemma first_at_ex ids name : In name ids -> exists k, first_at ids name k.
Proof.
  induction ids as [|a ids IH]; intros H; [destruct H|]. destruct (list_eq_dec N.eq_dec a name) as [->|NE].
  - exists 0, [], ids. cbn. auto.
  - destruct H as [->|H]; [congruence|]. destruct (IH H) as (k & l1 & l2 & -> & Hn & <-). exists (S (length l1)), (a :: l1), l2. cbn. split; [reflexivity|]. split; [|reflexivity]. intros [K|K]; [congruence|exact (Hn K)].
Qed.
Lemma first_at_lt ids name k : first_at ids name k -> k < length ids.
Proof. intros (l1 & l2 & -> & _ & <-). rewrite app_length. cbn. lia. Qed.
Lemma nets_length mid g : inv mid g -> NoDup (g_ids g) -> length (g_nets g) = length (g_ids g).
Proof.
  intros I ND. rewrite <- (map_length fst). apply Nat.le_antisymm.
  - apply NoDup_incl_length; [exact (i_nodup _ _ I)|]. intros x H. apply in_map_iff in H as ([n [i M]] & <- & H). destruct (i_net _ _ I _ _ _ H) as (k & (l1 & l2 & -> & _) & _). apply in_or_app. right. left. reflexivity.
  - apply NoDup_incl_length; [exact ND|]. intros x H. exact (i_all _ _ I _ H).
Qed.

(** ** Written grammars *)
Fixpoint gather (g : gstate) (mid : N) (ds : list (list N * gsel)) : gstate :=
  match ds with
  | [] => g
  | (id, e) :: ds => gather (define g id mid (build_body (0 <? mid)%N e)) (mid + 1) ds
  end.
Definition same_rules (g h : gstate) : Prop := g_nets g = g_nets h /\ g_ids g = g_ids h /\ g_root g = g_root h.
Lemma same_define g h id mid M : same_rules g h -> same_rules (define g id mid M) (define h id mid M).
Proof. intros (A & B & C). unfold same_rules, define; cbn. rewrite A, B, C. auto. Qed.
Lemma same_gather ds : forall g h mid, same_rules g h -> same_rules (gather g mid ds) (gather h mid ds).
Proof. induction ds as [|[id e] ds IH]; intros g h mid H; cbn [gather]; [exact H|]. apply IH, same_define, H. Qed.
Lemma gather_app ds1 : forall g mid ds2, gather g mid (ds1 ++ ds2) = gather (gather g mid ds1) (mid + N.of_nat (length ds1)) ds2.
Proof.
  induction ds1 as [|[id e] ds1 IH]; intros g mid ds2; [cbn; rewrite N.add_0_r; reflexivity|]. cbn [app gather length]. rewrite IH. replace (mid + 1 + N.of_nat (length ds1))%N with (mid + N.of_nat (S (length ds1)))%N by lia. reflexivity.
Qed.
Lemma gather_ids ds : forall g mid, g_ids (gather g mid ds) = g_ids g ++ map fst ds.
Proof. induction ds as [|[id e] ds IH]; intros g mid; cbn [gather map]; [rewrite app_nil_r; reflexivity|]. rewrite IH. unfold define. cbn [g_ids fst]. rewrite <- app_assoc. reflexivity. Qed.
Lemma is_name_tok id r : is_name id -> tok (id ++ r).
Proof. destruct id as [|c s]; [intros []|]. intros [H _]. cbn [app]. apply tok_char; unfold letter, isspace in *; lia. Qed.
Lemma is_name_lident id r : is_name id -> match r with c :: _ => ~ sym_char c | [] => True end -> lident (id ++ r) = SOk (id, r).
Proof.
  destruct id as [|c s]; [intros []|]. intros [H1 H2] Hr. cbn [app lident]. replace (is_leader c) with true by (unfold is_leader, isalpha, letter in *; lia). rewrite (lident_app s r H2 Hr). reflexivity.
Qed.
Lemma is_name_peek id r : is_name id -> (lpeek (id ++ r) =? 0)%N = false.
Proof. destruct id as [|c s]; [intros []|]. intros [H _]. cbn. unfold letter in H. lia. Qed.
Lemma blank_ns b r : btext b -> b <> [] \/ match r with c :: _ => ~ sym_char c | [] => True end -> match b ++ r with c :: _ => ~ sym_char c | [] => True end.
Proof. intros Hb Hr. destruct (btext_head b Hb) as [->|(c & b' & -> & [H|H])]; cbn [app]; [destruct Hr as [K|K]; [congruence|exact K]| |]; unfold sym_char, letter, digit, isspace in *; lia. Qed.
Lemma skip_name b id r : btext b -> is_name id -> lskip1 (b ++ id ++ r) = SOk (id ++ r).
Proof. intros Hb H. rewrite btext_skip by exact Hb. apply tok_skip, is_name_tok, H. Qed.
Lemma skip_char b c r : btext b -> isspace c = false -> c <> 47%N -> lskip1 (b ++ c :: r) = SOk (c :: r).
Proof. intros Hb H1 H2. rewrite btext_skip by exact Hb. apply tok_skip, tok_char; assumption. Qed.
Lemma gread_written fs f t ds : w_file (fun f => deliver (fs f)) include_path f t ds -> forall mid g, (mid + N.of_nat (length ds) < 65536)%N ->
  exists fuel g', gread fuel fs f t mid g = SOk ((mid + N.of_nat (length ds))%N, g') /\ same_rules g' (gather g mid ds).
Proof.
  induction 1 as [f b Hb|f b id e t r ds Hb Hid Hg Hi Hw _ IH|f b b1 id b2 r ds Hb Hb1 Hne Hid Hb2 _ IH|f b b1 p b2 r ds ds' Hb Hb1 Hp Hb2 _ IH1 _ IH2]; intros mid g Hm.
  - exists 1, g. cbn [gread]. assert (lskip1 b = SOk []) as ->. { rewrite <- (app_nil_r b), btext_skip by exact Hb. reflexivity. }
    cbn. split; [rewrite N.add_0_r; reflexivity|]. split; [reflexivity|]. split; reflexivity.
  - cbn [length] in *. destruct (IH (mid + 1)%N (define g id mid (build_body (0 <? mid)%N e)) ltac:(lia)) as (fu & g' & E & S).
    exists (Datatypes.S fu), g'. cbn [gread]. rewrite (skip_name b id _ Hb Hid), (is_name_peek id _ Hid).
    replace (65536 <=? mid)%N with false by lia. rewrite is_name_lident; [|exact Hid|].
    2:{ destruct Hw as (b' & r' & Hb' & _ & ->). rewrite <- app_assoc. apply blank_ns; [exact Hb'|]. right. cbn. unfold sym_char, letter, digit. lia. }
    rewrite (eqname_ne id kw_grammar Hg), (eqname_ne id kw_include Hi), (atn_parse_written _ _ _ _ Hw), E. split; [do 2 f_equal; lia|exact S].
  - destruct (IH mid (mkG (g_nets g) (g_ids g) (g_root g) id) Hm) as (fu & g' & E & S). exists (Datatypes.S fu), g'. cbn [gread].
    assert (K : is_name word_grammar) by (cbn; split; [unfold letter; lia|]; unfold sym_char, letter; intros x; repeat (intros [<-|J]; [lia|revert J]); intros []).
    rewrite (skip_name b _ _ Hb K), (is_name_peek _ _ K). replace (65536 <=? mid)%N with false by lia. rewrite (is_name_lident _ _ K) by (apply blank_ns; auto). change word_grammar with kw_grammar. rewrite eqname_refl.
    rewrite (skip_name b1 _ _ Hb1 Hid), (is_name_lident _ _ Hid). 2:{ apply blank_ns; [exact Hb2|]. right. unfold sym_char, letter, digit. lia. }
    rewrite (skip_char b2 59%N r Hb2) by (reflexivity || lia). cbn [lpeek N.eqb Pos.eqb tl]. rewrite E. split; [reflexivity|].
    destruct S as (S1 & S2 & S3). assert (Q : same_rules (gather (mkG (g_nets g) (g_ids g) (g_root g) id) mid ds) (gather g mid ds)) by (apply same_gather; repeat split).
    destruct Q as (Q1 & Q2 & Q3). unfold same_rules. rewrite S1, S2, S3. auto.
  - rewrite app_length in *. destruct (IH1 mid g ltac:(lia)) as (f1 & g1 & E1 & S1). destruct (IH2 (mid + N.of_nat (length ds))%N g1 ltac:(lia)) as (f2 & g2 & E2 & S2).
    assert (Hin : In 34%N (p ++ 34%N :: b2 ++ 59%N :: r)) by (apply in_or_app; right; left; reflexivity).
    destruct (path_ends _ [] Hin) as (pf & p' & c & EP & Ep & Hp').
    assert (X : p' = p /\ c = b2 ++ 59%N :: r).
    { clear - Ep Hp Hp'. revert p' Ep Hp'. induction p as [|x p IH]; intros [|y p'] Ep Hp'; cbn in Ep.
      - injection Ep as <-. auto.
      - injection Ep as <- _. destruct Hp'. left. reflexivity.
      - injection Ep as -> _. destruct Hp. left. reflexivity.
      - injection Ep as <- Ep. destruct (IH (fun K => Hp (or_intror K)) p' Ep (fun K => Hp' (or_intror K))) as [-> ->]. auto. }
    destruct X as [-> ->]. cbn [rev app] in EP.
    exists (S (pf + f1 + f2)), g2. cbn [gread].
    assert (K : is_name word_include) by (cbn; split; [unfold letter; lia|]; unfold sym_char, letter; intros x; repeat (intros [<-|J]; [lia|revert J]); intros []).
    rewrite (skip_name b _ _ Hb K), (is_name_peek _ _ K). replace (65536 <=? mid)%N with false by lia.
    rewrite (is_name_lident _ _ K) by (apply blank_ns; [exact Hb1|]; right; unfold sym_char, letter, digit; lia). change word_include with kw_include. change (eqname kw_include kw_grammar) with false. cbv iota. rewrite eqname_refl.
    rewrite (skip_char b1 34%N _ Hb1) by (reflexivity || lia). cbn [lpeek N.eqb Pos.eqb tl]. rewrite (path_le pf (pf + f1 + f2) _ _ _ ltac:(lia) EP).
    rewrite (skip_char b2 59%N _ Hb2) by (reflexivity || lia). cbn [lpeek N.eqb Pos.eqb tl].
    rewrite (gread_le f1 (pf + f1 + f2) _ _ _ _ _ _ ltac:(lia) E1) by discriminate. rewrite (gread_le f2 (pf + f1 + f2) _ _ _ _ _ _ ltac:(lia) E2) by discriminate.
    split; [do 2 f_equal; lia|]. rewrite gather_app. destruct (same_gather ds' _ _ (mid + N.of_nat (length ds)) S1) as (Q1 & Q2 & Q3). destruct S2 as (R1 & R2 & R3). unfold same_rules. rewrite R1, R2, R3. auto.
Qed.
(** The network of the first definition of a name. *)
Lemma lookup_app_some nets x name p : lookup nets name = Some p -> lookup (nets ++ x) name = Some p.
Proof. unfold lookup. intros H. induction nets as [|q nets IH]; cbn [find app] in *; [discriminate|]. destruct (eqname (fst q) name); [exact H|exact (IH H)]. Qed.
Lemma lookup_app_none nets name p : lookup nets name = None -> lookup (nets ++ [(name, p)]) name = Some p.
Proof. unfold lookup. intros H. induction nets as [|q nets IH]; cbn [find app] in *; [cbn [fst]; rewrite eqname_refl; reflexivity|]. destruct (eqname (fst q) name); [discriminate|exact (IH H)]. Qed.
Lemma lookup_app_other nets name name' p : name <> name' -> lookup (nets ++ [(name', p)]) name = lookup nets name.
Proof. unfold lookup. intros H. induction nets as [|q nets IH]; cbn [find app] in *; [cbn [fst]; rewrite eqname_ne by congruence; reflexivity|]. destruct (eqname (fst q) name); [reflexivity|exact IH]. Qed.
Lemma gather_keep ds : forall g mid name p, lookup (g_nets g) name = Some p -> lookup (g_nets (gather g mid ds)) name = Some p.
Proof.
  induction ds as [|[id e] ds IH]; intros g mid name p H; cbn [gather]; [exact H|]. apply IH. unfold define. cbn [g_nets]. destruct (lookup (g_nets g) id); [exact H|apply lookup_app_some; exact H].
Qed.
Lemma gather_lookup ds : forall g mid k id e, nth_error ds k = Some (id, e) -> ~ In id (map fst (firstn k ds)) -> lookup (g_nets g) id = None ->
  lookup (g_nets (gather g mid ds)) id = Some ((mid + N.of_nat k)%N, build_body (0 <? mid + N.of_nat k)%N e).
Proof.
  induction ds as [|[id0 e0] ds IH]; intros g mid k id e H Hn Hl; [destruct k; discriminate|]. destruct k as [|k]; cbn [nth_error firstn map gather fst] in *.
  - injection H as -> ->. rewrite N.add_0_r. apply gather_keep. unfold define. cbn [g_nets]. rewrite Hl. apply lookup_app_none. exact Hl.
  - rewrite (IH (define g id0 mid (build_body (0 <? mid)%N e0)) (mid + 1)%N k id e H).
    + replace (mid + 1 + N.of_nat k)%N with (mid + N.of_nat (S k))%N by lia. reflexivity.
    + intros K. apply Hn. right. exact K.
    + unfold define. cbn [g_nets]. destruct (lookup (g_nets g) id0) eqn:E; [exact Hl|]. rewrite lookup_app_other; [exact Hl|]. intros ->. apply Hn. left. reflexivity.
Qed.
