(** The vector loop for any class, on arbitrary memory. *)
From Coq Require Import List NArith ZArith Arith Bool Lia ZifyBool ZifyN ZifyNat.
From Verif Require Import CharClass CharClassSpec CharClassProofs NFA DFA DFAProofs X86 X86Step CodeGen CodeGenProofs CodeGenSimd CodeGenMemLit.
Import ListNotations.
Local Open Scope N_scope.

(** The ranges the 16-byte pattern holds: at most [n], up to the first that is empty or begins with NUL. *)
Fixpoint held_of (n : nat) (cc : cclass) : cclass :=
  match n, cc with
  | S n', r :: cc' => if (1 <=? rs r) && (rs r <? re r) then r :: held_of n' cc' else []
  | _, _ => []
  end.
Lemma slots_shift r cc n : flat_map (pack_slot (r :: cc)) (seq 1 n) = flat_map (pack_slot cc) (seq 0 n).
Proof. rewrite <- seq_shift, flat_map_concat_map, map_map, <- flat_map_concat_map. reflexivity. Qed.
Lemma slots_held x : forall n cc, (forall r, In r cc -> rs r <= re r /\ re r <= 256) ->
  let l := flat_map (pack_slot cc) (seq 0 n) in in_pairs (firstn (slen l) l) x = includes (held_of n cc) x.
Proof.
  induction n as [|n IH]; intros cc H l; [reflexivity|]. subst l. cbn [seq flat_map]. destruct cc as [|r cc].
  - reflexivity.
  - destruct (H r (or_introl eq_refl)) as [R1 R2]. cbn [held_of]. rewrite slots_shift.
    assert (E0 : pack_slot (r :: cc) 0 = if rs r =? re r then [255; 0] else [rs r; sub64 (re r) 1 mod 256]) by reflexivity. rewrite E0. clear E0.
    destruct (rs r =? re r) eqn:E.
    + replace ((1 <=? rs r) && (rs r <? re r)) with false by lia. reflexivity.
    + rewrite sub64_le by (try change (2 ^ 64) with 18446744073709551616; lia). rewrite N.mod_small by lia. cbn [app slen].
      destruct (1 <=? rs r) eqn:E1; cbn [andb].
      * replace (rs r =? 0) with false by lia. replace (re r - 1 =? 0) with false by lia. replace (rs r <? re r) with true by lia. cbn [firstn in_pairs].
        rewrite (IH cc) by (intros y Hy; apply H; right; exact Hy). unfold includes. cbn [existsb]. f_equal. lia.
      * replace (rs r =? 0) with true by lia. reflexivity.
Qed.
Lemma held_nz : forall n cc r, In r (held_of n cc) -> 1 <= rs r.
Proof.
  induction n as [|n IH]; intros [|x cc] r; cbn [held_of]; try (intros []; fail). destruct ((1 <=? rs x) && (rs x <? re x)) eqn:E; [|intros []].
  intros [<-|K]; [lia|exact (IH _ _ K)].
Qed.
Lemma held_incl : forall n cc r, In r (held_of n cc) -> In r cc.
Proof. induction n as [|n IH]; intros [|x cc] r; cbn [held_of]; try (intros []; fail). destruct (_ && _); [|intros []]. intros [<-|K]; [left; reflexivity|right; exact (IH _ _ K)]. Qed.
Lemma idx_held cc b : (forall r, In r cc -> rs r <= re r /\ re r <= 256) ->
  idx_ranges (firstn (slen (pack_charclass cc)) (pack_charclass cc)) b = run_len (held_of 8 cc) b.
Proof.
  intros H. induction b as [|x b IH]; [reflexivity|]. cbn [idx_ranges run_len]. unfold pack_charclass at 1 2. rewrite (slots_held x 8 cc H).
  destruct (x =? 0) eqn:E; cbn [negb andb].
  - apply N.eqb_eq in E. subst x. rewrite includes_nz; [reflexivity|]. apply held_nz.
  - rewrite IH. reflexivity.
Qed.

Section Loop.
Variables (P : code) (e : env).
Hypothesis HP : NoDup (binds P).
(** [n]: the run in the mapped bytes; blocks of sixteen are read up to the one the run ends in. *)
Lemma loop_mem cc l k pre : (forall r, In r cc -> rs r <= re r /\ re r <= 256) -> P = pre ++ emit_loop cc l ++ k ->
  forall m w a s, (length w <= m)%nat -> text_at (mem e) a w ->
  ((16 * (run_len (held_of 8 cc) w / 16) + 16 <= length w)%nat \/ mem e (a + N.of_nat (length w)) = None) ->
  pc s = [ILoadX INPUT; IPcmpP 20; IAdd INPUT INDEX; ICmpI INDEX 15; IJcc JG l] ++ k -> xp s = pack_charclass cc -> rg s RSI = a ->
  exists s', star P e s s' /\
    if (16 * (run_len (held_of 8 cc) w / 16) + 16 <=? length w)%nat
    then frame s s' /\ rg s' RBX = rg s RBX /\ pc s' = k /\ rg s' RSI = a + N.of_nat (run_len (held_of 8 cc) w)
    else step P e s' = Fault.
Proof.
  intros Hcc EP. set (h := held_of 8 cc). induction m as [|m IH]; intros w a s Hm HT HM HPC HX HA.
  all: destruct (Nat.ltb_spec (length w) 16) as [LW|LW].
  1, 3: (assert (LN : load (mem e) a 16 = None) by (apply (load_none e 16 w a HT); [exact LW|]; destruct HM as [HM|HM]; [exfalso; lia|exact HM]);
    exists s; split; [constructor|]; replace (16 * (run_len h w / 16) + 16 <=? length w)%nat with false by lia;
    destruct s as [pc0 rg0 fl0 xl0 xp0 stk0 sav0 out0 ob0]; cbn [pc rg] in *; subst pc0; cbn [step pc app rg]; change INPUT with RSI; rewrite HA, LN; reflexivity).
  { lia. }
  assert (L16 : load (mem e) a 16 = Some (firstn 16 w)) by (apply load_text; [exact HT|lia]).
  set (b := firstn 16 w) in *.
  assert (Lb : length b = 16%nat) by (unfold b; rewrite firstn_length; lia).
  assert (Ei : idx_ranges (firstn (slen (pack_charclass cc)) (pack_charclass cc)) b = run_len h b) by (apply idx_held; exact Hcc).
  assert (Hle := run_len_le h b).
  assert (EW : w = b ++ skipn 16 w) by (unfold b; symmetry; apply firstn_skipn).
  assert (Ha : a + N.of_nat (length w) < 2 ^ 64) by apply HT.
  destruct s as [pc0 rg0 fl0 xl0 xp0 stk0 sav0 out0 ob0]; cbn [pc rg xp] in *; subst pc0 xp0.
  assert (ST : star P e (mkS ([ILoadX INPUT; IPcmpP 20; IAdd INPUT INDEX; ICmpI INDEX 15; IJcc JG l] ++ k) rg0 fl0 xl0 (pack_charclass cc) stk0 sav0 out0 ob0)
     (mkS (IJcc JG l :: k) (setr RSI (w64 (a + N.of_nat (run_len h b))) (setr RCX (N.of_nat (run_len h b)) rg0)) (Some (N.of_nat (run_len h b), 15)) b (pack_charclass cc) stk0 sav0 out0 ob0)).
  { eapply star_step; [cbn [step pc app rg]; rewrite HA, L16; reflexivity|];
    eapply star_step; [unfold set_xl; cbn [step pc rg xl xp]; unfold pcmpistri; cbn [N.eqb Pos.eqb]; rewrite Ei; reflexivity|];
    eapply star_step; [unfold set_reg; cbn [step pc rg xl xp fl stk sav out obase]; reflexivity|];
    eapply star_step; [unfold set_reg; cbn [step pc rg xl xp fl stk sav out obase]; reflexivity|];
    rewrite <- HA; apply star_refl. }
  destruct (Nat.eq_dec (run_len h b) 16) as [E16|NE].
  - assert (Run : run_len h w = (16 + run_len h (skipn 16 w))%nat) by (rewrite EW at 1; rewrite run_len_app_full by lia; rewrite Lb; reflexivity).
    assert (Div : (run_len h w / 16 = S (run_len h (skipn 16 w) / 16))%nat) by (rewrite Run; replace (16 + run_len h (skipn 16 w))%nat with (run_len h (skipn 16 w) + 1 * 16)%nat by lia; rewrite Nat.div_add by lia; lia).
    assert (LS : length (skipn 16 w) = (length w - 16)%nat) by apply skipn_length.
    destruct (IH (skipn 16 w) (a + 16)
        (mkS ([ILoadX INPUT; IPcmpP 20; IAdd INPUT INDEX; ICmpI INDEX 15; IJcc JG l] ++ k) (setr RSI (w64 (a + N.of_nat (run_len h b))) (setr RCX (N.of_nat (run_len h b)) rg0)) (Some (N.of_nat (run_len h b), 15)) b (pack_charclass cc) stk0 sav0 out0 ob0))
        as (s' & S' & R').
    { lia. }
    { rewrite EW in HT. apply text_skip in HT. rewrite Lb in HT. exact HT. }
    { destruct HM as [HM|HM]; [left; rewrite LS; fold h; lia|right]. rewrite LS. replace (a + 16 + N.of_nat (length w - 16)) with (a + N.of_nat (length w)) by lia. exact HM. }
    { reflexivity. } { reflexivity. }
    { cbn [rg]. unfold setr. cbn [reg_eqb]. rewrite E16. apply w64_small. lia. }
    fold h in R'. exists s'. split; [eapply star_trans; [exact ST|]; eapply star_step; [|exact S']|].
    + cbn [step pc fl eval_cond]. replace (s64 15 <? s64 (N.of_nat (run_len h b)))%Z with true by (rewrite E16; reflexivity).
      unfold emit_loop in EP. cbn [app] in EP.
      change (pre ++ IPat (pack_charclass cc) :: IBind l :: ILoadX RSI :: IPcmpP 20 :: IAdd RSI RCX :: ICmpI RCX 15 :: IJcc JG l :: k)
        with (pre ++ [IPat (pack_charclass cc)] ++ IBind l :: [ILoadX RSI; IPcmpP 20; IAdd RSI RCX; ICmpI RCX 15; IJcc JG l] ++ k) in EP.
      rewrite app_assoc in EP. rewrite (jump_at P HP _ _ _ _ EP). reflexivity.
    + replace (16 * (run_len h w / 16) + 16 <=? length w)%nat with (16 * (run_len h (skipn 16 w) / 16) + 16 <=? length (skipn 16 w))%nat by lia.
      destruct (_ <=? _)%nat; [|exact R']. destruct R' as (F' & B' & K' & I'). split; [exact F'|]. split; [exact B'|]. split; [exact K'|]. rewrite I', Run. lia.
  - assert (Run : run_len h w = run_len h b) by (rewrite EW; apply run_len_app_stop; lia).
    assert (D0 : (run_len h w / 16 = 0)%nat) by (apply Nat.div_small; lia).
    eexists. split; [eapply star_trans; [exact ST|]; apply star_one; cbn [step pc fl eval_cond]|].
    { assert (G : (s64 15 <? s64 (N.of_nat (run_len h b)))%Z = false).
      { unfold s64. change (15 <? 2 ^ 63) with true. destruct (N.of_nat (run_len h b) <? 2 ^ 63) eqn:Q; lia. }
      rewrite G. reflexivity. }
    replace (16 * (run_len h w / 16) + 16 <=? length w)%nat with true by lia.
    rewrite Run. clearbody h b. cbn. repeat split. change (setr RSI (w64 (a + N.of_nat (run_len h b))) (setr RCX (N.of_nat (run_len h b)) rg0) RSI) with (w64 (a + N.of_nat (run_len h b))).
    apply w64_small. eapply N.le_lt_trans; [|exact Ha]. clear - Hle Lb LW. lia.
Qed.
End Loop.

(** When the held ranges say the same as the class. *)
Lemma held_all : forall n cc, (length cc <= n)%nat -> (forall r, In r cc -> 1 <= rs r /\ rs r < re r) -> held_of n cc = cc.
Proof.
  induction n as [|n IH]; intros [|r cc] L H; [reflexivity|cbn in L; lia|reflexivity|]. cbn [held_of]. destruct (H r (or_introl eq_refl)). replace ((1 <=? rs r) && (rs r <? re r)) with true by lia.
  rewrite IH; [reflexivity|cbn in L; lia|]. intros y Hy. apply H. right. exact Hy.
Qed.
Lemma sorted_above : forall cc lo, SortedFrom lo cc -> forall r, In r cc -> lo <= rs r /\ rs r < re r.
Proof.
  induction cc as [|x cc IH]; intros lo H r Hr; [destruct Hr|]. destruct H as (A & B & C). destruct Hr as [<-|Hr]; [auto|]. destruct (IH _ C r Hr). lia.
Qed.
Lemma held_exact : forall n cc lo, SortedFrom lo cc -> (forall x, includes (held_of n cc) x = includes cc x) -> (length cc <= n)%nat /\ forall r, In r cc -> 1 <= rs r.
Proof.
  induction n as [|n IH]; intros [|r cc] lo HS HE.
  - split; [cbn; lia|intros r []].
  - exfalso. destruct HS as (A & B & C). specialize (HE (rs r)). cbn in HE. replace ((rs r <=? rs r) && (rs r <? re r)) with true in HE by lia. discriminate.
  - split; [cbn; lia|intros r []].
  - destruct HS as (A & B & C). cbn [held_of] in HE. destruct (1 <=? rs r) eqn:E1; cbn [andb] in HE.
    2:{ specialize (HE (rs r)). cbn in HE. replace ((rs r <=? rs r) && (rs r <? re r)) with true in HE by lia. discriminate. }
    replace (rs r <? re r) with true in HE by lia. destruct (IH cc (re r) C) as [K1 K2].
    { intros x. specialize (HE x). change (includes (r :: held_of n cc) x) with (((rs r <=? x) && (x <? re r)) || includes (held_of n cc) x) in HE. change (includes (r :: cc) x) with (((rs r <=? x) && (x <? re r)) || includes cc x) in HE.
      destruct (x <? re r) eqn:Ex.
      - assert (NI : forall dd, (forall y, In y dd -> In y cc) -> includes dd x = false).
        { intros dd Hd. destruct (includes dd x) eqn:Q; [|reflexivity]. unfold includes in Q. apply existsb_exists in Q as (y & Hy & Q). destruct (sorted_above _ _ C y (Hd y Hy)). lia. }
        rewrite (NI cc (fun y h => h)), (NI (held_of n cc) (held_incl n cc)). reflexivity.
      - rewrite andb_false_r in HE. exact HE. }
    split; [cbn [length]; lia|]. intros y [<-|Hy]; [lia|exact (K2 y Hy)].
Qed.
