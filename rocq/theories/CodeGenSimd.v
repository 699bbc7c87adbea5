(** The vectorised loop. *)
From Coq Require Import List NArith ZArith Arith Bool Lia ZifyBool ZifyN ZifyNat.
From Verif Require Import CharClass CharClassSpec NFA DFA DFAProofs X86 CodeGen CodeGenProofs.
Import ListNotations.
Local Open Scope N_scope.

(** The bytes [w] are mapped at address [a] (and the address space does not end inside them). *)
Definition text_at (m : N -> option N) (a : N) (w : list N) : Prop :=
  (forall i c, nth_error w i = Some c -> m (a + N.of_nat i) = Some c) /\
  (forall c, In c w -> c < 256) /\ a + N.of_nat (length w) < 2 ^ 64.

Lemma text_cons m a c w : text_at m a (c :: w) -> m a = Some c /\ c < 256 /\ a + 1 < 2 ^ 64 /\ w64 (a + 1) = a + 1 /\ text_at m (a + 1) w.
Proof.
  intros (H1 & H2 & H3). cbn [length] in H3. assert (L : a + 1 < 2 ^ 64) by lia.
  split; [specialize (H1 0%nat c eq_refl); rewrite N.add_0_r in H1; exact H1|]. split; [apply H2; left; reflexivity|].
  split; [exact L|]. split; [apply w64_small; exact L|]. split; [|split].
  - intros i x Hi. specialize (H1 (S i) x Hi). rewrite <- H1. f_equal. lia.
  - intros x Hx. apply H2. right. exact Hx.
  - lia.
Qed.
Lemma text_skip m a u v : text_at m a (u ++ v) -> text_at m (a + N.of_nat (length u)) v.
Proof.
  revert a. induction u as [|c u IH]; intros a H.
  - cbn [length app] in *. rewrite N.add_0_r. exact H.
  - apply text_cons in H as (_ & _ & _ & _ & H). apply IH in H. cbn [length]. replace (a + N.of_nat (S (length u))) with (a + 1 + N.of_nat (length u)) by lia. exact H.
Qed.
Lemma text_pre m a u v : text_at m a (u ++ v) -> text_at m a u.
Proof.
  intros (H1 & H2 & H3). split; [|split].
  - intros i c Hi. apply H1. rewrite nth_error_app1; [exact Hi|]. apply nth_error_Some. congruence.
  - intros c Hc. apply H2. apply in_or_app. auto.
  - rewrite app_length in H3. lia.
Qed.
Lemma load_text m : forall n a w, text_at m a w -> (n <= length w)%nat -> load m a n = Some (firstn n w).
Proof.
  induction n as [|n IH]; intros a w H L; [reflexivity|]. destruct w as [|c w]; [cbn in L; lia|].
  apply text_cons in H as (E & _ & _ & W & H). cbn [load firstn]. rewrite E, W, (IH _ _ H) by (cbn in L; lia). reflexivity.
Qed.

(** The maximal run of bytes of a class at the start of a list. *)
Fixpoint run_len (cc : cclass) (u : list N) : nat :=
  match u with
  | [] => O
  | c :: u' => if includes cc c then S (run_len cc u') else O
  end.
(** A class the 16-byte pattern can hold. *)
Definition packable (cc : cclass) : Prop := (length cc <= 8)%nat /\ forall r, In r cc -> 1 <= rs r /\ rs r < re r /\ re r <= 256.

Lemma includes_nz cc : (forall r, In r cc -> 1 <= rs r) -> includes cc 0 = false.
Proof.
  intros H. unfold includes. destruct (existsb _ cc) eqn:E; [|reflexivity]. apply existsb_exists in E as (r & Hr & K).
  specialize (H r Hr). lia.
Qed.
Lemma pack_pairs : forall cc k x, (forall r, In r cc -> 1 <= rs r /\ rs r < re r /\ re r <= 256) -> 
  let l := flat_map (fun r => [rs r; re r - 1]) cc ++ flat_map (fun _ : nat => [255; 0]) k in
  in_pairs (firstn (slen l) l) x = includes cc x.
Proof.
  intros cc k x. induction cc as [|r cc IH]; intros H l.
  - destruct k; [reflexivity|]. subst l. cbn. reflexivity.
  - subst l. cbn [flat_map app slen]. destruct (H r (or_introl eq_refl)) as (R1 & R2 & R3).
    assert (E1 : (rs r =? 0) = false) by lia. assert (E2 : (re r - 1 =? 0) = false) by lia. rewrite E1, E2. cbn [firstn in_pairs].
    rewrite (IH (fun y h => H y (or_intror h))). unfold includes. cbn [existsb]. f_equal. lia.
Qed.
Lemma flat_map_ext_in {A B} (f g : A -> list B) l : (forall x, In x l -> f x = g x) -> flat_map f l = flat_map g l.
Proof. induction l as [|x l IH]; intros H; [reflexivity|]. cbn. rewrite H by (left; reflexivity). rewrite IH; [reflexivity|]. intros y Hy. apply H. right. exact Hy. Qed.
Lemma seq_slots : forall cc n, (length cc <= n)%nat -> (forall r, In r cc -> 1 <= rs r /\ rs r < re r /\ re r <= 256) -> 
  flat_map (pack_slot cc) (seq 0 n) = flat_map (fun r => [rs r; re r - 1]) cc ++ flat_map (fun _ : nat => [255; 0]) (seq 0 (n - length cc)).
Proof.
  induction cc as [|r cc IH]; intros n L H.
  - cbn [length flat_map app]. rewrite Nat.sub_0_r. apply flat_map_ext_in. intros i _. unfold pack_slot. destruct i; reflexivity.
  - destruct n as [|n]; [cbn in L; lia|]. cbn [seq flat_map length]. rewrite <- seq_shift, flat_map_concat_map, map_map.
    change (map (fun x : nat => pack_slot (r :: cc) (S x)) (seq 0 n)) with (map (pack_slot cc) (seq 0 n)).
    rewrite <- flat_map_concat_map, IH; [|cbn in L; lia|intros y h; apply H; right; exact h].
    unfold pack_slot at 1. cbn [nth_error]. destruct (H r (or_introl eq_refl)) as (R1 & R2 & R3).
    destruct (rs r =? re r) eqn:E; [lia|]. rewrite sub64_le by (try change (2^64) with 18446744073709551616; lia).
    rewrite N.mod_small by lia. cbn [app]. reflexivity.
Qed.
Lemma pack_exact cc x : packable cc -> in_pairs (firstn (slen (pack_charclass cc)) (pack_charclass cc)) x = includes cc x.
Proof.
  intros [L H]. unfold pack_charclass. rewrite (seq_slots cc 8 L H). apply pack_pairs. exact H.
Qed.
Lemma idx_run cc : packable cc -> forall b, (length b <= 16)%nat ->
  idx_ranges (firstn (slen (pack_charclass cc)) (pack_charclass cc)) b = run_len cc b.
Proof.
  intros H. induction b as [|x b IH]; intros L; [reflexivity|]. cbn [idx_ranges run_len]. rewrite (pack_exact cc x H).
  destruct (x =? 0) eqn:E; cbn [negb andb].
  - apply N.eqb_eq in E. subst x. rewrite includes_nz; [reflexivity|]. intros r Hr. apply (proj2 H r Hr).
  - rewrite IH by (cbn in L; lia). reflexivity.
Qed.
Lemma run_len_le cc u : (run_len cc u <= length u)%nat.
Proof. induction u as [|c u IH]; cbn; [lia|]. destruct (includes cc c); lia. Qed.
Lemma run_len_app_stop cc u v : (run_len cc u < length u)%nat -> run_len cc (u ++ v) = run_len cc u.
Proof. induction u as [|c u IH]; cbn; [lia|]. destruct (includes cc c); [|reflexivity]. intros H. rewrite IH; [reflexivity|lia]. Qed.
Lemma run_len_app_full cc u v : (run_len cc u = length u)%nat -> run_len cc (u ++ v) = (length u + run_len cc v)%nat.
Proof. induction u as [|c u IH]; cbn; [reflexivity|]. destruct (includes cc c); [|lia]. intros H. rewrite IH; [reflexivity|lia]. Qed.
Lemma run_len_0 cc u v : includes cc 0 = false -> run_len cc (u ++ 0 :: v) = run_len cc u.
Proof. intros H. induction u as [|c u IH]; cbn; [rewrite H; reflexivity|]. rewrite IH. reflexivity. Qed.
(** It is the maximal run. *)
Lemma run_len_spec cc u : (forall i c, (i < run_len cc u)%nat -> nth_error u i = Some c -> includes cc c = true) /\
  (forall c, nth_error u (run_len cc u) = Some c -> includes cc c = false).
Proof.
  induction u as [|x u [IH1 IH2]]; cbn [run_len].
  - split; [intros i c Hi; lia|]. intros c Hc. discriminate.
  - destruct (includes cc x) eqn:E; split.
    + intros [|i] c Hi Hc; cbn in Hc; [congruence|]. apply (IH1 i); [lia|exact Hc].
    + exact IH2.
    + intros i c Hi. lia.
    + intros c Hc. cbn in Hc. congruence.
Qed.

Section Loop.
Variables (P : code) (e : env).
Hypothesis HP : NoDup (binds P).
Lemma loop_run cc l k pre : packable cc -> P = pre ++ emit_loop cc l ++ k ->
  forall n u pad a s, (length u <= n)%nat -> (15 <= length pad)%nat -> text_at (mem e) a (u ++ 0 :: pad) ->
  (exists pp, pc s = [ILoadX INPUT; IPcmpP 20; IAdd INPUT INDEX; ICmpI INDEX 15; IJcc JG l] ++ pp /\ pp = k) -> xp s = pack_charclass cc -> rg s RSI = a ->
  exists s', star P e s s' /\ frame s s' /\ rg s' RBX = rg s RBX /\ pc s' = k /\ rg s' RSI = a + N.of_nat (run_len cc u).
Proof.
  intros Hcc EP. induction n as [|n IH]; intros u pad a s Hn Hp HT HPC HX HA.
  all: assert (Z : includes cc 0 = false) by (apply includes_nz; intros r Hr; apply (proj2 Hcc r Hr)).
  all: destruct HPC as (pp & HPC & ->).
  all: assert (L16 : load (mem e) a 16 = Some (firstn 16 (u ++ 0 :: pad))) by (apply load_text; [exact HT|rewrite app_length; cbn; lia]).
  all: set (b := firstn 16 (u ++ 0 :: pad)) in *.
  all: assert (Lb : length b = 16%nat) by (unfold b; rewrite firstn_length, app_length; cbn [length]; lia).
  all: assert (Er : run_len cc (u ++ 0 :: pad) = run_len cc u) by (apply run_len_0; exact Z).
  all: assert (Ei : idx_ranges (firstn (slen (pack_charclass cc)) (pack_charclass cc)) b = run_len cc b) by (apply idx_run; [exact Hcc|lia]).
  all: assert (Hle := run_len_le cc b).
  all: assert (EU : u ++ 0 :: pad = b ++ skipn 16 (u ++ 0 :: pad)) by (unfold b; symmetry; apply firstn_skipn).
  all: assert (Ha : a + N.of_nat (length (u ++ 0 :: pad)) < 2 ^ 64) by apply HT.
  all: rewrite app_length in Ha; cbn [length] in Ha.
  all: assert (Hlu := run_len_le cc u).
  all: destruct s as [pc0 rg0 fl0 xl0 xp0 stk0 sav0 out0 ob0]; cbn [pc rg xp] in *; subst pc0 xp0.
  all: assert (ST : star P e (mkS ([ILoadX INPUT; IPcmpP 20; IAdd INPUT INDEX; ICmpI INDEX 15; IJcc JG l] ++ k) rg0 fl0 xl0 (pack_charclass cc) stk0 sav0 out0 ob0)
     (mkS (IJcc JG l :: k) (setr RSI (w64 (a + N.of_nat (run_len cc b))) (setr RCX (N.of_nat (run_len cc b)) rg0)) (Some (N.of_nat (run_len cc b), 15)) b (pack_charclass cc) stk0 sav0 out0 ob0)).
  1, 3: (eapply star_step; [cbn [step pc app rg]; rewrite HA, L16; reflexivity|];
    eapply star_step; [unfold set_xl; cbn [step pc rg xl xp]; unfold pcmpistri; cbn [N.eqb Pos.eqb]; rewrite Ei; reflexivity|];
    eapply star_step; [unfold set_reg; cbn [step pc rg xl xp fl stk sav out obase]; reflexivity|];
    eapply star_step; [unfold set_reg; cbn [step pc rg xl xp fl stk sav out obase]; reflexivity|];
    rewrite <- HA; apply star_refl).
  - assert (u = []) by (destruct u; [reflexivity|cbn in Hn; lia]). subst u. cbn [app] in *.
    assert (R0 : run_len cc b = 0%nat) by (unfold b; cbn; rewrite Z; reflexivity).
    eexists. split; [eapply star_trans; [exact ST|]; apply star_one; cbn [step pc fl eval_cond]; rewrite R0; cbn; reflexivity|].
    repeat split. cbn [rg goto run_len]. unfold setr. cbn [reg_eqb]. change (N.of_nat 0) with 0. rewrite ?N.add_0_r. apply w64_small. lia.
  - destruct (Nat.eq_dec (run_len cc b) 16) as [E16|NE].
    + assert (Lu : (16 <= length u)%nat).
      { assert (run_len cc (u ++ 0 :: pad) = (16 + run_len cc (skipn 16 (u ++ 0%N :: pad)))%nat) by (rewrite EU at 1; rewrite run_len_app_full by lia; rewrite Lb; reflexivity). lia. }
      assert (Eb : b = firstn 16 u) by (unfold b; rewrite firstn_app; replace (16 - length u)%nat with 0%nat by lia; cbn; rewrite app_nil_r; reflexivity).
      assert (Eu : u = b ++ skipn 16 u) by (rewrite Eb; symmetry; apply firstn_skipn).
      assert (HT' : text_at (mem e) (a + 16) (skipn 16 u ++ 0 :: pad)).
      { rewrite Eu, <- app_assoc in HT. apply text_skip in HT. rewrite Lb in HT. exact HT. }
      assert (Run : run_len cc u = (16 + run_len cc (skipn 16 u))%nat) by (rewrite Eu at 1; rewrite run_len_app_full by lia; rewrite Lb; reflexivity).
      destruct (IH (skipn 16 u) pad (a + 16)
        (mkS ([ILoadX INPUT; IPcmpP 20; IAdd INPUT INDEX; ICmpI INDEX 15; IJcc JG l] ++ k) (setr RSI (w64 (a + N.of_nat (run_len cc b))) (setr RCX (N.of_nat (run_len cc b)) rg0)) (Some (N.of_nat (run_len cc b), 15)) b (pack_charclass cc) stk0 sav0 out0 ob0))
        as (s' & S' & F' & B' & K' & I').
      { rewrite skipn_length; lia. }
      { exact Hp. }
      { exact HT'. }
      { exists k. split; reflexivity. }
      { reflexivity. }
      { cbn [rg]. unfold setr. cbn [reg_eqb]. rewrite E16. apply w64_small. lia. }
      exists s'. split; [eapply star_trans; [exact ST|]; eapply star_step; [|exact S']|].
      * cbn [step pc fl eval_cond]. replace (s64 15 <? s64 (N.of_nat (run_len cc b)))%Z with true by (rewrite E16; reflexivity).
        unfold emit_loop in EP. cbn [app] in EP. 
        change (pre ++ IPat (pack_charclass cc) :: IBind l :: ILoadX RSI :: IPcmpP 20 :: IAdd RSI RCX :: ICmpI RCX 15 :: IJcc JG l :: k)
          with (pre ++ [IPat (pack_charclass cc)] ++ IBind l :: [ILoadX RSI; IPcmpP 20; IAdd RSI RCX; ICmpI RCX 15; IJcc JG l] ++ k) in EP.
        rewrite app_assoc in EP. rewrite (jump_at P HP _ _ _ _ EP). reflexivity.
      * split; [exact F'|]. split; [exact B'|]. split; [exact K'|]. rewrite I', Run. lia.
    + assert (Run : run_len cc u = run_len cc b) by (rewrite <- Er, EU; apply run_len_app_stop; lia).
      eexists. split; [eapply star_trans; [exact ST|]; apply star_one; cbn [step pc fl eval_cond]|].
      { assert (G : (s64 15 <? s64 (N.of_nat (run_len cc b)))%Z = false).
        { unfold s64. change (15 <? 2 ^ 63) with true. destruct (N.of_nat (run_len cc b) <? 2 ^ 63) eqn:Q; lia. }
        rewrite G. reflexivity. }
      cbn. rewrite Run. repeat split. change (setr RSI (w64 (a + N.of_nat (run_len cc b))) (setr RCX (N.of_nat (run_len cc b)) rg0) RSI) with (w64 (a + N.of_nat (run_len cc b))).
      apply w64_small. lia.
Qed.
End Loop.
