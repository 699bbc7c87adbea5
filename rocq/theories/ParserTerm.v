(** * Termination of the generated parser *)
From Coq Require Import List NArith ZArith Arith Bool Lia ZifyBool ZifyN ZifyNat.
From Verif Require Import CharClass NFA DFA DFAMin RegexSpec GrammarSpec Marker Reduction TreeSpec ParseSpec Writer X86 CodeGen CodeGenProofs CodeGenSimd CodeGenDfa CodeGenMisc CodeGenRoutine ATN Grammar ParserGen ParserRun ParserSim ParserTree ParserTop.
Import ListNotations.
Local Open Scope nat_scope.

(** ** Walks through the networks that read nothing *)
(** Symbols that may match the empty text. *)
Definition own_empty (C : compiled) (t : nty) : Prop :=
  match t with
  | NBlank | NWs => True
  | NLit s => s = []
  | NReg A => dacc (nth 0 (c_dfa C A) dnil) = true
  | NInv _ => False
  end.
(** [silent m i]: one can get from node i of network m to its end; [passes m i]: past node i, reading nothing. *)
Inductive silent (C : compiled) : nat -> nat -> Prop :=
| si_end m i : atrs (node_of C m i) = [] -> passes C m i -> silent C m i
| si_step m i t : In t (atrs (node_of C m i)) -> passes C m i -> silent C m (fst t) -> silent C m i
with passes (C : compiled) : nat -> nat -> Prop :=
| pa_own m i : own_empty C (nt (node_of C m i)) -> passes C m i
| pa_call m i x m' : nt (node_of C m i) = NInv x -> net_index (c_nets C) x = Some m' -> silent C m' 0 -> passes C m i.
Scheme silent_mut := Induction for silent Sort Prop
  with passes_mut := Induction for passes Sort Prop.
Combined Scheme silent_passes_ind from silent_mut, passes_mut.
(** One step of a walk: past a node to a successor, or into a network a node refers to. *)
Inductive walk (C : compiled) : nat * nat -> nat * nat -> Prop :=
| wk_next m i t : passes C m i -> In t (atrs (node_of C m i)) -> walk C (m, i) (m, fst t)
| wk_call m i x m' : nt (node_of C m i) = NInv x -> net_index (c_nets C) x = Some m' -> walk C (m, i) (m', 0).
(** No left recursion and no repetition of something empty: no endless walk. *)
Definition no_endless_walk (C : compiled) : Prop := forall c, Acc (fun b a => walk C a b) c.

Section Term.
Variables (C : compiled) (u : list N).
Hypothesis HL : forall m i, 2 <= length (atrs (node_of C m i)) -> lcodable (c_look C m i) (length (atrs (node_of C m i))).

Lemma next_cases f m i n1 : (exists w, next_res C u f m i n1 = POk n1 w /\ atrs (node_of C m i) = []) \/ (exists t, In t (atrs (node_of C m i)) /\ next_res C u f m i n1 = run_node C u f m (fst t) n1 /\
    (forall f', next_res C u f' m i n1 = run_node C u f' m (fst t) n1)) \/ (forall f', next_res C u f' m i n1 = PRej []) \/ (forall f', next_res C u f' m i n1 = PWild).
Proof.
  unfold next_res. pose proof (HL m i) as LC. destruct (atrs (node_of C m i)) as [|t [|t' ts]] eqn:ET.
  - left. eauto.
  - right. left. exists t. split; [left; reflexivity|split; reflexivity].
  - destruct (ldfa_go (c_look C m i) 0 (skipn n1 u ++ [0%N])) as [j| |] eqn:G; [|right; right; left; reflexivity|right; right; right; reflexivity].
    right. left. exists (nth j (t :: t' :: ts) (0, 0)). split; [|split; reflexivity]. apply nth_In. exact (exit_lt _ _ (LC ltac:(cbn; lia)) _ _ _ G).
Qed.
Lemma run_le : forall f m i n n1 ws, n <= length u -> run_node C u f m i n = POk n1 ws -> n <= n1 <= length u.
Proof.
  induction f as [|f IH]; intros m i n n1 ws Hn H; [discriminate|]. rewrite run_node_S in H.
  assert (NX : forall k n2 ws2, k <= length u -> next_res C u f m i k = POk n2 ws2 -> k <= n2 <= length u).
  { intros k n2 ws2 Hk E. destruct (next_cases f m i k) as [(w & E2 & _)|[(t & _ & E2 & _)|[E2|E2]]]; rewrite E2 in E; try discriminate; [injection E as <- _; lia|eapply IH; eassumption]. }
  destruct (nt (node_of C m i)) as [|x|l|A|] eqn:ENT.
  2: { destruct (net_index (c_nets C) x) as [m'|]; [|discriminate]. destruct (run_node C u f m' 0 n) as [n0 w0|w0| |] eqn:E0; cbn [pre] in H; try discriminate.
       apply IH in E0; [|exact Hn]. destruct (next_res C u f m i n0) as [n2 w2|w2| |] eqn:E2; cbn [pre] in H; try discriminate. injection H as <- _. apply NX in E2; lia. }
  all: destruct (term_step C u n _) as [n0|] eqn:ET in H; [|discriminate]; pose proof (term_le' C u _ _ _ Hn ET) as L; apply NX in H; lia.
Qed.
Lemma term_empty n s n1 : (forall x, s <> NInv x) -> n <= length u -> term_step C u n s = Some n1 -> n1 = n -> own_empty C s.
Proof.
  intros HI Hn H ->. destruct s as [|x|l|A|]; cbn [term_step own_empty] in *; try exact I.
  - destruct (HI x eq_refl).
  - destruct (prefixb l (skipn n u)); [|discriminate]. injection H as H. destruct l; [reflexivity|cbn in H; lia].
  - destruct (longest (c_dfa C A) 0 (skipn n u)) as [k|] eqn:E; [|discriminate]. injection H as H. assert (k = 0) as -> by lia. pose proof (longest_spec (c_dfa C A) (skipn n u) 0) as LS. rewrite E in LS. destruct LS as (_ & LS & _). exact LS.
Qed.
Lemma run_silent : forall f m i n ws, n <= length u -> run_node C u f m i n = POk n ws -> silent C m i.
Proof.
  induction f as [|f IH]; intros m i n ws Hn H; [discriminate|]. rewrite run_node_S in H.
  assert (NX : forall ws2, passes C m i -> next_res C u f m i n = POk n ws2 -> silent C m i).
  { intros ws2 HP E. destruct (next_cases f m i n) as [(w & E2 & E3)|[(t & Ht & E2 & _)|[E2|E2]]]; rewrite E2 in E; try discriminate; [apply si_end; assumption|]. apply (si_step C m i t Ht HP). eapply IH; eassumption. }
  assert (NL : forall k n2 ws2, k <= length u -> next_res C u f m i k = POk n2 ws2 -> k <= n2 <= length u).
  { intros k n2 ws2 Hk E. destruct (next_cases f m i k) as [(w & E2 & _)|[(t & _ & E2 & _)|[E2|E2]]]; rewrite E2 in E; try discriminate; [injection E as <- _; lia|eapply run_le; eassumption]. }
  destruct (nt (node_of C m i)) as [|x|l|A|] eqn:ENT.
  2: { destruct (net_index (c_nets C) x) as [m'|] eqn:EI; [|discriminate]. destruct (run_node C u f m' 0 n) as [n0 w0|w0| |] eqn:E0; cbn [pre] in H; try discriminate.
       pose proof (run_le _ _ _ _ _ _ Hn E0) as L0. destruct (next_res C u f m i n0) as [n2 w2|w2| |] eqn:E2; cbn [pre] in H; try discriminate. injection H as H _. apply NL in E2 as L2; [|lia].
       assert (n0 = n) as -> by lia. subst n2. apply (NX w2); [|exact E2]. apply (pa_call C m i x m' ENT EI). eapply IH; [exact Hn|exact E0]. }
  all: destruct (term_step C u n _) as [n0|] eqn:ET in H; [|discriminate]; pose proof (term_le' C u _ _ _ Hn ET) as L; pose proof (NL _ _ _ (proj2 L) H) as L2; assert (n0 = n) as -> by lia;
    apply (NX ws); [|exact H]; apply pa_own; rewrite ENT; eapply term_empty; [discriminate|exact Hn|exact ET|reflexivity].
Qed.
Lemma fuel_mono : forall f m i n, run_node C u f m i n <> PFuel -> forall f', f <= f' -> run_node C u f' m i n = run_node C u f m i n.
Proof.
  induction f as [|f IH]; intros m i n H f' Hf; [destruct (H eq_refl)|]. destruct f' as [|f']; [lia|]. rewrite !run_node_S in *.
  assert (NX : forall k, next_res C u f m i k <> PFuel -> next_res C u f' m i k = next_res C u f m i k).
  { intros k Hk. destruct (next_cases f m i k) as [(w & E2 & E3)|[(t & Ht & E2 & E3)|[E2|E2]]].
    - unfold next_res. rewrite E3. reflexivity.
    - rewrite !E3. rewrite E3 in Hk. apply IH; [exact Hk|lia].
    - rewrite !E2. reflexivity.
    - rewrite !E2. reflexivity. }
  destruct (nt (node_of C m i)) as [|x|l|A|] eqn:ENT.
  2: { destruct (net_index (c_nets C) x) as [m'|] eqn:EI; [|reflexivity]. assert (R : run_node C u f' m' 0 n = run_node C u f m' 0 n) by (apply IH; [intros E; rewrite E in H; destruct (H eq_refl)|lia]). rewrite R.
       destruct (run_node C u f m' 0 n) as [n0 w0|w0| |]; cbn [pre] in *; try reflexivity. rewrite NX; [reflexivity|]. intros E. rewrite E in H. destruct (H eq_refl). }
  all: destruct (term_step C u n _) as [n0|]; [apply NX; exact H|reflexivity].
Qed.
Theorem terminates : no_endless_walk C -> forall m i n, n <= length u -> exists f, run_node C u f m i n <> PFuel.
Proof.
  intros WF. assert (G : forall d c n, length u - n <= d -> n <= length u -> exists f, run_node C u f (fst c) (snd c) n <> PFuel).
  { induction d as [d IHd] using (well_founded_induction lt_wf). intros c. induction (WF c) as [[m i] _ IHw]. intros n Hd Hn. cbn [fst snd].
    assert (NX : forall k, n <= k <= length u -> (k = n -> passes C m i) -> exists f, next_res C u f m i k <> PFuel).
    { intros k Hk HP. destruct (next_cases 0 m i k) as [(w & E2 & E3)|[(t & Ht & _ & E3)|[E2|E2]]].
      - exists 0. rewrite E2. discriminate.
      - destruct (Nat.eq_dec k n) as [E|NE].
        + destruct (IHw (m, fst t) (wk_next C m i t (HP E) Ht) k) as [f Hf]; [lia|lia|]. exists f. rewrite E3. exact Hf.
        + destruct (IHd (length u - k) ltac:(lia) (m, fst t) k ltac:(lia) ltac:(lia)) as [f Hf]. exists f. rewrite E3. exact Hf.
      - exists 0. rewrite E2. discriminate.
      - exists 0. rewrite E2. discriminate. }
    destruct (nt (node_of C m i)) as [|x|l|A|] eqn:ENT.
    2: { destruct (net_index (c_nets C) x) as [m'|] eqn:EI; [|exists 1; rewrite run_node_S, ENT, EI; discriminate].
         destruct (IHw (m', 0) (wk_call C m i x m' ENT EI) n Hd Hn) as [f1 H1]. cbn [fst snd] in H1.
         destruct (run_node C u f1 m' 0 n) as [n0 w0|w0| |] eqn:E0; [| | |congruence].
         - pose proof (run_le _ _ _ _ _ _ Hn E0) as L0. destruct (NX n0 L0) as [f2 H2]. { intros ->. apply (pa_call C m i x m' ENT EI). eapply run_silent; [exact Hn|exact E0]. }
           exists (S (max f1 f2)). rewrite run_node_S, ENT, EI. rewrite (fuel_mono f1 m' 0 n ltac:(congruence) (max f1 f2) ltac:(lia)), E0. cbn [pre].
           assert (E2 : next_res C u (max f1 f2) m i n0 <> PFuel).
           { destruct (next_cases f2 m i n0) as [(w & E2 & E3)|[(t & Ht & E2 & E3)|[E2|E2]]]; [unfold next_res; rewrite E3; discriminate| |rewrite E2; discriminate..].
             rewrite E3. rewrite E3 in H2. rewrite (fuel_mono f2 m (fst t) n0 H2 (max f1 f2)) by lia. exact H2. }
           destruct (next_res C u (max f1 f2) m i n0); cbn [pre]; congruence.
         - exists (S f1). rewrite run_node_S, ENT, EI, E0. discriminate.
         - exists (S f1). rewrite run_node_S, ENT, EI, E0. discriminate. }
    all: destruct (term_step C u n (nt (node_of C m i))) as [n0|] eqn:ET; [pose proof (term_le' C u _ _ _ Hn ET) as L; destruct (NX n0 L) as [f Hf];
           [intros ->; apply pa_own; eapply term_empty; [rewrite ENT; discriminate|exact Hn|exact ET|reflexivity]|exists (S f); rewrite run_node_S; rewrite ENT in *; rewrite ET; exact Hf]
         |exists 1; rewrite run_node_S; rewrite ENT in *; rewrite ET; discriminate]. }
  intros m i n Hn. exact (G _ (m, i) n (le_n _) Hn).
Qed.
End Term.
