(** * The chaser follows the parser *)
From Coq Require Import List NArith ZArith Arith Bool Lia ZifyBool ZifyN ZifyNat.
From Verif Require Import CharClass NFA DFA RegexSpec GrammarSpec Marker Reduction TreeSpec ParseSpec Writer X86 CodeGen CodeGenProofs CodeGenSimd CodeGenDfa CodeGenMisc ATN Grammar ParserGen ParserRun ParserSim ParserTree ParserTop ParserComplete DryParser Chaser.
Import ListNotations.
Local Open Scope nat_scope.

(** ** Specification: the way of a chase through the nodes of one rule *)
(** A step: node i was passed between the offsets p and q. *)
Definition wstep : Type := nat * nat * nat.
Section Way.
Variables (C : compiled) (lid : nat -> nat -> Z) (u : list N) (m : nat).
(** The text between p and q is what node i matches (for a nonterminal: any part of the text). *)
Definition fits (x : wstep) : Prop :=
  let '(i, p, q) := x in
  p <= length u /\ q <= length u /\
  match nt (node_of C m i) with
  | NBlank => q = p
  | NLit l => p <= q /\ slice u p q = l
  | NReg A => p <= q /\ dfa_run (c_dfa C A) 0 (slice u p q) = true
  | NWs => p <= q /\ spaces (slice u p q)
  | NInv _ => True
  end.
(** [way i p xs j q]: the steps xs lead from (before) node i at p to (before) node j at q. *)
Inductive way : nat -> nat -> list wstep -> nat -> nat -> Prop :=
| way_here i p : way i p [] i p
| way_on i p p1 k xs j q : fits (i, p, p1) -> In k (map fst (atrs (node_of C m i))) -> way k p1 xs j q -> way i p ((i, p, p1) :: xs) j q.
(** From the start of the rule at p to its end at q. *)
Definition whole_way (p : nat) (xs : list wstep) (q : nat) : Prop :=
  exists ys i r, xs = ys ++ [(i, r, q)] /\ way 0 p ys i r /\ fits (i, r, q) /\ atrs (node_of C m i) = [].
(** What the listener is told of a step. *)
Definition told (x : wstep) : list event :=
  let '(i, p, q) := x in
  match nt (node_of C m i) with
  | NLit _ | NReg _ => if (0 <=? lid m i)%Z then [Terminal (Z.to_N (lid m i)) (N.of_nat p) (N.of_nat q)] else []
  | NInv name => [Nonterminal (rule_number C name) (N.of_nat p)]
  | _ => []
  end.
Definition all_told (xs : list wstep) : list event := flat_map told xs.
(** The steps over nonterminals end where the listener said. *)
Fixpoint agreed (ans : list event -> option nat) (h : list event) (xs : list wstep) : Prop :=
  match xs with
  | [] => True
  | x :: xs' => (match nt (node_of C m (fst (fst x))) with NInv _ => ans (h ++ told x) = Some (snd x) | _ => True end) /\ agreed ans (h ++ told x) xs'
  end.
Lemma agreed_app ans xs : forall h ys, agreed ans h (xs ++ ys) <-> agreed ans h xs /\ agreed ans (h ++ all_told xs) ys.
Proof.
  induction xs as [|x xs IH]; intros h ys; cbn [app agreed all_told flat_map]; [rewrite app_nil_r; tauto|]. rewrite IH. unfold all_told. rewrite <- app_assoc. tauto.
Qed.
(** The nonterminal steps. *)
Fixpoint passed (xs : list wstep) : list (N * N * N) :=
  match xs with
  | [] => []
  | (i, p, q) :: xs' => match nt (node_of C m i) with NInv name => [(rule_number C name, N.of_nat p, N.of_nat q)] | _ => [] end ++ passed xs'
  end.
Lemma passed_app xs ys : passed (xs ++ ys) = passed xs ++ passed ys.
Proof. induction xs as [|[[i p] q] xs IH]; [reflexivity|]. cbn [app passed]. rewrite IH, app_assoc. reflexivity. Qed.
Lemma way_last i p xs j q x k : way i p xs j q -> fits (j, q, x) -> In k (map fst (atrs (node_of C m j))) -> way i p (xs ++ [(j, q, x)]) k x.
Proof. induction 1; intros F K; [econstructor; [exact F|exact K|constructor]|]. cbn [app]. econstructor; [eassumption|eassumption|auto]. Qed.
End Way.
Definition requests (h : list event) : list (N * N) := flat_map (fun x => match x with Nonterminal id p => [(id, p)] | _ => [] end) h.
Definition tid (t : tree) : N := match t with Node id _ _ _ => id end.
Definition tstart (t : tree) : N := match t with Node _ s _ _ => s end.
Definition tkids (t : tree) : list tree := match t with Node _ _ _ ch => ch end.
(** [inside t c]: c is t or a node below it. *)
Inductive inside : tree -> tree -> Prop :=
| inside_top t : inside t t
| inside_below id s e ch c x : In c ch -> inside c x -> inside (Node id s e ch) x.

Lemma requests_app h h' : requests (h ++ h') = requests h ++ requests h'.
Proof. apply flat_map_app. Qed.
Lemma requests_told C lid m xs : requests (all_told C lid m xs) = map fst (passed C m xs).
Proof.
  induction xs as [|[[i p] q] xs IH]; [reflexivity|]. cbn [all_told flat_map]. unfold all_told in IH. rewrite requests_app, IH. cbn [passed]. rewrite map_app. f_equal. cbn [told].
  destruct (nt (node_of C m i)); try reflexivity; destruct (0 <=? lid m i)%Z; reflexivity.
Qed.

Section Follow.
Variables (C : compiled) (lid : nat -> nat -> Z) (u pad : list N).
Hypothesis HG : gen_ok C (length pad).

Lemma term_fits m i n n1 : n <= length u -> (forall x, nt (node_of C m i) <> NInv x) -> term_step C u n (nt (node_of C m i)) = Some n1 -> fits C u m (i, n, n1) /\ told C lid m (i, n, n1) = reported C lid m i n n1.
Proof.
  intros Hn HI H. pose proof (dterm_le C u n _ n1 Hn H) as L. unfold fits, told, reported. destruct (nt (node_of C m i)) as [|x|l|A|] eqn:E; cbn [term_step] in H.
  - injection H as ->. repeat split; lia.
  - destruct (HI x eq_refl).
  - destruct (prefixb l (skipn n u)) eqn:EP; [|discriminate]. injection H as <-. repeat split; try lia. apply prefix_slice. exact EP.
  - destruct (longest (c_dfa C A) 0 (skipn n u)) as [k|] eqn:EL; [|discriminate]. cbn [option_map] in H. injection H as <-. repeat split; try lia. unfold slice. replace (n + k - n) with k by lia. apply longest_run. exact EL.
  - injection H as <-. repeat split; try lia. unfold slice. replace (n + ws_len (skipn n u) - n) with (ws_len (skipn n u)) by lia. apply ws_spaces.
Qed.
Lemma rule_number_of x m' : net_index (c_nets C) x = Some m' -> rule_number C x = fst (net_of C m').
Proof. intros H. unfold rule_number. rewrite H. reflexivity. Qed.
(** Where the decision of a node leads. *)
Lemma go_in m i n1 t' ts t j : m < length (c_nets C) -> i < length (snd (net_of C m)) -> atrs (node_of C m i) = t :: t' :: ts -> ldfa_go (c_look C m i) 0 (skipn n1 u ++ [0%N]) = LExit j -> In (nth j (t :: t' :: ts) (0, 0)) (t :: t' :: ts).
Proof.
  intros Hm Hi ET G. apply nth_In. destruct (node_facts C pad HG m i Hm Hi) as (_ & _ & _ & NL). rewrite ET in NL. exact (exit_lt _ _ (NL ltac:(cbn; lia)) _ _ _ G).
Qed.

(** Whatever the listener answers, the chase reports a way through the rule. *)
Section Any.
Variable ans : list event -> option nat.
Hypothesis HA : forall h n, ans h = Some n -> n <= length u.
Lemma chase_way : forall f m i n h, m < length (c_nets C) -> i < length (snd (net_of C m)) -> n <= length u ->
  match chase C lid u ans f m i n h with
  | ChOk n' h' => exists ys k r, way C u m i n ys k r /\ fits C u m (k, r, n') /\ atrs (node_of C m k) = [] /\
      h' = h ++ all_told C lid m (ys ++ [(k, r, n')]) /\ agreed C lid m ans h (ys ++ [(k, r, n')])
  | ChRej h' => exists ys k r zs, way C u m i n ys k r /\ (zs = [] \/ exists r', zs = [(k, r, r')] /\ fits C u m (k, r, r')) /\
      h' = h ++ all_told C lid m (ys ++ zs) /\ agreed C lid m ans h (ys ++ zs)
  | _ => True
  end.
Proof.
  induction f as [|f IH]; intros m i n h Hm Hi Hn; [exact I|]. rewrite chase_S. destruct (node_facts C pad HG m i Hm Hi) as (ND & _ & _ & _).
  assert (NEXT : forall n1, fits C u m (i, n, n1) -> n1 <= length u ->
     (match nt (node_of C m i) with NInv _ => ans (h ++ told C lid m (i, n, n1)) = Some n1 | _ => True end) ->
     match chase_go C lid u ans f m i n1 (h ++ told C lid m (i, n, n1)) with
     | ChOk n' h' => exists ys k r, way C u m i n ys k r /\ fits C u m (k, r, n') /\ atrs (node_of C m k) = [] /\
         h' = h ++ all_told C lid m (ys ++ [(k, r, n')]) /\ agreed C lid m ans h (ys ++ [(k, r, n')])
     | ChRej h' => exists ys k r zs, way C u m i n ys k r /\ (zs = [] \/ exists r', zs = [(k, r, r')] /\ fits C u m (k, r, r')) /\
         h' = h ++ all_told C lid m (ys ++ zs) /\ agreed C lid m ans h (ys ++ zs)
     | _ => True
     end).
  { intros n1 HF Hn1 HAG.
    assert (GO : forall t, In t (atrs (node_of C m i)) -> match chase C lid u ans f m (fst t) n1 (h ++ told C lid m (i, n, n1)) with
     | ChOk n' h' => exists ys k r, way C u m i n ys k r /\ fits C u m (k, r, n') /\ atrs (node_of C m k) = [] /\
         h' = h ++ all_told C lid m (ys ++ [(k, r, n')]) /\ agreed C lid m ans h (ys ++ [(k, r, n')])
     | ChRej h' => exists ys k r zs, way C u m i n ys k r /\ (zs = [] \/ exists r', zs = [(k, r, r')] /\ fits C u m (k, r, r')) /\
         h' = h ++ all_told C lid m (ys ++ zs) /\ agreed C lid m ans h (ys ++ zs)
     | _ => True
     end).
    { intros t Ht. pose proof (IH m (fst t) n1 (h ++ told C lid m (i, n, n1)) Hm (ND _ Ht) Hn1) as R. destruct (chase C lid u ans f m (fst t) n1 (h ++ told C lid m (i, n, n1))) as [n' h'|h'|h'| |]; try exact I.
      - destruct R as (ys & k & r & W & F & A & E & G). exists ((i, n, n1) :: ys), k, r. split; [econstructor; [exact HF|apply in_map; exact Ht|exact W]|]. split; [exact F|]. split; [exact A|]. split; [rewrite E; cbn [app all_told flat_map]; rewrite <- app_assoc; reflexivity|].
        cbn [app agreed]. split; [exact HAG|exact G].
      - destruct R as (ys & k & r & zs & W & F & E & G). exists ((i, n, n1) :: ys), k, r, zs. split; [econstructor; [exact HF|apply in_map; exact Ht|exact W]|]. split; [exact F|]. split; [rewrite E; cbn [app all_told flat_map]; rewrite <- app_assoc; reflexivity|].
        cbn [app agreed]. split; [exact HAG|exact G]. }
    unfold chase_go. destruct (atrs (node_of C m i)) as [|t [|t' ts]] eqn:ET.
    - exists [], i, n. split; [constructor|]. split; [exact HF|]. split; [exact ET|]. cbn [app all_told flat_map agreed]. rewrite app_nil_r. split; [reflexivity|]. split; [exact HAG|exact I].
    - apply GO. left. reflexivity.
    - destruct (ldfa_go (c_look C m i) 0 (skipn n1 u ++ [0%N])) as [j| |] eqn:G; [|  |exact I].
      + apply GO. exact (go_in m i n1 t' ts t j Hm Hi ET G).
      + exists [], i, n, [(i, n, n1)]. split; [constructor|]. split; [right; eauto|]. cbn [app all_told flat_map agreed]. rewrite app_nil_r. split; [reflexivity|]. split; [exact HAG|exact I]. }
  destruct (nt (node_of C m i)) as [|x|l|A|] eqn:EN.
  2: { destruct (net_index (c_nets C) x) as [m'|] eqn:EI; [|exact I]. rewrite <- (rule_number_of _ _ EI). assert (ETO : forall n1, told C lid m (i, n, n1) = [Nonterminal (rule_number C x) (N.of_nat n)]) by (intros n1; unfold told; rewrite EN; reflexivity).
       destruct (ans (h ++ [Nonterminal (rule_number C x) (N.of_nat n)])) as [n1|] eqn:EA; [|exact I]. pose proof (HA _ _ EA) as L1.
       specialize (NEXT n1). rewrite ETO in NEXT. apply NEXT; [unfold fits; rewrite EN; repeat split; lia|exact L1|exact EA]. }
  all: match goal with |- context [term_step ?zC ?zu ?zn ?t] => destruct (term_step zC zu zn t) as [n1|] eqn:ET end;
    [|exists [], i, n, []; split; [constructor|]; split; [left; reflexivity|]; cbn; rewrite app_nil_r; split; [reflexivity|exact I]].
  all: destruct (term_fits m i n n1 Hn ltac:(rewrite EN; discriminate) ltac:(rewrite EN; exact ET)) as [F T]; rewrite <- T; apply NEXT; [exact F|exact (proj1 (proj2 F))|exact I].
Qed.
End Any.

Lemma chase_no_wild ans : linked C -> (forall h n, ans h = Some n -> n <= length u) -> forall f m i n h, m < length (c_nets C) -> i < length (snd (net_of C m)) -> chase C lid u ans f m i n h <> ChWild.
Proof.
  intros HK HA. induction f as [|f IH]; intros m i n h Hm Hi; [discriminate|]. rewrite chase_S. destruct (node_facts C pad HG m i Hm Hi) as (ND & _ & _ & _).
  destruct (net_in C m Hm) as (name & IN & _). rewrite (surjective_pairing (net_of C m)) in IN.
  assert (NEXT : forall n1 h1, chase_go C lid u ans f m i n1 h1 <> ChWild).
  { intros n1 h1. unfold chase_go. destruct (atrs (node_of C m i)) as [|t [|t' ts]] eqn:ET; [discriminate|apply IH; [exact Hm|apply ND; left; reflexivity]|].
    pose proof (look_ends (c_look C m i) (skipn n1 u) (li_nul _ HK m i) 0) as LE.
    destruct (ldfa_go (c_look C m i) 0 (skipn n1 u ++ [0%N])) as [j| |] eqn:G; [|discriminate|congruence]. apply IH; [exact Hm|]. apply ND. exact (go_in m i n1 t' ts t j Hm Hi ET G). }
  destruct (nt (node_of C m i)) as [|x|l|A|] eqn:EN.
  2: { destruct (li_refs _ HK _ _ _ (node_of C m i) x IN ltac:(apply nth_In; exact Hi) EN) as [m' EI]. rewrite EI. destruct (ans _); [apply NEXT|discriminate]. }
  all: match goal with |- context [term_step ?zC ?zu ?zn ?t] => destruct (term_step zC zu zn t) as [n1|] end; [apply NEXT|discriminate].
Qed.

(** ** Along an accepted parse *)
Hypothesis HN : forall m, m < length (c_nets C) -> (1 <= fst (net_of C m) < 2 ^ 15)%N.
Hypothesis HU : (N.of_nat (length u) < 2 ^ 48)%N.
(** The parser's run that gives the node t. *)
Definition run_of (t : tree) : Prop :=
  exists f m p q, m < length (c_nets C) /\ tid t = fst (net_of C m) /\ tstart t = N.of_nat p /\ end_of t = N.of_nat q /\ p <= length u /\ q <= length u /\ run_machine C u f m p = POk q (stream t).
Lemma follow : forall f m i n n' ws, m < length (c_nets C) -> i < length (snd (net_of C m)) -> n <= length u -> run_node C u f m i n = POk n' ws ->
  exists ys k r ch, way C u m i n ys k r /\ fits C u m (k, r, n') /\ atrs (node_of C m k) = [] /\ n' <= length u /\
    ws = List.concat (map stream ch) ++ [end_word (fst (net_of C m)) (N.of_nat n')] /\
    passed C m (ys ++ [(k, r, n')]) = map (fun c => (tid c, tstart c, end_of c)) ch /\ Forall run_of ch /\ fold_right (fun c P => tree_ok c /\ P) True ch /\
    forall ans h, agreed C lid m ans h (ys ++ [(k, r, n')]) -> chase C lid u ans f m i n h = ChOk n' (h ++ all_told C lid m (ys ++ [(k, r, n')])).
Proof.
  induction f as [|f IH]; intros m i n n' ws Hm Hi Hn H; [discriminate|]. rewrite run_node_S in H. destruct (node_facts C pad HG m i Hm Hi) as (ND & _ & _ & _).
  assert (NEXT : forall n1 v, fits C u m (i, n, n1) -> n1 <= length u -> next_res C u f m i n1 = POk n' v ->
     exists ys k r ch, way C u m i n ys k r /\ fits C u m (k, r, n') /\ atrs (node_of C m k) = [] /\ n' <= length u /\
       v = List.concat (map stream ch) ++ [end_word (fst (net_of C m)) (N.of_nat n')] /\
       (exists zs, ys ++ [(k, r, n')] = (i, n, n1) :: zs /\ passed C m zs = map (fun c => (tid c, tstart c, end_of c)) ch) /\ Forall run_of ch /\ fold_right (fun c P => tree_ok c /\ P) True ch /\
       forall ans h, agreed C lid m ans h (ys ++ [(k, r, n')]) -> chase_go C lid u ans f m i n1 (h ++ told C lid m (i, n, n1)) = ChOk n' (h ++ all_told C lid m (ys ++ [(k, r, n')]))).
  { intros n1 v HF Hn1 E. unfold next_res in E. unfold chase_go.
    assert (GO : forall t v, In t (atrs (node_of C m i)) -> run_node C u f m (fst t) n1 = POk n' v -> 
      exists ys k r ch, way C u m i n ys k r /\ fits C u m (k, r, n') /\ atrs (node_of C m k) = [] /\ n' <= length u /\
       v = List.concat (map stream ch) ++ [end_word (fst (net_of C m)) (N.of_nat n')] /\
       (exists zs, ys ++ [(k, r, n')] = (i, n, n1) :: zs /\ passed C m zs = map (fun c => (tid c, tstart c, end_of c)) ch) /\ Forall run_of ch /\ fold_right (fun c P => tree_ok c /\ P) True ch /\
       forall ans h, agreed C lid m ans h (ys ++ [(k, r, n')]) -> chase C lid u ans f m (fst t) n1 (h ++ told C lid m (i, n, n1)) = ChOk n' (h ++ all_told C lid m (ys ++ [(k, r, n')]))).
    { intros t v0 Ht E0. destruct (IH m (fst t) n1 n' v0 Hm (ND _ Ht) Hn1 E0) as (ys & k & r & ch & W & F & A & L & S & P & R & O & G). exists ((i, n, n1) :: ys), k, r, ch.
      split; [econstructor; [exact HF|apply in_map; exact Ht|exact W]|]. split; [exact F|]. split; [exact A|]. split; [exact L|]. split; [exact S|]. split; [exists (ys ++ [(k, r, n')]); split; [reflexivity|exact P]|]. split; [exact R|]. split; [exact O|].
      intros ans h [_ AG]. cbn [app all_told flat_map]. rewrite (G ans (h ++ told C lid m (i, n, n1)) AG). rewrite <- app_assoc. reflexivity. }
    destruct (atrs (node_of C m i)) as [|t [|t' ts]] eqn:ET.
    - injection E as <- <-. exists [], i, n, []. split; [constructor|]. split; [exact HF|]. split; [exact ET|]. split; [exact Hn1|]. split; [reflexivity|]. split; [exists []; split; reflexivity|]. split; [constructor|]. split; [exact I|].
      intros ans h _. cbn [app all_told flat_map]. rewrite app_nil_r. reflexivity.
    - apply (GO t v); [left; reflexivity|exact E].
    - destruct (ldfa_go (c_look C m i) 0 (skipn n1 u ++ [0%N])) as [j| |] eqn:G; try discriminate. apply (GO (nth j (t :: t' :: ts) (0, 0)) v); [|exact E]. exact (go_in m i n1 t' ts t j Hm Hi ET G). }
  destruct (nt (node_of C m i)) as [|x|l|A|] eqn:EN.
  2: { destruct (net_index (c_nets C) x) as [m'|] eqn:EI; [|discriminate]. pose proof (net_index_lt _ _ _ EI) as Hm'. pose proof (dnet_ne C pad m' HG Hm') as NE.
       destruct (run_node C u f m' 0 n) as [n1 ws1|ws1| |] eqn:E1; cbn [pre] in H; try discriminate.
       destruct (next_res C u f m i n1) as [n2 ws2|ws2| |] eqn:E2; cbn [pre] in H; try discriminate. injection H as -> <-.
       destruct (IH m' 0 n n1 ws1 Hm' NE Hn E1) as (ys1 & k1 & r1 & ch1 & W1 & F1 & A1 & L1 & S1 & P1 & R1 & O1 & G1).
       destruct (NEXT n1 ws2 ltac:(unfold fits; rewrite EN; repeat split; lia) L1 E2) as (ys & k & r & ch & W & F & A & L & S & (zs & Z1 & Z2) & R & O & G).
       set (c0 := Node (fst (net_of C m')) (N.of_nat n) (N.of_nat n1) ch1). exists ys, k, r, (c0 :: ch).
       split; [exact W|]. split; [exact F|]. split; [exact A|]. split; [exact L|]. split; [subst; cbn [map stream List.concat c0]; rewrite <- !app_assoc; cbn [app]; rewrite <- !app_assoc; reflexivity|].
       split; [rewrite Z1; cbn [passed]; rewrite EN, (rule_number_of _ _ EI), Z2; reflexivity|].
       assert (RC : run_of c0). { exists f, m', n, n1. repeat (split; [assumption || reflexivity|]). unfold run_machine. rewrite E1. cbn [pre]. f_equal. subst ws1. cbn [stream c0]. reflexivity. }
       split; [constructor; assumption|]. split; [cbn [fold_right]; split; [|exact O]; cbn [c0 tree_ok]; split; [exact (HN m' Hm')|]; split; [lia|]; split; [lia|exact O1]|].
       intros ans h AG. rewrite chase_S, EN, EI. assert (ETO : told C lid m (i, n, n1) = [Nonterminal (fst (net_of C m')) (N.of_nat n)]) by (unfold told; rewrite EN, (rule_number_of _ _ EI); reflexivity).
       specialize (G ans h AG). rewrite Z1 in AG. cbn [agreed] in AG. cbn [fst snd] in AG. rewrite EN, ETO in AG. destruct AG as [AG _]. rewrite AG. rewrite ETO in G. exact G. }
  all: match type of H with context [term_step ?zC ?zu ?zn ?t] => destruct (term_step zC zu zn t) as [n1|] eqn:ET end; [|discriminate];
    destruct (term_fits m i n n1 Hn ltac:(rewrite EN; discriminate) ltac:(rewrite EN; exact ET)) as [FT TT];
    destruct (NEXT n1 ws FT (proj1 (proj2 FT)) H) as (ys & k & r & ch & W & F & AT & L & S & (zs & Z1 & Z2) & R & O & G); exists ys, k, r, ch;
    (split; [exact W|]); (split; [exact F|]); (split; [exact AT|]); (split; [exact L|]); (split; [exact S|]);
    (split; [rewrite Z1; cbn [passed]; rewrite EN; exact Z2|]); (split; [exact R|]); (split; [exact O|]);
    intros ans h AG; rewrite chase_S, EN, ET, <- TT; exact (G ans h AG).
Qed.
Lemma run_kids t : run_of t -> tree_ok t -> exists m p q f xs, m < length (c_nets C) /\ tid t = fst (net_of C m) /\ tstart t = N.of_nat p /\ end_of t = N.of_nat q /\ p <= length u /\
  whole_way C u m p xs q /\ passed C m xs = map (fun c => (tid c, tstart c, end_of c)) (tkids t) /\ Forall run_of (tkids t) /\ Forall tree_ok (tkids t) /\
  forall ans, agreed C lid m ans [] xs -> chase C lid u ans f m 0 p [] = ChOk q (all_told C lid m xs).
Proof.
  destruct t as [id s e ch]. intros (f & m & p & q & Hm & E1 & E2 & E3 & Hp & Hq & RUN) OK. cbn [tid tstart end_of tkids] in *. unfold run_machine in RUN.
  destruct (run_node C u f m 0 p) as [n1 ws| | |] eqn:ER; cbn [pre] in RUN; try discriminate. injection RUN as -> RW.
  destruct (follow f m 0 p q ws Hm (dnet_ne C pad m HG Hm) Hp ER) as (ys & k & r & ch' & W & F & A & L & S & P & R & O & G).
  assert (ch' = ch) as ->.
  { subst ws id s e. destruct OK as (K1 & K2 & K3 & K4). cbn [stream] in RW.
    assert (T1 : tree_ok (Node (fst (net_of C m)) (N.of_nat p) (N.of_nat q) ch')) by (split; [exact K1|split; [lia|split; [lia|exact O]]]).
    assert (T2 : tree_ok (Node (fst (net_of C m)) (N.of_nat p) (N.of_nat q) ch)) by (split; [exact K1|split; [lia|split; [lia|exact K4]]]).
    assert (EQ := stream_inj _ _ T1 T2 ltac:(cbn [stream app]; rewrite <- S; reflexivity)). injection EQ as ->. reflexivity. }
  exists m, p, q, f, (ys ++ [(k, r, q)]). split; [exact Hm|]. split; [exact E1|]. split; [exact E2|]. split; [exact E3|]. split; [exact Hp|]. split; [exists ys, k, r; auto|]. split; [exact P|]. split; [exact R|]. split.
  - destruct OK as (_ & _ & _ & K4). clear - K4. induction ch as [|c ch IH]; [constructor|]. destruct K4. constructor; auto.
  - intros ans AG. exact (G ans [] AG).
Qed.
Lemma run_inside t c : inside t c -> run_of t -> tree_ok t -> run_of c /\ tree_ok c.
Proof.
  induction 1 as [t|id s e ch c x Hc _ IH]; intros R O; [auto|]. destruct (run_kids _ R O) as (m & p & q & f & xs & _ & _ & _ & _ & _ & _ & _ & FR & FO & _). cbn [tkids] in *. rewrite Forall_forall in FR, FO. apply IH; auto.
Qed.
(** A listener that knows the ends of the children agrees with the way. *)
Lemma kids_agree (ans : list event -> option nat) m : forall xs (ch : list tree) h,
  passed C m xs = map (fun c => (tid c, tstart c, end_of c)) ch ->
  (forall c h', In c ch -> option_map N.of_nat (ans (h' ++ [Nonterminal (tid c) (tstart c)])) = Some (end_of c)) -> agreed C lid m ans h xs.
Proof.
  induction xs as [|[[i p] q] xs IH]; intros ch h P H; [exact I|]. cbn [passed agreed fst snd] in *. unfold told at 1. destruct (nt (node_of C m i)) as [|x|l|A|] eqn:EN; cbn [app] in P; try (split; [exact I|apply (IH ch); assumption]).
  destruct ch as [|c ch]; [discriminate|]. cbn [map] in P. injection P as P1 P2 P3 P. split.
  - specialize (H c h (or_introl eq_refl)). rewrite P1, P2. destruct (ans _) as [v|]; [|discriminate]. cbn [option_map] in H. injection H as H. f_equal. lia.
  - apply (IH ch); [exact P|]. intros c' h' Hc. apply H. right. exact Hc.
Qed.
End Follow.
