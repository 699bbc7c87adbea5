(** * The drawing of a grammar read back (proofs for Properties_DrawAtn.v) *)
From Coq Require Import List NArith Arith ZArith Bool Lia String.
From Verif Require GrammarProofs.
From Verif Require Import CharClass NFA ATN Grammar Tool ToolProofs PathSpec Draw DotSpec DrawProofs ClusterSpec AtnShownSpec DrawAtn.
Import ListNotations.
Local Open Scope nat_scope.
Local Open Scope list_scope.

(** ** Reading items *)
Lemma items_mono f : forall f' l x, f <= f' -> items f l = Some x -> items f' l = Some x.
Proof.
  induction f as [|f IH]; intros f' l x Hf H; [discriminate|]. destruct f' as [|f']; [lia|]. cbn [items] in *.
  assert (G : forall f0 : option (item * list tok), match f0 with Some (i, r) => match items f (semicolon r) with Some (is_, r') => Some (i :: is_, r') | None => None end | None => None end = Some x ->
     match f0 with Some (i, r) => match items f' (semicolon r) with Some (is_, r') => Some (i :: is_, r') | None => None end | None => None end = Some x).
  { intros [[i r]|]; [|discriminate]. destruct (items f (semicolon r)) as [[a b]|] eqn:E; [|discriminate]. rewrite (IH f' _ _ ltac:(lia) E). auto. }
  destruct l as [|t l]; [apply G; exact H|]. 
  assert (G2 : forall r x1 (w : list N), match (if weqb (map lower w) w_subgraph then match identifier x1, items f r with Some n, Some (b, r1) => Some (ISub n b, r1) | _, _ => None end else None) with Some (i, r) => match items f (semicolon r) with Some (is_, r') => Some (i :: is_, r') | None => None end | None => None end = Some x ->
     match (if weqb (map lower w) w_subgraph then match identifier x1, items f' r with Some n, Some (b, r1) => Some (ISub n b, r1) | _, _ => None end else None) with Some (i, r) => match items f' (semicolon r) with Some (is_, r') => Some (i :: is_, r') | None => None end | None => None end = Some x).
  { intros r x1 w. destruct (weqb (map lower w) w_subgraph); [|discriminate]. destruct (identifier x1); [|discriminate]. destruct (items f r) as [[b r1]|] eqn:E; [|discriminate]. rewrite (IH f' _ _ ltac:(lia) E). intros HH. exact (G (Some (ISub _ b, r1)) HH). }
  destruct t as [w| | | |c].
  - destruct l as [|x1 l]; [apply G; exact H|]. destruct l as [|[| | | |c2] l]; try (apply G; exact H). 
    destruct (N.eq_dec c2 123) as [->|NE]; [apply G2; exact H|].
    assert (X : forall (A : Type) (a b : A), match c2 with 123%N => a | _ => b end = b) by (intros A a b; destruct c2 as [|p]; [reflexivity|]; repeat (destruct p as [p|p|]; try reflexivity); congruence).
    rewrite X in H |- *. apply G; exact H.
  - apply G; exact H.
  - apply G; exact H.
  - apply G; exact H.
  - destruct (N.eq_dec c 125) as [->|NE]; [exact H|].
    assert (X : forall (A : Type) (a b : A), match c with 125%N => a | _ => b end = b) by (intros A a b; destruct c as [|p]; [reflexivity|]; repeat (destruct p as [p|p|]; try reflexivity); congruence).
    rewrite X in H |- *. apply G; exact H.
Qed.
Lemma statement1_semi l : statement1 (TSym 59 :: l) = None.
Proof.
  destruct l as [|t l]; [reflexivity|]. destruct t as [w|w|w| |c]; try (destruct l; reflexivity).
  - destruct l as [|b [|[w|w|w| |c] r]]; try reflexivity. destruct c as [|p]; [reflexivity|]. repeat (destruct p as [p|p|]; try reflexivity).
  - destruct c as [|p]; [destruct l; reflexivity|]. repeat (destruct p as [p|p|]; try (destruct l; reflexivity)).
Qed.
Lemma items_start f l x : items f l = Some x -> semicolon l = l.
Proof.
  destruct f as [|f]; [discriminate|]. destruct l as [|t l]; [reflexivity|]. destruct t as [| | | |c]; try reflexivity.
  destruct (N.eq_dec c 59) as [->|NE].
  - intros H. cbn [items] in H. rewrite statement1_semi in H. discriminate.
  - intros _. cbn. destruct c as [|p]; [reflexivity|]. repeat (destruct p as [p|p|]; try reflexivity). congruence.
Qed.

(** Words that are read as these items, whatever comes behind them. *)
Definition says_items (t : list tok) (is : list item) : Prop :=
  forall f r is' r', items f r = Some (is', r') -> items (List.length t + f) (t ++ r) = Some (is ++ is', r').
Lemma si_nil : says_items [] [].
Proof. intros f r is' r' H. exact H. Qed.
Lemma si_app t a u b : says_items t a -> says_items u b -> says_items (t ++ u) (a ++ b).
Proof.
  intros A B f r is' r' H. rewrite <- !app_assoc, app_length, <- Nat.add_assoc. apply A. apply B. exact H.
Qed.
Lemma si_by t is : t <> [] -> (forall F r is' r', items F r = Some (is', r') -> (exists f, f + List.length t <= S F /\ items f r = Some (is', r')) -> items (S F) (t ++ r) = Some (is ++ is', r')) -> says_items t is.
Proof.
  intros NE H f r is' r' E. destruct t as [|x t]; [congruence|]. cbn [List.length Nat.add]. apply H.
  - apply (items_mono f); [lia|exact E].
  - exists f. split; [cbn [List.length]; lia|exact E].
Qed.
Lemma si_sub n body b : keyword n = false -> says_items body b -> says_items (TId w_subgraph :: TId n :: TSym 123 :: body ++ [TSym 125]) [ISub n b].
Proof.
  intros K B. apply si_by; [discriminate|]. intros F r is' r' H (f & Hf & _). cbn [List.length] in Hf. rewrite app_length in Hf. cbn [List.length] in Hf.
  cbn [app]. cbn [items]. replace (weqb (map lower w_subgraph) w_subgraph) with true by reflexivity.
  cbn [identifier]. rewrite K. rewrite <- app_assoc. cbn [app].
  assert (E : items (S (List.length body)) (body ++ TSym 125 :: r) = Some (b ++ [], r)) by (specialize (B 1 (TSym 125 :: r) [] r eq_refl); rewrite Nat.add_1_r in B; exact B).
  rewrite app_nil_r in E. assert (L : S (List.length body) <= F) by lia. rewrite (items_mono _ F _ _ L E). rewrite (items_start _ _ _ H), H. reflexivity.
Qed.
(** The statements of the drawing. *)
Lemma no_default w : keyword w = false -> existsb (weqb (map lower w)) [w_graph; w_node; w_edge] = false.
Proof.
  intros K. unfold keyword in K. cbn [existsb] in K |- *. destruct (weqb (map lower w) w_digraph), (weqb (map lower w) w_graph), (weqb (map lower w) w_node), (weqb (map lower w) w_edge); try discriminate; reflexivity.
Qed.
Lemma si_node w lab x : keyword w = false -> says_items [TId w; TSym 91; TId k_label; TSym 61; TStr lab; TSym 44; TId k_xlabel; TSym 61; TStr x; TSym 93; TSym 59] [INode w [(k_label, lab); (k_xlabel, x)]].
Proof.
  intros K. apply si_by; [discriminate|]. intros F r is' r' H _. cbn [app]. cbn [items]. cbn [statement1 attr_list identifier].
  replace (keyword k_label) with false by reflexivity. replace (keyword k_xlabel) with false by reflexivity. rewrite (no_default w K), K. cbn [semicolon]. rewrite H. reflexivity.
Qed.
Lemma si_state w lab : keyword w = false -> says_items (node_toks (TId w) lab v_circle) [INode w [(k_label, lab); (k_shape, v_circle)]].
Proof.
  intros K. apply si_by; [discriminate|]. intros F r is' r' H _. unfold node_toks. cbn [app]. cbn [items]. cbn [statement1 attr_list identifier].
  replace (keyword k_label) with false by reflexivity. replace (keyword k_shape) with false by reflexivity. replace (keyword v_circle) with false by reflexivity.
  rewrite (no_default w K), K. cbn [semicolon]. rewrite H. reflexivity.
Qed.
Definition e_long (b : bool) : list attribute := if b then [(k_penwidth, [51%N]); (t_arrows, [51%N])] else [].
Lemma si_arrow x y lab (b : bool) : keyword x = false -> keyword y = false ->
  says_items (arrow_toks (TId x) (TId y) lab (if b then long_toks else [])) [IEdge x y ((k_label, lab) :: e_long b)].
Proof.
  intros K K'. apply si_by; [discriminate|]. intros F r is' r' H _. unfold arrow_toks. destruct b; cbn [app long_toks]; cbn [items]; cbn [statement1 attr_list identifier]; rewrite K, K';
  replace (keyword k_label) with false by reflexivity; replace (keyword k_penwidth) with false by reflexivity; replace (keyword t_arrows) with false by reflexivity; cbn [semicolon]; rewrite H; reflexivity.
Qed.
Lemma si_label lab : says_items [TId k_label; TSym 61; TStr lab] [IAttr (k_label, lab)].
Proof.
  apply si_by; [discriminate|]. intros F r is' r' H _. cbn [app]. cbn [items]. cbn [statement1 identifier]. replace (keyword k_label) with false by reflexivity.
  rewrite (items_start _ _ _ H), H. reflexivity.
Qed.
Lemma si_label_semi lab : says_items [TId k_label; TSym 61; TStr lab; TSym 59] [IAttr (k_label, lab)].
Proof.
  apply si_by; [discriminate|]. intros F r is' r' H _. cbn [app]. cbn [items]. cbn [statement1 identifier]. replace (keyword k_label) with false by reflexivity.
  cbn [semicolon]. rewrite H. reflexivity.
Qed.

(** ** Names *)
Lemma no_keyword w : In 95%N w -> keyword w = false.
Proof.
  intros H. assert (G : forall k, ~ In 95%N k -> weqb (map lower w) k = false).
  { induction w as [|c w IH]; [destruct H|]. intros k Hk. destruct k as [|x k]; [reflexivity|]. cbn [map weqb]. destruct H as [->|H].
    - change (lower 95) with 95%N. destruct (N.eqb_spec 95 x) as [E|E]; [|reflexivity]. exfalso. apply Hk. left. congruence.
    - rewrite IH; [apply andb_false_r|exact H|]. intros X. apply Hk. right. exact X. }
  unfold keyword. cbn [existsb]. rewrite !G; [reflexivity| | | | | |]; cbn; intuition discriminate.
Qed.
Lemma lrun_name w : dot_name w -> lrun Idle w = (InId (rev w), []).
Proof.
  intros (c & v & -> & C & V). assert (E : lstep Idle c = (InId [c], [])).
  { cbn [lstep]. unfold lidle. replace (dspace c) with false; [rewrite C; reflexivity|]. symmetry. unfold dspace. unfold dlet in C.
    destruct (N.eqb_spec c 32) as [->|]; [discriminate|]. destruct (N.eqb_spec c 9) as [->|]; [discriminate|]. destruct (N.eqb_spec c 10) as [->|]; [discriminate|]. destruct (N.eqb_spec c 13) as [->|]; [discriminate|]. reflexivity. }
  cbn [lrun]. rewrite E. cbv beta iota zeta. rewrite lrun_id by exact V. cbn [rev]. reflexivity.
Qed.
Lemma dot_name_app w v : dot_name w -> forallb idchar v = true -> dot_name (w ++ v).
Proof. intros (c & u & -> & C & U) V. exists c, (u ++ v). split; [reflexivity|]. split; [exact C|]. rewrite forallb_app, U, V. reflexivity. Qed.
Lemma dot_name_chars w : dot_name w -> forallb idchar w = true.
Proof. intros (c & u & -> & C & U). cbn [forallb]. unfold idchar at 1. rewrite C, U. reflexivity. Qed.
Lemma idchar_quiet w : forallb idchar w = true -> quiet w.
Proof. intros H c Hc. apply (proj1 (forallb_forall _ _) H) in Hc. split; intros ->; discriminate. Qed.

(** ** Text that is read as items *)
Definition draws (s : list N) (is : list item) : Prop := exists t, says s t /\ says_items t is.
Lemma dr_nil : draws [] [].
Proof. exists []. split; [reflexivity|apply si_nil]. Qed.
Lemma dr_app a b x y : draws a x -> draws b y -> draws (a ++ b) (x ++ y).
Proof. intros (t & T1 & T2) (u & U1 & U2). exists (t ++ u). split; [apply says_app; assumption|apply si_app; assumption]. Qed.
Lemma dr_flat {A} (f : A -> list N) (g : A -> item) l : (forall x, In x l -> draws (f x) [g x]) -> draws (flat_map f l) (map g l).
Proof.
  induction l as [|x l IH]; intros H; [apply dr_nil|]. cbn [flat_map map]. apply (dr_app _ _ [g x]); [apply H; left; reflexivity|apply IH; intros y Hy; apply H; right; exact Hy].
Qed.
Definition enum_from {A} (i : nat) (l : list A) : list (nat * A) := combine (seq i (List.length l)) l.
Lemma each_enum {A} (f : nat -> A -> list N) l : forall i, each f i l = flat_map (fun p => f (fst p) (snd p)) (enum_from i l).
Proof. induction l as [|x l IH]; intros i; [reflexivity|]. cbn [each]. unfold enum_from. cbn [List.length seq combine flat_map fst snd]. rewrite IH. reflexivity. Qed.
Lemma enum_in {A} (l : list A) : forall i j x, In (j, x) (enum_from i l) -> i <= j /\ j < i + List.length l /\ nth_error l (j - i) = Some x.
Proof.
  induction l as [|y l IH]; intros i j x H; [destruct H|]. unfold enum_from in H. cbn [List.length seq combine] in H. destruct H as [E|H].
  - injection E as <- <-. rewrite Nat.sub_diag. cbn. repeat split; lia.
  - apply (IH (S i)) in H as (A1 & A2 & A3). cbn [List.length]. split; [lia|]. split; [lia|]. replace (j - i) with (S (j - S i)) by lia. exact A3.
Qed.
Definition arrows {A T} (h : A -> list T) (l : list (nat * A)) : list (nat * T) := flat_map (fun p => map (pair (fst p)) (h (snd p))) l.
Lemma flat_map_arrows {A T} (h : A -> list T) (g : nat -> T -> list N) l :
  flat_map (fun p => flat_map (g (fst p)) (h (snd p))) l = flat_map (fun q => g (fst q) (snd q)) (arrows h l).
Proof.
  unfold arrows. induction l as [|[i a] l IH]; [reflexivity|]. cbn [flat_map fst snd]. rewrite flat_map_app, IH. f_equal.
  induction (h a) as [|t u IHu]; [reflexivity|]. cbn [flat_map map fst snd]. rewrite IHu. reflexivity.
Qed.
Lemma arrows_in {A T} (h : A -> list T) (l : list A) i t : In (i, t) (arrows h (enum_from 0 l)) -> exists a, nth_error l i = Some a /\ In t (h a).
Proof.
  unfold arrows. intros H. apply in_flat_map in H as ([j a] & H1 & H2). apply in_map_iff in H2 as (u & E & Hu). cbn [fst snd] in *. injection E as <- <-.
  apply enum_in in H1 as (_ & _ & H1). rewrite Nat.sub_0_r in H1. exists a. split; assumption.
Qed.

Lemma r_xlabel w : lrun (InStr w) (txt "@, xlabel=@[") = (InStr [91%N], [TStr (rev w); TSym 44; TId k_xlabel; TSym 61]). Proof. reflexivity. Qed.
Lemma r_bracket w : lrun (InStr w) (txt "]@ ];|") = (Idle, [TStr (rev (93%N :: w)); TSym 93; TSym 59]). Proof. reflexivity. Qed.
Lemma r_cluster : lrun Idle (txt "subgraph cluster_") = (InId (rev (txt "cluster_")), [TId w_subgraph]). Proof. reflexivity. Qed.
Lemma r_brace w : lrun (InId w) (txt " {|") = (Idle, [TId (rev w); TSym 123]). Proof. reflexivity. Qed.
Lemma r_label0 : lrun Idle (txt "label=@[") = (InStr [91%N], [TId k_label; TSym 61]). Proof. reflexivity. Qed.
Lemma r_label1 w : lrun (InStr w) (txt "]@|") = (Idle, [TStr (rev (93%N :: w))]). Proof. reflexivity. Qed.
Lemma r_label2 : lrun Idle (txt "label = @[") = (InStr [91%N], [TId k_label; TSym 61]). Proof. reflexivity. Qed.
Lemma r_label3 w : lrun (InStr w) (txt "@;|") = (Idle, [TStr (rev w); TSym 59]). Proof. reflexivity. Qed.
Definition tagged (i : nat) : list N := 91%N :: num i ++ [93%N].
Lemma tagged_bracketed i : bracketed i (tagged i).
Proof. exists (num i). split; [apply num_numeral|reflexivity]. Qed.
(** Names of nodes: with an underscore, so that they are no keywords. *)
Definition node_word (w : list N) : Prop := dot_name w /\ In 95%N w.
Lemma word_key w : node_word w -> keyword w = false.
Proof. intros [_ H]. apply no_keyword. exact H. Qed.
Lemma dr_node w labt lab i : node_word w -> (forall v, lrun (InStr v) labt = (InStr (rev lab ++ v), [])) ->
  draws (node_line w labt i) [INode w [(k_label, lab); (k_xlabel, tagged i)]].
Proof.
  intros W L. eexists. split; [|apply si_node; apply word_key; exact W]. unfold node_line, says.
  rewrite lrun_app, (lrun_name w (proj1 W)). cbv beta iota zeta. rewrite lrun_app, r_label. cbv beta iota zeta. rewrite lrun_app, L. cbv beta iota zeta.
  rewrite lrun_app, r_xlabel. cbv beta iota zeta. rewrite lrun_app, (lrun_quiet (num i)) by apply num_quiet. cbv beta iota zeta. rewrite r_bracket. cbv beta iota zeta.
  cbn [app]. rewrite !rev_involutive, app_nil_r, rev_involutive. cbn [rev]. rewrite rev_app_distr, rev_involutive. reflexivity.
Qed.
Lemma dr_sub_arrow w i t : dot_name w -> bytes (tlab t) ->
  draws (sub_arrow w i t) [IEdge (w ++ txt "_S" ++ num i) (w ++ txt "_S" ++ num (tdest t)) ((k_label, class_label (tlab t)) :: e_long (tlong t))].
Proof.
  intros W B. assert (N0 : forall j, node_word (w ++ txt "_S" ++ num j)).
  { intros j. split; [apply dot_name_app; [exact W|]; rewrite forallb_app, num_idchar; reflexivity|]. apply in_or_app. right. left. reflexivity. }
  eexists. split; [|apply si_arrow; apply word_key; apply N0]. unfold sub_arrow, says.
  replace (w ++ txt "_S" ++ num i ++ txt " -> " ++ w ++ txt "_S" ++ num (tdest t) ++ txt " [ label=@" ++ class_text (tlab t) ++ (if tlong t then txt "@, penwidth=3, arrowsize=3 ];|" else txt "@ ];|"))
    with ((w ++ txt "_S" ++ num i) ++ txt " -> " ++ (w ++ txt "_S" ++ num (tdest t)) ++ txt " [ label=@" ++ class_text (tlab t) ++ (if tlong t then txt "@, penwidth=3, arrowsize=3 ];|" else txt "@ ];|")) by (rewrite <- !app_assoc; reflexivity).
  rewrite lrun_app, (lrun_name _ (proj1 (N0 i))). cbv beta iota zeta. rewrite lrun_app, r_arrow. cbv beta iota zeta.
  rewrite lrun_app, (lrun_name _ (proj1 (N0 (tdest t)))). cbv beta iota zeta. rewrite lrun_app, r_label. cbv beta iota zeta. rewrite lrun_app, lrun_class by exact B. cbv beta iota zeta.
  unfold arrow_toks. destruct (tlong t); [rewrite r_long|rewrite r_close]; cbv beta iota zeta; cbn [app]; rewrite ?rev_involutive, ?app_nil_r, ?rev_involutive; reflexivity.
Qed.
Lemma dr_state w i : dot_name w -> draws (w ++ txt "_S" ++ num i ++ txt " [ label=@" ++ num i ++ txt "@, shape=circle ];|") [INode (w ++ txt "_S" ++ num i) [(k_label, num i); (k_shape, v_circle)]].
Proof.
  intros W. assert (N0 : node_word (w ++ txt "_S" ++ num i)).
  { split; [apply dot_name_app; [exact W|]; rewrite forallb_app, num_idchar; reflexivity|]. apply in_or_app. right. left. reflexivity. }
  eexists. split; [|apply si_state; apply word_key; apply N0]. unfold says.
  replace (w ++ txt "_S" ++ num i ++ txt " [ label=@" ++ num i ++ txt "@, shape=circle ];|") with ((w ++ txt "_S" ++ num i) ++ txt " [ label=@" ++ num i ++ txt "@, shape=circle ];|") by (rewrite <- !app_assoc; reflexivity).
  rewrite lrun_app, (lrun_name _ (proj1 N0)). cbv beta iota zeta. rewrite lrun_app, r_label. cbv beta iota zeta. rewrite lrun_app, (lrun_quiet (num i)) by apply num_quiet. cbv beta iota zeta.
  rewrite r_circle. cbv beta iota zeta. cbn [app]. rewrite ?rev_involutive, ?app_nil_r, ?rev_involutive. reflexivity.
Qed.
Lemma dr_plain_arrow x y : node_word x -> node_word y -> draws (x ++ txt " -> " ++ y ++ txt " [ label=@" ++ txt "@ ];|") [IEdge x y [(k_label, [])]].
Proof.
  intros X Y. eexists. split; [|apply (si_arrow x y [] false); apply word_key; assumption]. unfold says.
  rewrite lrun_app, (lrun_name _ (proj1 X)). cbv beta iota zeta. rewrite lrun_app, r_arrow. cbv beta iota zeta.
  rewrite lrun_app, (lrun_name _ (proj1 Y)). cbv beta iota zeta. rewrite lrun_app, r_label. cbv beta iota zeta. rewrite r_close. cbv beta iota zeta.
  cbn [app]. rewrite ?rev_involutive, ?app_nil_r, ?rev_involutive. reflexivity.
Qed.
Lemma says_cluster w body t : forallb idchar w = true -> says body t -> says (txt "subgraph cluster_" ++ w ++ txt " {|" ++ body ++ txt "}|") (TId w_subgraph :: TId (txt "cluster_" ++ w) :: TSym 123 :: t ++ [TSym 125]).
Proof.
  intros W B. unfold says. rewrite lrun_app, r_cluster. cbv beta iota zeta. rewrite lrun_app, lrun_id by exact W. cbv beta iota zeta. rewrite lrun_app, r_brace. cbv beta iota zeta.
  rewrite lrun_app. unfold says in B. rewrite B. cbv beta iota zeta. change (lrun Idle (txt "}|")) with (Idle, [TSym 125]). cbv beta iota zeta.
  cbn [app]. rewrite rev_app_distr, !rev_involutive. reflexivity.
Qed.
Lemma dr_cluster w body is : forallb idchar w = true -> draws body is -> draws (txt "subgraph cluster_" ++ w ++ txt " {|" ++ body ++ txt "}|") [ISub (txt "cluster_" ++ w) is].
Proof.
  intros W (t & T1 & T2). eexists. split; [apply says_cluster; [exact W|exact T1]|]. apply si_sub; [|exact T2].
  apply no_keyword. apply in_or_app. left. cbn. tauto.
Qed.

(** ** Nodes and clusters in items *)
Lemma nodes_sub n l : nodes_in (ISub n l) = flat_map nodes_in l.
Proof. cbn [nodes_in]. induction l as [|x l IH]; [reflexivity|]. cbn [flat_map]. rewrite IH. reflexivity. Qed.
Lemma clusters_sub n l : clusters_in (ISub n l) = n :: flat_map clusters_in l.
Proof. reflexivity. Qed.
Definition leafy (i : item) : Prop := nodes_in i = [] /\ clusters_in i = [].
Lemma leafy_flat l : Forall leafy l -> flat_map nodes_in l = [] /\ flat_map clusters_in l = [].
Proof. intros H. induction H as [|x l [A B] H [IH1 IH2]]; [split; reflexivity|]. cbn [flat_map]. rewrite A, B, IH1, IH2. split; reflexivity. Qed.
Lemma leafy_edges {A} (f : A -> list N) (g : A -> list N) (h : A -> list attribute) l : Forall leafy (map (fun x => IEdge (f x) (g x) (h x)) l).
Proof. apply Forall_forall. intros x Hx. apply in_map_iff in Hx as (y & <- & _). split; reflexivity. Qed.
(** Who a node is: the rule, the number of the cluster, the number of the node in it, the state of the pattern in it. *)
Notation nid := (list N * nat * nat * option nat)%type.
Notation cid := (list N * nat * option nat)%type.
Definition n_key (x : nid) := fst (fst (fst x)).
Definition n_cnt (x : nid) := snd (fst (fst x)).
Definition n_ix (x : nid) := snd (fst x).
Definition c_key (x : cid) := fst (fst x).
Definition c_cnt (x : cid) := snd (fst x).
Definition c_ix (x : cid) := snd x.
Definition mkn (x : nid) : list N :=
  let '(k, c, i, j) := x in node_name (k ++ num c) i ++ match j with Some s => txt "_S" ++ num s | None => [] end.
Definition mkc (x : cid) : list N :=
  let '(k, c, o) := x in txt "cluster_" ++ match o with Some i => node_name (k ++ num c) i | None => k ++ num c end.
Lemma prefix_chars k c : dot_name k -> dot_name (k ++ num c).
Proof. intros H. apply dot_name_app; [exact H|apply num_idchar]. Qed.
Lemma node_name_word p i : dot_name p -> node_word (node_name p i).
Proof.
  intros H. unfold node_name. split; [apply dot_name_app; [exact H|]; rewrite forallb_app, num_idchar; reflexivity|]. apply in_or_app. right. left. reflexivity.
Qed.
Lemma mkn_word k c i j : dot_name k -> node_word (mkn (k, c, i, j)).
Proof.
  intros H. unfold mkn. destruct (node_name_word (k ++ num c) i (prefix_chars k c H)) as [A B]. destruct j as [s|]; [|rewrite app_nil_r; split; assumption].
  split; [apply dot_name_app; [exact A|]; rewrite forallb_app, num_idchar; reflexivity|]. apply in_or_app. left. exact B.
Qed.

(** ** Patterns *)
Definition pattern_fine (A : nfa) : Prop := A <> [] /\ forall st t, In st A -> In t st -> tdest t < List.length A /\ bytes (tlab t).
Definition sub_item (i : nat) (w : list N) (A : nfa) : item :=
  ISub (txt "cluster_" ++ w) (IAttr (k_label, tagged i) :: map (fun p => INode (w ++ txt "_S" ++ num (fst p)) [(k_label, num (fst p)); (k_shape, v_circle)]) (enum_from 0 A) ++
    map (fun q => IEdge (w ++ txt "_S" ++ num (fst q)) (w ++ txt "_S" ++ num (tdest (snd q))) ((k_label, class_label (tlab (snd q))) :: e_long (tlong (snd q)))) (arrows (fun st => st) (enum_from 0 A))).
Lemma dr_pattern i w A : dot_name w -> pattern_fine A -> draws (nfa_sub i w A) [sub_item i w A].
Proof.
  intros W [_ F]. unfold nfa_sub. rewrite !each_enum.
  replace (txt "label=@[" ++ num i ++ txt "]@|" ++ flat_map (fun p : nat * nstate => w ++ txt "_S" ++ num (fst p) ++ txt " [ label=@" ++ num (fst p) ++ txt "@, shape=circle ];|") (enum_from 0 A) ++
     flat_map (fun p => flat_map (sub_arrow w (fst p)) (snd p)) (enum_from 0 A) ++ txt "}|")
  with (((txt "label=@[" ++ num i ++ txt "]@|") ++ flat_map (fun p : nat * nstate => w ++ txt "_S" ++ num (fst p) ++ txt " [ label=@" ++ num (fst p) ++ txt "@, shape=circle ];|") (enum_from 0 A) ++
     flat_map (fun p => flat_map (sub_arrow w (fst p)) (snd p)) (enum_from 0 A)) ++ txt "}|") by (rewrite <- !app_assoc; reflexivity).
  apply dr_cluster; [apply dot_name_chars; exact W|]. apply (dr_app _ _ [_]); [|apply dr_app].
  - eexists. split; [|apply si_label]. unfold says. rewrite lrun_app, r_label0. cbv beta iota zeta. rewrite lrun_app, (lrun_quiet (num i)) by apply num_quiet. cbv beta iota zeta. rewrite r_label1.
    cbv beta iota zeta. cbn [app rev]. rewrite rev_app_distr, rev_involutive. reflexivity.
  - apply dr_flat. intros p _. apply dr_state. exact W.
  - rewrite (flat_map_arrows (fun st : nstate => st) (sub_arrow w)). apply (dr_flat (fun q => sub_arrow w (fst q) (snd q))). intros [j t] H. apply arrows_in in H as (st & H1 & H2). apply dr_sub_arrow; [exact W|].
    apply nth_error_In in H1. exact (proj2 (F st t H1 H2)).
Qed.
Lemma nodes_states {A B} (f : A -> list N) (g : A -> list attribute) (l : list A) (h : B) : flat_map nodes_in (map (fun p => INode (f p) (g p)) l) = map f l.
Proof. induction l as [|x l IH]; [reflexivity|]. cbn [map flat_map nodes_in app]. rewrite IH. reflexivity. Qed.
Lemma clusters_states {A} (f : A -> list N) (g : A -> list attribute) (l : list A) : flat_map clusters_in (map (fun p => INode (f p) (g p)) l) = [].
Proof. induction l as [|x l IH]; [reflexivity|]. cbn [map flat_map clusters_in app]. exact IH. Qed.
Lemma enum_fst {A} (l : list A) : forall i, map fst (enum_from i l) = seq i (List.length l).
Proof. induction l as [|x l IH]; intros i; [reflexivity|]. unfold enum_from in *. cbn [List.length seq combine map fst]. rewrite IH. reflexivity. Qed.
Lemma enum_nth {A} (l : list A) : forall i j, nth_error (enum_from i l) j = match nth_error l j with Some x => Some (i + j, x) | None => None end.
Proof.
  induction l as [|x l IH]; intros i j; [destruct j; reflexivity|]. unfold enum_from in *. cbn [List.length seq combine]. destruct j as [|j]; cbn [nth_error]; [rewrite Nat.add_0_r; reflexivity|].
  rewrite IH. replace (S i + j) with (i + S j) by lia. reflexivity.
Qed.
Lemma sub_nodes i w A : nodes_in (sub_item i w A) = map (fun s => w ++ txt "_S" ++ num s) (seq 0 (List.length A)) /\ clusters_in (sub_item i w A) = [txt "cluster_" ++ w].
Proof.
  unfold sub_item. rewrite nodes_sub, clusters_sub. cbn [flat_map nodes_in clusters_in app]. rewrite !flat_map_app.
  destruct (leafy_flat _ (leafy_edges (fun q : nat * ntr => w ++ txt "_S" ++ num (fst q)) (fun q => w ++ txt "_S" ++ num (tdest (snd q))) (fun q => (k_label, class_label (tlab (snd q))) :: e_long (tlong (snd q))) (arrows (fun st => st) (enum_from 0 A)))) as [E1 E2].
  rewrite E1, E2, clusters_states, (nodes_states _ _ _ 0), app_nil_r. rewrite <- (enum_fst A 0), map_map. split; reflexivity.
Qed.
Lemma Forall2_map_r {A B} (P : A -> B -> Prop) (f : A -> B) l : (forall x, In x l -> P x (f x)) -> Forall2 P l (map f l).
Proof. induction l as [|x l IH]; intros H; [constructor|]. cbn [map]. constructor; [apply H; left; reflexivity|apply IH; intros y Hy; apply H; right; exact Hy]. Qed.
Lemma sub_shows i w A : pattern_fine A -> shows_pattern i A (sub_item i w A).
Proof.
  intros [_ F]. unfold shows_pattern, sub_item. do 4 eexists. split; [reflexivity|]. split; [apply tagged_bracketed|]. split.
  - change (enum A) with (enum_from 0 A). apply Forall2_map_r. intros [j st] _. cbn [fst]. do 3 eexists. split; [reflexivity|]. split; [reflexivity|]. split; [apply num_numeral|reflexivity].
  - change (flat_map (fun p => map (pair (fst p)) (snd p)) (enum A)) with (arrows (fun st : nstate => st) (enum_from 0 A)). apply Forall2_map_r. intros [j t] H. cbn [fst snd].
    apply arrows_in in H as (st & H1 & H2). pose proof (nth_error_In _ _ H1) as H3. destruct (F st t H3 H2) as [F1 F2]. destruct (rendered_class (tlab t) F2) as (v & V1 & V2).
    do 5 eexists. split; [reflexivity|]. split; [|split; [destruct (tlong t); reflexivity|split; [exact V1|split; [exact V2|destruct (tlong t); reflexivity]]]].
    assert (G : forall k x, nth_error A k = Some x -> nth_error (map (fun p : nat * nstate => INode (w ++ txt "_S" ++ num (fst p)) [(k_label, num (fst p)); (k_shape, v_circle)]) (enum_from 0 A)) k =
      Some (INode (w ++ txt "_S" ++ num k) [(k_label, num k); (k_shape, v_circle)])) by (intros k x Hk; rewrite nth_error_map, enum_nth, Hk; reflexivity).
    destruct (nth_error A (tdest t)) as [y|] eqn:Y; [|apply nth_error_None in Y; lia].
    do 2 eexists. split; [exact (G j st H1)|]. split; [exact (G (tdest t) y Y)|]. split; reflexivity.
Qed.

(** ** Names that are all different *)
Definition tracked (P : nid -> Prop) (Q : cid -> Prop) (its : list item) : Prop :=
  exists ids cids, flat_map nodes_in its = map mkn ids /\ flat_map clusters_in its = map mkc cids /\ NoDup ids /\ NoDup cids /\ Forall P ids /\ Forall Q cids.
Lemma NoDup_app' {A} (a b : list A) : NoDup a -> NoDup b -> (forall x, In x a -> In x b -> False) -> NoDup (a ++ b).
Proof.
  intros Ha Hb D. induction Ha as [|x a Hx Ha IH]; [exact Hb|]. cbn [app]. constructor.
  - rewrite in_app_iff. intros [H|H]; [exact (Hx H)|exact (D x (or_introl eq_refl) H)].
  - apply IH. intros y Hy. apply D. right. exact Hy.
Qed.
Lemma tracked_app P Q P' Q' a b : tracked P Q a -> tracked P' Q' b -> (forall x, P x -> P' x -> False) -> (forall x, Q x -> Q' x -> False) ->
  tracked (fun x => P x \/ P' x) (fun x => Q x \/ Q' x) (a ++ b).
Proof.
  intros (i1 & c1 & A1 & A2 & A3 & A4 & A5 & A6) (i2 & c2 & B1 & B2 & B3 & B4 & B5 & B6) D1 D2. exists (i1 ++ i2), (c1 ++ c2).
  rewrite !flat_map_app, !map_app, A1, A2, B1, B2. rewrite Forall_forall in A5, A6, B5, B6. repeat split; auto.
  - apply NoDup_app'; auto. intros x X1 X2. exact (D1 x (A5 x X1) (B5 x X2)).
  - apply NoDup_app'; auto. intros x X1 X2. exact (D2 x (A6 x X1) (B6 x X2)).
  - apply Forall_forall. intros x Hx. apply in_app_iff in Hx as [Hx|Hx]; auto.
  - apply Forall_forall. intros x Hx. apply in_app_iff in Hx as [Hx|Hx]; auto.
Qed.
Lemma tracked_more (P P' : nid -> Prop) (Q Q' : cid -> Prop) a : tracked P Q a -> (forall x, P x -> P' x) -> (forall x, Q x -> Q' x) -> tracked P' Q' a.
Proof.
  intros (i1 & c1 & A1 & A2 & A3 & A4 & A5 & A6) HP HQ. exists i1, c1. repeat split; auto; eapply Forall_impl; eauto.
Qed.
Lemma tracked_nil P Q : tracked P Q [].
Proof. exists [], []. repeat split; constructor. Qed.

(** ** Rules *)
Definition net_fine (M : atn) : Prop :=
  (exists n, nth_error M 0 = Some n /\ nt n = NBlank) /\ (exists n, nth_error M (List.length M - 1) = Some n /\ nt n = NBlank) /\
  forall n, In n M -> (forall t, In t (atrs n) -> fst t < List.length M) /\
    match nt n with NInv r => dot_name r | NReg A => pattern_fine A | _ => True end.
Notation ends := (list N * list N)%type.
Definition fits (e : ends) (it : item) : Prop := entry_of it = Some (fst e) /\ exit_of it = Some (snd e).
Definition good (e : ends) : Prop := node_word (fst e) /\ node_word (snd e).
Lemma existsb_eqname r l : existsb (eqname r) l = true <-> In r l.
Proof.
  rewrite existsb_exists. split.
  - intros (x & H & E). apply GrammarProofs.eqname_spec in E. subst. exact H.
  - intros H. exists r. split; [exact H|]. apply GrammarProofs.eqname_spec. reflexivity.
Qed.

Section Rules.
Variable nets : list (list N * (N * atn)).
Hypothesis fine : forall k id M, lookup nets k = Some (id, M) -> dot_name k /\ net_fine M.
Definition known (k : list N) : Prop := exists v, lookup nets k = Some v.
Definition in_range (a b : nat) (x : nid) : Prop := a <= n_cnt x < b /\ known (n_key x).
Definition c_range (a b : nat) (x : cid) : Prop := a <= c_cnt x < b /\ known (c_key x).
Definition drawn (sub : option (list (list N) -> nat -> list N -> item -> Prop)) (f : list (list N) -> nat -> list N -> nat -> option (list N * ends * nat)) : Prop :=
  exists g, sub = Some g /\ forall stack idx r cnt t e c, f stack idx r cnt = Some (t, e, c) ->
    exists it, draws t [it] /\ g stack idx r it /\ fits e it /\ good e /\ cnt <= c /\ tracked (in_range cnt c) (c_range cnt c) [it].
Definition own (key : list N) (c0 : nat) (I : nat -> Prop) (a b : nat) (x : nid) : Prop := n_key x = key /\ n_cnt x = c0 /\ I (n_ix x) \/ in_range a b x.
Definition c_own (key : list N) (c0 : nat) (I : nat -> Prop) (a b : nat) (x : cid) : Prop := c_key x = key /\ c_cnt x = c0 /\ (exists i, c_ix x = Some i /\ I i) \/ c_range a b x.
Lemma box_drawn key c0 cnt i labt lab : dot_name key -> (forall v, lrun (InStr v) labt = (InStr (rev lab ++ v), [])) ->
  let w := node_name (key ++ num c0) i in let it := INode w [(k_label, lab); (k_xlabel, tagged i)] in
  draws (node_line w labt i) [it] /\ box i lab it /\ fits (w, w) it /\ good (w, w) /\ cnt <= cnt /\ tracked (own key c0 (eq i) cnt cnt) (c_own key c0 (eq i) cnt cnt) [it].
Proof.
  intros K L w it. assert (W : node_word w) by (apply node_name_word, prefix_chars; exact K).
  split; [apply dr_node; assumption|]. split; [|split; [split; reflexivity|split; [split; assumption|split; [lia|]]]].
  - exists w, [(k_label, lab); (k_xlabel, tagged i)], (tagged i). repeat split; try reflexivity. apply tagged_bracketed.
  - exists [(key, c0, i, None)], []. cbn [flat_map nodes_in clusters_in map mkn app it]. rewrite app_nil_r. repeat split; try (constructor; [|constructor]); try constructor; auto.
Qed.
Lemma p_node_drawn sub expand stack key c0 i n cnt t e c : dot_name key ->
  match expand with Some f => drawn sub f | None => sub = None end ->
  match n with NInv r => dot_name r | NReg A => pattern_fine A | _ => True end ->
  p_node expand stack (key ++ num c0) i n cnt = Some (t, e, c) ->
  exists it, draws t [it] /\ shows_node sub stack i n it /\ fits e it /\ good e /\ cnt <= c /\ tracked (own key c0 (eq i) cnt c) (c_own key c0 (eq i) cnt c) [it].
Proof.
  intros K HE HN H. unfold p_node in H. 
  assert (LQ : forall w, quiet w -> forall v, lrun (InStr v) w = (InStr (rev w ++ v), [])) by (intros w Q v; apply lrun_quiet; exact Q).
  destruct n as [|r|l|A|].
  - injection H as <- <- <-. eexists. exact (box_drawn key c0 cnt i [] [] K (fun v => eq_refl)).
  - assert (PL : Some (node_print i (node_name (key ++ num c0) i) (NInv r), node_ends (node_name (key ++ num c0) i) (NInv r), cnt) = Some (t, e, c) -> exists it, draws t [it] /\ box i r it /\ fits e it /\ good e /\ cnt <= c /\ tracked (own key c0 (eq i) cnt c) (c_own key c0 (eq i) cnt c) [it]).
    { intros E. injection E as <- <- <-. eexists. apply (box_drawn key c0 cnt i r r K). apply LQ. apply idchar_quiet, dot_name_chars. exact HN. }
    destruct expand as [f|].
    + destruct HE as (g & -> & G). destruct (existsb (eqname r) stack) eqn:X.
      * apply existsb_eqname in X. destruct (PL H) as (it & A1 & A2 & A3). exists it. split; [exact A1|]. split; [|exact A3]. cbn [shows_node]. tauto.
      * assert (X' : ~ In r stack) by (intros Y; apply existsb_eqname in Y; congruence).
        destruct (G _ _ _ _ _ _ _ H) as (it & A1 & A2 & A3 & A4 & A5 & A6). exists it. split; [exact A1|]. split; [cbn [shows_node]; tauto|]. split; [exact A3|]. split; [exact A4|]. split; [exact A5|].
        eapply tracked_more; [exact A6| |]; intros x Hx; right; exact Hx.
    + subst sub. exact (PL H).
  - injection H as <- <- <-. eexists. exact (box_drawn key c0 cnt i (txt "\@\@") [34; 34]%N K (fun v => eq_refl)).
  - injection H as <- <- <-. set (w := node_name (key ++ num c0) i). assert (W : node_word w) by (apply node_name_word, prefix_chars; exact K).
    destruct (sub_nodes i w A) as [S1 S2]. exists (sub_item i w A). split; [apply dr_pattern; [exact (proj1 W)|exact HN]|]. split; [apply sub_shows; exact HN|]. cbn [node_ends]. destruct HN as [NE _].
    assert (WS : forall s, node_word (w ++ txt "_S" ++ num s)).
    { intros s. destruct W as [W1 W2]. split; [apply dot_name_app; [exact W1|]; rewrite forallb_app, num_idchar; reflexivity|]. apply in_or_app. left. exact W2. }
    split; [|split; [split; [apply (WS 0)|apply WS]|split; [lia|]]].
    + unfold fits, entry_of, exit_of. rewrite S1. cbn [fst snd]. destruct A as [|s A]; [congruence|]. cbn [List.length]. rewrite Nat.sub_succ, Nat.sub_0_r. split; [reflexivity|].
      rewrite seq_S, map_app, rev_app_distr. reflexivity.
    + exists (map (fun s => (key, c0, i, Some s)) (seq 0 (List.length A))), [(key, c0, Some i)]. cbn [flat_map]. rewrite !app_nil_r, S1, S2, map_map. split; [reflexivity|]. split; [reflexivity|].
      split; [|split; [constructor; [intros []|constructor]|split]].
      * apply FinFun.Injective_map_NoDup; [intros a b E; injection E; auto|apply seq_NoDup].
      * apply Forall_forall. intros x Hx. apply in_map_iff in Hx as (s & <- & _). left. cbn. auto.
      * constructor; [|constructor]. left. cbn. repeat split. exists i. auto.
  - injection H as <- <- <-. eexists. exact (box_drawn key c0 cnt i (txt "[ ]") [91; 32; 93]%N K (fun v => eq_refl)).
Qed.
Lemma p_nodes_drawn sub expand stack key c0 M : forall i cnt t es c, dot_name key -> c0 < cnt ->
  match expand with Some f => drawn sub f | None => sub = None end ->
  (forall n, In n M -> match nt n with NInv r => dot_name r | NReg A => pattern_fine A | _ => True end) ->
  p_nodes expand stack (key ++ num c0) i M cnt = Some (t, es, c) ->
  exists its, draws t its /\ Forall2 (fun p nd => shows_node sub stack (fst p) (nt (snd p)) nd) (enum_from i M) its /\ Forall2 fits es its /\ Forall good es /\ cnt <= c /\
    tracked (own key c0 (le i) cnt c) (c_own key c0 (le i) cnt c) its.
Proof.
  induction M as [|n M IH]; intros i cnt t es c K C0 HE HN H; cbn [p_nodes] in H.
  - injection H as <- <- <-. exists []. split; [apply dr_nil|]. split; [constructor|]. split; [constructor|]. split; [constructor|]. split; [lia|apply tracked_nil].
  - destruct (p_node _ _ _ _ _ _) as [[[t1 e1] c1]|] eqn:E1; [|discriminate]. destruct (p_nodes _ _ _ (S i) M c1) as [[[t2 es2] c2]|] eqn:E2; [|discriminate]. injection H as <- <- <-.
    destruct (p_node_drawn _ _ _ _ _ _ _ _ _ _ _ K HE (HN n (or_introl eq_refl)) E1) as (it & A1 & A2 & A3 & A4 & A5 & A6).
    destruct (IH (S i) c1 t2 es2 c2 K ltac:(lia) HE (fun m Hm => HN m (or_intror Hm)) E2) as (its & B1 & B2 & B3 & B4 & B5 & B6).
    exists (it :: its). split; [apply (dr_app _ _ [it]); assumption|]. split; [constructor; assumption|]. split; [constructor; assumption|]. split; [constructor; assumption|]. split; [lia|].
    refine (tracked_more _ _ _ _ _ (tracked_app _ _ _ _ [it] its A6 B6 _ _) _ _).
    + intros x [(X1 & X2 & X3)|[X1 X2]] [(Y1 & Y2 & Y3)|[Y1 Y2]]; lia.
    + intros x [(X1 & X2 & j & X3 & X4)|[X1 X2]] [(Y1 & Y2 & k & Y3 & Y4)|[Y1 Y2]]; try lia. rewrite X3 in Y3. injection Y3 as ->. lia.
    + intros x [[(X1 & X2 & X3)|[X1 X2]]|[(X1 & X2 & X3)|[X1 X2]]]; [left; repeat split; auto; lia|right; split; [lia|exact X2]|left; repeat split; auto; lia|right; split; [lia|exact X2]].
    + intros x [[(X1 & X2 & j & X3 & X4)|[X1 X2]]|[(X1 & X2 & j & X3 & X4)|[X1 X2]]]; [left; repeat split; auto; exists j; split; auto; lia|right; split; [lia|exact X2]|left; repeat split; auto; exists j; split; auto; lia|right; split; [lia|exact X2]].
Qed.
Lemma p_nodes_blank expand stack prefix M : forall i cnt t es c j n, p_nodes expand stack prefix i M cnt = Some (t, es, c) -> nth_error M j = Some n -> nt n = NBlank ->
  nth_error es j = Some (node_name prefix (i + j), node_name prefix (i + j)).
Proof.
  induction M as [|m M IH]; intros i cnt t es c j n H J B; [destruct j; discriminate|]. cbn [p_nodes] in H.
  destruct (p_node _ _ _ _ _ _) as [[[t1 e1] c1]|] eqn:E1; [|discriminate]. destruct (p_nodes _ _ _ (S i) M c1) as [[[t2 es2] c2]|] eqn:E2; [|discriminate]. injection H as <- <- <-.
  destruct j as [|j]; cbn [nth_error] in J |- *.
  - injection J as ->. rewrite B in E1. injection E1 as <- <- <-. rewrite Nat.add_0_r. reflexivity.
  - rewrite (IH _ _ _ _ _ j n E2 J B). replace (S i + j) with (i + S j) by lia. reflexivity.
Qed.
Lemma p_nodes_length expand stack prefix M : forall i cnt t es c, p_nodes expand stack prefix i M cnt = Some (t, es, c) -> List.length es = List.length M.
Proof.
  induction M as [|m M IH]; intros i cnt t es c H; cbn [p_nodes] in H; [injection H as <- <- <-; reflexivity|].
  destruct (p_node _ _ _ _ _ _) as [[[t1 e1] c1]|] eqn:E1; [|discriminate]. destruct (p_nodes _ _ _ (S i) M c1) as [[[t2 es2] c2]|] eqn:E2; [|discriminate]. injection H as <- <- <-.
  cbn [List.length]. rewrite (IH _ _ _ _ _ E2). reflexivity.
Qed.
Lemma entry_app a b x : entry_of a = Some x -> hd_error (nodes_in a ++ b) = Some x.
Proof. unfold entry_of. destruct (nodes_in a); [discriminate|]. intros H. exact H. Qed.
Lemma exit_app a b x : exit_of a = Some x -> hd_error (rev (b ++ nodes_in a)) = Some x.
Proof. unfold exit_of. rewrite rev_app_distr. destruct (rev (nodes_in a)); [discriminate|]. intros H. exact H. Qed.
Lemma Forall2_nth {A B} (P : A -> B -> Prop) l r i x : Forall2 P l r -> nth_error l i = Some x -> exists y, nth_error r i = Some y /\ P x y.
Proof.
  intros F. revert i. induction F as [|a b l r H F IH]; intros i E; [destruct i; discriminate|]. destruct i as [|i]; cbn [nth_error] in *; [injection E as ->; exists b; auto|apply IH; exact E].
Qed.
Lemma Forall2_len {A B} (P : A -> B -> Prop) l r : Forall2 P l r -> List.length l = List.length r.
Proof. intros F. induction F; cbn; congruence. Qed.
Definition p_edge (es : list ends) (q : nat * (nat * nat)) : item := IEdge (snd (nth (fst q) es ([], []))) (fst (nth (fst (snd q)) es ([], []))) [(k_label, [])].
Definition step (expand : option (list (list N) -> nat -> list N -> nat -> option (list N * ends * nat))) (stack : list (list N)) (idx : nat) (key : list N) (cnt : nat) : option (list N * ends * nat) :=
  match lookup nets key with
  | None => None
  | Some (_, M) =>
    let prefix := key ++ num cnt in
    match p_nodes expand stack prefix 0 M (S cnt) with
    | None => None
    | Some (t, es, c) =>
      Some (txt "subgraph cluster_" ++ prefix ++ txt " {|" ++ t ++ each (fun i n => flat_map (p_arrow es i) (atrs n)) 0 M ++
            txt "label = @[" ++ num idx ++ txt "]" ++ key ++ txt "@;|" ++ txt "}|",
            (node_name prefix 0, node_name prefix (List.length M - 1)), c)
    end
  end.
Definition shows_step sub stack idx key (it : item) : Prop := exists id M n x nodes edges, lookup nets key = Some (id, M) /\ it = ISub n (nodes ++ edges ++ [IAttr (k_label, x ++ key)]) /\ bracketed idx x /\
    Forall2 (fun p nd => shows_node sub stack (fst p) (nt (snd p)) nd) (enum M) nodes /\
    Forall2 (fun p e => exists m k a, e = IEdge m k a /\ joined nodes (fst p) (fst (snd p)) m k /\ attribute_of k_label a = Some [])
            (flat_map (fun p => map (pair (fst p)) (atrs (snd p))) (enum M)) edges.
Lemma some3 {A B C} (a x : A) (b y : B) (c z : C) : Some (a, b, c) = Some (x, y, z) -> a = x /\ b = y /\ c = z.
Proof. intros H. injection H. auto. Qed.
Lemma step_drawn sub expand stack idx key cnt t e c : match expand with Some f => drawn sub f | None => sub = None end -> step expand stack idx key cnt = Some (t, e, c) ->
  exists it, draws t [it] /\ shows_step sub stack idx key it /\ fits e it /\ good e /\ cnt <= c /\ tracked (in_range cnt c) (c_range cnt c) [it].
Proof.
  intros HE H. unfold step in H.
  destruct (lookup nets key) as [[id M]|] eqn:L; [|discriminate]; cbv zeta in H;
    destruct (p_nodes expand stack (key ++ num cnt) 0 M (S cnt)) as [[[t1 es] c1]|] eqn:E; [|discriminate]; apply some3 in H as (<- & <- & <-).
  destruct (fine _ _ _ L) as [K ((n0 & F1 & F2) & (n1 & F3 & F4) & F5)].
  destruct (p_nodes_drawn sub expand stack key cnt M 0 (S cnt) t1 es c1 K ltac:(lia) HE (fun n Hn => proj2 (F5 n Hn)) E) as (its & B1 & B2 & B3 & B4 & B5 & B6).
  pose proof (p_nodes_blank _ _ _ _ _ _ _ _ _ _ _ E F1 F2) as X0; cbn [Nat.add] in X0.
  pose proof (p_nodes_blank _ _ _ _ _ _ _ _ _ _ _ E F3 F4) as X1; cbn [Nat.add] in X1.
  pose proof (p_nodes_length _ _ _ _ _ _ _ _ _ E) as LE.
  pose proof (Forall2_len _ _ _ B3) as LI.
  set (prefix := key ++ num cnt) in *; set (edges := map (p_edge es) (arrows atrs (enum_from 0 M))).
  assert (W : dot_name prefix) by (apply prefix_chars; exact K).
  assert (GE : forall i, i < List.length M -> good (nth i es ([], []))) by (intros i Hi; rewrite Forall_forall in B4; apply B4, nth_In; lia).
  exists (ISub (txt "cluster_" ++ prefix) (its ++ edges ++ [IAttr (k_label, tagged idx ++ key)])).
  assert (LF : Forall leafy edges) by (apply leafy_edges).
  destruct (leafy_flat _ LF) as [LF1 LF2].
  split; [|split; [|split; [|split; [|split]]]].
  1: rewrite each_enum, (flat_map_arrows atrs (p_arrow es)).
  1: replace (t1 ++ flat_map (fun q => p_arrow es (fst q) (snd q)) (arrows atrs (enum_from 0 M)) ++ txt "label = @[" ++ num idx ++ txt "]" ++ key ++ txt "@;|" ++ txt "}|")
     with ((t1 ++ flat_map (fun q => p_arrow es (fst q) (snd q)) (arrows atrs (enum_from 0 M)) ++ (txt "label = @[" ++ num idx ++ txt "]" ++ key ++ txt "@;|")) ++ txt "}|") by (rewrite <- !app_assoc; reflexivity).
  1: apply dr_cluster; [apply dot_name_chars; exact W|]; apply dr_app; [exact B1|]; apply dr_app.
  1: apply (dr_flat (fun q : nat * (nat * nat) => p_arrow es (fst q) (snd q)) (p_edge es)); intros [i q] Hq; apply arrows_in in Hq as (n & N1 & N2); cbn [fst snd]; unfold p_arrow; apply dr_plain_arrow;
    [apply (GE i); apply nth_error_Some; congruence|apply (GE (fst q)); apply nth_error_In in N1; exact (proj1 (F5 n N1) q N2)].
  1: eexists; split; [|apply si_label_semi]; unfold says; rewrite lrun_app, r_label2; cbv beta iota zeta; rewrite lrun_app, (lrun_quiet (num idx)) by apply num_quiet; cbv beta iota zeta;
     rewrite lrun_app, r_tag1; cbv beta iota zeta; rewrite lrun_app, (lrun_quiet key) by (apply idchar_quiet, dot_name_chars; exact K); cbv beta iota zeta; rewrite r_label3; cbv beta iota zeta;
     cbn [app]; unfold tagged; rewrite rev_app_distr, rev_involutive; cbn [rev]; rewrite rev_app_distr, rev_involutive; cbn [rev app]; rewrite <- ?app_assoc; reflexivity.
  1: unfold shows_step; do 6 eexists; split; [exact L|]; split; [reflexivity|]; split; [apply tagged_bracketed|]; split; [exact B2|];
    apply Forall2_map_r; intros [i q] Hq; cbn [fst snd]; apply arrows_in in Hq as (n & N1 & N2); do 3 eexists; split; [reflexivity|]; split; [|reflexivity];
    pose proof (proj1 (F5 n (nth_error_In _ _ N1)) q N2) as N3; assert (N4 : i < List.length M) by (apply nth_error_Some; congruence);
    assert (N5 : i < List.length es) by lia; assert (N6 : fst q < List.length es) by lia;
    destruct (Forall2_nth _ _ _ i _ B3 (nth_error_nth' es ([], []) N5)) as (s1 & S1 & S2);
    destruct (Forall2_nth _ _ _ (fst q) _ B3 (nth_error_nth' es ([], []) N6)) as (s2 & S3 & S4);
    exists s1, s2; split; [exact S1|]; split; [exact S3|]; split; [exact (proj2 S2)|exact (proj1 S4)].
  1: destruct (Forall2_nth _ _ _ 0 _ B3 X0) as (s1 & S1 & S2); destruct (Forall2_nth _ _ _ _ _ B3 X1) as (s2 & S3 & S4); unfold fits, entry_of, exit_of;
    rewrite nodes_sub, !flat_map_app, LF1; cbn [flat_map nodes_in app fst snd]; rewrite app_nil_r; split;
    [destruct its as [|y its]; [discriminate|]; cbn [nth_error] in S1; injection S1 as ->; cbn [flat_map]; apply entry_app; exact (proj1 S2)|
     destruct (nth_error_split _ _ S3) as (l1 & l2 & Q1 & Q2); assert (Q3 : l2 = []) by (apply length_zero_iff_nil; rewrite Q1, app_length in LI; cbn [List.length] in LI; lia);
     rewrite Q1, Q3, flat_map_app; cbn [flat_map]; rewrite app_nil_r; apply exit_app; exact (proj2 S4)].
  1: split; apply node_name_word; exact W.
  1: lia.
  destruct B6 as (ids & cids & T1 & T2 & T3 & T4 & T5 & T6); exists ids, ((key, cnt, None) :: cids); cbn [flat_map]; rewrite !app_nil_r, nodes_sub, clusters_sub, !flat_map_app, LF1, LF2;
    cbn [flat_map nodes_in clusters_in app]; rewrite !app_nil_r, T1, T2; split; [reflexivity|]; split; [reflexivity|]; split; [exact T3|]; 
    assert (KK : known key) by (exists (id, M); exact L); split; [constructor; [|exact T4]|split; [|constructor]].
  1: intros X; rewrite Forall_forall in T6; destruct (T6 _ X) as [(_ & _ & j & Y & _)|[Y _]]; [discriminate Y|cbn in Y; lia].
  1: eapply Forall_impl; [|exact T5]; intros x [(Y1 & Y2 & _)|[Y1 Y2]]; split; try lia; [rewrite Y1; exact KK|exact Y2].
  1: split; [cbn; lia|exact KK].
  1: eapply Forall_impl; [|exact T6]; intros x [(Y1 & Y2 & _)|[Y1 Y2]]; split; try lia; [rewrite Y1; exact KK|exact Y2].
Qed.
Lemma p_atn_drawn d : forall stack idx key cnt t e c, p_atn nets d stack idx key cnt = Some (t, e, c) ->
  exists it, draws t [it] /\ shows_rule nets d stack idx key it /\ fits e it /\ good e /\ cnt <= c /\ tracked (in_range cnt c) (c_range cnt c) [it].
Proof.
  induction d as [|d IH]; intros stack idx key cnt t e c H.
  - exact (step_drawn None None stack idx key cnt t e c eq_refl H).
  - exact (step_drawn (Some (shows_rule nets d)) (Some (p_atn nets d)) stack idx key cnt t e c (ex_intro _ _ (conj eq_refl IH)) H).
Qed.
End Rules.

(** ** Different nodes have different names *)
Definition isdig (c : N) : bool := (48 <=? c)%N && (c <=? 57)%N.
Definition nodig (r : list N) : Prop := match r with [] => True | c :: _ => isdig c = false end.
Lemma dig_split d1 : forall d2 r1 r2, forallb isdig d1 = true -> forallb isdig d2 = true -> nodig r1 -> nodig r2 -> d1 ++ r1 = d2 ++ r2 -> d1 = d2 /\ r1 = r2.
Proof.
  induction d1 as [|x d1 IH]; intros d2 r1 r2 H1 H2 N1 N2 E.
  - destruct d2 as [|y d2]; [auto|]. cbn [app] in E. subst r1. cbn [forallb nodig] in *. apply andb_prop in H2 as [H2 _]. congruence.
  - cbn [forallb] in H1. apply andb_prop in H1 as [H1 H1']. destruct d2 as [|y d2].
    + cbn [app] in E. subst r2. cbn [nodig] in N2. congruence.
    + cbn [app] in E. injection E as -> E. cbn [forallb] in H2. apply andb_prop in H2 as [_ H2]. destruct (IH d2 r1 r2 H1' H2 N1 N2 E) as [-> ->]. auto.
Qed.
Lemma rnum_dig i : forallb isdig (rev (num i)) = true.
Proof.
  apply forallb_forall. intros c Hc. apply in_rev in Hc. destruct (digits_spec (N.of_nat i)) as (_ & D & _). specialize (D c Hc).
  unfold isdig. apply andb_true_iff. split; apply N.leb_le; lia.
Qed.
Lemma num_inj i j : num i = num j -> i = j.
Proof. intros E. destruct (num_numeral i) as (_ & _ & A). destruct (num_numeral j) as (_ & _ & B). rewrite E in A. apply Nat2N.inj. congruence. Qed.
Lemma num_tail i j a b : nodig a -> nodig b -> rev (num i) ++ a = rev (num j) ++ b -> i = j /\ a = b.
Proof.
  intros A B E. destruct (dig_split _ _ _ _ (rnum_dig i) (rnum_dig j) A B E) as [E1 E2]. split; [|exact E2]. apply num_inj. rewrite <- (rev_involutive (num i)), E1. apply rev_involutive.
Qed.
Definition plain_end (k : list N) : Prop := (forall w d, k = w ++ [d] -> isdig d = false) /\ (forall w, k <> w ++ [95; 78]%N).
Lemma plain_nodig k : plain_end k -> nodig (rev k).
Proof.
  intros [H _]. destruct (rev k) as [|d r] eqn:E; [exact I|]. apply (H (rev r)). rewrite <- (rev_involutive k), E. reflexivity.
Qed.
Lemma rev_mkn k c i j : rev (mkn (k, c, i, j)) = (match j with Some s => rev (num s) ++ [83; 95]%N | None => [] end) ++ rev (num i) ++ [78; 95]%N ++ rev (num c) ++ rev k.
Proof.
  unfold mkn, node_name. destruct j as [s|]; rewrite ?app_nil_r, !rev_app_distr; change (rev (txt "_N")) with [78; 95]%N; change (rev (txt "_S")) with [83; 95]%N; rewrite <- ?app_assoc; reflexivity.
Qed.
Lemma mkn_inj x y : plain_end (n_key x) -> plain_end (n_key y) -> mkn x = mkn y -> x = y.
Proof.
  destruct x as [[[k c] i] j], y as [[[k' c'] i'] j']. unfold n_key. cbn [fst]. intros P P' E. apply plain_nodig in P. apply plain_nodig in P'. apply (f_equal (@rev N)) in E. rewrite !rev_mkn in E.
  assert (G : forall a b, rev (num i) ++ [78; 95]%N ++ rev (num c) ++ rev k = rev (num i') ++ [78; 95]%N ++ rev (num c') ++ rev k' -> a = b -> (k, c, i, a : option nat) = (k', c', i', b)).
  { intros a b X Y. apply num_tail in X as [X1 X2]; [|reflexivity|reflexivity]. injection X2 as X2. apply num_tail in X2 as [X2 X3]; [|exact P|exact P']. apply (f_equal (@rev N)) in X3. rewrite !rev_involutive in X3. congruence. }
  destruct j as [s|], j' as [s'|].
  - rewrite <- !app_assoc in E. apply num_tail in E as [E1 E2]; [|reflexivity|reflexivity]. injection E2 as E2. apply G; [exact E2|congruence].
  - rewrite <- !app_assoc in E. cbn [app] in E. apply num_tail in E as [E1 E2]; [discriminate|reflexivity|reflexivity].
  - rewrite <- !app_assoc in E. cbn [app] in E. apply num_tail in E as [E1 E2]; [discriminate|reflexivity|reflexivity].
  - apply G; [exact E|reflexivity].
Qed.
Lemma mkc_inj x y : plain_end (c_key x) -> plain_end (c_key y) -> mkc x = mkc y -> x = y.
Proof.
  destruct x as [[k c] j], y as [[k' c'] j']. unfold c_key. cbn [fst]. intros [P Pn] [P' Pn'] E. pose proof (plain_nodig _ (conj P Pn)) as D. pose proof (plain_nodig _ (conj P' Pn')) as D'.
  unfold mkc in E. apply app_inv_head in E. apply (f_equal (@rev N)) in E. unfold node_name in E.
  assert (U : forall (k : list N) r, rev k = [78; 95]%N ++ r -> exists w, k = w ++ [95; 78]%N) by (intros k0 r X; exists (rev r); rewrite <- (rev_involutive k0), X; cbn [app rev]; rewrite <- app_assoc; reflexivity).
  destruct j as [s|], j' as [s'|]; rewrite !rev_app_distr in E; change (rev (txt "_N")) with [78; 95]%N in E; rewrite <- ?app_assoc in E.
  - apply num_tail in E as [E1 E2]; [|reflexivity|reflexivity]. injection E2 as E2. apply num_tail in E2 as [E2 E3]; [|exact D|exact D']. apply (f_equal (@rev N)) in E3. rewrite !rev_involutive in E3. congruence.
  - apply num_tail in E as [E1 E2]; [|reflexivity|exact D']. symmetry in E2. destruct (U _ _ E2) as [w W]. destruct (Pn' w W).
  - apply num_tail in E as [E1 E2]; [|exact D|reflexivity]. destruct (U _ _ E2) as [w W]. destruct (Pn w W).
  - apply num_tail in E as [E1 E2]; [|exact D|exact D']. apply (f_equal (@rev N)) in E2. rewrite !rev_involutive in E2. congruence.
Qed.
Lemma NoDup_map_on {A B} (f : A -> B) l : (forall x y, In x l -> In y l -> f x = f y -> x = y) -> NoDup l -> NoDup (map f l).
Proof.
  intros I H. induction H as [|x l Hx H IH]; [constructor|]. cbn [map]. constructor.
  - intros Y. apply in_map_iff in Y as (y & E & Hy). apply I in E; [|right; exact Hy|left; reflexivity]. subst y. exact (Hx Hy).
  - apply IH. intros a b Ha Hb. apply I; right; assumption.
Qed.
Lemma tracked_distinct nets a b c d it : (forall k v, lookup nets k = Some v -> plain_end k) -> tracked (in_range nets a b) (c_range nets c d) [it] -> NoDup (nodes_in it) /\ NoDup (clusters_in it).
Proof.
  intros P (ids & cids & T1 & T2 & T3 & T4 & T5 & T6). cbn [flat_map] in T1, T2. rewrite app_nil_r in T1, T2. rewrite T1, T2. rewrite Forall_forall in T5, T6. split; apply NoDup_map_on; auto.
  - intros x y Hx Hy. apply mkn_inj; [destruct (T5 x Hx) as [_ [v V]]; exact (P _ v V)|destruct (T5 y Hy) as [_ [v V]]; exact (P _ v V)].
  - intros x y Hx Hy. apply mkc_inj; [destruct (T6 x Hx) as [_ [v V]]; exact (P _ v V)|destruct (T6 y Hy) as [_ [v V]]; exact (P _ v V)].
Qed.

(** ** The whole drawing *)
Lemma si_head : says_items h_plain [IAttr ([114; 97; 110; 107; 100; 105; 114], [76; 82])%N; IDefault; IDefault; IDefault].
Proof.
  change h_plain with (firstn 4 h_plain ++ firstn 7 (skipn 4 h_plain) ++ firstn 7 (skipn 11 h_plain) ++ firstn 7 (skipn 18 h_plain)).
  apply (si_app _ [_]); [|apply (si_app _ [_]); [|apply (si_app _ [_])]].
  1: set (it := IAttr _). 2-4: set (it := IDefault).
  all: apply si_by; [discriminate|]; intros F r is' r' H _; cbn [h_plain firstn skipn app]; cbn [items];
    match goal with |- context [statement1 ?l] => change (statement1 l) with (Some (it, TSym 59 :: r)) end; cbn [semicolon]; rewrite H; reflexivity.
Qed.
Lemma grammar_read name body is : dot_name name -> keyword name = false -> draws body is ->
  dot_items (head_text name false ++ body ++ txt "}|") = Some (name, IAttr ([114; 97; 110; 107; 100; 105; 114], [76; 82])%N :: IDefault :: IDefault :: IDefault :: is).
Proof.
  intros D K (t & T1 & T2). unfold dot_items, words_of.
  assert (W : says (head_text name false ++ body ++ txt "}|") ((TId w_digraph :: TId name :: TSym 123 :: h_plain) ++ t ++ [TSym 125])).
  { apply says_app; [apply (head_says name false); exact D|]. apply says_app; [exact T1|reflexivity]. }
  unfold says in W. rewrite W. cbn [app]. replace (weqb (map lower w_digraph) w_digraph) with true by reflexivity. cbn [identifier]. rewrite K.
  assert (E : items (S (List.length (h_plain ++ t ++ [TSym 125]))) (h_plain ++ t ++ [TSym 125]) = Some ((IAttr ([114; 97; 110; 107; 100; 105; 114], [76; 82])%N :: IDefault :: IDefault :: IDefault :: is) ++ [], [])).
  { pose proof (si_app _ _ _ _ si_head T2 1 [TSym 125] [] [] eq_refl) as E. rewrite <- app_assoc in E. apply (items_mono _ (S (List.length (h_plain ++ t ++ [TSym 125])))) in E; [exact E|]. rewrite !app_length. cbn [List.length]. lia. }
  rewrite E, app_nil_r. reflexivity.
Qed.

(** ** Depth *)
Section Depth.
Variable nets : list (list N * (N * atn)).
Lemma lookup_key k v : lookup nets k = Some v -> In k (map fst nets).
Proof.
  unfold lookup. destruct (find _ nets) as [p|] eqn:F; [|discriminate]. intros _. apply find_some in F as [F1 F2]. apply GrammarProofs.eqname_spec in F2. subst k. apply in_map. exact F1.
Qed.
Lemma p_nodes_ext f g stack prefix M : (forall idx r cnt, ~ In r stack -> f (r :: stack) idx r cnt = g (r :: stack) idx r cnt) ->
  forall i cnt, p_nodes (Some f) stack prefix i M cnt = p_nodes (Some g) stack prefix i M cnt.
Proof.
  intros H. induction M as [|n M IH]; intros i cnt; [reflexivity|]. cbn [p_nodes].
  replace (p_node (Some f) stack prefix i (nt n) cnt) with (p_node (Some g) stack prefix i (nt n) cnt).
  - destruct (p_node (Some g) stack prefix i (nt n) cnt) as [[[t e] c]|]; [|reflexivity]. rewrite IH. reflexivity.
  - unfold p_node. destruct (nt n) as [|r|l|A|]; try reflexivity. destruct (existsb (eqname r) stack) eqn:X; [reflexivity|]. symmetry. apply H. intros Y. apply existsb_eqname in Y. congruence.
Qed.
Lemma p_atn_deep d : forall stack idx key cnt, NoDup stack -> incl stack (map fst nets) -> List.length nets < d + List.length stack ->
  p_atn nets d stack idx key cnt = p_atn nets (S d) stack idx key cnt.
Proof.
  induction d as [|d IH]; intros stack idx key cnt ND IN LT.
  - pose proof (NoDup_incl_length ND IN) as L. rewrite map_length in L. cbn [Nat.add] in LT. lia.
  - change (p_atn nets (S d) stack idx key cnt) with (step nets (Some (p_atn nets d)) stack idx key cnt). change (p_atn nets (S (S d)) stack idx key cnt) with (step nets (Some (p_atn nets (S d))) stack idx key cnt).
    unfold step. destruct (lookup nets key) as [[id M]|]; [|reflexivity]. cbv zeta. rewrite (p_nodes_ext (p_atn nets d) (p_atn nets (S d))); [reflexivity|].
    intros idx' r cnt' Hr. destruct (lookup nets r) as [v|] eqn:L.
    + apply IH; [constructor; assumption| |cbn [List.length]; lia]. intros x [<-|Hx]; [exact (lookup_key _ _ L)|exact (IN x Hx)].
    + destruct d; cbn [p_atn]; rewrite L; reflexivity.
Qed.
Lemma p_atn_unlimited d idx key cnt : List.length nets < d -> p_atn nets d [] idx key cnt = p_atn nets (S (List.length nets)) [] idx key cnt.
Proof.
  intros H. induction H as [|d H IH]; [reflexivity|]. rewrite <- IH. symmetry. apply p_atn_deep; [constructor|intros x []|cbn [List.length]; lia].
Qed.
End Depth.
