(** * The drawings read back (proofs for Properties_Draw.v) *)
From Coq Require Import List NArith Arith ZArith Bool Lia String.
From Verif Require Import CharClass NFA DFA ATN CodeGen Lookahead Tool ToolProofs PathSpec Draw DotSpec.
Import ListNotations.
Local Open Scope nat_scope.
Local Open Scope list_scope.

Lemma lrun_app a : forall m b, lrun m (a ++ b) = let '(m1, x) := lrun m a in let '(m2, y) := lrun m1 b in (m2, x ++ y).
Proof.
  induction a as [|c a IH]; intros m b; cbn [app lrun]; [destruct (lrun m b); reflexivity|].
  destruct (lstep m c) as [m1 x]. rewrite IH. destruct (lrun m1 a) as [m2 y]. destruct (lrun m2 b) as [m3 z]. rewrite app_assoc. reflexivity.
Qed.
Definition idchar (c : N) : bool := dlet c || ddig c.
Lemma lrun_id w : forall v, forallb idchar w = true -> lrun (InId v) w = (InId (rev w ++ v), []).
Proof.
  induction w as [|c w IH]; intros v H; [reflexivity|]. cbn [forallb] in H. apply andb_prop in H as [H1 H2].
  cbn [lrun lstep]. unfold idchar in H1. rewrite H1. rewrite IH by exact H2. cbn [rev]. rewrite <- app_assoc. reflexivity.
Qed.
Lemma num_idchar i : forallb idchar (num i) = true.
Proof.
  apply forallb_forall. intros c Hc. unfold num in Hc. destruct (digits_spec (N.of_nat i)) as (_ & D & _). specialize (D c Hc).
  unfold idchar, ddig. apply orb_true_iff. right. apply andb_true_iff. split; apply N.leb_le; lia.
Qed.
(** Text that stands in a string as it is. *)
Definition quiet (w : list N) : Prop := forall c, In c w -> c <> 34%N /\ c <> 92%N.
Lemma lrun_quiet w : forall v, quiet w -> lrun (InStr v) w = (InStr (rev w ++ v), []).
Proof.
  induction w as [|c w IH]; intros v H; [reflexivity|]. destruct (H c (or_introl eq_refl)) as [A B].
  cbn [lrun lstep]. rewrite (proj2 (N.eqb_neq _ _) A), (proj2 (N.eqb_neq _ _) B). rewrite IH by (intros x Hx; apply H; right; exact Hx).
  cbn [rev]. rewrite <- app_assoc. reflexivity.
Qed.
Lemma num_quiet i : quiet (num i).
Proof. intros c Hc. destruct (digits_spec (N.of_nat i)) as (_ & D & _). specialize (D c Hc). lia. Qed.
Lemma quiet_app a b : quiet a -> quiet b -> quiet (a ++ b).
Proof. intros A B c Hc. apply in_app_iff in Hc as [H|H]; auto. Qed.
Lemma quiet_cons c a : c <> 34%N -> c <> 92%N -> quiet a -> quiet (c :: a).
Proof. intros A B Q x [<-|H]; auto. Qed.
Lemma index_quiet v : quiet (index_text v).
Proof.
  unfold index_text. apply quiet_cons; [discriminate|discriminate|]. apply quiet_app; [|apply quiet_cons; [discriminate|discriminate|intros ? []]].
  induction v as [|x v IH]; [intros ? []|]. destruct v as [|y v]; [apply num_quiet|].
  change (index_text' (x :: y :: v)) with (num x ++ 44%N :: index_text' (y :: v)). apply quiet_app; [apply num_quiet|]. apply quiet_cons; [discriminate|discriminate|exact IH].
Qed.

(** Labels of arrows, without the backslashes before quotation marks. *)
Definition char_label (c : N) : list N :=
  if isgraph c then (if c =? 92 then [92; 92] else [c])%N else (92 :: 92 :: 120 :: hex c)%N.
Definition class_label (cc : cclass) : list N :=
  match cc with
  | [] => []
  | _ => 91%N :: flat_map (fun r => if (re r =? rs r + 1)%N then char_label (rs r)
                                    else char_label (rs r) ++ 45%N :: char_label ((re r + 255) mod 256)%N) cc ++ [93%N]
  end.
Lemma hexd_ok d : (d < 16)%N -> (48 <= hexd d <= 57 \/ 65 <= hexd d <= 70)%N /\ hexval (hexd d) = d.
Proof.
  intros H. unfold hexd, hexval. destruct (N.ltb_spec d 10).
  - split; [lia|]. destruct (N.leb_spec (48 + d) 57); lia.
  - split; [lia|]. destruct (N.leb_spec (55 + d) 57); lia.
Qed.
Lemma hex_spec c : (c < 256)%N -> hexadecimal (hex c) c.
Proof.
  intros H. unfold hex, hexadecimal. destruct (N.ltb_spec c 16).
  - destruct (hexd_ok c) as [A B]; [lia|]. split; [discriminate|]. split; [intros x [<-|[]]; exact A|]. cbn [fold_left]. lia.
  - destruct (hexd_ok (c / 16)%N) as [A B]; [apply N.div_lt_upper_bound; lia|]. destruct (hexd_ok (c mod 16)%N) as [A' B']; [apply N.mod_lt; lia|].
    split; [discriminate|]. split; [intros x [<-|[<-|[]]]; assumption|]. cbn [fold_left]. rewrite B, B'. pose proof (N.div_mod c 16). lia.
Qed.
Lemma hex_quiet c : (c < 256)%N -> quiet (hex c).
Proof. intros H x Hx. destruct (hex_spec c H) as (_ & A & _). specialize (A x Hx). lia. Qed.
Lemma lrun_char c v : (c < 256)%N -> lrun (InStr v) (printc c) = (InStr (rev (char_label c) ++ v), []).
Proof.
  intros H. unfold printc, char_label. destruct (isgraph c).
  - destruct (N.eqb_spec c 34) as [->|A]; [reflexivity|]. destruct (N.eqb_spec c 92) as [->|B]; [reflexivity|].
    apply (lrun_quiet [c]). apply quiet_cons; [exact A|exact B|intros ? []].
  - change (92%N :: 92%N :: 120%N :: hex c) with ([92%N; 92%N; 120%N] ++ hex c). rewrite lrun_app. cbn [lrun lstep N.eqb Pos.eqb app].
    rewrite lrun_quiet by (apply hex_quiet; exact H). cbn [rev]. rewrite <- !app_assoc. reflexivity.
Qed.
Definition bytes (cc : cclass) : Prop := forall r, In r cc -> (rs r < 256 /\ 0 < re r <= 256)%N.
Lemma re_last r : (0 < re r <= 256)%N -> ((re r + 255) mod 256 = re r - 1)%N.
Proof. intros H. replace (re r + 255)%N with (re r - 1 + 1 * 256)%N by lia. rewrite N.mod_add by discriminate. apply N.mod_small. lia. Qed.
Lemma lrun_class cc v : bytes cc -> lrun (InStr v) (class_text cc) = (InStr (rev (class_label cc) ++ v), []).
Proof.
  intros B. unfold class_text, class_label. destruct cc as [|r0 cc0]; [reflexivity|]. set (cc := r0 :: cc0) in *. clearbody cc. clear r0 cc0.
  cbn [lrun lstep N.eqb Pos.eqb]. rewrite lrun_app.
  assert (R : forall v, lrun (InStr v) (flat_map (fun r => if (re r =? rs r + 1)%N then printc (rs r) else printc (rs r) ++ 45%N :: printc ((re r + 255) mod 256)%N) cc)
    = (InStr (rev (flat_map (fun r => if (re r =? rs r + 1)%N then char_label (rs r) else char_label (rs r) ++ 45%N :: char_label ((re r + 255) mod 256)%N) cc) ++ v), [])).
  { induction cc as [|r cc IH]; intros v'; [reflexivity|]. cbn [flat_map]. rewrite lrun_app.
    assert (E : lrun (InStr v') (if (re r =? rs r + 1)%N then printc (rs r) else printc (rs r) ++ 45%N :: printc ((re r + 255) mod 256)%N)
      = (InStr (rev (if (re r =? rs r + 1)%N then char_label (rs r) else char_label (rs r) ++ 45%N :: char_label ((re r + 255) mod 256)%N) ++ v'), [])).
    { destruct (B r (or_introl eq_refl)) as [B1 B2]. destruct (re r =? rs r + 1)%N; [apply lrun_char; exact B1|].
      rewrite lrun_app, lrun_char by exact B1. cbn [lrun lstep N.eqb Pos.eqb]. rewrite lrun_char by (apply N.mod_lt; discriminate).
      cbn [app]. rewrite rev_app_distr. cbn [rev]. rewrite <- !app_assoc. reflexivity. }
    rewrite E. rewrite IH by (intros x Hx; apply B; right; exact Hx). rewrite rev_app_distr, <- app_assoc. reflexivity. }
  rewrite R. cbn [lrun lstep N.eqb Pos.eqb app]. cbn [rev]. rewrite rev_app_distr. cbn [rev app]. rewrite <- app_assoc. reflexivity.
Qed.

(** Labels show the classes. *)
Lemma rendered_app a b x y : rendered a = Some x -> rendered b = Some y -> rendered (a ++ b) = Some (x ++ y).
Proof.
  revert x. assert (G : forall n a x, List.length a <= n -> rendered a = Some x -> rendered b = Some y -> rendered (a ++ b) = Some (x ++ y)).
  { induction n as [|n IH]; intros l x Hn H1 H2.
    - destruct l; [|cbn in Hn; lia]. injection H1 as <-. exact H2.
    - destruct l as [|c l]; [injection H1 as <-; exact H2|]. cbn [rendered app] in *. destruct (c =? 92)%N.
      + destruct l as [|d l]; [discriminate|]. cbn [app]. destruct (d =? 92)%N; [|discriminate]. destruct (rendered l) as [z|] eqn:E; [|discriminate].
        injection H1 as <-. rewrite (IH l z); [reflexivity|cbn [List.length] in Hn; lia|exact E|exact H2].
      + destruct (rendered l) as [z|] eqn:E; [|discriminate]. injection H1 as <-. rewrite (IH l z); [reflexivity|cbn [List.length] in Hn; lia|exact E|exact H2]. }
  intros x. apply (G (List.length a) a x). lia.
Qed.
Lemma rendered_quiet w : quiet w -> rendered w = Some w.
Proof.
  induction w as [|c w IH]; intros Q; [reflexivity|]. cbn [rendered]. destruct (Q c (or_introl eq_refl)) as [_ B].
  rewrite (proj2 (N.eqb_neq _ _) B). rewrite IH by (intros x Hx; apply Q; right; exact Hx). reflexivity.
Qed.
Lemma rendered_char c : (c < 256)%N -> exists w, rendered (char_label c) = Some w /\ shows_char c w.
Proof.
  intros H. unfold char_label, isgraph. destruct ((33 <=? c) && (c <=? 126))%N eqn:G.
  - apply andb_prop in G as [G1 G2]. apply N.leb_le in G1. apply N.leb_le in G2. exists [c]. split; [|left; auto].
    destruct (N.eqb_spec c 92) as [->|A]; [reflexivity|]. cbn [rendered]. rewrite (proj2 (N.eqb_neq _ _) A). reflexivity.
  - exists (92%N :: 120%N :: hex c). split.
    + cbn [rendered N.eqb Pos.eqb]. rewrite rendered_quiet by (apply hex_quiet; exact H). reflexivity.
    + right. split; [|exists (hex c); split; [apply hex_spec; exact H|reflexivity]]. intros [A B]. rewrite (proj2 (N.leb_le _ _) A), (proj2 (N.leb_le _ _) B) in G. discriminate.
Qed.
Lemma rendered_class cc : bytes cc -> exists w, rendered (class_label cc) = Some w /\ shows_class cc w.
Proof.
  intros B. unfold class_label. destruct cc as [|r0 cc0]; [exists []; split; [reflexivity|left; auto]|]. set (cc := r0 :: cc0) in *.
  assert (NE : cc <> []) by discriminate. clearbody cc. clear r0 cc0.
  assert (R : exists l, rendered (flat_map (fun r => if (re r =? rs r + 1)%N then char_label (rs r) else char_label (rs r) ++ 45%N :: char_label ((re r + 255) mod 256)%N) cc) = Some (List.concat l) /\ Forall2 shows_range cc l).
  { clear NE. induction cc as [|r cc IH]; [exists []; split; [reflexivity|constructor]|].
    destruct IH as (l & E & F); [intros x Hx; apply B; right; exact Hx|]. destruct (B r (or_introl eq_refl)) as [B1 B2]. cbn [flat_map].
    destruct (rendered_char (rs r) B1) as (w & W1 & W2). destruct (N.eqb_spec (re r) (rs r + 1)) as [A|A].
    - exists (w :: l). split; [apply rendered_app; assumption|]. constructor; [left; auto|exact F].
    - rewrite re_last by exact B2. destruct (rendered_char (re r - 1)%N) as (u & U1 & U2); [lia|]. exists ((w ++ 45%N :: u) :: l). split.
      + cbn [List.concat]. apply rendered_app; [|exact E]. apply rendered_app; [exact W1|]. cbn [rendered N.eqb Pos.eqb]. rewrite U1. reflexivity.
      + constructor; [|exact F]. right. split; [exact A|]. exists w, u. auto. }
  destruct R as (l & E & F). exists (91%N :: List.concat l ++ [93%N]). split; [|right; split; [exact NE|exists l; auto]].
  cbn [rendered N.eqb Pos.eqb]. rewrite (rendered_app _ [93%N] (List.concat l) [93%N] E); reflexivity.
Qed.

(** ** Words of the lines *)
Definition says (s : list N) (t : list tok) : Prop := lrun Idle s = (Idle, t).
Lemma says_app a b x y : says a x -> says b y -> says (a ++ b) (x ++ y).
Proof. unfold says. intros A B. rewrite lrun_app, A, B. reflexivity. Qed.
Lemma says_nil : says [] [].
Proof. reflexivity. Qed.
Lemma says_flat {A} (f : A -> list N) (g : A -> list tok) l : (forall x, In x l -> says (f x) (g x)) -> says (flat_map f l) (flat_map g l).
Proof.
  induction l as [|x l IH]; intros H; [apply says_nil|]. cbn [flat_map]. apply says_app; [apply H; left; reflexivity|apply IH; intros y Hy; apply H; right; exact Hy].
Qed.
Fixpoint eacht {A B} (f : nat -> A -> list B) (i : nat) (l : list A) : list B :=
  match l with [] => [] | x :: l' => f i x ++ eacht f (S i) l' end.
Lemma says_each {A} (f : nat -> A -> list N) (g : nat -> A -> list tok) l : forall i,
  (forall j x, In x l -> says (f j x) (g j x)) -> says (each f i l) (eacht g i l).
Proof.
  induction l as [|x l IH]; intros i H; [apply says_nil|]. cbn [each eacht]. apply says_app; [apply H; left; reflexivity|apply IH; intros j y Hy; apply H; right; exact Hy].
Qed.

Definition t_arrows : list N := txt "arrowsize".
Lemma r_S : lrun Idle (txt "S") = (InId [83%N], []). Proof. reflexivity. Qed.
Lemma r_A : lrun Idle (txt "A") = (InId [65%N], []). Proof. reflexivity. Qed.
Lemma r_N : lrun Idle (txt "N") = (InId [78%N], []). Proof. reflexivity. Qed.
Lemma r_label w : lrun (InId w) (txt " [ label=@") = (InStr [], [TId (rev w); TSym 91; TId k_label; TSym 61]). Proof. reflexivity. Qed.
Lemma r_arrow w : lrun (InId w) (txt " -> ") = (Idle, [TId (rev w); TArrow]). Proof. reflexivity. Qed.
Lemma r_arrowS w : lrun (InId w) (txt " -> S") = (InId [83%N], [TId (rev w); TArrow]). Proof. reflexivity. Qed.
Lemma r_arrowN w : lrun (InId w) (txt " -> N") = (InId [78%N], [TId (rev w); TArrow]). Proof. reflexivity. Qed.
Lemma r_close w : lrun (InStr w) (txt "@ ];|") = (Idle, [TStr (rev w); TSym 93; TSym 59]). Proof. reflexivity. Qed.
Lemma r_long w : lrun (InStr w) (txt "@, penwidth=3, arrowsize=3 ];|")
  = (Idle, [TStr (rev w); TSym 44; TId k_penwidth; TSym 61; TNum [51%N]; TSym 44; TId t_arrows; TSym 61; TNum [51%N]; TSym 93; TSym 59]). Proof. reflexivity. Qed.
Lemma r_circle w : lrun (InStr w) (txt "@, shape=circle ];|")
  = (Idle, [TStr (rev w); TSym 44; TId k_shape; TSym 61; TId v_circle; TSym 93; TSym 59]). Proof. reflexivity. Qed.
Lemma r_double w : lrun (InStr w) (txt "@, shape=doublecircle ];|")
  = (Idle, [TStr (rev w); TSym 44; TId k_shape; TSym 61; TId v_doublecircle; TSym 93; TSym 59]). Proof. reflexivity. Qed.
Lemma r_circle0 w : lrun (InStr w) (txt "@, shape=circle") = (InId (rev v_circle), [TStr (rev w); TSym 44; TId k_shape; TSym 61]). Proof. reflexivity. Qed.
Lemma r_double0 w : lrun (InStr w) (txt "@, shape=doublecircle") = (InId (rev v_doublecircle), [TStr (rev w); TSym 44; TId k_shape; TSym 61]). Proof. reflexivity. Qed.
Lemma r_pen w : lrun (InId w) (txt ", penwidth=2 ];|") = (Idle, [TId (rev w); TSym 44; TId k_penwidth; TSym 61; TNum [50%N]; TSym 93; TSym 59]). Proof. reflexivity. Qed.
Lemma r_end w : lrun (InId w) (txt " ];|") = (Idle, [TId (rev w); TSym 93; TSym 59]). Proof. reflexivity. Qed.
Lemma r_tag w : lrun (InStr w) (txt ":[") = (InStr (91%N :: 58%N :: w), []). Proof. reflexivity. Qed.
Lemma r_tag1 w : lrun (InStr w) (txt "]") = (InStr (93%N :: w), []). Proof. reflexivity. Qed.
Lemma r_digraph : lrun Idle (txt "digraph ") = (Idle, [TId w_digraph]). Proof. reflexivity. Qed.

Definition n_state (letter : N) (i : nat) : tok := TId (letter :: num i).
Definition node_toks (nd : tok) (lab : list N) (shape : list N) : list tok :=
  [nd; TSym 91; TId k_label; TSym 61; TStr lab; TSym 44; TId k_shape; TSym 61; TId shape; TSym 93; TSym 59].
Ltac lx0 := unfold says; repeat first
  [ rewrite lrun_app
  | rewrite r_S | rewrite r_A | rewrite r_N | rewrite r_label | rewrite r_arrow | rewrite r_arrowS | rewrite r_arrowN | rewrite r_close | rewrite r_long
  | rewrite r_circle | rewrite r_double | rewrite r_circle0 | rewrite r_double0 | rewrite r_pen | rewrite r_end | rewrite r_tag | rewrite r_tag1
  | rewrite lrun_id by apply num_idchar | rewrite lrun_quiet by first [apply num_quiet | apply index_quiet] | rewrite lrun_class by assumption
  | progress (cbv beta iota zeta) ].
Ltac lx := lx0; rewrite ?rev_app_distr, ?rev_involutive, ?app_nil_r; cbn [app]; rewrite ?rev_involutive; cbn [rev app]; rewrite ?rev_app_distr, ?rev_involutive; cbn [rev app].
Lemma state_says i : says (state_line i) (node_toks (n_state 83 i) (num i) v_circle).
Proof. unfold state_line. lx. reflexivity. Qed.
Lemma color_says i : says (color_line i) (node_toks (n_state 65 i) (num i) v_doublecircle).
Proof. unfold color_line. lx. reflexivity. Qed.
Definition long_toks : list tok := [TSym 44; TId k_penwidth; TSym 61; TNum [51%N]; TSym 44; TId t_arrows; TSym 61; TNum [51%N]].
Definition arrow_toks (a b : tok) (lab : list N) (rest : list tok) : list tok :=
  [a; TArrow; b; TSym 91; TId k_label; TSym 61; TStr lab] ++ rest ++ [TSym 93; TSym 59].
Lemma nfa_arrow_says i t : bytes (tlab t) ->
  says (nfa_arrow i t) (arrow_toks (n_state 83 i) (n_state 83 (tdest t)) (class_label (tlab t)) (if tlong t then long_toks else [])).
Proof. intros B. unfold nfa_arrow. destruct (tlong t); lx; reflexivity. Qed.
Lemma dfa_arrow_says i t : bytes (tlab t) ->
  says (dfa_arrow i t) (arrow_toks (n_state 83 i) (n_state 83 (tdest t)) (class_label (tlab t)) []).
Proof. intros B. unfold dfa_arrow. lx; reflexivity. Qed.
Definition dfa_toks (i : nat) (s : dstate) : list tok :=
  [n_state 83 i; TSym 91; TId k_label; TSym 61; TStr (index_text (dlab s)); TSym 44; TId k_shape; TSym 61; TId (if dacc s then v_doublecircle else v_circle)] ++
  (if dlong s then [TSym 44; TId k_penwidth; TSym 61; TNum [50%N]] else []) ++ [TSym 93; TSym 59].
Lemma dfa_line_says i s : says (dfa_line i s) (dfa_toks i s).
Proof. unfold dfa_line, dfa_toks. destruct (dacc s), (dlong s); lx; reflexivity. Qed.
Definition l_target (z : Z) : tok := if (z <? 0)%Z then n_state 65 (Z.to_nat (- z)) else n_state 83 (Z.to_nat z).
Lemma ldfa_arrow_says i t : bytes (fst t) ->
  says (ldfa_arrow i t) (arrow_toks (n_state 83 i) (l_target (snd t)) (class_label (fst t)) []).
Proof. intros B. unfold ldfa_arrow, l_target. destruct (snd t <? 0)%Z; lx; reflexivity. Qed.
Lemma SS_says : says (txt "SS [ style=@invisible@ ];|") [TId [83; 83]%N; TSym 91; TId k_style; TSym 61; TStr v_invisible; TSym 93; TSym 59].
Proof. reflexivity. Qed.
Lemma SS0_says : says (txt "SS -> S0;|") [TId [83; 83]%N; TArrow; TId [83; 48]%N; TSym 59].
Proof. reflexivity. Qed.

(** ** Names of graphs: a letter or an underscore, then letters, digits, underscores; no keyword. *)
Definition dot_name (w : list N) : Prop :=
  exists c v, w = c :: v /\ dlet c = true /\ forallb idchar v = true.
Definition h_filled : list tok := Eval vm_compute in
  snd (lrun Idle (txt "rankdir=@LR@;|" ++ txt "graph [ charset=@UTF-8@, style=@filled@ ];|" ++ txt "node [ style=@solid,filled@ ];|edge [ style=@solid@ ];|")).
Definition h_plain : list tok := Eval vm_compute in
  snd (lrun Idle (txt "rankdir=@LR@;|" ++ txt "graph [ charset=@UTF-8@ ];|" ++ txt "node [ style=@solid,filled@ ];|edge [ style=@solid@ ];|")).
Lemma r_head (b : bool) w : lrun (InId w) (txt " {|rankdir=@LR@;|" ++
  (if b then txt "graph [ charset=@UTF-8@, style=@filled@ ];|" else txt "graph [ charset=@UTF-8@ ];|") ++ txt "node [ style=@solid,filled@ ];|edge [ style=@solid@ ];|")
  = (Idle, TId (rev w) :: TSym 123 :: if b then h_filled else h_plain).
Proof. destruct b; reflexivity. Qed.
Lemma head_says name b : dot_name name -> says (head_text name b) (TId w_digraph :: TId name :: TSym 123 :: if b then h_filled else h_plain).
Proof.
  intros (c & v & -> & C & V). unfold head_text, says. rewrite lrun_app, r_digraph. cbv beta iota zeta.
  change ((c :: v) ++ txt " {|rankdir=@LR@;|" ++ (if b then txt "graph [ charset=@UTF-8@, style=@filled@ ];|" else txt "graph [ charset=@UTF-8@ ];|") ++ txt "node [ style=@solid,filled@ ];|edge [ style=@solid@ ];|")
    with (c :: (v ++ txt " {|rankdir=@LR@;|" ++ (if b then txt "graph [ charset=@UTF-8@, style=@filled@ ];|" else txt "graph [ charset=@UTF-8@ ];|") ++ txt "node [ style=@solid,filled@ ];|edge [ style=@solid@ ];|")).
  assert (E : lstep Idle c = (InId [c], [])).
  { cbn [lstep]. unfold lidle. replace (dspace c) with false; [rewrite C; reflexivity|]. symmetry. unfold dspace. unfold dlet in C.
    destruct (N.eqb_spec c 32) as [->|]; [discriminate|]. destruct (N.eqb_spec c 9) as [->|]; [discriminate|]. destruct (N.eqb_spec c 10) as [->|]; [discriminate|]. destruct (N.eqb_spec c 13) as [->|]; [discriminate|]. reflexivity. }
  cbn [lrun]. rewrite E. cbv beta iota zeta. rewrite lrun_app, lrun_id by exact V. cbv beta iota zeta. rewrite r_head. cbn [app]. rewrite rev_app_distr, rev_involutive. reflexivity.
Qed.

(** ** Statements *)
Definition semi (t : tok) : bool := match t with TSym 59 => true | _ => false end.
Definition stm (t : list tok) (s : statement) : Prop :=
  exists l, t = l ++ [TSym 59] /\ forallb (fun x => negb (semi x)) l = true /\ statement_of l = Some s.
Inductive stms : list tok -> list statement -> Prop :=
| ss_nil : stms [] []
| ss_cons t s u r : stm t s -> stms u r -> stms (t ++ u) (s :: r).
Lemma stms_app t a u b : stms t a -> stms u b -> stms (t ++ u) (a ++ b).
Proof. intros A B. induction A; [exact B|]. rewrite <- app_assoc. cbn [app]. constructor; assumption. Qed.
Lemma stms_one t s : stm t s -> stms t [s].
Proof. intros H. rewrite <- (app_nil_r t). constructor; [exact H|constructor]. Qed.
Lemma split_cons t l : semi t = false -> split_at (t :: l) = let '(a, b) := split_at l in match a with [] => ([], t :: b) | x :: a' => ((t :: x) :: a', b) end.
Proof. intros H. destruct t as [w|w|w| |c]; try reflexivity. cbn [split_at]. destruct c as [|p]; [reflexivity|]. do 6 (destruct p as [p|p|]; try reflexivity). discriminate. Qed.
Lemma split_stm l u : forallb (fun x => negb (semi x)) l = true -> split_at ((l ++ [TSym 59]) ++ u) = let '(a, b) := split_at u in (l :: a, b).
Proof.
  induction l as [|t l IH]; intros H.
  - cbn [app split_at]. reflexivity.
  - cbn [forallb] in H. apply andb_prop in H as [H1 H2]. apply negb_true_iff in H1. cbn [app]. rewrite split_cons by exact H1.
    rewrite IH by exact H2. destruct (split_at u) as [a b]. reflexivity.
Qed.
Lemma split_stms t ss : stms t ss -> exists b, split_at (t ++ [TSym 125]) = (b, [TSym 125]) /\ all_of statement_of b = Some ss.
Proof.
  intros H. induction H as [|t s u r (l & -> & F & E) H (b & B1 & B2)]; [exists []; split; reflexivity|].
  exists (l :: b). rewrite <- (app_assoc _ u). rewrite split_stm by exact F. rewrite B1. split; [reflexivity|]. cbn [all_of]. rewrite E, B2. reflexivity.
Qed.
Definition nodes_of (ss : list statement) := flat_map (fun s => match s with SNode x a => [(x, a)] | _ => [] end) ss.
Definition edges_of (ss : list statement) := flat_map (fun s => match s with SEdge x y a => [(x, y, a)] | _ => [] end) ss.
Lemma stm_by l s : forallb (fun x => negb (semi x)) l = true -> statement_of l = Some s -> stm (l ++ [TSym 59]) s.
Proof. intros A B. exists l. auto. Qed.
Lemma h_stms (b : bool) : stms (if b then h_filled else h_plain) [SGraph ([114; 97; 110; 107; 100; 105; 114], [76; 82])%N; SDefault; SDefault; SDefault].
Proof.
  destruct b.
  - change h_filled with ((firstn 3 h_filled ++ [TSym 59]) ++ (firstn 10 (skipn 4 h_filled) ++ [TSym 59]) ++ (firstn 6 (skipn 15 h_filled) ++ [TSym 59]) ++ (firstn 6 (skipn 22 h_filled) ++ [TSym 59]) ++ []).
    constructor; [apply stm_by; reflexivity|]. constructor; [apply stm_by; reflexivity|]. constructor; [apply stm_by; reflexivity|]. constructor; [apply stm_by; reflexivity|]. constructor.
  - change h_plain with ((firstn 3 h_plain ++ [TSym 59]) ++ (firstn 6 (skipn 4 h_plain) ++ [TSym 59]) ++ (firstn 6 (skipn 11 h_plain) ++ [TSym 59]) ++ (firstn 6 (skipn 18 h_plain) ++ [TSym 59]) ++ []).
    constructor; [apply stm_by; reflexivity|]. constructor; [apply stm_by; reflexivity|]. constructor; [apply stm_by; reflexivity|]. constructor; [apply stm_by; reflexivity|]. constructor.
Qed.
Lemma read_drawing name b body t ss : dot_name name -> keyword name = false -> says body t -> stms t ss ->
  dot_read (head_text name b ++ body ++ txt "}|") = Some (mkGraph name (nodes_of ss) (edges_of ss)).
Proof.
  intros D K S T. unfold dot_read, words_of.
  assert (W : says (head_text name b ++ body ++ txt "}|") (TId w_digraph :: TId name :: TSym 123 :: ((if b then h_filled else h_plain) ++ t) ++ [TSym 125])).
  { rewrite <- app_assoc. change (TId w_digraph :: TId name :: TSym 123 :: (if b then h_filled else h_plain) ++ t ++ [TSym 125])
      with ((TId w_digraph :: TId name :: TSym 123 :: if b then h_filled else h_plain) ++ t ++ [TSym 125]).
    apply says_app; [apply head_says; exact D|]. apply says_app; [exact S|reflexivity]. }
  unfold says in W. rewrite W. replace (weqb (map lower w_digraph) w_digraph) with true by reflexivity. cbn [identifier]. rewrite K.
  destruct (split_stms _ _ (stms_app _ _ _ _ (h_stms b) T)) as (bl & B1 & B2). rewrite B1, B2. reflexivity.
Qed.

(** ** From lines to statements *)
Lemma num_head i : exists d r, num i = d :: r /\ (48 <= d <= 57)%N.
Proof.
  destruct (digits_spec (N.of_nat i)) as (A & D & _). unfold num. destruct (digits (N.of_nat i)) as [|d r]; [congruence|]. exists d, r. split; [reflexivity|]. apply D. left. reflexivity.
Qed.
Lemma num_word letter i x y k : (57 < y)%N -> weqb (map lower (letter :: num i)) (x :: y :: k) = false.
Proof.
  intros Y. destruct (num_head i) as (d & r & -> & D). cbn [map weqb]. replace (lower d) with d.
  - rewrite (proj2 (N.eqb_neq d y)) by lia. rewrite andb_comm. reflexivity.
  - unfold lower. replace (65 <=? d)%N with false; [reflexivity|]. symmetry. apply N.leb_gt. lia.
Qed.
Lemma num_keyword letter i : keyword (letter :: num i) = false.
Proof. unfold keyword. cbn [existsb]. unfold w_digraph, w_graph, w_node, w_edge, w_subgraph, w_strict. rewrite !num_word by reflexivity. reflexivity. Qed.
Lemma num_default letter i : existsb (weqb (map lower (letter :: num i))) [w_graph; w_node; w_edge] = false.
Proof. cbn [existsb]. unfold w_digraph, w_graph, w_node, w_edge, w_subgraph, w_strict. rewrite !num_word by reflexivity. reflexivity. Qed.
Lemma num_identifier letter i : identifier (n_state letter i) = Some (letter :: num i).
Proof. unfold identifier, n_state. rewrite num_keyword. reflexivity. Qed.
Lemma node_stm letter i lab shape : identifier (TId shape) = Some shape ->
  stm (node_toks (n_state letter i) lab shape) (SNode (letter :: num i) [(k_label, lab); (k_shape, shape)]).
Proof.
  intros E. exists [n_state letter i; TSym 91; TId k_label; TSym 61; TStr lab; TSym 44; TId k_shape; TSym 61; TId shape; TSym 93]. split; [reflexivity|]. split; [reflexivity|].
  unfold n_state, statement_of. rewrite num_default. fold (n_state letter i). rewrite num_identifier. cbn [attributes]. rewrite E. reflexivity.
Qed.
Lemma arrow_stm a b x y lab : identifier a = Some x -> identifier b = Some y ->
  semi a = false -> semi b = false -> stm (arrow_toks a b lab []) (SEdge x y [(k_label, lab)]).
Proof.
  intros A B SA SB. exists [a; TArrow; b; TSym 91; TId k_label; TSym 61; TStr lab; TSym 93]. split; [reflexivity|]. split; [cbn [forallb]; rewrite SA, SB; reflexivity|].
  unfold statement_of. destruct a; try discriminate; rewrite A, B; reflexivity.
Qed.
Lemma arrow_long_stm a b x y lab : identifier a = Some x -> identifier b = Some y ->
  semi a = false -> semi b = false -> stm (arrow_toks a b lab long_toks) (SEdge x y [(k_label, lab); (k_penwidth, [51%N]); (t_arrows, [51%N])]).
Proof.
  intros A B SA SB. exists ([a; TArrow; b; TSym 91; TId k_label; TSym 61; TStr lab] ++ long_toks ++ [TSym 93]). split; [reflexivity|]. split; [cbn [forallb app]; rewrite SA, SB; reflexivity|].
  unfold statement_of. destruct a; try discriminate; cbn [app]; rewrite A, B; reflexivity.
Qed.
Definition nfa_edge (i : nat) (t : ntr) : statement :=
  SEdge (83%N :: num i) (83%N :: num (tdest t)) ((k_label, class_label (tlab t)) :: if tlong t then [(k_penwidth, [51%N]); (t_arrows, [51%N])] else []).
Lemma nfa_arrow_stm i t : stm (arrow_toks (n_state 83 i) (n_state 83 (tdest t)) (class_label (tlab t)) (if tlong t then long_toks else [])) (nfa_edge i t).
Proof. unfold nfa_edge. destruct (tlong t); [apply arrow_long_stm|apply arrow_stm]; try reflexivity; apply num_identifier. Qed.
Definition dfa_edge (i : nat) (t : ntr) : statement := SEdge (83%N :: num i) (83%N :: num (tdest t)) [(k_label, class_label (tlab t))].
Lemma dfa_arrow_stm i t : stm (arrow_toks (n_state 83 i) (n_state 83 (tdest t)) (class_label (tlab t)) []) (dfa_edge i t).
Proof. apply arrow_stm; try reflexivity; apply num_identifier. Qed.
Definition l_word (z : Z) : list N := if (z <? 0)%Z then 65%N :: num (Z.to_nat (- z)) else 83%N :: num (Z.to_nat z).
Definition ldfa_edge (i : nat) (t : cclass * Z) : statement := SEdge (83%N :: num i) (l_word (snd t)) [(k_label, class_label (fst t))].
Lemma ldfa_arrow_stm i t : stm (arrow_toks (n_state 83 i) (l_target (snd t)) (class_label (fst t)) []) (ldfa_edge i t).
Proof. unfold ldfa_edge, l_target, l_word. destruct (snd t <? 0)%Z; apply arrow_stm; try reflexivity; apply num_identifier. Qed.
Definition dfa_node (i : nat) (s : dstate) : statement :=
  SNode (83%N :: num i) ([(k_label, index_text (dlab s)); (k_shape, if dacc s then v_doublecircle else v_circle)] ++ if dlong s then [(k_penwidth, [50%N])] else []).
Lemma dfa_line_stm i s : stm (dfa_toks i s) (dfa_node i s).
Proof.
  exists (removelast (dfa_toks i s)). unfold dfa_toks, dfa_node. destruct (dlong s), (dacc s); (split; [reflexivity|]; split; [reflexivity|]);
    cbn [app removelast]; unfold n_state, statement_of; rewrite num_default; fold (n_state 83 i); rewrite num_identifier; reflexivity.
Qed.
Lemma stms_flat {A} (f : A -> list tok) (g : A -> statement) l : (forall x, stm (f x) (g x)) -> stms (flat_map f l) (map g l).
Proof. intros H. induction l; [constructor|]. cbn [flat_map map]. constructor; auto. Qed.
Lemma stms_each {A} (f : nat -> A -> list tok) (g : nat -> A -> list statement) l : (forall i x, stms (f i x) (g i x)) -> forall i, stms (eacht f i l) (eacht g i l).
Proof. intros H. induction l as [|x l IH]; intros i; [constructor|]. cbn [eacht]. apply stms_app; auto. Qed.

(** ** The four drawings *)
Theorem nfa_read name A : dot_name name -> keyword name = false -> (forall st t, In st A -> In t st -> bytes (tlab t)) ->
  dot_read (nfa_dot name A) = Some (mkGraph name
    (nodes_of (eacht (fun i _ => [SNode (83%N :: num i) [(k_label, num i); (k_shape, v_circle)]]) 0 A ++ eacht (fun i st => map (nfa_edge i) st) 0 A))
    (edges_of (eacht (fun i _ => [SNode (83%N :: num i) [(k_label, num i); (k_shape, v_circle)]]) 0 A ++ eacht (fun i st => map (nfa_edge i) st) 0 A))).
Proof.
  intros D K B. unfold nfa_dot. rewrite (app_assoc (each _ 0 A)). refine (read_drawing name true _ _ _ D K _ _).
  - apply says_app.
    + apply (says_each _ (fun i _ => node_toks (n_state 83 i) (num i) v_circle)). intros j x _. apply state_says.
    + apply (says_each _ (fun i st => flat_map (fun t => arrow_toks (n_state 83 i) (n_state 83 (tdest t)) (class_label (tlab t)) (if tlong t then long_toks else [])) st)).
      intros j st Hst. apply says_flat. intros t Ht. apply nfa_arrow_says. exact (B st t Hst Ht).
  - apply stms_app; apply stms_each; intros i x; [apply stms_one, node_stm; reflexivity|]. apply stms_flat. intros t. apply nfa_arrow_stm.
Qed.
Theorem dfa_read name X : dot_name name -> keyword name = false -> (forall s t, In s X -> In t (dtrs s) -> bytes (tlab t)) ->
  let ss := SNode [83; 83]%N [(k_style, v_invisible)] :: eacht (fun i s => [dfa_node i s]) 0 X ++ SEdge [83; 83]%N [83; 48]%N [] :: eacht (fun i s => map (dfa_edge i) (dtrs s)) 0 X in
  dot_read (dfa_dot name X) = Some (mkGraph name (nodes_of ss) (edges_of ss)).
Proof.
  intros D K B ss. unfold dfa_dot.
  replace (txt "SS [ style=@invisible@ ];|" ++ each dfa_line 0 X ++ txt "SS -> S0;|" ++ each (fun i s => flat_map (dfa_arrow i) (dtrs s)) 0 X ++ txt "}|")
    with ((txt "SS [ style=@invisible@ ];|" ++ each dfa_line 0 X ++ txt "SS -> S0;|" ++ each (fun i s => flat_map (dfa_arrow i) (dtrs s)) 0 X) ++ txt "}|") by (rewrite <- !app_assoc; reflexivity).
  refine (read_drawing name true _ _ _ D K _ _).
  - apply says_app; [apply SS_says|]. apply says_app; [apply (says_each _ dfa_toks); intros j x _; apply dfa_line_says|]. apply says_app; [apply SS0_says|].
    apply (says_each _ (fun i s => flat_map (fun t => arrow_toks (n_state 83 i) (n_state 83 (tdest t)) (class_label (tlab t)) []) (dtrs s))).
    intros j s Hs. apply says_flat. intros t Ht. apply dfa_arrow_says. exact (B s t Hs Ht).
  - unfold ss. apply (stms_app _ [_]).
    + apply stms_one. exact (stm_by [TId [83; 83]%N; TSym 91; TId k_style; TSym 61; TStr v_invisible; TSym 93] _ eq_refl eq_refl).
    + apply stms_app; [apply stms_each; intros i x; apply stms_one, dfa_line_stm|]. apply (stms_app _ [_]).
      * apply stms_one. exact (stm_by [TId [83; 83]%N; TArrow; TId [83; 48]%N] _ eq_refl eq_refl).
      * apply stms_each. intros i s. apply stms_flat. intros t. apply dfa_arrow_stm.
Qed.
Theorem ldfa_read name T : dot_name name -> keyword name = false -> (forall st t, In st T -> In t st -> bytes (fst t)) ->
  let ss := map (fun i => SNode (65%N :: num i) [(k_label, num i); (k_shape, v_doublecircle)]) (seq 1 (color_num T)) ++
            eacht (fun i _ => [SNode (83%N :: num i) [(k_label, num i); (k_shape, v_circle)]]) 0 T ++ eacht (fun i st => map (ldfa_edge i) st) 0 T in
  dot_read (ldfa_dot name T) = Some (mkGraph name (nodes_of ss) (edges_of ss)).
Proof.
  intros D K B ss. unfold ldfa_dot.
  replace (flat_map color_line (seq 1 (color_num T)) ++ each (fun i _ => state_line i) 0 T ++ each (fun i st => flat_map (ldfa_arrow i) st) 0 T ++ txt "}|")
    with ((flat_map color_line (seq 1 (color_num T)) ++ each (fun i _ => state_line i) 0 T ++ each (fun i st => flat_map (ldfa_arrow i) st) 0 T) ++ txt "}|") by (rewrite <- !app_assoc; reflexivity).
  refine (read_drawing name true _ _ _ D K _ _).
  - apply says_app; [apply (says_flat _ (fun i => node_toks (n_state 65 i) (num i) v_doublecircle)); intros x _; apply color_says|]. apply says_app.
    + apply (says_each _ (fun i _ => node_toks (n_state 83 i) (num i) v_circle)). intros j x _. apply state_says.
    + apply (says_each _ (fun i st => flat_map (fun t => arrow_toks (n_state 83 i) (l_target (snd t)) (class_label (fst t)) []) st)).
      intros j st Hst. apply says_flat. intros t Ht. apply ldfa_arrow_says. exact (B st t Hst Ht).
  - unfold ss. apply stms_app; [apply stms_flat; intros i; apply node_stm; reflexivity|].
    apply stms_app; apply stms_each; intros i x; [apply stms_one, node_stm; reflexivity|]. apply stms_flat. intros t. apply ldfa_arrow_stm.
Qed.

(** ** The composite network *)
Definition cname (i : nat) (n : cnode) : list N := match csub n with [] => num i | w => w end.
Definition ctag_label (t : ctr) : list N := num (ctag t) ++ [58; 91]%N ++ class_label (clab t) ++ [93%N].
Definition cnode_toks (i : nat) (n : cnode) : list tok :=
  [n_state 78 i; TSym 91; TId k_label; TSym 61; TStr (cname i n); TSym 93; TSym 59] ++
  flat_map (fun t => arrow_toks (n_state 78 i) (n_state 78 (cdest t)) (ctag_label t) []) (ctrs n).
Lemma cnode_says i n : quiet (csub n) -> (forall t, In t (ctrs n) -> bytes (clab t)) -> says (catn_node i n) (cnode_toks i n).
Proof.
  intros Q B. unfold catn_node, cnode_toks.
  assert (Q' : quiet (cname i n)) by (unfold cname; destruct (csub n); [apply num_quiet|exact Q]).
  fold (cname i n). generalize (cname i n) Q'. intros w Qw.
  replace (txt "N" ++ num i ++ txt " [ label=@" ++ w ++ txt "@ ];|" ++ flat_map (fun t => txt "N" ++ num i ++ txt " -> N" ++ num (cdest t) ++ txt " [ label=@" ++ num (ctag t) ++ txt ":[" ++ class_text (clab t) ++ txt "]" ++ txt "@ ];|") (ctrs n))
    with ((txt "N" ++ num i ++ txt " [ label=@" ++ w ++ txt "@ ];|") ++ flat_map (fun t => txt "N" ++ num i ++ txt " -> N" ++ num (cdest t) ++ txt " [ label=@" ++ num (ctag t) ++ txt ":[" ++ class_text (clab t) ++ txt "]" ++ txt "@ ];|") (ctrs n)) by (rewrite <- !app_assoc; reflexivity).
  apply says_app.
  - lx0. rewrite lrun_quiet by exact Qw. lx. reflexivity.
  - apply says_flat. intros t Ht. specialize (B t Ht). unfold ctag_label. lx. cbn [app]. rewrite <- ?app_assoc, ?rev_involutive. cbn [app]. reflexivity.
Qed.
Definition c_edge (i : nat) (t : ctr) : statement := SEdge (78%N :: num i) (78%N :: num (cdest t)) [(k_label, ctag_label t)].
Theorem catn_read name Q : dot_name name -> keyword name = false -> (forall n, In n Q -> quiet (csub n)) -> (forall n t, In n Q -> In t (ctrs n) -> bytes (clab t)) ->
  let ss := eacht (fun i n => SNode (78%N :: num i) [(k_label, cname i n)] :: map (c_edge i) (ctrs n)) 0 Q in
  dot_read (catn_dot name Q) = Some (mkGraph name (nodes_of ss) (edges_of ss)).
Proof.
  intros D K Q1 B ss. refine (read_drawing name false _ _ _ D K (says_each _ cnode_toks Q 0 _) _).
  - intros j n Hn. apply cnode_says; [exact (Q1 n Hn)|intros t Ht; exact (B n t Hn Ht)].
  - unfold ss. apply stms_each. intros i n. apply (stms_app _ [_]).
    + apply stms_one. exists [n_state 78 i; TSym 91; TId k_label; TSym 61; TStr (cname i n); TSym 93]. split; [reflexivity|]. split; [reflexivity|].
      unfold n_state, statement_of. rewrite num_default. fold (n_state 78 i). rewrite num_identifier. reflexivity.
    + apply stms_flat. intros t. apply arrow_stm; try reflexivity; apply num_identifier.
Qed.

(** ** Nodes and edges, state by state *)
Lemma nodes_app a b : nodes_of (a ++ b) = nodes_of a ++ nodes_of b.
Proof. apply flat_map_app. Qed.
Lemma edges_app a b : edges_of (a ++ b) = edges_of a ++ edges_of b.
Proof. apply flat_map_app. Qed.
Definition is_edge (s : statement) : Prop := exists x y a, s = SEdge x y a.
Definition is_node (s : statement) : Prop := exists x a, s = SNode x a.
Lemma edges_nodes l : Forall is_edge l -> nodes_of l = [].
Proof. induction 1 as [|s l (x & y & a & ->) _ IH]; [reflexivity|exact IH]. Qed.
Lemma nodes_edges l : Forall is_node l -> edges_of l = [].
Proof. induction 1 as [|s l (x & a & ->) _ IH]; [reflexivity|exact IH]. Qed.
Lemma eacht_Forall {A B} (P : B -> Prop) (f : nat -> A -> list B) l : (forall i x, Forall P (f i x)) -> forall i, Forall P (eacht f i l).
Proof. intros H. induction l as [|x l IH]; intros i; [constructor|]. cbn [eacht]. apply Forall_app. split; auto. Qed.
(** Elements with their positions. *)
Definition indexed {A} (l : list A) : list (nat * A) := combine (seq 0 (List.length l)) l.
Lemma Forall2_each {A B C} (R : nat * A -> C -> Prop) (f : nat -> A -> list B) (g : B -> list C) l :
  forall k, (forall i x, i < k + List.length l -> In x l -> Forall2 R [(i, x)] (flat_map g (f i x))) -> Forall2 R (combine (seq k (List.length l)) l) (flat_map g (eacht f k l)).
Proof.
  induction l as [|x l IH]; intros k H; [constructor|]. cbn [List.length seq combine eacht]. rewrite flat_map_app.
  change ((k, x) :: combine (seq (S k) (List.length l)) l) with ([(k, x)] ++ combine (seq (S k) (List.length l)) l). apply Forall2_app.
  - apply H; [cbn [List.length]; lia|left; reflexivity].
  - apply IH. intros i y Hi Hy. apply H; [cbn [List.length]; lia|right; exact Hy].
Qed.
Lemma Forall2_each2 {A T B C} (R : nat * T -> C -> Prop) (h : A -> list T) (f : nat -> A -> list B) (g : B -> list C) l :
  forall k, (forall i x, In x l -> Forall2 R (map (pair i) (h x)) (flat_map g (f i x))) -> Forall2 R (flat_map (fun p => map (pair (fst p)) (h (snd p))) (combine (seq k (List.length l)) l)) (flat_map g (eacht f k l)).
Proof.
  induction l as [|x l IH]; intros k H; [constructor|]. cbn [List.length seq combine eacht flat_map fst snd]. rewrite flat_map_app. apply Forall2_app.
  - apply H; left; reflexivity.
  - apply IH. intros i y Hy. apply H; right; exact Hy.
Qed.
Lemma num_numbered letter i : numbered letter i (letter :: num i).
Proof. exists (num i). split; [apply digits_spec|reflexivity]. Qed.
Lemma num_numeral i : numeral (num i) (N.of_nat i).
Proof. apply digits_spec. Qed.
