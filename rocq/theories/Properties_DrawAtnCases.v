(** * Cases for Properties_DrawAtn *)
From Coq Require Import String Ascii.
From Coq Require Import List NArith ZArith Arith Bool Lia.
From Verif Require Import CharClass Stream StreamSpec NFA DFA GrammarSpec Grammar CodeGen ParserGen Lookahead Properties_Look Properties_Compile Properties_CompileCases GrammarCheck CompileCheck Tool DotSpec ClusterSpec DrawAtn Properties_DrawAtn.
Import ListNotations.
Local Open Scope nat_scope.

(** grammars/json.cgr with the depth the tool has by default: the hypotheses hold, and the drawing has so many nodes and clusters. *)
Definition shape (s : shown (list N)) : option (list N * nat * nat) :=
  match s with
  | Shown t => match dot_items t with Some (n, l) => Some (n, List.length (flat_map nodes_in l), List.length (flat_map clusters_in l)) | None => None end
  | _ => None
  end.
Definition ends_well (k : list N) : bool := match rev k with d :: r => negb ((48 <=? d)%N && (d <=? 57)%N) && match d, r with 78%N, 95%N :: _ => false | _, _ => true end | [] => true end.
Lemma ends_well_spec k : ends_well k = true -> good_ending k.
Proof.
  unfold ends_well. intros H. split.
  - intros w d ->. rewrite rev_app_distr in H. cbn [rev app] in H. apply andb_true_iff in H as [H _]. intros [A B]. apply N.leb_le in A. apply N.leb_le in B. rewrite A, B in H. discriminate.
  - intros w ->. rewrite rev_app_distr in H. cbn [rev app] in H. discriminate.
Qed.
Example C54_hyp : compiled_from (fun _ => json_text) [] json_ds json_g json_C /\ rules_plain json_ds /\ keyword (hd [] (map fst json_ds)) = false /\
  (forall k, In k (map fst json_ds) -> good_ending k) /\
  shape (generate_atn false 3 (c_nets json_C) (str "Object"%string)) = Some (str "Object"%string, 383, 36).
Proof.
  split; [exact (go_file _ _ _ _ _ json_ok)|]. split; [exact (go_plain _ _ _ _ _ json_ok)|]. split; [reflexivity|]. split; [|vm_compute; reflexivity].
  intros k Hk. apply ends_well_spec. assert (F : forallb ends_well (map fst json_ds) = true) by (vm_compute; reflexivity). rewrite forallb_forall in F. exact (F k Hk).
Qed.

(** ** Different nodes with the same name *)
Definition rule1 (l : list string) : gsel := GFirst (fold_right (fun s r => GCons (GTerm (TRule (str s))) GOne r) GNil l).
Definition lit1 (s : string) : gsel := GFirst (GCons (GTerm (TLit (str s))) GOne GNil).
Local Open Scope string_scope.
Definition twice_text : list N := str "grammar T;
R : A1 B B B B B B B B B A ;
A1 : 'a' ;
B : 'b' ;
A : 'c' ;
".
Definition twice_title : option (list N) := Some (str "T").
Definition twice_ds : list (list N * gsel) := [(str "R", rule1 ["A1"; "B"; "B"; "B"; "B"; "B"; "B"; "B"; "B"; "B"; "A"]); (str "A1", lit1 "a"); (str "B", lit1 "b"); (str "A", lit1 "c")].
Local Close Scope string_scope.
Definition twice_g : gstate := Eval vm_compute in match read_grammar 100 (fun _ => twice_text) [] with SOk (_, g) => g | _ => empty_grammar end.
Definition twice_looks : list (list ldfa) := Eval vm_compute in g_looks twice_g 100.
Definition twice_C : compiled := g_compiled twice_g 100 64 twice_looks.
Lemma twice_read : exists mid, read_grammar 100 (fun _ => twice_text) [] = SOk (mid, twice_g).
Proof. eexists. vm_compute. reflexivity. Qed.
Lemma twice_checked : grammar_check 100 twice_title twice_text twice_ds twice_g twice_looks = true.
Proof. vm_compute. reflexivity. Qed.
Lemma twice_ok : grammar_ok (fun _ => twice_text) [] twice_ds twice_g twice_C.
Proof. destruct twice_read as [mid E]. apply (grammar_check_ok 100 64 twice_title twice_text (fun _ => twice_text) [] twice_ds twice_g mid twice_looks); [vm_compute; reflexivity|exact E|vm_compute; reflexivity|exact twice_checked]. Qed.
(** The digits of the counter stand right behind the name: the rule A1 opened first and the rule A opened eleventh are both A11. *)
Fixpoint has_dup (l : list (list N)) : bool := match l with [] => false | x :: r => existsb (weqb x) r || has_dup r end.
Lemma weqb_eq a : forall b, weqb a b = true -> a = b.
Proof. induction a as [|x a IH]; intros [|y b] H; try discriminate; [reflexivity|]. cbn in H. apply andb_true_iff in H as [H1 H2]. apply N.eqb_eq in H1. rewrite H1, (IH b H2). reflexivity. Qed.
Lemma has_dup_spec l : has_dup l = true -> ~ NoDup l.
Proof.
  induction l as [|x r IH]; intros H; [discriminate|]. intros ND. inversion ND as [|? ? N1 N2]; subst. cbn in H. apply orb_true_iff in H as [H|H]; [|exact (IH H N2)].
  apply existsb_exists in H as (y & Hy & E). apply weqb_eq in E. subst y. contradiction.
Qed.
Theorem C54_names_refuted : exists fs file ds g C t it, compiled_from fs file ds g C /\ rules_plain ds /\
  generate_atn false 3 (c_nets C) (hd [] (map fst ds)) = Shown t /\ dot_items t = Some (hd [] (map fst ds), defaults ++ [it]) /\ ~ NoDup (nodes_in it) /\ ~ NoDup (clusters_in it).
Proof.
  exists (fun _ => twice_text), [], twice_ds, twice_g, twice_C. pose proof (go_file _ _ _ _ _ twice_ok) as HF. pose proof (go_plain _ _ _ _ _ twice_ok) as HP.
  destruct (C54_file_drawing _ _ _ _ _ HF HP eq_refl false 3%Z) as (ns & t & it & _ & E & R & _). exists t, it. split; [exact HF|]. split; [exact HP|]. split; [exact E|]. split; [exact R|].
  assert (B : match generate_atn false 3 (c_nets twice_C) (hd [] (map fst twice_ds)) with Shown u => match dot_items u with Some (_, l) => has_dup (flat_map nodes_in l) && has_dup (flat_map clusters_in l) | None => false end | _ => false end = true) by (vm_compute; reflexivity).
  rewrite E, R in B. cbn [defaults app flat_map nodes_in clusters_in] in B. rewrite !app_nil_r in B. apply andb_true_iff in B as [B1 B2]. split; apply has_dup_spec; assumption.
Qed.
Print Assumptions C54_names_refuted.
