(** * Cases that meet the hypotheses of Properties_Draw *)
From Coq Require Import String Ascii.
From Coq Require Import List NArith ZArith Arith Bool Lia.
From Verif Require Import CharClass Stream StreamSpec NFA DFA GrammarSpec CodeGen ParserGen Lookahead Properties_Look Properties_Compile Properties_CompileCases Tool Draw DotSpec Properties_Draw.
Import ListNotations.
Local Open Scope nat_scope.

(** grammars/json.cgr: the pattern of String and the decision of Object are drawn; the graphs are read back. *)
Definition case_nfa : nfa := Eval vm_compute in match draw_nfa (c_nets json_C) (str "String.4"%string) with Shown A => A | _ => [] end.
Definition case_ldfa : ldfa := Eval vm_compute in match draw_ldfa 100 (c_nets json_C) (str "Object.1"%string) with Shown A => A | _ => [] end.
Definition size (o : option graph) : option (list N * nat * nat) := match o with Some g => Some (g_name g, length (g_nodes g), length (g_edges g)) | None => None end.
Example C53_hyp : compiled_from (fun _ => json_text) [] json_ds json_g json_C /\ rules_plain json_ds /\
  read_path (str "String.4"%string) = SOk ([] ++ [(str "String"%string, 4%N)]) /\ read_path (str "Object.1"%string) = SOk ([] ++ [(str "Object"%string, 1%N)]) /\
  keyword (str "String"%string) = false /\ keyword (str "Object"%string) = false /\
  draw_nfa (c_nets json_C) (str "String.4"%string) = Shown case_nfa /\ draw_ldfa 100 (c_nets json_C) (str "Object.1"%string) = Shown case_ldfa /\
  size (dot_read (nfa_dot (str "String"%string) case_nfa)) = Some (str "String"%string, 18, 21) /\
  size (dot_read (ldfa_dot (str "Object"%string) case_ldfa)) = Some (str "Object"%string, 8, 8).
Proof. split; [exact (go_file _ _ _ _ _ json_ok)|]. split; [exact (go_plain _ _ _ _ _ json_ok)|]. repeat split; vm_compute; reflexivity. Qed.
