(** * Specification of the chaser: what a listener hears of one rule, and the tree it can build from it *)
From Coq Require Import List NArith ZArith Arith.
From Verif Require Import RegexSpec GrammarSpec TreeSpec ParseSpec X86 ParserGen ParserRun Chaser.
Import ListNotations.
Local Open Scope nat_scope.

(** ** One rule *)
(** The listener was asked for the rule number id at offset p and answered q; or the terminal between p and q was passed
    (and shown to it with its number k, if it has one). *)
Inductive visit := Asked (id : N) (p q : nat) | Shown (k : option N) (p q : nat).
Section Visits.
Variable rules : list N -> option (N * gsel).
Variable matches : pat -> list N -> Prop.
Variable u : list N.
(** [visits w p q vs]: the text between p and q is made up of the texts of w one after the other, white space before terminals
    skipped; a reference ends wherever the listener says. *)
Inductive visits : list term -> nat -> nat -> list visit -> Prop :=
| visits_end p : p <= length u -> visits [] p p []
| visits_rule name id e w p m q vs : rules name = Some (id, e) -> p <= length u -> m <= length u -> visits w m q vs -> visits (TRule name :: w) p q (Asked id p m :: vs)
| visits_lit k s w p b m q vs : span u p b -> spaces (slice u p b) -> span u b m -> slice u b m = lit_bytes s -> visits w m q vs -> visits (TLit s :: w) p q (Shown k b m :: vs)
| visits_pat k x w p b m q vs : span u p b -> spaces (slice u p b) -> span u b m -> matches x (slice u b m) -> visits w m q vs -> visits (TPat x :: w) p q (Shown k b m :: vs).
End Visits.
(** The calls of the listener, for a text at address a. *)
Definition heard (a : N) (v : visit) : list event :=
  match v with
  | Asked id p _ => [Nonterminal id (a + N.of_nat p)]
  | Shown (Some k) p q => [Terminal k (a + N.of_nat p) (a + N.of_nat q)]
  | Shown None _ _ => []
  end.
Definition hears (a : N) (vs : list visit) : list event := flat_map (heard a) vs.
(** Its answers are those of the listener. *)
Definition answers (L : listener) (a : N) (vs : list visit) : Prop :=
  forall vs1 id p q vs2, vs = vs1 ++ Asked id p q :: vs2 -> l_answer L (hears a (vs1 ++ [Asked id p q])) = (a + N.of_nat q)%N.

(** ** A call of the function for a rule *)
(** chaser[id](context, input) with these registers and stack runs to its end, returns v, after having called the listener as in h;
    the other registers, the stack and the page are as before. *)
Definition call_ends (C : compiled) (lid : nat -> nat -> Z) (e : env) (L : listener) (m : nat) (r : reg -> N) (x p : list N) (sv q : list slot) (o : Writer.wstate) (b : N) (v : N) (h : list event) : Prop :=
  exists P0 s, X86.find_lab (chaser_code C lid) (lmach m) = Some P0 /\ cstar (chaser_code C lid) e L (chaser_start P0 r x p sv q o b, []) (s, h) /\ pc s = [] /\
    rg s RAX = v /\ (forall i, i <> RAX -> rg s i = r i) /\ stk s = q /\ sav s = sv /\ out s = o.
(** For some surroundings. *)
Definition chases (C : compiled) (lid : nat -> nat -> Z) (e : env) (L : listener) (id addr v : N) (h : list event) : Prop :=
  exists m r x p sv q o b, m < length (c_nets C) /\ fst (net_of C m) = id /\ r RDI = l_self L /\ r RSI = addr /\ call_ends C lid e L m r x p sv q o b v h.

(** ** The tree a listener builds which answers every question by calling the chaser for that rule at that place *)
Inductive chased (C : compiled) (lid : nat -> nat -> Z) (e : env) (a : N) : N -> N -> tree -> Prop :=
| chased_rule L id p q h ch : chases C lid e L id (a + p) (a + q) h -> asked C lid e a L [] h ch -> chased C lid e a id p (Node id p q ch)
with asked (C : compiled) (lid : nat -> nat -> Z) (e : env) (a : N) : listener -> list event -> list event -> list tree -> Prop :=
| asked_end L g : asked C lid e a L g [] []
| asked_term L g i s t h ch : asked C lid e a L (g ++ [Terminal i s t]) h ch -> asked C lid e a L g (Terminal i s t :: h) ch
| asked_rule L g i p c h ch : chased C lid e a i p c -> l_answer L (g ++ [Nonterminal i (a + p)]) = (a + end_of c)%N -> asked C lid e a L (g ++ [Nonterminal i (a + p)]) h ch ->
    asked C lid e a L g (Nonterminal i (a + p) :: h) (c :: ch).
Scheme chased_mut := Induction for chased Sort Prop
  with asked_mut := Induction for asked Sort Prop.
Combined Scheme chased_ind2 from chased_mut, asked_mut.
