(** * Specification: parse trees of a text under a grammar.  Independent of networks and code. *)
From Coq Require Import List NArith.
From Verif Require Import RegexSpec GrammarSpec TreeSpec.
Import ListNotations.
Local Open Scope nat_scope.

Section Parse.
Variable rules : list N -> option (N * gsel).    (* number and body of the rule with this name *)
Variable matches : pat -> list N -> Prop.        (* the texts a pattern stands for *)
Variable u : list N.                             (* the input, bytes *)

(** The characters of u from offset p up to offset q. *)
Definition slice (p q : nat) : list N := firstn (q - p) (skipn p u).
Definition span (p q : nat) : Prop := p <= q <= length u.
(** Space, tab, LF, CR: what the generated code skips before a terminal. *)
Definition spaces (t : list N) : Prop := forall c, In c t -> c = 9%N \/ c = 10%N \/ c = 13%N \/ c = 32%N.
(** The bytes of a literal: its characters, cut to a byte. *)
Definition lit_bytes (s : list N) : list N := map (fun c => (c mod 256)%N) s.

(** [derives name p q t]: the rule matches the text between p and q with tree t: its body has a
    sequence of references, literals and patterns whose texts make up that text, each literal and pattern with
    white space before it; the children of t are the trees of the references. *)
Inductive derives : list N -> nat -> nat -> tree -> Prop :=
| derives_rule name id e w p q ch : rules name = Some (id, e) -> gselL term (fun x => [x]) e w -> matched w p q ch ->
    derives name p q (Node id (N.of_nat p) (N.of_nat q) ch)
with matched : list term -> nat -> nat -> list tree -> Prop :=
| matched_end p : p <= length u -> matched [] p p []
| matched_rule name w p m q t ch : derives name p m t -> matched w m q ch -> matched (TRule name :: w) p q (t :: ch)
| matched_lit s w p b m q ch : span p b -> spaces (slice p b) -> span b m -> slice b m = lit_bytes s -> matched w m q ch ->
    matched (TLit s :: w) p q ch
| matched_pat x w p b m q ch : span p b -> spaces (slice p b) -> span b m -> matches x (slice b m) -> matched w m q ch ->
    matched (TPat x :: w) p q ch.
End Parse.
Scheme derives_mut := Induction for derives Sort Prop
  with matched_mut := Induction for matched Sort Prop.
Combined Scheme parse_ind from derives_mut, matched_mut.

(** Offsets: [nested a b t]: t lies between a and b, its children lie inside it, one after the other. *)
Definition end_of (t : tree) : N := match t with Node _ _ e _ => e end.
Fixpoint nested (a b : N) (t : tree) : Prop :=
  match t with
  | Node _ s e ch => (a <= s)%N /\ (s <= e)%N /\ (e <= b)%N /\
    (fix go (from : N) (ts : list tree) : Prop :=
       match ts with
       | [] => True
       | c :: ts' => nested from e c /\ go (end_of c) ts'
       end) s ch
  end.
(** The rules of a list of declarations: the first declaration of a name counts; numbers are positions. *)
Fixpoint rules_from (k : N) (ds : list (list N * gsel)) (name : list N) : option (N * gsel) :=
  match ds with
  | [] => None
  | (n, e) :: ds => if list_eq_dec N.eq_dec n name then Some (k, e) else rules_from (k + 1) ds name
  end.
Definition rules_of : list (list N * gsel) -> list N -> option (N * gsel) := rules_from 1.
