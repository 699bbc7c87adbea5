(** * Specification vocabulary for rule bodies: EBNF expressions, how they are written, and the
    sequences of symbols they denote.  Independent of the networks. *)
From Coq Require Import List NArith Bool.
From Verif Require Import RegexSpec StreamSpec.
Import ListNotations.
Open Scope N_scope.

(** ** Syntax *)
(** References to rules, literals (by their characters), patterns. *)
Inductive term := TRule (id : list N) | TLit (s : list N) | TPat (p : pat).
Inductive gquant := GOne | GStar | GPlus | GOpt.
(** A selection: one or more sequences; the flag says that the bar before the last one was
    written |> (lower priority than what stands before) instead of | (same priority). *)
Inductive gatom := GTerm (x : term) | GGroup (e : gsel)
with gseq := GNil | GCons (a : gatom) (q : gquant) (s : gseq)
with gsel := GFirst (s : gseq) | GAlt (e : gsel) (up : bool) (s : gseq).

Scheme gatom_mut := Induction for gatom Sort Prop
  with gseq_mut := Induction for gseq Sort Prop
  with gsel_mut := Induction for gsel Sort Prop.
Combined Scheme g_ind from gatom_mut, gseq_mut, gsel_mut.

(** ** Language: sequences of symbols *)
Section Lang.
Variable sym : Type.
Variable termL : term -> list sym.     (* what one terminal or reference contributes *)
Inductive GStarL (L : list sym -> Prop) : list sym -> Prop :=
| gs_nil : GStarL L []
| gs_app u v : L u -> GStarL L v -> GStarL L (u ++ v).
Definition gquantL (q : gquant) (L : list sym -> Prop) (w : list sym) : Prop :=
  match q with
  | GOne => L w
  | GStar => GStarL L w
  | GPlus => exists u v, w = u ++ v /\ L u /\ GStarL L v
  | GOpt => w = [] \/ L w
  end.
Fixpoint gatomL (a : gatom) (w : list sym) : Prop :=
  match a with
  | GTerm x => w = termL x
  | GGroup e => gselL e w
  end
with gseqL (s : gseq) (w : list sym) : Prop :=
  match s with
  | GNil => w = []
  | GCons a q s => exists u v, w = u ++ v /\ gquantL q (gatomL a) u /\ gseqL s v
  end
with gselL (e : gsel) (w : list sym) : Prop :=
  match e with
  | GFirst s => gseqL s w
  | GAlt e _ s => gselL e w \/ gseqL s w
  end.
End Lang.

(** ** Writing *)
(** White space and comments. *)
Inductive btext : list N -> Prop :=
| bt_nil : btext []
| bt_space c b : c = 32 \/ (9 <= c /\ c <= 13) -> btext b -> btext (c :: b)
| bt_line body b : ~ In 10 body -> ~ In 0 body -> btext b -> btext (47 :: 47 :: body ++ 10 :: b)
| bt_block body b : ~ occurs [42; 47] (body ++ [42]) -> ~ In 0 body -> btext b -> btext (47 :: 42 :: body ++ 42 :: 47 :: b).
Definition sym_char (c : N) : Prop := c = 95 \/ letter c \/ digit c.
(** A terminal or reference; a pattern must not be empty ('//' starts a comment). *)
Inductive w_term : term -> list N -> Prop :=
| wt_rule c s : c = 95 \/ letter c -> (forall x, In x s -> sym_char x) -> w_term (TRule (c :: s)) (c :: s)
| wt_lit q s : q = 34 \/ q = 39 -> ~ In q s -> ~ In 0 s -> w_term (TLit s) (q :: s ++ [q])
| wt_pat p t : pat_ok p -> p <> PNil -> w_pat p t -> w_term (TPat p) (47 :: t ++ [47]).
(** The optional number in braces. *)
Inductive w_local : list N -> Prop :=
| wl_none : w_local []
| wl_num b1 d b2 b3 : btext b1 -> d <> [] -> (forall c, In c d -> digit c) -> btext b2 -> btext b3 ->
    w_local (123 :: b1 ++ d ++ b2 ++ 125 :: b3).
Definition gq_text (q : gquant) : list N := match q with GOne => [] | GStar => [42] | GPlus => [43] | GOpt => [63] end.
(** An identifier must not be continued by what follows. *)
Definition separated (x : term) (next : list N) : Prop :=
  match x, next with TRule _, c :: _ => ~ sym_char c | _, _ => True end.
Inductive w_seq : gseq -> list N -> Prop :=
| wq_nil b : btext b -> w_seq GNil b
| wq_term b x t b1 l q s r : btext b -> w_term x t -> btext b1 -> w_local l -> w_seq s r ->
    separated x (b1 ++ l ++ gq_text q ++ r) -> w_seq (GCons (GTerm x) q s) (b ++ t ++ b1 ++ l ++ gq_text q ++ r)
| wq_group b e t b1 q s r : btext b -> w_sel e t -> btext b1 -> w_seq s r ->
    w_seq (GCons (GGroup e) q s) (b ++ 40 :: t ++ 41 :: b1 ++ gq_text q ++ r)
with w_sel : gsel -> list N -> Prop :=
| we_first s t : w_seq s t -> w_sel (GFirst s) t
| we_alt e up s t r : w_sel e t -> w_seq s r -> w_sel (GAlt e up s) (t ++ 124 :: (if up then [62] else []) ++ r).
(** A rule body: colon, selection, semicolon. *)
Definition w_body (e : gsel) (t : list N) : Prop := exists b r, btext b /\ w_sel e r /\ t = b ++ 58 :: r ++ [59].

(** ** Grammar files *)
Definition is_name (s : list N) : Prop := match s with c :: s => (c = 95 \/ letter c) /\ forall x, In x s -> sym_char x | [] => False end.
Definition word_grammar : list N := [103; 114; 97; 109; 109; 97; 114].
Definition word_include : list N := [105; 110; 99; 108; 117; 100; 101].
Section Files.
Variable chars : list N -> list N.              (* the characters in a file *)
Variable resolve : list N -> list N -> list N.  (* including file, path -> file *)
(** [w_file f t ds]: text [t], standing in file [f], declares the rules [ds], in this order,
    those of an included file at the place of the include. *)
Inductive w_file : list N -> list N -> list (list N * gsel) -> Prop :=
| wf_end f b : btext b -> w_file f b []
| wf_rule f b id e t r ds : btext b -> is_name id -> id <> word_grammar -> id <> word_include -> w_body e t -> w_file f r ds ->
    w_file f (b ++ id ++ t ++ r) ((id, e) :: ds)
| wf_name f b b1 id b2 r ds : btext b -> btext b1 -> b1 <> [] -> is_name id -> btext b2 -> w_file f r ds ->
    w_file f (b ++ word_grammar ++ b1 ++ id ++ b2 ++ 59 :: r) ds
| wf_include f b b1 p b2 r ds ds' : btext b -> btext b1 -> ~ In 34 p -> btext b2 ->
    w_file (resolve f p) (chars (resolve f p)) ds -> w_file f r ds' ->
    w_file f (b ++ word_include ++ b1 ++ 34 :: p ++ 34 :: b2 ++ 59 :: r) (ds ++ ds').
End Files.
