(** * Specification vocabulary: the texts the reader may accept.

    These forms are wider than those of RegexSpec.v and GrammarSpec.v: every way in which the
    reader is more permissive than the documented syntax is marked (!).  Independent of the
    automata and networks. *)
From Coq Require Import List NArith Bool.
From Verif Require Import CharClassSpec RegexSpec StreamSpec GrammarSpec.
Import ListNotations.
Open Scope N_scope.

(** ** Patterns *)
Definition f_caret (neg : bool) : list N := if neg then [94] else [].
Inductive f_atom : atom -> list N -> Prop :=
| fa_char c : ~ In c [92; 91; 46; 40] -> f_atom (AChar c) [c]            (* (!) also * + ? { } ] and, behind a bar, | ) / and NUL *)
| fa_esc c : is_meta c = true -> f_atom (AChar c) [92; c]
| fa_dot : f_atom ADot [46]
| fa_set (neg : bool) l w : items_text l w -> (neg = false -> hd 0 w <> 94) ->  (* (!) also an empty bracket, and ranges the wrong way round *)
    f_atom (if neg then ANot l else ASet l) (91 :: f_caret neg ++ w ++ [93]).
(** What ends a group or a pattern: a parenthesis, a slash (!), a NUL (!). *)
Definition f_end (e : N) : Prop := In e [41; 47; 0].
Inductive f_unit : unit_ -> list N -> Prop :=
| fu_atom a t : f_atom a t -> f_unit (UAtom a) t
| fu_group p t e : f_pat p t -> f_end e -> f_unit (UGroup p) (40 :: t ++ [e])
with f_sel : sel -> list N -> Prop :=
| fs_one u q t x : f_unit u t -> In x (q_texts q) -> f_sel (SOne u q) (t ++ x)
| fs_alt s u q t0 t x : f_sel s t0 -> f_unit u t -> In x (q_texts q) -> f_sel (SAlt s u q) (t0 ++ 124 :: t ++ x)
with f_pat : pat -> list N -> Prop :=
| fp_nil : f_pat PNil []
| fp_snoc p s t c x : f_pat p t -> f_sel s (c :: x) -> ~ f_end c -> f_pat (PSnoc p s) (t ++ c :: x).

(** [took t x r]: reading the text [t] consumed [x] and leaves [r]; behind the end of the text
    any number of NUL characters can be read (!). *)
Definition took (t x r : list N) : Prop := t = x ++ r \/ (r = [] /\ exists k, t ++ repeat 0 k = x).

(** ** Rule bodies *)
Inductive f_term : term -> list N -> Prop :=
| ft_rule id : is_name id -> f_term (TRule id) id
| ft_lit q s : q = 34 \/ q = 39 -> ~ In q s -> ~ In 0 s -> f_term (TLit s) (q :: s ++ [q])
| ft_pat p t e : f_pat p t -> f_end e -> f_term (TPat p) (47 :: t ++ [e]).    (* (!) a pattern may end in a parenthesis *)
Inductive f_seq : gseq -> list N -> Prop :=
| fq_nil b : btext b -> f_seq GNil b
| fq_term b x t b1 l q s r : btext b -> f_term x t -> btext b1 -> w_local l -> f_seq s r ->
    separated x (b1 ++ l ++ gq_text q ++ r) -> f_seq (GCons (GTerm x) q s) (b ++ t ++ b1 ++ l ++ gq_text q ++ r)
| fq_group b e t b1 q s r : btext b -> f_gsel e t -> btext b1 -> f_seq s r ->
    f_seq (GCons (GGroup e) q s) (b ++ 40 :: t ++ 41 :: b1 ++ gq_text q ++ r)
with f_gsel : gsel -> list N -> Prop :=
| fe_first s t : f_seq s t -> f_gsel (GFirst s) t
| fe_alt e up s t r : f_gsel e t -> f_seq s r -> f_gsel (GAlt e up s) (t ++ 124 :: (if up then [62] else []) ++ r).
Definition f_body (e : gsel) (t : list N) : Prop := exists b r, btext b /\ f_gsel e r /\ t = b ++ 58 :: r ++ [59].

(** Every pattern of a body satisfies [P]. *)
Fixpoint atom_pats (P : pat -> Prop) (a : gatom) : Prop :=
  match a with GTerm (TPat p) => P p | GTerm _ => True | GGroup e => sel_pats P e end
with seq_pats (P : pat -> Prop) (s : gseq) : Prop :=
  match s with GNil => True | GCons a _ s => atom_pats P a /\ seq_pats P s end
with sel_pats (P : pat -> Prop) (e : gsel) : Prop :=
  match e with GFirst s => seq_pats P s | GAlt e _ s => sel_pats P e /\ seq_pats P s end.

(** ** Files *)
(** What may stand behind the last declaration: white space and comments, the last of which
    may be a line comment that the end of the file ends. *)
Definition f_last (b : list N) : Prop := btext b \/ exists b0 body, btext b0 /\ ~ In 10 body /\ b = b0 ++ 47 :: 47 :: body.
Section Files.
Variable chars : list N -> list N.              (* the characters in a file *)
Variable resolve : list N -> list N -> list N.  (* including file, path -> file *)
Inductive f_file : list N -> list N -> list (list N * gsel) -> Prop :=
| ff_end f b : f_last b -> f_file f b []
| ff_rule f b id e t r ds : btext b -> is_name id -> id <> word_grammar -> id <> word_include -> f_body e t -> f_file f r ds ->
    f_file f (b ++ id ++ t ++ r) ((id, e) :: ds)
| ff_name f b b1 id b2 r ds : btext b -> btext b1 -> b1 <> [] -> is_name id -> btext b2 -> f_file f r ds ->
    f_file f (b ++ word_grammar ++ b1 ++ id ++ b2 ++ 59 :: r) ds
| ff_include f b b1 p b2 r ds ds' : btext b -> btext b1 -> ~ In 34 p -> btext b2 ->
    f_file (resolve f p) (chars (resolve f p)) ds -> f_file f r ds' ->
    f_file f (b ++ word_include ++ b1 ++ 34 :: p ++ 34 :: b2 ++ 59 :: r) (ds ++ ds').
End Files.
