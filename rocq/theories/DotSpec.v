(** * Specification: the DOT language, as far as drawings of automata need it.
    Written from the published grammar of Graphviz (strings, identifiers, numerals, keywords in any case, node, edge and
    attribute statements).  Left out, so refused here: comments, HTML strings, ports, subgraphs, undirected graphs, statements
    that are not ended by a semicolon.  What is accepted here is accepted by Graphviz, with the meaning given here. *)
From Coq Require Import List NArith Bool.
From Verif Require Import CharClass PathSpec.
Import ListNotations.
Open Scope N_scope.

(** ** Words *)
Inductive tok := TId (w : list N) | TNum (w : list N) | TStr (w : list N) | TArrow | TSym (c : N).
Definition dlet (c : N) : bool := ((65 <=? c) && (c <=? 90)) || ((97 <=? c) && (c <=? 122)) || (c =? 95) || ((128 <=? c) && (c <=? 255)).
Definition ddig (c : N) : bool := (48 <=? c) && (c <=? 57).
Definition dspace (c : N) : bool := (c =? 32) || (c =? 9) || (c =? 10) || (c =? 13).
(** { } [ ] ; , = *)
Definition dsym (c : N) : bool := existsb (N.eqb c) [123; 125; 91; 93; 59; 44; 61].
(** Where the reader is: between words, in a name, in a number, in a string, behind a backslash in a string, behind a dash.
    The characters read so far are in reverse order. *)
Inductive lmode := Idle | InId (w : list N) | InNum (w : list N) | InStr (w : list N) | InEsc (w : list N) | Dash | Bad.
Definition lidle (c : N) : lmode * list tok :=
  if dspace c then (Idle, [])
  else if dlet c then (InId [c], [])
  else if ddig c then (InNum [c], [])
  else if c =? 34 then (InStr [], [])
  else if c =? 45 then (Dash, [])
  else if dsym c then (Idle, [TSym c])
  else (Bad, []).
Definition lstep (m : lmode) (c : N) : lmode * list tok :=
  match m with
  | Idle => lidle c
  | InId w => if dlet c || ddig c then (InId (c :: w), []) else let '(m', l) := lidle c in (m', TId (rev w) :: l)
  | InNum w => if ddig c then (InNum (c :: w), [])
               else if dlet c then (Bad, []) else let '(m', l) := lidle c in (m', TNum (rev w) :: l)
  | InStr w => if c =? 34 then (Idle, [TStr (rev w)]) else if c =? 92 then (InEsc w, []) else (InStr (c :: w), [])
  (* behind a backslash a quotation mark is a character of the string; any other pair stays as it is (two backslashes are still
     two characters for the label reader below) *)
  | InEsc w => (InStr (if c =? 34 then 34 :: w else c :: 92 :: w), [])
  | Dash => if c =? 62 then (Idle, [TArrow]) else (Bad, [])
  | Bad => (Bad, [])
  end.
Fixpoint lrun (m : lmode) (s : list N) : lmode * list tok :=
  match s with
  | [] => (m, [])
  | c :: s' => let '(m1, a) := lstep m c in let '(m2, b) := lrun m1 s' in (m2, a ++ b)
  end.
Definition words_of (s : list N) : option (list tok) := match lrun Idle s with (Idle, l) => Some l | _ => None end.

(** ** Statements *)
Definition lower (c : N) : N := if (65 <=? c) && (c <=? 90) then c + 32 else c.
Fixpoint weqb (a b : list N) : bool :=
  match a, b with [], [] => true | x :: a', y :: b' => (x =? y) && weqb a' b' | _, _ => false end.
Definition w_digraph : list N := [100; 105; 103; 114; 97; 112; 104].
Definition w_graph : list N := [103; 114; 97; 112; 104].
Definition w_node : list N := [110; 111; 100; 101].
Definition w_edge : list N := [101; 100; 103; 101].
Definition w_subgraph : list N := [115; 117; 98; 103; 114; 97; 112; 104].
Definition w_strict : list N := [115; 116; 114; 105; 99; 116].
(** The keywords, in any mixture of capital and small letters. *)
Definition keyword (w : list N) : bool :=
  existsb (weqb (map lower w)) [w_digraph; w_graph; w_node; w_edge; w_subgraph; w_strict].
Definition identifier (t : tok) : option (list N) :=
  match t with TId w => if keyword w then None else Some w | TNum w => Some w | TStr w => Some w | _ => None end.
Notation attribute := (list N * list N)%type.
(** name = value, separated by commas, up to the closing bracket, behind which there is nothing. *)
Fixpoint attributes (l : list tok) : option (list attribute) :=
  match l with
  | [TSym 93] => Some []
  | a :: TSym 61 :: b :: r =>
    match identifier a, identifier b, (match r with TSym 44 :: r' => attributes r' | _ => attributes r end) with
    | Some x, Some y, Some z => Some ((x, y) :: z)
    | _, _, _ => None
    end
  | _ => None
  end.
Inductive statement :=
| SDefault
| SGraph (a : attribute)
| SNode (n : list N) (a : list attribute)
| SEdge (n m : list N) (a : list attribute).
Definition statement_of (l : list tok) : option statement :=
  match l with
  | TId w :: TSym 91 :: r =>
    if existsb (weqb (map lower w)) [w_graph; w_node; w_edge] then match attributes r with Some _ => Some SDefault | None => None end
    else match identifier (TId w), attributes r with Some n, Some a => Some (SNode n a) | _, _ => None end
  | [a; TSym 61; b] => match identifier a, identifier b with Some x, Some y => Some (SGraph (x, y)) | _, _ => None end
  | [a; TArrow; b] => match identifier a, identifier b with Some x, Some y => Some (SEdge x y []) | _, _ => None end
  | a :: TArrow :: b :: TSym 91 :: r =>
    match identifier a, identifier b, attributes r with Some x, Some y, Some z => Some (SEdge x y z) | _, _, _ => None end
  | a :: TSym 91 :: r => match identifier a, attributes r with Some n, Some z => Some (SNode n z) | _, _ => None end
  | [a] => match identifier a with Some n => Some (SNode n []) | None => None end
  | _ => None
  end.
(** Statements end with semicolons; behind the last one there is the closing brace. *)
Fixpoint split_at (l : list tok) : list (list tok) * list tok :=
  match l with
  | [] => ([], [])
  | TSym 59 :: l' => let '(a, b) := split_at l' in ([] :: a, b)
  | t :: l' => let '(a, b) := split_at l' in match a with [] => ([], t :: b) | x :: a' => ((t :: x) :: a', b) end
  end.
Fixpoint all_of {A B} (f : A -> option B) (l : list A) : option (list B) :=
  match l with
  | [] => Some []
  | x :: l' => match f x, all_of f l' with Some y, Some z => Some (y :: z) | _, _ => None end
  end.

(** ** Graphs: the nodes and the edges the statements declare, in the order of the text *)
Record graph := mkGraph { g_name : list N; g_nodes : list (list N * list attribute); g_edges : list (list N * list N * list attribute) }.
Definition dot_read (s : list N) : option graph :=
  match words_of s with
  | Some (TId d :: x :: TSym 123 :: l) =>
    if weqb (map lower d) w_digraph then
      match identifier x, split_at l with
      | Some n, (b, [TSym 125]) =>
        match all_of statement_of b with
        | Some st => Some (mkGraph n (flat_map (fun s => match s with SNode x a => [(x, a)] | _ => [] end) st)
                                     (flat_map (fun s => match s with SEdge x y a => [(x, y, a)] | _ => [] end) st))
        | None => None
        end
      | _, _ => None
      end
    else None
  | _ => None
  end.
(** The value of an attribute (the last one counts). *)
Definition attribute_of (k : list N) (a : list attribute) : option (list N) :=
  fold_left (fun r x => if weqb (fst x) k then Some (snd x) else r) a None.
Definition k_label : list N := [108; 97; 98; 101; 108].
Definition k_shape : list N := [115; 104; 97; 112; 101].
Definition k_style : list N := [115; 116; 121; 108; 101].
Definition k_penwidth : list N := [112; 101; 110; 119; 105; 100; 116; 104].
Definition v_circle : list N := [99; 105; 114; 99; 108; 101].
Definition v_doublecircle : list N := [100; 111; 117; 98; 108; 101; 99; 105; 114; 99; 108; 101].
Definition v_invisible : list N := [105; 110; 118; 105; 115; 105; 98; 108; 101].
(** What a label shows: two backslashes are a backslash; the other escapes (backslash N, G, n, l, ...) are not used by the drawings here. *)
Fixpoint rendered (l : list N) : option (list N) :=
  match l with
  | [] => Some []
  | c :: t =>
    if c =? 92 then match t with d :: t' => if d =? 92 then option_map (cons 92) (rendered t') else None | [] => None end
    else option_map (cons c) (rendered t)
  end.

(** ** What is shown *)
(** 'S' or 'A' or 'N' and a number *)
Definition numbered (letter : N) (i : nat) (w : list N) : Prop := exists d, numeral d (N.of_nat i) /\ w = letter :: d.
(** Hexadecimal numbers with capital letters *)
Definition hexval (c : N) : N := if c <=? 57 then c - 48 else c - 55.
Definition hexadecimal (w : list N) (n : N) : Prop :=
  w <> [] /\ (forall c, In c w -> 48 <= c <= 57 \/ 65 <= c <= 70) /\ fold_left (fun v c => 16 * v + hexval c) w 0 = n.
(** A character is shown as itself if it is visible, and as \x and its code if it is not. *)
Definition shows_char (c : N) (w : list N) : Prop :=
  (33 <= c <= 126 /\ w = [c]) \/ (~ 33 <= c <= 126 /\ exists h, hexadecimal h c /\ w = 92 :: 120 :: h).
Definition shows_range (r : range) (w : list N) : Prop :=
  (re r = rs r + 1 /\ shows_char (rs r) w) \/
  (re r <> rs r + 1 /\ exists a b, shows_char (rs r) a /\ shows_char (re r - 1) b /\ w = a ++ 45 :: b).
(** Nothing for the arrows that read nothing; otherwise the ranges in brackets. *)
Definition shows_class (cc : cclass) (w : list N) : Prop :=
  (cc = [] /\ w = []) \/ (cc <> [] /\ exists l, Forall2 shows_range cc l /\ w = 91 :: concat l ++ [93]).
