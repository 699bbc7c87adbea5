(** * Specification: the DOT language with subgraphs (extends DotSpec.v).
    A graph is a list of items; a subgraph has a name and items of its own.  Semicolons behind statements may be left out. *)
From Coq Require Import List NArith Bool.
From Verif Require Import DotSpec.
Import ListNotations.
Open Scope N_scope.

Inductive item :=
| IDefault
| IAttr (a : attribute)
| INode (n : list N) (a : list attribute)
| IEdge (n m : list N) (a : list attribute)
| ISub (n : list N) (l : list item).

(** name = value, separated by commas or nothing, up to the closing bracket; what is behind it. *)
Fixpoint attr_list (l : list tok) : option (list attribute * list tok) :=
  match l with
  | TSym 93 :: r => Some ([], r)
  | a :: TSym 61 :: b :: r =>
    match identifier a, identifier b, (match r with TSym 44 :: r' => attr_list r' | _ => attr_list r end) with
    | Some x, Some y, Some (z, r1) => Some ((x, y) :: z, r1)
    | _, _, _ => None
    end
  | _ => None
  end.
(** One statement that is no subgraph. *)
Definition statement1 (l : list tok) : option (item * list tok) :=
  match l with
  | TId w :: TSym 91 :: r =>
    match attr_list r with
    | Some (a, r1) => if existsb (weqb (map lower w)) [w_graph; w_node; w_edge] then Some (IDefault, r1)
                      else match identifier (TId w) with Some n => Some (INode n a, r1) | None => None end
    | None => None
    end
  | a :: TSym 61 :: b :: r => match identifier a, identifier b with Some x, Some y => Some (IAttr (x, y), r) | _, _ => None end
  | a :: TArrow :: b :: TSym 91 :: r =>
    match identifier a, identifier b, attr_list r with Some x, Some y, Some (z, r1) => Some (IEdge x y z, r1) | _, _, _ => None end
  | a :: TArrow :: b :: r => match identifier a, identifier b with Some x, Some y => Some (IEdge x y [], r) | _, _ => None end
  | a :: TSym 91 :: r => match identifier a, attr_list r with Some n, Some (z, r1) => Some (INode n z, r1) | _, _ => None end
  | a :: r => match identifier a with Some n => Some (INode n [], r) | None => None end
  | [] => None
  end.
Definition semicolon (l : list tok) : list tok := match l with TSym 59 :: r => r | _ => l end.
(** The items up to the closing brace; what is behind it.  [fuel]: the number of words is enough. *)
Fixpoint items (fuel : nat) (l : list tok) : option (list item * list tok) :=
  match fuel with
  | O => None
  | S f =>
    match l with
    | TSym 125 :: r => Some ([], r)
    | _ =>
      match (match l with
             | TId w :: x :: TSym 123 :: r =>
               if weqb (map lower w) w_subgraph then
                 match identifier x, items f r with Some n, Some (b, r1) => Some (ISub n b, r1) | _, _ => None end
               else None
             | _ => statement1 l
             end) with
      | Some (i, r) => match items f (semicolon r) with Some (is_, r') => Some (i :: is_, r') | None => None end
      | None => None
      end
    end
  end.
(** The name of the graph and its items. *)
Definition dot_items (s : list N) : option (list N * list item) :=
  match words_of s with
  | Some (TId d :: x :: TSym 123 :: l) =>
    if weqb (map lower d) w_digraph then
      match identifier x, items (S (length l)) l with Some n, Some (b, []) => Some (n, b) | _, _ => None end
    else None
  | _ => None
  end.

(** ** Nodes, in the order of the text *)
Fixpoint nodes_in (i : item) : list (list N) :=
  match i with
  | INode n _ => [n]
  | ISub _ l => (fix go (l : list item) : list (list N) := match l with [] => [] | x :: l' => nodes_in x ++ go l' end) l
  | _ => []
  end.
(** The first and the last one. *)
Definition entry_of (i : item) : option (list N) := hd_error (nodes_in i).
Definition exit_of (i : item) : option (list N) := hd_error (rev (nodes_in i)).
Definition k_xlabel : list N := 120 :: k_label.
(** The names of the clusters. *)
Fixpoint clusters_in (i : item) : list (list N) :=
  match i with
  | ISub n l => n :: (fix go (l : list item) : list (list N) := match l with [] => [] | x :: l' => clusters_in x ++ go l' end) l
  | _ => []
  end.
