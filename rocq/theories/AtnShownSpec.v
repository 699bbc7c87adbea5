(** * Specification: what the drawing of a grammar shows.
    A rule is a cluster; its label has the rule's name, its items are the nodes of the rule's network, in order, and the
    arrows.  A reference is a node with the name of the rule or, up to a certain depth and not inside itself, the cluster of
    that rule.  An arrow to a cluster goes to its first node, an arrow from a cluster comes from its last node. *)
From Coq Require Import List NArith Arith.
From Verif Require Import CharClass NFA ATN Grammar PathSpec DotSpec ClusterSpec.
Import ListNotations.
Local Open Scope nat_scope.

Definition enum {A} (l : list A) : list (nat * A) := combine (seq 0 (length l)) l.
(** "[number]" *)
Definition bracketed (i : nat) (w : list N) : Prop := exists d, numeral d (N.of_nat i) /\ w = 91%N :: d ++ [93%N].
(** A node with this label and its number beside it. *)
Definition box (i : nat) (lab : list N) (it : item) : Prop :=
  exists n a x, it = INode n a /\ attribute_of k_label a = Some lab /\ attribute_of k_xlabel a = Some x /\ bracketed i x.
(** Arrows between items, in order: from the last node of the source to the first node of the target. *)
Definition joined (nodes : list item) (i j : nat) (x y : list N) : Prop :=
  exists s d, nth_error nodes i = Some s /\ nth_error nodes j = Some d /\ exit_of s = Some x /\ entry_of d = Some y.
(** The automaton of a pattern: as in a drawing of its own (C53), in a cluster with the number of the node. *)
Definition shows_pattern (i : nat) (A : nfa) (it : item) : Prop :=
  exists n x nodes edges, it = ISub n (IAttr (k_label, x) :: nodes ++ edges) /\ bracketed i x /\
    Forall2 (fun p nd => exists m a d, nd = INode m a /\ attribute_of k_label a = Some d /\ numeral d (N.of_nat (fst p)) /\ attribute_of k_shape a = Some v_circle) (enum A) nodes /\
    Forall2 (fun p e => exists m k a l w, e = IEdge m k a /\ joined nodes (fst p) (tdest (snd p)) m k /\
               attribute_of k_label a = Some l /\ rendered l = Some w /\ shows_class (tlab (snd p)) w /\
               attribute_of k_penwidth a = if tlong (snd p) then Some [51%N] else None)
            (flat_map (fun p => map (pair (fst p)) (snd p)) (enum A)) edges.
Definition shows_node (sub : option (list (list N) -> nat -> list N -> item -> Prop)) (inside : list (list N)) (i : nat) (n : nty) (it : item) : Prop :=
  match n with
  | NBlank => box i [] it
  | NLit _ => box i [34; 34]%N it          (* two quotation marks *)
  | NWs => box i [91; 32; 93]%N it         (* [ ] *)
  | NReg A => shows_pattern i A it
  | NInv r => match sub with
              | None => box i r it
              | Some f => (In r inside -> box i r it) /\ (~ In r inside -> f (r :: inside) i r it)
              end
  end.
(** [depth]: how many clusters may be inside each other below this one; [inside]: the rules this cluster is inside of. *)
Fixpoint shows_rule (nets : list (list N * (N * atn))) (depth : nat) (inside : list (list N)) (i : nat) (key : list N) (it : item) : Prop :=
  exists id M n x nodes edges, lookup nets key = Some (id, M) /\ it = ISub n (nodes ++ edges ++ [IAttr (k_label, x ++ key)]) /\ bracketed i x /\
    Forall2 (fun p nd => shows_node (match depth with O => None | S d => Some (shows_rule nets d) end) inside (fst p) (nt (snd p)) nd) (enum M) nodes /\
    Forall2 (fun p e => exists m k a, e = IEdge m k a /\ joined nodes (fst p) (fst (snd p)) m k /\ attribute_of k_label a = Some [])
            (flat_map (fun p => map (pair (fst p)) (atrs (snd p))) (enum M)) edges.
