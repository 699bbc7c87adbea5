(** * Specification: parses that get stuck, and what they leave unfinished
    In the same terms as clear parses (ClearSpec.v): rule networks and the text; no automata, no code. *)
From Coq Require Import List NArith Arith.
From Verif Require Import CharClass NFA NFASem ATN Grammar Marker TreeSpec ParseSpec LookGrammarSpec ClearSpec.
Import ListNotations.
Local Open Scope nat_scope.

(** A rule that has been begun and not ended: its number, where it begins, the subtrees finished in it so far. *)
Definition unfinished : Type := N * N * list tree.
(** The markers of unfinished rules, each inside the one before: a start marker and the markers of the finished subtrees; no end marker. *)
Definition open_words (x : unfinished) : list N := start_word (fst (fst x)) (snd (fst x)) :: List.concat (map stream (snd x)).
(** The finished subtrees, in the order of the text. *)
Definition finished (fs : list unfinished) : list tree := List.concat (map snd fs).

Section Stuck.
Variables (nets : list (list N * (N * atn))) (u : list N).
(** [stuck_from r i p ch fs]: the parse that starts before node i of rule r at position p can take forced steps only (ClearSpec.v) and gets to a point with no
    way on: a terminal that is not there, or a decision where no part of the text behind belongs to one way only.  By then it has finished the subtrees ch
    in this rule, and begun the rules fs without ending them. *)
Inductive stuck_from : list N -> nat -> nat -> list tree -> list unfinished -> Prop :=
| st_symbol r i n p : node_of nets [(r, i)] = Some n -> (forall r', nt n <> NInv r') -> (forall m ch, ~ clear_symbol nets u (nt n) p m ch) -> stuck_from r i p [] []
| st_inside r i n p r' id M ch fs : node_of nets [(r, i)] = Some n -> nt n = NInv r' -> lookup nets r' = Some (id, M) -> stuck_from r' 0 p ch fs ->
    stuck_from r i p [] ((id, N.of_nat p, ch) :: fs)
| st_decision r i n p m ch : node_of nets [(r, i)] = Some n -> clear_symbol nets u (nt n) p m ch -> 2 <= length (atrs n) ->
    (forall k y, m < y <= length u -> ~ only_alt nets r i k (slice u m y)) -> stuck_from r i p ch []
| st_one r i n p m ch d t ch' fs : node_of nets [(r, i)] = Some n -> clear_symbol nets u (nt n) p m ch -> atrs n = [(d, t)] -> stuck_from r d m ch' fs -> stuck_from r i p (ch ++ ch') fs
| st_many r i n p m ch k d t y ch' fs : node_of nets [(r, i)] = Some n -> clear_symbol nets u (nt n) p m ch -> 2 <= length (atrs n) -> nth_error (atrs n) k = Some (d, t) ->
    m < y <= length u -> only_alt nets r i k (slice u m y) -> stuck_from r d m ch' fs -> stuck_from r i p (ch ++ ch') fs.
End Stuck.
