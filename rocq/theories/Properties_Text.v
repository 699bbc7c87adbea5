(** * Properties C34, C35, C40: reading grammar texts character by character *)
From Coq Require Import List NArith Bool Lia ZifyBool ZifyN.
From Verif Require Import Stream StreamSpec StreamProofs.
Import ListNotations.
Open Scope N_scope.

(** C34: for texts without CR and NUL, skipping stops exactly after the maximal sequence of
    blanks, or throws, which happens only at a block comment that is never closed. *)
Theorem C34_skip_exact_partial : forall s : stream, ~ In 0 (rest s) -> ~ In 13 (rest s) ->
  match skip_whitespace s with
  | SOk s' => blanks (rest s) (rest s') /\ forall r, ~ blank1 (rest s') r
  | SThrow => exists c, blanks (rest s) (47 :: 42 :: c) /\ ~ occurs [42; 47] c
  | SFuel => False
  end.
Proof. exact skip_exact. Qed.
Print Assumptions C34_skip_exact_partial.
Example C34_hyp : let t := [32; 47;47;97;10; 47;42;42;42;47; 9; 120] in
  ~ In 0 t /\ ~ In 13 t /\ exists s', skip_whitespace (open_text t) = SOk s' /\ rest s' = [120].
Proof. cbn. repeat split; [lia|lia|]. vm_compute. eauto. Qed.
(** ... and there is only one such place. *)
Theorem C34_blanks_unambiguous : forall t u v, blanks t u -> (forall w, ~ blank1 u w) ->
  blanks t v -> (forall w, ~ blank1 v w) -> u = v.
Proof. exact blanks_det. Qed.
Print Assumptions C34_blanks_unambiguous.
(** Skipping terminates on every text whatsoever. *)
Theorem C34_terminates : forall s, skip_whitespace s <> SFuel.
Proof.
  intros s E. pose proof (skip_deliver s) as D. destruct (lskip_ws (deliver (rest s))) as [l| |].
  - destruct D as (s' & D & _). congruence.
  - congruence.
  - exact D.
Qed.
Print Assumptions C34_terminates.
(** With CR LF line ends a line comment does not end at its line end: it swallows the
    next line (here "//a CR LF x": the x is lost). *)
Theorem C34_crlf_comment_refuted : exists t s',
  t = [47; 47; 97] ++ [13; 10] ++ [120] /\ skip_whitespace (open_text t) = SOk s' /\ rest s' = [].
Proof. eexists _, _. split; [reflexivity|]. split; [vm_compute; reflexivity|reflexivity]. Qed.
Print Assumptions C34_crlf_comment_refuted.

(** C35: the k-th get() consumes the k-th unit of the text (a CR LF pair being one unit),
    and the line number then is one more than the number of line-ending units before it. *)
Theorem C35_units_and_lines : forall t pre u post n,
  units t = pre ++ u :: post ->
  n = length (filter ends_lineb pre) ->
  let s := gets (S (length pre)) (open_text t) in
  rest s = concat post /\ line s = S n.
Proof.
  intros t pre u post n H Hn. cbn zeta.
  destruct (gets_line pre u post (open_text t) H) as [A B]. split; [exact A|].
  rewrite B. cbn [open_text line nlf]. assert (countb pre = length (filter ends_lineb pre)) as ->; [|lia].
  clear. induction pre as [|v pre IH]; [reflexivity|]. cbn [countb filter]. destruct (ends_lineb v); cbn [length]; lia.
Qed.
Print Assumptions C35_units_and_lines.
(** [ends_lineb] is the specification's [ends_line] on the units of a text. *)
Theorem C35_line_ends : forall t u, In u (units t) -> (ends_lineb u = true <-> ends_line u).
Proof. exact ends_lineb_spec. Qed.
Print Assumptions C35_line_ends.
Example C35_hyp : units [97; 13; 10; 98; 10; 99] = [[97]; [13; 10]; [98]; [10]] ++ [99] :: [] /\
  line (gets 5 (open_text [97; 13; 10; 98; 10; 99])) = 3%nat.
Proof. split; reflexivity. Qed.
(** What get() returns for a unit: its first character, except that a CR at the very end of
    the text is returned as LF; so a text is delivered as [deliver] says. *)
Theorem C35_delivery : forall s,
  match deliver (rest s) with
  | [] => get s = (0, s)
  | d :: l => fst (get s) = d /\ deliver (rest (snd (get s))) = l
  end.
Proof. intros s. pose proof (get_deliver s) as G. destruct (deliver (rest s)); [exact G|tauto]. Qed.
Print Assumptions C35_delivery.
(** Line endings are not normalised to one character: LF and CR LF are delivered differently. *)
Theorem C35_not_normalised_refuted : fst (get (open_text [13; 10; 97])) <> fst (get (open_text [10; 97])).
Proof. vm_compute. discriminate. Qed.
Print Assumptions C35_not_normalised_refuted.
(** A lone CR is not counted as a line end. *)
Theorem C35_lone_cr_not_counted : line (gets 3 (open_text [97; 13; 98])) = 1%nat.
Proof. reflexivity. Qed.
Print Assumptions C35_lone_cr_not_counted.

(** C40: an identifier is read maximally from every text; refused iff there is none. *)
Theorem C40_identifier_exact : forall s : stream,
  match ident_parse s with
  | SOk (a, s') => rest s = a ++ rest s' /\
      (exists c a', a = c :: a' /\ (c = 95 \/ letter c) /\ Forall (fun x => x = 95 \/ letter x \/ digit x) a') /\
      (forall x t, rest s' = x :: t -> ~ (x = 95 \/ letter x \/ digit x))
  | SThrow => forall c t, rest s = c :: t -> ~ (c = 95 \/ letter c)
  | SFuel => False
  end.
Proof. exact ident_exact. Qed.
Print Assumptions C40_identifier_exact.
Example C40_hyp : exists s', ident_parse (open_text [95; 97; 57; 13; 10; 98]) = SOk ([95; 97; 57], s') /\ rest s' = [13; 10; 98].
Proof. vm_compute. eauto. Qed.
