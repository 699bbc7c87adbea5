(** * Model of the command line tool: places named on the command line (src/tool/main.cpp, src/core/Util.cpp,
    Grammar.hpp, Grammar.cpp) *)
From Coq Require Import List NArith Arith Bool Lia.
From Verif Require Import CharClass Stream NFA DFA ATN Grammar CodeGen Lookahead.
Import ListNotations.
Local Open Scope nat_scope.

(** std::wostream << int, for numbers that are not negative: decimal digits, no leading zeros. *)
Fixpoint digits_f (fuel : nat) (n : N) (acc : list N) : list N :=
  match fuel with
  | O => acc
  | S f => let acc' := (48 + n mod 10)%N :: acc in if (n <? 10)%N then acc' else digits_f f (n / 10) acc'
  end.
Definition digits (n : N) : list N := digits_f (S (N.to_nat (N.log2 n))) n [].
(** operator<<(wostream, ATNPath): Util.cpp:8-19.  Paths outermost place first, as in the vector. *)
Fixpoint path_text (p : list (list N * N)) : list N :=
  match p with
  | [] => []
  | [x] => fst x ++ 46%N :: digits (snd x)
  | x :: p' => fst x ++ 46%N :: digits (snd x) ++ 47%N :: path_text p'
  end.
(** The digits read at Util.cpp:69-80 and std::stoi at 82, which throws if the value is no int. *)
Fixpoint digit_loop (l : list N) : list N * list N :=
  match l with
  | c :: t => if isdigit c then let '(a, r) := digit_loop t in (c :: a, r) else ([], l)
  | [] => ([], [])
  end.
Definition stoi (w : list N) : option N :=
  let v := fold_left (fun v c => 10 * v + (c - 48))%N w 0%N in if (v <? 2 ^ 31)%N then Some v else None.
(** ATNPath::parse: Util.cpp:58-90, on the characters the stream delivers (StreamProofs.v).  [fuel] bounds the places. *)
Fixpoint path_parse (fuel : nat) (l : list N) : sres (list (list N * N)) :=
  match fuel with
  | O => SFuel
  | S f =>
    match lident l with
    | SOk (id, t) =>
      match t with
      | c :: t1 =>
        if (c =? 46)%N then
          let '(w, t2) := digit_loop t1 in
          match w with
          | [] => SThrow
          | _ =>
            match stoi w with
            | None => SThrow
            | Some n =>
              match t2 with
              | [] => SOk [(id, n)]
              | d :: t3 =>
                if (d =? 0)%N then SOk [(id, n)]
                else if (d =? 47)%N then match path_parse f t3 with SOk p => SOk ((id, n) :: p) | e => e end
                else SThrow
              end
            end
          end
        else SThrow
      | [] => SThrow
      end
    | SThrow => SThrow
    | SFuel => SFuel
    end
  end.
(** ATNPath(wstring): Util.hpp:42-47. *)
Definition read_path (t : list N) : sres (list (list N * N)) := path_parse (S (length (deliver t))) (deliver t).

(** What a command of the tool comes to. *)
Inductive shown (A : Type) := Shown (a : A) | Refused | Undefined | Unending.
Arguments Shown {A} _. Arguments Refused {A}. Arguments Undefined {A}. Arguments Unending {A}.
(** Grammar::resolve: Grammar.hpp:59-62; m_networks.at throws, get_node (ATN.hpp:269-272) does not check the index. *)
Definition resolve (nets : list (list N * (N * atn))) (p : list (list N * N)) : shown anode :=
  match rev p with
  | [] => Undefined
  | (name, i) :: _ =>
    match lookup nets name with
    | None => Refused
    | Some (_, M) => match nth_error M (N.to_nat i) with Some n => Shown n | None => Undefined end
    end
  end.
(** generate-nfa -g -p: main.cpp:199-201, Grammar::print_nfa: Grammar.hpp:103-117.  The result: the automaton that is drawn. *)
Definition draw_nfa (nets : list (list N * (N * atn))) (text : list N) : shown nfa :=
  match read_path text with
  | SOk p => match resolve nets p with
             | Shown n => match nt n with NReg A => Shown A | _ => Refused end
             | Refused => Refused | Undefined => Undefined | Unending => Unending
             end
  | _ => Refused
  end.
(** generate-dfa -g -p: main.cpp:205-207, Grammar::print_dfa: Grammar.hpp:118-134; [opt]: --optimize. *)
Definition draw_dfa (k : nat) (opt : bool) (nets : list (list N * (N * atn))) (text : list N) : shown dfa :=
  match draw_nfa nets text with
  | Shown A => match (if opt then dfa_build k k A else dfa_plain k k A) with Some X => Shown X | None => Unending end
  | Refused => Refused | Undefined => Undefined | Unending => Unending
  end.
(** generate-ldfa: main.cpp:202-204, Grammar::print_ldfa: Grammar.cpp:34-42.  The path goes to the constructor as it is
    (no convert_atn_path); Lookahead.v has paths with the leaf first. *)
Definition draw_ldfa (k : nat) (nets : list (list N * (N * atn))) (text : list N) : shown ldfa :=
  match read_path text, composite nets with
  | SOk p, Some D =>
    match ldfa_build D k k (rev (map (fun x => (fst x, N.to_nat (snd x))) p)) with
    | SOk T => Shown T | SThrow => Refused | SFuel => Unending
    end
  | SOk _, None => Unending
  | _, _ => Refused
  end.
(** The place verify-grammar names in its message: CompositeATN.cpp:175, 9-18. *)
Definition report (name : list N) (i : nat) : list N := path_text [(name, N.of_nat i)].
(** verify_decisions again (CompositeATN.cpp:159-182, Verify.v), with the place its message names: the first node whose table
    cannot be built.  None: there is none, or the construction of the table of an earlier node has not ended. *)
Fixpoint failing_node (D : list (list N * cmach)) (k : nat) (name : list N) (i : nat) (M : atn) : sres (option (list N)) :=
  match M with
  | [] => SOk None
  | n :: M' =>
    if 1 <? length (atrs n) then
      match decision D k k name i with
      | SOk _ => failing_node D k name (S i) M'
      | SThrow => SOk (Some (report name i))
      | SFuel => SFuel
      end
    else failing_node D k name (S i) M'
  end.
Fixpoint failing_net (D : list (list N * cmach)) (k : nat) (nets : list (list N * (N * atn))) : sres (option (list N)) :=
  match nets with
  | [] => SOk None
  | (name, (_, M)) :: nets' =>
    match failing_node D k name 0 M with
    | SOk None => failing_net D k nets'
    | r => r
    end
  end.
(** generate-nfa -e, generate-dfa -e: main.cpp:217-239.  The DFA constructor minimises by default (DFA.hpp:110), so -e always
    draws the minimised automaton, with or without --optimize. *)
Definition draw_nfa_e (text : list N) : shown nfa :=
  match nfa_parse (deliver text) with SOk (A, _) => Shown A | SThrow => Refused | SFuel => Unending end.
Definition draw_dfa_e (k : nat) (opt : bool) (text : list N) : shown dfa :=
  match draw_nfa_e text with
  | Shown A => match dfa_build k k A with Some X => Shown X | None => Unending end
  | Refused => Refused | Undefined => Undefined | Unending => Unending
  end.
