(** * Model of reading a grammar file (src/core/Grammar.cpp, Grammar.hpp) and of the callback
    table (src/core/Context.hpp) *)
From Coq Require Import List NArith Bool Arith.
From Verif Require Import CharClass Stream NFA ATN Layout.
Import ListNotations.
Local Open Scope N_scope.

Fixpoint eqname (a b : list N) : bool :=
  match a, b with
  | [], [] => true
  | x :: a, y :: b => (x =? y) && eqname a b
  | _, _ => false
  end.
(** Grammar's fields: Grammar.hpp:53-57.  [g_nets]: m_networks, an unordered_map, with the id
    (m_globalid) and the network of each name; only looked up. *)
Record gstate := mkG { g_nets : list (list N * (N * atn)); g_ids : list (list N); g_root : list N; g_name : list N }.
Definition empty_grammar : gstate := mkG [] [] [] [].
Definition lookup (nets : list (list N * (N * atn))) (name : list N) : option (N * atn) :=
  match find (fun p => eqname (fst p) name) nets with Some p => Some (snd p) | None => None end.
(** A rule definition: Grammar.cpp:112-122 (insert leaves an existing entry alone). *)
Definition define (g : gstate) (name : list N) (id : N) (M : atn) : gstate :=
  mkG (match lookup (g_nets g) name with Some _ => g_nets g | None => g_nets g ++ [(name, (id, M))] end)
      (g_ids g ++ [name])
      (match g_root g with [] => name | r => r end)
      (g_name g).
(** make_include_path (Layout.v): Grammar.cpp:7-22.  Encoding of the path: identity. *)
Definition include_path (base dest : list N) : list N := make_include_path base dest.
(** The loop reading the quoted path: Grammar.cpp:97-100.  get() returns 0 at the end of the
    text, for ever. *)
Fixpoint path_loop (fuel : nat) (t acc : list N) : sres (list N * list N) :=
  match fuel with
  | O => SFuel
  | S f =>
    match t with
    | [] => path_loop f [] (0 :: acc)
    | c :: t' => if c =? 34 then SOk (rev acc, t') else path_loop f t' (c :: acc)
    end
  end.
Definition kw_grammar : list N := [103; 114; 97; 109; 109; 97; 114].
Definition kw_include : list N := [105; 110; 99; 108; 117; 100; 101].
(** Grammar::parse: Grammar.cpp:41-127.  [fs]: the text read from a file (empty if it cannot be
    opened); [file]: the name of the file being read, [t]: its remaining characters, [mid]:
    machine_id.  Fuel: iterations and nested calls; running out for every fuel is
    non-termination. *)
Fixpoint gread (fuel : nat) (fs : list N -> list N) (file t : list N) (mid : N) (g : gstate) : sres (N * gstate) :=
  match fuel with
  | O => SFuel
  | S f =>
    match lskip1 t with
    | SOk t1 =>
      if lpeek t1 =? 0 then SOk (mid, g)
      else if 65536 <=? mid then SThrow
      else match lident t1 with
           | SOk (id, t2) =>
             if eqname id kw_grammar then
               match lskip1 t2 with
               | SOk t3 =>
                 match lident t3 with
                 | SOk (nm, t4) =>
                   match lskip1 t4 with
                   | SOk t5 => if lpeek t5 =? 59 then gread f fs file (tl t5) mid (mkG (g_nets g) (g_ids g) (g_root g) nm) else SThrow
                   | SThrow => SThrow | SFuel => SFuel
                   end
                 | SThrow => SThrow | SFuel => SFuel
                 end
               | SThrow => SThrow | SFuel => SFuel
               end
             else if eqname id kw_include then
               match lskip1 t2 with
               | SOk t3 =>
                 if lpeek t3 =? 34 then
                   match path_loop f (tl t3) [] with
                   | SOk (p, t4) =>
                     match lskip1 t4 with
                     | SOk t5 =>
                       if lpeek t5 =? 59 then
                         match gread f fs (include_path file p) (deliver (fs (include_path file p))) mid g with
                         | SOk (mid', g') => gread f fs file (tl t5) mid' g'
                         | e => e
                         end
                       else SThrow
                     | SThrow => SThrow | SFuel => SFuel
                     end
                   | SThrow => SThrow | SFuel => SFuel
                   end
                 else SThrow
               | SThrow => SThrow | SFuel => SFuel
               end
             else
               match atn_parse (0 <? mid) t2 with
               | SOk (M, t3) => gread f fs file t3 (mid + 1) (define g id mid M)
               | SThrow => SThrow | SFuel => SFuel
               end
           | SThrow => SThrow | SFuel => SFuel
           end
    | SThrow => SThrow | SFuel => SFuel
    end
  end.
(** Reading a file into an empty grammar: Grammar::parse(filename, 1). *)
Definition read_grammar (fuel : nat) (fs : list N -> list N) (file : list N) : sres (N * gstate) :=
  gread fuel fs file (deliver (fs file)) 1 empty_grammar.
(** get_machine_num, get_machine_id: Grammar.hpp:145-148, 161-164. *)
Definition machine_num (g : gstate) : N := N.of_nat (length (g_nets g)).
Definition machine_id (g : gstate) (name : list N) : option N :=      (* None: at() throws *)
  match lookup (g_nets g) name with Some p => Some (fst p) | None => None end.

(** ** Callbacks *)
(** Context's constructor and attach: Context.hpp:88, 127-132.  None: outside the table. *)
Definition new_table {C} (g : gstate) : list (option C) := repeat None (S (length (g_nets g))).
Inductive attach_result {C : Type} := Attached (t : list (option C)) | NoSuchRule | OutOfBounds.
Definition attach {C} (g : gstate) (t : list (option C)) (name : list N) (cb : C) : @attach_result C :=
  match machine_id g name with
  | None => NoSuchRule
  | Some id => if id <? N.of_nat (length t) then Attached (upd_nth t (N.to_nat id) (fun _ => Some cb)) else OutOfBounds
  end.
(** Context::callback: Context.hpp:66-75: the function called for a symbol with this id. *)
Definition called {C} (t : list (option C)) (id : N) : option C :=
  if id <? N.of_nat (length t) then nth (N.to_nat id) t None else None.
