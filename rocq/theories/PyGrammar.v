(** * Model of the Python side's rule names and handlers
    (src/python/centaurus/corelib.py, listener.py; src/core/Grammar.hpp) *)
From Coq Require Import List NArith ZArith Arith Bool.
From Verif Require Import CharClass Stream NFA ATN Grammar.
Import ListNotations.
Local Open Scope nat_scope.

(** enum_machines: Grammar.hpp:169-175 (through GrammarEnumMachines, PyCentaurus.cpp:39-42): the callbacks, in order. *)
Definition enum_machines (g : gstate) : list (list N * nat) := combine (g_ids g) (seq 1 (length (g_ids g))).
(** A Python dict from strings: insertion order; assignment to a present key keeps its place. *)
Fixpoint dict_set {V} (d : list (list N * V)) (k : list N) (v : V) : list (list N * V) :=
  match d with
  | [] => [(k, v)]
  | (k', v') :: d' => if eqname k' k then (k', v) :: d' else (k', v') :: dict_set d' k v
  end.
Fixpoint dict_get {V} (d : list (list N * V)) (k : list N) : option V :=       (* None: KeyError *)
  match d with
  | [] => None
  | (k', v) :: d' => if eqname k' k then Some v else dict_get d' k
  end.
(** self.ids after the enumeration: corelib.py:36-37, 41-42. *)
Definition py_ids (g : gstate) : list (list N * nat) := fold_left (fun d c => dict_set d (fst c) (snd c)) (enum_machines g) [].
(** l[i] = v and l[i] for a Python list; None: IndexError.  A negative index counts from the end. *)
Definition py_index (n : nat) (i : Z) : option nat :=
  if (0 <=? i)%Z then if (i <? Z.of_nat n)%Z then Some (Z.to_nat i) else None
  else if (- Z.of_nat n <=? i)%Z then Some (Z.to_nat (Z.of_nat n + i)) else None.
Definition py_set {A} (l : list A) (i : Z) (v : A) : option (list A) := option_map (fun k => upd_nth l k (fun _ => v)) (py_index (length l) i).
Definition py_get {A} (l : list A) (i : Z) : option A := match py_index (length l) i with Some k => nth_error l k | None => None end.
(** self.names: corelib.py:38-40. *)
Definition py_names (ids : list (list N * nat)) : option (list (list N)) :=
  fold_left (fun r c => match r with Some l => py_set l (Z.of_nat (snd c) - 1) (fst c) | None => None end) ids (Some (repeat [] (length ids))).
(** Grammar.__init__: corelib.py:33-40.  None: IndexError leaves the constructor. *)
Record pygrammar := mkPG { pg_ids : list (list N * nat); pg_names : list (list N) }.
Definition py_grammar (g : gstate) : option pygrammar := option_map (mkPG (py_ids g)) (py_names (py_ids g)).
(** get_machine_id, get_machine_name, get_machine_num: corelib.py:49-54. *)
Definition py_machine_id (p : pygrammar) (name : list N) : option nat := dict_get (pg_ids p) name.
Definition py_machine_name (p : pygrammar) (id : nat) : option (list N) := py_get (pg_names p) (Z.of_nat id - 1).
Definition py_machine_num (p : pygrammar) : nat := length (pg_ids p).

(** ** Handlers *)
Definition kw_parse : list N := [112; 97; 114; 115; 101]%N.
Definition kw_defaultact : list N := [100; 101; 102; 97; 117; 108; 116; 97; 99; 116]%N.
(** The exceptions of the constructor of an adapter. *)
Inductive adapter {H : Type} := Adapter (handlers : list (option H)) | Missing (rule : list N) | AdapterIndexError.
Section Adapter.
Context {H : Type}.
(** hasattr and getattr of the listener object. *)
Variable attr : list N -> option H.
(** BaseListenerAdapter.__init__: listener.py:18-30; [hs]: self.handlers. *)
Fixpoint adapter_loop (p : pygrammar) (indices : list nat) (hs : list (option H)) : adapter :=
  match indices with
  | [] => Adapter hs
  | i :: indices' =>
    match py_machine_name p i with
    | None => AdapterIndexError
    | Some name =>
      match attr (kw_parse ++ name) with
      | Some h => adapter_loop p indices' (hs ++ [Some h])
      | None => match attr kw_defaultact with
                | Some h => adapter_loop p indices' (hs ++ [Some h])
                | None => Missing name
                end
      end
    end
  end.
Definition new_adapter (p : pygrammar) : adapter := adapter_loop p (seq 1 (py_machine_num p)) [None].
(** self.handlers[symbol.id]: listener.py:35.  None: IndexError, or None is not callable. *)
Definition handler_called (hs : list (option H)) (id : N) : option H := match py_get hs (Z.of_N id) with Some (Some h) => Some h | _ => None end.
End Adapter.
