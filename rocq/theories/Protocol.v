(** * Model of the bank hand-over protocol between the parser (stage 1), any number of
    reduction workers (stage 2) and the merger (stage 3).

    One transition = one shared-memory access (load, compare-exchange, store, semaphore
    operation) of one thread; threads interleave arbitrarily.  Simplifications: memory is
    sequentially consistent (std::atomic defaults; the plain [number] field and the bank
    contents are published by the stores to [state]); reading a whole bank, reducing it and
    writing the result back are one step each; the parse needs [K] pages and page k holds
    the data [page k]; [red] is what stage 2 makes of a page. *)
From Coq Require Import List Arith Bool.
Import ListNotations.

(** WindowBankState: BaseRunner.hpp:90-99. *)
Inductive bst := Free | S1L | S1U | S2L | S2U | S3L | Done.
Definition bst_eqb (a b : bst) : bool :=
  match a, b with
  | Free, Free | S1L, S1L | S1U, S1U | S2L, S2L | S2U, S2U | S3L, S3L | Done, Done => true
  | _, _ => false
  end.

Section P.
Context {P R : Type}.
Variable n : nat.                (* m_bank_num *)
Variable W : nat.                (* number of stage 2 runners *)
Variable K : nat.                (* pages the parse fills *)
Variable page : nat -> P.
Variable red : P -> R.

(** Contents of a bank: page data, its reduction (Stage2RunnerNonRecursive.hpp:175
    or :160-173), or neither (being overwritten, or never used). *)
Inductive content := Junk | Raw (p : P) | Red (r : R).
(** WindowBankEntry (BaseRunner.hpp:100-104) and the bank's memory. *)
Record bank := mkB { st : bst; num : nat; data : content }.

(** Where stage 1 is (Stage1Runner.hpp): in reset_banks at i; in acquire_bank's scan at i;
    filling bank b (two steps); in release_bank before writing the number, before the state
    store, before the semaphore post; in signal_exit's scan at i having counted c busy banks;
    in its second loop before the store to i, before the post for i; finished. *)
Inductive pc1 :=
| Reset (i : nat) | Acq (i : nat) | Fill (b : nat) | Fill2 (b : nat)
| RelNum (b : nat) | RelSt (b : nat) | Post
| ExScan (i c : nat) | ExSt (i : nat) | ExPost (i : nat) | End1.
(** A stage 2 runner: waiting on the semaphore; scanning at i; reading bank b; holding the
    reduced data; before the state store of release_bank; finished; read something that is
    not a page. *)
Inductive pc2 :=
| Wait | Scan (i : nat) | Read2 (b : nat) | Write2 (b : nat) (r : R) | Rel2 (b : nat) | End2 | Err2.
(** Stage 3: scanning at i (load compared with Stage2_Unlocked; second load compared with
    YouAreDone; number test; store of Stage3_Locked), merging bank b, releasing it, finished;
    found something that is not a reduced page. *)
Inductive pc3 :=
| Scan3 (i : nat) | ScanD3 (i : nat) | Num3 (i : nat) | Lock3 (i : nat)
| Merge3 (b : nat) | Rel3 (b : nat) | End3 | Err3.

Record state := mkSt {
  banks : nat -> bank;
  sem : nat;
  p1 : pc1; cnt1 : nat;                 (* Stage1Runner::m_counter *)
  p2 : nat -> pc2;
  p3 : pc3; cnt3 : nat;                 (* Stage3Runner::m_counter *)
  processed : list (nat * P);           (* history: (number, page) reduced by stage 2, newest first *)
  merged : list R }.                    (* history: reductions merged by stage 3, newest first *)

Definition upd {A} (f : nat -> A) (i : nat) (x : A) : nat -> A := fun j => if j =? i then x else f j.
Definition set_st (bs : nat -> bank) (i : nat) (x : bst) := upd bs i (mkB x (num (bs i)) (data (bs i))).
Definition set_num (bs : nat -> bank) (i : nat) (x : nat) := upd bs i (mkB (st (bs i)) x (data (bs i))).
Definition set_data (bs : nat -> bank) (i : nat) (x : content) := upd bs i (mkB (st (bs i)) (num (bs i)) x).

Definition set1 (s : state) (bs : nat -> bank) (sm : nat) (p : pc1) (c : nat) : state :=
  mkSt bs sm p c (p2 s) (p3 s) (cnt3 s) (processed s) (merged s).
Definition set2 (s : state) (w : nat) (bs : nat -> bank) (sm : nat) (p : pc2) (pr : list (nat * P)) : state :=
  mkSt bs sm (p1 s) (cnt1 s) (upd (p2 s) w p) (p3 s) (cnt3 s) pr (merged s).
Definition set3 (s : state) (bs : nat -> bank) (p : pc3) (c : nat) (m : list R) : state :=
  mkSt bs (sem s) (p1 s) (cnt1 s) (p2 s) p c (processed s) m.

(** One step of stage 1; [sp]: compare_exchange_weak fails spuriously.
    thread_runner_impl Stage1Runner.hpp:23-33, acquire_bank 34-46, release_bank 47-65,
    reset_banks 66-72, signal_exit 73-89, feed_callback 107-111. *)
Definition step1 (sp : bool) (s : state) : state :=
  let bs := banks s in
  match p1 s with
  | Reset i => if i <? n then set1 s (set_st bs i Free) (sem s) (Reset (S i)) (cnt1 s)
               else set1 s bs (sem s) (Acq 0) (cnt1 s)
  | Acq i => if i <? n then
               if bst_eqb (st (bs i)) Free && negb sp
               then set1 s (set_st bs i S1L) (sem s) (Fill i) (cnt1 s)
               else set1 s bs (sem s) (Acq (S i)) (cnt1 s)
             else set1 s bs (sem s) (Acq 0) (cnt1 s)
  | Fill b => set1 s (set_data bs b Junk) (sem s) (Fill2 b) (cnt1 s)
  | Fill2 b => set1 s (set_data bs b (Raw (page (cnt1 s)))) (sem s) (RelNum b) (cnt1 s)
  | RelNum b => set1 s (set_num bs b (cnt1 s)) (sem s) (RelSt b) (S (cnt1 s))
  | RelSt b => set1 s (set_st bs b S1U) (sem s) Post (cnt1 s)
  | Post => set1 s bs (S (sem s)) (if cnt1 s <? K then Acq 0 else ExScan 0 0) (cnt1 s)
  | ExScan i c => if i <? n
                  then set1 s bs (sem s) (ExScan (S i) (if bst_eqb (st (bs i)) Free then c else S c)) (cnt1 s)
                  else set1 s bs (sem s) (if c =? 0 then ExSt 0 else ExScan 0 0) (cnt1 s)
  | ExSt i => if i <? n then set1 s (set_st bs i Done) (sem s) (ExPost i) (cnt1 s)
              else set1 s bs (sem s) End1 (cnt1 s)
  | ExPost i => set1 s bs (S (sem s)) (ExSt (S i)) (cnt1 s)
  | End1 => s
  end.

(** One step of stage 2 runner [w]: Stage2RunnerNonRecursive.hpp:124-133 (thread_runner_impl),
    134-177 (reduce_bank), 179-197 (acquire_bank), 198-204 (release_bank).  sem_wait on 0
    blocks, i.e. leaves the state unchanged. *)
Definition step2 (w : nat) (sp : bool) (s : state) : state :=
  let bs := banks s in
  match p2 s w with
  | Wait => match sem s with
            | O => s
            | S k => set2 s w bs k (Scan 0) (processed s)
            end
  | Scan i => if i <? n then
                if bst_eqb (st (bs i)) S1U && negb sp
                then set2 s w (set_st bs i S2L) (sem s) (Read2 i) (processed s)
                else if bst_eqb (st (bs i)) Done
                then set2 s w bs (sem s) End2 (processed s)
                else set2 s w bs (sem s) (Scan (S i)) (processed s)
              else set2 s w bs (sem s) (Scan 0) (processed s)
  | Read2 b => match data (bs b) with
               | Raw p => set2 s w bs (sem s) (Write2 b (red p)) ((num (bs b), p) :: processed s)
               | _ => set2 s w bs (sem s) Err2 (processed s)
               end
  | Write2 b r => set2 s w (set_data bs b (Red r)) (sem s) (Rel2 b) (processed s)
  | Rel2 b => set2 s w (set_st bs b S2U) (sem s) Wait (processed s)
  | End2 | Err2 => s
  end.

(** One step of stage 3: Stage3RunnerNonRecursive.hpp:19-29 (thread_runner_impl), 31-117
    (reduce: acquire, take the contents, release, until acquire returns null), 135-155
    (acquire_bank), 156-163 (release_bank). *)
Definition step3 (s : state) : state :=
  let bs := banks s in
  match p3 s with
  | Scan3 i => if i <? n then
                 if bst_eqb (st (bs i)) S2U then set3 s bs (Num3 i) (cnt3 s) (merged s)
                 else set3 s bs (ScanD3 i) (cnt3 s) (merged s)
               else set3 s bs (Scan3 0) (cnt3 s) (merged s)
  | ScanD3 i => if bst_eqb (st (bs i)) Done then set3 s bs End3 (cnt3 s) (merged s)
                else set3 s bs (Scan3 (S i)) (cnt3 s) (merged s)
  | Num3 i => if num (bs i) =? cnt3 s then set3 s bs (Lock3 i) (cnt3 s) (merged s)
              else set3 s bs (Scan3 (S i)) (cnt3 s) (merged s)
  | Lock3 i => set3 s (set_st bs i S3L) (Merge3 i) (S (cnt3 s)) (merged s)
  | Merge3 b => match data (bs b) with
                | Red r => set3 s bs (Rel3 b) (cnt3 s) (r :: merged s)
                | _ => set3 s bs Err3 (cnt3 s) (merged s)
                end
  | Rel3 b => set3 s (set_st bs b Free) (Scan3 0) (cnt3 s) (merged s)
  | End3 | Err3 => s
  end.

Inductive thread := T1 | T2 (w : nat) | T3.
(** One scheduling decision: which thread moves, and whether its CAS fails spuriously. *)
Definition step (t : thread) (sp : bool) (s : state) : state :=
  match t with
  | T1 => step1 sp s
  | T2 w => if w <? W then step2 w sp s else s
  | T3 => step3 s
  end.

(** Fresh shared memory is zero (Free = 0); BaseRunner.hpp:241-257. *)
Definition init : state :=
  mkSt (fun _ => mkB Free 0 Junk) 0 (Reset 0) 0 (fun _ => Wait) (Scan3 0) 0 [] [].

Definition run (sched : list (thread * bool)) (s : state) : state :=
  fold_left (fun s l => step (fst l) (snd l) s) sched s.
Definition reachable (s : state) : Prop := exists sched, s = run sched init.

(** Everybody has returned. *)
Definition final (s : state) : Prop :=
  p1 s = End1 /\ (forall w, w < W -> p2 s w = End2) /\ p3 s = End3.

(** Thread [t] currently owns bank [b]: it acquired it and has not released it yet. *)
Definition owns (t : thread) (b : nat) (s : state) : Prop :=
  match t with
  | T1 => p1 s = Fill b \/ p1 s = Fill2 b \/ p1 s = RelNum b \/ p1 s = RelSt b
  | T2 w => w < W /\ (p2 s w = Read2 b \/ (exists r, p2 s w = Write2 b r) \/ p2 s w = Rel2 b)
  | T3 => p3 s = Merge3 b \/ p3 s = Rel3 b
  end.
End P.
Arguments state : clear implicits.
Arguments bank : clear implicits.
Arguments content : clear implicits.
