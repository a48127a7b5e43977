(** Model of the global id generator of Lanelet2.

    lanelet2_core/src/LaneletMap.cpp:879-891 (currId, utils::getId,
    utils::registerId). Id is int64_t (lanelet2_core/include/lanelet2_core/Forward.h). *)
From Coq Require Import ZArith List Bool.
Import ListNotations.
Open Scope Z_scope.

(** Largest value of the type Id = int64_t. *)
Definition id_max : Z := 2^63 - 1.
(** Initial value of [currId]; LaneletMap.cpp:880. *)
Definition first_id : Z := 1000.

(** Atomic integers wrap around on ++ (C++ [atomics.types.int]); plain signed
    arithmetic overflow is undefined. *)
Definition wrap64 (z : Z) : Z := (z + 2^63) mod 2^64 - 2^63.

(** The two library calls. *)
Inductive call := GetId | RegisterId (x : Z).

(** Where a thread stands inside a call.
    [InGet]: called, the atomic increment not yet executed (LaneletMap.cpp:883);
    [GotId v]: increment executed, not yet returned;
    [InReg x]: registerId called, nothing executed (line 887);
    [RegLoop x n cur]: newId = n computed, local variable current = cur, about to
    evaluate the loop condition (line 889);
    [RegDone x]: loop left, not yet returned. *)
Inductive phase :=
| Idle
| InGet
| GotId (v : Z)
| InReg (x : Z)
| RegLoop (x n cur : Z)
| RegDone (x : Z).

Record thread := Thread { th_todo : list call; th_phase : phase }.

(** Observable events: invocation and return of a call by a thread. *)
Inductive event :=
| InvGet (t : nat)
| RetGet (t : nat) (v : Z)
| InvReg (t : nat) (x : Z)
| RetReg (t : nat) (x : Z).

Definition ev_thread (e : event) : nat :=
  match e with InvGet t | RetGet t _ | InvReg t _ | RetReg t _ => t end.

Record state := State {
  st_cell : Z;              (* currId *)
  st_threads : list thread;
  st_trace : list event;    (* oldest first *)
  st_ub : bool              (* signed overflow happened *)
}.

Fixpoint set_nth {A} (n : nat) (x : A) (l : list A) : list A :=
  match l, n with
  | [], _ => []
  | _ :: r, O => x :: r
  | y :: r, S n' => y :: set_nth n' x r
  end.

(** One atomic step of thread [t]. [spurious] says that compare_exchange_weak
    fails although the values are equal (allowed by the standard).
    All accesses are seq_cst, so interleaving semantics is exact. *)
Definition step (s : state) (sched : nat * bool) : state :=
  let '(t, spurious) := sched in
  match nth_error (st_threads s) t with
  | None => s
  | Some th =>
    let upd c ph todo ev :=
      State c (set_nth t (Thread todo ph) (st_threads s)) (st_trace s ++ ev) (st_ub s) in
    match th_phase th with
    | Idle =>
      match th_todo th with
      | [] => s
      | GetId :: rest => upd (st_cell s) InGet rest [InvGet t]
      | RegisterId x :: rest => upd (st_cell s) (InReg x) rest [InvReg t x]
      end
    | InGet => (* return currId++; LaneletMap.cpp:883 *)
      upd (wrap64 (st_cell s + 1)) (GotId (st_cell s)) (th_todo th) []
    | GotId v => upd (st_cell s) Idle (th_todo th) [RetGet t v]
    | InReg x => (* Id newId = id + 1; Id current = currId.load(); 887-888 *)
      if x =? id_max
      then State (st_cell s) (st_threads s) (st_trace s) true
      else upd (st_cell s) (RegLoop x (x + 1) (st_cell s)) (th_todo th) []
    | RegLoop x n cur => (* while (current < newId && !CAS(current, newId)); 889 *)
      if cur <? n then
        if (st_cell s =? cur) && negb spurious
        then upd n (RegDone x) (th_todo th) []
        else upd (st_cell s) (RegLoop x n (st_cell s)) (th_todo th) []
      else upd (st_cell s) (RegDone x) (th_todo th) []
    | RegDone x => upd (st_cell s) Idle (th_todo th) [RetReg t x]
    end
  end.

Definition run (s : state) (sched : list (nat * bool)) : state := fold_left step sched s.

Definition init (progs : list (list call)) : state :=
  State first_id (map (fun p => Thread p Idle) progs) [] false.
