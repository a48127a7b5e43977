(** What is expected of a point: it has three coordinates, everything that is read is what was written last, and
    reading is possible from several threads at once. *)
From Coq Require Import Bool List Arith.
From Flocq Require Import IEEE754.BinarySingleNaN.
From Verif Require Import DoubleModel PointModel.
Import ListNotations.

(** The operations on three coordinates. *)
Definition want (p : basic3) (o : op) : basic3 * list double :=
  let '(x, y, z) := p in
  match o with
  | SetX v => ((v, y, z), [])
  | SetY v => ((x, v, z), [])
  | SetZ v => ((x, y, v), [])
  | SetFlat (a, b) => ((a, b, z), [])
  | SetPoint q => (q, [])
  | GetX => (p, [x])
  | GetY => (p, [y])
  | GetZ => (p, [z])
  | GetPoint => (p, [x; y; z])
  | GetHead | GetFlat | LookFlat => (p, [x; y])
  end.
Fixpoint expected (p : basic3) (l : list op) : basic3 * list (list double) :=
  match l with
  | [] => (p, [])
  | o :: r => let '(p1, v) := want p o in let '(p2, vs) := expected p1 r in (p2, v :: vs)
  end.

(** The same number; the sign of a zero does not count. *)
Definition same (a b : double) : Prop :=
  a = b \/ exists s t, a = B754_zero s /\ b = B754_zero t.
(** Zero with a sign. *)
Definition minus_zero (a : double) : Prop := a = B754_zero true.
Definition sets (o : op) : list double :=
  match o with
  | SetX v | SetY v | SetZ v => [v]
  | SetFlat (a, b) => [a; b]
  | SetPoint (a, b, c) => [a; b; c]
  | _ => []
  end.
Definition reads_only (o : op) : Prop := sets o = [].

(** Two threads are about to access the same cell, and one of them to write. *)
Definition accesses (t : thread) (c : cell) : Prop := exists r, t_todo t = Load c :: r \/ t_todo t = Store c :: r.
Definition stores (t : thread) (c : cell) : Prop := exists r, t_todo t = Store c :: r.
Definition race (ts : threads) : Prop := exists i j c, i <> j /\ stores (ts i) c /\ accesses (ts j) c.
(** The programs can get there. *)
Definition racy (d : point_data) (progs : nat -> list op) : Prop :=
  exists m ts, reach (layout d) (start progs) m ts /\ race ts.

(** Not a number, and the comparison of doubles. *)
Definition not_a_number (a : double) : Prop := a = B754_nan.
(** The copy has the coordinates of the point, as == of doubles says. *)
Definition up_to_date (d : point_data) : Prop :=
  Beqb (fst (fst (pd_point d))) (fst (pd_flat d)) = true /\ Beqb (snd (fst (pd_point d))) (snd (pd_flat d)) = true.

(** The same for all points of a map. *)
Definition maccesses (t : mthread) (n : nat) (c : cell) : Prop :=
  exists r, mt_todo t = (n, Load c) :: r \/ mt_todo t = (n, Store c) :: r.
Definition mstores (t : mthread) (n : nat) (c : cell) : Prop := exists r, mt_todo t = (n, Store c) :: r.
Definition mrace (ts : mthreads) : Prop := exists i j n c, i <> j /\ mstores (ts i) n c /\ maccesses (ts j) n c.
Definition mracy (d : nat -> point_data) (progs : nat -> list (nat * op)) : Prop :=
  exists ms ts, mreach (fun n => layout (d n)) (mstart progs) ms ts /\ mrace ts.
