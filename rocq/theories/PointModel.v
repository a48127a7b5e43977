(** Points: the coordinates, the copy of x and y kept beside them, and the accesses to memory of a read.

    Source: lanelet2_core/include/lanelet2_core/primitives/Point.h. All handles of a point (ConstPoint2d, ConstPoint3d,
    Point2d, Point3d) share one PointData; converting one into another copies the pointer only, so the handle does not
    occur in the model. Coordinates are IEEE 754 doubles (Flocq). Ids and attributes are left out. *)
From Coq Require Import Bool List Arith.
From Flocq Require Import IEEE754.BinarySingleNaN.
From Verif Require Import DoubleModel.
Import ListNotations.

Definition basic2 := (double * double)%type.
Definition basic3 := (double * double * double)%type.
Definition bx (p : basic3) : double := fst (fst p).
Definition by_ (p : basic3) : double := snd (fst p).
Definition bz (p : basic3) : double := snd p.
(** Eigen's head<2>(). *)
Definition head2 (p : basic3) : basic2 := fst p.

(** Point.h:105-125, PointData: point and point2d_. *)
Record point_data := PointData { pd_point : basic3; pd_flat : basic2 }.

(** Point.h:107-108, the constructor. *)
Definition make (p : basic3) : point_data := PointData p (bx p, by_ p).

(** operator!= of double and of Eigen's matrices (any component differs). *)
Definition ne (a b : double) : bool := negb (Beqb a b).
Definition differs (a b : basic2) : bool := ne (fst a) (fst b) || ne (snd a) (snd b).

(** Point.h:114-119, PointData::point2d: the copy is renewed if it differs. The result is a reference to the copy. *)
Definition point2d (d : point_data) : point_data :=
  if differs (head2 (pd_point d)) (pd_flat d) then PointData (pd_point d) (head2 (pd_point d)) else d.

(** What can be done with a point through its handles. *)
Inductive op :=
| SetX (v : double)        (** x() of Point2d (257) and Point3d (303), assigned to *)
| SetY (v : double)        (** y() of Point2d (260) and Point3d (306), assigned to *)
| SetZ (v : double)        (** z() of Point3d (309), assigned to *)
| SetFlat (q : basic2)     (** basicPoint() of a mutable Point2d (251): a view on the coordinates, assigned to *)
| SetPoint (p : basic3)    (** basicPoint() and the conversion of a mutable Point3d (291, 297), assigned to *)
| GetX | GetY              (** x(), y() of every handle (189, 192) *)
| GetZ                     (** z() of ConstPoint3d and Point3d (224) *)
| GetHead                  (** the conversion of a Point2d to BasicPoint2d (246-248), and reads through (251) *)
| GetPoint                 (** basicPoint() of ConstPoint3d and Point3d (221, 300), read at once or later *)
| GetFlat                  (** basicPoint2d() of every handle (186), basicPoint() and the conversion of ConstPoint2d
                               (177-182), basicPoint() of a const Point2d (254), read at once *)
| LookFlat.                (** a reference that such a call has returned before, read again *)

(** One operation: the point afterwards and the values read. *)
Definition step (d : point_data) (o : op) : point_data * list double :=
  let '(x, y, z) := pd_point d in
  match o with
  | SetX v => (PointData (v, y, z) (pd_flat d), [])
  | SetY v => (PointData (x, v, z) (pd_flat d), [])
  | SetZ v => (PointData (x, y, v) (pd_flat d), [])
  | SetFlat q => (PointData (fst q, snd q, z) (pd_flat d), [])
  | SetPoint p => (PointData p (pd_flat d), [])
  | GetX => (d, [x])
  | GetY => (d, [y])
  | GetZ => (d, [z])
  | GetHead => (d, [x; y])
  | GetPoint => (d, [x; y; z])
  | GetFlat => let d' := point2d d in (d', [fst (pd_flat d'); snd (pd_flat d')])
  | LookFlat => (d, [fst (pd_flat d); snd (pd_flat d)])
  end.

Fixpoint run (d : point_data) (l : list op) : point_data * list (list double) :=
  match l with
  | [] => (d, [])
  | o :: r => let '(d1, v) := step d o in let '(d2, vs) := run d1 r in (d2, v :: vs)
  end.

(** ** Accesses to memory *)

(** The doubles of a PointData: point and point2d_. *)
Inductive cell := PX | PY | PZ | FX | FY.
Definition cell_eqb (a b : cell) : bool :=
  match a, b with PX, PX | PY, PY | PZ, PZ | FX, FX | FY, FY => true | _, _ => false end.
Definition memory := cell -> double.
Definition write (m : memory) (c : cell) (v : double) : memory := fun c' => if cell_eqb c c' then v else m c'.
Definition layout (d : point_data) : memory := fun c =>
  match c with
  | PX => bx (pd_point d) | PY => by_ (pd_point d) | PZ => bz (pd_point d)
  | FX => fst (pd_flat d) | FY => snd (pd_flat d)
  end.

Inductive instr :=
| Load (c : cell)                  (** read a cell into a register *)
| Store (c : cell)                 (** write the value read last *)
| Compare (rest : list instr).     (** if the two values read last differ renew the copy, otherwise do [rest] *)

(** Point.h:116, point2d_ = point.head<2>(). *)
Definition renew : list instr := [Load PX; Store FX; Load PY; Store FY].
(** Point.h:115-118: Eigen's any() stops at the first component that differs; afterwards the caller reads the copy. *)
Definition code (o : op) : list instr :=
  match o with
  | GetX => [Load PX]
  | GetY => [Load PY]
  | GetZ => [Load PZ]
  | GetHead => [Load PX; Load PY]
  | GetPoint => [Load PX; Load PY; Load PZ]
  | GetFlat => [Load PX; Load FX; Compare [Load PY; Load FY; Compare []]; Load FX; Load FY]
  | LookFlat => [Load FX; Load FY]
  | _ => []     (* assignments are not part of the programs considered here *)
  end.

(** A thread: what is left to do and the values read so far, the last first. *)
Record thread := Thread { t_todo : list instr; t_regs : list double }.

(** One step of a thread. A Store before any Load does not occur. *)
Definition thread_step (m : memory) (t : thread) : memory * thread :=
  match t_todo t with
  | [] => (m, t)
  | Load c :: r => (m, Thread r (m c :: t_regs t))
  | Store c :: r => (match t_regs t with v :: _ => write m c v | [] => m end, Thread r (t_regs t))
  | Compare rest :: r =>
      match t_regs t with
      | b :: a :: _ => (m, Thread ((if ne a b then renew else rest) ++ r) (t_regs t))
      | _ => (m, Thread r (t_regs t))
      end
  end.

(** Any number of threads, in any order (sequentially consistent; a race is undefined behaviour anyway). *)
Definition threads := nat -> thread.
Definition update (ts : threads) (i : nat) (t : thread) : threads := fun j => if Nat.eqb i j then t else ts j.
Inductive reach (m0 : memory) (ts0 : threads) : memory -> threads -> Prop :=
| reach_start : reach m0 ts0 m0 ts0
| reach_step i m ts : reach m0 ts0 m ts ->
    reach m0 ts0 (fst (thread_step m (ts i))) (update ts i (snd (thread_step m (ts i)))).

(** The threads of programs that read a point. *)
Definition start (progs : nat -> list op) : threads := fun i => Thread (flat_map code (progs i)) [].

(** ** The points of a map *)

(** Every point has its own cells. A thread reads them in any order, like 2D geometry does with the points of line strings;
    the values read are kept per point (the local variables of the inlined functions). *)
Definition memories := nat -> memory.
Record mthread := MThread { mt_todo : list (nat * instr); mt_regs : nat -> list double }.
Definition set_point {T} (f : nat -> T) (n : nat) (x : T) : nat -> T := fun n' => if Nat.eqb n n' then x else f n'.

Definition mthread_step (ms : memories) (t : mthread) : memories * mthread :=
  match mt_todo t with
  | [] => (ms, t)
  | (n, i) :: r =>
      let s := thread_step (ms n) (Thread [i] (mt_regs t n)) in
      (set_point ms n (fst s),
       MThread (map (pair n) (t_todo (snd s)) ++ r) (set_point (mt_regs t) n (t_regs (snd s))))
  end.

Definition mthreads := nat -> mthread.
Inductive mreach (ms0 : memories) (ts0 : mthreads) : memories -> mthreads -> Prop :=
| mreach_start : mreach ms0 ts0 ms0 ts0
| mreach_step i ms ts : mreach ms0 ts0 ms ts ->
    mreach ms0 ts0 (fst (mthread_step ms (ts i))) (set_point ts i (snd (mthread_step ms (ts i)))).

(** The operations with the number of the point. *)
Definition mcode (o : nat * op) : list (nat * instr) := map (pair (fst o)) (code (snd o)).
Definition mstart (progs : nat -> list (nat * op)) : mthreads := fun i => MThread (flat_map mcode (progs i)) (fun _ => []).
