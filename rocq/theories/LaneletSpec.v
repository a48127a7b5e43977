(** Vocabulary for lanelets: what a history of calls says about the bounds and the
    centerline. Histories are read from the most recent call backwards. *)
From Coq Require Import List Arith ZArith Bool.
From Verif Require Import LineSpec LaneletModel.
Import ListNotations.

(** [mirror l]: the same line, the other way round. *)
Definition mirror (l : ls) : ls := Ls (ls_data l) (negb (ls_inv l)).

Section Spec.
Context {P : Type}.
Implicit Type os : list (op P).

(** The left / right line of handle [h] that the most recent call determined; [hist]
    has the most recent call first. Driving the other way exchanges left and right and
    reverses the lines. *)
Fixpoint last_left (h : llh) (hist : list (op P)) : option ls :=
  match hist with
  | [] => None
  | OSetLeft g b :: r =>
    if Nat.eqb (ll_data g) (ll_data h) && Bool.eqb (ll_inv g) (ll_inv h) then Some b else last_left h r
  | OSetRight g b :: r =>
    if Nat.eqb (ll_data g) (ll_data h) && negb (Bool.eqb (ll_inv g) (ll_inv h)) then Some (mirror b) else last_left h r
  | _ :: r => last_left h r
  end.
Fixpoint last_right (h : llh) (hist : list (op P)) : option ls :=
  match hist with
  | [] => None
  | OSetRight g b :: r =>
    if Nat.eqb (ll_data g) (ll_data h) && Bool.eqb (ll_inv g) (ll_inv h) then Some b else last_right h r
  | OSetLeft g b :: r =>
    if Nat.eqb (ll_data g) (ll_data h) && negb (Bool.eqb (ll_inv g) (ll_inv h)) then Some (mirror b) else last_right h r
  | _ :: r => last_right h r
  end.
(** The custom centerline of lanelet [h], as seen from [h]. *)
Fixpoint last_center (h : llh) (hist : list (op P)) : option ls :=
  match hist with
  | [] => None
  | OSetCenter g l :: r =>
    if Nat.eqb (ll_data g) (ll_data h) then Some (if Bool.eqb (ll_inv g) (ll_inv h) then l else mirror l)
    else last_center h r
  | _ :: r => last_center h r
  end.

(** The program tells lanelet [x] about changed points: every change of a line that is
    one of its bounds at that time is followed by resetCache of the lanelet. *)
Definition is_reset (x : nat) (o : op P) : Prop :=
  match o with OReset h => ll_data h = x | _ => False end.
Definition notified (bounds_at : list (op P) -> nat -> list nat) (x : nat) os : Prop :=
  forall a l pts b, os = a ++ OEdit l pts :: b -> In l (bounds_at a x) -> Exists (is_reset x) b.

(** Lines handed to setCenterline have a valid id and keep a valid id ("Must have a valid
    Id", Lanelet.h:271). *)
Definition valid_ids (id0 : nat -> Z) os : Prop :=
  (forall h l, In (OSetCenter h l) os -> id0 (ls_data l) <> 0%Z) /\ (forall l, ~ In (OSetId l 0%Z) os).
End Spec.
