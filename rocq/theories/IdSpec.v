(** What a user expects from getId/registerId, as predicates on traces. *)
From Coq Require Import ZArith List.
From Verif Require Import IdModel.
Import ListNotations.
Open Scope Z_scope.

(** Values returned by getId, in the order in which the calls returned. *)
Fixpoint get_results (tr : list event) : list Z :=
  match tr with
  | [] => []
  | RetGet _ v :: r => v :: get_results r
  | _ :: r => get_results r
  end.

(** No id is handed out twice. *)
Definition ids_distinct (tr : list event) : Prop := NoDup (get_results tr).

(** Every id handed out is a regular one (InvalId is 0, Forward.h). *)
Definition ids_valid (tr : list event) : Prop := Forall (fun v => 0 < v) (get_results tr).

(** [mid] contains no event of thread [t]. *)
Definition silent (t : nat) (mid : list event) : Prop :=
  Forall (fun e => ev_thread e <> t) mid.

(** A getId that starts after registerId(x) returned yields an id above x. *)
Definition register_respected (tr : list event) : Prop :=
  forall pre t x mid1 t' mid2 v post,
    tr = pre ++ RetReg t x :: mid1 ++ InvGet t' :: mid2 ++ RetGet t' v :: post ->
    silent t' mid2 -> x < v.

(** A getId that starts after another getId returned yields a larger id. *)
Definition gets_increase (tr : list event) : Prop :=
  forall pre t v mid1 t' mid2 v' post,
    tr = pre ++ RetGet t v :: mid1 ++ InvGet t' :: mid2 ++ RetGet t' v' :: post ->
    silent t' mid2 -> v < v'.

Definition count_gets (p : list call) : Z :=
  Z.of_nat (length (filter (fun c => match c with GetId => true | _ => false end) p)).

(** Precondition "no id reaches the end of the 64 bit range": every registered id
    leaves room for all getId calls of the whole program. *)
Definition in_range (progs : list (list call)) : Prop :=
  let all := concat progs in
  first_id + count_gets all <= id_max /\
  forall x, In (RegisterId x) all -> - 2^63 <= x /\ x + 1 + count_gets all <= id_max.
