(** What followingRelations and previousRelations should say about the map. *)
From Coq Require Import NArith List.
From Verif Require Import CostAlg GraphModel BuilderModel BuilderSpec.
Import ListNotations.

Section Spec.
Variable w : world.
Variable ru : rules.

(** How one gets from a to b: by driving on, or by changing the lane if this is asked for. *)
Definition gets_to (lane_changes : bool) (a b : lref) (r : relation) : Prop :=
  match r with
  | Successor => usable w ru a /\ usable w ru b /\ continued_by w a b /\ may_pass ru (L a) (L b) = true
  | RLeft => lane_changes = true /\ changeable w ru SLeft (a, b)
  | RRight => lane_changes = true /\ changeable w ru SRight (a, b)
  | _ => False
  end.
(** Different lanelets, and not beside each other on both sides *)
Definition plain (a b : lref) : Prop := fst a <> fst b /\ ~ (neighbour w SLeft b a /\ neighbour w SRight b a).
End Spec.
