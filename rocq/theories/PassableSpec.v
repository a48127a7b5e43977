(** Vocabulary for the submaps of routing graphs and routes. *)
From Coq Require Import ZArith NArith List Bool.
From Verif Require Import GraphModel BuilderModel BuilderSpec.
Import ListNotations.

(** Different primitives of a layer have different ids. *)
Definition own_ids (id : N -> Z) (layer : list N) : Prop := forall a b, In a layer -> In b layer -> id a = id b -> a = b.
(** The lanelets are used in one direction each. *)
Definition one_direction (on : lref -> Prop) : Prop := forall d, on (d, false) -> on (d, true) -> False.
(** What a layer of lanelets has to be for some lanelets: each is found under its id and by iteration once, and there is nothing else. *)
Record shows {T} (id : T -> Z) (on : T -> Prop) (find : Z -> option T) (all : list T) : Prop := {
  shows_once : NoDup all;
  shows_all : forall x, In x all <-> on x;
  shows_find : forall i x, find i = Some x <-> on x /\ id x = i
}.
