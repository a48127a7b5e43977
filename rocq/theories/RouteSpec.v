(** What the lanes of a route are, stated on the edges of its graph. *)
From Coq Require Import NArith List Bool Arith.
From Verif Require Import CostAlg GraphModel.
Import ListNotations.

(** Each element of the list is related to the next one. *)
Fixpoint linked {T} (R : T -> T -> Prop) (l : list T) : Prop :=
  match l with
  | a :: (b :: _) as r => R a b /\ linked R r
  | _ => True
  end.

Section Spec.
Context {A : CostAlg}.

Definition is_succ (e : edge A) : bool := N.eqb (ei_costid (e_info e)) 0 && relation_eqb (ei_rel (e_info e)) Successor.
Definition is_elem (g : graph A) (v : nat) (a : elem) : bool :=
  match vertex_elem g v with Some b => elem_eqb b a | None => false end.
(** The relations "b follows a" of the route that leave a lanelet, and those that enter one. *)
Definition leaving (g : graph A) (a : elem) : list (edge A) := filter (fun e => is_elem g (e_src e) a && is_succ e) (g_edges g).
Definition entering (g : graph A) (a : elem) : list (edge A) := filter (fun e => is_elem g (e_tgt e) a && is_succ e) (g_edges g).
(** The lane goes on from a to b: it neither splits behind a nor do lanes merge in front of b. *)
Definition continues (g : graph A) (a b : elem) : Prop := exists e, leaving g a = [e] /\ entering g b = [e].

(** The lane of which nothing is missing at the end, or that closes to a circle. *)
Definition complete_end (g : graph A) (first last : elem) : Prop := forall b, continues g last b -> b = first.
Definition circular (g : graph A) (l : list elem) : Prop :=
  exists f z, hd_error l = Some f /\ hd_error (rev l) = Some z /\ continues g z f.
Definition whole (g : graph A) (l : list elem) : Prop :=
  exists f z, hd_error l = Some f /\ hd_error (rev l) = Some z /\
    ((forall b, ~ continues g b f) /\ (forall b, ~ continues g z b) \/ continues g z f).
End Spec.
