(** Specification of the neighbour relations and of the validity of a routing graph (C62-C64). *)
From Coq Require Import NArith List Bool Relations.
From Verif Require Import CostAlg GraphModel TrafficModel BuilderModel BuilderSpec.
Import ListNotations.
Local Open Scope nat_scope.

Section Spec.
Context {A : CostAlg}.
Implicit Types (g : graph A) (s : side) (a b : elem) (k : N).

(** The edges that lead from a to its neighbours on a side, whether the lane can be changed or not. *)
Definition side_edges g s k a : list (edge A) :=
  filter (fun e => is_elem (vertex_elem g (e_src e)) a && N.eqb (ei_costid (e_info e)) k &&
                   (relation_eqb (ei_rel (e_info e)) (changing s) || relation_eqb (ei_rel (e_info e)) (adjacent s)))
         (g_edges g).
Definition leads g (e : edge A) b : Prop := vertex_elem g (e_tgt e) = Some b.
(** b is a neighbour of a on the side. *)
Definition step_aside g s k a b : Prop := exists e, In e (side_edges g s k a) /\ leads g e b.
(** Neighbour edges join lanelets (areas have no sides). *)
Definition lanes_only g : Prop := forall e, In e (g_edges g) ->
  (exists s, ei_rel (e_info e) = changing s \/ ei_rel (e_info e) = adjacent s) ->
  (forall a, vertex_elem g (e_src e) = Some a -> is_lanelet a = true) /\
  (forall b, vertex_elem g (e_tgt e) = Some b -> is_lanelet b = true).
(** Walking from a to the outermost lane on the side: the lanelets that are met, each with the kind of the edge
    that leads to it. *)
Inductive lane_walk g s k : elem -> list (elem * relation) -> Prop :=
| lw_end a : side_edges g s k a = [] -> lane_walk g s k a []
| lw_more a b e l : In e (side_edges g s k a) -> leads g e b -> lane_walk g s k b l ->
    lane_walk g s k a ((b, ei_rel (e_info e)) :: l).
(** At most one edge to each side. *)
Definition single_sided g s k : Prop := forall a, length (side_edges g s k a) <= 1.
(** Nobody comes back by walking to one side. *)
Definition no_ring g s k : Prop := forall a, ~ clos_trans elem (step_aside g s k) a a.
(** A lanelet has at most one neighbour on a side, and is the only neighbour of its neighbour on the other side. *)
Definition consistent g k : Prop := forall s,
  single_sided g s k /\
  forall s' a b, s' <> s -> step_aside g s k a b -> exists e, side_edges g s' k b = [e] /\ leads g e a.
End Spec.
(** The same for a map: no lanelet comes back to itself by walking to one side. *)
Definition no_map_ring (w : world) (ru : rules) (s : side) : Prop :=
  forall a, ~ clos_trans lref (fun a b => usable w ru a /\ usable w ru b /\ neighbour w s b a) a a.
(** The lanelets beside a on a side, one after the other, up to the border of the road. *)
Inductive lane_row (w : world) (ru : rules) (s : side) : lref -> list lref -> Prop :=
| lr_end a : (forall b, usable w ru b -> ~ neighbour w s b a) -> lane_row w ru s a []
| lr_more a b l : usable w ru b -> neighbour w s b a -> lane_row w ru s b l -> lane_row w ru s a (b :: l).
