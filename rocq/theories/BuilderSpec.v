(** Specification of the routing graph built for a map (C56-C61). *)
From Coq Require Import NArith ZArith List Bool Permutation.
From Verif Require Import CostAlg GraphModel TrafficModel BuilderModel.
Import ListNotations.
Local Open Scope nat_scope.

Section Spec.
Context {A : CostAlg}.
Variable w : world.
Variable ru : rules.

(** The graph has an edge from a to b with this relation, cost module and cost. *)
Definition joined (g : graph A) (a b : elem) (r : relation) (k : N) (c : cost A) : Prop :=
  exists e, In e (g_edges g) /\ vertex_elem g (e_src e) = Some a /\ vertex_elem g (e_tgt e) = Some b /\
    e_info e = EInfo c k r.
(** The costs of all edges from a to b with this relation and cost module. *)
Definition is_elem (o : option elem) (a : elem) : bool :=
  match o with Some b => elem_eqb b a | None => false end.
Definition parallel (g : graph A) (a b : elem) (r : relation) (k : N) : list (cost A) :=
  map (fun e => ei_cost (e_info e))
    (filter (fun e => is_elem (vertex_elem g (e_src e)) a && is_elem (vertex_elem g (e_tgt e)) b
                      && relation_eqb (ei_rel (e_info e)) r && N.eqb (ei_costid (e_info e)) k) (g_edges g)).

(** A lanelet of the map that can be used in the direction of the lanelet; the opposite direction of a lanelet
    that cannot be used in its own direction is left out. *)
Definition usable (l : lref) : Prop :=
  In (fst l) (w_layer w) /\ may_use ru (fst l, false) = true /\ may_use ru l = true.
Definition usable_area (a : N) : Prop := In a (w_areas w) /\ may_use_area ru a = true.

(** The points of the bounds in the direction of the lanelet. *)
Definition left_points (l : lref) : list nat :=
  if snd l then rev (line_points w (w_right w (fst l))) else line_points w (w_left w (fst l)).
Definition right_points (l : lref) : list nat :=
  if snd l then rev (line_points w (w_left w (fst l))) else line_points w (w_right w (fst l)).
Definition starts (l : lref) (p q : nat) : Prop :=
  (exists r, left_points l = p :: r) /\ (exists r, right_points l = q :: r).
Definition ends (l : lref) (p q : nat) : Prop :=
  (exists r, left_points l = r ++ [p]) /\ (exists r, right_points l = r ++ [q]).
(** n begins where p ends. *)
Definition continued_by (p n : lref) : Prop := exists x y, ends p x y /\ starts n x y.
(** The points at the beginning and at the end of the lanelet have different ids. *)
Definition open_ended (l : lref) : Prop :=
  forall p q x y, starts l p q -> ends l x y ->
  forall a b, In a [p; q] -> In b [x; y] -> w_pid w a <> w_pid w b.
(** Bounds are not empty. *)
Definition drawn (d : N) : Prop := line_points w (w_left w d) <> [] /\ line_points w (w_right w d) <> [].

(** b lies directly beside l on this side: they share the bound in the same direction. *)
Definition neighbour (s : side) (b l : lref) : Prop :=
  b <> l /\ match s with SLeft => rbound w b = lbound w l | SRight => lbound w b = rbound w l end.

(** The lanelets share a bound, one follows the other, or they begin at the same place in opposite directions. *)
Definition touch (a b : lref) : Prop :=
  (exists s, neighbour s b a \/ neighbour s b (inv a)) \/ continued_by a b \/ continued_by b a \/ continued_by (inv a) b.

(** What is assumed of the map and of the search structures: primitives are stored once, a search
    returns each passable primitive whose box meets the box at most once, boxes of primitives that overlap
    or that can be passed from one to the other meet (they share points), overlapping is symmetric. *)
Record sane : Prop := {
  layer_once : NoDup (w_layer w);
  areas_once : NoDup (w_areas w);
  near_once : forall x, NoDup (w_near w x);
  near_areas_once : forall a, NoDup (w_near_areas w a);
  near_usable : forall x d, In d (w_near w x) -> usable (d, false);
  near_areas_usable : forall a b, In b (w_near_areas w a) -> usable_area b;
  near_self : forall l, usable l -> In (fst l) (w_near w (L l));
  near_meet : forall l d, usable l -> usable (d, false) -> w_meet w l (d, false) = true -> In d (w_near w (L l));
  near_area_meet : forall a d, usable_area a -> usable (d, false) ->
    w_meet_area w a d = true \/ (exists i, may_pass ru (EArea a) (L (d, i)) = true \/ may_pass ru (L (d, i)) (EArea a) = true) ->
    In d (w_near w (EArea a));
  near_areas_meet : forall a b, usable_area a -> usable_area b ->
    w_meet_areas w a b = true \/ may_pass ru (EArea a) (EArea b) = true -> In b (w_near_areas w a);
  meet_sym : forall a b, w_meet w a b = w_meet w b a }.

(** Costs that addEdge does not reject: not negative, or infinite. *)
Definition unsigned (c : cost A) : Prop := cltb A c (czero A) = false \/ cfinite A c = false.
Definition unsigned_module (m : @module A) : Prop :=
  (forall a b, unsigned (m_succeeding m a b)) /\ (forall f t, unsigned (m_change m f t)).
(** The cost of edges without a module cost is a proper cost, the iteration order of the hash map is some order
    of its entries, and map and search structures are as they should be. *)
Record setting (one : cost A) (order : list (lref * lref) -> list (lref * lref)) : Prop := {
  set_one : cfinite A one = true /\ cltb A one (czero A) = false;
  set_order : forall c, Permutation (order c) c;
  set_sane : sane }.
Definition drivable (x : elem) : Prop :=
  match x with ELanelet d i => usable (d, i) | EArea a => usable_area a end.

(** The edges to the following lanelets for the first cost module; the only way on, the only way back. *)
Definition next_edges (g : graph A) (a : lref) : list (edge A) :=
  filter (fun e => is_elem (vertex_elem g (e_src e)) (L a) && relation_eqb (ei_rel (e_info e)) Successor
                   && N.eqb (ei_costid (e_info e)) 0) (g_edges g).
Definition prev_edges (g : graph A) (a : lref) : list (edge A) :=
  filter (fun e => is_elem (vertex_elem g (e_tgt e)) (L a) && relation_eqb (ei_rel (e_info e)) Successor
                   && N.eqb (ei_costid (e_info e)) 0) (g_edges g).
Definition only_next (g : graph A) (a b : lref) : Prop :=
  exists e, next_edges g a = [e] /\ vertex_elem g (e_tgt e) = Some (L b).
Definition only_prev (g : graph A) (a b : lref) : Prop :=
  exists e, prev_edges g b = [e] /\ vertex_elem g (e_src e) = Some (L a).
Definition sole_link (g : graph A) (a b : lref) : Prop := only_next g a b /\ only_prev g a b.
(** One pair of lanelets directly follows another pair, and on both lanes there is no other way on or no other
    way back. *)
Definition pair_follows (g : graph A) (p q : lref * lref) : Prop :=
  (only_next g (fst p) (fst q) /\ only_next g (snd p) (snd q)) \/
  (only_prev g (fst p) (fst q) /\ only_prev g (snd p) (snd q)).
Fixpoint each_follows (g : graph A) (l : list (lref * lref)) : Prop :=
  match l with
  | p :: (q :: _) as r => pair_follows g p q /\ each_follows g r
  | _ => True
  end.
(** The lane can be changed from the first to the second. *)
Definition changeable (s : side) (p : lref * lref) : Prop :=
  usable (fst p) /\ usable (snd p) /\ neighbour s (snd p) (fst p) /\ may_change ru (fst p) (snd p) = true.
(** A stretch along which the lane can be changed: no pair twice, each pair followed by the next, and pairs that
    continue each other without a branch belong to the same stretch. *)
Record stretch (g : graph A) (s : side) (l : list (lref * lref)) : Prop := {
  str_change : forall p, In p l -> changeable s p;
  str_follow : each_follows g l;
  str_once : NoDup (map fst l);
  str_whole : forall p q, changeable s p -> changeable s q ->
    sole_link g (fst p) (fst q) -> sole_link g (snd p) (snd q) -> In p l <-> In q l }.
(** Usual maps: at most one lanelet on this side, and it is not also the one ahead. *)
Record regular (s : side) : Prop := {
  one_beside : forall a b b', usable a -> usable b -> usable b' -> neighbour s b a -> neighbour s b' a -> b = b';
  beside_not_ahead : forall a b, usable a -> usable b -> neighbour s b a -> ~ continued_by a b }.
End Spec.
