(** Vocabulary for debug maps. *)
From Coq Require Import ZArith NArith List Bool.
From Verif Require Import CostAlg GraphModel RouteBuilderModel DebugModel.
Import ListNotations.
Open Scope Z_scope.

Section Spec.
Context {A : CostAlg}.

(** The relations that a debug map shows; no edge of a built graph has the relation None. *)
Definition shown (adjacent conflict : bool) (r : relation) : Prop :=
  match r with
  | Successor | RLeft | RRight | RArea => True
  | AdjacentLeft | AdjacentRight => adjacent = true
  | Conflicting => conflict = true
  | RNone => adjacent = true /\ conflict = true
  end.
Definition shown_edge (costid : N) (adjacent conflict : bool) (e : edge A) : Prop :=
  ei_costid (e_info e) = costid /\ shown adjacent conflict (ei_rel (e_info e)).
Definition vertex (g : graph A) (a : elem) : Prop := exists v, vertex_elem g v = Some a.
(** There is an edge from [a] to [b] with this relation and these costs. *)
Definition linked (g : graph A) (costid : N) (adjacent conflict : bool) (a b : elem) (r : relation) (c : cost A) : Prop :=
  exists e, In e (g_edges g) /\ shown_edge costid adjacent conflict e /\ vertex_elem g (e_src e) = Some a /\ vertex_elem g (e_tgt e) = Some b /\
    ei_rel (e_info e) = r /\ ei_cost (e_info e) = c.
(** Between two elements, in this order, at most one relation is shown (Forward.h:51-52). *)
Definition single (g : graph A) (costid : N) (adjacent conflict : bool) : Prop :=
  forall i j e f, nth_error (g_edges g) i = Some e -> nth_error (g_edges g) j = Some f ->
    shown_edge costid adjacent conflict e -> shown_edge costid adjacent conflict f -> e_src e = e_src f -> e_tgt e = e_tgt f -> i = j.
(** Lanelets and areas have ids, different ones. *)
Definition distinct_ids (idof : elem -> Z) (g : graph A) : Prop :=
  (forall a, vertex g a -> idof a <> 0) /\ forall a b, vertex g a -> vertex g b -> idof a = idof b -> a = b.

(** * Routes *)

(** The relations of a route from one id to another, in the order of the edges *)
Definition relations_among (idof : elem -> Z) (r : route A) (es : list (edge A)) (a b : Z) : list relation :=
  map (fun e => ei_rel (e_info e))
    (filter (fun e => match vertex_at r (e_src e), vertex_at r (e_tgt e) with
                      | Some x, Some y => (idof (fst x) =? a) && (idof (fst y) =? b)
                      | _, _ => false
                      end) es).
Definition relations_between (idof : elem -> Z) (r : route A) : Z -> Z -> list relation := relations_among idof r (g_edges (r_graph r)).
(** What the attributes relation_1, relation_2, ... (or relation_reverse_1, ...) of a line string say *)
Definition attributes (reverse : bool) (l : rline) : list relation :=
  map snd (filter (fun x => Bool.eqb (fst (fst x)) reverse) (rl_attrs l)).
Definition numbered (reverse : bool) (l : rline) : Prop :=
  map (fun x => snd (fst x)) (filter (fun x => Bool.eqb (fst (fst x)) reverse) (rl_attrs l)) = seq 1 (length (attributes reverse l)).
(** A lanelet of the route with a given id and lane that has an edge *)
Definition on_edge (idof : elem -> Z) (r : route A) (i : Z) (lane : N) : Prop :=
  exists e v x, In e (g_edges (r_graph r)) /\ (v = e_src e \/ v = e_tgt e) /\ vertex_at r v = Some (x, lane) /\ idof x = i.
(** Every vertex has a lane, every edge joins vertices. *)
Definition route_ok (r : route A) : Prop :=
  length (r_lanes r) = length (g_verts (r_graph r)) /\
  forall e, In e (g_edges (r_graph r)) -> (e_src e < length (g_verts (r_graph r)))%nat /\ (e_tgt e < length (g_verts (r_graph r)))%nat.
(** The lanelets of a route have different ids. *)
Definition own_ids (idof : elem -> Z) (r : route A) : Prop :=
  (forall v x, vertex_at r v = Some x -> idof (fst x) <> 0) /\
  forall v w x y, vertex_at r v = Some x -> vertex_at r w = Some y -> idof (fst x) = idof (fst y) -> v = w.
End Spec.
