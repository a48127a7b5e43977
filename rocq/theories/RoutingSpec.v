(** What shortest path queries should compute, in terms of walks through the
    stored edges. Nothing in here refers to the search algorithm. *)
From Coq Require Import NArith List Bool Arith Sorted.
From Verif Require Import CostAlg GraphModel.
Import ListNotations.

Section Spec.
Context {A : CostAlg}.

(** Edges that may be driven: they belong to the cost module and their relation is allowed. *)
Definition allowed (lane_changes areas : bool) (r : relation) : Prop :=
  r = Successor \/ (lane_changes = true /\ (r = RLeft \/ r = RRight)) \/ (areas = true /\ r = RArea).
Definition drivable (g : graph A) (costid : N) (lane_changes areas : bool) (e : edge A) : Prop :=
  In e (g_edges g) /\ ei_costid (e_info e) = costid /\ allowed lane_changes areas (ei_rel (e_info e)).
(** The same, driven against the direction of the edges. *)
Definition reversed (P : edge A -> Prop) (e : edge A) : Prop :=
  exists e', P e' /\ e_src e = e_tgt e' /\ e_tgt e = e_src e' /\ e_info e = e_info e'.
Definition directed (backw : bool) (P : edge A -> Prop) : edge A -> Prop :=
  if backw then reversed P else P.

(** [walk P s es v]: the edges [es] lead from s to v. *)
Inductive walk (P : edge A -> Prop) (s : nat) : list (edge A) -> nat -> Prop :=
| walk_nil : walk P s [] s
| walk_snoc es e : walk P s es (e_src e) -> P e -> walk P s (es ++ [e]) (e_tgt e).

(** Accumulated cost (in driving order, floating point addition is not associative), number of lane
    changes and visited vertices. *)
Definition wcost (es : list (edge A)) : cost A :=
  fold_left (fun c e => cplus A c (ei_cost (e_info e))) es (czero A).
Definition wchanges (es : list (edge A)) : nat :=
  length (List.filter (fun e => negb (relation_eqb (ei_rel (e_info e)) Successor)) es).
Definition wverts (s : nat) (es : list (edge A)) : list nat := s :: map e_tgt es.
Definition wpred (es : list (edge A)) (v : nat) : nat :=
  match rev es with [] => v | e :: _ => e_src e end.

(** Costs below infinity. *)
Definition below_inf (c : cost A) : Prop := cltb A c (cinf A) = true.

(** [p] lists the elements of the vertices [vs]. *)
Definition elements (g : graph A) (vs : list nat) (p : list elem) : Prop :=
  Forall2 (fun v e => vertex_elem g v = Some e) vs p.

(** A path in driving order: for queries against the driving direction the walk starts at the target. *)
Definition oriented {T} (backw : bool) (l : list T) : list T := if backw then rev l else l.

(** A walk is open if every vertex it leaves has been accepted. *)
Inductive open_walk (P : edge A -> Prop) (accepted : nat -> Prop) (s : nat) : list (edge A) -> nat -> Prop :=
| open_nil : open_walk P accepted s [] s
| open_snoc es e : open_walk P accepted s es (e_src e) -> accepted (e_src e) -> P e ->
    open_walk P accepted s (es ++ [e]) (e_tgt e).

(** A pruned shortest path tree: [best v] is the way found to v. Ways are extended only at accepted
    vertices and are optimal among all ways that leave only accepted vertices. *)
Record best_tree (P : edge A -> Prop) (accepted : nat -> Prop) (s : nat)
       (best : nat -> option (list (edge A))) : Prop := {
  bt_start : best s = Some [];
  bt_walk : forall v es, best v = Some es -> walk P s es v;
  bt_prefix : forall v es e, best v = Some (es ++ [e]) -> best (e_src e) = Some es /\ accepted (e_src e);
  bt_simple : forall v es, best v = Some es -> NoDup (wverts s es);
  bt_below : forall v es, best v = Some es -> below_inf (wcost es);
  bt_optimal : forall v es, open_walk P accepted s es v -> below_inf (wcost es) ->
      exists b, best v = Some b /\ cle A (wcost b) (wcost es)
}.

(** The calls of a visit function that keeps a state: each call sees the state left by the previous one. *)
Inductive calls {St I R} (cb : St -> I -> St * R) : St -> list (I * R) -> St -> Prop :=
| calls_nil st : calls cb st [] st
| calls_snoc st log st' i st'' r :
    calls cb st log st' -> cb st' i = (st'', r) -> calls cb st (log ++ [(i, r)]) st''.


(** A cheapest walk. *)
Definition shortest_way (P : edge A -> Prop) (s t : nat) (es : list (edge A)) : Prop :=
  walk P s es t /\ forall es', walk P s es' t -> cle A (wcost es) (wcost es').

(** [p] are the elements of a cheapest walk between the vertices of a and b. *)
Definition path_between (g : graph A) (P : edge A -> Prop) (a b : elem) (p : list elem) : Prop :=
  exists s t es, get_vertex g a = Some s /\ get_vertex g b = Some t /\
    shortest_way P s t es /\ below_inf (wcost es) /\ NoDup (wverts s es) /\ elements g (wverts s es) p.
(** There is no way from a to b, or one of them does not belong to the graph. *)
Definition no_path (g : graph A) (P : edge A -> Prop) (a b : elem) : Prop :=
  forall s t, get_vertex g a = Some s -> get_vertex g b = Some t ->
  forall es, walk P s es t -> ~ below_inf (wcost es).

(** An area lies on a cheapest walk. *)
Definition area_between (g : graph A) (P : edge A -> Prop) (a b : elem) : Prop :=
  exists s t es v d, get_vertex g a = Some s /\ get_vertex g b = Some t /\
    shortest_way P s t es /\ In v (wverts s es) /\ vertex_elem g v = Some (EArea d).

(** Concatenation of sections between consecutive points; the common point of two sections is listed once. *)
Inductive via_path (R : elem -> elem -> list elem -> Prop) : list elem -> list elem -> Prop :=
| via_one a b p : R a b p -> via_path R [a; b] p
| via_more a b rest p q : R a b p -> via_path R (b :: rest) (b :: q) -> via_path R (a :: b :: rest) (p ++ q).

(** Consecutive elements of a list. *)
Definition consecutive {T} (l : list T) (a b : T) : Prop := exists pre post, l = pre ++ a :: b :: post.

(** A budget that is comparable with the accumulated costs (every double except NaN). *)
Definition comparable (cok : cost A -> Prop) (c : cost A) : Prop :=
  forall x y, cok x -> cok y -> cle A x y -> cle A y c -> cle A x c.
End Spec.
