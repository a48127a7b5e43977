(** C115: the submaps of a routing graph and of a route show its lanelets and areas. *)
From Coq Require Import NArith ZArith List Bool Arith Lia Relations Permutation.
From Verif Require RoutingProps RouteBuilderSpec.
From Verif Require Import CostAlg GraphModel GraphSpec GraphProofs DijkstraModel BuilderModel BuilderSpec BuilderProofs BuilderProofs2 BuilderProofs3 BuilderProofs4 BuilderProps RoutingSpec RouteSpec
  RouteBuilderModel RouteBuilderProofs7 RouteBuilderProofs11 RouteBuilderProps RouteQueryModel JourneySpec JourneyProofs JourneyProps PassableModel PassableSpec PassableProofs.
Import ListNotations.
Local Open Scope nat_scope.

(** * Routing graphs *)
Section Graph.
Context (A : CostAlg) (one : cost A) (w : world) (ru : rules) (costs : list (@module A))
        (order : list (lref * lref) -> list (lref * lref)) (Hset : setting w ru one order).
Variables (idl ida : N -> Z).
Notation sm := (passable_submap idl ida w ru).
Definition in_graph (g : graph A) (x : elem) : Prop := exists v, get_vertex g x = Some v.

(** The lanelets of passableSubmap are exactly those of the graph in their own direction; every lanelet of the graph is found by its
    id, in its own direction. *)
Theorem C115_graph_lanelets g : build one w ru costs order = Ok g -> own_ids idl (w_layer w) ->
  shows (fun l => idl (fst l)) (fun l => in_graph g (L l) /\ snd l = false) (find_lanelet sm) (all_lanelets sm) /\
  forall l, in_graph g (L l) -> find_lanelet sm (idl (fst l)) = Some (fst l, false).
Proof.
  intros Hb O. pose proof (passable_lanelets idl ida w ru O) as S.
  assert (V : forall l, in_graph g (L l) <-> usable w ru l).
  { intros l. unfold in_graph. rewrite (C56_vertices A one w ru costs order Hset g Hb (L l)). destruct l. reflexivity. }
  split.
  - eapply shows_iff; [|exact S]. intros l. cbn. rewrite V. reflexivity.
  - intros l H. apply V in H as (H1 & H2 & _). apply (shows_find _ _ _ _ S). cbn. split; [|reflexivity].
    split; [|reflexivity]. unfold usable. cbn. auto.
Qed.
Theorem C115_graph_areas g : build one w ru costs order = Ok g -> own_ids ida (w_areas w) ->
  shows ida (fun a => in_graph g (EArea a)) (find_area sm) (all_areas sm).
Proof.
  intros Hb O. eapply shows_iff; [|exact (passable_areas_shown idl ida w ru O)]. intros a. cbn. unfold in_graph.
  rewrite (C56_vertices A one w ru costs order Hset g Hb (EArea a)). reflexivity.
Qed.
(** If no lanelet can be used in both directions, this is all. *)
Theorem C115_graph_partial g : build one w ru costs order = Ok g -> own_ids idl (w_layer w) -> one_direction (fun l => in_graph g (L l)) ->
  shows (fun l => idl (fst l)) (fun l => in_graph g (L l)) (find_lanelet sm) (all_lanelets sm).
Proof.
  intros Hb O D. destruct (C115_graph_lanelets g Hb O) as [S F]. eapply shows_iff; [|exact S]. intros [d i]. cbn. split; [tauto|].
  intros H. split; [exact H|]. destruct i; [|reflexivity]. exfalso. apply (D d); [|exact H].
  pose proof (F _ H) as E. apply (shows_find _ _ _ _ S) in E. tauto.
Qed.
(** Otherwise the opposite directions are missing. *)
Theorem C115_graph_refuted g d : build one w ru costs order = Ok g -> own_ids idl (w_layer w) ->
  usable w ru (d, false) -> usable w ru (d, true) ->
  in_graph g (L (d, true)) /\ ~ In (d, true) (all_lanelets sm) /\ forall i, find_lanelet sm i <> Some (d, true).
Proof.
  intros Hb O _ U. destruct (C115_graph_lanelets g Hb O) as [S F]. split.
  - unfold in_graph. rewrite (C56_vertices A one w ru costs order Hset g Hb (L (d, true))). exact U.
  - split; [intros H; apply (shows_all _ _ _ _ S) in H; destruct H; discriminate|].
    intros i H. apply (shows_find _ _ _ _ S) in H. destruct H as [[_ H] _]. discriminate.
Qed.
End Graph.
Print Assumptions C115_graph_lanelets.
Print Assumptions C115_graph_areas.
Print Assumptions C115_graph_partial.
Print Assumptions C115_graph_refuted.

(** * Routes *)
Section Route.
Variables (idl ida : N -> Z).
Lemma route_layer {A : CostAlg} (r : route A) : (forall x, contains r x = true <-> In x (g_verts (r_graph r))) ->
  (forall a b, contains r (L a) = true -> contains r (L b) = true -> idl (fst a) = idl (fst b) -> fst a = fst b) ->
  NoDup (all_lanelets (route_submap idl ida r)) /\
  (forall l, In l (all_lanelets (route_submap idl ida r)) -> contains r (L l) = true /\ find_lanelet (route_submap idl ida r) (idl (fst l)) = Some l) /\
  (forall l, contains r (L l) = true -> exists i, find_lanelet (route_submap idl ida r) (idl (fst l)) = Some (fst l, i) /\ contains r (L (fst l, i)) = true) /\
  (one_direction (fun l => contains r (L l) = true) ->
    shows (fun l => idl (fst l)) (fun l => contains r (L l) = true) (find_lanelet (route_submap idl ida r)) (all_lanelets (route_submap idl ida r))).
Proof.
  intros C U.
  assert (V : forall l, In l (lanelets_of (g_verts (r_graph r))) <-> contains r (L l) = true) by (intros l; rewrite in_lanelets_of, C; reflexivity).
  destruct (layer_facts (fun l : lref => idl (fst l)) (lanelets_of (g_verts (r_graph r)))) as (N & S & F & K).
  split; [exact N|]. split; [|split].
  - intros l H. split; [apply V, S, H|]. apply F. auto.
  - intros l H. destruct (K l (proj2 (V l) H)) as (y & Hy & E). assert (Cy : contains r (L y) = true) by (apply V, S, Hy).
    assert (fst y = fst l) as Ef by (exact (U y l Cy H E)). exists (snd y). rewrite <- Ef. destruct y as [d i]. cbn [fst snd] in *. split; [|exact Cy].
    apply F. auto.
  - intros D. eapply shows_iff; [exact V|]. apply (layer_shows (fun l : lref => idl (fst l)) (lanelets_of (g_verts (r_graph r)))).
    intros x y Hx Hy E. apply V in Hx, Hy. pose proof (U x y Hx Hy E) as Ef. destruct x as [d i], y as [d' j]. cbn in Ef. subst d'.
    f_equal. destruct i, j; auto; exfalso.
    + apply (D d Hy Hx).
    + apply (D d Hx Hy).
Qed.
(** Every lanelet of laneletSubmap is on the route, and every lanelet of the route is found by its id, at least in one direction that is on
    the route. It has all of them if none is on the route in both directions. *)
Theorem C115_route (A : CostAlg) m (ops : list (gop A)) path k lc r :
  let g := gbuild m ops in
  RouteBuilderSpec.route_path g k lc path -> RouteBuilderSpec.lanes_only g k lc -> build_route g path lc k = Done (Some r) ->
  (forall a b, contains r (L a) = true -> contains r (L b) = true -> idl (fst a) = idl (fst b) -> fst a = fst b) ->
  NoDup (all_lanelets (route_submap idl ida r)) /\
  (forall l, In l (all_lanelets (route_submap idl ida r)) -> contains r (L l) = true /\ find_lanelet (route_submap idl ida r) (idl (fst l)) = Some l) /\
  (forall l, contains r (L l) = true -> exists i, find_lanelet (route_submap idl ida r) (idl (fst l)) = Some (fst l, i) /\ contains r (L (fst l, i)) = true) /\
  (one_direction (fun l => contains r (L l) = true) ->
    shows (fun l => idl (fst l)) (fun l => contains r (L l) = true) (find_lanelet (route_submap idl ida r)) (all_lanelets (route_submap idl ida r))).
Proof.
  intros g H1 H2 E U. apply route_layer; [|exact U].
  destruct (C66_route_lanelets A m ops path k lc r H1 H2 E) as (_ & _ & _ & _ & C & _). exact C.
Qed.
End Route.
Print Assumptions C115_route.

(** From the map to the submap of a route: its lanelets are those of the route and can be driven to. *)
Section Query.
Context (A : CostAlg) (one : cost A) (w : world) (ru : rules) (costs : list (@module A))
        (order : list (lref * lref) -> list (lref * lref)) (Hset : setting w ru one order)
        (cok wok : cost A -> Prop) (Hlaws : CostLaws A cok wok).
Variables (idl ida : N -> Z).
Theorem C115_query g k m tie a b r : build one w ru costs order = Ok g -> nth_error costs (N.to_nat k) = Some m -> own_ids idl (w_layer w) ->
  get_route tie g (L a) (L b) k false = Done (Some r) ->
  (forall l, In l (all_lanelets (route_submap idl ida r)) -> contains r (L l) = true /\ usable w ru l /\ clos_refl_trans lref (leads_to w ru) a l) /\
  (exists i, find_lanelet (route_submap idl ida r) (idl (fst a)) = Some (fst a, i)) /\
  (exists i, find_lanelet (route_submap idl ida r) (idl (fst b)) = Some (fst b, i)) /\
  forall l, contains r (L l) = true -> exists i, find_lanelet (route_submap idl ida r) (idl (fst l)) = Some (fst l, i) /\ contains r (L (fst l, i)) = true.
Proof.
  intros Hb Hk O E.
  pose proof (C109_route A one w ru costs order Hset cok wok Hlaws g k m tie a b Hb Hk) as T. rewrite E in T. destruct T as [(ls & Ch & Hls) Hall].
  destruct Ch as (c & W & _).
  assert (Hu : forall l, contains r (L l) = true -> usable w ru l /\ clos_refl_trans lref (leads_to w ru) a l).
  { intros l H. destruct (Hall _ H) as (d & Ed & R). apply L_inj' in Ed. subst d. split; [|exact R].
    apply clos_rt_rtn1 in R. destruct R as [|y z J _]; [|exact (proj1 (proj2 J))]. clear -W. induction W; auto. }
  assert (U : forall x y, contains r (L x) = true -> contains r (L y) = true -> idl (fst x) = idl (fst y) -> fst x = fst y).
  { intros x y Hx Hy Ei. apply O; [exact (proj1 (proj1 (Hu x Hx)))|exact (proj1 (proj1 (Hu y Hy)))|exact Ei]. }
  assert (C : forall x, contains r x = true <-> In x (g_verts (r_graph r))).
  { pose proof (history A one w ru costs order Hset g Hb) as [ops Eg].
    pose proof (travel_path A one w ru costs order Hset g Hb k m Hk cok wok Hlaws tie a b) as T. unfold get_route in E.
    pose proof (RoutingProps.C11_shortest_path_optimal A cok wok Hlaws (N.of_nat (length costs)) ops tie (L a) (L b) k false false) as H. cbv zeta in H. rewrite <- Eg in H.
    destruct (shortest_path tie g (L a) (L b) k false false) as [[p|]| |]; cbn [route_for] in E; try discriminate E. destruct T as (ls' & -> & _). destruct H as [H _].
    assert (Hl : RouteBuilderSpec.lanes_only (gbuild (N.of_nat (length costs)) ops) k false) by (rewrite <- Eg; apply (travel_lanes A one w ru costs order Hset g Hb)).
    rewrite Eg in H. destruct (path_route _ ops k false (L a) (L b) (map L ls') eq_refl Hl H) as (H1 & _).
    rewrite Eg in E. destruct (C66_route_lanelets A _ ops (map L ls') k false r H1 Hl E) as (_ & _ & _ & _ & C & _). exact C. }
  destruct (route_layer idl ida r C U) as (_ & P1 & P2 & _). split; [|split; [|split]].
  - intros l H. destruct (P1 l H) as [Cl _]. split; [exact Cl|]. apply Hu, Cl.
  - assert (In a ls) as Ha by (clear -W; induction W; [left; reflexivity|apply in_or_app; auto]). destruct (P2 a (Hls a Ha)) as (i & F & _). eauto.
  - assert (In b ls) as Hbb by (clear -W; inversion W; [left; reflexivity|apply in_or_app; right; left; reflexivity]). destruct (P2 b (Hls b Hbb)) as (i & F & _). eauto.
  - exact P2.
Qed.
End Query.
Print Assumptions C115_query.

(** * A street with a turning loop *)
(** Lanelet 1 can be used in both directions, 2 and 3 lead around the loop and back into it. *)
Definition tl_points (d : nat) : list nat :=
  match d with 0 => [0; 1] | 1 => [10; 11] | 2 => [1; 2] | 3 => [11; 12] | 4 => [2; 3; 11] | 5 => [12; 13; 1] | _ => [] end.
Definition tl_world : world := {|
  w_points := tl_points; w_pid := Z.of_nat;
  w_left := fun d => match d with 1%N => ln 0 | 2%N => ln 2 | _ => ln 4 end;
  w_right := fun d => match d with 1%N => ln 1 | 2%N => ln 3 | _ => ln 5 end;
  w_layer := [1; 2; 3]%N; w_areas := []; w_near := fun _ => [1; 2; 3]%N; w_near_areas := fun _ => [];
  w_meet := fun a b => false; w_meet_area := fun _ _ => false; w_meet_areas := fun _ _ => false |}.
Definition tl_rules : rules := {|
  may_use := fun l => negb (snd l) || N.eqb (fst l) 1; may_use_area := fun _ => true; may_pass := fun _ _ => true; may_change := fun _ _ => false |}.
Definition tl_module : @module ZCost := {| m_succeeding := fun _ _ => Some 10%Z : cost ZCost; m_change := fun _ _ => Some 10%Z : cost ZCost |}.
Lemma tl_setting : setting tl_world tl_rules o1 id_order.
Proof.
  constructor; [split; reflexivity|intros c; apply Permutation_refl|].
  assert (Hu : forall d, usable tl_world tl_rules (d, false) <-> In d [1; 2; 3]%N) by (intros d; unfold usable; simpl; tauto).
  constructor; simpl.
  - repeat constructor; simpl; intuition discriminate.
  - constructor.
  - intros _. repeat constructor; simpl; intuition discriminate.
  - intros _. constructor.
  - intros _ d Hd. apply Hu. auto.
  - intros _ b [].
  - intros l Hl. apply Hl.
  - intros l d _ Hd _. apply Hu in Hd. auto.
  - intros a d _ Hd _. apply Hu in Hd. auto.
  - intros a b _ [Hb _] _. auto.
  - reflexivity.
Qed.
(** The route out and back contains the street in both directions, its submap only in one. *)
Theorem C115_route_refuted : exists g r, build o1 tl_world tl_rules [tl_module] id_order = Ok g /\
  get_route RoutingProps.tie0 g (L (1%N, false)) (L (1%N, true)) 0 false = Done (Some r) /\
  contains r (L (1%N, false)) = true /\ contains r (L (1%N, true)) = true /\
  all_lanelets (route_submap Z.of_N Z.of_N r) = [(1, false); (2, false); (3, false)]%N.
Proof.
  assert (Q : match build o1 tl_world tl_rules [tl_module] id_order with
    | Ok g => match get_route RoutingProps.tie0 g (L (1%N, false)) (L (1%N, true)) 0 false with
              | Done (Some r) => Some (contains r (L (1%N, false)), contains r (L (1%N, true)), all_lanelets (route_submap Z.of_N Z.of_N r))
              | _ => None end
    | _ => None end = Some (true, true, [(1, false); (2, false); (3, false)]%N)) by (vm_compute; reflexivity).
  destruct (build o1 tl_world tl_rules [tl_module] id_order) as [g| | |] eqn:Hg; [|discriminate..]. exists g.
  destruct (get_route RoutingProps.tie0 g (L (1%N, false)) (L (1%N, true)) 0 false) as [[r|]| | |] eqn:Hr; try discriminate Q. exists r.
  injection Q as E1 E2 E3. auto.
Qed.
Print Assumptions C115_route_refuted.
(** The parts of the theorems in this map: the graph has the street in both directions, the submap in one; up to the loop the submap of
    a route has all. *)
Example C115_nonvacuous : setting tl_world tl_rules o1 id_order /\ own_ids Z.of_N (w_layer tl_world) /\
  exists g r, build o1 tl_world tl_rules [tl_module] id_order = Ok g /\
  in_graph ZCost g (L (1%N, true)) /\ ~ in_graph ZCost g (L (2%N, true)) /\
  all_lanelets (passable_submap Z.of_N Z.of_N tl_world tl_rules) = [(1, false); (2, false); (3, false)]%N /\
  get_route RoutingProps.tie0 g (L (2%N, false)) (L (1%N, true)) 0 false = Done (Some r) /\
  all_lanelets (route_submap Z.of_N Z.of_N r) = [(2, false); (3, false); (1, true)]%N /\
  find_lanelet (route_submap Z.of_N Z.of_N r) 1 = Some (1%N, true).
Proof.
  split; [exact tl_setting|]. split; [intros a b _ _ H; lia|].
  assert (Q : match build o1 tl_world tl_rules [tl_module] id_order with
    | Ok g => match get_route RoutingProps.tie0 g (L (2%N, false)) (L (1%N, true)) 0 false with
              | Done (Some r) => Some (get_vertex g (L (1%N, true)), get_vertex g (L (2%N, true)), all_lanelets (route_submap Z.of_N Z.of_N r), find_lanelet (route_submap Z.of_N Z.of_N r) 1)
              | _ => None end
    | _ => None end = Some (Some 3, None, [(2, false); (3, false); (1, true)]%N, Some (1%N, true))) by (vm_compute; reflexivity).
  destruct (build o1 tl_world tl_rules [tl_module] id_order) as [g| | |] eqn:Hg; [|discriminate..]. exists g.
  destruct (get_route RoutingProps.tie0 g (L (2%N, false)) (L (1%N, true)) 0 false) as [[r|]| | |] eqn:Hr; try discriminate Q. exists r.
  injection Q as E1 E2 E3 E4. split; [reflexivity|]. split; [exists 3; exact E1|]. split; [intros [v Hv]; rewrite E2 in Hv; discriminate|].
  split; [reflexivity|]. split; [reflexivity|]. split; [exact E3|exact E4].
Qed.
Print Assumptions C115_nonvacuous.
