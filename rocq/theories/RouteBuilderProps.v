(** C65 - C70: the route that is built for a shortest path. The graph is any graph that can be built with any cost arithmetic. *)
From Coq Require Import NArith ZArith List Bool Arith Lia Relations.
From Verif Require Import CostAlg GraphModel GraphSpec GraphProofs GraphProofs2 GraphProps DijkstraModel RoutingSpec RoutingProps RouteSpec RouteModel
  RouteProofs RouteProps RouteBuilderModel RouteBuilderSpec RouteBuilderProofs7 RouteBuilderProofs8 RouteBuilderProofs9 RouteBuilderProofs10 RouteBuilderProofs11
  RouteQueryModel.
Import ListNotations.
Local Open Scope nat_scope.

(** ** C65: the construction ends *)
(** If no lanelet is left or right of itself, a route is returned or the behaviour is undefined: the builder does not loop, does not throw and does not
    return without a route. *)
Theorem C65_build_ends (A : CostAlg) m (ops : list (gop A)) path k lc :
  let g := gbuild m ops in
  route_path g k lc path -> lanes_only g k lc -> lanes_unwind g k lc ->
  build_route g path lc k = Undefined \/ exists r, build_route g path lc k = Done (Some r).
Proof. intros g H1 H2 H3. exact (build_ends m ops k lc path H1 H2 H3). Qed.
Print Assumptions C65_build_ends.

(** Without lane changes there always is a route. *)
Theorem C65_without_lane_changes (A : CostAlg) m (ops : list (gop A)) path k :
  let g := gbuild m ops in
  route_path g k false path -> lanes_only g k false -> ends_once g k false path ->
  exists r, build_route g path false k = Done (Some r).
Proof. intros g H1 H2 H3. exact (build_without m ops k path H1 H2 H3). Qed.
Print Assumptions C65_without_lane_changes.

(** RoutingGraph::getRoute: without lane changes there is a route exactly if there is a way, and it contains a cheapest way. *)
Theorem C65_get_route (A : CostAlg) cok wok (L : CostLaws A cok wok) m (ops : list (gop A)) tie a b k :
  let g := gbuild m ops in
  let P := drivable g k false false in
  is_lanelet a = true -> lanes_only g k false ->
  match get_route tie g a b k false with
  | Done (Some r) => exists p, path_between g P a b p /\ forall c, In c p -> contains r c = true
  | Done None => no_path g P a b
  | Thrown => (g_numcosts g <= k)%N /\ exists s t, get_vertex g a = Some s /\ get_vertex g b = Some t
  | Undefined | Endless => False
  end.
Proof.
  intros g P Ha Hl. pose proof (C11_shortest_path_optimal A cok wok L m ops tie a b k false false) as H. cbv zeta in H. fold g P in H.
  unfold get_route, route_for. destruct (shortest_path tie g a b k false false) as [[p|]| |].
  - destruct H as [H _]. destruct (path_route m ops k false a b p Ha Hl H) as (H1 & H2 & _).
    destruct (C65_without_lane_changes A m ops p k H1 Hl) as (r & E); [apply simple_ends; [auto|discriminate]|]. fold g in E. rewrite E.
    exists p. split; auto. intros c Hc. destruct (build_inv m ops k false p H1 Hl r E) as (vs & b' & e & last & on & order & disc & Hr).
    eapply contained_path; eauto.
  - exact H.
  - destruct H as [(s & t & Hs & Ht) [H|[_ H]]]; [split; eauto|]. exfalso.
    destruct H as (s' & t' & es & v & d & Hs' & Ht' & (Hw & _) & Hv & Hd).
    assert (K : is_lanelet (RouteBuilderProofs7.el g v) = true).
    { destruct (proper_of m ops a s' Hs') as (Ps & Es & _). clear Hd Ht'. revert v Hv. induction Hw as [|es e Hw IH He]; intros v Hv.
      - destruct Hv as [<-|[]]. unfold g. rewrite Es. auto.
      - unfold wverts in Hv. rewrite map_app, app_comm_cons in Hv. apply in_app_or in Hv as [Hv|[<-|[]]]; [apply IH; auto|].
        pose proof He as (He1 & _). destruct (edge_proper m ops e He1) as [P1 P2]. eapply Hl; [apply IH|].
        + clear - Hw. inversion Hw as [|es' e' H1 H2]; subst; [left; auto|]. unfold wverts. rewrite map_app. right. apply in_or_app. right. left. auto.
        + exists e. destruct (drivable_used m ops k false e He) as [U D]. split; [auto|]. split; [apply (proper_elem m ops); auto|]. split; [apply (proper_elem m ops); auto|auto]. }
    unfold RouteBuilderProofs7.el in K. unfold vertex_elem in Hd. erewrite nth_error_nth in K by exact Hd. discriminate.
  - exact H.
Qed.
Print Assumptions C65_get_route.

Definition pair2 (a b : N) (r s : relation) : list (gop ZCost) := [zedge a b 1 r; zedge b a 1 s].
Definition lanelets (l : list N) : list (gop ZCost) := map (fun d => OpVertex (ll d)) l.
Definition what (o : result (option (route ZCost))) : result (option (list elem * list N)) :=
  match o with
  | Done (Some r) => Done (Some (g_verts (r_graph r), r_lanes r))
  | Done None => Done None | Undefined => Undefined | Thrown => Thrown | Endless => Endless
  end.
(** Two lanes 1-2-3 and 4-5-6 with lane changes, an exit 8 behind 2 and a lanelet 7 that crosses 2. *)
Definition two_lane_ops : list (gop ZCost) := lanelets [1; 2; 3; 4; 5; 6; 7; 8]%N ++
  [zedge 1 2 1 Successor; zedge 2 3 1 Successor; zedge 4 5 1 Successor; zedge 5 6 1 Successor; zedge 2 8 1 Successor] ++
  pair2 1 4 RLeft RRight ++ pair2 2 5 RLeft RRight ++ pair2 3 6 RLeft RRight ++ pair2 2 7 Conflicting Conflicting.
Notation two_lane_road := (gbuild 1 two_lane_ops).
(** The pairs of elements an edge of a kind joins. *)
Definition pairs (g : graph ZCost) (k : N) (lc : bool) (kind : relation -> bool) : list (option elem * option elem) :=
  map (fun e => (vertex_elem g (e_src e), vertex_elem g (e_tgt e))) (filter (fun e => used k lc e && kind (ei_rel (e_info e))) (g_edges g)).
Lemma joined_pairs g k lc kind a b : joined g k lc kind a b <-> In (Some a, Some b) (pairs g k lc kind).
Proof.
  unfold pairs. rewrite in_map_iff. split.
  - intros (e & H1 & H2 & H3 & H4 & H5). exists e. split; [congruence|]. apply filter_In. split; auto. rewrite H4, H5. auto.
  - intros (e & E & He). injection E as E1 E2. apply filter_In in He as [He K]. apply andb_true_iff in K as [K1 K2]. exists e. auto.
Qed.
Lemma linked_pairs g k lc kind p : (fix chk (l : list elem) : bool := match l with
    | a :: (b :: _) as r => existsb (fun x => match x with (Some c, Some d) => elem_eqb a c && elem_eqb b d | _ => false end) (pairs g k lc kind) && chk r
    | _ => true end) p = true -> linked (joined g k lc kind) p.
Proof.
  induction p as [|a p IH]; [simpl; auto|]. destruct p as [|b p]; [simpl; auto|]. intros H. apply andb_true_iff in H as [H1 H2]. split; [|apply IH; auto].
  apply joined_pairs. apply existsb_exists in H1 as ([[c|] [d|]] & Hx & K); try discriminate. apply andb_true_iff in K as [K1 K2].
  apply elem_eqb_eq in K1, K2. subst. auto.
Qed.
Lemma lanes_pairs g k lc : forallb (fun x => match snd x with Some d => is_lanelet d | None => true end) (pairs g k lc driving) = true -> lanes_only g k lc.
Proof. intros H a b _ Hj. apply joined_pairs in Hj. rewrite forallb_forall in H. apply (H _ Hj). Qed.
Lemma path_pairs (g : graph ZCost) k lc p : p <> [] -> forallb (fun a => is_lanelet a && match get_vertex g a with Some _ => true | None => false end) p = true ->
  linked (joined g k lc driving) p -> route_path g k lc p.
Proof.
  intros H1 H2 H3. split; auto. split; auto. intros a Ha. rewrite forallb_forall in H2. apply H2, andb_true_iff in Ha as [K1 K2]. split; auto.
  destruct (get_vertex g a); [eauto|discriminate].
Qed.
(** The relation of neighbours ends after at most n steps. *)
Fixpoint steps (l : list (option elem * option elem)) (n : nat) (a : option elem) : list (option elem) :=
  match n with 0 => [a] | S n => flat_map (fun x => if match fst x, a with Some c, Some d => elem_eqb c d | _, _ => false end then steps l n (snd x) else []) l end.
Lemma unwind_pairs g k lc kind n : forallb (fun x => match steps (pairs g k lc kind) n (fst x) with [] => true | _ => false end) (pairs g k lc kind) = true ->
  forall a, ~ clos_trans elem (joined g k lc kind) a a.
Proof.
  intros H a K.
  assert (G : forall j x, clos_trans elem (joined g k lc kind) x a -> steps (pairs g k lc kind) j (Some x) <> []).
  { induction j as [|j IH]; intros x Hx; simpl; [discriminate|]. intros E.
    assert (Hy : exists y, joined g k lc kind x y /\ clos_trans elem (joined g k lc kind) y a).
    { clear - Hx K. apply clos_trans_t1n in Hx. destruct Hx as [y Hxy|y z Hxy Hyz]; [exists y; auto|]. exists y. split; auto. apply clos_t1n_trans; auto. }
    destruct Hy as (y & Hxy & Hya). apply (IH y Hya). apply joined_pairs in Hxy.
    destruct (steps (pairs g k lc kind) j (Some y)) as [|w l] eqn:Es; auto. exfalso.
    assert (In w []); [rewrite <- E|auto]. apply in_flat_map. exists (Some x, Some y). split; auto. simpl.
    rewrite (proj2 (elem_eqb_eq x x) eq_refl), Es. left. auto. }
  specialize (G n a K). assert (Hy : exists y, joined g k lc kind a y) by (clear - K; remember a as z in K at 2; clear Heqz; induction K; eauto).
  destruct Hy as (y & Hy). apply joined_pairs in Hy. rewrite forallb_forall in H. specialize (H _ Hy). cbn [fst] in H.
  destruct (steps (pairs g k lc kind) n (Some a)); [auto|discriminate].
Qed.
Lemma two_pairs (g : graph ZCost) k lc : (forall e, In e (g_edges g) -> e_src e < length (g_verts g)) ->
  forallb (fun v => length (filter (fun e => Nat.eqb (e_src e) v && used k lc e && changing (ei_rel (e_info e))) (g_edges g)) <=? 1) (seq 0 (length (g_verts g))) = true ->
  two_lanes g k lc.
Proof.
  intros Hb H v. rewrite forallb_forall in H. destruct (Nat.lt_ge_cases v (length (g_verts g))) as [Hv|Hv].
  - apply Nat.leb_le. apply H. apply in_seq. lia.
  - rewrite filter_nothing; [simpl; lia|]. intros e He. apply Hb in He. destruct (Nat.eqb_spec (e_src e) v); auto. lia.
Qed.
Ltac path_tac := apply path_pairs; [discriminate|vm_compute; reflexivity|apply linked_pairs; vm_compute; reflexivity].
Ltac lanes_tac := apply lanes_pairs; vm_compute; reflexivity.
Ltac unwind_tac j := split; apply (unwind_pairs _ _ _ _ j); vm_compute; reflexivity.
(** The elements that can be reached. *)
Lemma reach_pairs g k lc kind (l : list elem) a b : forallb (fun x => match x with (Some c, Some d) => negb (known c l) || known d l | _ => true end) (pairs g k lc kind) = true ->
  In a l -> clos_refl_trans elem (joined g k lc kind) a b -> In b l.
Proof.
  intros H Ha K. apply clos_rt_rt1n in K. induction K as [|x y z K1 K2 IH]; auto. apply IH. apply joined_pairs in K1. rewrite forallb_forall in H. apply H in K1. simpl in K1.
  assert (Hk : forall c, known c l = true <-> In c l).
  { clear. intros c. induction l as [|d l IH]; simpl; [split; [discriminate|tauto]|]. rewrite orb_true_iff, IH, elem_eqb_eq. intuition. }
  rewrite (proj2 (Hk x) Ha) in K1. simpl in K1. apply Hk. auto.
Qed.
Lemma ends_pairs g k lc p l z : forallb (fun x => match x with (Some c, Some d) => negb (known c l) || known d l | _ => true end) (pairs g k lc changing) = true ->
  hd_error (rev p) = Some z -> In z l -> (forall a, In a (removelast p) -> ~ In a l) -> ends_once g k lc p.
Proof.
  intros H Hz Hl Hp f z' _ Hz'. right. intros a Ha K. rewrite Hz in Hz'. injection Hz' as <-. eapply Hp; eauto. eapply reach_pairs; eauto.
Qed.

Example C65_nonvacuous :
  route_path two_lane_road 0 true (map ll [1; 2; 3]%N) /\ lanes_only two_lane_road 0 true /\ lanes_unwind two_lane_road 0 true /\
  ends_once two_lane_road 0 true (map ll [1; 2; 3]%N) /\ two_lanes two_lane_road 0 true /\
  what (build_route two_lane_road (map ll [1; 2; 3]%N) true 0) = Done (Some (map ll [1; 2; 4; 3; 5; 6], [1000; 1000; 1001; 1000; 1001; 1001]))%N /\
  what (get_route tie0 two_lane_road (ll 1) (ll 3) 0 false) = Done (Some (map ll [1; 2; 3], [1000; 1000; 1000]))%N /\
  what (get_route tie0 two_lane_road (ll 1) (ll 6) 0 false) = Done None /\
  get_route tie0 two_lane_road (ll 1) (ll 3) 1 false = Thrown.
Proof.
  split; [path_tac|]. split; [lanes_tac|]. split; [unwind_tac 3|]. split.
  { apply ends_pairs with (l := [ll 3; ll 6]) (z := ll 3); [vm_compute; reflexivity|reflexivity|simpl; auto|].
    intros a [<-|[<-|[]]] K; simpl in K; intuition discriminate. }
  split; [apply two_pairs; [intros e He; apply (go_edges _ (gbuild_ok 1 two_lane_ops) e He)|vm_compute; reflexivity]|].
  split; [vm_compute; reflexivity|]. split; [vm_compute; reflexivity|]. split; vm_compute; reflexivity.
Qed.

(** The builder does not always yield a route: a section beside the route is permitted as a whole, also if its last lanelet was pruned, which writes
    behind the end of a vector. The lanelets 5-6 lie beside 2-3; 6 is left at a lanelet 7 that is not beside the route. *)
Definition overrun_ops : list (gop ZCost) := lanelets [1; 2; 3; 4; 5; 6; 7]%N ++
  [zedge 1 2 1 Successor; zedge 2 3 1 Successor; zedge 3 4 1 Successor; zedge 1 5 2 Successor; zedge 5 3 1 Successor; zedge 5 6 1 Successor; zedge 6 7 1 Successor] ++
  pair2 2 5 AdjacentLeft AdjacentRight ++ pair2 3 6 AdjacentLeft AdjacentRight.
Theorem C65_defined_refuted : exists (ops : list (gop ZCost)) p,
  let g := gbuild 1 ops in
  route_path g 0 true p /\ lanes_only g 0 true /\ lanes_unwind g 0 true /\ two_lanes g 0 true /\ ends_once g 0 true p /\
  shortest_path tie0 g (ll 1) (ll 4) 0 true false = QRet (Some p) /\
  build_route g p true 0 = Undefined /\ get_route tie0 g (ll 1) (ll 4) 0 true = Undefined.
Proof.
  exists overrun_ops, (map ll [1; 2; 3; 4]%N). cbv zeta. split; [path_tac|]. split; [lanes_tac|]. split; [unwind_tac 3|].
  split; [apply two_pairs; [intros e He; apply (go_edges _ (gbuild_ok 1 overrun_ops) e He)|vm_compute; reflexivity]|].
  split.
  { apply ends_pairs with (l := [ll 4]) (z := ll 4); [vm_compute; reflexivity|reflexivity|simpl; auto|].
    intros a [<-|[<-|[<-|[]]]] K; simpl in K; intuition discriminate. }
  split; [vm_compute; reflexivity|]. split; vm_compute; reflexivity.
Qed.
Print Assumptions C65_defined_refuted.

(** With lanelets that are left of each other the search for a conflict to the left of a lanelet never ends, whatever number of steps it is given. *)
Definition spin_ops : list (gop ZCost) := lanelets [1; 2; 3; 5; 6]%N ++
  [zedge 1 2 1 Successor; zedge 2 3 1 Successor; zedge 1 5 2 Successor; zedge 5 3 1 Successor] ++ pair2 2 5 Conflicting Conflicting ++ pair2 5 6 RLeft RLeft.
Theorem C65_end_refuted : exists (ops : list (gop ZCost)) p,
  let g := gbuild 1 ops in
  route_path g 0 true p /\ lanes_only g 0 true /\ ends_once g 0 true p /\ two_lanes g 0 true /\
  shortest_path tie0 g (ll 1) (ll 3) 0 true false = QRet (Some p) /\
  build_route g p true 0 = Endless /\ get_route tie0 g (ll 1) (ll 3) 0 true = Endless /\
  exists v, get_vertex g (ll 5) = Some v /\ forall f, (forall u, f u = false) -> forall fuel, sideway (orig_edges g true 0) (bits RLeft) f fuel (Some v) = None.
Proof.
  exists spin_ops, (map ll [1; 2; 3]%N). cbv zeta. split; [path_tac|]. split; [lanes_tac|]. split.
  { apply ends_pairs with (l := [ll 3]) (z := ll 3); [vm_compute; reflexivity|reflexivity|simpl; auto|].
    intros a [<-|[<-|[]]] K; simpl in K; intuition discriminate. }
  split; [apply two_pairs; [intros e He; apply (go_edges _ (gbuild_ok 1 spin_ops) e He)|vm_compute; reflexivity]|].
  split; [vm_compute; reflexivity|]. split; [vm_compute; reflexivity|]. split; [vm_compute; reflexivity|].
  exists 3. split; [vm_compute; reflexivity|]. intros f Hf fuel.
  assert (G : forall fuel, sideway (orig_edges (gbuild 1 spin_ops) true 0) (bits RLeft) f fuel (Some 3) = None /\
                           sideway (orig_edges (gbuild 1 spin_ops) true 0) (bits RLeft) f fuel (Some 4) = None); [|apply G].
  clear fuel. intros fuel.
  assert (E3 : get_next (orig_edges (gbuild 1 spin_ops) true 0) (bits RLeft) 3 = Some 4) by (vm_compute; reflexivity).
  assert (E4 : get_next (orig_edges (gbuild 1 spin_ops) true 0) (bits RLeft) 4 = Some 3) by (vm_compute; reflexivity).
  revert E3 E4. generalize (orig_edges (gbuild 1 spin_ops) true 0). intros es E3 E4.
  induction fuel as [|j [IH1 IH2]]; cbn [sideway]; rewrite !Hf; auto. rewrite E3, E4. auto.
Qed.
Print Assumptions C65_end_refuted.

(** ** C66: the route is a part of the graph *)
(** It begins with the path, contains it, and contains only lanelets that can be reached by driving from its start, also along the relations inside of it. *)
Theorem C66_route_lanelets (A : CostAlg) m (ops : list (gop A)) path k lc r :
  let g := gbuild m ops in
  route_path g k lc path -> lanes_only g k lc -> build_route g path lc k = Done (Some r) ->
  (exists ops', r_graph r = gbuild 1 ops') /\ NoDup (g_verts (r_graph r)) /\ hd_error (g_verts (r_graph r)) = hd_error path /\
  (forall a, In a path -> contains r a = true) /\
  (forall a, contains r a = true <-> In a (g_verts (r_graph r))) /\
  forall a, contains r a = true -> is_lanelet a = true /\
    clos_refl_trans elem (joined g k lc driving) (hd (EArea 0) path) a /\
    clos_refl_trans elem (fun x y => joined g k lc any_relation x y /\ contains r x = true /\ contains r y = true) (hd (EArea 0) path) a.
Proof.
  intros g H1 H2 E. destruct (build_inv m ops k lc path H1 H2 r E) as (vs & b & e & last & on & order & disc & Hr).
  destruct (route_verts m ops k lc path H1 H2 r vs b e last on order disc Hr) as (K1 & K2 & _).
  split; [destruct Hr as [_ _ _ ((K & _) & _) _ _ _ _ _]; exact K|]. split; [exact K1|]. split; [exact K2|].
  split; [intros a; eapply contained_path; eauto|]. split; [|intros a; eapply contained_reached; eauto].
  intros a. rewrite (contained m ops k lc path r vs b e last on order disc Hr). destruct Hr as [_ _ _ ((_ & _ & _ & K & _ & _) & _) _ _ _ Hd _]. rewrite K, in_map_iff. split.
  - intros (v & Hv & ->). exists v. split; auto. apply Hd; auto.
  - intros (v & <- & Hv). exists v. split; auto. apply Hd; auto.
Qed.
Print Assumptions C66_route_lanelets.
(** Between its lanelets it has exactly the edges of the graph, with their order, cost and relation, all for its single cost module. *)
Theorem C66_route_edges (A : CostAlg) m (ops : list (gop A)) path k lc r :
  let g := gbuild m ops in
  route_path g k lc path -> lanes_only g k lc -> build_route g path lc k = Done (Some r) ->
  (forall a, contains r a = true ->
    map (told (r_graph r)) (edges_from (r_graph r) a) =
    map (told g) (filter (fun e => used k lc e && match vertex_elem g (e_tgt e) with Some b => contains r b | None => false end) (edges_from g a))) /\
  (forall e, In e (g_edges (r_graph r)) -> ei_costid (e_info e) = 0%N).
Proof.
  intros g H1 H2 E. destruct (build_inv m ops k lc path H1 H2 r E) as (vs & b & e & last & on & order & disc & Hr). split.
  - exact (route_edges m ops k lc path H1 H2 r vs b e last on order disc Hr).
  - intros f Hf. eapply route_costs; eauto.
Qed.
Print Assumptions C66_route_edges.
(** conflictingInMap lists the elements in conflict with a lanelet in the whole graph. *)
Theorem C66_conflicts (A : CostAlg) m (ops : list (gop A)) path k lc r a :
  let g := gbuild m ops in
  route_path g k lc path -> lanes_only g k lc -> build_route g path lc k = Done (Some r) -> contains r a = true ->
  map Some (conflicting_in_map r a) =
  map (fun e => vertex_elem g (e_tgt e)) (filter (fun e => used k lc e && crossing (ei_rel (e_info e))) (edges_from g a)).
Proof.
  intros g H1 H2 E Ha. destruct (build_inv m ops k lc path H1 H2 r E) as (vs & b & e & last & on & order & disc & Hr).
  exact (route_conflicts m ops k lc path H1 H2 r vs b e last on order disc Hr a Ha).
Qed.
Print Assumptions C66_conflicts.
Example C66_nonvacuous : exists r,
  build_route two_lane_road (map ll [1; 2; 3]%N) true 0 = Done (Some r) /\ contains r (ll 2) = true /\ contains r (ll 8) = false /\
  map (told (r_graph r)) (edges_from (r_graph r) (ll 2)) =
    [(Some (ll 3), Some 1%Z, Successor); (Some (ll 5), Some 1%Z, RLeft)] /\
  conflicting_in_map r (ll 2) = [ll 7].
Proof.
  destruct (build_route two_lane_road (map ll [1; 2; 3]%N) true 0) as [[r|]| | |] eqn:E; try (vm_compute in E; discriminate).
  exists r. split; [reflexivity|]. vm_compute in E. injection E as <-. split; [vm_compute; reflexivity|]. split; [vm_compute; reflexivity|]. split; vm_compute; reflexivity.
Qed.

(** ** C67: lane ids *)
(** Lanelets with the same lane id are joined by continuing lanelets (as long as a lane id has 16 bits and there are no more lanelets than ids). *)
Theorem C67_lanes_sound (A : CostAlg) m (ops : list (gop A)) path k lc r a b :
  let g := gbuild m ops in
  route_path g k lc path -> lanes_only g k lc -> build_route g path lc k = Done (Some r) -> (N.of_nat (route_size r) <= 65536)%N ->
  contains r a = true -> contains r b = true -> lane_of r a = lane_of r b ->
  clos_refl_sym_trans elem (continues (r_graph r)) a b.
Proof.
  intros g H1 H2 E Hs Ha Hb Hl. destruct (build_inv m ops k lc path H1 H2 r E) as (vs & v & e & last & on & order & disc & Hr).
  apply (lanes_sound m ops k lc path H1 H2 r vs v e last on order disc Hr); auto. unfold route_size in Hs. lia.
Qed.
Print Assumptions C67_lanes_sound.
(** All lanelets that were determined ended up on the route. *)
Definition all_kept {A : CostAlg} (g : graph A) (path : list elem) (lc : bool) (k : N) (r : route A) : Prop :=
  forall on v a, route_lanelets g path lc k = Done on -> In v on -> vertex_elem g v = Some a -> contains r a = true.
(** Then the lane ids are exactly the lanes, and numLanes is their number. *)
Theorem C67_lanes_exact (A : CostAlg) m (ops : list (gop A)) path k lc r a b :
  let g := gbuild m ops in
  route_path g k lc path -> lanes_only g k lc -> build_route g path lc k = Done (Some r) -> (N.of_nat (route_size r) <= 65536)%N ->
  all_kept g path lc k r -> contains r a = true ->
  (contains r b = true /\ lane_of r a = lane_of r b <-> clos_refl_sym_trans elem (continues (r_graph r)) a b).
Proof.
  intros g H1 H2 E Hs Hk Ha. split; [intros [Hb Hl]; eapply C67_lanes_sound; eauto|].
  destruct (build_inv m ops k lc path H1 H2 r E) as (vs & v & e & last & on & order & disc & Hr). intros K.
  apply (lanes_complete m ops k lc path H1 H2 r vs v e last on order disc Hr); auto; [unfold route_size in Hs; lia|].
  intros u Hu. destruct (on_ok m ops k lc path H1 H2 r vs v e last on order disc Hr u Hu) as (_ & _ & Hp).
  apply (contained_el m ops k lc path H1 H2 r vs v e last on order disc Hr u Hp).
  eapply Hk; [eapply lanelets_of; eauto|exact Hu|]. apply (proper_elem m ops); auto.
Qed.
Print Assumptions C67_lanes_exact.
Theorem C67_num_lanes (A : CostAlg) m (ops : list (gop A)) path k lc r :
  let g := gbuild m ops in
  route_path g k lc path -> lanes_only g k lc -> build_route g path lc k = Done (Some r) -> (N.of_nat (route_size r) <= 65536)%N ->
  all_kept g path lc k r -> exists reps, NoDup reps /\ length reps = num_lanes r /\ (forall x, In x reps -> contains r x = true) /\
    (forall x y, In x reps -> In y reps -> clos_refl_sym_trans elem (continues (r_graph r)) x y -> x = y) /\
    (forall a, contains r a = true -> exists x, In x reps /\ clos_refl_sym_trans elem (continues (r_graph r)) a x).
Proof.
  intros g H1 H2 E Hs Hk. destruct (build_inv m ops k lc path H1 H2 r E) as (vs & v & e & last & on & order & disc & Hr).
  destruct (lane_reps m ops k lc path r vs v e last on order disc Hr) as (reps & K1 & K2 & K3 & K4 & K5). exists reps.
  split; [auto|]. split; [auto|]. split; [auto|]. split.
  - intros x y Hx Hy K. apply K4; auto. apply (C67_lanes_exact A m ops path k lc r x y); auto.
  - intros a Ha. destruct (K5 a Ha) as (x & Hx & K). exists x. split; auto. apply (C67_lanes_exact A m ops path k lc r a x); auto.
Qed.
Print Assumptions C67_num_lanes.
(** The closure of the relation of continuing lanelets is what Route::fullLane lists. *)
Lemma linked_pair {T} (R : T -> T -> Prop) l : forall p x y q, l = p ++ x :: y :: q -> linked R l -> R x y.
Proof.
  intros p. revert l. induction p as [|a p IH]; intros l x y q -> H; [destruct H; auto|]. simpl in H.
  destruct (p ++ x :: y :: q) as [|c l] eqn:El; [destruct p; discriminate|]. destruct H as [_ H]. eapply IH; [symmetry; exact El|auto].
Qed.
Theorem C67_full_lane (A : CostAlg) n (ops : list (gop A)) a b : (0 < n)%N -> In (OpVertex a) ops ->
  let g := gbuild n ops in
  exists l, full_lane g a = Lane l /\ (In b l <-> clos_refl_sym_trans elem (continues g) a b).
Proof.
  intros Hn Ha g. destruct (C19_full_lane A n ops a Hn Ha) as (l & E & Hin & _ & Hl & (f & z & Hf & Hz & Hw)). exists l. split; auto. fold g in Hl, Hw.
  assert (Hfun := continues_fun g (gbuild_ok n ops) (gbuild_canonical n ops)). assert (Hinj := continues_inj g (gbuild_ok n ops) (gbuild_canonical n ops)).
  assert (Hrst : forall x, In x l -> clos_refl_sym_trans elem (continues g) f x).
  { intros x Hx. destruct l as [|y l]; [destruct Hx|]. injection Hf as ->. apply clos_rt_clos_rst. eapply linked_rt; eauto. }
  split; [intros Hb; eapply rst_trans; [apply rst_sym|]; eauto|].
  assert (Hend : exists q, l = q ++ [z]).
  { exists (rev (tl (rev l))). rewrite <- (rev_involutive l) at 1. destruct (rev l); [discriminate|]. injection Hz as ->. auto. }
  assert (Hbeg : exists q, l = f :: q) by (destruct l as [|y q]; [discriminate|]; injection Hf as ->; eauto).
  assert (Hstep : forall x y, continues g x y -> In x l <-> In y l).
  { intros x y K. split; intros H.
    - apply in_split in H as (p & q & El). destruct q as [|w q].
      + destruct Hend as (q' & Eq). rewrite El in Eq. apply app_inj_tail in Eq as [_ ->]. destruct Hw as [[_ Hw]|Hw]; [destruct (Hw y); auto|].
        rewrite (Hfun _ _ _ K Hw). destruct Hbeg as (q0 & ->). left. auto.
      + rewrite (Hfun _ _ _ K (linked_pair _ _ _ _ _ _ El Hl)), El. apply in_or_app. simpl. auto.
    - apply in_split in H as (p & q & El). destruct p as [|w p _] using rev_ind.
      + destruct Hbeg as (q0 & Eq). rewrite El in Eq. injection Eq as -> _. destruct Hw as [[Hw _]|Hw]; [destruct (Hw x); auto|].
        rewrite (Hinj _ _ _ K Hw). destruct Hend as (q1 & ->). apply in_or_app. simpl. auto.
      + rewrite <- app_assoc in El. simpl in El. rewrite (Hinj _ _ _ K (linked_pair _ _ _ _ _ _ El Hl)), El. apply in_or_app. simpl. auto. }
  intros K. assert (G : In a l <-> In b l); [|tauto]. clear Hin Ha E. induction K as [x y K|x|x y K IH|x y w K1 IH1 K2 IH2]; [auto|tauto|symmetry; auto|rewrite IH1; auto].
Qed.
Print Assumptions C67_full_lane.
Example C67_nonvacuous : exists r,
  build_route two_lane_road (map ll [1; 2; 3]%N) true 0 = Done (Some r) /\ num_lanes r = 2 /\
  route_lanelets two_lane_road (map ll [1; 2; 3]%N) true 0 = Done [3; 4; 5; 0; 1; 2] /\
  full_lane (r_graph r) (ll 2) = Lane (map ll [1; 2; 3]%N) /\ lane_of r (ll 1) = lane_of r (ll 3) /\ lane_of r (ll 1) <> lane_of r (ll 4).
Proof.
  destruct (build_route two_lane_road (map ll [1; 2; 3]%N) true 0) as [[r|]| | |] eqn:E; try (vm_compute in E; discriminate).
  exists r. split; [reflexivity|]. vm_compute in E. injection E as <-. split; [vm_compute; reflexivity|]. split; [vm_compute; reflexivity|].
  split; [vm_compute; reflexivity|]. split; [vm_compute; reflexivity|]. vm_compute. discriminate.
Qed.
(** Otherwise lanelets of the same lane may get different ids: 5 was determined, it is not reached on the route, and still counts as a second lanelet in
    front of 3. *)
Definition ghost_ops : list (gop ZCost) := lanelets [1; 2; 3; 4; 5]%N ++
  [zedge 1 2 1 Successor; zedge 2 3 1 Successor; zedge 1 4 1 Successor; zedge 4 5 1 Successor; zedge 5 3 1 Successor] ++ pair2 2 4 Conflicting Conflicting.
Theorem C67_lanes_refuted : exists (ops : list (gop ZCost)) p r,
  let g := gbuild 1 ops in
  route_path g 0 false p /\ lanes_only g 0 false /\ ends_once g 0 false p /\ get_route tie0 g (ll 1) (ll 3) 0 false = Done (Some r) /\
  build_route g p false 0 = Done (Some r) /\ g_verts (r_graph r) = p /\ full_lane (r_graph r) (ll 1) = Lane p /\ num_lanes r = 2 /\
  lane_of r (ll 2) <> lane_of r (ll 3) /\ continues (r_graph r) (ll 2) (ll 3).
Proof.
  destruct (build_route (gbuild 1 ghost_ops) (map ll [1; 2; 3]%N) false 0) as [[r|]| | |] eqn:E; try (vm_compute in E; discriminate).
  exists ghost_ops, (map ll [1; 2; 3]%N), r. cbv zeta. split; [path_tac|]. split; [lanes_tac|]. split.
  { apply ends_pairs with (l := [ll 3]) (z := ll 3); [vm_compute; reflexivity|reflexivity|simpl; auto|].
    intros a [<-|[<-|[]]] K; simpl in K; intuition discriminate. }
  split; [unfold get_route; replace (shortest_path tie0 (gbuild 1 ghost_ops) (ll 1) (ll 3) 0 false false) with (QRet (Some (map ll [1; 2; 3]%N))) by (vm_compute; reflexivity); exact E|].
  split; [exact E|]. vm_compute in E. injection E as <-. split; [vm_compute; reflexivity|]. split; [vm_compute; reflexivity|]. split; [vm_compute; reflexivity|].
  split; [vm_compute; discriminate|]. eexists. split; vm_compute; reflexivity.
Qed.
Print Assumptions C67_lanes_refuted.

(** ** C68: the lanelets of the route lead to its end *)
Theorem C68_leads_to_end_partial (A : CostAlg) m (ops : list (gop A)) path k lc r a :
  let g := gbuild m ops in
  route_path g k lc path -> lanes_only g k lc -> build_route g path lc k = Done (Some r) -> contains r a = true ->
  exists z, hd_error (rev path) = Some z /\
    (clos_refl_trans elem (joined g k lc driving) a z \/
     exists w, clos_refl_trans elem (joined g k lc driving) a w /\ clos_trans elem (joined g k lc following) w w).
Proof. intros g H1 H2 E Ha. exact (contained_leads m ops k lc path H1 H2 r a E Ha). Qed.
Print Assumptions C68_leads_to_end_partial.
Example C68_nonvacuous : exists r, build_route two_lane_road (map ll [1; 2; 3]%N) true 0 = Done (Some r) /\ contains r (ll 4) = true.
Proof.
  destruct (build_route two_lane_road (map ll [1; 2; 3]%N) true 0) as [[r|]| | |] eqn:E; try (vm_compute in E; discriminate).
  exists r. split; [reflexivity|]. vm_compute in E. injection E as <-. vm_compute; reflexivity.
Qed.
(** A circle of lanelets beside the path is taken into the route although nothing leads from it to the end. *)
Definition circle_ops : list (gop ZCost) := lanelets [1; 2; 3; 4; 5]%N ++
  [zedge 1 2 1 Successor; zedge 2 3 1 Successor; zedge 4 5 1 Successor; zedge 5 4 1 Successor; zedge 1 4 1 RLeft; zedge 4 1 1 AdjacentRight] ++
  pair2 2 5 AdjacentLeft AdjacentRight.
Theorem C68_end_refuted : exists (ops : list (gop ZCost)) p r a,
  let g := gbuild 1 ops in
  route_path g 0 true p /\ lanes_only g 0 true /\ lanes_unwind g 0 true /\ ends_once g 0 true p /\ two_lanes g 0 true /\
  shortest_path tie0 g (ll 1) (ll 3) 0 true false = QRet (Some p) /\ build_route g p true 0 = Done (Some r) /\
  contains r a = true /\ ~ clos_refl_trans elem (joined g 0 true driving) a (ll 3).
Proof.
  destruct (build_route (gbuild 1 circle_ops) (map ll [1; 2; 3]%N) true 0) as [[r|]| | |] eqn:E; try (vm_compute in E; discriminate).
  exists circle_ops, (map ll [1; 2; 3]%N), r, (ll 4). cbv zeta. split; [path_tac|]. split; [lanes_tac|]. split; [unwind_tac 3|]. split.
  { apply ends_pairs with (l := [ll 3]) (z := ll 3); [vm_compute; reflexivity|reflexivity|simpl; auto|].
    intros a [<-|[<-|[]]] K; simpl in K; intuition discriminate. }
  split; [apply two_pairs; [intros e He; apply (go_edges _ (gbuild_ok 1 circle_ops) e He)|vm_compute; reflexivity]|].
  split; [vm_compute; reflexivity|]. split; [exact E|]. split; [vm_compute in E; injection E as <-; vm_compute; reflexivity|].
  intros K. apply (reach_pairs (gbuild 1 circle_ops) 0 true driving [ll 4; ll 5] (ll 4) (ll 3)) in K; [simpl in K; intuition discriminate|vm_compute; reflexivity|simpl; auto].
Qed.
Print Assumptions C68_end_refuted.
(** A lanelet of the route may be a dead end on the route: the lanelets that follow 6 do not belong to it. *)
Definition dead_end_ops : list (gop ZCost) := lanelets [1; 2; 3; 4; 5; 6; 7; 8; 9]%N ++
  [zedge 1 2 1 Successor; zedge 2 3 1 Successor; zedge 3 4 1 Successor; zedge 4 5 1 Successor; zedge 1 6 2 Successor; zedge 6 7 1 Successor; zedge 6 8 1 Successor;
   zedge 7 9 1 Successor; zedge 8 9 1 Successor; zedge 9 5 1 Successor] ++
  pair2 2 6 AdjacentLeft AdjacentRight ++ pair2 3 8 AdjacentLeft AdjacentRight ++ pair2 2 7 Conflicting Conflicting ++ pair2 4 9 Conflicting Conflicting.
Theorem C68_dead_end_refuted : exists (ops : list (gop ZCost)) p r a,
  let g := gbuild 1 ops in
  route_path g 0 true p /\ lanes_only g 0 true /\ lanes_unwind g 0 true /\ ends_once g 0 true p /\ two_lanes g 0 true /\
  shortest_path tie0 g (ll 1) (ll 5) 0 true false = QRet (Some p) /\ build_route g p true 0 = Done (Some r) /\
  contains r a = true /\ a <> ll 5 /\ forall b, contains r b = true -> ~ joined g 0 true driving a b.
Proof.
  destruct (build_route (gbuild 1 dead_end_ops) (map ll [1; 2; 3; 4; 5]%N) true 0) as [[r|]| | |] eqn:E; try (vm_compute in E; discriminate).
  exists dead_end_ops, (map ll [1; 2; 3; 4; 5]%N), r, (ll 6). cbv zeta. split; [path_tac|]. split; [lanes_tac|]. split; [unwind_tac 3|]. split.
  { apply ends_pairs with (l := [ll 5]) (z := ll 5); [vm_compute; reflexivity|reflexivity|simpl; auto|].
    intros a [<-|[<-|[<-|[<-|[]]]]] K; simpl in K; intuition discriminate. }
  split; [apply two_pairs; [intros e He; apply (go_edges _ (gbuild_ok 1 dead_end_ops) e He)|vm_compute; reflexivity]|].
  split; [vm_compute; reflexivity|]. split; [exact E|]. split; [vm_compute in E; injection E as <-; vm_compute; reflexivity|]. split; [discriminate|].
  intros b Hb K. apply joined_pairs in K. assert (Hk : b = ll 7 \/ b = ll 8).
  { assert (G : forallb (fun x => match x with (Some c, Some d) => negb (elem_eqb c (ll 6)) || elem_eqb d (ll 7) || elem_eqb d (ll 8) | _ => true end)
      (pairs (gbuild 1 dead_end_ops) 0 true driving) = true) by (vm_compute; reflexivity).
    rewrite forallb_forall in G. apply G in K. rewrite (proj2 (elem_eqb_eq (ll 6) (ll 6)) eq_refl) in K. simpl in K.
    apply orb_true_iff in K as [K|K]; apply elem_eqb_eq in K; auto. }
  vm_compute in E. injection E as <-. destruct Hk as [-> | ->]; vm_compute in Hb; discriminate.
Qed.
Print Assumptions C68_dead_end_refuted.

(** ** C69: lanes beside the route belong to it *)
(** If the lane can be changed in at most one way, every lanelet between which and a lanelet of the route the lane can be changed in both directions is on the route. *)
Theorem C69_neighbours_partial (A : CostAlg) m (ops : list (gop A)) path k lc r a b :
  let g := gbuild m ops in
  route_path g k lc path -> lanes_only g k lc -> two_lanes g k lc -> ends_once g k lc path -> build_route g path lc k = Done (Some r) ->
  contains r a = true -> joined g k lc changing a b -> joined g k lc changing b a -> contains r b = true.
Proof. intros g H1 H2 H3 H4 E Ha K1 K2. exact (mutual_contained m ops k lc path H1 H2 r a b H3 H4 E Ha K1 K2). Qed.
Print Assumptions C69_neighbours_partial.
Example C69_nonvacuous : exists r, build_route two_lane_road (map ll [1; 2; 3]%N) true 0 = Done (Some r) /\ contains r (ll 2) = true /\
  joined two_lane_road 0 true changing (ll 2) (ll 5) /\ joined two_lane_road 0 true changing (ll 5) (ll 2).
Proof.
  destruct (build_route two_lane_road (map ll [1; 2; 3]%N) true 0) as [[r|]| | |] eqn:E; try (vm_compute in E; discriminate).
  exists r. split; [reflexivity|]. vm_compute in E. injection E as <-. split; [vm_compute; reflexivity|]. rewrite !joined_pairs. vm_compute. auto 12.
Qed.
(** With three lanes a lanelet is lost: that the lane can be changed from 3 to 4, which is pruned for its conflict with 1, removes 3 as well. *)
Definition three_lane_ops : list (gop ZCost) := lanelets [1; 2; 3; 4]%N ++ [zedge 1 2 1 Successor] ++
  pair2 2 3 RLeft RRight ++ pair2 3 4 RLeft RRight ++ pair2 1 4 Conflicting Conflicting.
Theorem C69_three_lanes_refuted : exists (ops : list (gop ZCost)) p r a b,
  let g := gbuild 1 ops in
  route_path g 0 true p /\ lanes_only g 0 true /\ lanes_unwind g 0 true /\ ends_once g 0 true p /\
  shortest_path tie0 g (ll 1) (ll 2) 0 true false = QRet (Some p) /\ build_route g p true 0 = Done (Some r) /\
  contains r a = true /\ joined g 0 true changing a b /\ joined g 0 true changing b a /\ contains r b = false.
Proof.
  destruct (build_route (gbuild 1 three_lane_ops) (map ll [1; 2]%N) true 0) as [[r|]| | |] eqn:E; try (vm_compute in E; discriminate).
  exists three_lane_ops, (map ll [1; 2]%N), r, (ll 2), (ll 3). cbv zeta. split; [path_tac|]. split; [lanes_tac|]. split; [unwind_tac 4|]. split.
  { apply ends_pairs with (l := [ll 2; ll 3; ll 4]) (z := ll 2); [vm_compute; reflexivity|reflexivity|simpl; auto|].
    intros a [<-|[]] K; simpl in K; intuition discriminate. }
  split; [vm_compute; reflexivity|]. split; [exact E|]. vm_compute in E. injection E as <-. split; [vm_compute; reflexivity|]. rewrite !joined_pairs.
  split; [vm_compute; auto 12|]. split; [vm_compute; auto 12|]. vm_compute; reflexivity.
Qed.
Print Assumptions C69_three_lanes_refuted.

(** ** C70: what joins the route *)
(** The route comes from the path by adding lanelets that may join it; of these it contains the ones that are reached on it. *)
Theorem C70_growth (A : CostAlg) m (ops : list (gop A)) path k lc r :
  let g := gbuild m ops in
  route_path g k lc path -> lanes_only g k lc -> lanes_unwind g k lc -> build_route g path lc k = Done (Some r) ->
  let start := hd (EArea 0) path in
  let beyond x := hd_error path <> hd_error (rev path) /\ exists z, hd_error (rev path) = Some z /\ clos_refl_trans elem (joined g k lc changing) z x in
  exists det, grown_from elem (joined g k lc) beyond start path det /\
    forall a, contains r a = true <-> clos_refl_trans elem (fun x y => joined g k lc any_relation x y /\ In y det) start a.
Proof.
  intros g H1 H2 H3 E start beyond. destruct (build_inv m ops k lc path H1 H2 r E) as (vs & b & e & last & on & order & disc & Hr).
  exists (map (RouteBuilderProofs7.el g) on). split.
  - exact (build_grown m ops k lc path r vs b e last on order disc H3 Hr).
  - intros a. exact (contained_in m ops k lc path H1 H2 r vs b e last on order disc a Hr).
Qed.
Print Assumptions C70_growth.
(** The lanelets of the second lane join; the exit and the crossing lanelet do not. *)
Example C70_nonvacuous : exists r, build_route two_lane_road (map ll [1; 2; 3]%N) true 0 = Done (Some r) /\
  map (contains r) (map ll [1; 2; 3; 4; 5; 6; 7; 8]%N) = [true; true; true; true; true; true; false; false].
Proof.
  destruct (build_route two_lane_road (map ll [1; 2; 3]%N) true 0) as [[r|]| | |] eqn:E; try (vm_compute in E; discriminate).
  exists r. split; [reflexivity|]. vm_compute in E. injection E as <-. vm_compute; reflexivity.
Qed.
