(** C11 - C15: the search based queries of RoutingGraph. The cost arithmetic is any one satisfying
    [CostLaws]; every order in which the priority queue may deliver equal elements is covered by [tie];
    the graph is any graph that can be built. *)
From Coq Require Import NArith ZArith List Bool Arith Lia.
From stdpp Require Import gmap.
From Verif Require Import CostAlg GraphModel GraphSpec GraphProofs GraphProofs2 GraphProps DijkstraModel RoutingSpec VisitSpec
  DijkstraProofs RoutingProofs.
Import ListNotations.

Definition tie0 (_ : nat) : nat := 0.

(** Two lanes, 1-2-3 and 4-5, a lane change 1 -> 4 and an expensive direct edge 1 -> 3. *)
Definition road_ops : list (gop ZCost) :=
  [OpVertex (ll 1); OpVertex (ll 2); OpVertex (ll 3); OpVertex (ll 4); OpVertex (ll 5); OpVertex (ll 6); OpVertex (EArea 9);
   zedge 1 2 2 Successor; zedge 2 3 2 Successor; zedge 1 3 9 Successor; zedge 1 4 1 RLeft; zedge 4 1 1 RRight;
   zedge 4 5 2 Successor; zedge 5 3 1 RRight; zedge 3 2 1 Conflicting;
   OpEdge (ll 3) (EArea 9) (EInfo (A := ZCost) (Some 1%Z) 0 RArea);
   OpEdge (EArea 9) (ll 6) (EInfo (A := ZCost) (Some 1%Z) 0 RArea)].
Definition road : graph ZCost := gbuild 1 road_ops.

(** ** C11 *)
Theorem C11_shortest_path_optimal (A : CostAlg) cok wok (L : CostLaws A cok wok) m (ops : list (gop A))
    tie a b costid lc ar :
  let g := gbuild m ops in
  let P := drivable g costid lc ar in
  match shortest_path tie g a b costid lc ar with
  | QRet (Some p) => path_between g P a b p /\ (costid < g_numcosts g)%N
  | QRet None => no_path g P a b
  | QThrow => (exists s t, get_vertex g a = Some s /\ get_vertex g b = Some t) /\
      ((g_numcosts g <= costid)%N \/ (ar = false /\ area_between g P a b))
  | QBroken => False
  end.
Proof. exact (shortest_path_spec cok wok L _ (gbuild_ok m ops) tie a b costid lc ar). Qed.
Print Assumptions C11_shortest_path_optimal.
Example C11_nonvacuous :
  shortest_path tie0 road (ll 1) (ll 3) 0 true false = QRet (Some [ll 1; ll 2; ll 3]) /\
  shortest_path (fun _ => 1) road (ll 1) (ll 3) 0 true false = QRet (Some [ll 1; ll 2; ll 3]) /\
  shortest_path tie0 road (ll 4) (ll 3) 0 true false = QRet (Some [ll 4; ll 5; ll 3]) /\
  shortest_path tie0 road (ll 4) (ll 3) 0 false false = QRet None /\
  shortest_path tie0 road (ll 1) (ll 6) 0 true true = QRet (Some [ll 1; ll 2; ll 3; EArea 9; ll 6]) /\
  shortest_path tie0 road (ll 1) (ll 3) 1 true false = QThrow.
Proof. vm_compute. repeat split. Qed.

(** ** C12 *)
(** The set is exact: exactly the vertices with a way of cost at most c, each once. *)
Theorem C12_reachable_set_exact (A : CostAlg) cok wok (L : CostLaws A cok wok) m (ops : list (gop A))
    backw ar tie a c costid lc : comparable cok c ->
  let g := gbuild m ops in
  let P := directed backw (drivable g costid lc ar) in
  let reachable s v := exists es, walk P s es v /\ below_inf (wcost es) /\ cle A (wcost es) c in
  match reachable_set backw ar tie g a c costid lc with
  | QRet l => match get_vertex g a with
              | None => l = []
              | Some s => exists vs, List.NoDup vs /\ elements g vs l /\ forall v, In v vs <-> reachable s v
              end
  | QThrow => exists s, get_vertex g a = Some s /\ ((g_numcosts g <= costid)%N \/
                (ar = false /\ exists v d, reachable s v /\ vertex_elem g v = Some (EArea d)))
  | QBroken => False
  end.
Proof. exact (reachable_set_spec cok wok L _ (gbuild_ok m ops) backw ar tie a c costid lc). Qed.
Print Assumptions C12_reachable_set_exact.
Example C12_nonvacuous :
  reachable_set false false tie0 road (ll 1) (Some 3%Z) 0 true = QRet [ll 1; ll 2; ll 4; ll 5] /\
  reachable_set true false tie0 road (ll 3) (Some 2%Z) 0 true = QRet [ll 2; ll 3; ll 5] /\
  reachable_set false true tie0 road (ll 3) (Some 1%Z) 0 true = QRet [ll 3; EArea 9].
Proof. vm_compute. repeat split. Qed.
Example C12_comparable (c : Z) : comparable (A := ZCost) zcok (Some c).
Proof. intros [x|] [y|]; unfold cle; simpl; intros; try discriminate; auto. lia. Qed.

(** "lanelet itself is always included" is false for a negative budget. *)
Theorem C12_start_always_included_refuted : exists a c s, get_vertex road a = Some s /\
  reachable_set false false tie0 road a c 0 true = QRet [].
Proof. exists (ll 1), (Some (-1)%Z), 0. vm_compute. auto. Qed.
Print Assumptions C12_start_always_included_refuted.

(** ** C13 *)
(** The returned paths are the branches of a shortest path tree that is extended exactly at the vertices
    within the limits, in driving order. "Shortest" is relative to ways that leave only vertices within
    the limits; the unrestricted claim of the property is refuted below. *)
Theorem C13_possible_paths_partial (A : CostAlg) cok wok (L : CostLaws A cok wok) m (ops : list (gop A))
    backw ar tie a p :
  let g := gbuild m ops in
  let P := directed backw (drivable g (pp_costid p) (pp_lane_changes p) ar) in
  match possible_paths backw ar tie g a p with
  | QRet l => match get_vertex g a with
              | None => l = []
              | Some s => good_paths g P backw s p l
              end
  | QThrow => exists s, get_vertex g a = Some s /\ ((g_numcosts g <= pp_costid p)%N \/
                (pp_cost p = None /\ pp_elems p = None) \/
                (ar = false /\ exists es v d t, walk P s es t /\ In v (wverts s es) /\ vertex_elem g v = Some (EArea d)))
  | QBroken => False
  end.
Proof. exact (possible_paths_spec cok wok L _ (gbuild_ok m ops) backw ar tie a p). Qed.
Print Assumptions C13_possible_paths_partial.
Example C13_nonvacuous :
  possible_paths false false tie0 road (ll 1) (PPParams (A := ZCost) (Some (Some 3%Z)) None 0 true false)
    = QRet [[ll 1; ll 2; ll 3]; [ll 1; ll 4; ll 5]] /\
  possible_paths false false tie0 road (ll 1) (PPParams (A := ZCost) None (Some 2) 0 true false)
    = QRet [[ll 1; ll 2]; [ll 1; ll 3]; [ll 1; ll 4]] /\
  possible_paths true false tie0 road (ll 3) (PPParams (A := ZCost) None (Some 9) 0 false true)
    = QRet [[ll 1; ll 2; ll 3]].
Proof. vm_compute. repeat split. Qed.

(** A returned path that is not a shortest path to its last lanelet: 1-2-4 costs 105 although 1-3-4 costs 8.
    Vertex 3 is outside of the limit and therefore not extended. *)
Definition detour_ops : list (gop ZCost) :=
  [OpVertex (ll 1); OpVertex (ll 2); OpVertex (ll 3); OpVertex (ll 4);
   zedge 1 2 5 Successor; zedge 2 4 100 Successor; zedge 1 3 7 Successor; zedge 3 4 1 Successor].
Theorem C13_shortest_refuted :
  exists path p, possible_paths false false tie0 (gbuild 1 detour_ops) (ll 1)
        (PPParams (A := ZCost) (Some (Some 6%Z)) None 0 false false) = QRet [path; p] /\
    p = [ll 1; ll 2; ll 4] /\
    shortest_path tie0 (gbuild 1 detour_ops) (ll 1) (ll 4) 0 false false = QRet (Some [ll 1; ll 3; ll 4]).
Proof. do 2 eexists. vm_compute. repeat split. Qed.
Print Assumptions C13_shortest_refuted.

(** The documentation promises the least number of lane changes; with equal costs the path with a lane
    change can be returned although one without exists. *)
Definition tie_ops : list (gop ZCost) :=
  [OpVertex (ll 1); OpVertex (ll 2); OpVertex (ll 3); OpVertex (ll 4);
   zedge 1 2 1 RLeft; zedge 1 3 2 Successor; zedge 2 4 2 Successor; zedge 3 4 1 Successor].
Theorem C13_least_lane_changes_refuted :
  exists l, possible_paths false false tie0 (gbuild 1 tie_ops) (ll 1)
        (PPParams (A := ZCost) (Some (Some 3%Z)) None 0 true false) = QRet l /\
    In [ll 1; ll 2; ll 4] l /\ ~ In [ll 1; ll 3; ll 4] l.
Proof.
  eexists. split; [vm_compute; reflexivity|]. split; [simpl; auto|].
  simpl. intros H. repeat (destruct H as [H|H]; [discriminate|]). auto.
Qed.
Print Assumptions C13_least_lane_changes_refuted.

(** ** C14 *)
Theorem C14_for_each (A : CostAlg) cok wok (L : CostLaws A cok wok) m (ops : list (gop A)) St
    backw ar tie a (cb : St -> vinfo A -> St * option bool) st lc costid :
  let g := gbuild m ops in
  let P := directed backw (drivable g costid lc ar) in
  match for_each backw ar tie g a cb st lc costid with
  | QRet (Some (log, st')) => exists s, get_vertex g a = Some s /\
       good_visits P cb s st log st' /\ complete_visits P s log
  | QRet None => get_vertex g a = None
  | QThrow => (exists s, get_vertex g a = Some s) /\ (g_numcosts g <= costid)%N
  | QBroken => False
  end.
Proof. exact (for_each_spec cok wok L _ (gbuild_ok m ops) backw ar tie a cb st lc costid). Qed.
Print Assumptions C14_for_each.
(** A visit function that counts, does not continue at vertex 1 and throws at the fifth call. *)
Definition ex_cb (n : nat) (i : vinfo ZCost) : nat * option bool :=
  (S n, if n =? 4 then None else Some (negb (vi_vertex i =? 1))).
Example C14_nonvacuous :
  for_each false false tie0 road (ll 1) ex_cb 0 true 0 =
  QRet (Some ([(VI (A := ZCost) 0 0 (Some 0%Z) 1 0, Some true); (VI (A := ZCost) 3 0 (Some 1%Z) 2 1, Some true);
               (VI (A := ZCost) 1 0 (Some 2%Z) 2 0, Some false); (VI (A := ZCost) 4 3 (Some 3%Z) 3 1, Some true);
               (VI (A := ZCost) 2 4 (Some 4%Z) 4 2, None)], 5)).
Proof. vm_compute. reflexivity. Qed.

(** ** C15 *)
Theorem C15_shortest_path_via (A : CostAlg) cok wok (L : CostLaws A cok wok) m (ops : list (gop A))
    tie a via b costid lc ar :
  let g := gbuild m ops in
  let P := drivable g costid lc ar in
  let points := a :: via ++ [b] in
  match shortest_path_via tie g a via b costid lc ar with
  | QRet (Some p) => via_path (path_between g P) points p
  | QRet None => exists x y, consecutive points x y /\ no_path g P x y
  | QThrow => (g_numcosts g <= costid)%N \/
       (ar = false /\ exists x y, consecutive points x y /\ area_between g P x y)
  | QBroken => False
  end.
Proof. exact (shortest_path_via_spec cok wok L _ (gbuild_ok m ops) tie a via b costid lc ar). Qed.
Print Assumptions C15_shortest_path_via.
Example C15_nonvacuous :
  shortest_path_via tie0 road (ll 1) [ll 4; ll 4; ll 5] (ll 3) 0 true false = QRet (Some [ll 1; ll 4; ll 5; ll 3]) /\
  shortest_path_via tie0 road (ll 1) [ll 3] (ll 2) 0 true false = QRet None.
Proof. vm_compute. auto. Qed.
