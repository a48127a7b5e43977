(** C16, C17, C18, C41: the routing graph container and its direct queries. *)
From Coq Require Import NArith ZArith List Bool Arith Lia.
From Verif Require Import CostAlg GraphModel GraphSpec GraphProofs GraphProofs2.
Import ListNotations.

(** A small graph over integer costs used by the examples. *)
Definition ll (d : N) : elem := ELanelet d false.
Definition zedge (a b : N) (c : Z) (r : relation) : gop ZCost := OpEdge (ll a) (ll b) (EInfo (A := ZCost) (Some c) 0 r).
Definition ex_ops : list (gop ZCost) :=
  [OpVertex (ll 1); OpVertex (ll 2); OpVertex (ll 3); OpVertex (EArea 9);
   zedge 1 2 5 Successor; zedge 1 3 2 RLeft; zedge 3 1 2 RRight; zedge 2 3 1 Conflicting;
   OpEdge (ll 1) (EArea 9) (EInfo (A := ZCost) (Some 4%Z) 0 RArea);
   zedge 1 2 (-3) Successor; zedge 1 7 1 Successor; OpEdge (ll 2) (ll 3) (EInfo (A := ZCost) None 0 RLeft)].
Definition ex_graph : graph ZCost := gbuild 1 ex_ops.

(** ** C16 *)
(** Every named view except [withoutConflicting] contains exactly the edges of the requested cost module
    with the advertised relations, in both directions. Missing from the full property: withoutConflicting,
    which is refuted below. *)
Theorem C16_filters_exact_partial (A : CostAlg) (g : graph A) n costid w u e :
  get_filtered g n costid = Some w -> n <> WithoutConflicting ->
  (In e (out_edges w u) <-> In e (g_edges g) /\ e_src e = u /\ ei_costid (e_info e) = costid /\
                           In (ei_rel (e_info e)) (advertised n)) /\
  (In e (in_edges w u) <-> In e (g_edges g) /\ e_tgt e = u /\ ei_costid (e_info e) = costid /\
                          In (ei_rel (e_info e)) (advertised n)).
Proof. exact (view_edges g n costid w u e). Qed.
Print Assumptions C16_filters_exact_partial.
Example C16_nonvacuous : exists w, get_filtered ex_graph WithLaneChanges 0 = Some w /\
  length (out_edges w 0) = 2 /\ length (in_edges w 0) = 1.
Proof. eexists. split; [reflexivity|split; vm_compute; reflexivity]. Qed.

(** routingRelation with includeConflicting = false reports Conflicting. *)
Theorem C16_without_conflicting_refuted :
  exists a b, routing_relation ex_graph a b false = Ret (Some Conflicting).
Proof. exists (ll 2), (ll 3). vm_compute. reflexivity. Qed.
Print Assumptions C16_without_conflicting_refuted.

(** ** C17 *)
(** After any sequence of operations the stored edges are, in order, exactly the requested edges between
    elements added before, with finite and non-negative cost. *)
Theorem C17_stored_edges (A : CostAlg) n (ops : list (gop A)) :
  map (named (gbuild n ops)) (g_edges (gbuild n ops)) = map some_named (wanted [] ops).
Proof. exact (gbuild_edges n ops). Qed.
Print Assumptions C17_stored_edges.

(** In particular every stored edge is usable by the search. *)
Theorem C17_edges_valid (A : CostAlg) n (ops : list (gop A)) e :
  In e (g_edges (gbuild n ops)) ->
  e_src e < length (g_verts (gbuild n ops)) /\ e_tgt e < length (g_verts (gbuild n ops)) /\
  cfinite A (ei_cost (e_info e)) = true /\ cltb A (ei_cost (e_info e)) (czero A) = false.
Proof. exact (go_edges _ (gbuild_ok n ops) e). Qed.
Print Assumptions C17_edges_valid.

(** Infinite cost is dropped silently, negative cost throws. *)
Theorem C17_add_edge_result (A : CostAlg) n (ops : list (gop A)) a b i :
  gresult (gbuild n ops) (OpEdge a b i) =
  let seen := fold_left (fun s o => match o with OpVertex e => e :: s | OpEdge _ _ _ => s end) ops [] in
  if known a seen && known b seen && cfinite A (ei_cost i)
  then if cltb A (ei_cost i) (czero A) then ThrowsRoutingGraphError else Added
  else Dropped.
Proof. exact (gresult_spec n ops (OpEdge a b i)). Qed.
Print Assumptions C17_add_edge_result.
Example C17_nonvacuous : length (g_edges ex_graph) = 5 /\ length (wanted (A := ZCost) [] ex_ops) = 5 /\
  gresult ex_graph (zedge 1 2 (-3) Successor) = ThrowsRoutingGraphError.
Proof. vm_compute. auto. Qed.

(** ** C18 *)
(** If lefts/rights/adjacentLefts/adjacentRights return, the list follows the single neighbour query step by
    step to its end and contains nothing twice. *)
Theorem C18_neighbours_listed_once (A : CostAlg) m (ops : list (gop A)) n costid a fuel l :
  (costid < m)%N -> neighbours_until_end n (gbuild m ops) a costid fuel = Ret (Some l) ->
  neighbour_chain (nb (gbuild m ops) n costid) a l /\ NoDup (a :: l).
Proof. intros H. rewrite <- (gbuild_costs m ops) in H. exact (neighbours_spec _ n costid a fuel l H). Qed.
Print Assumptions C18_neighbours_listed_once.

(** They return (within one iteration per vertex) if the neighbour relation has no cycle. The property asks
    for this without the hypothesis, which is refuted below. *)
Theorem C18_neighbours_terminate_partial (A : CostAlg) m (ops : list (gop A)) n costid a :
  (costid < m)%N -> (forall x, ~ neighbour_reach (nb (gbuild m ops) n costid) x x) ->
  exists l, neighbours_until_end n (gbuild m ops) a costid (S (length (g_verts (gbuild m ops)))) = Ret (Some l) /\
            neighbour_chain (nb (gbuild m ops) n costid) a l.
Proof. intros H. rewrite <- (gbuild_costs m ops) in H. exact (neighbours_terminate _ n costid a H). Qed.
Print Assumptions C18_neighbours_terminate_partial.

(** What a single step means. *)
Theorem C18_neighbour_is_edge (A : CostAlg) m (ops : list (gop A)) n costid a b :
  n <> WithoutConflicting -> neighbour_query n (gbuild m ops) a costid = Ret (Some b) ->
  is_lanelet b = true /\ exists e, In e (g_edges (gbuild m ops)) /\ vertex_elem (gbuild m ops) (e_src e) = Some a /\
     vertex_elem (gbuild m ops) (e_tgt e) = Some b /\ ei_costid (e_info e) = costid /\
     In (ei_rel (e_info e)) (advertised n).
Proof. exact (neighbour_query_some _ (gbuild_ok m ops) n costid a b). Qed.
Print Assumptions C18_neighbour_is_edge.

(** No neighbour means no such edge (as long as these edges lead to lanelets). *)
Theorem C18_no_neighbour_no_edge (A : CostAlg) m (ops : list (gop A)) n costid a :
  n <> WithoutConflicting -> (costid < m)%N -> neighbour_query n (gbuild m ops) a costid = Ret None ->
  (forall e b, In e (g_edges (gbuild m ops)) -> vertex_elem (gbuild m ops) (e_src e) = Some a ->
     vertex_elem (gbuild m ops) (e_tgt e) = Some b -> ei_costid (e_info e) = costid ->
     In (ei_rel (e_info e)) (advertised n) -> is_lanelet b = true) ->
  ~ exists e, In e (g_edges (gbuild m ops)) /\ vertex_elem (gbuild m ops) (e_src e) = Some a /\
       ei_costid (e_info e) = costid /\ In (ei_rel (e_info e)) (advertised n).
Proof.
  intros Hn H. rewrite <- (gbuild_costs m ops) in H.
  exact (neighbour_query_none _ (gbuild_ok m ops) (gbuild_canonical m ops) n costid a Hn H).
Qed.
Print Assumptions C18_no_neighbour_no_edge.

(** besides: left neighbours from the outside, the lanelet, right neighbours. *)
Theorem C18_besides (A : CostAlg) m (ops : list (gop A)) costid a fuel r :
  (costid < m)%N -> besides (gbuild m ops) a costid fuel = Ret (Some r) ->
  exists ls rs, r = rev ls ++ a :: rs /\ neighbour_chain (nb (gbuild m ops) VLeft costid) a ls /\
                neighbour_chain (nb (gbuild m ops) VRight costid) a rs.
Proof. intros H. rewrite <- (gbuild_costs m ops) in H. exact (besides_spec _ costid a fuel r H). Qed.
Print Assumptions C18_besides.

(** A ring of left edges keeps lefts() busy forever. *)
Definition ring_ops : list (gop ZCost) :=
  [OpVertex (ll 1); OpVertex (ll 2); zedge 1 2 1 RLeft; zedge 2 1 1 RLeft].
Theorem C18_lefts_refuted : forall fuel, neighbours_until_end VLeft (gbuild 1 ring_ops) (ll 1) 0 fuel = Ret None.
Proof.
  apply neighbours_diverge; [reflexivity|].
  apply nr_more with (b := ll 2); [vm_compute; reflexivity|apply nr_one; vm_compute; reflexivity].
Qed.
Print Assumptions C18_lefts_refuted.

Definition three_ops : list (gop ZCost) :=
  [OpVertex (ll 1); OpVertex (ll 2); OpVertex (ll 3); zedge 1 2 1 RLeft; zedge 2 3 1 RLeft;
   zedge 2 1 1 RRight; zedge 3 2 1 RRight].
Example C18_nonvacuous :
  neighbours_until_end VLeft (gbuild 1 three_ops) (ll 1) 0 4 = Ret (Some [ll 2; ll 3]) /\
  besides (gbuild 1 three_ops) (ll 2) 0 4 = Ret (Some [ll 3; ll 2; ll 1]) /\
  neighbour_query VLeft (gbuild 1 three_ops) (ll 3) 0 = Ret None.
Proof. vm_compute. auto. Qed.
(** The acyclicity hypothesis of C18_neighbours_terminate_partial holds there. *)
Example C18_nonvacuous_acyclic : forall x, ~ neighbour_reach (nb (gbuild 1 three_ops) VLeft 0) x x.
Proof.
  assert (Hs : forall x y, nb (gbuild 1 three_ops) VLeft 0 x = Some y ->
     (x = ll 1 /\ y = ll 2) \/ (x = ll 2 /\ y = ll 3)).
  { intros x y H.
    assert (Hin : x = ll 1 \/ x = ll 2 \/ x = ll 3 \/ get_vertex (gbuild 1 three_ops) x = None).
    { destruct (get_vertex (gbuild 1 three_ops) x) as [v|] eqn:E; auto.
      apply (go_lookup _ (gbuild_ok 1 three_ops)) in E as [E _].
      destruct v as [|[|[|v]]]; vm_compute in E; try (injection E as <-; auto).
      destruct v; discriminate. }
    destruct Hin as [->|[->|[->|Hx]]].
    - vm_compute in H. injection H as <-. auto.
    - vm_compute in H. injection H as <-. auto.
    - vm_compute in H. discriminate.
    - unfold nb, neighbour_query in H. rewrite Hx in H. discriminate. }
  assert (Hr : forall x y, neighbour_reach (nb (gbuild 1 three_ops) VLeft 0) x y ->
      (x = ll 1 /\ (y = ll 2 \/ y = ll 3)) \/ (x = ll 2 /\ y = ll 3)).
  { induction 1 as [x y H|x y z H Hr IH]; apply Hs in H.
    - intuition.
    - destruct H as [[-> ->]|[-> ->]], IH as [[E H]|[E H]]; try discriminate; intuition. }
  intros x H. apply Hr in H. destruct H as [[-> [H|H]]|[-> H]]; discriminate.
Qed.

(** ** C41: following and previous are mirror images and list exactly the direct successors. *)
Theorem C41_following_previous (A : CostAlg) m (ops : list (gop A)) a lc :
  (0 < m)%N -> exists l l', following (gbuild m ops) a lc = Ret l /\ previous (gbuild m ops) a lc = Ret l' /\
  (forall x, In x l <-> is_lanelet x = true /\ next_lanelet (gbuild m ops) lc a x) /\
  (forall x, In x l' <-> is_lanelet x = true /\ next_lanelet (gbuild m ops) lc x a).
Proof.
  intros H. rewrite <- (gbuild_costs m ops) in H.
  exact (following_spec _ (gbuild_ok m ops) (gbuild_canonical m ops) a lc H).
Qed.
Print Assumptions C41_following_previous.
Example C41_nonvacuous : following ex_graph (ll 1) true = Ret [ll 2; ll 3] /\ previous ex_graph (ll 1) true = Ret [ll 3] /\
  previous ex_graph (ll 2) false = Ret [ll 1].
Proof. vm_compute. auto. Qed.
