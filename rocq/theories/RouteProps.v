(** C19, C53, C54: lanes, neighbours and validity check of a route. *)
From Coq Require Import NArith ZArith List Bool Arith Lia.
From Verif Require Import CostAlg GraphModel GraphSpec GraphProofs GraphProofs2 GraphProps RouteModel RouteSpec RouteProofs.
Import ListNotations.
Local Open Scope nat_scope.

(** ** C19 *)
Lemma route_view (A : CostAlg) n (ops : list (gop A)) : (0 < n)%N ->
  get_filtered (gbuild n ops) WithoutLaneChanges 0 = Some (GView (gbuild n ops) 0%N (bits Successor)).
Proof. intros H. unfold get_filtered. rewrite gbuild_costs. destruct (N.leb_spec n 0); [lia|]. auto. Qed.

(** remainingLane of a lanelet on the route starts with the lanelet, follows the lane lanelet by lanelet, contains nothing
    twice and stops only where the lane ends, splits, is merged, or comes back to the lanelet. *)
Theorem C19_remaining_lane (A : CostAlg) n (ops : list (gop A)) a : (0 < n)%N -> In (OpVertex a) ops ->
  let g := gbuild n ops in
  exists l z, remaining_lane g a = Lane (a :: l) /\ NoDup (a :: l) /\ linked (continues g) (a :: l) /\
    hd_error (rev (a :: l)) = Some z /\ complete_end g a z.
Proof.
  intros Hn Ha g. apply (on_route n) in Ha as [v Hv].
  destruct (lane_of_ok g (gbuild_ok n ops) (gbuild_canonical n ops) a v Hv) as (l & E & Hh & H1 & H2 & f & z & Hf & Hz & Hm).
  destruct l as [|b l]; [discriminate|]. injection Hh as ->. exists l, z. simpl in Hf. injection Hf as <-.
  split; [|repeat split; auto]. unfold remaining_lane, g. rewrite Hv, (route_view A n ops Hn). exact E.
Qed.
Print Assumptions C19_remaining_lane.

(** fullLane contains the lanelet, follows the lane, contains nothing twice, and nothing of the lane is missing in front of it
    or behind it; a circular lane closes. *)
Theorem C19_full_lane (A : CostAlg) n (ops : list (gop A)) a : (0 < n)%N -> In (OpVertex a) ops ->
  let g := gbuild n ops in
  exists l, full_lane g a = Lane l /\ In a l /\ NoDup l /\ linked (continues g) l /\ whole g l.
Proof.
  intros Hn Ha g. apply (on_route n) in Ha as [v Hv].
  destruct (full_of_ok g (gbuild_ok n ops) (gbuild_canonical n ops) a v Hv) as (b & l & Eb & E & H1 & H2 & H3 & H4).
  exists l. split; [|auto]. unfold full_lane, g. rewrite Hv, (route_view A n ops Hn). 
  change (back_impl (GView (gbuild n ops) 0%N (bits Successor)) (lane_fuel (gbuild n ops)) v v) with
    (back_impl (GView g 0%N (bits Successor)) (lane_fuel g) v v). rewrite Eb. exact E.
Qed.
Print Assumptions C19_full_lane.

(** The remaining lane is the end of the full lane; for a circular lane it is the full lane from the lanelet on, once
    round. *)
Theorem C19_remaining_of_full (A : CostAlg) n (ops : list (gop A)) a : (0 < n)%N -> In (OpVertex a) ops ->
  let g := gbuild n ops in
  exists p s, full_lane g a = Lane (p ++ a :: s) /\
    (remaining_lane g a = Lane (a :: s) \/ circular g (p ++ a :: s) /\ remaining_lane g a = Lane (a :: s ++ p)).
Proof.
  intros Hn Ha g. destruct (C19_full_lane A n ops a Hn Ha) as (l & E & Hin & Hnd & Hl & Hw).
  destruct (C19_remaining_lane A n ops a Hn Ha) as (r & z & Er & Hnr & Hlr & Hz & Hm).
  apply in_split in Hin as (p & s & ->). exists p, s. split; [exact E|].
  destruct (rest_of (continues g) (continues_fun g (gbuild_ok n ops) (gbuild_canonical n ops)) (p ++ a :: s) (a :: r) a p s)
    as [Eq|[Hc Eq]]; auto.
  - exists a, z. auto.
  - left. fold g in Er. rewrite Er, Eq. auto.
  - right. split; auto. fold g in Er. rewrite Er, Eq. auto.
Qed.
Print Assumptions C19_remaining_of_full.

(** All lanelets of a lane have the same full lane; only for a circular lane it starts elsewhere. *)
Theorem C19_same_lane (A : CostAlg) n (ops : list (gop A)) a b l : (0 < n)%N ->
  let g := gbuild n ops in
  full_lane g a = Lane l -> In b l -> exists l', full_lane g b = Lane l' /\
    (l' = l \/ circular g l /\ circular g l' /\ exists p s, l = p ++ s /\ l' = s ++ p).
Proof.
  intros Hn g E Hb.
  assert (Ha : In (OpVertex a) ops).
  { apply (on_route n). unfold full_lane in E. fold g. destruct (get_vertex g a) as [v|]; [eauto|]. injection E as <-. destruct Hb. }
  destruct (C19_full_lane A n ops a Hn Ha) as (l1 & E1 & Hin & Hnd & Hl & Hw). fold g in E1.
  assert (l1 = l) by congruence. subst l1.
  assert (Hbo : In (OpVertex b) ops).
  { apply (on_route n). fold g. destruct (in_split _ _ Hb) as (p & s & El). subst l. destruct s as [|c s].
    - destruct p as [|d p].
      + destruct Hin as [->|[]]. apply (on_route n) in Ha. exact Ha.
      + assert (Q : exists q t, d :: p = q ++ [t]). { exists (removelast (d :: p)), (last (d :: p) d). apply app_removelast_last. discriminate. }
        destruct Q as (q & t & Eq). rewrite Eq, <- app_assoc in Hl. simpl in Hl. apply linked_app in Hl as (_ & Ht & _).
        apply (continues_vertices g (gbuild_ok n ops) (gbuild_canonical n ops)) in Ht as (u & v & _ & Hv). eauto.
    - apply linked_app in Hl as (_ & Ht & _).
      apply (continues_vertices g (gbuild_ok n ops) (gbuild_canonical n ops)) in Ht as (u & v & Hu & _). eauto. }
  destruct (C19_full_lane A n ops b Hn Hbo) as (l' & E' & Hin' & Hnd' & Hl' & Hw'). fold g in E'.
  exists l'. split; auto.
  destruct (whole_unique (continues g) (continues_fun g (gbuild_ok n ops) (gbuild_canonical n ops))
    (continues_inj g (gbuild_ok n ops) (gbuild_canonical n ops)) l l' b) as [Eq|(C1 & C2 & P)]; auto.
Qed.
Print Assumptions C19_same_lane.

(** A lanelet that is not on the route has no lane. *)
Theorem C19_not_on_route (A : CostAlg) n (ops : list (gop A)) a : ~ In (OpVertex a) ops ->
  remaining_lane (gbuild n ops) a = Lane [] /\ full_lane (gbuild n ops) a = Lane [].
Proof.
  intros H. unfold remaining_lane, full_lane. destruct (get_vertex (gbuild n ops) a) as [v|] eqn:E; auto.
  destruct H. apply (on_route n). eauto.
Qed.
Print Assumptions C19_not_on_route.

(** remainingShortestPath: from the first occurrence of the lanelet to the end; once round for a circular path, whose last
    lanelet is the first one again. What is missing is the path of one lanelet, see below. *)
Theorem C19_remaining_path_partial p s a : ~ In a p ->
  (hd_error (p ++ a :: s) <> hd_error (rev (p ++ a :: s)) -> remaining_path (p ++ a :: s) a = a :: s) /\
  (forall f, hd_error (p ++ a :: s) = Some f -> remaining_path ((p ++ a :: s) ++ [f]) a = a :: s ++ p).
Proof.
  intros H. split.
  - intros Hh. apply remaining_path_open; auto. rewrite rev_hd_suffix in Hh. auto.
  - intros f Hf. apply remaining_path_circle; auto.
Qed.
Print Assumptions C19_remaining_path_partial.
Theorem C19_path_not_on_route p a : ~ In a p -> remaining_path p a = [].
Proof.
  intros H. unfold remaining_path. pose proof (index_of_spec a p) as S1. destruct (index_of a p); auto.
  destruct S1 as (l & r & -> & _). destruct H. apply in_or_app. right; left; auto.
Qed.
Print Assumptions C19_path_not_on_route.
(** On the shortest path of one lanelet, nothing remains: it counts as circular. *)
Theorem C19_single_refuted : exists p a, In a p /\ ~ In a (remaining_path p a).
Proof. exists [ll 1], (ll 1). split; [left; auto|]. vm_compute. auto. Qed.
Print Assumptions C19_single_refuted.

(** 1-2-3 with a merge of 4 into 3, then 3-5; and the circle 6-7-8. *)
Definition lane_ops : list (gop ZCost) :=
  map (fun d => OpVertex (ll d)) [1;2;3;4;5;6;7;8]%N ++
  [zedge 1 2 1 Successor; zedge 2 3 1 Successor; zedge 4 3 1 Successor; zedge 3 5 1 Successor;
   zedge 6 7 1 Successor; zedge 7 8 1 Successor; zedge 8 6 1 Successor; zedge 1 4 1 RLeft].
Example C19_nonvacuous : let g := gbuild 1 lane_ops in
  remaining_lane g (ll 1) = Lane [ll 1; ll 2] /\ full_lane g (ll 2) = Lane [ll 1; ll 2] /\ remaining_lane g (ll 2) = Lane [ll 2] /\
  full_lane g (ll 5) = Lane [ll 3; ll 5] /\ full_lane g (ll 4) = Lane [ll 4] /\
  remaining_lane g (ll 7) = Lane [ll 7; ll 8; ll 6] /\ full_lane g (ll 8) = Lane [ll 8; ll 6; ll 7] /\
  full_lane g (ll 9) = Lane [] /\
  remaining_path [ll 1; ll 2; ll 3] (ll 2) = [ll 2; ll 3] /\ remaining_path [ll 1; ll 2; ll 3; ll 1] (ll 3) = [ll 3; ll 1; ll 2].
Proof. vm_compute. repeat split. Qed.

(** ** C53 *)
(** What leftRelations and rightRelations return, if they do, is the chain of first neighbours: each pair is an edge of the
    graph from the lanelet before, and the last one has no neighbour. *)
Definition side_edge {A : CostAlg} (n : view_name) (g : graph A) (a : elem) (r : relation) (b : elem) : Prop :=
  exists e, In e (g_edges g) /\ vertex_elem g (e_src e) = Some a /\ vertex_elem g (e_tgt e) = Some b /\
    ei_costid (e_info e) = 0%N /\ ei_rel (e_info e) = r /\ In r (advertised n).
Inductive side_chain {A : CostAlg} (n : view_name) (g : graph A) : elem -> list (option elem * relation) -> Prop :=
| sc_end a : (forall r b, ~ side_edge n g a r b) -> side_chain n g a []
| sc_more a r b l : side_edge n g a r b -> side_chain n g b l -> side_chain n g a ((Some b, r) :: l).
Theorem C53_chain (A : CostAlg) m (ops : list (gop A)) n a fuel l : n <> WithoutConflicting ->
  side_relations n (gbuild m ops) a fuel = Lane l -> side_chain n (gbuild m ops) a l.
Proof.
  intros Hn. set (g := gbuild m ops). unfold side_relations.
  destruct (get_vertex g a) as [v|] eqn:Ea; [|discriminate]. destruct (get_filtered g n 0) as [w|] eqn:Ew; [|discriminate].
  destruct (side_loop w fuel v) as [vs| | |] eqn:E; try discriminate. intros [= <-].
  pose proof (fun u e => view_edges g n 0 w u e Ew Hn) as Hv.
  pose proof (gbuild_ok m ops) as Hg. pose proof (gbuild_canonical m ops) as Hc. fold g in Hg, Hc.
  revert a v Ea vs E. induction fuel as [|k IH]; intros a v Ea vs E; [discriminate|].
  simpl in E. destruct (out_edges w v) as [|e r] eqn:Eo.
  - injection E as <-. constructor. intros r b (e & He & Hs & Ht & H0 & Hr & Ha).
    assert (Hs' : get_vertex g a = Some (e_src e)) by (apply (src_vertex g Hg Hc); auto).
    assert (Hi : In e (out_edges w v)). { apply Hv. subst r. repeat split; auto. congruence. }
    rewrite Eo in Hi. destruct Hi.
  - destruct (side_loop w k (e_tgt e)) as [vs'| | |] eqn:E'; try discriminate. injection E as <-.
    assert (Hi : In e (out_edges w v)) by (rewrite Eo; left; auto). apply Hv in Hi as (He & Hs & H0 & Ha).
    destruct (Hc e He) as [_ [b Hb]]. destruct (go_lookup _ Hg _ _ Hb) as [Hbe _]. simpl. rewrite Hbe.
    constructor; [|apply (IH b (e_tgt e)); auto]. exists e. subst v. destruct (go_lookup _ Hg _ _ Ea) as [Hae _]. auto 8.
Qed.
Print Assumptions C53_chain.

(** They return if no lanelet is left (or right) of itself. Without this and for lanelets that are not on the route the
    property is refuted below. *)
Definition side_of {A : CostAlg} n (g : graph A) (a b : elem) : Prop := exists r, side_edge n g a r b.
Inductive beyond (R : elem -> elem -> Prop) : elem -> elem -> Prop :=
| by_one a b : R a b -> beyond R a b
| by_more a b c : R a b -> beyond R b c -> beyond R a c.
Theorem C53_terminates_partial (A : CostAlg) m (ops : list (gop A)) n a : n <> WithoutConflicting -> (0 < m)%N ->
  In (OpVertex a) ops -> (forall x, ~ beyond (side_of n (gbuild m ops)) x x) ->
  exists l, side_relations n (gbuild m ops) a (S (length (g_verts (gbuild m ops)))) = Lane l.
Proof.
  intros Hn Hm Ha Hac. set (g := gbuild m ops) in *. apply (on_route m) in Ha as [v Hv]. fold g in Hv.
  pose proof (gbuild_ok m ops) as Hg. pose proof (gbuild_canonical m ops) as Hc. fold g in Hg, Hc.
  unfold side_relations. rewrite Hv. destruct (get_filtered g n 0) as [w|] eqn:Ew.
  2: { exfalso. unfold get_filtered in Ew. unfold g in Ew. rewrite gbuild_costs in Ew. destruct (N.leb_spec m 0); [lia|discriminate]. }
  pose proof (fun u e => view_edges g n 0 w u e Ew Hn) as Hve.
  assert (Hb : forall u x, beside w u = Some x -> exists e, In e (g_edges g) /\ e_src e = u /\ e_tgt e = x /\
      ei_costid (e_info e) = 0%N /\ In (ei_rel (e_info e)) (advertised n)).
  { intros u x. unfold beside. destruct (out_edges w u) as [|e r] eqn:Eo; [discriminate|]. intros [= <-]. exists e.
    assert (Hi : In e (out_edges w u)) by (rewrite Eo; left; auto). apply Hve in Hi. tauto. }
  assert (Hr : forall u x, neighbour_reach (beside w) u x -> exists b c, vertex_elem g u = Some b /\ vertex_elem g x = Some c /\
      beyond (side_of n g) b c).
  { induction 1 as [u x E|u x y E _ IH]; apply Hb in E as (e & He & Es & Et & H0 & Hin); destruct (Hc e He) as [[b Hbe] [c Hce]];
      apply (go_lookup _ Hg) in Hbe as [Hbe _]; apply (go_lookup _ Hg) in Hce as [Hce _]; rewrite Es in Hbe; rewrite Et in Hce.
    - exists b, c. split; [auto|split; [auto|]]. apply by_one. exists (ei_rel (e_info e)), e. rewrite Es, Et. auto 8.
    - destruct IH as (c' & d & Hc' & Hd & Hby). exists b, d. split; [auto|split; [auto|]]. apply by_more with c'; auto.
      exists (ei_rel (e_info e)), e. rewrite Es, Et. auto 8. }
  destruct (acyclic_terminates (beside w) (seq 0 (length (g_verts g)))) with (a := v) as (l & Hl & Hlen).
  - intros u x E. apply Hb in E as (e & He & _ & <- & _). apply in_seq. destruct (go_edges _ Hg _ He). lia.
  - intros x H. apply Hr in H as (b & c & H1 & H2 & H3). assert (b = c) by congruence. subst c. exact (Hac _ H3).
  - rewrite seq_length in Hlen. pose proof (side_loop_until w (S (length (g_verts g))) v) as Hs.
    assert (Hu : until_end (beside w) (S (length (g_verts g))) v = Some l) by (apply until_end_steps; split; [auto|lia]).
    rewrite Hu in Hs. destruct (side_loop w (S (length (g_verts g))) v) as [l'| | |]; try discriminate; try tauto. eauto.
Qed.
Print Assumptions C53_terminates_partial.

(** The documentation promises nothing in the result for a lanelet that is not on the route; an empty Optional is
    dereferenced. *)
Theorem C53_foreign_refuted (A : CostAlg) m (ops : list (gop A)) n a fuel : ~ In (OpVertex a) ops ->
  side_relations n (gbuild m ops) a fuel = UB.
Proof.
  intros H. unfold side_relations. destruct (get_vertex (gbuild m ops) a) as [v|] eqn:E; auto.
  destruct H. apply (on_route m). eauto.
Qed.
Print Assumptions C53_foreign_refuted.
(** Lanelets that are left of each other keep the loop busy forever. *)
Theorem C53_ring_refuted : forall fuel, side_relations SomehowLeft (gbuild 1 ring_ops) (ll 1) fuel = OutOfFuel.
Proof.
  intros fuel. unfold side_relations. replace (get_vertex (gbuild 1 ring_ops) (ll 1)) with (Some 0) by (vm_compute; reflexivity).
  set (w := GView (gbuild 1 ring_ops) 0%N (view_mask SomehowLeft)). change (get_filtered (gbuild 1 ring_ops) SomehowLeft 0) with (Some w).
  pose proof (side_loop_until w fuel 0) as H. cbv iota beta. rewrite (cyclic_diverges (beside w) 0) in H.
  - destruct (side_loop w fuel 0); try discriminate; try tauto.
  - apply nr_more with (b := 1); [vm_compute; reflexivity|apply nr_one; vm_compute; reflexivity].
Qed.
Print Assumptions C53_ring_refuted.
Example C53_nonvacuous : side_relations SomehowLeft (gbuild 1 three_ops) (ll 1) 4 = Lane [(Some (ll 2), RLeft); (Some (ll 3), RLeft)] /\
  side_relations SomehowRight (gbuild 1 three_ops) (ll 3) 4 = Lane [(Some (ll 2), RRight); (Some (ll 1), RRight)].
Proof. vm_compute. auto. Qed.

(** ** C54 *)
(** The part of checkValidity that is right: it reports the lanelets of the shortest path that are not on the route, and
    the relations other than Successor without a relation back, and nothing else as such. *)
Theorem C54_missing_partial (A : CostAlg) m (ops : list (gop A)) path :
  (forall a, In (NotOnRoute a) (check_validity (gbuild m ops) path) <-> In a path /\ ~ In (OpVertex a) ops) /\
  (forall u v, In (NoRelationBack u v) (check_validity (gbuild m ops) path) <->
     (exists e, In e (g_edges (gbuild m ops)) /\ e_src e = u /\ e_tgt e = v /\ ei_rel (e_info e) <> Successor) /\
     ~ exists e, In e (g_edges (gbuild m ops)) /\ e_src e = v /\ e_tgt e = u).
Proof.
  set (g := gbuild m ops). unfold check_validity.
  assert (Hf : forall u v, first_edge g v u = None <-> ~ exists e, In e (g_edges g) /\ e_src e = v /\ e_tgt e = u).
  { intros u v. unfold first_edge. split.
    - intros H (e & He & Hs & Ht). pose proof (find_none _ _ H e He) as Hn. cbv beta in Hn. rewrite Hs, Ht, !Nat.eqb_refl in Hn. discriminate.
    - intros H. destruct (find _ (g_edges g)) as [e|] eqn:E; auto. apply find_some in E as [He E].
      apply andb_true_iff in E as [E1 E2]. apply Nat.eqb_eq in E1, E2. destruct H. eauto. }
  assert (Hk : forall e x, In x (check_edge g e) -> match x with
      | NotOnRoute _ => False
      | NoRelationBack u v => u = e_src e /\ v = e_tgt e /\ first_edge g v u = None /\ ei_rel (e_info e) <> Successor
      | _ => True end).
  { intros e x. unfold check_edge. destruct (first_edge g (e_tgt e) (e_src e)) as [r|] eqn:E.
    - unfold check_is. destruct (ei_rel (e_info e)); simpl; repeat (destruct (negb _); simpl); intuition (subst; auto).
    - destruct (relation_eqb (ei_rel (e_info e)) Successor) eqn:Es; simpl; [tauto|]. intros [<-|[]].
      repeat split; auto. intros Hx. rewrite Hx in Es. discriminate. }
  split.
  - intros a. rewrite in_app_iff, !in_flat_map. split.
    + intros [(b & Hb & Hi)|(e & He & Hi)].
      * destruct (get_vertex g b) as [v|] eqn:E; [destruct Hi|]. destruct Hi as [[= ->]|[]]. split; auto.
        intros Ho. apply (on_route m) in Ho as [v Hv]. fold g in Hv. congruence.
      * apply Hk in Hi. destruct Hi.
    + intros [Ha Ho]. left. exists a. split; auto. destruct (get_vertex g a) as [v|] eqn:E; [|left; auto].
      destruct Ho. apply (on_route m). eauto.
  - intros u v. rewrite in_app_iff, !in_flat_map. split.
    + intros [(b & Hb & Hi)|(e & He & Hi)].
      * destruct (get_vertex g b); [destruct Hi|]. destruct Hi as [Hi|[]]. discriminate.
      * apply Hk in Hi as (-> & -> & Hn & Hr). apply Hf in Hn. split; eauto.
    + intros [(e & He & <- & <- & Hr) Hn]. right. exists e. split; auto. apply Hf in Hn. unfold check_edge. rewrite Hn.
      destruct (ei_rel (e_info e)); simpl; auto; tauto.
Qed.
Print Assumptions C54_missing_partial.

(** The check of the kind of the relation back is inverted. A relation to the left whose counterpart is a relation to the right
    is always reported as an error. *)
Definition leftish (r : relation) : Prop := r = RLeft \/ r = AdjacentLeft.
Definition rightish (r : relation) : Prop := r = RRight \/ r = AdjacentRight.
Theorem C54_consistent_refuted (A : CostAlg) (g : graph A) path e r : In e (g_edges g) ->
  first_edge g (e_tgt e) (e_src e) = Some r -> leftish (ei_rel (e_info e)) -> rightish (ei_rel (e_info r)) ->
  In (WrongRelation (e_src e) (e_tgt e)) (check_validity g path).
Proof.
  intros He Hr Hl Hri. unfold check_validity. apply in_or_app. right. apply in_flat_map. exists e. split; auto.
  unfold check_edge. rewrite Hr. destruct Hl as [-> | ->], Hri as [-> | ->]; left; auto.
Qed.
Print Assumptions C54_consistent_refuted.
(** And two lanelets that are left of each other are accepted. *)
Theorem C54_inconsistent_refuted : exists (ops : list (gop ZCost)) e r, let g := gbuild 1 ops in
  In e (g_edges g) /\ first_edge g (e_tgt e) (e_src e) = Some r /\ ei_rel (e_info e) = RLeft /\ ei_rel (e_info r) = RLeft /\
  check_validity g [ll 1] = [].
Proof.
  exists ring_ops, (Edge 0 1 (EInfo (A := ZCost) (Some 1%Z) 0 RLeft)), (Edge 1 0 (EInfo (A := ZCost) (Some 1%Z) 0 RLeft)).
  vm_compute. repeat split. auto.
Qed.
Print Assumptions C54_inconsistent_refuted.
Example C54_nonvacuous :
  check_validity (gbuild 1 three_ops) [ll 1] = [WrongRelation 0 1; WrongRelation 1 2; WrongRelation 1 0; WrongRelation 2 1] /\
  check_validity (gbuild 1 lane_ops) [ll 1; ll 9] = [NotOnRoute (ll 9); NoRelationBack 0 3].
Proof. vm_compute. auto. Qed.
