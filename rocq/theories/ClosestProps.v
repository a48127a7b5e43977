(** C71, C72: nearest points of line strings. *)
From Coq Require Import List Bool Arith ZArith QArith Lqa Lia Sorting.Sorted Sorting.Permutation.
From Verif Require Import ClosestModel ClosestSpec ClosestProofs ClosestVec ClosestLine ClosestTree.
Import ListNotations.
Local Open Scope Q_scope.

(** ** C71: the projection of a point to a line string *)
(** The laws hold for BasicPoint2d and BasicPoint3d. *)
Theorem C71_spaces : lawful plane /\ lawful solid.
Proof. exact (conj plane_lawful solid_lawful). Qed.
Print Assumptions C71_spaces.

(** In the plane and in space, with and without the tree: the projection lies on the line string and no point of it is nearer. *)
Theorem C71_project (V : space) (L : lawful V) tree (ls : list V) (p : V) :
  query_ok tree bound_point -> ls <> [] ->
  exists x, project tree ls p = Ok x /\ nearest_on ls p x.
Proof.
  intros Hq Hne. destruct (closest_to_point_ok L tree ls p Hq Hne) as (d & s & x & segs & E & Es & Hin & -> & -> & Hopt).
  destruct (segments_ok L ls Hne) as (segs' & Es' & _ & Hon & _). rewrite Es in Es'. injection Es' as <-.
  eexists. split; [unfold project; rewrite E; reflexivity|]. split.
  - apply Hon. exists s. split; auto. apply (project_segment_on L).
  - intros y Hy. apply Hon in Hy. destruct Hy as (s' & Hin' & Hy). eauto.
Qed.
Print Assumptions C71_project.

(** The closest segment is a segment of the line string, and the projection to it is a nearest point of the line string. *)
Theorem C71_closest_segment (V : space) (L : lawful V) tree (ls : list V) (p : V) :
  query_ok tree bound_point -> ls <> [] ->
  exists a b x, closest_segment tree ls p = Ok (a, b) /\
    ((ls = [a] /\ a = b) \/ exists l1 l2, ls = l1 ++ a :: b :: l2) /\ on_segment a b x /\ nearest_on ls p x.
Proof.
  intros Hq Hne. destruct (closest_to_point_ok L tree ls p Hq Hne) as (d & [a b] & x & segs & E & Es & Hin & -> & -> & Hopt).
  destruct (segments_ok L ls Hne) as (segs' & Es' & _ & Hon & _ & Hsh). rewrite Es in Es'. injection Es' as <-.
  exists a, b. eexists. split; [unfold closest_segment; rewrite E; reflexivity|]. split; [|split; [|split]].
  - destruct Hsh as [(c & -> & ->)|[_ ->]].
    + destruct Hin as [F|[]]. injection F as <- <-. auto.
    + apply pairs_in in Hin. right. exact Hin.
  - apply (project_segment_on L).
  - apply Hon. exists (a, b). split; auto. apply (project_segment_on L).
  - intros y Hy. apply Hon in Hy. destruct Hy as (s' & Hin' & Hy). eauto.
Qed.
Print Assumptions C71_closest_segment.

(** A tree as required exists. *)
Theorem C71_query : query_ok (V := plane) point_query bound_point /\ query_ok (V := plane) box_query bound_segment.
Proof. exact (conj point_query_ok box_query_ok). Qed.
Print Assumptions C71_query.

(** Finding: the projection to an empty line string is undefined. *)
Theorem C71_empty_refuted (V : space) tree (p : V) : project tree [] p = Undefined /\ closest_segment tree [] p = Undefined.
Proof. split; reflexivity. Qed.
Print Assumptions C71_empty_refuted.

Definition corner : list plane := [(0, 0); (2, 0); (2, 2)].
(** A line string of more than 50 points, that is searched with a tree. *)
Definition long_line : list plane := map (fun n => (inject_Z (Z.of_nat n), 0)) (seq 0 60).
Example C71_nonvacuous :
  (exists x, project point_query corner (3, 1) = Ok x /\ fst x == 2 /\ snd x == 1) /\
  closest_segment point_query corner (3, 1) = Ok ((2, 0), (2, 2)) /\
  (exists x, project point_query corner (1, -1) = Ok x /\ fst x == 1 /\ snd x == 0) /\
  (exists x, project point_query long_line (101 # 2, 3) = Ok x /\ fst x == 101 # 2 /\ snd x == 0) /\
  nearest_on corner (3, 1) (2, 1).
Proof.
  split; [eexists; split; [vm_compute; reflexivity|split; reflexivity]|].
  split; [vm_compute; reflexivity|].
  split; [eexists; split; [vm_compute; reflexivity|split; reflexivity]|].
  split; [eexists; split; [vm_compute; reflexivity|split; reflexivity]|].
  destruct (C71_project plane plane_lawful point_query corner (3, 1) point_query_ok ltac:(discriminate)) as (x & E & H1 & H2).
  vm_compute in E. injection E as <-. split.
  - destruct H1 as [(a & F & _)|(l1 & a & b & l2 & F & Hs)]; [discriminate|]. right. exists l1, a, b, l2. split; auto.
    eapply (on_segment_same plane_lawful); [|exact Hs]. vm_compute. reflexivity.
  - intros y Hy. eapply Qle_trans; [|apply (H2 y Hy)]. vm_compute. discriminate.
Qed.

(** ** C72: the closest points of two line strings *)
(** In the plane, with coordinates that are multiples of some [h] with [h]^4 >= 1e-10, for example whole centimetres. A line string has one point or not
    all of its points are equal. *)
Theorem C72_closest_2d tree h (l1 l2 : list plane) :
  0 < h -> small <= (h * h) * (h * h) -> Forall (on_grid2 h) l1 -> Forall (on_grid2 h) l2 -> query_ok tree bound_segment ->
  proper l1 -> proper l2 ->
  exists x y, closest_points tree false l1 l2 = Ok (x, y) /\ closest_pair (on_line l1) (on_line l2) x y.
Proof.
  intros Hh Hs G1 G2 Hq P1 P2. apply (closest_points_ok plane_lawful (h * h)); auto; [nra|].
  apply grid2_lattice. apply Forall_app; auto.
Qed.
Print Assumptions C72_closest_2d.
(** The same in space. *)
Theorem C72_closest_3d tree h (l1 l2 : list solid) :
  0 < h -> small <= (h * h) * (h * h) -> Forall (on_grid3 h) l1 -> Forall (on_grid3 h) l2 -> query_ok tree bound_segment ->
  proper l1 -> proper l2 ->
  exists x y, closest_points tree false l1 l2 = Ok (x, y) /\ closest_pair (on_line l1) (on_line l2) x y.
Proof.
  intros Hh Hs G1 G2 Hq P1 P2. apply (closest_points_ok solid_lawful (h * h)); auto; [nra|].
  apply grid3_lattice. apply Forall_app; auto.
Qed.
Print Assumptions C72_closest_3d.

(** For all coordinates and all line strings with at least one point the result is a pair of points on the line strings. *)
Theorem C72_on_lines (V : space) (L : lawful V) tree (l1 l2 : list V) : query_ok tree bound_segment -> l1 <> [] -> l2 <> [] ->
  exists x y, closest_points tree false l1 l2 = Ok (x, y) /\ on_line l1 x /\ on_line l2 y.
Proof. exact (closest_points_on L tree l1 l2). Qed.
Print Assumptions C72_on_lines.

(** An empty line string is refused. *)
Theorem C72_empty_throws (V : space) tree ring (l1 l2 : list V) : l1 = [] \/ l2 = [] -> closest_points tree ring l1 l2 = Thrown.
Proof.
  unfold closest_points. cbn zeta. intros [-> | ->].
  - destruct l2; reflexivity.
  - destruct (length l1 <? length [])%nat eqn:E; [apply Nat.ltb_lt in E; cbn in E; lia|reflexivity].
Qed.
Print Assumptions C72_empty_throws.

(** Finding: two segments of 3 mm that cross are given a positive distance, since they count as parallel. *)
Definition short1 : list plane := [(-(3 # 2000), 0); (3 # 2000, 0)].
Definition short2 : list plane := [(0, -(3 # 2000)); (0, 3 # 2000)].
Theorem C72_short_refuted :
  (exists x y, closest_points box_query false short1 short2 = Ok (x, y) /\ sq x y == (3 # 2000) * (3 # 2000)) /\
  on_line short1 (0, 0) /\ on_line short2 (0, 0).
Proof.
  split; [eexists; eexists; split; [vm_compute; reflexivity|vm_compute; reflexivity]|].
  split; right; exists [].
  - exists (-(3 # 2000), 0), (3 # 2000, 0), []. split; [reflexivity|]. exists (1 # 2). repeat split; try (vm_compute; discriminate); vm_compute; reflexivity.
  - exists (0, -(3 # 2000)), (0, 3 # 2000), []. split; [reflexivity|]. exists (1 # 2). repeat split; try (vm_compute; discriminate); vm_compute; reflexivity.
Qed.
Print Assumptions C72_short_refuted.

(** Finding: a line string whose points are all equal. The result depends on the order of the arguments. *)
Definition still : list plane := [(1, 1); (1, 1)].
Definition base : list plane := [(0, 0); (2, 0)].
Theorem C72_degenerate_refuted :
  (exists x y, closest_points box_query false still base = Ok (x, y) /\ sq x y == 2) /\
  (exists x y, closest_points box_query false base still = Ok (x, y) /\ sq x y == 1).
Proof. split; eexists; eexists; (split; [vm_compute; reflexivity|vm_compute; reflexivity]). Qed.
Print Assumptions C72_degenerate_refuted.

(** Finding: of polygons with less than 50 points the closing edge is left out. The nearest point of the square is (0, 1/2), on its last edge. *)
Definition square3 : list solid := [(0, 0, 0); (1, 0, 0); (1, 1, 0); (0, 1, 0)].
Definition triangle3 : list solid := [(-(2), 0, 0); (-(1), 1 # 2, 0); (-(2), 1, 0)].
Theorem C72_border_refuted : forall tree,
  (exists x y, closest_points tree true square3 triangle3 = Ok (x, y) /\ sq x y == 5 # 4) /\
  on_ring square3 (0, 1 # 2, 0) /\ on_ring triangle3 (-(1), 1 # 2, 0) /\ sq (V := solid) (0, 1 # 2, 0) (-(1), 1 # 2, 0) == 1.
Proof.
  intros tree. split; [eexists; eexists; split; [vm_compute; reflexivity|vm_compute; reflexivity]|].
  split; [|split; [|vm_compute; reflexivity]].
  - right. exists (0, 0, 0), [(1, 0, 0); (1, 1, 0)], (0, 1, 0). split; [reflexivity|]. exists (1 # 2). repeat split; try (vm_compute; discriminate); vm_compute; reflexivity.
  - left. right. exists [], (-(2), 0, 0), (-(1), 1 # 2, 0), [(-(2), 1, 0)]. split; [reflexivity|]. apply (on_segment_end solid_lawful).
Qed.
Print Assumptions C72_border_refuted.
(** Two polygons that meet in a point of the closing edge, at the same height, and overlap in the plane: overlaps3d denies it. *)
Definition field3 : list solid := [(0, -(20), 0); (8, -(20), 0); (8, 20, 0); (0, 20, 0)].
Definition ramp3 : list solid := [(6, 0, 12); (-(6), 0, -(12)); (6, 1, 12)].
Theorem C72_overlaps_refuted : forall tree overlap2d, overlap2d field3 ramp3 = true ->
  overlaps3d tree overlap2d field3 ramp3 2 = Ok false /\ on_ring field3 (0, 0, 0) /\ on_ring ramp3 (0, 0, 0).
Proof.
  intros tree o E. unfold overlaps3d. rewrite E. split; [vm_compute; reflexivity|]. split.
  - right. exists (0, -(20), 0), [(8, -(20), 0); (8, 20, 0)], (0, 20, 0). split; [reflexivity|]. exists (1 # 2). repeat split; try (vm_compute; discriminate); vm_compute; reflexivity.
  - left. right. exists [], (6, 0, 12), (-(6), 0, -(12)), [(6, 1, 12)]. split; [reflexivity|]. exists (1 # 2). repeat split; try (vm_compute; discriminate); vm_compute; reflexivity.
Qed.
Print Assumptions C72_overlaps_refuted.

Definition above : list plane := [(0, 3); (2, 1); (4, 3)].
Example C72_nonvacuous :
  (exists x y, closest_points box_query false corner above = Ok (x, y) /\ sq x y == 0) /\
  (exists x y, closest_points box_query false base above = Ok (x, y) /\ closest_pair (on_line base) (on_line above) x y /\ sq x y == 1) /\
  (exists x y, closest_points box_query false above long_line = Ok (x, y) /\ fst x == 2 /\ snd x == 1 /\ fst y == 2 /\ snd y == 0) /\
  proper base /\ proper above /\ Forall (on_grid2 (1 # 100)) above.
Proof.
  assert (P1 : proper base) by (right; exists (0, 0), (2, 0); cbn; repeat split; auto; discriminate).
  assert (P2 : proper above) by (right; exists (0, 3), (2, 1); cbn; repeat split; auto; discriminate).
  assert (G : forall z : Z, multiple (1 # 100) (inject_Z z)).
  { intros z. exists (100 * z)%Z. rewrite inject_Z_mult. change (inject_Z 100) with 100. ring. }
  assert (G1 : Forall (on_grid2 (1 # 100)) base) by (repeat constructor; [apply (G 0%Z)|apply (G 0%Z)|apply (G 2%Z)|apply (G 0%Z)]).
  assert (G2 : Forall (on_grid2 (1 # 100)) above) by (repeat constructor; [apply (G 0%Z)|apply (G 3%Z)|apply (G 2%Z)|apply (G 1%Z)|apply (G 4%Z)|apply (G 3%Z)]).
  split; [eexists; eexists; split; [vm_compute; reflexivity|vm_compute; reflexivity]|].
  split.
  - destruct (C72_closest_2d box_query (1 # 100) base above ltac:(reflexivity) ltac:(vm_compute; discriminate) G1 G2 box_query_ok P1 P2) as (x & y & E & H).
    exists x, y. split; auto. split; auto. vm_compute in E. injection E as <- <-. vm_compute. reflexivity.
  - split; [eexists; eexists; split; [vm_compute; reflexivity|repeat split; vm_compute; reflexivity]|]. auto.
Qed.
