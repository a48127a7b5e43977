(** C120: the tests for intersection in 3d. *)
From Coq Require Import List Bool QArith Qabs Lqa.
From Verif Require Import ClosestModel ClosestSpec ClosestProofs ClosestProps HeightModel HeightSpec HeightProofs.
Import ListNotations.
Local Open Scope Q_scope.

Lemma cross_points tree cross l1 l2 t : query_ok (V := solid) tree bound_point -> cross_ok cross l1 l2 ->
  forall q, In q (cross (map flat l1) (map flat l2)) -> exists b, smaller_tolerance tree l1 l2 t q = Ok b.
Proof.
  intros Q [S _] q Hq. destruct (S q Hq) as (p1 & p2 & (H1 & H2 & O) & Oq). unfold smaller_tolerance.
  destruct (project_foot tree l1 p1 q Q H1 Oq) as (x & -> & _).
  destruct (project_foot tree l2 p2 q Q H2) as (y & -> & _); [destruct O, Oq; split; lra|]. eauto.
Qed.

(** intersects3d of line strings returns, and never finds lines that do not cross if seen from above. *)
Theorem C120_returns tree cross l1 l2 t : query_ok (V := solid) tree bound_point -> cross_ok cross l1 l2 ->
  exists b, lines_intersect3d tree cross l1 l2 t = Ok b /\ (b = true -> exists p1 p2, crossing l1 l2 p1 p2).
Proof.
  intros Q C. destruct (any_of_ok _ _ (cross_points tree cross l1 l2 t Q C)) as (b & E & Hb). exists b. split; [exact E|].
  intros K. apply Hb in K as (q & Hq & _). destruct C as [S _]. destruct (S q Hq) as (p1 & p2 & H & _). eauto.
Qed.
Print Assumptions C120_returns.

(** For lines that are level, each at its height, it is right. *)
Theorem C120_level tree cross l1 l2 h1 h2 t : query_ok (V := solid) tree bound_point -> cross_ok cross l1 l2 -> level h1 l1 -> level h2 l2 ->
  exists b, lines_intersect3d tree cross l1 l2 t = Ok b /\ (b = true <-> meet_within t l1 l2).
Proof.
  intros Q C L1 L2. destruct (any_of_ok _ _ (cross_points tree cross l1 l2 t Q C)) as (b & E & Hb). exists b. split; [exact E|]. rewrite Hb.
  destruct C as [S N].
  assert (K : forall q, In q (cross (map flat l1) (map flat l2)) -> (smaller_tolerance tree l1 l2 t q = Ok true <-> Qabs (h1 - h2) < t)).
  { intros q Hq. destruct (S q Hq) as (p1 & p2 & (H1 & H2 & O) & Oq).
    destruct (project_level tree h1 l1 p1 q Q L1 H1 Oq) as (x & Ex & X1 & X2 & X3).
    destruct (project_level tree h2 l2 p2 q Q L2 H2) as (y & Ey & Y1 & Y2 & Y3); [destruct O, Oq; split; lra|].
    unfold smaller_tolerance. rewrite Ex, Ey.
    assert (D : sq (V := solid) x y == (height x - height y) * (height x - height y)).
    { rewrite sq_solid, X1, X2, Y1, Y2. unfold height. ring. }
    assert (W := closer_height x y t D). rewrite X3, Y3 in W. rewrite <- W. split; [now intros [= ->]|now intros ->]. }
  split.
  - intros (q & Hq & Hs). apply (K q Hq) in Hs. destruct (S q Hq) as (p1 & p2 & (H1 & H2 & O) & Oq). exists p1, p2. split; [split; auto|].
    rewrite (level_on h1 l1 p1 L1 H1), (level_on h2 l2 p2 L2 H2). exact Hs.
  - intros (p1 & p2 & (H1 & H2 & O) & H). rewrite (level_on h1 l1 p1 L1 H1), (level_on h2 l2 p2 L2 H2) in H.
    destruct (cross (map flat l1) (map flat l2)) as [|q r] eqn:X; [exfalso; apply N; [exists p1, p2; split; auto|exact X]|].
    exists q. split; [now left|]. apply (K q); [now left|exact H].
Qed.
Print Assumptions C120_level.

(** Close to the height zero it does not miss a place that boost reports: if the heights at the place are together, without their signs,
    smaller than the tolerance. *)
Theorem C120_ground tree cross l1 l2 t q p1 p2 : query_ok (V := solid) tree bound_point -> cross_ok cross l1 l2 ->
  In q (cross (map fst l1) (map fst l2)) -> crossing l1 l2 p1 p2 -> over p1 q -> Qabs (height p1) + Qabs (height p2) < t ->
  lines_intersect3d tree cross l1 l2 t = Ok true.
Proof.
  intros Q C Hq (H1 & H2 & O) Oq Ht. destruct (any_of_ok _ _ (cross_points tree cross l1 l2 t Q C)) as (b & E & Hb).
  unfold lines_intersect3d. rewrite E. f_equal. apply Hb. exists q. split; [exact Hq|].
  destruct (project_foot tree l1 p1 q Q H1 Oq) as (x & Ex & _ & X & _).
  destruct (project_foot tree l2 p2 q Q H2) as (y & Ey & _ & Y & _); [destruct O, Oq; split; lra|].
  unfold smaller_tolerance. rewrite Ex, Ey. f_equal. apply closer_true.
  assert (A := Qabs_nonneg (height p1)). assert (B := Qabs_nonneg (height p2)). split; [lra|].
  rewrite <- Qabs_sq in X, Y. assert (T := triangle (fst q, snd q, 0) x y _ _ A B X Y).
  eapply Qle_lt_trans; [exact T|]. nra.
Qed.
Print Assumptions C120_ground.

(** Two lanes that meet in a point, one of them on a slope, and a bridge over a road. *)
Definition slope : list p3 := [(-(10), 0, -(1)); (10, 0, 1)].
Definition lane : list p3 := [(0, -(10), 0); (0, 10, 0)].
Definition only_origin : list p2 -> list p2 -> list p2 := fun _ _ => [(0, 0)].
Definition no_tree : list (p3 * p3) -> p3 -> list (Q * (p3 * p3)) := fun _ _ => [].

Lemma slope_lane h k : cross_ok only_origin (raised h slope) (raised k lane).
Proof.
  split.
  - intros q [<-|[]]. exists (0, 0, h), (0, 0, k). split; [split; [|split]|split; cbn; lra].
    + right. exists [], (-(10), 0, -(1) + h), (10, 0, 1 + h), []. split; [reflexivity|]. exists (1 # 2). split; [lra|]. split; [lra|]. rewrite sq_solid. cbn. ring.
    + right. exists [], (0, -(10), 0 + k), (0, 10, 0 + k), []. split; [reflexivity|]. exists (1 # 2). split; [lra|]. split; [lra|]. rewrite sq_solid. cbn. ring.
    + split; reflexivity.
  - discriminate.
Qed.
Lemma slope_lane_meet h t : 0 < t -> meet_within t (raised h slope) (raised h lane).
Proof.
  intros T. destruct (slope_lane h h) as [S _]. exists (0, 0, h), (0, 0, h). split.
  - split; [|split].
    + right. exists [], (-(10), 0, -(1) + h), (10, 0, 1 + h), []. split; [reflexivity|]. exists (1 # 2). split; [lra|]. split; [lra|]. rewrite sq_solid. cbn. ring.
    + right. exists [], (0, -(10), 0 + h), (0, 10, 0 + h), []. split; [reflexivity|]. exists (1 # 2). split; [lra|]. split; [lra|]. rewrite sq_solid. cbn. ring.
    + split; reflexivity.
  - cbn [height snd]. setoid_replace (h - h) with 0 by ring. exact T.
Qed.

(** A query as it is asked for: all segments, boxes without a bound. *)
Lemma plain_query {A} (bound : Q -> p3 * p3 -> A -> Prop) : (forall s q, bound 0 s q) -> query_ok (V := solid) (fun l _ => map (fun s => (0, s)) l) bound.
Proof.
  intros B l q. split; [|split].
  - rewrite map_map. cbn [snd]. rewrite map_id. apply Permutation.Permutation_refl.
  - induction l as [|s l IH]; constructor; auto. apply Forall_forall. intros x Hx. apply in_map_iff in Hx as (y & <- & _). cbn. lra.
  - intros d s Hs. apply in_map_iff in Hs as (y & [= <- <-] & _). apply B.
Qed.
Example C120_query : query_ok (V := solid) (fun l (_ : p3) => map (fun s => (0, s)) l) bound_point /\
  query_ok (V := solid) (fun l (_ : p3 * p3) => map (fun s => (0, s)) l) bound_segment.
Proof.
  split; apply plain_query.
  - intros s q x _. apply (dot_pos _ (proj2 C71_spaces)).
  - intros s q x y _ _. apply (dot_pos _ (proj2 C71_spaces)).
Qed.

Example C120_nonvacuous :
  lines_intersect3d no_tree only_origin slope lane 3 = Ok true /\
  lines_intersect3d no_tree only_origin (raised 5 lane) slope 3 = Ok false /\
  lines_intersect3d no_tree only_origin (raised 100 [(-(10), 0, 0); (10, 0, 0)]) (raised 102 lane) 3 = Ok true /\
  lines_intersect3d no_tree (fun _ _ => []) slope lane 3 = Ok false.
Proof. repeat split; vm_compute; reflexivity. Qed.

(** Finding: the height at a crossing is looked up by projecting the point with height zero in space. On a slope of 10% at a height of 100 m
    this is a point 10 m away, so that lines which share a point count as not intersecting with the default tolerance. The answer
    depends on the height of the map. *)
Theorem C120_slope_refuted : meet_within 3 (raised 100 slope) (raised 100 lane) /\
  lines_intersect3d no_tree only_origin (raised 100 slope) (raised 100 lane) 3 = Ok false /\
  lines_intersect3d no_tree only_origin slope lane 3 = Ok true.
Proof. split; [apply slope_lane_meet; lra|]. split; vm_compute; reflexivity. Qed.
Print Assumptions C120_slope_refuted.

(** Finding: lines that are further apart in height than the tolerance can count as intersecting. *)
Definition steep : list p3 := [(-(10), 0, 14); (10, 0, -(6))].
Theorem C120_gap_refuted : ~ meet_within (7 # 2) steep lane /\ lines_intersect3d no_tree only_origin steep lane (7 # 2) = Ok true.
Proof.
  split; [|vm_compute; reflexivity]. intros (p1 & p2 & (H1 & H2 & O1 & O2) & H).
  destruct H2 as [(a & E & _)|(m1 & a & b & m2 & E & s & S0 & S1 & Hs)]; [discriminate|].
  destruct m1 as [|? [|? [|? ?]]]; try discriminate. injection E as <- <- <-.
  assert (Es : sq (V := solid) p2 (at_param (V := solid) (0, -(10), 0) (0, 10, 0) s) <= 0) by (rewrite Hs; lra). apply sq_small in Es as (P1 & _ & P3).
  destruct H1 as [(a & E & _)|(m1 & a & b & m2 & E & r & R0 & R1 & Hr)]; [discriminate|].
  destruct m1 as [|? [|? [|? ?]]]; try discriminate. injection E as <- <- <-.
  assert (Er : sq (V := solid) p1 (at_param (V := solid) (-(10), 0, 14) (10, 0, -(6)) r) <= 0) by (rewrite Hr; lra). apply sq_small in Er as (Q1 & _ & Q3).
  cbn in P1, P3, Q1, Q3, O1. unfold height in H. apply Qabs_Qlt_condition in H. lra.
Qed.
Print Assumptions C120_gap_refuted.

(** * Lanelets *)

(** intersects3d and overlaps3d of lanelets: nothing without the test in the plane; if the answer is yes, then the centerlines have points
    whose heights differ by less than the tolerance; if the centerlines are level the heights are compared. *)
Theorem C120_lanelets tree meet c1 c2 t : query_ok (V := solid) tree bound_segment -> c1 <> [] -> c2 <> [] ->
  exists b, lanelets_intersect3d tree meet c1 c2 t = Ok b /\
    (b = true -> meet = true /\ exists p1 p2, on_line (V := solid) c1 p1 /\ on_line (V := solid) c2 p2 /\ Qabs (height p1 - height p2) < t) /\
    (forall h1 h2, level h1 c1 -> level h2 c2 -> (b = true <-> meet = true /\ Qabs (h1 - h2) < t)).
Proof.
  intros Q N1 N2. unfold lanelets_intersect3d. destruct meet.
  - destruct (C72_on_lines solid (proj2 C71_spaces) tree c1 c2 Q N1 N2) as ([[x1 x2] x] & [[y1 y2] y] & -> & Hx & Hy). eexists. split; [reflexivity|]. cbn [snd].
    assert (W : qlt (qabs (x - y)) t = true <-> Qabs (x - y) < t) by (rewrite qlt_true, qabs_Qabs; reflexivity). split.
    + intros H. apply W in H. split; auto. exists (x1, x2, x), (y1, y2, y). auto.
    + intros h1 h2 L1 L2. assert (E1 := level_on _ _ _ L1 Hx). assert (E2 := level_on _ _ _ L2 Hy). unfold height in E1, E2. cbn [snd] in E1, E2.
      assert (E : x - y == h1 - h2) by (rewrite E1, E2; reflexivity). assert (W' : Qabs (x - y) < t <-> Qabs (h1 - h2) < t) by (rewrite E; reflexivity). rewrite W, W'. tauto.
  - exists false. split; auto. split; [discriminate|]. intros. split; [discriminate|intros []; discriminate].
Qed.
Print Assumptions C120_lanelets.

(** Centerlines that meet within the tolerance are not missed (coordinates on a grid, as in C72). *)
Theorem C120_lanelets_found_partial tree h c1 c2 t : query_ok (V := solid) tree bound_segment -> 0 < h -> small <= (h * h) * (h * h) ->
  Forall (on_grid3 h) c1 -> Forall (on_grid3 h) c2 -> proper (V := solid) c1 -> proper (V := solid) c2 ->
  meet_within t c1 c2 -> lanelets_intersect3d tree true c1 c2 t = Ok true.
Proof.
  intros Q Hh Hs G1 G2 P1 P2 (p1 & p2 & (H1 & H2 & O1 & O2) & H). unfold lanelets_intersect3d.
  destruct (C72_closest_3d tree h c1 c2 Hh Hs G1 G2 Q P1 P2) as (x & y & -> & Hx & Hy & Opt). f_equal. apply qlt_true. rewrite qabs_Qabs.
  assert (K := Opt p1 p2 H1 H2). rewrite !sq_solid in K. unfold height in H.
  assert (A := square_pos (fst (fst x) - fst (fst y))). assert (B := square_pos (snd (fst x) - snd (fst y))).
  assert (E1 : fst (fst p1) - fst (fst p2) == 0) by lra. assert (E2 : snd (fst p1) - snd (fst p2) == 0) by lra. rewrite E1, E2 in K.
  assert (D : (snd x - snd y) * (snd x - snd y) <= (snd p1 - snd p2) * (snd p1 - snd p2)) by lra.
  rewrite <- (Qabs_sq (snd x - snd y)), <- (Qabs_sq (snd p1 - snd p2)) in D.
  assert (Z1 := Qabs_nonneg (snd x - snd y)). assert (Z2 := Qabs_nonneg (snd p1 - snd p2)).
  set (a := Qabs (snd x - snd y)) in *. set (b := Qabs (snd p1 - snd p2)) in *. clearbody a b. assert (a <= b) by (apply sqrt_le; auto). lra.
Qed.
Print Assumptions C120_lanelets_found_partial.

(** Finding: of the centerlines the nearest points are compared, not those where they cross. A bridge that descends beside the road counts as
    intersecting with it, 10 m above. *)
Definition road : list p3 := [(-(50), 0, 0); (50, 0, 0)].
Definition bridge : list p3 := [(0, -(20), 10); (0, 20, 10); (40, 20, 0); (40, 2, 0)].
Theorem C120_bridge_refuted tree : ~ meet_within 3 road bridge /\ lanelets_intersect3d tree true road bridge 3 = Ok true.
Proof.
  split; [|vm_compute; reflexivity]. intros (p1 & p2 & (H1 & H2 & O1 & O2) & H).
  destruct H1 as [(a & E & _)|(m1 & a & b & m2 & E & r & R0 & R1 & Hr)]; [discriminate|].
  destruct m1 as [|? [|? [|? ?]]]; try discriminate. injection E as <- <- <-.
  assert (Er : sq (V := solid) p1 (at_param (V := solid) (-(50), 0, 0) (50, 0, 0) r) <= 0) by (rewrite Hr; lra). apply sq_small in Er as (Q1 & Q2 & Q3).
  destruct H2 as [(a & E & _)|(m1 & a & b & m2 & E & s & S0 & S1 & Hs)]; [discriminate|].
  assert (Es : sq (V := solid) p2 (at_param (V := solid) a b s) <= 0) by (rewrite Hs; lra). apply sq_small in Es as (P1 & P2 & P3).
  unfold height in H. apply Qabs_Qlt_condition in H.
  destruct m1 as [|? [|? [|? [|? [|? ?]]]]]; try discriminate; injection E as; subst; cbn in P1, P2, P3, Q1, Q2, Q3, O1, O2; lra.
Qed.
Print Assumptions C120_bridge_refuted.

Example C120_lanelets_nonvacuous : forall tree,
  lanelets_intersect3d tree true road [(0, -(20), 2); (0, 20, 2)] 3 = Ok true /\
  lanelets_intersect3d tree true road [(0, -(20), 10); (0, 20, 10)] 3 = Ok false /\
  lanelets_intersect3d tree false road lane 3 = Ok false /\
  lanelets_intersect3d tree true road [] 3 = Thrown.
Proof. intros tree. repeat split; vm_compute; reflexivity. Qed.
