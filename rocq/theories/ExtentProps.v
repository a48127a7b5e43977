(** C99: bounding boxes. C100: approximated lengths. C101: overlaps of lanelets and polygons. C102: crossings of centerlines. *)
From Coq Require Import List Bool Arith Reals Lra Lia Permutation.
From Verif Require Import PathModel PathSpec RelateModel ArcModel ArcSpec ArcPlane ExtentModel ExtentSpec ExtentProofs ExtentMore.
Import ListNotations.
Local Open Scope R_scope.

(** * C99: bounding boxes *)
Section bounds.
Variable big : R.
Hypothesis big_pos : 0 < big.
(** The box of a line string or polygon encloses the points tightly; without points it is empty. *)
Theorem C99_points l : bounded big l -> (l <> [] -> tight (bounds2 big l) l) /\ (l = [] -> void (bounds2 big l)).
Proof.
  intros B. pose proof (spans_bounds2 big l B) as S. split.
  - intros N. eapply spans2_tight; eauto.
  - intros ->. eapply spans2_void; eauto.
Qed.
(** The same for lanelets and areas; a bound without points does not count. *)
Theorem C99_lanelet left right : bounded3 big (left ++ right) ->
  (left ++ right <> [] -> tight3 (lanelet_bounds3 big left right) (left ++ right)) /\
  (left ++ right = [] -> void (lanelet_bounds2 big left right)) /\
  flat_box (lanelet_bounds3 big left right) = lanelet_bounds2 big left right.
Proof.
  intros B. assert (S : spans3 big (lanelet_bounds3 big left right) (left ++ right)).
  { apply bounded3_app in B. destruct B. apply spans3_app; auto; apply spans_bounds3; assumption. }
  assert (F : flat_box (lanelet_bounds3 big left right) = lanelet_bounds2 big left right).
  { unfold flat_box, lanelet_bounds3, lanelet_bounds2, box3_extend. cbn [fst]. rewrite !bounds3_flat. reflexivity. }
  split; [intros N; eapply spans3_tight; eauto|]. split; [|exact F]. intros E. rewrite <- F. rewrite E in S. eapply spans2_void; [exact big_pos|apply S].
Qed.
Theorem C99_area outer : bounded3 big outer -> outer <> [] -> tight3 (area_bounds3 big outer) outer /\ flat_box (area_bounds3 big outer) = area_bounds2 big outer.
Proof.
  intros B N. split; [|apply bounds3_flat]. eapply spans3_tight; [exact N|]. apply spans_bounds3. exact B.
Qed.
(** The box of a regulatory element encloses its parameters; expired ones do not count. The box in the plane is that in space without height. *)
Theorem C99_rule roles : bounded3 big (rule_points roles) ->
  (rule_points roles <> [] -> tight3 (rule_bounds3 big roles) (rule_points roles)) /\
  (rule_points roles = [] -> void (rule_bounds2 big roles)) /\
  flat_box (rule_bounds3 big roles) = rule_bounds2 big roles.
Proof.
  intros B. pose proof (rule_spans3 big roles B) as S.
  split; [intros N; eapply spans3_tight; eauto|]. split; [|apply rule_flat]. intros E. rewrite <- rule_flat. rewrite E in S.
  eapply spans2_void; [exact big_pos|apply S].
Qed.
(** Roles and the order of the parameters do not matter. *)
Theorem C99_order roles roles' : bounded3 big (rule_points roles) -> Permutation (rule_points roles) (rule_points roles') ->
  rule_bounds3 big roles = rule_bounds3 big roles'.
Proof.
  intros B P. assert (B' : bounded3 big (rule_points roles')).
  { destruct B as [B1 B2]. split.
    - intros p I. apply B1. eapply Permutation_in; [apply Permutation_map, Permutation_sym, P|exact I].
    - intros p I. apply B2. eapply Permutation_in; [apply Permutation_sym, P|exact I]. }
  eapply spans3_unique; [|apply rule_spans3; exact B']. eapply spans3_perm; [exact P|]. apply rule_spans3. exact B.
Qed.
End bounds.
Print Assumptions C99_points. Print Assumptions C99_lanelet. Print Assumptions C99_area. Print Assumptions C99_rule. Print Assumptions C99_order.

(** Boxes as sets of points: the tests and the combinations of boxes *)
Theorem C99_tests b : (forall p, box_has b p = true <-> in_box b p) /\ (box_empty b = true <-> void b) /\
  (forall c, ~ void c -> box_covers b c = true <-> forall p, in_box c p -> in_box b p) /\
  (forall c, ~ void b -> ~ void c -> box_meets b c = true <-> exists p, in_box b p /\ in_box c p).
Proof.
  split; [apply box_has_iff|]. split; [apply box_empty_void|]. split.
  - intros c N. destruct (nonvoid_proper c N) as [P Q]. unfold box_covers. rewrite andb_true_iff, !range_covers_iff by assumption. split.
    + intros [A B] p [X Y]. split; auto.
    + intros H. split; intros x X.
      * destruct (H (x, fst (snd c))) as [G _]; [|exact G]. split; [exact X|]. unfold in_range, proper in *. cbn [snd]. lra.
      * destruct (H (fst (fst c), x)) as [_ G]; [|exact G]. split; [|exact X]. unfold in_range, proper in *. cbn [fst]. lra.
  - intros c N M. destruct (nonvoid_proper b N) as [P Q], (nonvoid_proper c M) as [P' Q']. unfold box_meets. rewrite andb_true_iff, !range_meets_iff by assumption. split.
    + intros [(x & X & X') (y & Y & Y')]. exists (x, y). split; split; assumption.
    + intros (p & [X Y] & [X' Y']). split; [exists (fst p)|exists (snd p)]; auto.
Qed.
Print Assumptions C99_tests.
Theorem C99_combinations b c : (forall p, in_box (box_clamp b c) p <-> in_box b p /\ in_box c p) /\
  (forall p, in_box b p \/ in_box c p -> in_box (box_extend b c) p) /\
  (~ void b -> ~ void c -> forall d, (forall p, in_box b p \/ in_box c p -> in_box d p) -> forall p, in_box (box_extend b c) p -> in_box d p).
Proof.
  split; [|split].
  - intros p. unfold in_box, box_clamp. cbn [fst snd]. rewrite !clamp_in. tauto.
  - intros p H. split; cbn [box_extend fst snd]; apply extend_covers; unfold in_box in H; tauto.
  - intros N M d H p [X Y]. destruct (nonvoid_proper b N) as [P Q], (nonvoid_proper c M) as [P' Q']. cbn [box_extend fst snd] in X, Y. split.
    + revert X. apply extend_least; auto. intros x [I|I].
      * apply (H (x, fst (snd b))). left. split; [exact I|]. unfold in_range, proper in *. cbn [snd]. lra.
      * apply (H (x, fst (snd c))). right. split; [exact I|]. unfold in_range, proper in *. cbn [snd]. lra.
    + revert Y. apply extend_least; auto. intros y [I|I].
      * apply (H (fst (fst b), y)). left. split; [|exact I]. unfold in_range, proper in *. cbn [fst]. lra.
      * apply (H (fst (fst c), y)). right. split; [|exact I]. unfold in_range, proper in *. cbn [fst]. lra.
Qed.
Print Assumptions C99_combinations.
(** exteriorDistance is the distance of the nearest points. *)
Theorem C99_distance b : ~ void b ->
  (forall p, least (fun d => exists q, in_box b q /\ d = euclid p q) (box_gap b p)) /\
  (forall c, ~ void c -> least (fun d => exists p q, in_box b p /\ in_box c q /\ d = euclid p q) (box_gap_box b c)).
Proof. intros N. split; [intros p; apply box_gap_least; exact N|intros c M; apply box_gap_box_least; assumption]. Qed.
Print Assumptions C99_distance.
(** The distance of a regulatory element is that of the nearest parameter that is not expired, infinity if there is none. *)
Theorem C99_rule_distance dist roles :
  match rule_distance dist roles with
  | Some d => least (fun e => exists x, In x (concat roles) /\ x <> Expired /\ e = dist x) d
  | None => forall x, In x (concat roles) -> x = Expired
  end.
Proof.
  unfold rule_distance. rewrite fold_concat. pose proof (nearer_fold dist (concat roles) None) as H.
  destruct (fold_left (nearer dist) (concat roles) None) as [d|].
  - destruct H as (A & _ & C). split.
    + destruct A as [A|(x & I & L & E)]; [discriminate|]. exists x. split; [exact I|]. split; [|exact E]. intros ->. discriminate.
    + intros e (x & I & N & ->). apply C; [exact I|]. destruct x; try reflexivity. contradiction.
  - destruct H as [_ H]. intros x I. apply H in I. destruct x; discriminate I || reflexivity.
Qed.
Print Assumptions C99_rule_distance.
Example C99_nonvacuous : rule_bounds2 100 [[PPoint (1, 5, 0)]; [Expired; PLane [(-2, 3, 1)] []]] = ((-2, 1), (3, 5)) /\
  bounded3 100 (rule_points [[PPoint (1, 5, 0)]; [Expired; PLane [(-2, 3, 1)] []]]) /\
  box_gap ((0, 2), (0, 2)) (5, 6) = 5 /\ rule_distance (fun _ => 3) [[Expired]; [PLine []]] = Some 3 /\ rule_distance (fun _ => 3) [[Expired]] = None.
Proof.
  split.
  { cbv [rule_bounds2 fold_left visit_box2 lanelet_bounds2 bounds2 map flat box_extend box_extend_by extend_by extend_range no_box no_range fst snd].
    unfold Rmin, Rmax. repeat (destruct (Rle_dec _ _); try lra). repeat f_equal; lra. }
  split.
  { split.
    - intros p [<-|[<-|[]]]; cbn; lra.
    - intros p [<-|[<-|[]]]; cbn; lra. }
  split; [|split; reflexivity].
  unfold box_gap, range_gap, lt_b. cbn [fst snd]. repeat (destruct (Rlt_dec _ _); try lra).
  replace ((5 - 2) * (5 - 2) + (6 - 2) * (6 - 2)) with (5 * 5) by lra. apply sqrt_square. lra.
Qed.
(** Finding: an empty box other than the one of setEmpty can intersect a box, although it has no points. *)
Theorem C99_empty_refuted : exists b c, void b /\ ~ void c /\ box_meets b c = true.
Proof.
  exists ((1, 0), (0, 1)), ((-5, 5), (-5, 5)). split; [|split].
  - apply box_empty_void. unfold box_empty, range_empty, lt_b. cbn [fst snd]. destruct (Rlt_dec 0 1); [reflexivity|lra].
  - intros V. apply (V (0, 0)). unfold in_box, in_range. cbn. lra.
  - unfold box_meets, range_meets, le_b. cbn [fst snd]. repeat (destruct (Rle_dec _ _); [|lra]). reflexivity.
Qed.
Print Assumptions C99_empty_refuted.

(** * C100: approximatedLength2d lies between the distance of the ends and the length of the left bound; below 20 points it is exact. *)
Section approximated.
Context {P : Type} (dist : P -> P -> R) (zero : P).
Theorem C100_bounds first mid last : triangular dist ->
  exists r, approximated_length dist zero (first :: mid ++ [last]) = Some r /\ dist first last <= r <= way_length dist (first :: mid ++ [last]).
Proof.
  intros T. destruct (approx_ok dist zero T (first :: mid ++ [last])) as (r & E & B); [cbn; lia|]. exists r. split; [exact E|].
  cbn [length] in B. rewrite app_length in B. cbn [length] in B. replace (S (length mid + 1) - 1)%nat with (S (length mid)) in B by lia.
  cbn [nth] in B. rewrite app_nth2, Nat.sub_diag in B by lia. exact B.
Qed.
Theorem C100_exact line : triangular dist -> (length line < 20)%nat -> approximated_length dist zero line = Some (way_length dist line).
Proof. intros T. apply approx_exact. exact T. Qed.
(** On a straight line, where the lengths add up, it is exact for any number of points. *)
Theorem C100_straight first mid last : triangular dist -> way_length dist (first :: mid ++ [last]) = dist first last ->
  approximated_length dist zero (first :: mid ++ [last]) = Some (dist first last).
Proof. intros T E. destruct (C100_bounds first mid last T) as (r & Er & B). rewrite Er. f_equal. lra. Qed.
End approximated.
Print Assumptions C100_bounds. Print Assumptions C100_exact. Print Assumptions C100_straight.
(** Distances on a line are an example of the distance; a zigzag of 41 points from 0 to 1 and back has the length 40 and, with a step of
    4, the approximated length 0. *)
Definition gap (x y : R) : R := Rabs (x - y).
Lemma gap_triangular : triangular gap.
Proof.
  split; unfold gap; intros.
  - rewrite Rminus_diag_eq by reflexivity. apply Rabs_R0.
  - apply Rabs_pos.
  - replace (a - c) with ((a - b) + (b - c)) by ring. apply Rabs_triang.
Qed.
Fixpoint zigzag (n : nat) : list R := match n with O => [0] | S m => 0 :: 1 :: zigzag m end.
Lemma zigzag_length n : way_length gap (zigzag n) = 2 * INR n.
Proof.
  induction n as [|n IH]; [unfold way_length; cbn; lra|]. change (zigzag (S n)) with (0 :: 1 :: zigzag n).
  assert (E : exists r, zigzag n = 0 :: r) by (destruct n; cbn; eauto). destruct E as (r & E). rewrite E in *.
  change (way_length gap (0 :: 1 :: 0 :: r)) with (gap 0 1 + (gap 1 0 + way_length gap (0 :: r))). rewrite IH, S_INR.
  unfold gap. rewrite Rabs_left by lra. rewrite Rabs_right by lra. lra.
Qed.
Theorem C100_zigzag_refuted : approximated_length gap 0 (zigzag 20) = Some 0 /\ way_length gap (zigzag 20) = 40.
Proof.
  split.
  - unfold approximated_length. change (length (zigzag 20)) with 41%nat. change (Nat.max 1 (41 / 10)) with 4%nat.
    assert (G : gap 0 0 = 0) by (unfold gap; rewrite Rminus_diag_eq by reflexivity; apply Rabs_R0).
    cbn -[gap Rplus]. rewrite !G. f_equal. lra.
  - rewrite zigzag_length. cbn. lra.
Qed.
Print Assumptions C100_zigzag_refuted.
Example C100_nonvacuous : approximated_length gap 0 [0; 3; 1] = Some 5 /\ approximated_length gap 0 [] = Some 0.
Proof.
  rewrite !C100_exact by (apply gap_triangular || (cbn; lia)). unfold way_length, gap. cbn. split; [|reflexivity]. f_equal.
  rewrite Rabs_left by lra. rewrite Rabs_right by lra. lra.
Qed.

(** * C101: overlaps2d *)

(** Lanelets that are not neighbours overlap if and only if their surfaces have a surface in common; the test of the bounding boxes does
    not change this. *)
Theorem C101_lanelets data xy big relate l m : (forall k k', relate k k' = true <-> common_surface k k') ->
  placed data xy big l -> placed data xy big m -> ~ next_to data l m ->
  overlaps_lanes data xy big relate false l m = true <-> common_surface (surface data xy l) (surface data xy m).
Proof. apply overlaps_ok. Qed.
Print Assumptions C101_lanelets.
(** Neighbours never overlap, a lanelet always overlaps itself. *)
Theorem C101_neighbours data xy big relate l m : next_to data l m -> overlaps_lanes data xy big relate false l m = false.
Proof. apply overlaps_next. Qed.
Print Assumptions C101_neighbours.
(** Polygons without a common edge *)
Theorem C101_polygons xy relate compound l1 l2 : touches_2d compound l1 l2 = Done false ->
  overlaps_polygons xy relate compound l1 l2 = Done (relate (map xy l1) (map xy l2)).
Proof. intros E. unfold overlaps_polygons. rewrite E. reflexivity. Qed.
Print Assumptions C101_polygons.
(** Points inside a polygon are in each box around its points. *)
Theorem C101_inside l p b : (forall q, In q l -> in_box b q) -> inside l p -> in_box b p.
Proof. apply inside_in_box. Qed.
Print Assumptions C101_inside.

Ltac decide_ray := repeat first
  [ match goal with |- context [Rlt_dec ?a ?b] => destruct (Rlt_dec a b); try (exfalso; lra) end ]; cbn; try reflexivity.
(** Finding: a ramp that leaves a straight lanelet at its end, turns around to the left and crosses it. It follows the lanelet, hence they do
    not overlap for the library, but both cover a square. *)
Definition ramp_data (n : nat) : list nat := match n with 0 => [3; 4] | 1 => [1; 2] | 2 => [4; 5; 6; 7; 8] | 3 => [2; 9; 10; 11; 12] | _ => [] end%nat.
Definition ramp_xy (n : nat) : point :=
  match n with
  | 1%nat => (0, 0) | 2%nat => (10, 0) | 3%nat => (0, 2) | 4%nat => (10, 2) | 5%nat => (11, 2) | 6%nat => (11, 5) | 7%nat => (5, 5) | 8%nat => (5, -2)
  | 9%nat => (13, 0) | 10%nat => (13, 7) | 11%nat => (3, 7) | 12%nat => (3, -2) | _ => (0, 0)
  end.
Definition ramp_lane := Lanelet (Line 0 false) (Line 1 false).
Definition ramp := Lanelet (Line 2 false) (Line 3 false).
Theorem C101_ramp_refuted : exists data xy l m,
  (forall big relate, overlaps_lanes data xy big relate false l m = false) /\ common_surface (surface data xy l) (surface data xy m).
Proof.
  exists ramp_data, ramp_xy, ramp_lane, ramp. split; [intros big relate; reflexivity|].
  exists ((7 / 2, 9 / 2), (1 / 2, 3 / 2)). cbn [fst snd]. split; [lra|]. split; [lra|].
  intros [x y] [[X1 X2] [Y1 Y2]]. cbn [fst snd] in *. split; unfold inside, edges, surface; cbn -[crosses]; unfold crosses, above; cbn [fst snd].
  - decide_ray.
  - decide_ray.
Qed.
Print Assumptions C101_ramp_refuted.
(** A lanelet along x from 0 to 10 and one across it: not neighbours, with a common square; one far away has no surface in common with it. *)
Definition cross_data (n : nat) : list nat := match n with 0 => [3; 4] | 1 => [1; 2] | 2 => [5; 6] | 3 => [7; 8] | 4 => [9; 10] | 5 => [11; 12] | _ => [] end%nat.
Definition cross_xy (n : nat) : point :=
  match n with
  | 1%nat => (0, 0) | 2%nat => (10, 0) | 3%nat => (0, 2) | 4%nat => (10, 2) | 5%nat => (3, -5) | 6%nat => (3, 5) | 7%nat => (5, -5) | 8%nat => (5, 5)
  | 9%nat => (0, 22) | 10%nat => (10, 22) | 11%nat => (0, 20) | 12%nat => (10, 20) | _ => (0, 0)
  end.
Definition cross_lane := Lanelet (Line 2 false) (Line 3 false).
Definition far_lane := Lanelet (Line 4 false) (Line 5 false).
Example C101_nonvacuous : placed cross_data cross_xy 100 ramp_lane /\ placed cross_data cross_xy 100 cross_lane /\ (~ next_to cross_data ramp_lane cross_lane) /\
  common_surface (surface cross_data cross_xy ramp_lane) (surface cross_data cross_xy cross_lane) /\
  ~ next_to cross_data ramp_lane far_lane /\ ~ common_surface (surface cross_data cross_xy ramp_lane) (surface cross_data cross_xy far_lane).
Proof.
  assert (P : forall l, In l [ramp_lane; cross_lane; far_lane] -> placed cross_data cross_xy 100 l).
  { intros l I p H. cbn in I. repeat (destruct I as [<-|I]; [cbn in H; repeat (destruct H as [<-|H]; [cbn; lra|]); contradiction|]). contradiction. }
  split; [apply P; cbn; auto|]. split; [apply P; cbn; auto|]. split; [intros N; apply next_to_iff in N; discriminate N|]. split.
  - exists ((7 / 2, 9 / 2), (1 / 2, 3 / 2)). cbn [fst snd]. split; [lra|]. split; [lra|].
    intros [x y] [[X1 X2] [Y1 Y2]]. cbn [fst snd] in *. split; unfold inside, edges, surface; cbn -[crosses]; unfold crosses, above; cbn [fst snd]; decide_ray.
  - split; [intros N; apply next_to_iff in N; discriminate N|]. intros (b & X & Y & H).
    destruct (H (fst (fst b), fst (snd b))) as [A B]; [split; split; cbn [fst snd]; lra|].
    apply (inside_in_box _ _ ((0, 10), (0, 2))) in A; [apply (inside_in_box _ _ ((0, 10), (20, 22))) in B|].
    + destruct A as [_ [_ A]], B as [_ [B _]]. cbn [fst snd] in *. lra.
    + intros q I. cbn in I. unfold in_box, in_range. repeat (destruct I as [<-|I]; [cbn; lra|]). contradiction.
    + intros q I. cbn in I. unfold in_box, in_range. repeat (destruct I as [<-|I]; [cbn; lra|]). contradiction.
Qed.
(** Finding: two polygons with a common edge, the second of which bends back into the first one *)
Definition hook_xy (n : nat) : point :=
  match n with
  | 1%nat => (0, 0) | 2%nat => (0, 4) | 3%nat => (4, 4) | 4%nat => (4, 0) | 5%nat => (5, 4) | 6%nat => (5, 6) | 7%nat => (2, 6) | 8%nat => (2, 3)
  | 9%nat => (1, 3) | 10%nat => (1, 7) | 11%nat => (6, 7) | 12%nat => (6, 0) | _ => (0, 0)
  end.
Theorem C101_hook_refuted : exists xy l1 l2, (forall relate compound, overlaps_polygons xy relate compound l1 l2 = Done false) /\
  NoDup l1 /\ NoDup l2 /\ common_surface (map xy l1) (map xy l2).
Proof.
  exists hook_xy, [1; 2; 3; 4]%nat, [4; 3; 5; 6; 7; 8; 9; 10; 11; 12]%nat. split; [intros relate [|]; reflexivity|].
  split; [repeat constructor; cbn; lia|]. split; [repeat constructor; cbn; lia|].
  exists ((5 / 4, 7 / 4), (13 / 4, 15 / 4)). cbn [fst snd]. split; [lra|]. split; [lra|].
  intros [x y] [[X1 X2] [Y1 Y2]]. cbn [fst snd] in *. split; unfold inside, edges; cbn -[crosses]; unfold crosses, above; cbn [fst snd].
  - decide_ray.
  - decide_ray.
Qed.
Print Assumptions C101_hook_refuted.

(** * C102: intersectCenterlines2d *)

(** The distances on the first lanelet are those of the crossings along its centerline, after what the vector contained. *)
Theorem C102_this crossings closest line other d : closest_ok closest -> (2 <= length line)%nat -> NoDup (removelast line) ->
  (forall p, In p (crossings line other) -> exists s, at_length euclid between line s p) ->
  exists ts, intersect_centerlines crossings closest line other (Some d) None = Ok (crossings line other, Some (d ++ ts), None) /\
    Forall2 (fun p s => at_length euclid between line s p) (crossings line other) ts.
Proof.
  intros C L N H. destruct (arc_lengths_ok closest line _ C L N H) as (ts & E & F). exists ts. split; [|exact F].
  unfold intersect_centerlines, append_lengths. rewrite E. reflexivity.
Qed.
Print Assumptions C102_this.
(** Finding: the distances on the other lanelet are the same numbers. *)
Theorem C102_same crossings closest line other ps t o : intersect_centerlines crossings closest line other (Some []) (Some []) = Ok (ps, t, o) -> o = t.
Proof.
  unfold intersect_centerlines, append_lengths. destruct (arc_lengths closest line (crossings line other)); intros H; try discriminate.
  injection H as _ <- <-. reflexivity.
Qed.
Print Assumptions C102_same.
Theorem C102_other_refuted : exists line other p, forall closest, closest_ok closest ->
  intersect_centerlines (fun _ _ => [p]) closest line other (Some []) (Some []) = Ok ([p], Some [4], Some [4]) /\
  at_length euclid between line 4 p /\ at_length euclid between other 3 p /\ ~ at_length euclid between other 4 p.
Proof.
  exists [(0, 0); (10, 0)], [(4, -3); (4, 5)], (4, 0). intros closest C.
  assert (E10 : euclid (0, 0) (10, 0) = 10). { unfold euclid. cbn [fst snd]. replace (_ + _) with (10 * 10) by ring. apply sqrt_square. lra. }
  assert (E8 : euclid (4, -3) (4, 5) = 8). { unfold euclid. cbn [fst snd]. replace (_ + _) with (8 * 8) by ring. apply sqrt_square. lra. }
  assert (W : forall a, way_length euclid ([] ++ [a]) = 0) by reflexivity.
  assert (U : forall a b s p, at_length euclid between [a; b] s p -> exists t, 0 <= t <= 1 /\ p = between a b t /\ s = t * euclid a b).
  { intros a b s p (l1 & u & v & l2 & t & E & Ht & Ep & ->). destruct l1 as [|x [|y l1]]; try discriminate.
    - injection E as <- <- _. exists t. rewrite W. repeat split; try tauto. lra.
    - destruct l1; discriminate. }
  assert (A4 : at_length euclid between [(0, 0); (10, 0)] 4 (4, 0)).
  { exists [], (0, 0), (10, 0), [], (4 / 10). repeat split; try lra.
    - unfold between. cbn [fst snd]. f_equal; field.
    - rewrite W, E10. field. }
  destruct (arc_lengths_ok closest [(0, 0); (10, 0)] [(4, 0)] C) as (ts & E & F).
  - cbn. lia.
  - cbn. repeat constructor. intros [].
  - intros p [<-|[]]. eauto.
  - split; [|split; [exact A4|split]].
    + unfold intersect_centerlines, append_lengths. rewrite E. inversion F as [|p s q ts' A B]; subst. inversion B; subst. cbn [app].
      apply U in A. destruct A as (t & _ & Ep & Es). rewrite E10 in Es. unfold between in Ep. cbn [fst snd] in Ep. injection Ep as Ep _.
      replace s with 4 by lra. reflexivity.
    + exists [], (4, -3), (4, 5), [], (3 / 8). repeat split; try lra.
      * unfold between. cbn [fst snd]. f_equal; field.
      * rewrite W, E8. field.
    + intros A. apply U in A. destruct A as (t & _ & Ep & Es). rewrite E8 in Es. unfold between in Ep. cbn [fst snd] in Ep. injection Ep as Ex Ey. lra.
Qed.
Print Assumptions C102_other_refuted.
Example C102_nonvacuous : closest_ok closest_scan.
Proof. exact closest_scan_ok. Qed.
