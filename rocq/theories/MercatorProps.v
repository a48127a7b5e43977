(** C118: the elliptical Mercator projector, in exact arithmetic. *)
From Coq Require Import Reals Lra Lia.
From Verif Require Import ProjectionModel MercatorModel MercatorSpec MercatorProofs.
Local Open Scope R_scope.

Lemma lon_back x o : 180 / PI * (r_major * x * PI / 180 - o + o) / r_major = x.
Proof. assert (P := PI_RGT_0). unfold r_major. field. lra. Qed.

(** ** There and back *)
Lemma there_and_back o p : exists q p', merc_forward o p = Some q /\ merc_reverse o q = Some p' /\
  g_lon p' = g_lon p /\ g_ele p' = g_ele p /\ Rabs (g_lat p' - clamp (g_lat p)) <= 5 / 10000000000.
Proof.
  unfold merc_forward, merc_reverse. rewrite !raw_forward_at. cbn [bind x_x x_y x_z].
  set (oy := - r_major * ln (ts_of (clamp (g_lat o) * PI / 180))).
  set (phi := clamp (g_lat p) * PI / 180). set (y := - r_major * ln (ts_of phi)).
  assert (H : - (PI / 2) < phi < PI / 2) by (apply rad_range, clamp_range). assert (P := PI_RGT_0).
  unfold raw_reverse.
  destruct (reverse_steps_at (XYZ (r_major * g_lon p * PI / 180 - r_major * g_lon o * PI / 180 + r_major * g_lon o * PI / 180) (y - oy + oy) (g_ele p - g_ele o + g_ele o)))
    as (r & k & E & _ & q & Hr & Hq).
  cbn [x_x x_y x_z] in *. eexists. eexists. split; [reflexivity|]. cbn [x_x x_y x_z]. rewrite E. cbn [bind fst].
  split; [reflexivity|]. cbn [g_lat g_lon g_ele].
  split; [apply lon_back|]. split; [ring|].
  assert (T : exp (- (y - oy + oy) / r_major) = ts_of phi).
  { replace (- (y - oy + oy) / r_major) with (ln (ts_of phi)) by (unfold y, r_major; field). apply exp_ln, ts_pos; auto. }
  rewrite T in Hr. assert (N := near_fixed (ts_of phi) phi r q (ts_pos phi H) (step_fixed phi H) Hr Hq).
  replace (clamp (g_lat p)) with (180 / PI * phi) by (unfold phi; field; lra).
  replace (180 / PI * r - 180 / PI * phi) with (180 / PI * (r - phi)) by ring.
  rewrite Rabs_mult, (Rabs_right (180 / PI)) by (apply Rle_ge; left; apply Rdiv_lt_0_compat; lra).
  assert (Q := PI2_3_2).
  assert (L : 180 / PI < 60). { apply Rmult_lt_reg_r with PI; auto. unfold Rdiv. rewrite Rmult_assoc, Rinv_l by lra. lra. }
  assert (0 < 180 / PI) by (apply Rdiv_lt_0_compat; lra). assert (0 <= Rabs (r - phi)) by apply Rabs_pos. nra.
Qed.

(** For every origin and every position up to 89.5 degrees north and south both directions are defined, and
    one gets back to the position, with the latitude changed by at most 5e-10 degrees (less than 0.1 mm). *)
Theorem C118_round_trip_partial o p : -89.5 <= g_lat p <= 89.5 ->
  exists q p', merc_forward o p = Some q /\ merc_reverse o q = Some p' /\ nearly (5 / 10000000000) p' p.
Proof.
  intros H. destruct (there_and_back o p) as (q & p' & E & E' & L1 & L2 & L3). exists q, p'. split; auto. split; auto.
  split; auto. split; auto. rewrite clamp_id in L3 by lra. exact L3.
Qed.
Print Assumptions C118_round_trip_partial.

(** The loop ends by its own condition, after at most 6 of 15 iterations, for every point. *)
Theorem C118_loop p : exists g k, raw_reverse_steps p = Some (g, k) /\ (k <= 6)%nat.
Proof. destruct (reverse_steps_at p) as (r & k & E & L & _). eauto. Qed.
Print Assumptions C118_loop.

(** ** Back and there *)
Lemma ln_con_contract a b : Rabs (ln (con a) - ln (con b)) <= 67 / 10000 * Rabs (a - b).
Proof.
  assert (D : forall x, derivable_pt_lim (fun y => ln (con y)) x (- (eccent * eccent * cos x / (1 - eccent * eccent * (sin x * sin x))))).
  { intros x. assert (C := con_pos x).
    replace (- (eccent * eccent * cos x / (1 - eccent * eccent * (sin x * sin x)))) with
      (/ con x * (con x * - (eccent * eccent * cos x / (1 - eccent * eccent * (sin x * sin x))))).
    - apply (derivable_pt_lim_comp con ln); [apply con_deriv|now apply derivable_pt_lim_ln].
    - field. assert (O := one_es x). lra. }
  assert (B : forall x, Rabs (- (eccent * eccent * cos x / (1 - eccent * eccent * (sin x * sin x)))) <= 67 / 10000).
  { intros x. rewrite Rabs_Ropp. replace (eccent * eccent * cos x / (1 - eccent * eccent * (sin x * sin x)))
      with (eccent * eccent * (cos x / (1 - eccent * eccent * (sin x * sin x)))) by (field; assert (O := one_es x); lra).
    destruct ecc_bounds as (E0 & E1 & E2). rewrite Rabs_mult, (Rabs_right (eccent * eccent)) by nra.
    assert (C := cos_over x). assert (0 <= Rabs (cos x / (1 - eccent * eccent * (sin x * sin x)))) by apply Rabs_pos. nra. }
  assert (K : forall x y, x < y -> Rabs (ln (con y) - ln (con x)) <= 67 / 10000 * Rabs (y - x)).
  { intros x y L. destruct (MVT_cor2 (fun y => ln (con y)) _ x y L (fun c _ => D c)) as (c & E & _).
    rewrite E, Rabs_mult. apply Rmult_le_compat_r; [apply Rabs_pos|]. apply B. }
  destruct (Rtotal_order a b) as [L|[->|L]].
  - rewrite (Rabs_minus_sym (ln (con a))), (Rabs_minus_sym a). auto.
  - unfold Rminus. rewrite !Rplus_opp_r, Rabs_R0. lra.
  - auto.
Qed.

(** Every point has a position; if it is not beyond 89.5 degrees one gets from it to the point again, up to
    a twentieth of a millimetre to the north or south. *)
Theorem C118_back_partial o q : exists p, merc_reverse o q = Some p /\
  (-89.5 <= g_lat p <= 89.5 -> exists q', merc_forward o p = Some q' /\
     x_x q' = x_x q /\ x_z q' = x_z q /\ Rabs (x_y q' - x_y q) <= 5 / 100000).
Proof.
  unfold merc_reverse, raw_reverse. rewrite raw_forward_at. cbn [bind x_x x_y x_z].
  set (oy := - r_major * ln (ts_of (clamp (g_lat o) * PI / 180))).
  destruct (reverse_steps_at (XYZ (x_x q + r_major * g_lon o * PI / 180) (x_y q + oy) (x_z q + g_ele o))) as (r & k & E & _ & u & Hr & Hu).
  rewrite E. cbn [bind fst x_x x_y x_z] in *. eexists. split; [reflexivity|]. cbn [g_lat]. intros H.
  unfold merc_forward. rewrite !raw_forward_at. cbn [bind x_x x_y x_z g_lat g_lon g_ele].
  fold oy. rewrite (clamp_id (180 / PI * r)) by lra. assert (P := PI_RGT_0).
  replace (180 / PI * r * PI / 180) with r by (field; lra).
  eexists. split; [reflexivity|]. cbn [x_x x_y x_z].
  split; [unfold r_major; field; lra|]. split; [ring|].
  set (ts := exp (- (x_y q + oy) / r_major)) in *. assert (Ht : 0 < ts) by apply exp_pos.
  assert (T : ts_of r = ts * con u / con r).
  { unfold ts_of. f_equal. rewrite Hr. unfold step. assert (B := atan_bound (ts * con u)).
    replace (1 / 2 * (PI * (1 / 2) - (PI / 2 - 2 * atan (ts * con u)))) with (atan (ts * con u)) by field.
    apply tan_atan. }
  assert (Cu := con_pos u). assert (Cr := con_pos r).
  rewrite T. unfold Rdiv. rewrite ln_mult; [|apply Rmult_lt_0_compat; auto|now apply Rinv_0_lt_compat].
  rewrite ln_mult, ln_Rinv by auto. unfold ts. rewrite ln_exp.
  replace (- r_major * (- (x_y q + oy) / r_major + ln (con u) + - ln (con r)) - oy - x_y q)
    with (r_major * (ln (con r) - ln (con u))) by (unfold r_major; field).
  rewrite Rabs_mult, (Rabs_right r_major) by (unfold r_major; lra).
  assert (C := ln_con_contract r u). unfold r_major. lra.
Qed.
Print Assumptions C118_back_partial.

(** The origin is projected to zero. *)
Theorem C118_origin o : merc_forward o o = Some (XYZ 0 0 0).
Proof. unfold merc_forward. rewrite raw_forward_at. cbn [bind x_x x_y x_z]. do 2 f_equal; ring. Qed.
Print Assumptions C118_origin.

(** ** Angles *)
(** The coordinates as functions of latitude and longitude. *)
Definition north_of (o : gps) (lon lat : R) : R := match merc_forward o (GPS lat lon 0) with Some q => x_y q | None => 0 end.
Definition east_of (o : gps) (lat lon : R) : R := match merc_forward o (GPS lat lon 0) with Some q => x_x q | None => 0 end.

Lemma ln_ts_deriv phi : - (PI / 2) < phi < PI / 2 ->
  derivable_pt_lim (fun x => ln (ts_of x)) phi (- ((1 - eccent * eccent) / (cos phi * (1 - eccent * eccent * (sin phi * sin phi))))).
Proof.
  intros H. assert (P := PI_RGT_0). set (h := 1 / 2 * (PI * (1 / 2) - phi)).
  assert (Ch : 0 < cos h) by (apply cos_gt_0; unfold h; lra). assert (Sh : 0 < sin h) by (apply sin_gt_0; unfold h; lra).
  assert (Cp : 0 < cos phi) by (apply cos_gt_0; lra).
  destruct (tan_half phi H) as [_ Ht]. fold h in Ht. assert (Cc := con_pos phi). assert (O := one_es phi).
  assert (D0 : derivable_pt_lim (fun x => 1 / 2 * (PI * (1 / 2) - x)) phi (- (1 / 2))).
  { replace (- (1 / 2)) with (1 / 2 * (0 - 1)) by ring. apply derivable_pt_lim_scal.
    apply (derivable_pt_lim_minus (fct_cte (PI * (1 / 2))) id); [apply derivable_pt_lim_const|apply derivable_pt_lim_id]. }
  assert (D1 : derivable_pt_lim (fun x => tan (1 / 2 * (PI * (1 / 2) - x))) phi (1 / (cos h * cos h) * - (1 / 2))).
  { apply (derivable_pt_lim_comp (fun x => 1 / 2 * (PI * (1 / 2) - x)) tan); [exact D0|]. fold h.
    replace (1 / (cos h * cos h)) with ((cos h * cos h - - sin h * sin h) / (cos h)²).
    - apply (derivable_pt_lim_div sin cos); [apply derivable_pt_lim_sin|apply derivable_pt_lim_cos|lra].
    - unfold Rsqr. replace (cos h * cos h - - sin h * sin h) with (Rsqr (sin h) + Rsqr (cos h)) by (unfold Rsqr; ring). now rewrite sin2_cos2. }
  assert (D2 := derivable_pt_lim_div _ _ phi _ _ D1 (con_deriv phi) (Rgt_not_eq _ _ Cc)).
  assert (D3 := derivable_pt_lim_comp _ ln phi _ _ D2 (derivable_pt_lim_ln _ (ts_pos phi H))).
  match type of D3 with derivable_pt_lim _ _ ?v => replace (- ((1 - eccent * eccent) / (cos phi * (1 - eccent * eccent * (sin phi * sin phi))))) with v; [exact D3|] end.
  unfold ts_of, div_fct. cbv beta. fold h. unfold tan, Rsqr.
  assert (C2 : cos phi = 2 * (sin h * cos h)).
  { rewrite <- Rmult_assoc, <- sin_2a. unfold h. replace (2 * (1 / 2 * (PI * (1 / 2) - phi))) with (PI / 2 - phi) by field. now rewrite sin_shift. }
  transitivity (- (1 / (2 * (sin h * cos h))) + eccent * eccent * cos phi / (1 - eccent * eccent * (sin phi * sin phi))).
  - field. repeat split; lra.
  - rewrite <- C2.
    assert (S2 : sin phi * sin phi = 1 - cos phi * cos phi) by (assert (T := sin2_cos2 phi); unfold Rsqr in T; lra).
    rewrite S2 in *. field. split; lra.
Qed.

(** Angles are kept: a step to the north and a step to the east are stretched by the same factor. *)
Theorem C118_conformal o lat lon : -89.5 < lat < 89.5 ->
  let k := root eccent lat / cos (lat * PI / 180) in
  derivable_pt_lim (north_of o lon) lat (k * degree_north r_major eccent lat) /\
  derivable_pt_lim (east_of o lat) lon (k * degree_east r_major eccent lat).
Proof.
  intros H k. assert (P := PI_RGT_0). set (phi := lat * PI / 180).
  assert (Hp : - (PI / 2) < phi < PI / 2) by (apply rad_range; lra).
  assert (Cp : 0 < cos phi) by (apply cos_gt_0; lra). assert (O := one_es phi).
  assert (W : 0 < root eccent lat) by (apply sqrt_lt_R0; exact O).
  assert (W2 : root eccent lat * root eccent lat = 1 - eccent * eccent * (sin phi * sin phi)) by (apply sqrt_sqrt; apply Rlt_le; exact O).
  set (oy := - r_major * ln (ts_of (clamp (g_lat o) * PI / 180))). split.
  - assert (D : derivable_pt_lim (fun x => - r_major * ln (ts_of (x * PI / 180)) - oy) lat (k * degree_north r_major eccent lat)).
    { assert (D0 : derivable_pt_lim (fun x => x * PI / 180) lat (PI / 180)).
      { intros eps He. exists (mkposreal 1 Rlt_0_1). intros h Hh _.
        replace (((lat + h) * PI / 180 - lat * PI / 180) / h - PI / 180) with 0 by (field; auto). now rewrite Rabs_R0. }
      assert (D1 := derivable_pt_lim_comp _ _ lat _ _ D0 (ln_ts_deriv phi Hp)).
      assert (D2 := derivable_pt_lim_scal _ (- r_major) lat _ D1).
      assert (D3 := derivable_pt_lim_minus _ (fct_cte oy) lat _ _ D2 (derivable_pt_lim_const oy lat)).
      match type of D3 with derivable_pt_lim _ _ ?v => replace (k * degree_north r_major eccent lat) with v; [exact D3|] end.
      unfold k, degree_north. fold phi. rewrite <- W2. field. lra. }
    intros eps He. destruct (D eps He) as [d Hd].
    assert (0 < Rmin d (Rmin (lat + 89.5) (89.5 - lat))) as Hm by (repeat apply Rmin_pos; try lra; apply cond_pos).
    exists (mkposreal _ Hm). intros h Hh Hl. cbn in Hl.
    assert (Rabs h < d /\ Rabs h < lat + 89.5 /\ Rabs h < 89.5 - lat) as (L1 & L2 & L3).
    { repeat split; eapply Rlt_le_trans; try exact Hl; [apply Rmin_l|eapply Rle_trans; [apply Rmin_r|apply Rmin_l]|eapply Rle_trans; [apply Rmin_r|apply Rmin_r]]. }
    apply Rabs_def2 in L2. apply Rabs_def2 in L3.
    unfold north_of, merc_forward. rewrite !raw_forward_at. cbn [bind x_y g_lat]. rewrite (clamp_id lat), (clamp_id (lat + h)) by lra. fold oy. apply (Hd h Hh L1).
  - assert (E : forall l, east_of o lat l = r_major * PI / 180 * l - r_major * g_lon o * PI / 180).
    { intros l. unfold east_of, merc_forward. rewrite !raw_forward_at. cbn [bind x_x g_lon]. field. }
    replace (k * degree_east r_major eccent lat) with (r_major * PI / 180) by (unfold k, degree_east; fold phi; field; lra).
    intros eps He. exists (mkposreal 1 Rlt_0_1). intros h Hh _. rewrite !E.
    match goal with |- Rabs ?t < _ => replace t with 0 by (field; auto) end. now rewrite Rabs_R0.
Qed.
Print Assumptions C118_conformal.

(** An example: Karlsruhe, seen from an origin in the vicinity. *)
Example C118_nonvacuous : exists q p', merc_forward (GPS 49 8 0) (GPS 49.01439 8.41722 123) = Some q /\
  merc_reverse (GPS 49 8 0) q = Some p' /\ nearly (5 / 10000000000) p' (GPS 49.01439 8.41722 123) /\
  x_z q = 123 /\ x_x q = 0.41722 * PI / 180 * 6378137.
Proof.
  destruct (C118_round_trip_partial (GPS 49 8 0) (GPS 49.01439 8.41722 123)) as (q & p' & E & E' & N); [cbn; lra|].
  exists q, p'. split; auto. split; auto. split; auto.
  unfold merc_forward in E. rewrite !raw_forward_at in E. cbn [bind x_x x_y x_z g_lat g_lon g_ele] in E. injection E as <-. cbn [x_x x_z].
  split; [lra|]. unfold r_major. lra.
Qed.

(** Positions beyond 89.5 degrees do not come back: the pole returns at 89.5 degrees. *)
Theorem C118_pole_refuted : exists o p q p', g_lat p = 90 /\ merc_forward o p = Some q /\ merc_reverse o q = Some p' /\
  g_lat p' < 89.6 /\ merc_forward o (GPS 89.5 (g_lon p) (g_ele p)) = Some q.
Proof.
  destruct (there_and_back (GPS 0 0 0) (GPS 90 0 0)) as (q & p' & E & E' & _ & _ & L).
  exists (GPS 0 0 0), (GPS 90 0 0), q, p'. split; [reflexivity|]. split; auto. split; auto.
  assert (C : clamp 90 = 89.5) by (unfold clamp, Rmin, Rmax; repeat destruct (Rle_dec _ _); lra).
  cbn [g_lat] in L. rewrite C in L. split.
  - assert (A := Rle_abs (g_lat p' - 89.5)). lra.
  - unfold merc_forward in *. rewrite !raw_forward_at in *. cbn [bind x_x x_y x_z g_lat g_lon g_ele] in *.
    rewrite C in E. rewrite (clamp_id 89.5) by lra. exact E.
Qed.
Print Assumptions C118_pole_refuted.

(** Documented: maps are metrical if the origin is close to the map, and distorted by 40% with a wrong one
    (README of the package). With this projection they are too long by more than 40% with the right origin:
    at the origin itself, from 45 degrees on, both to the north and to the east. *)
Theorem C118_length_refuted o : 45 <= g_lat o < 89.5 ->
  exists k, 1.4 < k /\ derivable_pt_lim (north_of o (g_lon o)) (g_lat o) (k * degree_north r_major eccent (g_lat o)) /\
    derivable_pt_lim (east_of o (g_lat o)) (g_lon o) (k * degree_east r_major eccent (g_lat o)).
Proof.
  intros H. set (lat := g_lat o) in *. assert (P := PI_RGT_0).
  exists (root eccent lat / cos (lat * PI / 180)). split; [|apply C118_conformal; lra].
  set (phi := lat * PI / 180). assert (Hp : - (PI / 2) < phi < PI / 2) by (apply rad_range; lra).
  assert (Cp : 0 < cos phi) by (apply cos_gt_0; lra). assert (O := one_es phi).
  assert (W : 0 < root eccent lat) by (apply sqrt_lt_R0; exact O).
  assert (W2 : root eccent lat * root eccent lat = 1 - eccent * eccent * (sin phi * sin phi)) by (apply sqrt_sqrt; apply Rlt_le; exact O).
  assert (C : cos phi * cos phi <= 1 / 2).
  { assert (cos phi <= cos (PI / 4)). { apply cos_decr_1; unfold phi; nra. }
    rewrite cos_PI4 in H0. assert (0 < 1 / sqrt 2) by (rewrite <- cos_PI4; apply cos_gt_0; lra).
    assert (1 / sqrt 2 * (1 / sqrt 2) = 1 / 2).
    { assert (S := sqrt_sqrt 2). assert (0 < sqrt 2) by (apply sqrt_lt_R0; lra). replace (1 / sqrt 2 * (1 / sqrt 2)) with (1 / (sqrt 2 * sqrt 2)) by (field; lra). rewrite S by lra. reflexivity. }
    nra. }
  assert (S2 : 0 <= sin phi * sin phi <= 1).
  { assert (T := sin2_cos2 phi). unfold Rsqr in T. nra. }
  destruct ecc_bounds as (E0 & E1 & E2).
  apply Rmult_lt_reg_r with (cos phi); auto. unfold Rdiv. rewrite Rmult_assoc, Rinv_l, Rmult_1_r by lra.
  apply Rsqr_incrst_0; [unfold Rsqr; rewrite W2|nra|lra].
  set (s := sin phi * sin phi) in *. set (e2 := eccent * eccent) in *. assert (0 < e2) by (unfold e2; nra). nra.
Qed.
Print Assumptions C118_length_refuted.
