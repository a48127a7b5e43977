(** C119: the geocentric and the local Cartesian projector, in exact arithmetic. *)
From Coq Require Import Reals Lra.
From Verif Require Import ProjectionModel EnuModel EnuSpec EnuProofs.
Local Open Scope R_scope.

Lemma spec_b : wgs84_b = wgs_a * (1 - wgs_f).
Proof. unfold wgs84_b, wgs84_a, wgs_a, wgs_f. lra. Qed.
Lemma spec_e2 : wgs84_e2 = wgs_e2.
Proof. unfold wgs84_e2. rewrite spec_b. change wgs84_a with wgs_a. unfold wgs_e2. field. unfold wgs_a. lra. Qed.

(** GeocentricProjector::forward gives for every latitude between the poles the point at the height of the position
    above the ellipsoid of WGS84, where the outer normal has the latitude and longitude of the position; beyond the
    poles there is no result. *)
Theorem C119_geocentric p :
  match ecef_forward p with
  | Some x => -90 <= g_lat p <= 90 /\
      above wgs84_a wgs84_b
        (XYZ (cos (radian (g_lat p)) * cos (radian (g_lon p))) (cos (radian (g_lat p)) * sin (radian (g_lon p)))
             (sin (radian (g_lat p)))) (g_ele p) x
  | None => g_lat p < -90 \/ 90 < g_lat p
  end.
Proof.
  change wgs84_a with wgs_a. rewrite spec_b. change radian with rad.
  unfold ecef_forward. destruct (geocentric p) as [x|] eqn:E.
  - assert (H := geocentric_range p x E). split; auto. destruct p as [lat lon ele]. cbn [g_lat g_lon g_ele] in *.
    rewrite geocentric_at in E by auto. injection E as <-.
    set (phi := rad lat). set (lam := rad lon). assert (W := w_pos phi). assert (S := w_sqr phi). unfold w2 in S.
    assert (C := sc phi). assert (L := sc lam). assert (F := f_bounds). assert (A : 0 < wgs_a) by (unfold wgs_a; lra).
    assert (N : nn phi = wgs_a / w phi) by reflexivity.
    assert (M : wgs_e2m = (1 - wgs_f) * (1 - wgs_f)) by reflexivity. assert (ME := e2m_e2).
    exists (XYZ (nn phi * cos phi * cos lam) (nn phi * cos phi * sin lam) (wgs_e2m * nn phi * sin phi)), (wgs_a * w phi).
    cbn [x_x x_y x_z]. split; [|split; [|split; [|split]]].
    + replace ((nn phi * cos phi * cos lam * (nn phi * cos phi * cos lam) + nn phi * cos phi * sin lam * (nn phi * cos phi * sin lam)) / (wgs_a * wgs_a) +
        wgs_e2m * nn phi * sin phi * (wgs_e2m * nn phi * sin phi) / (wgs_a * (1 - wgs_f) * (wgs_a * (1 - wgs_f))))
        with ((cos phi * cos phi * (cos lam * cos lam + sin lam * sin lam) + wgs_e2m * (sin phi * sin phi)) / (w phi * w phi))
        by (rewrite N, M; field; lra).
      rewrite S, L, C, ME. field. assert (P := w2_pos phi). unfold w2 in P. lra.
    + apply Rmult_lt_0_compat; auto.
    + rewrite N, M. f_equal; field; lra.
    + replace (cos phi * cos lam * (cos phi * cos lam) + cos phi * sin lam * (cos phi * sin lam) + sin phi * sin phi)
        with (cos phi * cos phi * (cos lam * cos lam + sin lam * sin lam) + sin phi * sin phi) by ring. rewrite L, C. ring.
    + f_equal; ring.
  - unfold geocentric in E. destruct (Rle_dec _ _) as [|N]; [discriminate|].
    destruct (Rlt_dec (g_lat p) (-90)); [now left|right]. apply Rnot_le_lt. intros K. apply N, Rabs_le. lra.
Qed.
Print Assumptions C119_geocentric.

(** LocalCartesianProjector::forward keeps all distances in space, whatever the origin. *)
Theorem C119_distances o p q x y u v :
  ecef_forward p = Some x -> ecef_forward q = Some y -> enu_forward o p = Some u -> enu_forward o q = Some v -> dist2 u v = dist2 x y.
Proof.
  unfold ecef_forward, enu_forward. intros Ep Eq. rewrite Ep, Eq. destruct (frame_at o) as [f|] eqn:F; [|discriminate]. cbn [bind].
  intros [= <-] [= <-]. apply to_local_dist. now apply (frame_at_ok o).
Qed.
Print Assumptions C119_distances.

(** It is defined for all origins and positions between the poles; what is straight above or below the origin is on the
    third axis, at its height. In particular the origin is projected to zero. *)
Theorem C119_up lat lon ele h : -90 <= lat <= 90 ->
  enu_forward (GPS lat lon ele) (GPS lat lon (ele + h)) = Some (XYZ 0 0 h).
Proof.
  intros H. unfold enu_forward, frame_at. rewrite !geocentric_at by auto. cbn [bind g_lat g_lon]. unfold to_local. cbn [x_x x_y x_z f_0 f_sphi f_cphi f_slam f_clam].
  assert (C := sc (rad lat)). assert (L := sc (rad lon)). f_equal. f_equal; ring [C L].
Qed.
Print Assumptions C119_up.
Theorem C119_defined o p : (exists u, enu_forward o p = Some u) <-> -90 <= g_lat o <= 90 /\ -90 <= g_lat p <= 90.
Proof.
  unfold enu_forward, frame_at. split.
  - intros (u & E). destruct (geocentric o) eqn:Eo; [|discriminate]. cbn [bind] in E. destruct (geocentric p) eqn:Ep; [|discriminate].
    split; eapply geocentric_range; eauto.
  - intros [Ho Hp]. destruct o as [oa ob oc], p as [pa pb pc]. cbn [g_lat] in *. rewrite !geocentric_at by auto. cbn [bind]. eauto.
Qed.
Print Assumptions C119_defined.

(** There and back, back and there: exact wherever GeographicLib's geodetic coordinates are. *)
Theorem C119_round_trip geodetic o p u : enu_forward o p = Some u ->
  (forall x, ecef_forward p = Some x -> ecef_reverse geodetic x = p) -> enu_reverse geodetic o u = Some p.
Proof.
  unfold enu_forward, enu_reverse, ecef_forward, ecef_reverse. intros E G. destruct (frame_at o) as [f|] eqn:F; [|discriminate]. cbn [bind] in *.
  destruct (geocentric p) as [x|]; [|discriminate]. cbn [bind] in E. injection E as <-.
  rewrite of_to by now apply (frame_at_ok o). now rewrite G.
Qed.
Print Assumptions C119_round_trip.
Theorem C119_back geodetic o u p : enu_reverse geodetic o u = Some p ->
  (forall x, ecef_reverse geodetic x = p -> ecef_forward p = Some x) -> enu_forward o p = Some u.
Proof.
  unfold enu_forward, enu_reverse, ecef_forward, ecef_reverse. intros E G. destruct (frame_at o) as [f|] eqn:F; [|discriminate]. cbn [bind] in *.
  injection E as E. rewrite (G _ E). cbn [bind]. now rewrite to_of by now apply (frame_at_ok o).
Qed.
Print Assumptions C119_back.

(** The axes: a step to the east from the origin is along the first axis, a step to the north along the second axis, with
    their lengths at the height of the origin. *)
Definition at_or_0 (o : option xyz) : xyz := match o with Some x => x | None => XYZ 0 0 0 end.
Theorem C119_axes lat lon ele : -90 < lat < 90 ->
  velocity (fun l => at_or_0 (enu_forward (GPS lat lon ele) (GPS lat l ele))) lon
           (XYZ (PI / 180 * (radius_east (radian lat) + ele) * cos (radian lat)) 0 0) /\
  velocity (fun l => at_or_0 (enu_forward (GPS lat lon ele) (GPS l lon ele))) lat
           (XYZ 0 (PI / 180 * (radius_north (radian lat) + ele)) 0).
Proof.
  unfold radius_east, radius_north. rewrite spec_e2. change wgs84_a with wgs_a. change radian with rad.
  intros H. assert (H' : -90 <= lat <= 90) by lra.
  set (phi := rad lat). set (lam := rad lon). assert (C := sc phi). assert (L := sc lam).
  set (x0 := XYZ ((nn phi + ele) * cos phi * cos lam) ((nn phi + ele) * cos phi * sin lam) ((wgs_e2m * nn phi + ele) * sin phi)).
  assert (F : frame_at (GPS lat lon ele) = Some (Frame x0 (sin phi) (cos phi) (sin lam) (cos lam))).
  { unfold frame_at. rewrite geocentric_at by auto. reflexivity. }
  assert (Lin : forall (c k : R) f t l, derivable_pt_lim f t l -> derivable_pt_lim (fun s => c * (f s - k)) t (c * l)).
  { intros c k f t l D. apply derivable_pt_lim_scal. replace l with (l - 0) by ring.
    apply (derivable_pt_lim_minus f (fct_cte k)); [exact D|apply derivable_pt_lim_const]. }
  assert (Add : forall f g t l m, derivable_pt_lim f t l -> derivable_pt_lim g t m -> derivable_pt_lim (fun s => f s + g s) t (l + m)).
  { intros f g t l m. apply derivable_pt_lim_plus. }
  assert (V : forall (p : R -> xyz) t vx vy vz, derivable_pt_lim (fun s => x_x (p s)) t vx -> derivable_pt_lim (fun s => x_y (p s)) t vy ->
    derivable_pt_lim (fun s => x_z (p s)) t vz ->
    velocity (fun s => to_local (Frame x0 (sin phi) (cos phi) (sin lam) (cos lam)) (p s)) t
      (XYZ (- sin lam * vx + cos lam * vy) (- cos lam * sin phi * vx + (- sin lam * sin phi) * vy + cos phi * vz)
           (cos lam * cos phi * vx + sin lam * cos phi * vy + sin phi * vz))).
  { intros p t vx vy vz Dx Dy Dz. unfold velocity, to_local. cbn [x_x x_y x_z f_0 f_sphi f_cphi f_slam f_clam]. split; [|split].
    - apply Add; apply Lin; auto.
    - assert (D := Add _ _ _ _ _ (Add _ _ _ _ _ (Lin (- cos lam * sin phi) (x_x x0) _ _ _ Dx) (Lin (- sin lam * sin phi) (x_y x0) _ _ _ Dy)) (Lin (cos phi) (x_z x0) _ _ _ Dz)).
      eapply (deriv_local _ _ t _ 1); [lra| |exact D]. intros y _. cbv beta. ring.
    - apply Add; [apply Add|]; apply Lin; auto. }
  assert (W : forall f g t v, (forall s, x_x (f s) = x_x (g s) /\ x_y (f s) = x_y (g s) /\ x_z (f s) = x_z (g s)) -> velocity g t v -> velocity f t v) by
    (intros f g t v E (V1 & V2 & V3); split; [|split]; (eapply (deriv_local _ _ t _ 1); [lra| |eassumption]); intros y _; apply E).
  split.
  - set (p := fun l : R => XYZ ((nn phi + ele) * cos phi * cos (rad l)) ((nn phi + ele) * cos phi * sin (rad l)) ((wgs_e2m * nn phi + ele) * sin phi)).
    assert (D1 : derivable_pt_lim (fun l => x_x (p l)) lon ((nn phi + ele) * cos phi * (- sin lam * (PI / 180)))).
    { apply derivable_pt_lim_scal. apply (derivable_pt_lim_comp rad cos); [apply rad_deriv|apply derivable_pt_lim_cos]. }
    assert (D2 : derivable_pt_lim (fun l => x_y (p l)) lon ((nn phi + ele) * cos phi * (cos lam * (PI / 180)))).
    { apply derivable_pt_lim_scal. apply (derivable_pt_lim_comp rad sin); [apply rad_deriv|apply derivable_pt_lim_sin]. }
    assert (D3 : derivable_pt_lim (fun l => x_z (p l)) lon 0) by apply (derivable_pt_lim_const ((wgs_e2m * nn phi + ele) * sin phi)).
    assert (D := V p lon _ _ _ D1 D2 D3).
    match type of D with velocity _ _ ?v => replace (XYZ _ 0 0) with v end.
    + eapply W; [|exact D]. intros s. unfold enu_forward. rewrite F. cbn [bind]. rewrite geocentric_at by auto. cbn [bind at_or_0]. auto.
    + fold (w2 phi). fold (w phi). fold (nn phi). f_equal; ring [L C].
  - set (p := fun l : R => XYZ ((nn (rad l) + ele) * cos (rad l) * cos lam) ((nn (rad l) + ele) * cos (rad l) * sin lam) ((wgs_e2m * nn (rad l) + ele) * sin (rad l))).
    assert (D0 : derivable_pt_lim (fun l => (nn (rad l) + ele) * cos (rad l)) lat (- ((mm phi + ele) * sin phi) * (PI / 180))).
    { apply (derivable_pt_lim_comp rad (fun x => (nn x + ele) * cos x)); [apply rad_deriv|apply parallel_deriv]. }
    assert (Sc : forall f t l k, derivable_pt_lim f t l -> derivable_pt_lim (fun s => f s * k) t (l * k)).
    { intros f t l k Df. rewrite (Rmult_comm l). eapply (deriv_local _ (fun s => k * f s) t _ 1); [lra| |apply derivable_pt_lim_scal; exact Df]. intros; apply Rmult_comm. }
    assert (D3 : derivable_pt_lim (fun l => x_z (p l)) lat ((mm phi + ele) * cos phi * (PI / 180))).
    { apply (derivable_pt_lim_comp rad (fun x => (wgs_e2m * nn x + ele) * sin x)); [apply rad_deriv|apply height_deriv]. }
    assert (D := V p lat _ _ _ (Sc _ _ _ (cos lam) D0) (Sc _ _ _ (sin lam) D0) D3).
    match type of D with velocity _ _ ?v => replace (XYZ 0 _ 0) with v end.
    + assert (R : 0 < Rmin (lat + 90) (90 - lat)) by (apply Rmin_pos; lra).
      assert (K : forall y, Rabs (y - lat) < Rmin (lat + 90) (90 - lat) ->
        at_or_0 (enu_forward (GPS lat lon ele) (GPS y lon ele)) = to_local (Frame x0 (sin phi) (cos phi) (sin lam) (cos lam)) (p y)).
      { intros y Hy. assert (Q1 : Rabs (y - lat) < lat + 90) by (eapply Rlt_le_trans; [exact Hy|apply Rmin_l]).
        assert (Q2 : Rabs (y - lat) < 90 - lat) by (eapply Rlt_le_trans; [exact Hy|apply Rmin_r]).
        apply Rabs_def2 in Q1. apply Rabs_def2 in Q2.
        unfold enu_forward. rewrite F. cbn [bind]. rewrite geocentric_at by lra. reflexivity. }
      destruct D as (V1 & V2 & V3). split; [|split]; (eapply deriv_local; [exact R| |eassumption]); intros y Hy; cbv beta; now rewrite (K y Hy).
    + fold (w2 phi). fold (w phi). assert (Wp := w_pos phi). unfold mm. f_equal.
      * ring [L C].
      * transitivity (PI / 180 * (wgs_a * (1 - wgs_e2) / (w phi * w phi * w phi) + ele) * (sin phi * sin phi * (cos lam * cos lam + sin lam * sin lam) + cos phi * cos phi)); [ring|].
        rewrite L, C. field. lra.
      * transitivity (PI / 180 * (wgs_a * (1 - wgs_e2) / (w phi * w phi * w phi) + ele) * (sin phi * cos phi * (1 - (cos lam * cos lam + sin lam * sin lam)))); [ring|].
        rewrite L. ring.
Qed.
Print Assumptions C119_axes.

(** An example: two positions at the equator a quarter of the earth apart, seen from the first. *)
Example C119_nonvacuous :
  enu_forward (GPS 0 0 0) (GPS 0 90 0) = Some (XYZ 6378137 0 (-6378137)) /\
  dist2 (XYZ 6378137 0 (-6378137)) (XYZ 0 0 0) = 2 * 6378137 * 6378137 /\
  enu_reverse (fun _ => GPS 0 90 0) (GPS 0 0 0) (XYZ 6378137 0 (-6378137)) = Some (GPS 0 90 0).
Proof.
  assert (Z : rad 0 = 0) by (unfold rad; field). assert (N : rad 90 = PI / 2) by (unfold rad; field).
  assert (NN : nn 0 = 6378137).
  { unfold nn, w, w2. rewrite sin_0, !Rmult_0_r, Rminus_0_r, sqrt_1. unfold wgs_a. field. }
  split; [|split].
  - unfold enu_forward, frame_at. rewrite !geocentric_at by lra. cbn [bind g_lat g_lon]. rewrite Z, N, NN. unfold to_local.
    cbn [x_x x_y x_z f_0 f_sphi f_cphi f_slam f_clam]. rewrite sin_0, cos_0, sin_PI2, cos_PI2. f_equal. f_equal; ring.
  - unfold dist2. cbn [x_x x_y x_z]. ring.
  - unfold enu_reverse, frame_at. rewrite geocentric_at by lra. reflexivity.
Qed.

(** The origin that GeocentricProjector reports is, unlike with the other projectors, not projected to zero: its height is
    rounded, it is more than a centimetre away from the centre of the earth. *)
Theorem C119_origin_refuted : exists z, ecef_forward ecef_origin = Some (XYZ 0 0 z) /\ 0.014 < z < 0.015.
Proof.
  assert (Z : rad 0 = 0) by (unfold rad; field). assert (N : rad 90 = PI / 2) by (unfold rad; field).
  exists (wgs_a * (1 - wgs_f) - 63567523 / 10). split.
  - unfold ecef_forward, ecef_origin. rewrite geocentric_at by lra. rewrite Z, N, sin_PI2, cos_PI2, sin_0, cos_0.
    assert (F := f_bounds).
    assert (W : w (PI / 2) = 1 - wgs_f).
    { unfold w, w2. rewrite sin_PI2. replace (1 - wgs_e2 * (1 * 1)) with ((1 - wgs_f) * (1 - wgs_f)) by (unfold wgs_e2; ring). apply sqrt_square. lra. }
    unfold nn. rewrite W. unfold wgs_e2m. f_equal. f_equal; [ring|ring|]. field. lra.
  - unfold wgs_a, wgs_f. lra.
Qed.
Print Assumptions C119_origin_refuted.
