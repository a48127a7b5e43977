(** Properties of the spherical Mercator projector (C38). *)
From Coq Require Import Reals Lra.
From Verif Require Import ProjectionModel.
Local Open Scope R_scope.

Lemma radius_pos : 0 < earth_radius.
Proof. unfold earth_radius. lra. Qed.
Opaque earth_radius.
Lemma quot_some x y : y <> 0 -> quot x y = Some (x / y).
Proof. intros H. unfold quot. destruct (Req_EM_T y 0); congruence. Qed.
Lemma log_some x : 0 < x -> log_of x = Some (ln x).
Proof. intros H. unfold log_of. destruct (Rlt_dec 0 x); [auto|contradiction]. Qed.
Lemma tan_some x : 0 < x < PI / 2 -> tan_of x = Some (tan x) /\ 0 < tan x.
Proof.
  intros [H1 H2]. assert (0 < cos x) by (apply cos_gt_0; lra). split.
  - unfold tan_of. destruct (Req_EM_T (cos x) 0); [lra|auto].
  - apply tan_gt_0; auto.
Qed.
Lemma angle lat : -90 < lat < 90 -> 0 < (90 + lat) * PI / 360 < PI / 2.
Proof.
  intros [H1 H2]. pose proof PI_RGT_0. split.
  - apply Rdiv_lt_0_compat; [|lra]. apply Rmult_lt_0_compat; lra.
  - apply Rmult_lt_reg_r with 360; [lra|]. unfold Rdiv at 1. rewrite Rmult_assoc, Rinv_l by lra.
    replace (PI / 2 * 360) with (180 * PI) by lra. rewrite Rmult_1_r. apply Rmult_lt_compat_r; lra.
Qed.

Theorem C38_reverse_forward : forall o p, cos (o * PI / 180) <> 0 -> -90 < g_lat p < 90 ->
  exists q, forward o p = Some q /\ reverse o q = Some p.
Proof.
  intros o [lat lon ele] Hc Hl. cbn [g_lat] in Hl. pose proof radius_pos as Hr. pose proof PI_RGT_0 as Hpi. assert (earth_radius <> 0) by lra. assert (PI <> 0) by lra.
  destruct (tan_some _ (angle lat Hl)) as [Et Ht].
  unfold forward. cbn [g_lat g_lon g_ele]. rewrite Et. cbn [bind]. rewrite (log_some _ Ht). cbn [bind]. eexists. split; [reflexivity|].
  unfold reverse. cbn [x_x x_y x_z]. set (s := cos (o * PI / 180)) in *.
  rewrite !quot_some by (auto using Rmult_integral_contrapositive_currified). cbn [bind].
  f_equal. f_equal.
  - replace (s * earth_radius * ln (tan ((90 + lat) * PI / 360)) / (earth_radius * s)) with (ln (tan ((90 + lat) * PI / 360))) by (field; auto).
    rewrite exp_ln by auto. rewrite atan_tan by (destruct (angle lat Hl); lra). field. lra.
  - field. auto.
Qed.
Print Assumptions C38_reverse_forward.

Theorem C38_forward_reverse : forall o q, cos (o * PI / 180) <> 0 ->
  exists p, reverse o q = Some p /\ -90 < g_lat p < 90 /\ forward o p = Some q.
Proof.
  intros o [x y z] Hc. pose proof radius_pos as Hr. pose proof PI_RGT_0 as Hpi. assert (earth_radius <> 0) by lra. assert (PI <> 0) by lra.
  unfold reverse. cbn [x_x x_y x_z]. set (s := cos (o * PI / 180)) in *.
  rewrite !quot_some by (auto using Rmult_integral_contrapositive_currified). cbn [bind].
  set (e := exp (y / (earth_radius * s))). assert (0 < e) as He by apply exp_pos.
  destruct (atan_bound e) as [_ B]. assert (0 < atan e) as A by (rewrite <- atan_0; apply atan_increasing; auto).
  assert (360 * atan e / PI - 90 = 360 * (atan e / PI) - 90) as E by (unfold Rdiv; ring).
  assert (0 < atan e / PI < 1 / 2) as [B1 B2].
  { split; [apply Rdiv_lt_0_compat; lra|]. apply Rmult_lt_reg_r with PI; auto. unfold Rdiv at 1. rewrite Rmult_assoc, Rinv_l by lra. lra. }
  eexists. split; [reflexivity|]. cbn [g_lat]. split; [lra|].
  unfold forward. cbn [g_lat g_lon g_ele]. fold s.
  replace ((90 + (360 * atan e / PI - 90)) * PI / 360) with (atan e) by (field; lra).
  destruct (tan_some (atan e)) as [Et _]; [lra|]. rewrite Et. cbn [bind]. rewrite tan_atan, log_some by auto. cbn [bind].
  f_equal. f_equal.
  - field. auto.
  - unfold e. rewrite ln_exp. field. auto.
Qed.
Print Assumptions C38_forward_reverse.

(** ** C51
    Along meridians and parallels lengths on the sphere of this radius are multiplied with
    the same factor, cos(origin) / cos(latitude); at the latitude of the origin it is one. *)
Definition y_of (o : R) (lat : R) : R := match forward o (GPS lat 0 0) with Some q => x_y q | None => 0 end.
Definition x_of (o : R) (lat lon : R) : R := match forward o (GPS lat lon 0) with Some q => x_x q | None => 0 end.
(** Metres per degree along a meridian, and along the parallel of [lat]. *)
Definition meridian_degree : R := earth_radius * (PI / 180).
Definition parallel_degree (lat : R) : R := earth_radius * cos (lat * PI / 180) * (PI / 180).

Lemma cos_lat lat : -90 < lat < 90 -> 0 < cos (lat * PI / 180).
Proof.
  intros [H1 H2]. pose proof PI_RGT_0. replace (lat * PI / 180) with (lat / 180 * PI) by field.
  apply cos_gt_0.
  - apply Rle_lt_trans with (-90 / 180 * PI); [lra|]. apply Rmult_lt_compat_r; lra.
  - apply Rlt_le_trans with (90 / 180 * PI); [|lra]. apply Rmult_lt_compat_r; lra.
Qed.
Lemma sin_cos lat : 2 * (sin ((90 + lat) * PI / 360) * cos ((90 + lat) * PI / 360)) = cos (lat * PI / 180).
Proof.
  rewrite <- Rmult_assoc, <- sin_2a. replace (2 * ((90 + lat) * PI / 360)) with (PI / 2 + lat * PI / 180) by field. rewrite <- cos_sin. auto.
Qed.
Lemma forward_at o lat lon ele : -90 < lat < 90 ->
  forward o (GPS lat lon ele) = Some (XYZ (cos (o * PI / 180) * lon * PI * earth_radius / 180)
    (cos (o * PI / 180) * earth_radius * ln (tan ((90 + lat) * PI / 360))) ele).
Proof.
  intros H. destruct (tan_some _ (angle lat H)) as [Et Ht]. unfold forward. cbn [g_lat g_lon g_ele]. rewrite Et. cbn [bind]. rewrite (log_some _ Ht). reflexivity.
Qed.
Lemma dlim_tan x : cos x <> 0 -> derivable_pt_lim tan x (1 / (cos x * cos x)).
Proof.
  intros H. replace (1 / (cos x * cos x)) with ((cos x * cos x - - sin x * sin x) / (cos x)²).
  - apply (derivable_pt_lim_div sin cos); auto using derivable_pt_lim_sin, derivable_pt_lim_cos.
  - unfold Rsqr. replace (cos x * cos x - - sin x * sin x) with (Rsqr (sin x) + Rsqr (cos x)) by (unfold Rsqr; ring). rewrite sin2_cos2. auto.
Qed.
Theorem C51_conformal : forall o lat lon, -90 < lat < 90 ->
  let k := cos (o * PI / 180) / cos (lat * PI / 180) in
  derivable_pt_lim (y_of o) lat (k * meridian_degree) /\ derivable_pt_lim (x_of o lat) lon (k * parallel_degree lat).
Proof.
  intros o lat lon H k. pose proof PI_RGT_0 as Hpi. pose proof (cos_lat lat H) as Hc. split.
  - set (s := cos (o * PI / 180)) in *.
    set (g := fun l => s * earth_radius * ln (tan ((90 + l) * PI / 360))).
    assert (derivable_pt_lim g lat (k * meridian_degree)) as D.
    { pose proof (angle lat H) as A. destruct (tan_some _ A) as [_ Ht]. set (a := (90 + lat) * PI / 360) in *.
      assert (0 < cos a) as Ca by (apply cos_gt_0; lra). assert (0 < sin a) as Sa by (apply sin_gt_0; lra).
      replace (k * meridian_degree) with (s * earth_radius * (/ tan a * (1 / (cos a * cos a) * (PI / 360)))).
      - apply (derivable_pt_lim_scal (fun l => ln (tan ((90 + l) * PI / 360)))).
        apply (derivable_pt_lim_comp (fun l => tan ((90 + l) * PI / 360)) ln); [|apply derivable_pt_lim_ln; exact Ht].
        apply (derivable_pt_lim_comp (fun l => (90 + l) * PI / 360) tan); [|apply dlim_tan; fold a; lra].
        replace (PI / 360) with (0 * 1 + (PI / 360) * 1) by ring.
        intros eps He. exists (mkposreal 1 Rlt_0_1). intros h Hh _.
        replace (((90 + (lat + h)) * PI / 360 - (90 + lat) * PI / 360) / h - (0 * 1 + PI / 360 * 1)) with 0 by (field; auto). rewrite Rabs_R0. auto.
      - unfold k, meridian_degree. rewrite <- (sin_cos lat). fold a s. unfold tan. field. lra. }
    intros eps He. destruct (D eps He) as [d Hd].
    assert (0 < Rmin d (Rmin (lat + 90) (90 - lat))) as Hm by (repeat apply Rmin_pos; try lra; apply cond_pos).
    exists (mkposreal _ Hm). intros h Hh Hl. cbn in Hl.
    assert (Rabs h < d /\ Rabs h < lat + 90 /\ Rabs h < 90 - lat) as (L1 & L2 & L3).
    { repeat split; eapply Rlt_le_trans; try exact Hl; [apply Rmin_l|eapply Rle_trans; [apply Rmin_r|apply Rmin_l]|eapply Rle_trans; [apply Rmin_r|apply Rmin_r]]. }
    apply Rabs_def2 in L2. apply Rabs_def2 in L3.
    unfold y_of. rewrite !forward_at by lra. cbn [x_y]. apply (Hd h Hh L1).
  - assert (forall l, x_of o lat l = cos (o * PI / 180) * PI * earth_radius / 180 * l) as E.
    { intros l. unfold x_of. rewrite forward_at by auto. cbn [x_x]. field. }
    replace (k * parallel_degree lat) with (cos (o * PI / 180) * PI * earth_radius / 180).
    + intros eps He. exists (mkposreal 1 Rlt_0_1). intros h Hh _. rewrite !E.
      match goal with |- Rabs ?t < _ => replace t with 0 by (field; auto) end. rewrite Rabs_R0. auto.
    + unfold k, parallel_degree. field. lra.
Qed.
Print Assumptions C51_conformal.
Corollary C51_true_at_origin : forall o lon, -90 < o < 90 ->
  derivable_pt_lim (y_of o) o meridian_degree /\ derivable_pt_lim (x_of o o) lon (parallel_degree o).
Proof.
  intros o lon H. pose proof (cos_lat o H). destruct (C51_conformal o o lon H) as [A B].
  replace (cos (o * PI / 180) / cos (o * PI / 180)) with 1 in A, B by (field; lra). rewrite Rmult_1_l in A, B. auto.
Qed.
Print Assumptions C51_true_at_origin.

(** A projector with origin at latitude 60 (scale 1/2): the point at 30 degrees north, 8 degrees east. *)
Example C38_nonvacuous : cos (60 * PI / 180) = 1 / 2 /\ -90 < g_lat (GPS 30 8 115) < 90 /\
  forward 60 (GPS 30 8 115) = Some (XYZ (earth_radius * PI / 45) (earth_radius / 4 * ln 3) 115) /\
  reverse 60 (XYZ (earth_radius * PI / 45) (earth_radius / 4 * ln 3) 115) = Some (GPS 30 8 115).
Proof.
  pose proof PI_RGT_0. assert (cos (60 * PI / 180) = 1 / 2) as C by (replace (60 * PI / 180) with (PI / 3) by field; apply cos_PI3).
  assert (forward 60 (GPS 30 8 115) = Some (XYZ (earth_radius * PI / 45) (earth_radius / 4 * ln 3) 115)) as F.
  { rewrite forward_at, C by lra. f_equal. f_equal; [field|]. replace ((90 + 30) * PI / 360) with (PI / 3) by field. rewrite tan_PI3.
    replace 3 with (sqrt 3 * sqrt 3) at 2 by (apply sqrt_sqrt; lra). rewrite ln_mult by (apply sqrt_lt_R0; lra). field. }
  split; auto. split; [cbn; lra|]. split; auto.
  destruct (C38_reverse_forward 60 (GPS 30 8 115)) as (q & Eq & Er); [rewrite C; lra|cbn; lra|]. rewrite F in Eq. injection Eq as <-. exact Er.
Qed.
(** The origin itself is not mapped to zero. *)
Example C51_nonvacuous : -90 < 60 < 90 /\ y_of 60 60 = earth_radius / 2 * ln (tan (5 * PI / 12)) /\ y_of 60 60 > 0.
Proof.
  pose proof PI_RGT_0. assert (cos (60 * PI / 180) = 1 / 2) as C by (replace (60 * PI / 180) with (PI / 3) by field; apply cos_PI3).
  assert (y_of 60 60 = earth_radius / 2 * ln (tan (5 * PI / 12))) as E.
  { unfold y_of. rewrite forward_at, C by lra. cbn [x_y]. replace ((90 + 60) * PI / 360) with (5 * PI / 12) by field. field. }
  split; [lra|]. split; auto. rewrite E. apply Rmult_gt_0_compat; [pose proof radius_pos; lra|].
  rewrite <- ln_1. apply ln_increasing; [lra|]. rewrite <- tan_PI4. apply tan_increasing; lra.
Qed.
