(** Proofs about the elliptical Mercator projector. *)
From Coq Require Import Reals Lra Lia.
From Verif Require Import ProjectionModel MercatorModel.
Local Open Scope R_scope.

Lemma ecc_bounds : 0 < eccent /\ eccent < 1 / 12 /\ eccent * eccent < 67 / 10000.
Proof. unfold eccent. lra. Qed.

Lemma sin_bounds x : -1 <= sin x <= 1.
Proof. apply SIN_bound. Qed.

Definition con_arg (phi : R) : R := (1 - eccent * sin phi) / (1 + eccent * sin phi).
Definition con (phi : R) : R := Rpower (con_arg phi) (1 / 2 * eccent).

Lemma es_bounds phi : - (1 / 12) < eccent * sin phi < 1 / 12.
Proof.
  destruct ecc_bounds as (E0 & E1 & _). destruct (sin_bounds phi) as [S0 S1]. split; nra.
Qed.

Lemma con_arg_pos phi : 0 < con_arg phi.
Proof. unfold con_arg. assert (B := es_bounds phi). apply Rdiv_lt_0_compat; lra. Qed.

Lemma con_pos phi : 0 < con phi.
Proof. apply exp_pos. Qed.

Lemma con_of_some phi : con_of phi = Some (con phi).
Proof.
  unfold con_of, quot. assert (B := es_bounds phi). destruct (Req_EM_T (1 + eccent * sin phi) 0) as [E|]; [lra|]. cbn [bind].
  unfold pow_of. destruct (Rlt_dec 0 _) as [|H]; [reflexivity|]. exfalso. apply H, con_arg_pos.
Qed.

(** One step of the iteration. *)
Definition step (ts phi : R) : R := PI / 2 - 2 * atan (ts * con phi).

Definition slope (ts phi : R) : R :=
  2 * (ts * con phi) / (1 + (ts * con phi) * (ts * con phi)) *
  (eccent * eccent * cos phi / (1 - eccent * eccent * (sin phi * sin phi))).

Lemma one_es phi : 0 < 1 - eccent * eccent * (sin phi * sin phi).
Proof. assert (B := es_bounds phi). replace (eccent * eccent * (sin phi * sin phi)) with ((eccent * sin phi) * (eccent * sin phi)) by ring. nra. Qed.

Lemma con_arg_deriv phi : derivable_pt_lim con_arg phi
  ((- (eccent * cos phi) * (1 + eccent * sin phi) - eccent * cos phi * (1 - eccent * sin phi)) / ((1 + eccent * sin phi) * (1 + eccent * sin phi))).
Proof.
  assert (B := es_bounds phi).
  change con_arg with (div_fct (fun x => 1 - eccent * sin x) (fun x => 1 + eccent * sin x)).
  assert (D : derivable_pt_lim (fun x => eccent * sin x) phi (eccent * cos phi)) by (apply derivable_pt_lim_scal, derivable_pt_lim_sin).
  assert (D1 : derivable_pt_lim (fun x => 1 - eccent * sin x) phi (- (eccent * cos phi))).
  { replace (- (eccent * cos phi)) with (0 - eccent * cos phi) by ring.
    apply (derivable_pt_lim_minus (fct_cte 1)); [apply derivable_pt_lim_const|exact D]. }
  assert (D2 : derivable_pt_lim (fun x => 1 + eccent * sin x) phi (eccent * cos phi)).
  { replace (eccent * cos phi) with (0 + eccent * cos phi) by ring.
    apply (derivable_pt_lim_plus (fct_cte 1)); [apply derivable_pt_lim_const|exact D]. }
  apply (derivable_pt_lim_div _ _ phi _ _ D1 D2). lra.
Qed.

Lemma con_deriv phi : derivable_pt_lim con phi
  (con phi * - (eccent * eccent * cos phi / (1 - eccent * eccent * (sin phi * sin phi)))).
Proof.
  assert (B := es_bounds phi). assert (P := con_arg_pos phi). assert (O := one_es phi).
  assert (D : derivable_pt_lim (fun x => 1 / 2 * eccent * ln (con_arg x)) phi
            (1 / 2 * eccent * (/ con_arg phi * ((- (eccent * cos phi) * (1 + eccent * sin phi) - eccent * cos phi * (1 - eccent * sin phi)) / ((1 + eccent * sin phi) * (1 + eccent * sin phi)))))).
  { apply derivable_pt_lim_scal. apply (derivable_pt_lim_comp con_arg ln); [apply con_arg_deriv|now apply derivable_pt_lim_ln]. }
  assert (X := derivable_pt_lim_comp _ exp phi _ _ D (derivable_pt_lim_exp _)).
  replace (con phi * - (eccent * eccent * cos phi / (1 - eccent * eccent * (sin phi * sin phi)))) with
    (exp (1 / 2 * eccent * ln (con_arg phi)) *
      (1 / 2 * eccent * (/ con_arg phi * ((- (eccent * cos phi) * (1 + eccent * sin phi) - eccent * cos phi * (1 - eccent * sin phi)) / ((1 + eccent * sin phi) * (1 + eccent * sin phi)))))).
  - exact X.
  - unfold con, Rpower. f_equal. unfold con_arg. field.
    replace (1 - eccent * eccent * (sin phi * sin phi)) with ((1 - eccent * sin phi) * (1 + eccent * sin phi)) in O by ring.
    repeat split; try lra; intros E; assert (Y := one_es phi); nra.
Qed.

Lemma step_deriv ts phi : derivable_pt_lim (step ts) phi (slope ts phi).
Proof.
  set (k := eccent * eccent * cos phi / (1 - eccent * eccent * (sin phi * sin phi))).
  assert (D : derivable_pt_lim (fun x => ts * con x) phi (ts * (con phi * - k))) by (apply derivable_pt_lim_scal, con_deriv).
  assert (X := derivable_pt_lim_comp _ atan phi _ _ D (derivable_pt_lim_atan _)).
  assert (Y := derivable_pt_lim_scal _ 2 phi _ X).
  assert (Z := derivable_pt_lim_minus (fct_cte (PI / 2)) _ phi _ _ (derivable_pt_lim_const (PI / 2) phi) Y).
  replace (slope ts phi) with (0 - 2 * (/ (1 + (ts * con phi) ^ 2) * (ts * (con phi * - k)))); [exact Z|].
  unfold slope. fold k. field. nra.
Qed.

Lemma cos_over phi : Rabs (cos phi / (1 - eccent * eccent * (sin phi * sin phi))) <= 1.
Proof.
  assert (O := one_es phi). destruct ecc_bounds as (E0 & E1 & E2).
  unfold Rdiv. rewrite Rabs_mult, (Rabs_right (/ _)) by (left; now apply Rinv_0_lt_compat).
  apply Rmult_le_reg_r with (1 - eccent * eccent * (sin phi * sin phi)); auto.
  rewrite Rmult_assoc, Rinv_l, Rmult_1_r, Rmult_1_l by lra.
  assert (S : sin phi * sin phi = 1 - cos phi * cos phi) by (assert (T := sin2_cos2 phi); unfold Rsqr in T; lra).
  rewrite S. destruct (COS_bound phi) as [C0 C1]. set (c := cos phi) in *. set (q := eccent * eccent) in *.
  assert (0 < q) by (unfold q; nra).
  apply Rabs_le. split; nra.
Qed.

Lemma slope_bound ts phi : 0 < ts -> Rabs (slope ts phi) <= 67 / 10000.
Proof.
  intros Ht. unfold slope. assert (P : 0 < ts * con phi) by (apply Rmult_lt_0_compat; auto using con_pos).
  set (t := ts * con phi) in *.
  replace (2 * t / (1 + t * t) * (eccent * eccent * cos phi / (1 - eccent * eccent * (sin phi * sin phi))))
    with (2 * t / (1 + t * t) * (eccent * eccent) * (cos phi / (1 - eccent * eccent * (sin phi * sin phi))))
    by (field; split; [apply Rgt_not_eq, one_es|nra]).
  rewrite Rabs_mult. assert (C := cos_over phi). assert (A0 := Rabs_pos (cos phi / (1 - eccent * eccent * (sin phi * sin phi)))).
  set (x := Rabs (cos phi / _)) in *.
  assert (Q : 0 < 2 * t / (1 + t * t) <= 1).
  { assert (0 < 1 + t * t) by nra. split; [apply Rdiv_lt_0_compat; lra|].
    apply Rmult_le_reg_r with (1 + t * t); auto. unfold Rdiv. rewrite Rmult_assoc, Rinv_l, Rmult_1_r by lra.
    assert (0 <= (1 - t) * (1 - t)) by apply Rle_0_sqr. lra. }
  destruct ecc_bounds as (E0 & E1 & E2). set (q := eccent * eccent) in *. assert (0 < q) by (unfold q; nra).
  set (s := 2 * t / (1 + t * t)) in *. rewrite Rabs_right by nra.
  assert (s * q <= q) by nra. assert (0 <= s * q) by nra. nra.
Qed.

(** The iteration is a contraction. *)
Lemma step_contract ts a b : 0 < ts -> Rabs (step ts a - step ts b) <= 67 / 10000 * Rabs (a - b).
Proof.
  intros Ht.
  assert (K : forall x y, x < y -> Rabs (step ts y - step ts x) <= 67 / 10000 * Rabs (y - x)).
  { intros x y L. destruct (MVT_cor2 (step ts) (slope ts) x y L (fun c _ => step_deriv ts c)) as (c & E & _).
    rewrite E, Rabs_mult. apply Rmult_le_compat_r; [apply Rabs_pos|]. now apply slope_bound. }
  destruct (Rtotal_order a b) as [L|[->|L]].
  - rewrite (Rabs_minus_sym (step ts a)), (Rabs_minus_sym a). auto.
  - unfold Rminus. rewrite !Rplus_opp_r, Rabs_R0. lra.
  - auto.
Qed.

Lemma step_range ts phi : - (PI / 2) - PI < step ts phi < PI / 2 + PI.
Proof. unfold step. assert (B := atan_bound (ts * con phi)). lra. Qed.

Lemma refine_S n ts phi dphi : refine (S n) ts phi dphi =
  if Rlt_dec (1 / 1000000000) (Rabs dphi)
  then bind (refine n ts (step ts phi) (step ts phi - phi)) (fun r => Some (fst r, S (snd r)))
  else Some (phi, O).
Proof.
  cbn [refine]. destruct (Rlt_dec _ _); auto. rewrite con_of_some. cbn [bind]. fold (step ts phi).
  replace (phi + (step ts phi - phi)) with (step ts phi) by ring. reflexivity.
Qed.

(** The loop ends by its condition before its limit, close to any fixed point. *)
Lemma refine_stops n : forall ts phi dphi prev, 0 < ts -> phi = step ts prev -> dphi = phi - prev ->
  Rabs dphi * (67 / 10000) ^ n <= 1 / 1000000000 ->
  exists r k, refine (S n) ts phi dphi = Some (r, k) /\ (k <= n)%nat /\
    exists q, r = step ts q /\ Rabs (r - q) <= 1 / 1000000000.
Proof.
  induction n as [|n IH]; intros ts phi dphi prev Ht Hp Hd L; rewrite refine_S.
  - destruct (Rlt_dec _ _) as [H|H]; [cbn in L; lra|]. exists phi, 0%nat. split; auto. split; auto. exists prev. subst. split; auto. lra.
  - destruct (Rlt_dec _ _) as [H|H].
    + destruct (IH ts (step ts phi) (step ts phi - phi) phi Ht eq_refl eq_refl) as (r & k & E & Lk & X).
      { assert (C := step_contract ts phi prev Ht). rewrite <- Hp in C. rewrite <- Hd in C.
        assert (P : 0 < (67 / 10000) ^ n) by (apply pow_lt; lra). cbn [pow] in L. set (e := (67 / 10000) ^ n) in *. nra. }
      rewrite E. cbn [bind fst snd]. exists r, (S k). split; auto. split; [lia|]. exact X.
    + exists phi, 0%nat. split; auto. split; [lia|]. exists prev. subst. split; auto. lra.
Qed.

Lemma refine_ends ts : 0 < ts -> let phi := PI / 2 - 2 * atan ts in
  exists r k, refine 15 ts phi 1 = Some (r, k) /\ (k <= 6)%nat /\ exists q, r = step ts q /\ Rabs (r - q) <= 1 / 1000000000.
Proof.
  intros Ht phi. change 15%nat with (S 14). rewrite refine_S.
  destruct (Rlt_dec _ _) as [_|H]; [|exfalso; rewrite Rabs_R1 in H; lra].
  assert (M : forall n m ts phi d r k, refine n ts phi d = Some (r, k) -> (k < n)%nat -> (n <= m)%nat -> refine m ts phi d = Some (r, k)).
  { clear. induction n as [|n IH]; intros m ts phi d r k E L Lm; [lia|]. destruct m as [|m]; [lia|]. rewrite refine_S in *.
    destruct (Rlt_dec _ _); auto. destruct (refine n ts (step ts phi) (step ts phi - phi)) as [[r' k']|] eqn:E'; [|discriminate].
    cbn [bind fst snd] in E. injection E as <- <-. rewrite (IH m _ _ _ _ _ E') by lia. reflexivity. }
  destruct (refine_stops 5 ts (step ts phi) (step ts phi - phi) phi Ht eq_refl eq_refl) as (r & k & E & Lk & X).
  { assert (B1 := atan_bound ts). assert (B2 := atan_bound (ts * con phi)).
    assert (P1 : 0 < atan ts). { rewrite <- atan_0. now apply atan_increasing. }
    assert (P2 : 0 < atan (ts * con phi)). { rewrite <- atan_0. apply atan_increasing. apply Rmult_lt_0_compat; auto using con_pos. }
    assert (Rabs (step ts phi - phi) < 4).
    { assert (Ep : phi = PI / 2 - 2 * atan ts) by reflexivity. unfold step. assert (Q := PI_4). apply Rabs_def1; lra. }
    assert (0 <= Rabs (step ts phi - phi)) by apply Rabs_pos. cbn [pow]. lra. }
  exists r, (S k). rewrite (M _ 14%nat _ _ _ _ _ E) by lia. cbn. split; auto. split; [lia|auto].
Qed.

(** * Forward *)
Lemma tan_half phi : - (PI / 2) < phi < PI / 2 ->
  tan_of (1 / 2 * (PI * (1 / 2) - phi)) = Some (tan (1 / 2 * (PI * (1 / 2) - phi))) /\ 0 < tan (1 / 2 * (PI * (1 / 2) - phi)).
Proof.
  intros H. assert (P := PI_RGT_0). unfold tan_of.
  assert (0 < cos (1 / 2 * (PI * (1 / 2) - phi))) by (apply cos_gt_0; lra).
  destruct (Req_EM_T _ _); [lra|]. split; auto. apply tan_gt_0; lra.
Qed.

Definition clamp (x : R) : R := Rmin (895 / 10) (Rmax x (- (895 / 10))).
Lemma clamp_range x : - (895 / 10) <= clamp x <= 895 / 10.
Proof. unfold clamp, Rmin, Rmax. repeat destruct (Rle_dec _ _); lra. Qed.
Lemma clamp_id x : - (895 / 10) <= x <= 895 / 10 -> clamp x = x.
Proof. intros H. unfold clamp, Rmin, Rmax. repeat destruct (Rle_dec _ _); lra. Qed.

Lemma rad_range x : - (895 / 10) <= x <= 895 / 10 -> - (PI / 2) < x * PI / 180 < PI / 2.
Proof. intros H. assert (P := PI_RGT_0). split; nra. Qed.

Definition ts_of (phi : R) : R := tan (1 / 2 * (PI * (1 / 2) - phi)) / con phi.
Lemma ts_pos phi : - (PI / 2) < phi < PI / 2 -> 0 < ts_of phi.
Proof. intros H. apply Rdiv_lt_0_compat; [apply tan_half; auto|apply con_pos]. Qed.

Lemma raw_forward_at p : raw_forward p =
  Some (XYZ (r_major * g_lon p * PI / 180) (- r_major * ln (ts_of (clamp (g_lat p) * PI / 180))) (g_ele p)).
Proof.
  unfold raw_forward. fold (clamp (g_lat p)). set (phi := clamp (g_lat p) * PI / 180).
  assert (H : - (PI / 2) < phi < PI / 2) by (apply rad_range, clamp_range).
  rewrite con_of_some. cbn [bind]. destruct (tan_half phi H) as [E _]. rewrite E. cbn [bind].
  unfold quot. destruct (Req_EM_T _ _) as [C|]; [exfalso; assert (X := con_pos phi); lra|]. cbn [bind]. fold (ts_of phi).
  unfold log_of. destruct (Rlt_dec _ _) as [|C]; [reflexivity|]. exfalso. apply C, ts_pos; auto.
Qed.

Lemma step_fixed phi : - (PI / 2) < phi < PI / 2 -> step (ts_of phi) phi = phi.
Proof.
  intros H. unfold step, ts_of. assert (X := con_pos phi). assert (P := PI_RGT_0).
  replace (tan (1 / 2 * (PI * (1 / 2) - phi)) / con phi * con phi) with (tan (1 / 2 * (PI * (1 / 2) - phi))) by (field; lra).
  rewrite atan_tan by lra. field.
Qed.

Lemma reverse_steps_at p : exists r k, raw_reverse_steps p =
  Some (GPS (180 / PI * r) (180 / PI * x_x p / r_major) (x_z p), k) /\ (k <= 6)%nat /\
  exists q, r = step (exp (- x_y p / r_major)) q /\ Rabs (r - q) <= 1 / 1000000000.
Proof.
  unfold raw_reverse_steps. cbv zeta. destruct (refine_ends (exp (- x_y p / r_major)) (exp_pos _)) as (r & k & E & L & X).
  exists r, k. cbv zeta in E. rewrite E. cbn [bind fst snd]. auto.
Qed.

Lemma near_fixed ts phi r q : 0 < ts -> step ts phi = phi -> r = step ts q -> Rabs (r - q) <= 1 / 1000000000 ->
  Rabs (r - phi) <= 675 / 100000000000000.
Proof.
  intros Ht F E L. assert (C := step_contract ts q phi Ht). rewrite F, <- E in C.
  assert (T : Rabs (q - phi) <= Rabs (r - q) + Rabs (r - phi)).
  { replace (q - phi) with ((r - phi) - (r - q)) by ring. unfold Rminus at 1. eapply Rle_trans; [apply Rabs_triang|]. rewrite Rabs_Ropp. lra. }
  assert (0 <= Rabs (r - phi)) by apply Rabs_pos. lra.
Qed.
