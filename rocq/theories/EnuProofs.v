(** Proofs about the geocentric and the local Cartesian projector. *)
From Coq Require Import Reals Lra.
From Verif Require Import ProjectionModel EnuModel EnuSpec.
Local Open Scope R_scope.

Lemma f_bounds : 33 / 10000 < wgs_f < 34 / 10000.
Proof. unfold wgs_f. split; lra. Qed.
Lemma e2m_e2 : wgs_e2m = 1 - wgs_e2.
Proof. unfold wgs_e2m, wgs_e2. ring. Qed.
Lemma e2_bounds : 0 < wgs_e2 < 1 / 100.
Proof. assert (B := f_bounds). unfold wgs_e2. split; nra. Qed.

Lemma sc x : cos x * cos x = 1 - sin x * sin x.
Proof. assert (T := sin2_cos2 x). unfold Rsqr in T. lra. Qed.

Definition w2 (phi : R) : R := 1 - wgs_e2 * (sin phi * sin phi).
Lemma w2_pos phi : 0 < w2 phi.
Proof.
  unfold w2. assert (B := e2_bounds). assert (S := sc phi). assert (0 <= cos phi * cos phi) by apply Rle_0_sqr.
  assert (0 <= sin phi * sin phi) by apply Rle_0_sqr. nra.
Qed.
Definition w (phi : R) : R := sqrt (w2 phi).
Lemma w_pos phi : 0 < w phi.
Proof. apply sqrt_lt_R0, w2_pos. Qed.
Lemma w_sqr phi : w phi * w phi = w2 phi.
Proof. apply sqrt_sqrt. left. apply w2_pos. Qed.
Definition nn (phi : R) : R := wgs_a / w phi.
(** Radius of curvature of the meridian. *)
Definition mm (phi : R) : R := wgs_a * (1 - wgs_e2) / (w phi * w phi * w phi).

Lemma geocentric_at lat lon ele : -90 <= lat <= 90 -> geocentric (GPS lat lon ele) =
  Some (XYZ ((nn (rad lat) + ele) * cos (rad lat) * cos (rad lon)) ((nn (rad lat) + ele) * cos (rad lat) * sin (rad lon))
            ((wgs_e2m * nn (rad lat) + ele) * sin (rad lat))).
Proof.
  intros H. unfold geocentric. cbn [g_lat g_lon g_ele]. destruct (Rle_dec _ _) as [|N]; [reflexivity|].
  exfalso. apply N, Rabs_le. lra.
Qed.
Lemma geocentric_range p x : geocentric p = Some x -> -90 <= g_lat p <= 90.
Proof.
  unfold geocentric. destruct (Rle_dec _ _) as [H|]; [|discriminate]. intros _. revert H. unfold Rabs. destruct (Rcase_abs _); lra.
Qed.

(** * The frame *)
Definition frame_ok (f : frame) : Prop :=
  f_cphi f * f_cphi f = 1 - f_sphi f * f_sphi f /\ f_clam f * f_clam f = 1 - f_slam f * f_slam f.
Lemma frame_at_ok o f : frame_at o = Some f -> frame_ok f /\ geocentric o = Some (f_0 f).
Proof.
  unfold frame_at. destruct (geocentric o) as [x|]; [|discriminate]. cbn. intros [= <-]. split; auto. split; apply sc.
Qed.

Lemma to_local_dist f p q : frame_ok f -> dist2 (to_local f p) (to_local f q) = dist2 p q.
Proof.
  intros [H1 H2]. unfold dist2, to_local. cbn [x_x x_y x_z]. ring [H1 H2].
Qed.
Lemma to_of f q : frame_ok f -> to_local f (of_local f q) = q.
Proof.
  intros [H1 H2]. destruct q as [x y z]. unfold to_local, of_local. cbn [x_x x_y x_z]. f_equal; ring [H1 H2].
Qed.
Lemma of_to f p : frame_ok f -> of_local f (to_local f p) = p.
Proof.
  intros [H1 H2]. destruct p as [x y z]. unfold to_local, of_local. cbn [x_x x_y x_z]. f_equal; ring [H1 H2].
Qed.

(** * Derivatives *)
Lemma nn_deriv phi : derivable_pt_lim nn phi (wgs_a * wgs_e2 * sin phi * cos phi / (w phi * w phi * w phi)).
Proof.
  assert (P := w2_pos phi). assert (W := w_pos phi). assert (S := w_sqr phi).
  assert (D0 : derivable_pt_lim (fun x => sin x * sin x) phi (cos phi * sin phi + sin phi * cos phi)).
  { apply (derivable_pt_lim_mult sin sin); apply derivable_pt_lim_sin. }
  assert (D1 : derivable_pt_lim w2 phi (0 - wgs_e2 * (cos phi * sin phi + sin phi * cos phi))).
  { apply (derivable_pt_lim_minus (fct_cte 1) (fun x => wgs_e2 * (sin x * sin x))); [apply derivable_pt_lim_const|].
    apply derivable_pt_lim_scal, D0. }
  assert (D2 : derivable_pt_lim w phi (/ (2 * sqrt (w2 phi)) * (0 - wgs_e2 * (cos phi * sin phi + sin phi * cos phi)))).
  { apply (derivable_pt_lim_comp w2 sqrt); [exact D1|]. now apply derivable_pt_lim_sqrt. }
  assert (D3 := derivable_pt_lim_div (fct_cte wgs_a) w phi _ _ (derivable_pt_lim_const wgs_a phi) D2 (Rgt_not_eq _ _ W)).
  match type of D3 with derivable_pt_lim _ _ ?v => replace (wgs_a * wgs_e2 * sin phi * cos phi / (w phi * w phi * w phi)) with v; [exact D3|] end.
  fold (w phi). unfold fct_cte, Rsqr. field. lra.
Qed.

Lemma parallel_deriv h phi : derivable_pt_lim (fun x => (nn x + h) * cos x) phi (- ((mm phi + h) * sin phi)).
Proof.
  assert (W := w_pos phi). assert (S := w_sqr phi). unfold w2 in S.
  assert (D1 : derivable_pt_lim (fun x => nn x + h) phi (wgs_a * wgs_e2 * sin phi * cos phi / (w phi * w phi * w phi) + 0)).
  { apply (derivable_pt_lim_plus nn (fct_cte h)); [apply nn_deriv|apply derivable_pt_lim_const]. }
  assert (D2 := derivable_pt_lim_mult _ cos phi _ _ D1 (derivable_pt_lim_cos phi)).
  match type of D2 with derivable_pt_lim _ _ ?v => replace (- ((mm phi + h) * sin phi)) with v; [exact D2|] end.
  unfold nn, mm. cbv beta. assert (C := sc phi).
  assert (W3 : 0 < w phi * w phi * w phi) by (repeat apply Rmult_lt_0_compat; auto).
  apply Rmult_eq_reg_r with (w phi * w phi * w phi); [|lra].
  transitivity (wgs_a * wgs_e2 * sin phi * (cos phi * cos phi) - (wgs_a * (w phi * w phi) + h * (w phi * w phi * w phi)) * sin phi).
  - field. lra.
  - transitivity (- (wgs_a * (1 - wgs_e2) + h * (w phi * w phi * w phi)) * sin phi); [|field; lra].
    rewrite S, C. ring.
Qed.
Lemma height_deriv h phi : derivable_pt_lim (fun x => (wgs_e2m * nn x + h) * sin x) phi ((mm phi + h) * cos phi).
Proof.
  assert (W := w_pos phi). assert (S := w_sqr phi). unfold w2 in S.
  assert (D1 : derivable_pt_lim (fun x => wgs_e2m * nn x + h) phi (wgs_e2m * (wgs_a * wgs_e2 * sin phi * cos phi / (w phi * w phi * w phi)) + 0)).
  { apply (derivable_pt_lim_plus (fun x => wgs_e2m * nn x) (fct_cte h)); [apply derivable_pt_lim_scal, nn_deriv|apply derivable_pt_lim_const]. }
  assert (D2 := derivable_pt_lim_mult _ sin phi _ _ D1 (derivable_pt_lim_sin phi)).
  match type of D2 with derivable_pt_lim _ _ ?v => replace ((mm phi + h) * cos phi) with v; [exact D2|] end.
  unfold nn, mm. cbv beta. rewrite e2m_e2. assert (C := sc phi).
  assert (W3 : 0 < w phi * w phi * w phi) by (repeat apply Rmult_lt_0_compat; auto).
  apply Rmult_eq_reg_r with (w phi * w phi * w phi); [|lra].
  transitivity (((1 - wgs_e2) * (wgs_a * wgs_e2 * (sin phi * sin phi) + wgs_a * (w phi * w phi)) + h * (w phi * w phi * w phi)) * cos phi).
  - field. lra.
  - transitivity ((wgs_a * (1 - wgs_e2) + h * (w phi * w phi * w phi)) * cos phi); [|field; lra].
    rewrite S at 1. ring.
Qed.
Lemma rad_deriv x : derivable_pt_lim rad x (PI / 180).
Proof.
  intros eps He. exists (mkposreal 1 Rlt_0_1). intros h Hh _. unfold rad.
  replace (((x + h) * PI / 180 - x * PI / 180) / h - PI / 180) with 0 by (field; auto). now rewrite Rabs_R0.
Qed.
(** Derivatives are local. *)
Lemma deriv_local f g x l r : 0 < r -> (forall y, Rabs (y - x) < r -> f y = g y) -> derivable_pt_lim g x l -> derivable_pt_lim f x l.
Proof.
  intros Hr E D eps He. destruct (D eps He) as [d Hd].
  assert (0 < Rmin d r) as Hm by (apply Rmin_pos; auto; apply cond_pos).
  exists (mkposreal _ Hm). intros h Hh Hl. cbn in Hl.
  assert (L1 : Rabs h < d) by (eapply Rlt_le_trans; [exact Hl|apply Rmin_l]).
  assert (L2 : Rabs h < r) by (eapply Rlt_le_trans; [exact Hl|apply Rmin_r]).
  rewrite !E.
  - now apply Hd.
  - unfold Rminus. now rewrite Rplus_opp_r, Rabs_R0.
  - replace (x + h - x) with h by ring. auto.
Qed.
