(** Proofs about the matching of objects. *)
From Coq Require Import List Bool Arith Reals Lia Lra Permutation.
From Verif Require Import ArcModel ArcSpec ArcProofs ArcPlane ArcProps MatchingModel MatchingSpec.
Import ListNotations.
Local Open Scope R_scope.

(** * Angles *)

Lemma truncate_spec x : exists k, truncate x = IZR k /\ (0 <= x -> IZR k <= x < IZR k + 1) /\ (x < 0 -> IZR k - 1 < x <= IZR k).
Proof.
  unfold truncate. destruct (Rle_dec 0 x) as [H|H].
  - exists (Int_part x). destruct (base_Int_part x). split; [reflexivity|]. split; intros; lra.
  - exists (- Int_part (- x))%Z. destruct (base_Int_part (- x)). rewrite opp_IZR. split; [reflexivity|]. split; intros; lra.
Qed.

Lemma positive_mod_spec x y : 0 < y -> 0 < positive_mod x y <= y /\ exists k, positive_mod x y = x + IZR k * y.
Proof.
  intros Hy. unfold positive_mod, float_mod.
  destruct (truncate_spec (x / y)) as (k & -> & Hp & Hn).
  assert (E : x = x / y * y) by (field; lra).
  rewrite (Rabs_right y) by lra.
  destruct (Rlt_dec 0 (x - IZR k * y)) as [H|H].
  - split.
    + split; [exact H|]. destruct (Rle_dec 0 (x / y)) as [P|P].
      * destruct (Hp P). nra.
      * destruct (Hn ltac:(lra)). nra.
    + exists (- k)%Z. rewrite opp_IZR. ring.
  - split.
    + split; [|lra]. destruct (Rle_dec 0 (x / y)) as [P|P].
      * destruct (Hp P). nra.
      * destruct (Hn ltac:(lra)). nra.
    + exists (1 - k)%Z. rewrite minus_IZR. ring.
Qed.

Lemma normalize_spec x : - PI < normalize_angle x <= PI /\ same_angle (normalize_angle x) x.
Proof.
  assert (P := PI_RGT_0). unfold normalize_angle, same_angle.
  destruct (positive_mod_spec (x + PI) (2 * PI)) as (H & k & E); [lra|].
  split; [lra|]. exists k. lra.
Qed.

Lemma same_angle_cos a b : same_angle a b -> cos a = cos b /\ sin a = sin b.
Proof.
  intros (k & ->).
  assert (G : forall n, cos (b + INR n * (2 * PI)) = cos b /\ sin (b + INR n * (2 * PI)) = sin b).
  { intros n. replace (b + INR n * (2 * PI)) with (b + 2 * INR n * PI) by ring.
    split; [apply cos_period|apply sin_period]. }
  destruct (Z_le_dec 0 k) as [H|H].
  - rewrite <- (Z2Nat.id k H), <- INR_IZR_INZ. apply G.
  - assert (K : IZR k = - INR (Z.to_nat (- k))).
    { rewrite INR_IZR_INZ, Z2Nat.id by lia. rewrite opp_IZR. ring. }
    rewrite K. set (n := Z.to_nat (- k)).
    rewrite <- (cos_period (b + - INR n * (2 * PI)) n), <- (sin_period (b + - INR n * (2 * PI)) n).
    replace (b + - INR n * (2 * PI) + 2 * INR n * PI) with b by ring. auto.
Qed.

Lemma atan2_spec x y : x <> 0 \/ y <> 0 ->
  - PI < atan2 y x <= PI /\ exists n, 0 < n /\ x = n * cos (atan2 y x) /\ y = n * sin (atan2 y x).
Proof.
  intros N. assert (P := PI_RGT_0). unfold atan2.
  assert (S : forall t, 0 < sqrt (1 + t ^ 2)).
  { intros t. apply sqrt_lt_R0. nra. }
  assert (CA : forall t, cos (atan t) = 1 / sqrt (1 + t ^ 2)).
  { intros t. rewrite cos_atan. unfold Rsqr. do 3 f_equal. ring. }
  assert (SA : forall t, sin (atan t) = t / sqrt (1 + t ^ 2)).
  { intros t. rewrite sin_atan. unfold Rsqr. do 3 f_equal. ring. }
  assert (B := fun t => atan_bound t).
  destruct (Rlt_dec 0 x) as [H|H].
  - split; [specialize (B (y / x)); lra|]. exists (x * sqrt (1 + (y / x) ^ 2)).
    specialize (S (y / x)). rewrite CA, SA. split; [now apply Rmult_lt_0_compat|]. split; field; lra.
  - destruct (Rlt_dec x 0) as [H'|H'].
    + assert (Q : 0 < - x * sqrt (1 + (y / x) ^ 2)) by (apply Rmult_lt_0_compat; [lra|apply S]).
      specialize (S (y / x)). assert (By := B (y / x)).
      destruct (Rle_dec 0 y) as [Y|Y].
      * split.
        { split; [lra|]. assert (atan (y / x) <= 0); [|lra].
          destruct (Req_EM_T y 0) as [->|Ny]; [unfold Rdiv; rewrite Rmult_0_l, atan_0; lra|].
          left. rewrite <- atan_0. apply atan_increasing.
          apply Ropp_lt_cancel. rewrite Ropp_0. replace (- (y / x)) with (y / - x) by (field; lra).
          apply Rdiv_lt_0_compat; lra. }
        exists (- x * sqrt (1 + (y / x) ^ 2)). rewrite neg_cos, neg_sin, CA, SA. split; [exact Q|]. split; field; lra.
      * split.
        { split; [|lra]. assert (0 < atan (y / x)); [|lra]. rewrite <- atan_0. apply atan_increasing.
          replace (y / x) with (- y / - x) by (field; lra). apply Rdiv_lt_0_compat; lra. }
        exists (- x * sqrt (1 + (y / x) ^ 2)). rewrite cos_minus, sin_minus, cos_PI, sin_PI, CA, SA.
        split; [exact Q|]. split; field; lra.
    + assert (x = 0) by lra. subst x. destruct (Rlt_dec 0 y) as [Y|Y].
      * split; [lra|]. exists y. rewrite cos_PI2, sin_PI2. repeat split; lra.
      * destruct (Rlt_dec y 0) as [Y'|Y']; [|exfalso; destruct N; lra].
        split; [lra|]. exists (- y). rewrite cos_neg, sin_neg, cos_PI2, sin_PI2. repeat split; lra.
Qed.

Lemma yaw_spec o : o_cos o * o_cos o + o_sin o * o_sin o = 1 -> cos (yaw_of o) = o_cos o /\ sin (yaw_of o) = o_sin o.
Proof.
  intros U. unfold yaw_of.
  destruct (atan2_spec (o_cos o) (o_sin o)) as (_ & n & Hn & Hc & Hs).
  { destruct (Req_EM_T (o_cos o) 0) as [E|E]; [right|left; exact E]. intros E'. rewrite E, E' in U. lra. }
  set (a := atan2 (o_sin o) (o_cos o)) in *.
  assert (T := sin2_cos2 a). unfold Rsqr in T.
  assert (Q : n * n = 1). { rewrite Hc, Hs in U. nra. }
  assert (n = 1) by nra. subst n. lra.
Qed.

Lemma yaw_difference o d : o_cos o * o_cos o + o_sin o * o_sin o = 1 -> fst d <> 0 \/ snd d <> 0 ->
  turned (o_cos o) (o_sin o) d
    (angle_difference (normalize_angle (atan2 (snd d) (fst d))) (normalize_angle (yaw_of o))).
Proof.
  intros U N. unfold turned, angle_difference.
  set (t := normalize_angle (atan2 (snd d) (fst d))). set (s := normalize_angle (yaw_of o)).
  destruct (normalize_spec (t - s)) as (B & A). split; [exact B|].
  apply same_angle_cos in A. destruct A as [-> ->].
  destruct (atan2_spec (fst d) (snd d) N) as (_ & n & Hn & Hx & Hy).
  destruct (same_angle_cos _ _ (proj2 (normalize_spec (atan2 (snd d) (fst d))))) as [Ct St]. fold t in Ct, St.
  destruct (same_angle_cos _ _ (proj2 (normalize_spec (yaw_of o)))) as [Cs Ss]. fold s in Cs, Ss.
  destruct (yaw_spec o U) as [Co So]. rewrite Co in Cs. rewrite So in Ss.
  exists n. split; [exact Hn|]. rewrite cos_minus, sin_minus, Cs, Ss, Ct, St.
  clear Ct St. subst t. clearbody s. set (A := atan2 (snd d) (fst d)) in *. clearbody A.
  set (X := cos A) in *. set (Y := sin A) in *. rewrite Hx, Hy.
  split.
  - transitivity (n * X * (o_cos o * o_cos o + o_sin o * o_sin o)); [rewrite U; ring|ring].
  - transitivity (n * Y * (o_cos o * o_cos o + o_sin o * o_sin o)); [rewrite U|]; ring.
Qed.

(** The angle is unique. *)
Lemma turned_unique c s d a b : c * c + s * s = 1 -> turned c s d a -> turned c s d b -> a = b.
Proof.
  intros U [Ha (n & Hn & X & Y)] [Hb (m & Hm & X' & Y')].
  assert (Ta := sin2_cos2 a). assert (Tb := sin2_cos2 b). unfold Rsqr in Ta, Tb.
  set (ca := cos a) in *. set (sa := sin a) in *. set (cb := cos b) in *. set (sb := sin b) in *.
  assert (Xr : n * ca = m * cb).
  { transitivity (c * fst d + s * snd d).
    - rewrite X, Y. transitivity (n * ca * (c * c + s * s)); [rewrite U|]; ring.
    - rewrite X', Y'. transitivity (m * cb * (c * c + s * s)); [|rewrite U]; ring. }
  assert (Yr : n * sa = m * sb).
  { transitivity (c * snd d - s * fst d).
    - rewrite X, Y. transitivity (n * sa * (c * c + s * s)); [rewrite U|]; ring.
    - rewrite X', Y'. transitivity (m * sb * (c * c + s * s)); [|rewrite U]; ring. }
  assert (Q : n * n = m * m).
  { transitivity ((n * ca) * (n * ca) + (n * sa) * (n * sa)); [nra|]. rewrite Xr, Yr. nra. }
  assert (n = m) by nra. subst m.
  assert (C : ca = cb) by (apply Rmult_eq_reg_l with n; lra).
  assert (S : sa = sb) by (apply Rmult_eq_reg_l with n; lra).
  assert (D : cos (a - b) = 1). { rewrite cos_minus. fold ca sa cb sb. rewrite C, S. lra. }
  assert (D' : sin (a - b) = 0). { rewrite sin_minus. fold ca sa cb sb. rewrite C, S. ring. }
  assert (P := PI_RGT_0).
  destruct (Rtotal_order (a - b) 0) as [L|[E|G]]; [|lra|].
  - destruct (Rle_lt_dec (a - b) (- PI)) as [L1|L1].
    + destruct (Req_EM_T (a - b) (- PI)) as [E|NE].
      * rewrite E, cos_neg, cos_PI in D. lra.
      * assert (Z : 0 < sin (a - b + 2 * PI)) by (apply sin_gt_0; lra).
        replace (a - b + 2 * PI) with (a - b + 2 * INR 1 * PI) in Z by (cbn; ring). rewrite sin_period in Z. lra.
    + assert (Z : sin (a - b) < 0) by (apply sin_lt_0_var; lra). lra.
  - destruct (Rle_lt_dec PI (a - b)) as [L1|L1].
    + destruct (Req_EM_T (a - b) PI) as [E|NE].
      * rewrite E, cos_PI in D. lra.
      * assert (Z : sin (a - b) < 0) by (apply sin_lt_0; lra). lra.
    + assert (Z : 0 < sin (a - b)) by (apply sin_gt_0; lra). lra.
Qed.

(** Opposite directions: the angles differ by 180 degrees. *)
Lemma turned_opposite c s d a b : c * c + s * s = 1 -> turned c s d a -> turned c s (- fst d, - snd d) b ->
  Rabs a + Rabs b = PI.
Proof.
  intros U Ha Hb. assert (P := PI_RGT_0).
  assert (T : turned c s (- fst d, - snd d) (if Rlt_dec 0 a then a - PI else a + PI)).
  { destruct Ha as [Ba (n & Hn & X & Y)]. destruct (Rlt_dec 0 a).
    - split; [lra|]. exists n. split; [exact Hn|]. cbn [fst snd]. rewrite cos_minus, sin_minus, cos_PI, sin_PI, X, Y.
      split; ring.
    - split; [lra|]. exists n. split; [exact Hn|]. cbn [fst snd]. rewrite neg_cos, neg_sin, X, Y. split; ring. }
  rewrite (turned_unique _ _ _ _ _ U Hb T). destruct Ha as [Ba _].
  destruct (Rlt_dec 0 a).
  - rewrite (Rabs_right a), Rabs_left1 by lra. ring.
  - rewrite (Rabs_left1 a), Rabs_right by lra. ring.
Qed.

(** * Position *)

Lemma cov_form_spec o d : cov_det o <> 0 -> inverse_form (o_xx o) (o_xy o) (o_yx o) (o_yy o) d (cov_form o d).
Proof.
  intros N. unfold inverse_form, cov_form.
  exists (/ cov_det o * o_yy o * fst d + - (/ cov_det o * o_xy o) * snd d),
         (- (/ cov_det o * o_yx o) * fst d + / cov_det o * o_xx o * snd d).
  unfold cov_det in *. repeat split; field; exact N.
Qed.

Lemma inverse_form_unique xx xy yx yy d m m' : xx * yy - xy * yx <> 0 ->
  inverse_form xx xy yx yy d m -> inverse_form xx xy yx yy d m' -> m = m'.
Proof.
  intros N (u & v & E1 & E2 & ->) (u' & v' & E1' & E2' & ->).
  assert (U : (xx * yy - xy * yx) * (u - u') = 0) by (transitivity (yy * (xx * u + xy * v - (xx * u' + xy * v')) - xy * (yx * u + yy * v - (yx * u' + yy * v'))); [ring|rewrite E1, E2, E1', E2'; ring]).
  assert (V : (xx * yy - xy * yx) * (v - v') = 0) by (transitivity (xx * (yx * u + yy * v - (yx * u' + yy * v')) - yx * (xx * u + xy * v - (xx * u' + xy * v'))); [ring|rewrite E1, E2, E1', E2'; ring]).
  apply Rmult_integral in U. apply Rmult_integral in V.
  assert (u = u') by (destruct U; lra). assert (v = v') by (destruct V; lra). now subst.
Qed.

(** For a positive definite matrix the form is positive. *)
Lemma inverse_form_pos xx xy yy d m : 0 < xx -> 0 < xx * yy - xy * xy ->
  inverse_form xx xy xy yy d m -> 0 <= m /\ (m = 0 <-> fst d = 0 /\ snd d = 0).
Proof.
  intros Hx Hd (u & v & E1 & E2 & ->).
  assert (F : fst d * u + snd d * v = xx * u * u + 2 * xy * u * v + yy * v * v) by (rewrite <- E1, <- E2; ring).
  assert (K : xx * (xx * u * u + 2 * xy * u * v + yy * v * v) = (xx * u + xy * v) ^ 2 + (xx * yy - xy * xy) * v ^ 2) by ring.
  assert (A := pow2_ge_0 (xx * u + xy * v)). assert (B := pow2_ge_0 v).
  assert (C : 0 <= (xx * yy - xy * xy) * v ^ 2) by (apply Rmult_le_pos; lra).
  split.
  - rewrite F. apply Rmult_le_reg_l with xx; [exact Hx|]. rewrite K. lra.
  - split.
    + intros Z. rewrite F in Z. rewrite Z, Rmult_0_r in K.
      assert (V : (xx * yy - xy * xy) * v ^ 2 = 0) by lra.
      apply Rmult_integral in V. destruct V as [V|V]; [lra|].
      assert (v = 0) by nra. subst v. assert (W : (xx * u + xy * 0) ^ 2 = 0) by lra.
      assert (xx * u = 0) by nra. apply Rmult_integral in H. destruct H; [lra|]. subst u. lra.
    + intros [-> ->]. ring.
Qed.

Lemma mahalanobis_throws closest center o : Rabs (cov_det o) < 10 / 10 ^ 9 -> mahalanobis closest center o = Thrown.
Proof. intros H. unfold mahalanobis. destruct (cov_zero o); [reflexivity|]. destruct (Rlt_dec _ _); [reflexivity|contradiction]. Qed.

Lemma cov_zero_det o : cov_zero o = true -> Rabs (cov_det o) < 10 / 10 ^ 9.
Proof.
  unfold cov_zero, cov_det. rewrite forallb_forall. intros H.
  assert (B : forall x, In x [o_xx o; o_xy o; o_yx o; o_yy o] -> Rabs x <= 1 / 10 ^ 12).
  { intros x Hx. specialize (H x Hx). destruct (Rle_dec _ _); [assumption|discriminate]. }
  assert (M : forall x y, Rabs x <= 1 / 10 ^ 12 -> Rabs y <= 1 / 10 ^ 12 -> Rabs (x * y) <= 1 / 10 ^ 12).
  { intros x y X Y. rewrite Rabs_mult. assert (Px := Rabs_pos x). assert (Py := Rabs_pos y).
    assert (1 / 10 ^ 12 <= 1) by lra. nra. }
  assert (A1 := M _ _ (B (o_xx o) ltac:(cbn; tauto)) (B (o_yy o) ltac:(cbn; tauto))).
  assert (A2 := M _ _ (B (o_xy o) ltac:(cbn; tauto)) (B (o_yx o) ltac:(cbn; tauto))).
  unfold Rminus. eapply Rle_lt_trans; [apply Rabs_triang|]. rewrite Rabs_Ropp. lra.
Qed.

Lemma mahalanobis_spec closest center o :
  closest_ok closest -> (2 <= length center)%nat -> NoDup (removelast center) ->
  10 / 10 ^ 9 <= Rabs (cov_det o) ->
  exists len foot at_ before after s1 s2 s3,
    (at_length euclid between center len foot /\ nearest_foot center (o_position o) foot)
    /\ (at_length euclid between center s1 at_ /\ len - / 100000000 < s1 <= len)
    /\ (at_length euclid between center s2 before /\ Rmax (len - 1 / 2) 0 - / 100000000 < s2 <= Rmax (len - 1 / 2) 0)
    /\ (at_length euclid between center s3 after
        /\ Rmin (way_length euclid center) (len + 1 / 2) - / 100000000 < s3
           <= Rmin (way_length euclid center) (len + 1 / 2))
    /\ mahalanobis closest center o
       = Ok (o_kappa o * o_kappa o
             * (angle_difference (normalize_angle (atan2 (snd (psub after before)) (fst (psub after before))))
                                 (normalize_angle (yaw_of o))) ^ 2
             + cov_form o (psub (o_position o) at_)).
Proof.
  intros C L N D. unfold mahalanobis.
  destruct (cov_zero o) eqn:Z; [apply cov_zero_det in Z; exfalso; lra|].
  destruct (Rlt_dec _ _) as [X|_]; [exfalso; lra|].
  destruct (C76_to_arc closest center (o_position o) C L N) as (len & dd & foot & E & A & F & _). rewrite E.
  assert (B : 0 <= len <= way_length euclid center).
  { destruct A as (l1 & a & b & l2 & t & -> & Ht & _ & ->).
    assert (Pd : forall p q, 0 <= euclid p q) by (intros; apply sqrt_pos).
    assert (WL : forall l, 0 <= way_length euclid l).
    { intros l. unfold way_length. generalize (combine l (tl l)). intros q. induction q as [|[x y] q IH]; cbn; [lra|].
      specialize (Pd x y). lra. }
    assert (WA : way_length euclid (l1 ++ a :: b :: l2)
                 = way_length euclid (l1 ++ [a]) + euclid a b + way_length euclid (b :: l2)).
    { clear. induction l1 as [|x l1 IH].
      - unfold way_length. cbn. ring.
      - destruct l1 as [|y l1].
        + unfold way_length in *. cbn in *. lra.
        + change ((x :: y :: l1) ++ a :: b :: l2) with (x :: y :: (l1 ++ a :: b :: l2)).
          change ((x :: y :: l1) ++ [a]) with (x :: y :: (l1 ++ [a])).
          unfold way_length in *. cbn [tl combine map fold_right fst snd app] in *. lra. }
    rewrite WA. specialize (Pd a b). assert (W1 := WL (l1 ++ [a])). assert (W2 := WL (b :: l2)). nra. }
  assert (I : forall d, 0 <= d -> exists x s, interpolated_point distance on_way center d = Ok x
             /\ at_length euclid between center s x
             /\ Rmin (way_length euclid center) d - / 100000000 < s <= Rmin (way_length euclid center) d).
  { intros d Hd.
    destruct (C74_interpolated distance on_way center d (proj1 C74_spaces) L) as (x & s & Ei & Ai & Hs & Hle & _).
    specialize (Hle Hd). unfold wanted in *. destruct (Rlt_dec d 0); [lra|].
    assert (WE : way_length distance center = way_length euclid center).
    { unfold way_length. f_equal. apply map_ext. intros. apply distance_eq. }
    rewrite WE in *. exists x, s. split; [exact Ei|]. split.
    - destruct Ai as (l1 & a & b & l2 & t & E1 & Ht & E2 & E3). exists l1, a, b, l2, t. split; [exact E1|].
      split; [exact Ht|]. rewrite <- on_way_eq, <- distance_eq.
      split; [exact E2|]. rewrite E3. f_equal. unfold way_length. f_equal. apply map_ext. intros. apply distance_eq.
    - apply Rabs_def2 in Hs. lra. }
  destruct (I len ltac:(lra)) as (at_ & s1 & E1 & A1 & B1).
  destruct (I (Rmax (len - 1 / 2) 0) (Rmax_r _ _)) as (before & s2 & E2 & A2 & B2).
  destruct (I (len + 1 / 2) ltac:(lra)) as (after & s3 & E3 & A3 & B3).
  rewrite E1, E2, E3. cbv zeta.
  rewrite Rmin_right in B1 by lra.
  assert (M : Rmax (len - 1 / 2) 0 <= way_length euclid center) by (apply Rmax_lub; lra).
  rewrite Rmin_right in B2 by exact M.
  exists len, foot, at_, before, after, s1, s2, s3. do 4 (split; [split; assumption|]).
  apply f_equal. ring.
Qed.

(** * Matches *)

Section matches.
Context {L : Type} (invert : L -> L).

Lemma match_vector_in (sort : list (@match_of L) -> list match_of) pairs : sorts m_distance sort ->
  Permutation (to_match_vector invert sort pairs)
    (flat_map (fun p => [Match (snd p) (fst p); Match (invert (snd p)) (fst p)]) pairs).
Proof. intros S. unfold to_match_vector. symmetry. apply S. Qed.

Lemma prob_loop_ok maha pairs : (forall l, exists m, maha l = Ok m) ->
  exists ms, prob_loop invert maha pairs = Ok ms
    /\ Forall2 (fun m x => pm_lanelet m = snd x /\ pm_distance m = fst x /\ maha (pm_lanelet m) = Ok (pm_maha m))
         ms (flat_map (fun p => [p; (fst p, invert (snd p))]) pairs).
Proof.
  intros H. induction pairs as [|[d l] r (ms & E & F)]; [exists []; split; [reflexivity|constructor]|].
  destruct (H l) as [m1 E1]. destruct (H (invert l)) as [m2 E2].
  cbn [prob_loop]. rewrite E1, E2, E. eexists. split; [reflexivity|].
  cbn [flat_map app fst snd]. constructor; [cbn; auto|]. constructor; [cbn; auto|]. exact F.
Qed.

Lemma prob_loop_throws maha d l pairs : maha l = Thrown -> prob_loop invert maha ((d, l) :: pairs) = Thrown.
Proof. intros E. cbn [prob_loop]. now rewrite E. Qed.
End matches.

Lemma remove_if_filter {A} (p : A -> bool) l : remove_if p l = filter (fun x => negb (p x)) l.
Proof. induction l as [|x l IH]; [reflexivity|]. cbn. rewrite IH. destruct (p x); reflexivity. Qed.

Lemma same_handle_eq a b : same_handle a b = true <-> a = b.
Proof.
  unfold same_handle. rewrite andb_true_iff, Nat.eqb_eq, Bool.eqb_true_iff. destruct a, b; cbn.
  split; [intros [-> ->]; reflexivity|intros E; inversion E; auto].
Qed.

Section container.
Variables (overlaps2 : handle -> handle -> bool) (overlaps3 : handle -> handle -> R -> bool).
Context {G : Type} (search : G -> handle -> list handle).

Definition meets (l x : handle) (height : R) : Prop :=
  (height = 0 -> overlaps2 l x = true) /\ (height <> 0 -> overlaps3 l x height = true).

Lemma conflicting_spec graphs l i height :
  (conflicting_in_graph overlaps2 overlaps3 search graphs l i height = None <-> (length graphs <= i)%nat)
  /\ forall r g, nth_error graphs i = Some g -> conflicting_in_graph overlaps2 overlaps3 search graphs l i height = Some r ->
     forall x, In x r <-> In x (search g l) /\ x <> l /\ meets l x height.
Proof.
  unfold conflicting_in_graph. split.
  - rewrite <- nth_error_None. destruct (nth_error graphs i); split; congruence.
  - intros r g E H x. rewrite E in H. inversion H. subst r. clear H.
    rewrite !remove_if_filter, !filter_In.
    unfold meets. destruct (Req_EM_T height 0) as [Z|Z]; rewrite negb_involutive, negb_true_iff.
    + destruct (same_handle x l) eqn:S.
      * apply same_handle_eq in S. intuition congruence.
      * assert (x <> l) by (intros ->; rewrite (proj2 (same_handle_eq l l) eq_refl) in S; discriminate).
        destruct (overlaps2 l x); intuition congruence.
    + destruct (same_handle x l) eqn:S.
      * apply same_handle_eq in S. intuition congruence.
      * assert (x <> l) by (intros ->; rewrite (proj2 (same_handle_eq l l) eq_refl) in S; discriminate).
        destruct (overlaps3 l x height); intuition congruence.
Qed.
End container.
