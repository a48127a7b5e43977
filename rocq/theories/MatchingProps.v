(** Properties of the matching of objects and of the conflicts in several graphs. *)
From Coq Require Import List Bool Arith Reals Lia Lra Permutation.
From Verif Require Import ArcModel ArcSpec ArcProofs ArcPlane ArcProps MatchingModel MatchingSpec MatchingProofs.
Import ListNotations.
Local Open Scope R_scope.

(** * C88: angles and distance *)

(** Normalized angles are congruent and between -180 (excluded) and 180 degrees. *)
Theorem C88_angles x : - PI < normalize_angle x <= PI /\ same_angle (normalize_angle x) x.
Proof. apply normalize_spec. Qed.
Print Assumptions C88_angles.

(** An object with a position covariance of determinant 1e-8 or more and a centerline
    without repeated points: the distance is made of the angle from the object's heading
    to the direction of the centerline half a metre around the nearest point, and of
    the Mahalanobis distance to the point of the centerline at its length. *)
Theorem C88_distance closest center o :
  closest_ok closest -> (2 <= length center)%nat -> NoDup (removelast center) ->
  o_cos o * o_cos o + o_sin o * o_sin o = 1 ->
  10 / 10 ^ 9 <= Rabs (o_xx o * o_yy o - o_xy o * o_yx o) ->
  exists len foot at_ before after s1 s2 s3 delta m,
    (at_length euclid between center len foot /\ nearest_foot center (o_position o) foot)
    /\ (at_length euclid between center s1 at_ /\ len - / 100000000 < s1 <= len)
    /\ (at_length euclid between center s2 before /\ Rmax (len - 1 / 2) 0 - / 100000000 < s2 <= Rmax (len - 1 / 2) 0)
    /\ (at_length euclid between center s3 after
        /\ Rmin (way_length euclid center) (len + 1 / 2) - / 100000000 < s3
           <= Rmin (way_length euclid center) (len + 1 / 2))
    /\ (before <> after -> turned (o_cos o) (o_sin o) (fst after - fst before, snd after - snd before) delta)
    /\ inverse_form (o_xx o) (o_xy o) (o_yx o) (o_yy o)
         (fst (o_position o) - fst at_, snd (o_position o) - snd at_) m
    /\ mahalanobis closest center o = Ok (o_kappa o ^ 2 * delta ^ 2 + m).
Proof.
  intros C L N U D.
  destruct (mahalanobis_spec closest center o C L N D) as (len & foot & at_ & before & after & s1 & s2 & s3 & H1 & H2 & H3 & H4 & E).
  exists len, foot, at_, before, after, s1, s2, s3.
  eexists. exists (cov_form o (psub (o_position o) at_)).
  do 4 (split; [assumption|]). split; [|split; [|rewrite E; apply f_equal; f_equal; f_equal; ring]].
  - intros Nd. apply (yaw_difference o (psub after before) U).
    destruct before as [bx by_], after as [ax ay]. cbn in *.
    destruct (Req_EM_T ax bx) as [->|]; [|left; lra]. right. intros Z. apply Nd. f_equal. lra.
  - apply (cov_form_spec o (psub (o_position o) at_)).
    intros Z. unfold cov_det in Z. rewrite Z, Rabs_R0 in D. lra.
Qed.
Print Assumptions C88_distance.

(** These conditions determine the angle and the form. *)
Theorem C88_determined c s d a b xx xy yx yy e m m' :
  (c * c + s * s = 1 -> turned c s d a -> turned c s d b -> a = b)
  /\ (xx * yy - xy * yx <> 0 -> inverse_form xx xy yx yy e m -> inverse_form xx xy yx yy e m' -> m = m').
Proof. split; [apply turned_unique|apply inverse_form_unique]. Qed.
Print Assumptions C88_determined.

(** With a positive definite covariance the distance is not negative. *)
Theorem C88_not_negative closest center o :
  closest_ok closest -> (2 <= length center)%nat -> NoDup (removelast center) ->
  o_xy o = o_yx o -> 0 < o_xx o -> 10 / 10 ^ 9 <= o_xx o * o_yy o - o_xy o * o_yx o ->
  exists m, mahalanobis closest center o = Ok m /\ 0 <= m.
Proof.
  intros C L N S P D.
  assert (D' : 10 / 10 ^ 9 <= Rabs (cov_det o)).
  { unfold cov_det. rewrite Rabs_right; [exact D|]. apply Rle_ge. eapply Rle_trans; [|exact D]. lra. }
  destruct (mahalanobis_spec closest center o C L N D') as (len & foot & at_ & before & after & s1 & s2 & s3 & _ & _ & _ & _ & E).
  rewrite E. eexists. split; [reflexivity|].
  assert (Q : 0 < o_xx o * o_yy o - o_yx o * o_yx o). { rewrite S in D. lra. }
  assert (F := cov_form_spec o (psub (o_position o) at_)). rewrite S in F.
  destruct (inverse_form_pos _ _ _ _ _ P Q (F ltac:(unfold cov_det; rewrite S; lra))) as [F0 _].
  assert (K := pow2_ge_0 (angle_difference (normalize_angle (atan2 (snd (psub after before)) (fst (psub after before)))) (normalize_angle (yaw_of o)))).
  assert (K2 : 0 <= o_kappa o * o_kappa o) by nra.
  assert (K3 := Rmult_le_pos _ _ K2 K). lra.
Qed.
Print Assumptions C88_not_negative.

(** For a lanelet and its inverse, where the direction is the opposite one, the two
    angles add up to 180 degrees: one of the two directions is at most 90 degrees off. *)
Theorem C88_opposite o d :
  o_cos o * o_cos o + o_sin o * o_sin o = 1 -> d <> (0, 0) ->
  let angle d := angle_difference (normalize_angle (atan2 (snd d) (fst d))) (normalize_angle (yaw_of o)) in
  Rabs (angle d) + Rabs (angle (- fst d, - snd d)) = PI.
Proof.
  intros U N. cbv zeta.
  assert (Nd : fst d <> 0 \/ snd d <> 0).
  { destruct d as [x y]. cbn. destruct (Req_EM_T x 0) as [->|]; [|auto]. right. intros ->. now apply N. }
  apply (turned_opposite (o_cos o) (o_sin o) d); [exact U|apply yaw_difference; assumption|].
  apply (yaw_difference o (- fst d, - snd d)); [exact U|]. cbn [fst snd]. destruct Nd; [left|right]; lra.
Qed.
Print Assumptions C88_opposite.

(** MatchingError is thrown for exactly the covariances with a determinant below 1e-8. *)
Theorem C88_throws closest center o :
  closest_ok closest -> (2 <= length center)%nat -> NoDup (removelast center) ->
  mahalanobis closest center o = Thrown <-> Rabs (o_xx o * o_yy o - o_xy o * o_yx o) < 10 / 10 ^ 9.
Proof.
  intros C L N. split; [|apply mahalanobis_throws].
  intros E. destruct (Rlt_dec (Rabs (cov_det o)) (10 / 10 ^ 9)) as [H|H]; [exact H|]. exfalso.
  destruct (mahalanobis_spec closest center o C L N ltac:(lra)) as (len & foot & at_ & before & after & s1 & s2 & s3 & _ & _ & _ & _ & E').
  rewrite E in E'. discriminate.
Qed.
Print Assumptions C88_throws.

Definition straight : list point := [(0, 0); (10, 0)].
(** An object in the middle of a straight centerline, heading at a right angle. *)
Definition crossing (sd2 kappa : R) : object := Object (5, 0) 0 1 [] sd2 0 0 sd2 kappa.

Lemma crossing_distance sd2 kappa : 10 / 10 ^ 9 <= sd2 * sd2 ->
  mahalanobis closest_scan straight (crossing sd2 kappa) = Ok ((kappa * (PI / 2)) ^ 2).
Proof.
  intros Hs. unfold mahalanobis.
  assert (Dt : Rabs (cov_det (crossing sd2 kappa)) = sd2 * sd2).
  { unfold cov_det, crossing. cbn. rewrite Rabs_right; nra. }
  destruct (cov_zero (crossing sd2 kappa)) eqn:Z; [apply cov_zero_det in Z; rewrite Dt in Z; exfalso; lra|].
  rewrite Dt. destruct (Rlt_dec _ _) as [X|_]; [exfalso; lra|].
  assert (D1 : distance (0, 0) (10, 0) = 10) by (apply distance_val; unfold sqn; cbn; lra).
  assert (P1 : project_to (0, 0) (10, 0) (5, 0) = (5, 0)).
  { unfold project_to, pdot, psub, padd, pscale. cbn. dec. f_equal; field. }
  assert (D2 : distance (0, 0) (5, 0) = 5) by (apply distance_val; unfold sqn; cbn; lra).
  assert (D3 : distance (5, 0) (5, 0) = 0) by (apply distance_val; unfold sqn; cbn; lra).
  assert (A : to_arc closest_scan straight (o_position (crossing sd2 kappa)) = Ok (5, -0)).
  { cbn [crossing o_position]. unfold to_arc, closest_scan, straight. cbn [scan_segments fst snd]. rewrite P1. unfold left_of.
    destruct (point_dec (10, 0) (5, 0)) as [K|_]; [injection K; lra|].
    cbn [length_until]. destruct (point_dec (0, 0) (0, 0)); [|easy]. rewrite D2, D3.
    unfold left_of_line, psub. cbn. dec. f_equal. f_equal; ring. }
  rewrite A.
  assert (I : forall x, / 100000000 <= x <= 10 -> interpolated_point distance on_way straight x = Ok (x, 0)).
  { intros x Hx. unfold interpolated_point, straight. destruct (Rlt_dec x 0); [lra|]. cbn [interpolate_loop]. rewrite D1.
    dec. f_equal. unfold on_way, padd, pscale, psub. cbn. f_equal; field. }
  rewrite (I 5), (I (5 + 1 / 2)) by lra.
  replace (Rmax (5 - 1 / 2) 0) with (5 - 1 / 2) by (symmetry; apply Rmax_left; lra).
  rewrite (I (5 - 1 / 2)) by lra. cbv zeta. apply f_equal.
  unfold psub. cbn [fst snd crossing o_position o_kappa].
  assert (T : turned 0 1 (1, 0) (- (PI / 2))).
  { assert (P := PI_RGT_0). split; [lra|]. exists 1. rewrite cos_neg, sin_neg, cos_PI2, sin_PI2. cbn. lra. }
  assert (T' := yaw_difference (crossing sd2 kappa) (1, 0) ltac:(cbn; ring) ltac:(cbn; lra)).
  cbn [crossing o_cos o_sin] in T'.
  assert (Q := turned_unique 0 1 (1, 0) _ _ ltac:(ring) T' T). cbn [fst snd] in Q.
  replace (5 + 1 / 2 - (5 - 1 / 2)) with 1 by field. replace (0 - 0) with 0 by ring.
  fold (crossing sd2 kappa). rewrite Q. unfold cov_form. cbn [fst snd]. replace (5 - 5) with 0 by ring.
  unfold crossing. cbn [o_yy o_xy o_yx o_xx]. ring.
Qed.

(** False for the documented approximation, a variance of the heading of 1 / kappa
    (as for the von Mises distribution): it gives a term of delta^2 / (1 / kappa), but
    kappa is squared. *)
Theorem C88_kappa_refuted :
  exists o delta, delta = PI / 2 /\ o_kappa o = 4
    /\ mahalanobis closest_scan straight o = Ok (16 * delta ^ 2)
    /\ delta ^ 2 / (1 / o_kappa o) = 4 * delta ^ 2.
Proof.
  exists (crossing 1 4), (PI / 2). split; [reflexivity|]. split; [reflexivity|]. split.
  - rewrite crossing_distance by lra. apply f_equal. ring.
  - cbn [crossing o_kappa]. field.
Qed.
Print Assumptions C88_kappa_refuted.

(** False for the documented exception: it is thrown although the determinant is not
    zero, for a standard deviation of 9 mm in both directions. *)
Theorem C88_determinant_refuted :
  let o := crossing (9 / 1000 * (9 / 1000)) 1 in
  mahalanobis closest_scan straight o = Thrown /\ o_xx o * o_yy o - o_xy o * o_yx o <> 0.
Proof.
  cbv zeta. split; [apply mahalanobis_throws; unfold cov_det|]; unfold crossing; cbn [o_xx o_xy o_yx o_yy].
  - rewrite Rabs_right; lra.
  - lra.
Qed.
Print Assumptions C88_determinant_refuted.

Example C88_nonvacuous :
  mahalanobis closest_scan straight (crossing 2 3) = Ok ((3 * (PI / 2)) ^ 2)
  /\ (exists o, o_cos o * o_cos o + o_sin o * o_sin o = 1
        /\ 10 / 10 ^ 9 <= Rabs (o_xx o * o_yy o - o_xy o * o_yx o))
  /\ closest_ok closest_scan /\ NoDup (removelast straight) /\ (2 <= length straight)%nat
  /\ normalize_angle (3 * PI) = PI.
Proof.
  split; [apply crossing_distance; lra|]. split; [|split; [apply closest_scan_ok|]].
  - exists (crossing 2 3). cbn. rewrite Rabs_right; lra.
  - split; [repeat constructor; auto|]. split; [cbn; lia|].
    destruct (normalize_spec (3 * PI)) as [B (k & E)]. assert (P := PI_RGT_0).
    assert (K : (k = -1)%Z).
    { assert (IZR k < 0). { apply Rmult_lt_reg_r with PI; lra. }
      assert (-2 < IZR k). { apply Rmult_lt_reg_r with PI; lra. }
      apply lt_IZR in H. apply lt_IZR in H0. lia. }
    rewrite E, K. ring.
Qed.

(** * C89: matches *)

Section matches.
Context {L : Type} (invert : L -> L).

(** Every lanelet found within the distance is in the result twice, regular and
    inverted, with its distance; the result is sorted by distance. *)
Theorem C89_deterministic (sort : list match_of -> list match_of) within_point within_hull o max :
  sorts (A := @match_of L) m_distance sort ->
  let found := match o_hull o with [] => within_point (o_position o) max | h => within_hull h max end in
  let r := deterministic_matches invert sort within_point within_hull o max in
  Permutation r (flat_map (fun p => [Match (snd p) (fst p); Match (invert (snd p)) (fst p)]) found)
  /\ forall l1 a l2 b l3, r = l1 ++ a :: l2 ++ b :: l3 -> m_distance a <= m_distance b.
Proof.
  intros S. cbv zeta. unfold deterministic_matches, to_match_vector. split.
  - symmetry. apply S.
  - apply S.
Qed.

(** The same for the Mahalanobis distance, if the covariance is regular and the
    centerlines have no repeated points. *)
Theorem C89_probabilistic (sort : list prob_match -> list prob_match) within_point within_hull closest center o max :
  sorts (A := @prob_match L) pm_maha sort -> closest_ok closest ->
  10 / 10 ^ 9 <= Rabs (o_xx o * o_yy o - o_xy o * o_yx o) ->
  (forall l, (2 <= length (center l))%nat /\ NoDup (removelast (center l))) ->
  let found := match o_hull o with [] => within_point (o_position o) max | h => within_hull h max end in
  exists r, probabilistic_matches invert sort within_point within_hull closest center o max = Ok r
    /\ Permutation (map (fun m => (pm_distance m, pm_lanelet m)) r)
         (flat_map (fun p => [p; (fst p, invert (snd p))]) found)
    /\ (forall m, In m r -> mahalanobis closest (center (pm_lanelet m)) o = Ok (pm_maha m))
    /\ forall l1 a l2 b l3, r = l1 ++ a :: l2 ++ b :: l3 -> pm_maha a <= pm_maha b.
Proof.
  intros S C D H. cbv zeta. unfold probabilistic_matches, prob_matches, find_object.
  set (found := match o_hull o with [] => within_point (o_position o) max | _ => within_hull (o_hull o) max end).
  replace (match o_hull o with [] => within_point (o_position o) max | p :: l => within_hull (p :: l) max end)
    with found by (unfold found; destruct (o_hull o); reflexivity).
  destruct (prob_loop_ok invert (fun l => mahalanobis closest (center l) o) found) as (ms & E & F).
  { intros l. destruct (H l) as [H1 H2].
    destruct (mahalanobis_spec closest (center l) o C H1 H2 D) as (len & foot & at_ & before & after & s1 & s2 & s3 & _ & _ & _ & _ & E).
    eauto. }
  rewrite E. exists (sort ms). split; [reflexivity|]. split; [|split; [|apply S]].
  - rewrite <- (Permutation_map _ (proj1 (S ms))).
    replace (map (fun m => (pm_distance m, pm_lanelet m)) ms) with (flat_map (fun p : R * L => [p; (fst p, invert (snd p))]) found); [reflexivity|].
    clear -F. induction F as [|m x ms r (H1 & H2 & _) F IH]; [reflexivity|].
    cbn [map]. rewrite IH. destruct x; cbn in *. now subst.
  - intros m Hm. apply (Permutation_in _ (Permutation_sym (proj1 (S ms)))) in Hm.
    clear -F Hm. induction F as [|m' x ms r (_ & _ & H) F IH]; [destruct Hm|].
    destruct Hm as [->|Hm]; auto.
Qed.

(** A covariance that is not regular: the exception is thrown if a lanelet is found. *)
Theorem C89_throws_partial (sort : list prob_match -> list prob_match) within_point within_hull closest (center : L -> list point) o max :
  Rabs (o_xx o * o_yy o - o_xy o * o_yx o) < 10 / 10 ^ 9 ->
  find_object within_point within_hull o max <> [] ->
  probabilistic_matches invert sort within_point within_hull closest center o max = Thrown.
Proof.
  intros D H. unfold probabilistic_matches, prob_matches.
  destruct (find_object within_point within_hull o max) as [|[d l] r]; [contradiction|].
  rewrite prob_loop_throws; [reflexivity|]. now apply mahalanobis_throws.
Qed.

(** False without a lanelet: the documented exception is not thrown, whatever the
    covariance. *)
Theorem C89_throws_refuted (sort : list prob_match -> list prob_match) within_hull closest (center : L -> list point) o max :
  sort [] = [] -> o_hull o = [] ->
  probabilistic_matches invert sort (fun _ _ => []) within_hull closest center o max = Ok [].
Proof. intros S H. unfold probabilistic_matches, prob_matches, find_object. rewrite H. cbn. now rewrite S. Qed.

(** isCloseTo: some primitive of the layer is as close as the distance. *)
Theorem C89_close within_point within_hull (o : object) max (layer : list L) (dist : L -> R) :
  (let found := match o_hull o with [] => within_point (o_position o) max | h => within_hull h max end in
   forall d l, In (d, l) found <-> In l layer /\ d = dist l /\ d <= max) ->
  is_close_to within_point within_hull o max = true <-> exists l, In l layer /\ dist l <= max.
Proof.
  cbv zeta. intros H. unfold is_close_to, find_object.
  destruct (match o_hull o with [] => within_point (o_position o) max | _ => within_hull (o_hull o) max end) as [|[d l] r] eqn:E.
  - assert (F : (match o_hull o with [] => within_point (o_position o) max | p :: l => within_hull (p :: l) max end) = [])
      by (destruct (o_hull o); exact E).
    rewrite F in *. split; [discriminate|]. intros (l & Hl & Hd). exfalso. apply (H (dist l) l). auto.
  - assert (F : (match o_hull o with [] => within_point (o_position o) max | p :: l => within_hull (p :: l) max end) = (d, l) :: r)
      by (destruct (o_hull o); exact E).
    rewrite F in *. split; [|reflexivity]. intros _. destruct (proj1 (H d l) (or_introl eq_refl)) as (Hl & -> & Hd). eauto.
Qed.

(** The matches that stay are those whose lanelet may be passed, in the same order. *)
Theorem C89_compliant (can_pass : L -> bool) (l : list (@match_of L)) :
  remove_non_compliant can_pass l = filter (fun m => can_pass (m_lanelet m)) l.
Proof.
  unfold remove_non_compliant. rewrite remove_if_filter. apply filter_ext. intros m. now rewrite negb_involutive.
Qed.
End matches.
Print Assumptions C89_deterministic.
Print Assumptions C89_probabilistic.
Print Assumptions C89_throws_partial.
Print Assumptions C89_throws_refuted.
Print Assumptions C89_close.
Print Assumptions C89_compliant.

(** A sorting function as assumed. *)
Fixpoint insert_by {A} (key : A -> R) (x : A) (l : list A) : list A :=
  match l with [] => [x] | y :: r => if Rle_dec (key x) (key y) then x :: l else y :: insert_by key x r end.
Lemma insert_by_perm {A} (key : A -> R) x l : Permutation (x :: l) (insert_by key x l).
Proof.
  induction l as [|y r IH]; [reflexivity|]. cbn. destruct (Rle_dec _ _); [reflexivity|].
  rewrite perm_swap. now constructor.
Qed.
Lemma insert_by_sorts {A} (key : A -> R) : sorts key (fold_right (insert_by key) []).
Proof.
  intros l. split.
  - induction l as [|x l IH]; [reflexivity|]. cbn. etransitivity; [|apply insert_by_perm]. now constructor.
  - assert (G : forall l, (forall l1 a l2 b l3, l = l1 ++ a :: l2 ++ b :: l3 -> key a <= key b) ->
                forall x l1 a l2 b l3, insert_by key x l = l1 ++ a :: l2 ++ b :: l3 -> key a <= key b).
    { clear. induction l as [|y r IH]; intros S x l1 a l2 b l3 E.
      - cbn in E. destruct l1 as [|? [|]]; cbn in E; inversion E. destruct l2; discriminate.
      - cbn in E. destruct (Rle_dec (key x) (key y)) as [H|H].
        + destruct l1 as [|z l1]; cbn in E; inversion E; subst.
          * destruct l2 as [|w l2]; cbn in H2; inversion H2; subst; [exact H|].
            eapply Rle_trans; [exact H|]. apply (S [] w l2 b l3). reflexivity.
          * eapply (S l1 a l2 b l3). congruence.
        + assert (Sr : forall l1 a l2 b l3, r = l1 ++ a :: l2 ++ b :: l3 -> key a <= key b).
          { intros m1 c m2 d m3 Er. apply (S (y :: m1) c m2 d m3). now rewrite Er. }
          destruct l1 as [|z l1]; cbn in E; inversion E; subst.
          * assert (Hb : In b (insert_by key x r)) by (rewrite H2; apply in_or_app; right; now left).
            apply (Permutation_in _ (Permutation_sym (insert_by_perm key x r))) in Hb.
            destruct Hb as [<-|Hb]; [lra|]. apply in_split in Hb. destruct Hb as (m1 & m2 & ->).
            apply (S [] a m1 b m2). reflexivity.
          * eapply IH; [exact Sr|exact H2]. }
    induction l as [|x l IH]; intros l1 a l2 b l3 E.
    + cbn in E. destruct l1; discriminate.
    + cbn in E. eapply G; [exact IH|exact E].
Qed.

(** A straight lanelet as the number 1, its inverse as 2. *)
Example C89_nonvacuous :
  let center n := if Nat.eqb n 1 then straight else rev straight in
  sorts m_distance (fold_right (insert_by (@m_distance nat)) [])
  /\ deterministic_matches (fun n => 3 - n)%nat (fold_right (insert_by m_distance) [])
       (fun _ _ => [(1 / 2, 1%nat)]) (fun _ _ => []) (crossing 2 3) 1
     = [Match 1%nat (1 / 2); Match 2%nat (1 / 2)]
  /\ (forall n, (2 <= length (center n))%nat /\ NoDup (removelast (center n)))
  /\ probabilistic_matches (fun n => 3 - n)%nat (fun l => l) (fun _ _ => [(1 / 2, 1%nat)]) (fun _ _ => [])
       closest_scan center (crossing 0 3) 1 = Thrown
  /\ remove_non_compliant (Nat.eqb 2) [Match 1%nat 0; Match 2%nat 0] = [Match 2%nat 0].
Proof.
  cbv zeta. split; [apply insert_by_sorts|]. split.
  - unfold deterministic_matches, to_match_vector, find_object, crossing. cbn.
    destruct (Rle_dec (1 / 2) (1 / 2)); [reflexivity|exfalso; lra].
  - split; [|split; [|reflexivity]].
    + intros n. destruct (Nat.eqb n 1); (split; [cbn; lia|repeat constructor; auto]).
    + apply C89_throws_partial; [unfold crossing; cbn; rewrite Rabs_right; lra|discriminate].
Qed.

(** * C90: conflicting lanelets in several graphs *)

Section container.
Variables (overlaps2 : handle -> handle -> bool) (overlaps3 : handle -> handle -> R -> bool).
Context {G : Type} (search : G -> handle -> list handle).

(** An index beyond the graphs is refused; else the result are the lanelets of the
    graph that overlap, other than the lanelet itself. *)
Theorem C90_conflicting graphs l i height :
  (conflicting_in_graph overlaps2 overlaps3 search graphs l i height = None <-> (length graphs <= i)%nat)
  /\ forall r g, nth_error graphs i = Some g ->
     conflicting_in_graph overlaps2 overlaps3 search graphs l i height = Some r ->
     forall x, In x r <->
       In x (search g l) /\ x <> l
       /\ (height = 0 -> overlaps2 l x = true) /\ (height <> 0 -> overlaps3 l x height = true).
Proof. apply conflicting_spec. Qed.

(** For all graphs: one entry for each, in order. *)
Theorem C90_all_graphs graphs l height :
  map fst (conflicting_in_graphs overlaps2 overlaps3 search graphs l height) = seq 0 (length graphs)
  /\ forall i c, In (i, c) (conflicting_in_graphs overlaps2 overlaps3 search graphs l height) ->
       c <> None /\ c = conflicting_in_graph overlaps2 overlaps3 search graphs l i height.
Proof.
  unfold conflicting_in_graphs. split.
  - rewrite map_map. apply map_id.
  - intros i c H. apply in_map_iff in H. destruct H as (j & E & Hj). inversion E; subst. split; [|reflexivity].
    apply in_seq in Hj. intros N. apply (proj1 (C90_conflicting graphs l i height)) in N. lia.
Qed.

(** For a route: the lanelets in conflict with one of its lanelets, each once. *)
Theorem C90_route graphs route i height r :
  conflicting_of_route overlaps2 overlaps3 search graphs route i height = Some r ->
  NoDup r /\ forall x, In x r <->
    exists l c, In l route /\ conflicting_in_graph overlaps2 overlaps3 search graphs l i height = Some c /\ In x c.
Proof.
  unfold conflicting_of_route.
  assert (I : forall x s y, In y (insert_handle x s) <-> y = x \/ In y s).
  { intros x s y. unfold insert_handle. destruct (existsb (same_handle x) s) eqn:E; [|cbn; intuition].
    apply existsb_exists in E. destruct E as (z & Hz & E). apply same_handle_eq in E. subst z. intuition. congruence. }
  assert (ND : forall x s, NoDup s -> NoDup (insert_handle x s)).
  { intros x s H. unfold insert_handle. destruct (existsb (same_handle x) s) eqn:E; [exact H|].
    constructor; [|exact H]. intros Hx. assert (existsb (same_handle x) s = true); [|congruence].
    apply existsb_exists. exists x. split; [exact Hx|now apply same_handle_eq]. }
  assert (F : forall c s, NoDup s -> NoDup (fold_left (fun s x => insert_handle x s) c s)
                /\ forall y, In y (fold_left (fun s x => insert_handle x s) c s) <-> In y c \/ In y s).
  { induction c as [|x c IH]; intros s Hs; [cbn; split; [exact Hs|tauto]|].
    cbn [fold_left]. destruct (IH (insert_handle x s) (ND x s Hs)) as [N J]. split; [exact N|].
    intros y. rewrite J, I. cbn. intuition. }
  assert (R : forall route s r, NoDup s -> route_loop overlaps2 overlaps3 search graphs i height route s = Some r ->
    NoDup r /\ forall x, In x r <-> In x s \/
      exists l c, In l route /\ conflicting_in_graph overlaps2 overlaps3 search graphs l i height = Some c /\ In x c).
  { clear r route. induction route as [|l route IH]; intros s r Hs E; cbn [route_loop] in E.
    - inversion E; subst. split; [exact Hs|]. intros x. split; [tauto|]. intros [H|(l & c & [] & _)]. exact H.
    - destruct (conflicting_in_graph overlaps2 overlaps3 search graphs l i height) as [c|] eqn:C; [|discriminate].
      destruct (F c s Hs) as [N J]. destruct (IH _ _ N E) as [Nr Ir]. split; [exact Nr|].
      intros x. rewrite Ir, J. split.
      + intros [[H|H]|(l' & c' & Hl & E' & H)]; [right; exists l, c; cbn; auto|tauto|right; exists l', c'; cbn; auto].
      + intros [H|(l' & c' & [<-|Hl] & E' & H)]; [tauto| |right; exists l', c'; auto].
        rewrite C in E'. inversion E'; subst. tauto. }
  intros H. destruct (R route [] r (NoDup_nil _) H) as [N J]. split; [exact N|]. intros x. rewrite J. cbn. tauto.
Qed.
End container.
Print Assumptions C90_conflicting.
Print Assumptions C90_all_graphs.
Print Assumptions C90_route.

(** False if the lanelet is given inverted: the lanelet of the map with the same data
    is reported as in conflict with itself. *)
Theorem C90_inverted_refuted :
  let whole a b := Nat.eqb (h_data a) (h_data b) in
  conflicting_in_graph whole (fun a b _ => whole a b) (fun (_ : unit) _ => [Handle 7 false]) [tt] (Handle 7 true) 0 0
  = Some [Handle 7 false].
Proof. cbv zeta. unfold conflicting_in_graph. cbn. destruct (Req_EM_T 0 0); [reflexivity|contradiction]. Qed.
Print Assumptions C90_inverted_refuted.

Example C90_nonvacuous :
  let near a b := Nat.leb (h_data a - h_data b + (h_data b - h_data a)) 1 in
  let layer (n : nat) (_ : handle) := map (fun i => Handle i false) (seq 0 n) in
  conflicting_in_graphs near (fun a b _ => near a b) layer [3; 5]%nat (Handle 2 false) 0
  = [(0%nat, Some [Handle 1 false]); (1%nat, Some [Handle 1 false; Handle 3 false])]
  /\ conflicting_of_route near (fun a b _ => near a b) layer [3; 5]%nat [Handle 2 false; Handle 0 false] 1 0
     = Some [Handle 3 false; Handle 1 false].
Proof. cbv zeta. unfold conflicting_in_graphs, conflicting_of_route, conflicting_in_graph. cbn.
  destruct (Req_EM_T 0 0); [|contradiction]. split; cbn; unfold insert_handle; cbn; reflexivity. Qed.
