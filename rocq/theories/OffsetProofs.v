(** Proofs about the moved points of OffsetModel.v. *)
From Coq Require Import List Bool Arith Reals Lia Lra Psatz.
From Verif Require Import ArcModel ArcSpec OffsetModel OffsetSpec OffsetWalk.
Import ListNotations.
Local Open Scope R_scope.

(** * Numbers *)

Lemma sharp_angle c : -1 <= c <= 1 -> exists C S, 0 <= C /\ 0 <= S /\ C * C + S * S = 1 /\ 2 * C * C - 1 = c /\
  let t := tan (PI / 4 - (PI - acos c) / 4) in 0 <= t <= 1 /\ t * (1 + C) = S /\ t * S = 1 - C.
Proof.
  intros H. replace (PI / 4 - (PI - acos c) / 4) with (acos c / 2 / 2) by field.
  pose proof (acos_bound c) as B. pose proof PI_RGT_0 as P. set (h := acos c / 2).
  assert (Hh : 0 <= h <= PI / 2) by (unfold h; lra).
  assert (C0 : 0 <= cos h) by (apply cos_ge_0; lra). assert (S0 : 0 <= sin h) by (apply sin_ge_0; lra).
  assert (E1 : cos h * cos h + sin h * sin h = 1) by (pose proof (sin2_cos2 h) as E; unfold Rsqr in E; lra).
  assert (E2 : 2 * cos h * cos h - 1 = c).
  { rewrite <- (cos_acos c H). replace (acos c) with (2 * h) by (unfold h; field). rewrite cos_2a_cos. ring. }
  assert (Cq : 0 < cos (h / 2)) by (apply cos_gt_0; lra).
  assert (E3 : tan (h / 2) * (1 + cos h) = sin h).
  { assert (Eh : h = 2 * (h / 2)) by field. rewrite Eh at 2 3. rewrite cos_2a_cos, sin_2a. unfold tan. field. lra. }
  assert (E4 : tan (h / 2) * sin h = 1 - cos h).
  { apply Rmult_eq_reg_r with (1 + cos h); [|lra]. replace (tan (h / 2) * sin h * (1 + cos h)) with (tan (h / 2) * (1 + cos h) * sin h) by ring.
    rewrite E3. lra. }
  exists (cos h), (sin h). do 4 (split; [auto|]). cbv zeta. split; [|auto].
  assert (S1 : sin h <= 1) by apply SIN_bound. split; nra.
Qed.

(** * Vectors *)
Definition sq (u a : point) : R := (fst u - fst a) * (fst u - fst a) + (snd u - snd a) * (snd u - snd a).
Lemma sq_pos u a : 0 <= sq u a.
Proof. apply squares_pos. Qed.
Lemma sq_euclid u a : euclid u a = sqrt (sq u a).
Proof. unfold euclid, sq. f_equal. ring. Qed.
Lemma sq_bound u a d : sq u a <= 2 * (d * d) -> euclid u a <= sqrt 2 * Rabs d.
Proof.
  intros H. rewrite sq_euclid. rewrite <- sqrt_Rsqr_abs. unfold Rsqr. rewrite <- sqrt_mult; [|lra|apply Rle_0_sqr]. apply sqrt_le_1_alt. auto.
Qed.
Lemma sq_lower u a r : 0 <= r -> r * r <= sq u a -> r <= euclid u a.
Proof. intros R0 H. rewrite sq_euclid. rewrite <- (sqrt_square r R0). apply sqrt_le_1_alt. auto. Qed.
Lemma sq_between u v a b t r : 0 <= t <= 1 -> sq u a <= r -> sq v b <= r -> sq (between u v t) (between a b t) <= r.
Proof.
  intros Ht Hu Hv. destruct u as [u1 u2], v as [v1 v2], a as [a1 a2], b as [b1 b2]. unfold sq, between in *. simpl in *.
  replace ((1 - t) * u1 + t * v1 - ((1 - t) * a1 + t * b1)) with ((1 - t) * (u1 - a1) + t * (v1 - b1)) by ring.
  replace ((1 - t) * u2 + t * v2 - ((1 - t) * a2 + t * b2)) with ((1 - t) * (u2 - a2) + t * (v2 - b2)) by ring.
  set (A1 := u1 - a1) in *. set (A2 := u2 - a2) in *. set (B1 := v1 - b1) in *. set (B2 := v2 - b2) in *.
  assert (E : ((1 - t) * A1 + t * B1) * ((1 - t) * A1 + t * B1) + ((1 - t) * A2 + t * B2) * ((1 - t) * A2 + t * B2) =
    (1 - t) * (A1 * A1 + A2 * A2) + t * (B1 * B1 + B2 * B2) - t * (1 - t) * ((A1 - B1) * (A1 - B1) + (A2 - B2) * (A2 - B2))) by ring.
  rewrite E. pose proof (squares_pos (A1 - B1) (A2 - B2)) as P. assert (0 <= t * (1 - t)) by nra. nra.
Qed.

(** The unit vector of a segment *)
Lemma unit_of a b : a <> b -> exists n p1 p2, 0 < n /\ p1 * p1 + p2 * p2 = 1 /\ psub b a = (n * p1, n * p2) /\
  norm (psub b a) = n /\ normalized (psub b a) = (p1, p2) /\ euclid a b = n.
Proof.
  intros D. destruct a as [a1 a2], b as [b1 b2]. set (v := psub (b1, b2) (a1, a2)).
  assert (P : 0 < pdot v v).
  { destruct (Rle_lt_or_eq_dec 0 (pdot v v)) as [G|G]; [apply squares_pos|auto|]. exfalso. apply D.
    apply euclid_zero. unfold euclid. simpl. unfold pdot, v, psub in G. simpl in G. rewrite <- G. apply sqrt_0. }
  assert (N : 0 < norm v) by (apply sqrt_lt_R0; auto).
  assert (NN : norm v * norm v = pdot v v) by (apply sqrt_sqrt; lra).
  exists (norm v), (fst v / norm v), (snd v / norm v). split; [auto|]. split.
  { replace (fst v / norm v * (fst v / norm v) + snd v / norm v * (snd v / norm v)) with (pdot v v / (norm v * norm v)) by (unfold pdot; field; lra).
    rewrite NN. field. lra. }
  split; [rewrite (surjective_pairing v) at 1; f_equal; field; lra|]. split; [reflexivity|]. split.
  - unfold normalized. destruct (Rlt_dec 0 (pdot v v)); [|lra]. unfold pscale. f_equal; field; lra.
  - reflexivity.
Qed.
Lemma normalized_unit p1 p2 n : 0 < n -> p1 * p1 + p2 * p2 = 1 -> normalized (n * p1, n * p2) = (p1, p2).
Proof.
  intros N U. assert (E : pdot (n * p1, n * p2) (n * p1, n * p2) = n * n).
  { unfold pdot. simpl. replace (n * p1 * (n * p1) + n * p2 * (n * p2)) with (n * n * (p1 * p1 + p2 * p2)) by ring. rewrite U. ring. }
  unfold normalized. rewrite E. destruct (Rlt_dec 0 (n * n)) as [G|G]; [|nra].
  unfold norm. rewrite E. rewrite sqrt_square by lra. unfold pscale. simpl. f_equal; field; lra.
Qed.

(** * One corner *)

(** The moved points at a corner: before it (steps with unit vector [p]), after it ([f]) *)
Definition shifted (b : point) (x y : R) : point := (fst b + x, snd b + y).
Lemma lateral_last l i a b d n p1 p2 : nth_error l i = Some a -> nth_error l (S i) = Some b -> (S i + 1 = length l)%nat ->
  0 < n -> p1 * p1 + p2 * p2 = 1 -> psub b a = (n * p1, n * p2) ->
  shift_point l d (S i) (vicinity l (S i)) = Done ([shifted b (- (d * p2)) (d * p1)], true).
Proof.
  intros Ha Hb L N U E. unfold vicinity. cbn [Nat.eqb]. rewrite L, Nat.eqb_refl. replace (S i - 1)%nat with i by lia.
  rewrite (at_index_nth _ _ _ Ha), (at_index_nth _ _ _ Hb), E.
  unfold shift_point, get_convexity, is_convex. rewrite L, Nat.eqb_refl. rewrite andb_false_r. cbn [negb].
  unfold pdot at 1. cbn [fst snd]. destruct (Rlt_dec (0 * (n * p1) + 0 * (n * p2)) 0) as [G|G]; [lra|].
  do 3 f_equal. unfold shift_lateral. cbn [Nat.eqb]. rewrite L, Nat.eqb_refl. rewrite (at_index_nth _ _ _ Hb).
  unfold turned. cbn [fst snd]. replace (- (n * p2), n * p1) with (n * - p2, n * p1) by (f_equal; ring).
  rewrite normalized_unit by (auto; nra). unfold padd, pscale, shifted. simpl. do 2 f_equal; ring.
Qed.

Section Corner.
Variables (l : list point) (i : nat) (a b c : point) (d n n' p1 p2 f1 f2 : R).
Hypotheses (Ha : nth_error l i = Some a) (Hb : nth_error l (S i) = Some b) (Hc : nth_error l (S (S i)) = Some c).
Hypotheses (N : 0 < n) (N' : 0 < n') (U : p1 * p1 + p2 * p2 = 1) (U' : f1 * f1 + f2 * f2 = 1).
Hypotheses (E : psub b a = (n * p1, n * p2)) (E' : psub c b = (n' * f1, n' * f2)).
Let k := p1 * f2 - p2 * f1.
Let cs := p1 * f1 + p2 * f2.

Lemma inner_index : (S i + 1 =? length l)%nat = false.
Proof. apply Nat.eqb_neq. assert (S (S i) < length l)%nat by (apply nth_error_Some; congruence). lia. Qed.
Lemma inner_vicinity : vicinity l (S i) = ((n * p1, n * p2), (n' * f1, n' * f2)).
Proof.
  unfold vicinity. cbn [Nat.eqb]. rewrite inner_index. replace (S i - 1)%nat with i by lia. replace (S i + 1)%nat with (S (S i)) by lia.
  rewrite (at_index_nth _ _ _ Ha), (at_index_nth _ _ _ Hb), (at_index_nth _ _ _ Hc), E, E'. reflexivity.
Qed.
Lemma circle : cs * cs + k * k = 1.
Proof. unfold cs, k. replace 1 with ((p1 * p1 + p2 * p2) * (f1 * f1 + f2 * f2)) by (rewrite U, U'; ring). ring. Qed.
Lemma cs_range : -1 <= cs <= 1.
Proof. pose proof circle. split; nra. Qed.
Lemma left_turn : left_of_line a b c = if Rlt_dec 0 k then true else false.
Proof.
  unfold left_of_line. assert (X : fst (psub b a) * snd (psub c a) - snd (psub b a) * fst (psub c a) = n * n' * k).
  { assert (E2 : psub c a = (n' * f1 + n * p1, n' * f2 + n * p2)).
    { destruct a, b, c. unfold psub in *. simpl in *. injection E as <- <-. injection E' as <- <-. f_equal; ring. }
    rewrite E2, E. simpl. unfold k. ring. }
  rewrite X. assert (0 < n * n') by nra. destruct (Rlt_dec 0 k), (Rlt_dec 0 (n * n' * k)); auto; exfalso; nra.
Qed.
Definition convex_here : bool := if Rlt_dec 0 d then negb (if Rlt_dec 0 k then true else false) else (if Rlt_dec 0 k then true else false).
Lemma inner_convexity : get_convexity l (S i) (vicinity l (S i)) (if Rlt_dec 0 d then true else false) =
  if convex_here then if Rlt_dec cs 0 then ConvexSharp else Convex else Concave.
Proof.
  rewrite inner_vicinity. unfold get_convexity, is_convex. cbn [Nat.eqb]. rewrite inner_index. cbn [negb andb fst snd].
  replace (S i - 1)%nat with i by lia. replace (S i + 1)%nat with (S (S i)) by lia.
  rewrite (at_index_nth _ _ _ Ha), (at_index_nth _ _ _ Hb), (at_index_nth _ _ _ Hc), left_turn.
  assert (X : pdot (n' * f1, n' * f2) (n * p1, n * p2) = n * n' * cs) by (unfold pdot, cs; simpl; ring). rewrite X.
  assert (0 < n * n') by nra.
  unfold convex_here. destruct (Rlt_dec 0 d), (Rlt_dec 0 k); cbn [negb]; try reflexivity;
    destruct (Rlt_dec cs 0), (Rlt_dec (n * n' * cs) 0); auto; exfalso; nra.
Qed.

(** The three kinds of moved points, relative to the corner *)
Lemma inner_concave : convex_here = false -> shift_point l d (S i) (vicinity l (S i)) = Done ([shifted b (- (d * p2)) (d * p1)], false).
Proof.
  intros H. unfold shift_point. rewrite inner_convexity, H. unfold shift_perpendicular. rewrite inner_index. cbn [Nat.eqb andb bind].
  rewrite inner_vicinity. cbn [fst snd]. rewrite normalized_unit by auto. rewrite (at_index_nth _ _ _ Hb).
  unfold padd, pscale, turned, shifted. simpl. do 4 f_equal; ring.
Qed.
Lemma inner_lateral : convex_here = true -> 0 <= cs ->
  shift_point l d (S i) (vicinity l (S i)) = Done ([shifted b (- (d / (1 + cs) * (f2 + p2))) (d / (1 + cs) * (f1 + p1))], true).
Proof.
  intros H P. unfold shift_point. rewrite inner_convexity, H. destruct (Rlt_dec cs 0); [lra|]. do 3 f_equal.
  rewrite inner_vicinity. unfold shift_lateral. cbn [Nat.eqb]. rewrite inner_index. rewrite !normalized_unit by auto. rewrite (at_index_nth _ _ _ Hb).
  assert (Q : pdot (padd (f1, f2) (p1, p2)) (padd (f1, f2) (p1, p2)) = 2 + 2 * cs).
  { unfold pdot, padd, cs. simpl. replace 2 with (p1 * p1 + p2 * p2 + (f1 * f1 + f2 * f2)) at 1 by (rewrite U, U'; ring). ring. }
  assert (M1 : 0 < norm (padd (f1, f2) (p1, p2))) by (unfold norm; rewrite Q; apply sqrt_lt_R0; lra).
  assert (M2 : norm (padd (f1, f2) (p1, p2)) * norm (padd (f1, f2) (p1, p2)) = 2 + 2 * cs) by (unfold norm; rewrite <- Q; apply sqrt_sqrt; lra).
  set (m := norm (padd (f1, f2) (p1, p2))) in *.
  destruct (Rlt_dec (/ 100000) (m / 2)) as [G|G].
  - assert (X : turned (padd (f1, f2) (p1, p2)) = (m * (- (f2 + p2) / m), m * ((f1 + p1) / m))) by (unfold turned, padd; simpl; f_equal; field; lra).
    rewrite X. rewrite normalized_unit; [|lra|].
    + unfold padd, pscale, shifted. simpl. assert (X2 : d / (m / 2) / m = d / (1 + cs)).
      { replace (d / (m / 2) / m) with (2 * d / (m * m)) by (field; lra). rewrite M2. field. lra. }
      f_equal; f_equal.
      * rewrite <- X2. field. lra.
      * rewrite <- X2. field. lra.
    + replace (- (f2 + p2) / m * (- (f2 + p2) / m) + (f1 + p1) / m * ((f1 + p1) / m)) with (((f2 + p2) * (f2 + p2) + (f1 + p1) * (f1 + p1)) / (m * m)) by (field; lra).
      rewrite M2, <- Q. unfold pdot, padd. simpl. field. unfold pdot, padd in Q. simpl in Q. rewrite Q. lra.
  - exfalso. apply Rnot_lt_le in G. assert (m <= 1) by lra. nra.
Qed.
Definition overshoot : R := tan (PI / 4 - (PI - acos cs) / 4).
Lemma inner_sharp : convex_here = true -> cs < 0 ->
  shift_point l d (S i) (vicinity l (S i)) =
  Done ([shifted b (- (d * p2) + d * overshoot * p1) (d * p1 + d * overshoot * p2);
         shifted b (- (d * f2) - d * overshoot * f1) (d * f1 - d * overshoot * f2)], true).
Proof.
  intros H P. unfold shift_point. rewrite inner_convexity, H. destruct (Rlt_dec cs 0); [|lra].
  rewrite inner_vicinity. unfold shift_sharp, shift_perpendicular. cbn [Nat.eqb]. rewrite inner_index. cbn [andb negb bind fst snd].
  rewrite !normalized_unit by auto. rewrite (at_index_nth _ _ _ Hb).
  assert (X : pdot (n' * f1, n' * f2) (n * p1, n * p2) / (norm (n * p1, n * p2) * norm (n' * f1, n' * f2)) = cs).
  { assert (X1 : norm (n * p1, n * p2) = n).
    { unfold norm, pdot. simpl. replace (n * p1 * (n * p1) + n * p2 * (n * p2)) with (n * n * (p1 * p1 + p2 * p2)) by ring. rewrite U, Rmult_1_r. apply sqrt_square. lra. }
    assert (X2 : norm (n' * f1, n' * f2) = n').
    { unfold norm, pdot. simpl. replace (n' * f1 * (n' * f1) + n' * f2 * (n' * f2)) with (n' * n' * (f1 * f1 + f2 * f2)) by ring. rewrite U', Rmult_1_r. apply sqrt_square. lra. }
    rewrite X1, X2. unfold pdot, cs. simpl. field. lra. }
  rewrite X. unfold overshoot. set (t := tan _). unfold padd, psub, pscale, turned, shifted. simpl.
  do 2 f_equal. f_equal; [f_equal; ring|]. f_equal. f_equal; ring.
Qed.
End Corner.

(** * All corners: bounds from above *)

Definition near_pair (l : list point) (r : R) (u : segment) : Prop :=
  exists a b, (In (a, b) (pairs l) \/ a = b /\ In a l) /\ sq (fst u) a <= r /\ sq (snd u) b <= r.
Lemma no_doubled_nth l i a b : no_doubled l -> nth_error l i = Some a -> nth_error l (S i) = Some b -> a <> b.
Proof. intros D Ha Hb. apply (D (a, b)). apply nth_error_In with i. apply pairs_nth. auto. Qed.
Lemma sq_shifted b x y r : x * x + y * y <= r -> sq (shifted b x y) b <= r.
Proof. unfold sq, shifted. simpl. replace (fst b + x - fst b) with x by ring. replace (snd b + y - snd b) with y by ring. auto. Qed.

Lemma sharp_size p1 p2 d t : p1 * p1 + p2 * p2 = 1 -> 0 <= t <= 1 ->
  (- (d * p2) + d * t * p1) * (- (d * p2) + d * t * p1) + (d * p1 + d * t * p2) * (d * p1 + d * t * p2) <= 2 * (d * d).
Proof.
  intros U T. replace (_ + _) with (d * d * (1 + t * t) * (p1 * p1 + p2 * p2)) by ring. rewrite U.
  assert (0 <= d * d) by apply Rle_0_sqr. assert (t * t <= 1) by nra. nra.
Qed.
Lemma lateral_size p1 p2 f1 f2 d : p1 * p1 + p2 * p2 = 1 -> f1 * f1 + f2 * f2 = 1 -> 0 <= p1 * f1 + p2 * f2 ->
  let c := p1 * f1 + p2 * f2 in
  - (d / (1 + c) * (f2 + p2)) * - (d / (1 + c) * (f2 + p2)) + d / (1 + c) * (f1 + p1) * (d / (1 + c) * (f1 + p1)) <= 2 * (d * d).
Proof.
  intros U U' P c. fold c in P.
  replace (_ + _) with (d * d * ((f1 * f1 + f2 * f2) + (p1 * p1 + p2 * p2) + 2 * c) / ((1 + c) * (1 + c))) by (unfold c; field; fold c; lra).
  rewrite U, U'. replace (d * d * (1 + 1 + 2 * c) / ((1 + c) * (1 + c))) with (2 * (d * d) * / (1 + c)) by (field; lra).
  assert (0 <= d * d) by apply Rle_0_sqr. assert (0 < / (1 + c) <= 1).
  { split; [apply Rinv_0_lt_compat; lra|]. rewrite <- Rinv_1. apply Rinv_le_contravar; lra. }
  nra.
Qed.

Definition end_point (l : list point) (d : R) (x : point) : Prop :=
  exists a b n p1 p2, nth_error l (length l - 2) = Some a /\ nth_error l (length l - 1) = Some b /\ 0 < n /\ p1 * p1 + p2 * p2 = 1 /\
    psub b a = (n * p1, n * p2) /\ euclid a b = n /\ x = shifted b (- (d * p2)) (d * p1).

Lemma perp_size p1 p2 d : p1 * p1 + p2 * p2 = 1 -> - (d * p2) * - (d * p2) + d * p1 * (d * p1) <= 2 * (d * d).
Proof.
  intros U. replace (- (d * p2) * - (d * p2) + d * p1 * (d * p1)) with (d * d * (p1 * p1 + p2 * p2)) by ring. rewrite U.
  assert (0 <= d * d) by apply Rle_0_sqr. lra.
Qed.
Lemma corner_near l i a b d : no_doubled l -> nth_error l i = Some a -> nth_error l (S i) = Some b ->
  exists ps still, shift_point l d (S i) (vicinity l (S i)) = Done (ps, still) /\
    ((exists x, ps = [x] /\ sq x b <= 2 * (d * d)) \/ (exists x y, ps = [x; y] /\ sq x b <= 2 * (d * d) /\ sq y b <= 2 * (d * d))) /\
    (still = false -> (S (S i) < length l)%nat) /\ (S (S i) = length l -> still = true /\ exists x, ps = [x] /\ end_point l d x).
Proof.
  intros D Ha Hb. destruct (unit_of a b (no_doubled_nth _ _ _ _ D Ha Hb)) as (n & p1 & p2 & N & U & E & _ & _ & EN).
  destruct (nth_error l (S (S i))) as [c|] eqn:Hc.
  - assert (L : (S (S i) < length l)%nat) by (apply nth_error_Some; congruence).
    destruct (unit_of b c (no_doubled_nth _ _ _ _ D Hb Hc)) as (n' & f1 & f2 & N' & U' & E' & _).
    destruct (convex_here d p1 p2 f1 f2) eqn:CH.
    + destruct (Rlt_dec (p1 * f1 + p2 * f2) 0) as [G|G].
      * rewrite (inner_sharp l i a b c d n n' p1 p2 f1 f2) by auto. eexists. exists true. split; [reflexivity|]. split; [|split; [auto|intros; lia]].
        right. eexists. eexists. split; [reflexivity|]. unfold overshoot.
        destruct (sharp_angle (p1 * f1 + p2 * f2)) as (C & S & _ & _ & _ & _ & T & _).
        { apply (cs_range p1 p2 f1 f2); auto. }
        split; apply sq_shifted; [apply sharp_size; auto|].
        pose proof (sharp_size f1 f2 (- d) _ U' T) as Z. eapply Rle_trans; [|replace (2 * (d * d)) with (2 * (- d * - d)) by ring; exact Z].
        right. ring.
      * rewrite (inner_lateral l i a b c d n n' p1 p2 f1 f2) by (auto; lra). eexists. exists true. split; [reflexivity|]. split; [|split; [auto|intros; lia]].
        left. eexists. split; [reflexivity|]. apply sq_shifted. apply lateral_size; auto. lra.
    + rewrite (inner_concave l i a b c d n n' p1 p2 f1 f2) by auto. eexists. exists false. split; [reflexivity|]. split; [|split; [auto|intros; lia]].
      left. eexists. split; [reflexivity|]. apply sq_shifted. apply perp_size. auto.
  - assert (L : length l = S (S i)).
    { apply nth_error_None in Hc. assert (S i < length l)%nat by (apply nth_error_Some; congruence). lia. }
    rewrite (lateral_last l i a b d n p1 p2) by (auto; lia). eexists. exists true. split; [reflexivity|]. split; [|split; [discriminate|]].
    + left. eexists. split; [reflexivity|]. apply sq_shifted. apply perp_size. auto.
    + intros _. split; [auto|]. eexists. split; [reflexivity|]. exists a, b, n, p1, p2. rewrite L. simpl. rewrite Nat.sub_0_r. auto 10.
Qed.

Lemma pairs_app_last l x y : pairs (l ++ [x; y]) = pairs (l ++ [x]) ++ [(x, y)].
Proof.
  induction l as [|a l IH]; [reflexivity|]. destruct l as [|b l]; [reflexivity|].
  change ((a :: b :: l) ++ [x; y]) with (a :: b :: (l ++ [x; y])). change ((a :: b :: l) ++ [x]) with (a :: b :: (l ++ [x])).
  rewrite !pairs_cons. simpl in IH |- *. now rewrite IH.
Qed.

Lemma convex_part_near l d : no_doubled l -> forall n i a u, n = (length l - S i)%nat -> (S i < length l)%nat -> nth_error l i = Some a ->
  sq u a <= 2 * (d * d) ->
  exists ps e, convex_part l d n (S i) = Done (ps, e) /\ ps <> [] /\ (S i <= e < length l)%nat /\ Forall (near_pair l (2 * (d * d))) (pairs (u :: ps)) /\
    (e = (length l - 1)%nat -> end_point l d (last ps (0, 0))).
Proof.
  intros D n. induction n as [|n IH]; intros i a u En Li Ha Hu; [lia|].
  destruct (nth_error l (S i)) as [b|] eqn:Hb; [|apply nth_error_None in Hb; lia].
  destruct (corner_near l i a b d D Ha Hb) as (ps & still & E1 & E2 & E3 & E4).
  cbn [convex_part]. rewrite E1. cbn [bind].
  assert (Ib : In b l) by (eapply nth_error_In; eauto).
  assert (Iab : In (a, b) (pairs l)) by (apply nth_error_In with i; apply pairs_nth; auto).
  assert (NP : forall rest y, sq y b <= 2 * (d * d) -> last ps (0, 0) = y -> Forall (near_pair l (2 * (d * d))) (pairs (y :: rest)) ->
    Forall (near_pair l (2 * (d * d))) (pairs (u :: ps ++ rest))).
  { intros rest y Hy Ly F. destruct E2 as [(x & -> & X)|(x & z & -> & X & Z)]; simpl in Ly; subst y.
    - simpl app. rewrite pairs_cons. constructor; [|auto]. exists a, b. auto.
    - simpl app. rewrite !pairs_cons. constructor; [|constructor; [|auto]]; [exists a, b; auto|exists b, b; auto]. }
  assert (LY : sq (last ps (0, 0)) b <= 2 * (d * d)) by (destruct E2 as [(x & -> & X)|(x & z & -> & X & Z)]; auto).
  assert (PS : ps <> []) by (destruct E2 as [(x & -> & X)|(x & z & -> & X & Z)]; discriminate).
  assert (NP0 : Forall (near_pair l (2 * (d * d))) (pairs (u :: ps))).
  { rewrite <- (app_nil_r ps). apply (NP [] (last ps (0, 0))); auto. constructor. }
  destruct still.
  - destruct (Nat.eq_dec (S (S i)) (length l)) as [EL|NL].
    + assert (n = 0)%nat by lia. subst n. cbn [convex_part bind]. exists (ps ++ []), (S (S i) - 1)%nat. split; [reflexivity|]. rewrite app_nil_r.
      split; [auto|]. split; [lia|]. split; [auto|]. intros _. destruct (E4 EL) as (_ & x & -> & X). exact X.
    + destruct (IH (S i) b (last ps (0, 0))) as (ps' & e & F1 & F2 & F3 & F4 & F5); auto; try lia.
      rewrite F1. cbn [bind]. exists (ps ++ ps'), e. split; [reflexivity|]. split; [destruct ps; [tauto|discriminate]|]. split; [lia|]. split.
      * apply (NP ps' (last ps (0, 0))); auto.
      * intros Ee. specialize (F5 Ee). destruct ps' as [|z zs]; [tauto|]. rewrite (app_removelast_last (l := z :: zs) (0, 0)), app_assoc by discriminate.
        rewrite last_last. exact F5.
  - exists ps, (S i). split; [reflexivity|]. split; [auto|]. specialize (E3 eq_refl). split; [lia|]. split; [auto|]. intros Ee. lia.
Qed.

(** The first point beside a point, seen from the segment that starts there *)
Lemma perp_start l i a b d : no_doubled l -> nth_error l i = Some a -> nth_error l (S i) = Some b ->
  exists n p1 p2, 0 < n /\ p1 * p1 + p2 * p2 = 1 /\ psub b a = (n * p1, n * p2) /\ euclid a b = n /\
    shift_perpendicular l i d false (vicinity l i) = Done (shifted a (- (d * p2)) (d * p1)).
Proof.
  intros D Ha Hb. destruct (unit_of a b (no_doubled_nth _ _ _ _ D Ha Hb)) as (n & p1 & p2 & N & U & E & _ & _ & EN).
  exists n, p1, p2. do 4 (split; [auto|]).
  assert (L : (S i < length l)%nat) by (apply nth_error_Some; congruence).
  assert (X : snd (vicinity l i) = psub b a).
  { unfold vicinity. replace (i + 1)%nat with (S i) by lia. destruct (Nat.eqb_spec i 0); [|destruct (Nat.eqb_spec (S i) (length l)); [lia|]];
    cbn [snd]; rewrite (at_index_nth _ _ _ Ha), (at_index_nth _ _ _ Hb); reflexivity. }
  unfold shift_perpendicular. rewrite andb_false_r. replace (i + 1)%nat with (S i) by lia.
  destruct (Nat.eqb_spec (S i) (length l)); [lia|]. cbn [andb]. rewrite X, E, normalized_unit, (at_index_nth _ _ _ Ha) by auto.
  unfold padd, pscale, turned, shifted. simpl. do 2 f_equal; ring.
Qed.
Lemma convex_parts_near l d : no_doubled l -> forall fuel cur, (length l - 1 - cur <= fuel)%nat -> (cur < length l)%nat ->
  exists parts, convex_parts l d fuel cur = Done parts /\ Forall (fun p => (2 <= length p)%nat) parts /\
    Forall (fun p => Forall (near_pair l (2 * (d * d))) (pairs p)) parts /\
    ((cur + 1 < length l)%nat -> parts <> [] /\ end_point l d (last (last parts []) (0, 0)) /\
       exists a b n p1 p2, nth_error l cur = Some a /\ nth_error l (S cur) = Some b /\ 0 < n /\ p1 * p1 + p2 * p2 = 1 /\ psub b a = (n * p1, n * p2) /\
       euclid a b = n /\ hd (0, 0) (hd [] parts) = shifted a (- (d * p2)) (d * p1)).
Proof.
  intros D. induction fuel as [|fuel IH]; intros cur Hf Hc.
  - exists []. cbn [convex_parts]. destruct (Nat.ltb_spec (cur + 1) (length l)); [lia|]. do 3 (split; auto). intros; lia.
  - cbn [convex_parts]. destruct (Nat.ltb_spec (cur + 1) (length l)) as [L|L].
    + destruct (nth_error l cur) as [a|] eqn:Ha; [|apply nth_error_None in Ha; lia].
      destruct (nth_error l (S cur)) as [b|] eqn:Hb; [|apply nth_error_None in Hb; lia].
      destruct (perp_start l cur a b d D Ha Hb) as (n & p1 & p2 & N & U & E & EN & SP). rewrite SP. cbn [bind].
      replace (cur + 1)%nat with (S cur) by lia.
      destruct (convex_part_near l d D (length l - S cur) cur a (shifted a (- (d * p2)) (d * p1))) as (ps & e & F1 & F2 & F3 & F4 & F5); auto; try lia.
      { apply sq_shifted. apply perp_size. auto. }
      rewrite F1. cbn [bind]. destruct (IH e) as (parts & G1 & G2 & G3 & G4); try lia. rewrite G1. cbn [bind].
      eexists. split; [reflexivity|]. split; [constructor; [destruct ps; [tauto|simpl; lia]|auto]|]. split; [constructor; auto|].
      intros _. split; [discriminate|]. split; [|exists a, b, n, p1, p2; auto 10].
      destruct (Nat.eq_dec e (length l - 1)) as [->|Ne].
      * assert (parts = []) as ->.
        { clear - G1. destruct fuel; cbn [convex_parts] in G1; destruct (Nat.ltb_spec (length l - 1 + 1) (length l)); try lia; congruence. }
        specialize (F5 eq_refl). destruct ps as [|z zs]; [tauto|]. exact F5.
      * destruct G4 as (G4 & G5 & _); [lia|]. destruct parts as [|q qs]; [tauto|]. exact G5.
    + exists []. do 3 (split; auto). intros; lia.
Qed.

Lemma near_pair_on l r u x : near_pair l r u -> on_segment u x -> (2 <= length l)%nat -> exists y, on_line l y /\ sq x y <= r.
Proof.
  intros (a & b & H & H1 & H2) (t & Ht & ->) L. exists (between a b t). split; [|apply sq_between; auto].
  destruct H as [H|[<- H]].
  - exists (a, b). split; [auto|]. exists t. auto.
  - rewrite between_same. destruct (vertex_on l a L H) as (s & S1 & S2). exists s. auto.
Qed.
Section Bound.
Variable query : list (segment * nat) -> segment -> list (segment * nat).
Variable meet : segment -> segment -> list point.
Hypothesis Q : query_ok query.
Hypothesis M : meet_ok meet.
Lemma beside_of a b n p1 p2 x d : psub b a = (n * p1, n * p2) -> euclid a b = n -> p1 * p1 + p2 * p2 = 1 ->
  beside a b x d (shifted x (- (d * p2)) (d * p1)).
Proof.
  intros E EN U. unfold beside, shifted. destruct a as [a1 a2], b as [b1 b2]. unfold psub in E. simpl in *. injection E as -> ->. rewrite EN. split; [ring|].
  replace (n * p1 * (snd x + d * p1 - snd x) - n * p2 * (fst x + - (d * p2) - fst x)) with (d * n * (p1 * p1 + p2 * p2)) by ring. rewrite U. ring.
Qed.
Theorem offset_near l d : no_doubled l -> (2 <= length l)%nat ->
  exists r, offset_no_throw query meet l d = Done r /\ (2 <= length r)%nat /\
    Forall (fun x => exists y, on_line l y /\ euclid x y <= sqrt 2 * Rabs d) r /\
    (forall a b, nth_error l 0 = Some a -> nth_error l 1 = Some b -> beside a b a d (hd (0, 0) r)) /\
    (forall a b, nth_error l (length l - 2) = Some a -> nth_error l (length l - 1) = Some b -> beside a b b d (last r (0, 0))).
Proof.
  intros D L. unfold offset_no_throw, extract_convex.
  destruct (convex_parts_near l d D (length l) 0) as (parts & E1 & E2 & E3 & E4); [lia|lia|].
  rewrite E1. cbn [bind]. destruct (join_general query meet Q M parts E2) as (r & R1 & R2 & R3 & R4 & R5).
  destruct E4 as (E4 & (a' & b' & n' & q1 & q2 & X1 & X2 & X3 & X4 & X5 & X6 & X7) & (a & b & n & p1 & p2 & Y1 & Y2 & Y3 & Y4 & Y5 & Y6 & Y7)); [lia|].
  exists r. split; [auto|]. split.
  { destruct parts as [|p [|p' parts]]; [tauto| |].
    - simpl in R1. injection R1 as <-. inversion E2; auto.
    - destruct r as [|v [|w r]]; [destruct R3; auto; discriminate| |simpl; lia]. exfalso. clear - R1 E2.
      unfold join_parts in R1. destruct p; [inversion E2; simpl in *; lia|]. destruct (join_loop _ _ _ _ _ _ _ _ _ _) as [rest| | | |]; try discriminate. cbn [bind] in R1.
      destruct (last _ _) as [|z zs]; [discriminate|]. injection R1 as _ R1. destruct rest; discriminate. }
  split; [|split].
  - eapply Forall_impl; [|exact R2]. intros x (p & s & I1 & I2 & I3). rewrite Forall_forall in E3. specialize (E3 p I1). rewrite Forall_forall in E3.
    destruct (near_pair_on l _ s x (E3 s I2) I3 L) as (y & O1 & O2). exists y. split; [auto|]. apply sq_bound. auto.
  - intros a1 b1 Z1 Z2. assert (a1 = a) by congruence. assert (b1 = b) by congruence. subst a1 b1. rewrite R4, Y7. eapply beside_of; eauto.
  - intros a1 b1 Z1 Z2. assert (a1 = a') by congruence. assert (b1 = b') by congruence. subst a1 b1. rewrite R5, X7. eapply beside_of; eauto.
Qed.
End Bound.
