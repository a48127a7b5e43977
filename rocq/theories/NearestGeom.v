(** The distances used by the spatial queries, in exact arithmetic: the distance to a
    bounding box is a lower bound of the distance to the line string in it. *)
From Coq Require Import List Bool Lia QArith Qminmax Lqa.
From Verif Require Import NearestModel.
Import ListNotations.
Open Scope Q_scope.

(** [q] lies on the segment from [a] to [b]. *)
Definition on_segment (a b q : pt) : Prop :=
  exists t, 0 <= t /\ t <= 1 /\
    fst q == fst a + t * (fst b - fst a) /\ snd q == snd a + t * (snd b - snd a).

(** [q] lies on the line string with the points [a :: l]. *)
Inductive on_line : pt -> list pt -> pt -> Prop :=
| on_single a q : fst q == fst a -> snd q == snd a -> on_line a [] q
| on_first a b l q : on_segment a b q -> on_line a (b :: l) q
| on_later a b l q : on_line b l q -> on_line a (b :: l) q.

Lemma qb_true x y : Qle_bool x y = true -> x <= y.
Proof. apply Qle_bool_iff. Qed.
Lemma qb_false x y : Qle_bool x y = false -> y <= x.
Proof.
  intros H. destruct (Qlt_le_dec y x) as [L|L]; [apply Qlt_le_weak; auto|].
  apply Qle_bool_iff in L. congruence.
Qed.
Lemma qb_false_lt x y : Qle_bool x y = false -> y < x.
Proof.
  intros H. destruct (Qlt_le_dec y x) as [L|L]; auto.
  apply Qle_bool_iff in L. congruence.
Qed.

Lemma square_pos x : 0 <= x * x.
Proof. nra. Qed.

Global Instance sqdist_proper p : Proper ((fun a b => fst a == fst b /\ snd a == snd b) ==> Qeq) (sqdist p).
Proof. intros a b [H1 H2]. unfold sqdist, sq. rewrite H1, H2. reflexivity. Qed.

Lemma seg_attained p a b : exists q, on_segment a b q /\ seg_sqdist p a b == sqdist p q.
Proof.
  unfold seg_sqdist. cbv zeta.
  set (vx := fst b - fst a). set (vy := snd b - snd a).
  set (c1 := (fst p - fst a) * vx + (snd p - snd a) * vy).
  set (c2 := vx * vx + vy * vy).
  destruct (Qle_bool c1 0) eqn:E1; [|destruct (Qle_bool c2 c1) eqn:E2].
  - exists a. split; [|reflexivity]. exists 0. repeat split; try lra; ring.
  - exists b. split; [|reflexivity]. exists 1. repeat split; try lra; ring.
  - apply qb_false_lt in E1. apply qb_false_lt in E2.
    exists (fst a + c1 / c2 * vx, snd a + c1 / c2 * vy). split; [|reflexivity].
    assert (P : 0 < c2) by lra.
    exists (c1 / c2). repeat split; simpl; try reflexivity.
    + apply Qle_shift_div_l; [auto|]. lra.
    + apply Qle_shift_div_r; [auto|]. lra.
Qed.

Lemma seg_min p a b q : on_segment a b q -> seg_sqdist p a b <= sqdist p q.
Proof.
  intros (t & T0 & T1 & X & Y).
  assert (EQ : sqdist p q == sqdist p (fst a + t * (fst b - fst a), snd a + t * (snd b - snd a))).
  { apply sqdist_proper. split; auto. }
  rewrite EQ. clear EQ X Y q. unfold seg_sqdist. cbv zeta.
  set (vx := fst b - fst a). set (vy := snd b - snd a).
  set (wx := fst p - fst a). set (wy := snd p - snd a).
  set (c1 := wx * vx + wy * vy). set (c2 := vx * vx + vy * vy).
  assert (R : sqdist p (fst a + t * vx, snd a + t * vy)
              == wx * wx + wy * wy - 2 * t * c1 + t * t * c2).
  { unfold sqdist, sq, c1, c2, wx, wy; simpl. ring. }
  assert (C2 : 0 <= c2) by (unfold c2; nra).
  rewrite R.
  destruct (Qle_bool c1 0) eqn:E1; [|destruct (Qle_bool c2 c1) eqn:E2].
  - apply qb_true in E1. assert (Q1 : sqdist p a == wx * wx + wy * wy) by reflexivity.
    rewrite Q1. nra.
  - apply qb_true in E2. assert (Q1 : sqdist p b == wx * wx + wy * wy - 2 * c1 + c2).
    { unfold sqdist, sq, c1, c2, wx, wy, vx, vy; simpl. ring. }
    rewrite Q1.
    assert (0 <= (1 - t) * (2 * c1 - (1 + t) * c2)).
    { apply Qmult_le_0_compat; [lra|]. nra. }
    nra.
  - apply qb_false_lt in E1. apply qb_false_lt in E2. assert (P : 0 < c2) by lra.
    assert (Q1 : sqdist p (fst a + c1 / c2 * vx, snd a + c1 / c2 * vy)
       == wx * wx + wy * wy - 2 * (c1 / c2) * c1 + (c1 / c2) * (c1 / c2) * c2).
    { generalize (c1 / c2). intros z. unfold sqdist, sq, c1, c2, wx, wy; simpl. ring. }
    rewrite Q1. set (z := c1 / c2).
    assert (Z : z * c2 == c1) by (unfold z; field; lra).
    rewrite <- Z. assert (0 <= c2 * ((t - z) * (t - z))) by (apply Qmult_le_0_compat; [lra|apply square_pos]).
    clearbody z. clear - H. nra.
Qed.

Theorem line_min p a l :
  (exists q, on_line a l q /\ line_sqdist p a l == sqdist p q) /\
  (forall q, on_line a l q -> line_sqdist p a l <= sqdist p q).
Proof.
  revert a. induction l as [|b l IH]; intros a.
  - simpl. split.
    + exists a. split; [constructor|]; reflexivity.
    + intros q H. inversion H; subst. apply Qle_lteq. right. apply sqdist_proper. split; symmetry; auto.
  - destruct (IH b) as [[q0 [L0 E0]] M0].
    destruct (seg_attained p a b) as [q1 [L1 E1]].
    assert (SM := seg_min p a b).
    assert (E : line_sqdist p a (b :: l) =
      match l with [] => seg_sqdist p a b | _ => Qmin (seg_sqdist p a b) (line_sqdist p b l) end)
      by (destruct l; reflexivity).
    rewrite E. destruct l as [|c l].
    + split.
      * exists q1. split; auto. apply on_first; auto.
      * intros q H. apply SM. inversion H as [|? ? ? ? K|? ? ? ? K]; subst; [exact K|].
        inversion K as [? ? X Y| |]; subst.
        exists 1. split; [lra|]. split; [lra|]. rewrite X, Y. split; ring.
    + clear E. generalize dependent (line_sqdist p b (c :: l)). intros z E0 M0.
      assert (N : forall q, on_line a (b :: c :: l) q -> on_segment a b q \/ on_line b (c :: l) q).
      { intros q H. inversion H; subst; auto. }
      destruct (Q.min_spec (seg_sqdist p a b) z) as [[LT EQ]|[GE EQ]].
      * split.
        -- exists q1. split; [apply on_first; auto|]. rewrite EQ; auto.
        -- intros q H. rewrite EQ. destruct (N q H); [auto|].
           apply Qle_trans with z; [apply Qlt_le_weak; auto|auto].
      * split.
        -- exists q0. split; [apply on_later; auto|]. rewrite EQ; auto.
        -- intros q H. rewrite EQ. destruct (N q H); auto.
           apply Qle_trans with (seg_sqdist p a b); auto.
Qed.

Definition in_box (b : box) (q : pt) : Prop :=
  x_lo b <= fst q /\ fst q <= x_hi b /\ y_lo b <= snd q /\ snd q <= y_hi b.

Lemma box_of_contains a l : forall q, In q (a :: l) -> in_box (box_of a l) q.
Proof.
  unfold box_of. intros q H.
  assert (X : forall l b, (forall q, in_box b q \/ In q l ->
    in_box (fold_left (fun b p => Box (Qmin (x_lo b) (fst p)) (Qmax (x_hi b) (fst p))
                            (Qmin (y_lo b) (snd p)) (Qmax (y_hi b) (snd p))) l b) q)).
  { induction l0 as [|p l0 IH]; simpl; intros b q0 [K|K]; auto; try tauto.
    - apply IH. left. destruct K as (K1 & K2 & K3 & K4). unfold in_box; simpl.
      repeat split.
      + apply Qle_trans with (x_lo b); auto. apply Q.le_min_l.
      + apply Qle_trans with (x_hi b); auto. apply Q.le_max_l.
      + apply Qle_trans with (y_lo b); auto. apply Q.le_min_l.
      + apply Qle_trans with (y_hi b); auto. apply Q.le_max_l.
    - destruct K as [->|K]; [|apply IH; auto]. apply IH. left. unfold in_box; simpl. repeat split.
      + apply Q.le_min_r.
      + apply Q.le_max_r.
      + apply Q.le_min_r.
      + apply Q.le_max_r. }
  apply X. destruct H as [<-|H]; auto. left. unfold in_box; simpl. repeat split; apply Qle_refl.
Qed.

Lemma convex lo hi x y t : lo <= x -> x <= hi -> lo <= y -> y <= hi -> 0 <= t -> t <= 1 ->
  lo <= x + t * (y - x) /\ x + t * (y - x) <= hi.
Proof.
  intros. assert (x + t * (y - x) == (1 - t) * x + t * y) as -> by ring.
  assert (0 <= (1 - t) * (x - lo)) by (apply Qmult_le_0_compat; lra).
  assert (0 <= t * (y - lo)) by (apply Qmult_le_0_compat; lra).
  assert (0 <= (1 - t) * (hi - x)) by (apply Qmult_le_0_compat; lra).
  assert (0 <= t * (hi - y)) by (apply Qmult_le_0_compat; lra).
  split; lra.
Qed.

Lemma on_line_in_box bb a l q : (forall p, In p (a :: l) -> in_box bb p) -> on_line a l q -> in_box bb q.
Proof.
  intros H L. induction L as [a q X Y|a b l q (t & T0 & T1 & X & Y)|a b l q L IH].
  - destruct (H a) as (A1 & A2 & A3 & A4); simpl; auto. unfold in_box. rewrite X, Y. auto.
  - destruct (H a) as (A1 & A2 & A3 & A4); simpl; auto.
    destruct (H b) as (B1 & B2 & B3 & B4); simpl; auto.
    unfold in_box. rewrite X, Y.
    destruct (convex _ _ _ _ t A1 A2 B1 B2 T0 T1), (convex _ _ _ _ t A3 A4 B3 B4 T0 T1). auto.
  - apply IH. intros p Hp. apply H. simpl in *; auto.
Qed.

Lemma axis_bound lo hi x y : lo <= y -> y <= hi -> sq (axis_dist lo hi x) <= sq (x - y).
Proof.
  intros L H. unfold axis_dist, sq. destruct (Qle_bool lo x) eqn:E1.
  - apply qb_true in E1. destruct (Qle_bool x hi) eqn:E2.
    + assert (P := square_pos (x - y)). lra.
    + apply qb_false in E2. assert (0 <= (hi - y) * ((x - y) + (x - hi))) by (apply Qmult_le_0_compat; lra). nra.
  - apply qb_false in E1. assert (0 <= (y - lo) * ((y - x) + (lo - x))) by (apply Qmult_le_0_compat; lra). nra.
Qed.

(** The box distance is a lower bound. *)
Theorem box_bound p a l : box_sqdist (box_of a l) p <= line_sqdist p a l.
Proof.
  destruct (line_min p a l) as [[q [L E]] _]. rewrite E.
  destruct (on_line_in_box (box_of a l) a l q (box_of_contains a l) L) as (A1 & A2 & A3 & A4).
  unfold box_sqdist, sqdist. apply Qplus_le_compat; apply axis_bound; auto.
Qed.

(** Everything within distance [d] is found by the box query. *)
Theorem search_bound p a l d : 0 <= d -> line_sqdist p a l <= sq d ->
  boxes_meet (around p d) (box_of a l) = true.
Proof.
  intros D H. destruct (line_min p a l) as [[q [L E]] _]. rewrite E in H.
  destruct (on_line_in_box (box_of a l) a l q (box_of_contains a l) L) as (A1 & A2 & A3 & A4).
  assert (X : forall u, u * u <= sq d -> - d <= u /\ u <= d).
  { intros u Hu. unfold sq in Hu.
    split; destruct (Qlt_le_dec u (- d)), (Qlt_le_dec d u); try lra; exfalso; nra. }
  unfold sqdist in H.
  assert (S1 := square_pos (fst p - fst q)). assert (S2 := square_pos (snd p - snd q)).
  fold (sq (fst p - fst q)) in S1. fold (sq (snd p - snd q)) in S2.
  destruct (X (fst p - fst q)) as [X1 X2]; [fold (sq (fst p - fst q)); lra|].
  destruct (X (snd p - snd q)) as [Y1 Y2]; [fold (sq (snd p - snd q)); lra|].
  unfold boxes_meet, around; simpl. rewrite !andb_true_iff, !Qle_bool_iff.
  repeat split; lra.
Qed.

Lemma q_total a b : Qle_bool a b = true \/ Qle_bool b a = true.
Proof. rewrite !Qle_bool_iff. destruct (Qlt_le_dec a b); [left; apply Qlt_le_weak|right]; auto. Qed.
Lemma q_trans a b c : Qle_bool a b = true -> Qle_bool b c = true -> Qle_bool a c = true.
Proof. rewrite !Qle_bool_iff. apply Qle_trans. Qed.
