From Coq Require Import List Bool Arith ZArith QArith Lqa Lia Sorting.Sorted Sorting.Permutation Morphisms Setoid.
From Verif Require Import ClosestModel ClosestSpec ClosestProofs.
Import ListNotations.
Local Open Scope Q_scope.

Lemma plane_lawful : lawful plane.
Proof.
  constructor; cbn.
  - intros [] []; cbn; ring.
  - intros [] [] []; cbn; ring.
  - intros [] [] []; cbn; ring.
  - intros k [] []; cbn; ring.
  - intros [x y]; cbn. nra.
Qed.
Lemma solid_lawful : lawful solid.
Proof.
  constructor; cbn.
  - intros [[] ?] [[] ?]; cbn; ring.
  - intros [[] ?] [[] ?] [[] ?]; cbn; ring.
  - intros [[] ?] [[] ?] [[] ?]; cbn; ring.
  - intros k [[] ?] [[] ?]; cbn; ring.
  - intros [[x y] z]; cbn. nra.
Qed.

Lemma square_pos (k : Q) : 0 <= k * k.
Proof. nra. Qed.

Section Vec.
Context {V : space} (L : lawful V).
Implicit Types a b x y z p q u v w : V.
Lemma dot_add_r x y z : dot z (vadd x y) == dot z x + dot z y.
Proof. rewrite (dot_comm _ L), (dot_add _ L), (dot_comm _ L x), (dot_comm _ L y). reflexivity. Qed.
Lemma dot_sub_r x y z : dot z (vsub x y) == dot z x - dot z y.
Proof. rewrite (dot_comm _ L), (dot_sub _ L), (dot_comm _ L x), (dot_comm _ L y). reflexivity. Qed.
Lemma dot_scale_r k x z : dot z (vscale k x) == k * dot z x.
Proof. rewrite (dot_comm _ L), (dot_scale _ L), (dot_comm _ L x). reflexivity. Qed.
Ltac dots := repeat first [rewrite (dot_add _ L) | rewrite (dot_sub _ L) | rewrite (dot_scale _ L)
  | rewrite dot_add_r | rewrite dot_sub_r | rewrite dot_scale_r].

Lemma cauchy x y : dot x y * dot x y <= dot x x * dot y y.
Proof.
  pose proof (dot_pos _ L x) as A. pose proof (dot_pos _ L y) as C.
  destruct (Qlt_le_dec 0 (dot y y)) as [P|N].
  - pose proof (dot_pos _ L (vsub (vscale (dot y y) x) (vscale (dot x y) y))) as H.
    revert H. dots. rewrite (dot_comm _ L y x). intros H.
    set (a := dot x x) in *. set (b := dot x y) in *. set (c := dot y y) in *.
    assert (0 <= c * (a * c - b * b)) by lra. nra.
  - assert (C0 : dot y y == 0) by lra.
    assert (B0 : dot x y == 0).
    { destruct (Qeq_dec (dot x y) 0) as [E|E]; auto. exfalso.
      pose proof (dot_pos _ L (vsub x (vscale ((dot x x + 1) / (2 * dot x y)) y))) as H.
      revert H. dots. rewrite (dot_comm _ L y x), C0.
      set (a := dot x x) in *. set (b := dot x y) in *. set (k := (a + 1) / (2 * b)).
      intros H. assert (2 * k * b == a + 1) by (unfold k; field; auto). nra. }
    rewrite B0, C0. lra.
Qed.
Lemma null_dot x : dot x x == 0 -> forall y, dot x y == 0.
Proof.
  intros H y. pose proof (cauchy x y) as C. rewrite H in C.
  set (b := dot x y) in *. destruct (Qlt_le_dec b 0); destruct (Qlt_le_dec 0 b); nra.
Qed.

(** Points at distance zero cannot be told apart by the product. *)
Lemma sq_pos x y : 0 <= sq x y.
Proof. apply (dot_pos _ L). Qed.
Lemma sq_refl x : sq x x == 0.
Proof. unfold sq. dots. ring. Qed.
Lemma sq_sym x y : sq x y == sq y x.
Proof. unfold sq. dots. rewrite (dot_comm _ L x y). ring. Qed.
Lemma same_dot x y : sq x y == 0 -> forall z, dot x z == dot y z.
Proof. intros H z. pose proof (null_dot _ H z) as K. rewrite (dot_sub _ L) in K. lra. Qed.
Lemma sq_same x x' y y' : sq x x' == 0 -> sq y y' == 0 -> sq x y == sq x' y'.
Proof.
  intros H K. pose proof (same_dot _ _ H) as A. pose proof (same_dot _ _ K) as B. unfold sq. dots.
  rewrite (A x), (A y), (B x), (B y).
  rewrite (dot_comm _ L x' x), (dot_comm _ L x' y), (dot_comm _ L y' x), (dot_comm _ L y' y).
  rewrite !A, !B. ring.
Qed.
Lemma sq_zero_trans x y z : sq x y == 0 -> sq y z == 0 -> sq x z == 0.
Proof. intros A B. rewrite (sq_same x y z z A (sq_refl z)). exact B. Qed.

Lemma on_segment_start a b : on_segment a b a.
Proof. exists 0. repeat split; try lra. unfold sq, at_param. dots. ring. Qed.
Lemma on_segment_end a b : on_segment a b b.
Proof. exists 1. repeat split; try lra. unfold sq, at_param. dots. ring. Qed.
Lemma on_segment_param a b t : 0 <= t -> t <= 1 -> on_segment a b (at_param a b t).
Proof. intros. exists t. repeat split; auto. apply sq_refl. Qed.
Lemma on_segment_same a b x y : sq x y == 0 -> on_segment a b x -> on_segment a b y.
Proof. intros H (t & A & B & C). exists t. repeat split; auto. apply sq_zero_trans with x; auto. rewrite sq_sym. exact H. Qed.
Lemma on_degenerate a b x : sq a b == 0 -> on_segment a b x -> sq x a == 0.
Proof.
  intros H (t & A & B & C). apply sq_zero_trans with (at_param a b t); auto.
  unfold sq, at_param. rewrite sq_sym in H. dots.
  assert (X : dot b b == dot a b) by (apply same_dot; exact H).
  assert (Y : dot b a == dot a a) by (apply same_dot; exact H).
  rewrite X, (dot_comm _ L a b), Y. ring.
Qed.

(** * A point and a segment *)
Lemma project_segment_on a b p : on_segment a b (project_segment a b p).
Proof.
  unfold project_segment. repeat qcase; qhyps; [apply on_segment_start|apply on_segment_end|].
  set (c1 := dot (vsub p a) (vsub b a)) in *. set (c2 := dot (vsub b a) (vsub b a)) in *.
  exists (c1 / c2). split; [|split].
  - apply Qle_shift_div_l; lra.
  - apply Qle_shift_div_r; lra.
  - unfold sq, at_param. dots. rewrite (dot_comm _ L b a). ring.
Qed.
Lemma param_sq a b p s t :
  sq (at_param a b t) p - sq (at_param a b s) p ==
  (t - s) * (2 * (s * dot (vsub b a) (vsub b a) - dot (vsub p a) (vsub b a)) + (t - s) * dot (vsub b a) (vsub b a)).
Proof.
  unfold sq, at_param. dots. rewrite (dot_comm _ L b a), (dot_comm _ L p a), (dot_comm _ L p b). ring.
Qed.
Lemma kkt_dir g s t : 0 <= s -> s <= 1 -> 0 <= t -> t <= 1 -> kkt g s -> 0 <= g * (t - s).
Proof.
  intros X0 X1 Y0 Y1 [K1 K2].
  destruct (Qlt_le_dec s t) as [Z|Z]; [specialize (K2 ltac:(lra)); apply Qmult_le_0_compat; lra|].
  destruct (Qlt_le_dec t s) as [Z'|Z'].
  - specialize (K1 ltac:(lra)). setoid_replace (g * (t - s)) with (- g * (s - t)) by ring. apply Qmult_le_0_compat; lra.
  - assert (t - s == 0) as -> by lra. lra.
Qed.
Lemma project_segment_nearest a b p x : on_segment a b x -> sq (project_segment a b p) p <= sq x p.
Proof.
  intros (t & T0 & T1 & Hx). rewrite (sq_same x (at_param a b t) p p Hx (sq_refl p)).
  assert (exists s, 0 <= s /\ s <= 1 /\ sq (project_segment a b p) (at_param a b s) == 0 /\
    kkt (s * dot (vsub b a) (vsub b a) - dot (vsub p a) (vsub b a)) s) as (s & S0 & S1 & Hs & K).
  { unfold project_segment. pose proof (dot_pos _ L (vsub b a)) as P. repeat qcase; qhyps.
    - exists 0. repeat split; try lra. unfold sq, at_param; dots; ring.
    - exists 1. repeat split; try lra. unfold sq, at_param; dots; ring.
    - set (c1 := dot (vsub p a) (vsub b a)) in *. set (c2 := dot (vsub b a) (vsub b a)) in *.
      exists (c1 / c2). split; [apply Qle_shift_div_l; lra|]. split; [apply Qle_shift_div_r; lra|].
      split; [unfold sq, at_param; dots; rewrite (dot_comm _ L b a); ring|].
      assert (c1 / c2 * c2 == c1) by (field; lra). split; intros; lra. }
  rewrite (sq_same _ (at_param a b s) p p Hs (sq_refl p)).
  pose proof (param_sq a b p s t) as E. pose proof (dot_pos _ L (vsub b a)) as P.
  pose proof (kkt_dir _ _ _ S0 S1 T0 T1 K) as D.
  set (c := dot (vsub b a) (vsub b a)) in *. set (g := s * c - dot (vsub p a) (vsub b a)) in *.
  assert (0 <= (t - s) * (t - s) * c) by (apply Qmult_le_0_compat; [apply square_pos|auto]).
  lra.
Qed.

(** * Two segments *)
Lemma project_pair_on (p1 p2 q1 q2 : V) : let x := project_pair p1 p2 q1 q2 in on_segment p1 p2 (fst x) /\ on_segment q1 q2 (snd x).
Proof.
  cbn zeta. rewrite (project_pair_eq p1 p2 q1 q2). cbn zeta.
  match goal with |- context [solve ?a ?b ?c ?d ?e] => destruct (solve_range a b c d e) as (A & B & C & D); [apply (dot_pos _ L)..|set (lp := solve a b c d e) in *] end.
  cbn [fst snd]. destruct (ratio_range _ _ A B), (ratio_range _ _ C D). split; apply on_segment_param; auto.
Qed.

Definition exact_pair (p1 p2 q1 q2 : V) : Prop :=
  let w := vsub p1 q1 in let u := vsub p2 p1 in let v := vsub q2 q1 in
  let a := dot u u in let b := dot u v in let c := dot v v in let d := dot u w in let e := dot v w in
  let lp := solve a b c d e in
  (a * c - b * b == 0 \/ small <= a * c - b * b) /\ exact (sN lp) /\ exact (tN lp).

Lemma project_pair_nearest (p1 p2 q1 q2 : V) x y :
  exact_pair p1 p2 q1 q2 -> (sq q1 q2 == 0 -> sq p1 p2 == 0) ->
  on_segment p1 p2 x -> on_segment q1 q2 y ->
  sq (fst (project_pair p1 p2 q1 q2)) (snd (project_pair p1 p2 q1 q2)) <= sq x y.
Proof.
  intros Hex Hdeg (s & S0 & S1 & Hx) (t & T0 & T1 & Hy).
  rewrite (sq_same _ _ _ _ Hx Hy). rewrite (project_pair_eq p1 p2 q1 q2). unfold exact_pair in Hex. cbn zeta in *.
  set (w := vsub p1 q1) in *. set (u := vsub p2 p1) in *. set (v := vsub q2 q1) in *.
  pose proof (dot_pos _ L u) as A. pose proof (dot_pos _ L v) as C. pose proof (cauchy u v) as CS.
  destruct (solve_range (dot u u) (dot u v) (dot v v) (dot u w) (dot v w) A C) as (N0 & N1 & M0 & M1).
  pose proof (solve_optimal (dot u u) (dot u v) (dot v v) (dot u w) (dot v w) A C CS) as Opt.
  set (lp := solve (dot u u) (dot u v) (dot v v) (dot u w) (dot v w)) in *. cbn zeta in Opt.
  destruct Hex as (Hden & Hs & Ht).
  destruct (ratio_range _ _ N0 N1) as [R0 R1]. destruct (ratio_range _ _ M0 M1) as [Q0 Q1].
  pose proof (ratio_exact _ _ N0 N1 Hs) as Es. pose proof (ratio_exact _ _ M0 M1 Ht) as Et.
  set (s0 := ratio (sN lp) (sD lp)) in *. set (t0 := ratio (tN lp) (tD lp)) in *.
  specialize (Opt (fun E => null_dot u E w)).
  assert (P1 : dot u u * dot v v - dot u v * dot u v == 0 -> dot v v * dot u w == dot u v * dot v w).
  { intros E. assert (Z : dot (vsub (vscale (dot v v) u) (vscale (dot u v) v)) (vsub (vscale (dot v v) u) (vscale (dot u v) v)) == 0).
    { dots. rewrite (dot_comm _ L v u). 
      match goal with |- ?l == 0 => setoid_replace l with (dot v v * (dot u u * dot v v - dot u v * dot u v)) by ring end. rewrite E. ring. }
    pose proof (null_dot _ Z w) as Z'. rewrite (dot_sub _ L), !(dot_scale _ L) in Z'. lra. }
  specialize (Opt P1).
  assert (P2 : dot v v == 0 -> dot u u == 0 /\ dot v w == 0).
  { intros E. split; [|exact (null_dot v E w)].
    assert (sq p1 p2 == 0) as Z by (apply Hdeg; rewrite sq_sym; exact E). rewrite sq_sym in Z. exact Z. }
  specialize (Opt P2 Hden s0 t0 R0 R1 Q0 Q1 Es Et). destruct Opt as [Ks Kt].
  pose proof (kkt_dir _ _ _ R0 R1 S0 S1 Ks) as I1. pose proof (kkt_dir _ _ _ Q0 Q1 T0 T1 Kt) as I2.
  pose proof (dot_pos _ L (vsub (vscale (s - s0) u) (vscale (t - t0) v))) as I3.
  cbn [fst snd]. unfold at_param. fold u v.
  assert (E : sq (vadd p1 (vscale s u)) (vadd q1 (vscale t v)) - sq (vadd p1 (vscale s0 u)) (vadd q1 (vscale t0 v)) ==
     2 * ((dot u w + s0 * dot u u - t0 * dot u v) * (s - s0) + - (dot v w + s0 * dot u v - t0 * dot v v) * (t - t0))
     + dot (vsub (vscale (s - s0) u) (vscale (t - t0) v)) (vsub (vscale (s - s0) u) (vscale (t - t0) v))).
  { unfold sq, w. clearbody u v. dots.
    rewrite (dot_comm _ L p1 u), (dot_comm _ L p1 v), (dot_comm _ L q1 u), (dot_comm _ L q1 v), (dot_comm _ L q1 p1), (dot_comm _ L v u). ring. }
  lra.
Qed.
End Vec.
