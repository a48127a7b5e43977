From Coq Require Import List Bool Arith ZArith QArith Qabs Lqa Lia Sorting.Sorted Sorting.Permutation Morphisms Setoid.
From Verif Require Import ClosestModel ClosestSpec.
Import ListNotations.
Local Open Scope Q_scope.

Lemma qlt_true x y : qlt x y = true <-> x < y.
Proof.
  unfold qlt. rewrite negb_true_iff. split; intros H.
  - apply Qnot_le_lt. intros K. apply Qle_bool_iff in K. congruence.
  - apply not_true_is_false. intros K. apply Qle_bool_iff in K. lra.
Qed.
Lemma qlt_false x y : qlt x y = false <-> y <= x.
Proof.
  unfold qlt. rewrite negb_false_iff. apply Qle_bool_iff.
Qed.
Lemma qle_false x y : Qle_bool x y = false <-> y < x.
Proof. rewrite <- qlt_true. unfold qlt. now rewrite negb_true_iff. Qed.
Ltac qcase := match goal with
  | |- context [qlt ?x ?y] => destruct (qlt x y) eqn:?
  | |- context [Qle_bool ?x ?y] => destruct (Qle_bool x y) eqn:?
  end.
Ltac qhyps := repeat match goal with
  | H : qlt _ _ = true |- _ => apply qlt_true in H
  | H : qlt _ _ = false |- _ => apply qlt_false in H
  | H : Qle_bool _ _ = true |- _ => apply Qle_bool_iff in H
  | H : Qle_bool _ _ = false |- _ => apply qle_false in H
  end.

(** * Scalar part: the parameters of the two points *)
Definition exact (x : Q) : Prop := x == 0 \/ small <= qabs x.
Definition solve (a b c d e : Q) : params := clamp_params a b d (line_params a b c d e (a * c - b * b)).

Lemma project_pair_eq {V : space} (p1 p2 q1 q2 : V) :
  let w := vsub p1 q1 in let u := vsub p2 p1 in let v := vsub q2 q1 in
  let lp := solve (dot u u) (dot u v) (dot v v) (dot u w) (dot v w) in
  project_pair p1 p2 q1 q2 = (vadd p1 (vscale (ratio (sN lp) (sD lp)) u), vadd q1 (vscale (ratio (tN lp) (tD lp)) v)).
Proof. reflexivity. Qed.

Lemma small_pos : 0 < small. Proof. reflexivity. Qed.
Lemma qabs_nonneg x : 0 <= x -> qabs x = x.
Proof. intros H. unfold qabs. destruct (qlt x 0) eqn:E; auto. apply qlt_true in E. lra. Qed.

(** The numerators lie between zero and the denominators. *)
Lemma solve_range a b c d e : 0 <= a -> 0 <= c ->
  let lp := solve a b c d e in 0 <= sN lp /\ sN lp <= sD lp /\ 0 <= tN lp /\ tN lp <= tD lp.
Proof.
  intros Ha Hc. pose proof small_pos. unfold solve, clamp_params, line_params. set (den := a * c - b * b).
  repeat (qcase; cbn [sN sD tN tD] in *); cbn [sN sD tN tD] in *; qhyps; repeat split; try lra.
Qed.
Lemma ratio_range n m : 0 <= n -> n <= m -> 0 <= ratio n m /\ ratio n m <= 1.
Proof.
  intros Hn Hm. pose proof small_pos. unfold ratio. rewrite (qabs_nonneg n Hn). qcase; qhyps; [lra|].
  assert (0 < m) by lra.
  split.
  - apply Qle_shift_div_l; lra.
  - apply Qle_shift_div_r; lra.
Qed.
Lemma ratio_exact n m : 0 <= n -> n <= m -> exact n -> ratio n m * m == n.
Proof.
  intros Hn Hm He. pose proof small_pos. unfold ratio, exact in *. rewrite (qabs_nonneg n Hn) in *. qcase; qhyps.
  - destruct He; [|lra]. lra.
  - field. intros K. lra.
Qed.

(** The optimality condition in one parameter. *)
Definition kkt (g x : Q) : Prop := (0 < x -> g <= 0) /\ (x < 1 -> 0 <= g).


Lemma kkt_clamp a k x : 0 < a -> 0 <= x -> x <= 1 ->
  (k < 0 /\ x == 0) \/ (a < k /\ x == 1) \/ (x * a == k) -> kkt (- k + x * a) x.
Proof. intros Ha H0 H1 H. unfold kkt. split; intros K; destruct H as [[? ?]|[[? ?]|?]]; nra. Qed.
Lemma kkt_mono g x h y : 0 <= x -> x <= 1 -> 0 <= y -> y <= 1 -> kkt g x -> kkt h y -> (h - g) * (y - x) <= 0.
Proof.
  intros X0 X1 Y0 Y1 [G1 G2] [H1 H2].
  destruct (Qlt_le_dec x y) as [L|L].
  - specialize (H1 ltac:(lra)). specialize (G2 ltac:(lra)). nra.
  - destruct (Qlt_le_dec y x) as [L'|L'].
    + specialize (G1 ltac:(lra)). specialize (H2 ltac:(lra)). nra.
    + assert (y - x == 0) as -> by lra. lra.
Qed.

(** [x]: a numerator; [y]: its distance from zero after moving [s]; both parameters were optimal. *)
Lemma shift_bound a b c r del : 0 < c -> b * b <= a * c -> 0 <= r -> del * del * (a * c) <= r * (b * del) -> del * b <= r.
Proof.
  intros Hc Hcs Hr H. destruct (Qlt_le_dec r (del * b)) as [L|L]; auto. exfalso.
  assert (0 < del * b) by lra.
  assert ((del * b) * (del * b) <= del * del * (a * c)).
  { setoid_replace (del * b * (del * b)) with (del * del * (b * b)) by ring.
    assert (0 <= del * del) by nra. nra. }
  nra.
Qed.
Lemma clamp_low a b c d e s0 t0 s' :
  0 < c -> b * b <= a * c -> 0 <= s0 -> s0 <= 1 -> 0 <= s' -> s' <= 1 ->
  t0 * c == e + s0 * b -> kkt (d + s0 * a - t0 * b) s0 -> t0 < 0 -> kkt (d + s' * a) s' -> e + s' * b <= 0.
Proof.
  intros Hc Hcs A0 A1 B0 B1 Et K0 Ht K1.
  pose proof (kkt_mono _ _ _ _ A0 A1 B0 B1 K0 K1) as M.
  set (del := s' - s0) in *.
  assert (M' : del * del * a + t0 * b * del <= 0) by (unfold del in *; lra).
  assert (del * b <= - (e + s0 * b)); [|unfold del in *; lra].
  apply (shift_bound a b c); auto; [nra|].
  setoid_replace (- (e + s0 * b) * (b * del)) with (- (t0 * b * del) * c) by (rewrite <- Et; ring).
  setoid_replace (del * del * (a * c)) with ((del * del * a) * c) by ring.
  apply Qmult_le_compat_r; lra.
Qed.
Lemma clamp_high a b c d e s0 t0 s' :
  0 < c -> b * b <= a * c -> 0 <= s0 -> s0 <= 1 -> 0 <= s' -> s' <= 1 ->
  t0 * c == e + s0 * b -> kkt (d + s0 * a - t0 * b) s0 -> 1 < t0 -> kkt (d - b + s' * a) s' -> 0 <= e + s' * b - c.
Proof.
  intros Hc Hcs A0 A1 B0 B1 Et K0 Ht K1.
  pose proof (kkt_mono _ _ _ _ A0 A1 B0 B1 K0 K1) as M.
  set (del := s' - s0) in *.
  assert (M' : del * del * a + (t0 - 1) * b * del <= 0) by (unfold del in *; lra).
  assert ((- del) * b <= e + s0 * b - c); [|unfold del in *; lra].
  apply (shift_bound a b c); auto; [nra|].
  setoid_replace ((e + s0 * b - c) * (b * - del)) with (- ((t0 - 1) * b * del) * c) by (rewrite <- Et; ring).
  setoid_replace (- del * - del * (a * c)) with ((del * del * a) * c) by ring.
  apply Qmult_le_compat_r; lra.
Qed.

(** The optimum for an unbounded second parameter. *)
Lemma line_params_optimal a b c d e :
  0 < a -> 0 < c -> b * b <= a * c ->
  (a * c - b * b == 0 -> c * d == b * e) ->
  (a * c - b * b == 0 \/ small <= a * c - b * b) ->
  let lp := line_params a b c d e (a * c - b * b) in
  0 < sD lp /\ 0 < tD lp /\ 0 <= sN lp /\ sN lp <= sD lp /\
  forall s t, s * sD lp == sN lp -> t * tD lp == tN lp ->
    t * c == e + s * b /\ kkt (d + s * a - t * b) s.
Proof.
  intros Ha Hc Hcs Hpar Hden. pose proof small_pos. unfold line_params.
  assert (X : forall s t, t * c == e + s * b -> c * (d + s * a - t * b) == c * d - b * e + s * (a * c - b * b)).
  { intros s t E. setoid_replace (c * (d + s * a - t * b)) with (c * d + s * (a * c) - t * c * b) by ring. rewrite E. ring. }
  destruct Hden as [D|D].
  - assert (qlt (a * c - b * b) small = true) as -> by (apply qlt_true; lra). cbn [sN sD tN tD].
    do 4 (split; [lra|]). intros s t E1 E2. assert (S0 : s == 0) by lra.
    assert (T : t * c == e + s * b) by (rewrite S0; lra). split; auto. specialize (X _ _ T). specialize (Hpar D).
    split; intros; nra.
  - assert (qlt (a * c - b * b) small = false) as -> by (apply qlt_false; lra).
    set (den := a * c - b * b) in *.
    repeat (qcase; cbn [sN sD tN tD]); qhyps; (do 4 (split; [lra|])); intros s t E1 E2.
    + assert (S0 : s == 0) by nra. assert (T : t * c == e + s * b) by (rewrite S0; lra). split; auto. specialize (X _ _ T). split; intros; nra.
    + assert (S0 : s == 1) by nra. assert (T : t * c == e + s * b) by (rewrite S0; lra). split; auto. specialize (X _ _ T). split; intros; nra.
    + assert (den * (t * c - (e + s * b)) == 0) as E.
      { setoid_replace (den * (t * c - (e + s * b))) with ((t * den) * c - e * den - (s * den) * b) by ring.
        rewrite E1, E2. unfold den. ring. }
      assert (T : t * c == e + s * b) by nra. split; auto. specialize (X _ _ T). rewrite E1 in X. split; intros; nra.
Qed.

Lemma kkt_ext g h x : g == h -> kkt g x -> kkt h x.
Proof. intros E [A B]. split; intros K; rewrite <- E; auto. Qed.

Lemma solve_optimal a b c d e :
  0 <= a -> 0 <= c -> b * b <= a * c ->
  (a == 0 -> d == 0) ->
  (a * c - b * b == 0 -> c * d == b * e) ->
  (c == 0 -> a == 0 /\ e == 0) ->
  (a * c - b * b == 0 \/ small <= a * c - b * b) ->
  let lp := solve a b c d e in
  forall s t, 0 <= s -> s <= 1 -> 0 <= t -> t <= 1 ->
  s * sD lp == sN lp -> t * tD lp == tN lp ->
  kkt (d + s * a - t * b) s /\ kkt (- (e + s * b - t * c)) t.
Proof.
  intros Ha Hc Hcs Had Hpar Hc0 Hden lp s t Hs0 Hs1 Ht0 Ht1. subst lp.
  pose proof small_pos as Hsm. unfold solve.
  assert (Hb0 : a == 0 -> b == 0).
  { intros K. assert (b * b <= 0) by nra. destruct (Qlt_le_dec b 0); destruct (Qlt_le_dec 0 b); nra. }
  destruct (Qlt_le_dec 0 a) as [Hap|Ha0].
  2: { assert (A0 : a == 0) by lra. specialize (Had A0). specialize (Hb0 A0).
       assert (Hd0 : a * c - b * b == 0) by (rewrite A0, Hb0; lra).
       unfold clamp_params, line_params.
       assert (qlt (a * c - b * b) small = true) as -> by (apply qlt_true; lra). cbn [sN sD tN tD].
       destruct (Qlt_le_dec 0 c) as [Hcp|Hcz].
       - repeat (qcase; cbn [sN sD tN tD]); qhyps; intros E1 E2; unfold kkt; repeat split; intros; try nra.
       - assert (C0 : c == 0) by lra. destruct (Hc0 C0) as [_ E0].
         intros _ _. unfold kkt. repeat split; intros; nra. }
  destruct (Qlt_le_dec 0 c) as [Hcp|Hcz]; [|assert (C0 : c == 0) by lra; destruct (Hc0 C0); lra].
  destruct (line_params_optimal a b c d e Hap Hcp Hcs Hpar Hden) as (SD & TD & SN0 & SN1 & Opt).
  set (lp := line_params a b c d e (a * c - b * b)) in *.
  set (s0 := sN lp / sD lp). set (t0 := tN lp / tD lp).
  assert (Es0 : s0 * sD lp == sN lp) by (unfold s0; field; lra).
  assert (Et0 : t0 * tD lp == tN lp) by (unfold t0; field; lra).
  destruct (Opt s0 t0 Es0 Et0) as [Ot Os].
  assert (0 <= s0 /\ s0 <= 1) as [R0 R1] by (split; nra).
  unfold clamp_params.
  destruct (qlt (tN lp) 0) eqn:T1; [|destruct (qlt (tD lp) (tN lp)) eqn:T2].
  - qhyps. assert (t0 < 0) by nra.
    intros E1 E2.
    assert (t == 0). { revert E2. repeat qcase; cbn [sN sD tN tD]; intros; nra. }
    assert (Ks : kkt (- (- d) + s * a) s).
    { apply kkt_clamp; auto. revert E1. repeat (qcase; cbn [sN sD tN tD]); qhyps; intros E1; [left|right; left|right; right; auto]; split; auto; nra. }
    split; [eapply kkt_ext; [|exact Ks]; rewrite H0; ring|].
    assert (Ks' : kkt (d + s * a) s) by (eapply kkt_ext; [|exact Ks]; ring).
    pose proof (clamp_low a b c d e s0 t0 s Hcp Hcs R0 R1 Hs0 Hs1 Ot Os H Ks').
    split; intros; nra.
  - qhyps. assert (1 < t0) by nra.
    intros E1 E2.
    assert (t == 1). { revert E2. repeat qcase; cbn [sN sD tN tD]; intros; nra. }
    assert (Ks : kkt (- (- d + b) + s * a) s).
    { apply kkt_clamp; auto. revert E1. repeat (qcase; cbn [sN sD tN tD]); qhyps; intros E1; [left|right; left|right; right; auto]; split; auto; nra. }
    split; [eapply kkt_ext; [|exact Ks]; rewrite H0; ring|].
    assert (Ks' : kkt (d - b + s * a) s) by (eapply kkt_ext; [|exact Ks]; ring).
    pose proof (clamp_high a b c d e s0 t0 s Hcp Hcs R0 R1 Hs0 Hs1 Ot Os H Ks').
    split; intros; nra.
  - intros E1 E2. destruct (Opt s t E1 E2) as [O1 O2]. split; auto.
    split; intros; nra.
Qed.
