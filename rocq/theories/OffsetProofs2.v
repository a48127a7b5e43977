(** Proofs about OffsetModel.v: line strings that turn away from the side of the offset. *)
From Coq Require Import List Bool Arith Reals Lia Lra Psatz.
From Verif Require Import ArcModel ArcSpec OffsetModel OffsetSpec OffsetWalk OffsetProofs.
Import ListNotations.
Local Open Scope R_scope.

Definition starts (d : R) (s : segment) (u : point) : Prop :=
  cross (step s) (step (fst s, u)) = d * euclid (fst s) (snd s) /\ dot (step s) (step (fst s, u)) <= 0 /\ euclid u (fst s) <= sqrt 2 * Rabs d.
Definition ends (d : R) (s : segment) (u : point) : Prop :=
  cross (step s) (step (fst s, u)) = d * euclid (fst s) (snd s) /\ 0 <= dot (step s) (step (snd s, u)) /\ euclid u (snd s) <= sqrt 2 * Rabs d.
Lemma alongside_of d s u v : starts d s u -> ends d s v -> alongside d s (u, v).
Proof. intros (A1 & A2 & A3) (B1 & B2 & B3). unfold alongside. simpl. auto 10. Qed.

Lemma starts_of d a b n p1 p2 x y : 0 < n -> p1 * p1 + p2 * p2 = 1 -> psub b a = (n * p1, n * p2) -> euclid a b = n ->
  p1 * y - p2 * x = d -> p1 * x + p2 * y <= 0 -> x * x + y * y <= 2 * (d * d) -> starts d (a, b) (shifted a x y).
Proof.
  intros N U E EN H1 H2 H3. destruct a as [a1 a2], b as [b1 b2]. unfold psub in E. simpl in E. injection E as E1 E2.
  unfold starts, cross, dot, step, shifted. cbn [fst snd]. rewrite E1, E2, EN. split; [|split].
  - rewrite <- H1. ring.
  - replace (n * p1 * (a1 + x - a1) + n * p2 * (a2 + y - a2)) with (n * (p1 * x + p2 * y)) by ring. nra.
  - apply sq_bound. apply (sq_shifted (a1, a2)). auto.
Qed.
Lemma ends_of d a b n p1 p2 x y : 0 < n -> p1 * p1 + p2 * p2 = 1 -> psub b a = (n * p1, n * p2) -> euclid a b = n ->
  p1 * y - p2 * x = d -> 0 <= p1 * x + p2 * y -> x * x + y * y <= 2 * (d * d) -> ends d (a, b) (shifted b x y).
Proof.
  intros N U E EN H1 H2 H3. destruct a as [a1 a2], b as [b1 b2]. unfold psub in E. simpl in E. injection E as E1 E2.
  unfold ends, cross, dot, step, shifted. cbn [fst snd]. rewrite E1, E2, EN. split; [|split].
  - replace (b1 + x - a1) with (n * p1 + x) by lra. replace (b2 + y - a2) with (n * p2 + y) by lra. rewrite <- H1. ring.
  - replace (n * p1 * (b1 + x - b1) + n * p2 * (b2 + y - b2)) with (n * (p1 * x + p2 * y)) by ring. nra.
  - apply sq_bound. apply (sq_shifted (b1, b2)). auto.
Qed.

Lemma cauchy m1 m2 x y r : m1 * m1 + m2 * m2 = 1 -> 0 <= r -> r <= x * m1 + y * m2 -> r * r <= x * x + y * y.
Proof.
  intros U R0 H. assert (E : (x * x + y * y) * (m1 * m1 + m2 * m2) = (x * m1 + y * m2) * (x * m1 + y * m2) + (x * m2 - y * m1) * (x * m2 - y * m1)) by ring.
  rewrite U, Rmult_1_r in E. pose proof (Rle_0_sqr (x * m2 - y * m1)) as P. unfold Rsqr in P. rewrite E. nra.
Qed.

(** Around a sharp corner *)
Lemma around_of d a b c n n' p1 p2 f1 f2 : 0 < d -> 0 < n -> 0 < n' -> p1 * p1 + p2 * p2 = 1 -> f1 * f1 + f2 * f2 = 1 ->
  psub b a = (n * p1, n * p2) -> psub c b = (n' * f1, n' * f2) -> p1 * f2 - p2 * f1 <= 0 ->
  let t := overshoot p1 p2 f1 f2 in
  around d (a, b) (b, c) (shifted b (- (d * p2) + d * t * p1) (d * p1 + d * t * p2), shifted b (- (d * f2) - d * t * f1) (d * f1 - d * t * f2)).
Proof.
  intros D N N' U U' E E' K t. unfold around. cbn [fst snd].
  destruct (sharp_angle (p1 * f1 + p2 * f2)) as (C & S & C0 & S0 & CS & CC & T & T1 & T2); [apply (cs_range p1 p2 f1 f2); auto|].
  fold (overshoot p1 p2 f1 f2) in T, T1, T2. fold t in T, T1, T2.
  set (c0 := p1 * f1 + p2 * f2) in *. set (k := p1 * f2 - p2 * f1) in *.
  assert (CK : c0 * c0 + k * k = 1) by (apply (circle p1 p2 f1 f2); auto).
  assert (KV : k = - (2 * S * C)).
  { assert (X : k * k = (2 * S * C) * (2 * S * C)).
    { replace (k * k) with (1 - c0 * c0) by lra. rewrite <- CC. replace (2 * S * C * (2 * S * C)) with (4 * (S * S) * (C * C)) by ring.
      replace (S * S) with (1 - C * C) by lra. ring. }
    assert (0 <= 2 * S * C) by nra. assert (Y : (k - 2 * S * C) * (k + 2 * S * C) = 0) by (ring_simplify; nra).
    apply Rmult_integral in Y. destruct Y; [assert (k = 0) by lra; nra|lra]. }
  assert (F1 : f1 = c0 * p1 - k * p2) by (unfold c0, k; replace (_ - _) with (f1 * (p1 * p1 + p2 * p2)) by ring; rewrite U; ring).
  assert (F2 : f2 = c0 * p2 + k * p1) by (unfold c0, k; replace (_ + _) with (f2 * (p1 * p1 + p2 * p2)) by ring; rewrite U; ring).
  set (m1 := S * p1 - C * p2). set (m2 := S * p2 + C * p1).
  assert (Um : m1 * m1 + m2 * m2 = 1).
  { unfold m1, m2. replace (_ + _) with ((C * C + S * S) * (p1 * p1 + p2 * p2)) by ring. rewrite CS, U. ring. }
  assert (Pm : p1 * m1 + p2 * m2 = S).
  { unfold m1, m2. replace (_ + _) with (S * (p1 * p1 + p2 * p2)) by ring. rewrite U. ring. }
  assert (Fm : f1 * m1 + f2 * m2 = - S).
  { unfold m1, m2. rewrite F1, F2. replace (_ + _) with ((c0 * S + k * C) * (p1 * p1 + p2 * p2)) by ring. rewrite U, KV, <- CC. ring. }
  assert (A1 : (- (d * p2) + d * t * p1) * m1 + (d * p1 + d * t * p2) * m2 = d).
  { unfold m1, m2. replace (_ + _) with (d * (C + t * S) * (p1 * p1 + p2 * p2)) by ring. rewrite U, T2. ring. }
  assert (A2 : (- (d * f2) - d * t * f1) * m1 + (d * f1 - d * t * f2) * m2 = d).
  { replace (_ + _) with (d * (f1 * m2 - f2 * m1) - d * t * (f1 * m1 + f2 * m2)) by ring. rewrite Fm.
    assert (X : f1 * m2 - f2 * m1 = C).
    { unfold m1, m2. rewrite F1, F2. replace (_ - _) with ((c0 * C - k * S) * (p1 * p1 + p2 * p2)) by ring. rewrite U, KV, <- CC.
      replace ((2 * C * C - 1) * C - - (2 * S * C) * S) with (2 * C * (C * C + S * S) - C) by ring. rewrite CS. ring. }
    rewrite X. replace (d * C - d * t * - S) with (d * C + d * (t * S)) by ring. rewrite T2. ring. }
  rewrite (Rabs_right d) by lra.
  intros x (r & Hr & Ex). cbn [fst snd] in Ex.
  assert (XB : exists x1 x2, x = shifted b x1 x2 /\ x1 * m1 + x2 * m2 = d).
  { exists ((1 - r) * (- (d * p2) + d * t * p1) + r * (- (d * f2) - d * t * f1)), ((1 - r) * (d * p1 + d * t * p2) + r * (d * f1 - d * t * f2)).
    split; [rewrite Ex; unfold between, shifted; simpl; f_equal; ring|].
    replace (_ + _) with ((1 - r) * ((- (d * p2) + d * t * p1) * m1 + (d * p1 + d * t * p2) * m2) + r * ((- (d * f2) - d * t * f1) * m1 + (d * f1 - d * t * f2) * m2)) by ring.
    rewrite A1, A2. ring. }
  destruct XB as (x1 & x2 & XB & XM).
  split; [|split].
  - intros y (w & Hw & Ey). cbn [fst snd] in Ey. apply sq_lower; [lra|].
    assert (Ya : sq x y = (x1 + (1 - w) * n * p1) * (x1 + (1 - w) * n * p1) + (x2 + (1 - w) * n * p2) * (x2 + (1 - w) * n * p2)).
    { rewrite XB, Ey. destruct a as [a1 a2], b as [b1 b2]. unfold psub in E. simpl in E. injection E as E1 E2. unfold sq, shifted, between. cbn [fst snd].
      replace (b1 + x1 - ((1 - w) * a1 + w * b1)) with (x1 + (1 - w) * (b1 - a1)) by ring. replace (b2 + x2 - ((1 - w) * a2 + w * b2)) with (x2 + (1 - w) * (b2 - a2)) by ring.
      rewrite E1, E2. ring. }
    rewrite Ya. apply cauchy with m1 m2; auto; [lra|].
    replace (_ + _) with (x1 * m1 + x2 * m2 + (1 - w) * n * (p1 * m1 + p2 * m2)) by ring. rewrite XM, Pm. assert (0 <= (1 - w) * n * S) by (apply Rmult_le_pos; [nra|auto]). lra.
  - intros y (w & Hw & Ey). cbn [fst snd] in Ey. apply sq_lower; [lra|].
    assert (Ya : sq x y = (x1 - w * n' * f1) * (x1 - w * n' * f1) + (x2 - w * n' * f2) * (x2 - w * n' * f2)).
    { rewrite XB, Ey. destruct c as [c1 c2], b as [b1 b2]. unfold psub in E'. simpl in E'. injection E' as E1 E2. unfold sq, shifted, between. cbn [fst snd].
      replace (b1 + x1 - ((1 - w) * b1 + w * c1)) with (x1 - w * (c1 - b1)) by ring. replace (b2 + x2 - ((1 - w) * b2 + w * c2)) with (x2 - w * (c2 - b2)) by ring.
      rewrite E1, E2. ring. }
    rewrite Ya. apply cauchy with m1 m2; auto; [lra|].
    replace (_ + _) with (x1 * m1 + x2 * m2 - w * n' * (f1 * m1 + f2 * m2)) by ring. rewrite XM, Fm. assert (0 <= w * n' * S) by (apply Rmult_le_pos; [nra|auto]). lra.
  - rewrite <- (Rabs_right d) by lra. rewrite Ex.
    assert (G : forall u v, sq u b <= 2 * (d * d) -> sq v b <= 2 * (d * d) -> euclid (between u v r) b <= sqrt 2 * Rabs d).
    { intros u v Hu Hv. apply sq_bound. pose proof (sq_between u v b b r _ Hr Hu Hv) as G. now rewrite between_same in G. }
    apply G; apply sq_shifted.
    + apply sharp_size; auto.
    + pose proof (sharp_size f1 f2 (- d) _ U' T) as Z. eapply Rle_trans; [|replace (2 * (d * d)) with (2 * (- d * - d)) by ring; exact Z]. right. ring.
Qed.

Lemma skipn_nth {A} (l : list A) k s : nth_error l k = Some s -> skipn k l = s :: skipn (S k) l.
Proof. revert l. induction k as [|k IH]; intros [|x l] H; simpl in *; try discriminate; [congruence|]. apply IH. auto. Qed.
Lemma pairs_first x l : l <> [] -> exists v r, pairs (x :: l) = (x, v) :: r.
Proof. destruct l as [|v l]; [tauto|]. intros _. rewrite pairs_cons. eauto. Qed.

Section Moved.
Variables (l : list point) (d : R).
Hypothesis D : no_doubled l.
Hypothesis T : forall k s s', nth_error (pairs l) k = Some s -> nth_error (pairs l) (S k) = Some s' -> turns_away d s s'.

Lemma convex_part_moved : forall n i a b u, n = (length l - S i)%nat -> nth_error l i = Some a -> nth_error l (S i) = Some b -> starts d (a, b) u ->
  exists ps, convex_part l d n (S i) = Done (ps, (length l - 1)%nat) /\ ps <> [] /\ moved d (skipn i (pairs l)) (pairs (u :: ps)).
Proof.
  induction n as [|n IH]; intros i a b u En Ha Hb Su.
  { exfalso. assert (S i < length l)%nat by (apply nth_error_Some; congruence). lia. }
  assert (Pab : nth_error (pairs l) i = Some (a, b)) by (apply pairs_nth; auto).
  destruct (unit_of a b (no_doubled_nth _ _ _ _ D Ha Hb)) as (n0 & p1 & p2 & N & U & E & _ & _ & EN).
  rewrite (skipn_nth _ _ _ Pab). cbn [convex_part].
  destruct (nth_error l (S (S i))) as [c|] eqn:Hc.
  - assert (L : (S (S i) < length l)%nat) by (apply nth_error_Some; congruence).
    assert (Pbc : nth_error (pairs l) (S i) = Some (b, c)) by (apply pairs_nth; auto).
    destruct (unit_of b c (no_doubled_nth _ _ _ _ D Hb Hc)) as (n1 & f1 & f2 & N' & U' & E' & _ & _ & EN').
    pose proof (T i _ _ Pab Pbc) as TA.
    assert (SA : step (a, b) = (n0 * p1, n0 * p2)) by (rewrite <- E; reflexivity).
    assert (SB : step (b, c) = (n1 * f1, n1 * f2)) by (rewrite <- E'; reflexivity).
    unfold turns_away in TA. rewrite SA, SB in TA. unfold cross, dot in TA. cbn [fst snd] in TA.
    replace (n0 * p1 * (n1 * f2) - n0 * p2 * (n1 * f1)) with (n0 * n1 * (p1 * f2 - p2 * f1)) in TA by ring.
    replace (n0 * p1 * (n1 * f1) + n0 * p2 * (n1 * f2)) with (n0 * n1 * (p1 * f1 + p2 * f2)) in TA by ring.
    assert (NN : 0 < n0 * n1) by nra.
    assert (TB : 0 < d /\ p1 * f2 - p2 * f1 <= 0 \/ d < 0 /\ 0 < p1 * f2 - p2 * f1 /\ 0 <= p1 * f1 + p2 * f2).
    { destruct TA as [(X1 & X2)|(X1 & X2 & X3)]; [left; split; [auto|nra]|right; split; [auto|split; nra]]. }
    assert (CH : convex_here d p1 p2 f1 f2 = true).
    { unfold convex_here. destruct (Rlt_dec 0 d), (Rlt_dec 0 (p1 * f2 - p2 * f1)); cbn [negb]; auto; exfalso; lra. }
    rewrite (skipn_nth _ _ _ Pbc).
    destruct (Rlt_dec (p1 * f1 + p2 * f2) 0) as [G|G].
    + rewrite (inner_sharp l i a b c d n0 n1 p1 p2 f1 f2) by auto. cbn [bind].
      destruct TB as [(D0 & K)|(_ & _ & K)]; [|lra].
      destruct (sharp_angle (p1 * f1 + p2 * f2)) as (C & S_ & _ & _ & _ & _ & Tt & _); [apply (cs_range p1 p2 f1 f2); auto|].
      fold (overshoot p1 p2 f1 f2) in Tt. set (t := overshoot p1 p2 f1 f2) in *.
      set (x := shifted b (- (d * p2) + d * t * p1) (d * p1 + d * t * p2)). set (y := shifted b (- (d * f2) - d * t * f1) (d * f1 - d * t * f2)).
      assert (Ex : ends d (a, b) x).
      { apply (ends_of d a b n0 p1 p2); auto.
        - replace (_ - _) with (d * (p1 * p1 + p2 * p2)) by ring. rewrite U. ring.
        - replace (_ + _) with (d * t * (p1 * p1 + p2 * p2)) by ring. rewrite U. nra.
        - apply sharp_size; auto. }
      assert (Sy : starts d (b, c) y).
      { apply (starts_of d b c n1 f1 f2); auto.
        - replace (_ - _) with (d * (f1 * f1 + f2 * f2)) by ring. rewrite U'. ring.
        - replace (_ + _) with (- (d * t * (f1 * f1 + f2 * f2))) by ring. rewrite U'. nra.
        - pose proof (sharp_size f1 f2 (- d) _ U' Tt) as Z. eapply Rle_trans; [|replace (2 * (d * d)) with (2 * (- d * - d)) by ring; exact Z]. right. ring. }
      destruct (IH (S i) b c y) as (ps & F1 & F2 & F3); auto; [lia|].
      rewrite F1. cbn [bind]. exists (x :: y :: ps). split; [reflexivity|]. split; [discriminate|].
      rewrite !pairs_cons. destruct (pairs_first y ps F2) as (v & r & Ev). rewrite (skipn_nth _ _ _ Pbc) in F3. rewrite Ev in *.
      apply moved_around; auto.
      * apply alongside_of; auto.
      * apply (around_of d a b c n0 n1 p1 p2 f1 f2); auto.
    + rewrite (inner_lateral l i a b c d n0 n1 p1 p2 f1 f2) by (auto; lra). cbn [bind].
      assert (G0 : 0 <= p1 * f1 + p2 * f2) by lra.
      set (x := shifted b _ _).
      assert (DK : 0 <= d * - (p1 * f2 - p2 * f1)) by (destruct TB as [(X1 & X2)|(X1 & X2 & X3)]; nra).
      assert (IV : 0 < / (1 + (p1 * f1 + p2 * f2))) by (apply Rinv_0_lt_compat; lra).
      assert (DV : 0 <= d * - (p1 * f2 - p2 * f1) * / (1 + (p1 * f1 + p2 * f2))) by nra.
      assert (Ex : ends d (a, b) x).
      { apply (ends_of d a b n0 p1 p2); auto.
        - replace (_ - _) with (d / (1 + (p1 * f1 + p2 * f2)) * ((p1 * p1 + p2 * p2) + (p1 * f1 + p2 * f2))) by ring. rewrite U. field. lra.
        - eapply Rle_trans; [exact DV|]. right. field. lra.
        - apply lateral_size; auto. }
      assert (Sy : starts d (b, c) x).
      { apply (starts_of d b c n1 f1 f2); auto.
        - replace (_ - _) with (d / (1 + (p1 * f1 + p2 * f2)) * ((f1 * f1 + f2 * f2) + (p1 * f1 + p2 * f2))) by ring. rewrite U'. field. lra.
        - replace (_ + _) with (- (d * - (p1 * f2 - p2 * f1) * / (1 + (p1 * f1 + p2 * f2)))) by (field; lra). lra.
        - apply lateral_size; auto. }
      destruct (IH (S i) b c x) as (ps & F1 & F2 & F3); auto; [lia|].
      rewrite F1. cbn [bind]. exists (x :: ps). split; [reflexivity|]. split; [discriminate|].
      rewrite !pairs_cons. destruct (pairs_first x ps F2) as (v & r & Ev). rewrite (skipn_nth _ _ _ Pbc) in F3. rewrite Ev in *.
      apply moved_corner; auto. apply alongside_of; auto.
  - assert (L : length l = S (S i)).
    { apply nth_error_None in Hc. assert (S i < length l)%nat by (apply nth_error_Some; congruence). lia. }
    rewrite (lateral_last l i a b d n0 p1 p2) by (auto; lia). cbn [bind]. assert (n = 0)%nat by lia. subst n. cbn [convex_part bind].
    eexists. split; [rewrite app_nil_r; do 2 f_equal; lia|]. split; [discriminate|].
    rewrite skipn_all2 by (rewrite pairs_length; lia). simpl. apply moved_last. apply alongside_of; [auto|].
    apply (ends_of d a b n0 p1 p2); auto.
    + replace (_ - _) with (d * (p1 * p1 + p2 * p2)) by ring. rewrite U. ring.
    + right. ring.
    + apply perp_size. auto.
Qed.

Theorem offset_moved query meet : (2 <= length l)%nat -> exists r, offset_no_throw query meet l d = Done r /\ moved d (pairs l) (pairs r).
Proof.
  intros L. destruct (nth_error l 0) as [a|] eqn:Ha; [|apply nth_error_None in Ha; lia].
  destruct (nth_error l 1) as [b|] eqn:Hb; [|apply nth_error_None in Hb; lia].
  destruct (perp_start l 0 a b d D Ha Hb) as (n & p1 & p2 & N & U & E & EN & SP).
  destruct (convex_part_moved (length l - 1) 0 a b (shifted a (- (d * p2)) (d * p1))) as (ps & F1 & F2 & F3); auto.
  { apply (starts_of d a b n p1 p2); auto.
    - replace (_ - _) with (d * (p1 * p1 + p2 * p2)) by ring. rewrite U. ring.
    - right. ring.
    - apply perp_size. auto. }
  exists (shifted a (- (d * p2)) (d * p1) :: ps). split; [|exact F3].
  unfold offset_no_throw, extract_convex. destruct (length l) as [|m] eqn:El; [lia|].
  cbn [convex_parts]. rewrite El. destruct (Nat.ltb_spec (0 + 1) (S m)); [|lia]. rewrite SP. cbn [bind Nat.add].
  replace (S m - 1)%nat with m in * by lia. rewrite F1. cbn [bind].
  assert (Z : convex_parts l d m m = Done []).
  { destruct m; cbn [convex_parts]; rewrite El; [destruct (Nat.ltb_spec (0 + 1) 1); [lia|auto]|].
    destruct (Nat.ltb_spec (S m + 1) (S (S m))); [lia|auto]. }
  rewrite Z. reflexivity.
Qed.
End Moved.

(** What [moved] means for the points *)
Lemma alongside_dist d s u x : fst s <> snd s -> alongside d s u -> on_segment u x -> away s (Rabs d) x /\ near s (sqrt 2 * Rabs d) x.
Proof.
  intros NS (A1 & A2 & A3 & A4 & A5 & A6) O. destruct s as [a b]. cbn [fst snd] in *.
  destruct (unit_of a b NS) as (n & p1 & p2 & N & U & E & _ & _ & EN).
  assert (SA : step (a, b) = (n * p1, n * p2)) by (rewrite <- E; reflexivity).
  rewrite SA, EN in A1, A2. unfold cross, step in A1, A2. cbn [fst snd] in A1, A2.
  assert (NZ : n <> 0) by lra.
  assert (B1 : p1 * (snd (fst u) - snd a) - p2 * (fst (fst u) - fst a) = d) by (apply Rmult_eq_reg_l with n; [|auto]; rewrite (Rmult_comm n d), <- A1; ring).
  assert (B2 : p1 * (snd (snd u) - snd a) - p2 * (fst (snd u) - fst a) = d) by (apply Rmult_eq_reg_l with n; [|auto]; rewrite (Rmult_comm n d), <- A2; ring).
  destruct O as (r & Hr & ->). split.
  - intros y (w & Hw & ->). apply sq_lower; [apply Rabs_pos|]. rewrite <- Rabs_mult. rewrite Rabs_right by (apply Rle_ge, Rle_0_sqr).
    unfold sq, between. cbn [fst snd].
    set (X := (1 - r) * fst (fst u) + r * fst (snd u) - ((1 - w) * fst a + w * fst b)).
    set (Y := (1 - r) * snd (fst u) + r * snd (snd u) - ((1 - w) * snd a + w * snd b)).
    assert (XY : p1 * Y - p2 * X = d).
    { assert (b = (fst a + n * p1, snd a + n * p2)).
      { destruct a as [a1 a2], b as [b1 b2]. unfold psub in E. simpl in *. injection E as E1 E2. f_equal; lra. }
      unfold X, Y. rewrite H. cbn [fst snd].
      replace (_ - _) with ((1 - r) * (p1 * (snd (fst u) - snd a) - p2 * (fst (fst u) - fst a)) + r * (p1 * (snd (snd u) - snd a) - p2 * (fst (snd u) - fst a))) by ring.
      rewrite B1, B2. ring. }
    assert (ID : (X * X + Y * Y) * (p1 * p1 + p2 * p2) = (p1 * Y - p2 * X) * (p1 * Y - p2 * X) + (p1 * X + p2 * Y) * (p1 * X + p2 * Y)) by ring.
    rewrite U, XY, Rmult_1_r in ID. pose proof (Rle_0_sqr (p1 * X + p2 * Y)) as P. unfold Rsqr in P. lra.
  - exists (between a b r). split; [exists r; auto|]. rewrite sq_euclid in A5, A6 |- *.
    assert (S2 : 0 <= sqrt 2 * Rabs d) by (apply Rmult_le_pos; [apply sqrt_pos|apply Rabs_pos]).
    assert (SQ : forall v w, sqrt (sq v w) <= sqrt 2 * Rabs d -> sq v w <= (sqrt 2 * Rabs d) * (sqrt 2 * Rabs d)).
    { intros v w H. rewrite <- (sqrt_sqrt (sq v w)) by apply sq_pos. apply Rmult_le_compat; auto; apply sqrt_pos. }
    rewrite <- (sqrt_square (sqrt 2 * Rabs d)) by auto. apply sqrt_le_1_alt. apply sq_between; auto.
Qed.
Theorem moved_dist d segs us : moved d segs us -> (forall s, In s segs -> fst s <> snd s) ->
  forall u x, In u us -> on_segment u x -> exists s, In s segs /\ away s (Rabs d) x /\ near s (sqrt 2 * Rabs d) x.
Proof.
  induction 1 as [s u A|s s' r u u' r' A C M IH|s s' r u c u' r' A C1 Ar C2 M IH]; intros NS v x I O.
  - destruct I as [<-|[]]. exists s. split; [left; auto|]. eapply alongside_dist; eauto. apply NS. left. auto.
  - destruct I as [<-|I].
    + exists s. split; [left; auto|]. eapply alongside_dist; eauto. apply NS. left. auto.
    + destruct (IH (fun z Z => NS z (or_intror Z)) v x I O) as (z & Z1 & Z2). exists z. split; [right; auto|auto].
  - destruct I as [<-|[<-|I]].
    + exists s. split; [left; auto|]. eapply alongside_dist; eauto. apply NS. left. auto.
    + exists s. split; [left; auto|]. destruct (Ar x O) as (X1 & X2 & X3). split; [auto|]. exists (snd s). split; [apply on_snd|auto].
    + destruct (IH (fun z Z => NS z (or_intror Z)) v x I O) as (z & Z1 & Z2). exists z. split; [right; auto|auto].
Qed.
