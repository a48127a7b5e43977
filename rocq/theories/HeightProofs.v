From Coq Require Import List Bool QArith Qabs Lqa.
From Verif Require Import ClosestModel ClosestSpec ClosestProofs ClosestProps HeightModel HeightSpec.
Import ListNotations.
Local Open Scope Q_scope.

Lemma sq_solid (p q : solid) : sq p q == (fst (fst p) - fst (fst q)) * (fst (fst p) - fst (fst q)) +
  (snd (fst p) - snd (fst q)) * (snd (fst p) - snd (fst q)) + (snd p - snd q) * (snd p - snd q).
Proof. destruct p as [[? ?] ?], q as [[? ?] ?]. unfold sq. cbn. reflexivity. Qed.
Lemma square_zero x : x * x <= 0 -> x == 0.
Proof. intros H. destruct (Qlt_le_dec x 0); [nra|]. destruct (Qlt_le_dec 0 x); [nra|]. lra. Qed.
Lemma square_pos x : 0 <= x * x.
Proof. destruct (Qlt_le_dec x 0); nra. Qed.
Lemma sq_small (p q : solid) : sq p q <= 0 -> fst (fst p) == fst (fst q) /\ snd (fst p) == snd (fst q) /\ snd p == snd q.
Proof.
  rewrite sq_solid. intros H. assert (A := square_pos (fst (fst p) - fst (fst q))). assert (B := square_pos (snd (fst p) - snd (fst q))).
  assert (C := square_pos (snd p - snd q)).
  assert (fst (fst p) - fst (fst q) == 0) by (apply square_zero; lra). assert (snd (fst p) - snd (fst q) == 0) by (apply square_zero; lra).
  assert (snd p - snd q == 0) by (apply square_zero; lra). repeat split; lra.
Qed.

(** The points of a line at one height have this height. *)
Lemma level_on h l x : level h l -> on_line (V := solid) l x -> height x == h.
Proof.
  intros L [(a & -> & H)|(l1 & a & b & l2 & -> & t & T0 & T1 & H)].
  - assert (E : sq (V := solid) x a <= 0) by (rewrite H; lra). apply sq_small in E as (_ & _ & E). inversion L; subst. unfold height in *. lra.
  - assert (In a (l1 ++ a :: b :: l2)) as Ha by (apply in_elt). assert (In b (l1 ++ a :: b :: l2)) as Hb by (apply in_app_iff; right; right; now left).
    unfold level in L. rewrite Forall_forall in L. apply L in Ha, Hb.
    assert (E : sq x (at_param (V := solid) a b t) <= 0) by (rewrite H; lra). apply sq_small in E as (_ & _ & E).
    unfold at_param in E. cbn in E. unfold height in *. rewrite E, Ha, Hb. ring.
Qed.

(** Cauchy and Schwarz in space *)
Lemma cauchy a b c x y z : (a * x + b * y + c * z) * (a * x + b * y + c * z) <= (a * a + b * b + c * c) * (x * x + y * y + z * z).
Proof.
  assert (A := square_pos (a * y - b * x)). assert (B := square_pos (a * z - c * x)). assert (C := square_pos (b * z - c * y)). lra.
Qed.
Lemma sqrt_le x k : 0 <= k -> x * x <= k * k -> x <= k.
Proof. intros H K. destruct (Qlt_le_dec k x); [nra|auto]. Qed.

Lemma triangle (p x y : solid) r s : 0 <= r -> 0 <= s -> sq x p <= r * r -> sq y p <= s * s -> sq x y <= (r + s) * (r + s).
Proof.
  rewrite !sq_solid. intros R S X Y.
  set (a := fst (fst x) - fst (fst p)) in *. set (b := snd (fst x) - snd (fst p)) in *. set (c := snd x - snd p) in *.
  set (d := fst (fst y) - fst (fst p)) in *. set (e := snd (fst y) - snd (fst p)) in *. set (f := snd y - snd p) in *.
  assert (E1 : fst (fst x) - fst (fst y) == a - d) by (unfold a, d; ring).
  assert (E2 : snd (fst x) - snd (fst y) == b - e) by (unfold b, e; ring).
  assert (E3 : snd x - snd y == c - f) by (unfold c, f; ring). rewrite E1, E2, E3.
  assert (C := cauchy a b c d e f).
  assert (P : 0 <= d * d + e * e + f * f) by (assert (A := square_pos d); assert (B := square_pos e); assert (D := square_pos f); lra).
  assert (Q0 : 0 <= a * a + b * b + c * c) by (assert (A := square_pos a); assert (B := square_pos b); assert (D := square_pos c); lra).
  assert (K : - (a * d + b * e + c * f) <= r * s).
  { apply sqrt_le; [nra|].
    assert ((a * a + b * b + c * c) * (d * d + e * e + f * f) <= r * r * (s * s)).
    { apply Qle_trans with (r * r * (d * d + e * e + f * f)); [apply Qmult_le_compat_r; auto|].
      rewrite !(Qmult_comm (r * r)). apply Qmult_le_compat_r; [auto|apply square_pos]. }
    assert (G : - (a * d + b * e + c * f) * - (a * d + b * e + c * f) == (a * d + b * e + c * f) * (a * d + b * e + c * f)) by ring.
    rewrite G. assert (r * s * (r * s) == r * r * (s * s)) by ring. lra. }
  assert (G : (a - d) * (a - d) + (b - e) * (b - e) + (c - f) * (c - f) == (a * a + b * b + c * c) + (d * d + e * e + f * f) - 2 * (a * d + b * e + c * f)) by ring.
  rewrite G. assert ((r + s) * (r + s) == r * r + s * s + 2 * (r * s)) by ring. lra.
Qed.

Lemma qabs_Qabs x : qabs x == Qabs x.
Proof.
  unfold qabs. destruct (qlt x 0) eqn:E.
  - apply qlt_true in E. symmetry. apply Qabs_neg. lra.
  - apply qlt_false in E. symmetry. apply Qabs_pos. auto.
Qed.
Lemma Qabs_sq x : Qabs x * Qabs x == x * x.
Proof. destruct (Qlt_le_dec x 0); [rewrite Qabs_neg by lra|rewrite Qabs_pos by auto]; ring. Qed.

Lemma closer_true x y t : closer x y t = true <-> 0 < t /\ sq x y < t * t.
Proof. unfold closer. rewrite andb_true_iff, !qlt_true. unfold sqd, sq. reflexivity. Qed.
Lemma closer_height x y t : sq (V := solid) x y == (height x - height y) * (height x - height y) ->
  (closer x y t = true <-> Qabs (height x - height y) < t).
Proof.
  intros E. rewrite closer_true, E, <- Qabs_sq. assert (P := Qabs_nonneg (height x - height y)).
  set (a := Qabs (height x - height y)) in *. clearbody a. split; [intros [T H]|intros H; split; [lra|]].
  - destruct (Qlt_le_dec a t); auto. nra.
  - nra.
Qed.

Lemma any_of_ok f l : (forall q, In q l -> exists b, f q = Ok b) ->
  exists b, any_of f l = Ok b /\ (b = true <-> exists q, In q l /\ f q = Ok true).
Proof.
  induction l as [|q l IH]; intros H; cbn [any_of].
  - exists false. split; auto. split; [discriminate|intros (q & [] & _)].
  - destruct (H q) as [b E]; [now left|]. rewrite E. destruct b.
    + exists true. split; auto. split; auto. intros _. exists q. split; [now left|auto].
    + destruct IH as (b & -> & Hb); [intros; apply H; now right|]. exists b. split; auto. rewrite Hb. split.
      * intros (r & Hr & ?). exists r. split; [now right|auto].
      * intros (r & [<-|Hr] & K); [congruence|]. exists r. auto.
Qed.

(** The projections of the foot of a crossing. *)
Lemma project_foot tree l p q : query_ok (V := solid) tree bound_point -> on_line (V := solid) l p -> over p q ->
  exists x, project (V := solid) tree l (fst q, snd q, 0) = Ok x /\ on_line l x /\ sq (V := solid) x (fst q, snd q, 0) <= height p * height p /\
    forall y, on_line l y -> sq (V := solid) x (fst q, snd q, 0) <= sq (V := solid) y (fst q, snd q, 0).
Proof.
  intros Q Hp [O1 O2]. assert (l <> []) as Hne.
  { intros ->. destruct Hp as [(a & E & _)|(l1 & a & b & l2 & E & _)]; [discriminate|]. now destruct l1. }
  destruct (C71_project solid (proj2 C71_spaces) tree l (fst q, snd q, 0) Q Hne) as (x & E & On & Opt). exists x. split; [exact E|].
  split; [exact On|]. split; [|exact Opt].
  eapply Qle_trans; [apply Opt, Hp|]. rewrite sq_solid. cbn [fst snd]. rewrite O1, O2. unfold height.
    assert (E0 : (fst q - fst q) * (fst q - fst q) + (snd q - snd q) * (snd q - snd q) + (snd p - 0) * (snd p - 0) == snd p * snd p) by ring.
    rewrite E0. lra.
Qed.
Lemma project_level tree h l p q : query_ok (V := solid) tree bound_point -> level h l -> on_line (V := solid) l p -> over p q ->
  exists x, project (V := solid) tree l (fst q, snd q, 0) = Ok x /\ fst (fst x) == fst q /\ snd (fst x) == snd q /\ height x == h.
Proof.
  intros Q L Hp O. destruct (project_foot tree l p q Q Hp O) as (x & E & Hx & B & _). exists x. split; auto.
  assert (Hh := level_on h l x L Hx). assert (Ph := level_on h l p L Hp). unfold height in *. rewrite sq_solid in B. cbn [fst snd] in B.
  rewrite Hh, Ph in B. assert (A := square_pos (fst (fst x) - fst q)). assert (C := square_pos (snd (fst x) - snd q)).
  assert (R : (h - 0) * (h - 0) == h * h) by ring. rewrite R in B.
  assert (fst (fst x) - fst q == 0) by (apply square_zero; lra). assert (snd (fst x) - snd q == 0) by (apply square_zero; lra). repeat split; lra.
Qed.
