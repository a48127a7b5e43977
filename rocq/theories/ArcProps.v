(** C74 to C77: positions along line strings and arc coordinates. *)
From Coq Require Import List Bool Arith ZArith Reals Lra Lia Psatz.
From Verif Require Import ArcModel ArcSpec ArcProofs ArcPlane ArcTrip.
Import ListNotations.
Local Open Scope R_scope.

(** * C74: points at a distance along the line string *)
Section Generic.
Context {P : Type} (dist : P -> P -> R) (move : P -> P -> R -> P).

(** The point lies on the line string at the wanted distance or less than 1e-8 towards the end from which the distance is measured. Beyond the end it is the end. *)
Theorem C74_interpolated l d : metric_ok dist move -> (2 <= length l)%nat ->
  exists x s, interpolated_point dist move l d = Ok x /\ at_length dist move l s x /\ Rabs (s - wanted dist l d) < / 100000000 /\
              (0 <= d -> s <= wanted dist l d) /\ (d < 0 -> wanted dist l d <= s) /\ (way_length dist l < Rabs d -> s = wanted dist l d).
Proof. intros M. exact (interpolated_ok dist move M l d). Qed.
(** Of all points of the line string the result is closest along it. *)
Theorem C74_nearest l d : metric_ok dist move -> l <> [] ->
  exists v s, nearest_vertex dist l d = Ok v /\ vertex_at dist l s v /\
              forall s' v', vertex_at dist l s' v' -> Rabs (s - wanted dist l d) <= Rabs (s' - wanted dist l d).
Proof. intros M. exact (nearest_ok dist move M l d). Qed.
Theorem C74_short : (forall a d, interpolated_point dist move [a] d = Ok a) /\ (forall d, interpolated_point dist move [] d = Undefined) /\
                    (forall d, nearest_vertex dist [] d = Undefined).
Proof. unfold interpolated_point, nearest_vertex. split; [|split]; intros; destruct (Rlt_dec _ _); reflexivity. Qed.

(** * C75: ratios *)
Theorem C75_ratios l : (2 <= length l)%nat -> way_length dist l <> 0 ->
  exists rs, length_ratios dist l = Ok rs /\ length rs = (length l - 1)%nat /\ fold_right Rplus 0 rs = 1 /\
             forall l1 a b l2, l = l1 ++ a :: b :: l2 -> nth_error rs (length l1) = Some (dist a b / way_length dist l).
Proof.
  intros Hl Hz. exists (pair_ratios dist (way_length dist l) l). split; [apply ratios_ok; auto|]. split; [apply pair_ratios_length|].
  split; [rewrite pair_ratios_sum; field; auto|apply pair_ratios_nth].
Qed.
Theorem C75_accumulated l : (2 <= length l)%nat -> way_length dist l <> 0 ->
  exists rs, accumulated_ratios dist l = Ok rs /\ length rs = (length l - 1)%nat /\
             (forall i, (i < length l - 1)%nat -> nth_error rs i = Some (way_length dist (firstn (i + 2) l) / way_length dist l)) /\ last rs 0 = 1.
Proof.
  intros Hl Hz. destruct (accumulated_ok dist l Hl Hz) as (rs & E & El & Hn). exists rs. do 3 (split; auto).
  pose proof (Hn (length l - 2)%nat ltac:(lia)) as K. replace (length l - 2 + 2)%nat with (length l) in K by lia. rewrite firstn_all in K.
  replace (way_length dist l / way_length dist l) with 1 in K by (field; auto). clear -K El Hl.
  assert (length rs = S (length l - 2)) by lia. revert K H. generalize (length l - 2)%nat as n. clear. induction rs as [|x rs IH]; intros n K H; [discriminate|].
  destruct n as [|n]; cbn in *; [destruct rs; [congruence|discriminate]|]. destruct rs as [|y rs]; [discriminate|]. apply (IH n); auto.
Qed.
(** Finding: three or more equal points. *)
Theorem C75_equal_points_refuted a : dist a a = 0 -> length_ratios dist [a; a; a] = NotANumber /\ accumulated_ratios dist [a; a; a] = NotANumber.
Proof.
  intros H. assert (E : length_ratios dist [a; a; a] = NotANumber).
  { unfold length_ratios. cbn. rewrite H. destruct (Req_EM_T _ 0); [reflexivity|lra]. }
  unfold accumulated_ratios. rewrite E. auto.
Qed.
End Generic.
Print Assumptions C74_interpolated.
Print Assumptions C74_nearest.
Print Assumptions C74_short.
Print Assumptions C75_ratios.
Print Assumptions C75_accumulated.
Print Assumptions C75_equal_points_refuted.

(** Both the plane and the space satisfy the assumptions. *)
Definition euclid3 (p q : R * R * R) : R :=
  sqrt ((fst (fst q) - fst (fst p)) * (fst (fst q) - fst (fst p)) + (snd (fst q) - snd (fst p)) * (snd (fst q) - snd (fst p)) + (snd q - snd p) * (snd q - snd p)).
Definition between3 (p q : R * R * R) (t : R) : R * R * R :=
  ((1 - t) * fst (fst p) + t * fst (fst q), (1 - t) * snd (fst p) + t * snd (fst q), (1 - t) * snd p + t * snd q).
Theorem C74_spaces : metric_ok distance on_way /\ metric_ok euclid3 between3.
Proof.
  split.
  - constructor; intros; rewrite ?distance_eq, ?on_way_eq; apply plane_metric.
  - constructor.
    + intros. apply sqrt_pos.
    + intros. unfold euclid3. f_equal. ring.
    + intros [[a b] c] q. unfold between3. cbn. f_equal; [f_equal|]; ring.
    + intros p [[a b] c]. unfold between3. cbn. f_equal; [f_equal|]; ring.
    + intros p q t. unfold between3. cbn. f_equal; [f_equal|]; ring.
Qed.
Print Assumptions C74_spaces.

(** * Tools for the examples *)
Lemma distance_val p q k : 0 <= k -> sqn p q = k * k -> distance p q = k.
Proof. intros Hk E. rewrite distance_eq. unfold euclid. fold (sqn p q). rewrite E. apply sqrt_square. auto. Qed.
Ltac dec := repeat match goal with
  | |- context [if Rlt_dec ?a ?b then _ else _] => destruct (Rlt_dec a b); try (exfalso; cbn in *; lra)
  | |- context [if Rle_dec ?a ?b then _ else _] => destruct (Rle_dec a b); try (exfalso; cbn in *; lra)
  | |- context [if Req_EM_T ?a ?b then _ else _] => destruct (Req_EM_T a b); try (exfalso; cbn in *; lra)
  end.
Ltac dist v := rewrite (distance_val _ _ v) by (unfold sqn; cbn; lra).

(** Three points with the distances 4 and 3 *)
Definition bend : list point := [(0, 0); (4, 0); (4, 3)].
Example C74_nonvacuous :
  interpolated_point distance on_way bend 5 = Ok (4, 1) /\ interpolated_point distance on_way bend (-1) = Ok (4, 2) /\
  interpolated_point distance on_way bend 9 = Ok (4, 3) /\
  nearest_vertex distance bend 5 = Ok (4, 0) /\ nearest_vertex distance bend (-6) = Ok (0, 0) /\ wanted distance bend (-6) = 1.
Proof.
  assert (D1 : distance (0, 0) (4, 0) = 4) by (apply distance_val; unfold sqn; cbn; lra).
  assert (D2 : distance (4, 0) (4, 3) = 3) by (apply distance_val; unfold sqn; cbn; lra).
  assert (D3 : distance (4, 0) (0, 0) = 4) by (apply distance_val; unfold sqn; cbn; lra).
  assert (D4 : distance (4, 3) (4, 0) = 3) by (apply distance_val; unfold sqn; cbn; lra).
  unfold interpolated_point, nearest_vertex, wanted, bend, way_length. cbn. rewrite D1, D2, D3, D4.
  repeat split; dec; unfold on_way, padd, pscale, psub; cbn; try reflexivity; try (f_equal; f_equal; field). unfold Rmax. dec. lra.
Qed.
Example C75_nonvacuous : length_ratios distance bend = Ok [4 / 7; 3 / 7] /\ accumulated_ratios distance bend = Ok [4 / 7; 1].
Proof.
  assert (D1 : distance (0, 0) (4, 0) = 4) by (apply distance_val; unfold sqn; cbn; lra).
  assert (D2 : distance (4, 0) (4, 3) = 3) by (apply distance_val; unfold sqn; cbn; lra).
  unfold accumulated_ratios, length_ratios, bend. cbn. rewrite D1, D2. dec. cbn. split; f_equal; f_equal; try lra; f_equal; lra.
Qed.

(** * C76: toArcCoordinates *)
Theorem C76_to_arc closest ls p : closest_ok closest -> (2 <= length ls)%nat -> NoDup (removelast ls) ->
  exists s d x, to_arc closest ls p = Ok (s, d) /\ at_length euclid between ls s x /\ nearest_foot ls p x /\ Rabs d = euclid x p.
Proof. apply to_arc_ok. Qed.
Print Assumptions C76_to_arc.
Theorem C76_search : closest_ok closest_scan.
Proof. exact closest_scan_ok. Qed.
Print Assumptions C76_search.

(** Finding: a line string that returns to a point. The foot point lies behind the loop at 15 along the line string, the result is 3. *)
Definition loop : list point := [(0, 0); (4, 0); (4, 3); (0, 0); (-5, 0)].
Theorem C76_loop_refuted :
  to_arc closest_scan loop (-3, 4) = Ok (3, -4) /\ nearest_foot loop (-3, 4) (-3, 0) /\ at_length euclid between loop 15 (-3, 0) /\
  forall s, at_length euclid between loop s (-3, 0) -> s = 15.
Proof.
  assert (D1 : euclid (0, 0) (4, 0) = 4) by (rewrite <- distance_eq; apply distance_val; unfold sqn; cbn; lra).
  assert (D2 : euclid (4, 0) (4, 3) = 3) by (rewrite <- distance_eq; apply distance_val; unfold sqn; cbn; lra).
  assert (D3 : euclid (4, 3) (0, 0) = 5) by (rewrite <- distance_eq; apply distance_val; unfold sqn; cbn; lra).
  assert (D4 : euclid (0, 0) (-5, 0) = 5) by (rewrite <- distance_eq; apply distance_val; unfold sqn; cbn; lra).
  assert (A15 : at_length euclid between loop 15 (-3, 0)).
  { exists [(0, 0); (4, 0); (4, 3)], (0, 0), (-5, 0), [], (3 / 5). split; [reflexivity|]. split; [lra|]. split.
    - unfold between. cbn. f_equal; lra.
    - unfold way_length. cbn. rewrite D1, D2, D3, D4. lra. }
  split; [|split; [|split]]; auto.
  - unfold to_arc, closest_scan, loop, scan_segments.
    assert (P1 : project_to (0, 0) (4, 0) (-3, 4) = (0, 0)) by (unfold project_to, pdot, psub; cbn; dec; reflexivity).
    assert (P2 : project_to (4, 0) (4, 3) (-3, 4) = (4, 3)) by (unfold project_to, pdot, psub; cbn; dec; reflexivity).
    assert (P3 : project_to (4, 3) (0, 0) (-3, 4) = (0, 0)) by (unfold project_to, pdot, psub; cbn; dec; reflexivity).
    assert (P4 : project_to (0, 0) (-5, 0) (-3, 4) = (-3, 0)).
    { unfold project_to, pdot, psub, padd, pscale; cbn. dec. f_equal; field. }
    rewrite P1, P2, P3, P4. assert (E1 : distance (0, 0) (-3, 4) = 5) by (apply distance_val; unfold sqn; cbn; lra).
    assert (E4 : distance (-3, 0) (-3, 4) = 4) by (apply distance_val; unfold sqn; cbn; lra).
    assert (E2 : 5 < distance (4, 3) (-3, 4)).
    { rewrite distance_eq. unfold euclid. cbn. rewrite <- (sqrt_square 5) by lra. apply sqrt_lt_1_alt. lra. }
    rewrite E1, E4. cbn [fst snd]. destruct (Rlt_dec _ 5); [lra|]. cbn [fst snd]. destruct (Rlt_dec 5 5); [lra|]. cbn [fst snd].
    destruct (Rlt_dec 4 5); [|lra]. cbn [fst snd]. rewrite P4, E4. unfold left_of.
    destruct (point_dec (-5, 0) (-3, 0)) as [K|_]; [injection K; lra|].
    unfold left_of_line. destruct (Rlt_dec 0 _) as [K|_]; [unfold psub in K; cbn in K; lra|].
    cbn [length_until]. destruct (point_dec (0, 0) (0, 0)); [|easy]. f_equal. f_equal.
    rewrite (distance_val _ _ 3) by (unfold sqn; cbn; lra). lra.
  - split; [eauto|]. intros s y (l1 & a & b & l2 & t & E & Ht & -> & _). apply euclid_le. unfold loop in E.
    destruct l1 as [|? [|? [|? [|? [|? [|]]]]]]; cbn in E; try discriminate; inversion E; subst; clear -Ht; unfold sqn, between; cbn [fst snd];
      pose proof (Rle_0_sqr (4 - 3 * t)) as S1; pose proof (Rle_0_sqr (1 - t)) as S2; pose proof (Rle_0_sqr (3 - 5 * t)) as S3; pose proof (Rle_0_sqr t) as S4; unfold Rsqr in *; nra.
  - intros s (l1 & a & b & l2 & t & E & Ht & Ex & ->). unfold loop in E.
    destruct l1 as [|x1 [|x2 [|x3 [|x4 [|x5 [|]]]]]]; cbn in E; try discriminate; inversion E; subst; clear E;
      unfold between in Ex; cbn in Ex; injection Ex as X Y; unfold way_length; cbn; rewrite ?D1, ?D2, ?D3, ?D4; lra.
Qed.
Print Assumptions C76_loop_refuted.

(** * C77: fromArcCoordinates *)
(** Inside the line string the result lies beside a point at this length (up to 1e-8), at a right angle to the segment at this length. *)
Theorem C77_inside ls s d : (2 <= length ls)%nat -> 0 <= s < way_length euclid ls ->
  exists l1 a b l2 x s' q, ls = l1 ++ a :: b :: l2 /\ way_length euclid (l1 ++ [a]) <= s < way_length euclid (l1 ++ [a]) + euclid a b /\
    at_length euclid between ls s' x /\ s - / 100000000 < s' <= s /\ from_arc ls s d = Ok q /\ beside a b x d q.
Proof. apply from_arc_inside. Qed.
Print Assumptions C77_inside.
(** Beyond the end it lies beside the end. *)
Theorem C77_beyond l1 a b s d : a <> b -> way_length euclid (l1 ++ [a; b]) <= s ->
  exists x s' q, at_length euclid between (l1 ++ [a; b]) s' x /\
    way_length euclid (l1 ++ [a; b]) - / 100000000 < s' <= way_length euclid (l1 ++ [a; b]) /\
    from_arc (l1 ++ [a; b]) s d = Ok q /\ beside a b x d q.
Proof. apply from_arc_beyond. Qed.
Print Assumptions C77_beyond.
Theorem C77_short ls s d : (length ls < 2)%nat -> from_arc ls s d = Thrown.
Proof. intros H. unfold from_arc. apply Nat.ltb_lt in H. rewrite H. reflexivity. Qed.
Print Assumptions C77_short.
(** A point whose nearest points are not corners is found again from its arc coordinates. *)
Theorem C77_round_trip closest ls p : closest_ok closest -> (2 <= length ls)%nat -> NoDup (removelast ls) -> feet_inside ls p ->
  exists s d, to_arc closest ls p = Ok (s, d) /\ from_arc ls s d = Ok p.
Proof. apply round_trip. Qed.
Print Assumptions C77_round_trip.
(** Finding: the point in front of a corner is not found again. *)
Definition corner : list point := [(0, 0); (4, 0); (4, -4)].
Theorem C77_corner_refuted : to_arc closest_scan corner (7, 4) = Ok (4, 5) /\ from_arc corner 4 5 = Ok (9, 0).
Proof.
  assert (D1 : distance (0, 0) (4, 0) = 4) by (apply distance_val; unfold sqn; cbn; lra).
  assert (D2 : distance (4, 0) (4, -4) = 4) by (apply distance_val; unfold sqn; cbn; lra).
  assert (D3 : distance (4, 0) (7, 4) = 5) by (apply distance_val; unfold sqn; cbn; lra).
  split.
  - unfold to_arc, closest_scan, corner, scan_segments.
    assert (P1 : project_to (0, 0) (4, 0) (7, 4) = (4, 0)) by (unfold project_to, pdot, psub; cbn; dec; reflexivity).
    assert (P2 : project_to (4, 0) (4, -4) (7, 4) = (4, 0)) by (unfold project_to, pdot, psub; cbn; dec; reflexivity).
    rewrite P1, P2, D3. cbn [fst snd]. destruct (Rlt_dec 5 5); [lra|]. cbn [fst snd]. rewrite P1, D3. unfold left_of.
    destruct (point_dec (4, 0) (4, 0)); [|easy]. cbn [find_from]. destruct (point_dec (0, 0) (4, 0)) as [K|_]; [injection K; lra|].
    destruct (point_dec (4, 0) (4, 0)); [|easy].
    assert (L1 : left_of_line (0, 0) (4, 0) (7, 4) = true) by (unfold left_of_line, psub; cbn; dec; reflexivity).
    assert (L2 : left_of_line (4, 0) (4, -4) (7, 4) = true) by (unfold left_of_line, psub; cbn; dec; reflexivity).
    rewrite L1, L2. cbn [eqb negb andb]. cbn [length_until]. destruct (point_dec (0, 0) (0, 0)); [|easy]. rewrite D1. f_equal. f_equal. lra.
  - unfold from_arc, interpolated_point, accumulated_ratios, length_ratios, corner. cbn. rewrite D1, D2. dec. cbn. dec. cbn. dec.
    cbn. f_equal. unfold shift_left. cbn [fst snd].
    assert (E : sqrt ((4 - 4) * (4 - 4) + (-4 - 0) * (-4 - 0)) = 4) by (replace (_ + _) with (4 * 4) by ring; apply sqrt_square; lra).
    rewrite E. destruct (Req_EM_T 4 0); [lra|]. unfold on_way, padd, pscale, psub. cbn. f_equal; lra.
Qed.
Print Assumptions C77_corner_refuted.
(** Finding: for negative lengths the point is measured from the end, but shifted along the normal of the first segment. *)
Theorem C77_negative_refuted : interpolated_point distance on_way bend (-1) = Ok (4, 2) /\ from_arc bend (-1) 1 = Ok (4, 3) /\ beside (4, 0) (4, 3) (4, 2) 1 (3, 2).
Proof.
  assert (D1 : distance (0, 0) (4, 0) = 4) by (apply distance_val; unfold sqn; cbn; lra).
  assert (D2 : distance (4, 0) (4, 3) = 3) by (apply distance_val; unfold sqn; cbn; lra).
  assert (D3 : distance (4, 0) (0, 0) = 4) by (apply distance_val; unfold sqn; cbn; lra).
  assert (D4 : distance (4, 3) (4, 0) = 3) by (apply distance_val; unfold sqn; cbn; lra).
  assert (I : interpolated_point distance on_way bend (-1) = Ok (4, 2)) by apply C74_nonvacuous.
  split; auto. split.
  - unfold from_arc. rewrite I. unfold accumulated_ratios, length_ratios, bend. cbn. rewrite D1, D2. dec. cbn. dec. cbn. f_equal. unfold shift_left. cbn [fst snd].
    assert (E : sqrt ((4 - 0) * (4 - 0) + (0 - 0) * (0 - 0)) = 4) by (replace (_ + _) with (4 * 4) by ring; apply sqrt_square; lra).
    rewrite E. destruct (Req_EM_T 4 0); [lra|]. unfold padd, pscale. cbn. f_equal; lra.
  - unfold beside. rewrite <- distance_eq, D2. cbn. split; lra.
Qed.
Print Assumptions C77_negative_refuted.
(** Finding: with a doubled last point the result at the end is not shifted. *)
Theorem C77_doubled_refuted : from_arc [(0, 0); (4, 0); (4, 0)] 4 1 = Ok (4, 0) /\ from_arc [(0, 0); (4, 0)] 4 1 = Ok (4, 1).
Proof.
  assert (D1 : distance (0, 0) (4, 0) = 4) by (apply distance_val; unfold sqn; cbn; lra).
  assert (D2 : distance (4, 0) (4, 0) = 0) by (apply distance_val; unfold sqn; cbn; lra).
  unfold from_arc, interpolated_point, accumulated_ratios, length_ratios. cbn. rewrite D1, D2. split.
  - dec. cbn. dec. cbn. dec. f_equal. unfold shift_left. cbn [fst snd].
    destruct (Req_EM_T _ 0) as [_|K].
    + unfold on_way, padd, pscale, psub. cbn. f_equal; lra.
    + destruct K. replace (_ + _) with 0 by ring. apply sqrt_0.
  - dec. cbn. dec. cbn. dec. f_equal. unfold shift_left. cbn [fst snd].
    assert (E : sqrt ((4 - 0) * (4 - 0) + (0 - 0) * (0 - 0)) = 4) by (replace (_ + _) with (4 * 4) by ring; apply sqrt_square; lra).
    rewrite E. destruct (Req_EM_T 4 0); [lra|]. unfold on_way, padd, pscale, psub. cbn. f_equal; lra.
Qed.
Print Assumptions C77_doubled_refuted.
(** Shifting a point of the line string at a right angle to the line through its neighbours; negative indices count from the end. *)
Theorem C77_lateral ls idx i d : (2 <= length ls)%nat -> (i < length ls)%nat ->
  idx = Z.of_nat i \/ (0 < i)%nat /\ idx = (Z.of_nat i - Z.of_nat (length ls))%Z ->
  exists a b x q, nth_error ls (i - 1) = Some a /\ nth_error ls (min (i + 1) (length ls - 1)) = Some b /\ nth_error ls i = Some x /\
    lateral_shift ls idx d = Ok q /\ (a <> b -> beside a b x d q).
Proof.
  intros Hl Hi Hidx. destruct (lateral_ok ls idx i d Hl Hi Hidx) as (a & b & x & A & B & X & E). exists a, b, x. eexists. do 3 (split; auto). split; eauto.
  apply shift_left_beside.
Qed.
Print Assumptions C77_lateral.
(** Finding: the first point cannot be given by its negative index. *)
Theorem C77_lateral_first_refuted ls d : lateral_shift ls (- Z.of_nat (length ls)) d = Thrown.
Proof. unfold lateral_shift. destruct (Z.ltb_spec (Z.of_nat (length ls)) (Z.abs (- Z.of_nat (length ls)) + 1)); [reflexivity|exfalso; lia]. Qed.
Print Assumptions C77_lateral_first_refuted.

Lemma bend_feet : feet_inside bend (2, 1).
Proof.
  intros l1 a b l2 t E Ht [_ Hm].
  assert (D1 : euclid (0, 0) (4, 0) = 4) by (rewrite <- distance_eq; apply distance_val; unfold sqn; cbn; lra).
  assert (K : euclid (between a b t) (2, 1) <= euclid (2, 0) (2, 1)).
  { apply (Hm 2). exists [], (0, 0), (4, 0), [(4, 3)], (1 / 2). split; [reflexivity|]. split; [lra|]. split; [unfold between; cbn; f_equal; lra|].
    unfold way_length. cbn. rewrite D1. lra. }
  apply euclid_le in K. unfold bend in E. destruct l1 as [|? [|? [|? [|]]]]; cbn in E; try discriminate; inversion E; subst; unfold sqn, between in K; cbn [fst snd] in K.
  - assert (t = 1 / 2) by nra. subst. rewrite D1. lra.
  - exfalso. pose proof (Rle_0_sqr (1 - ((1 - t) * 0 + t * 3))) as S. unfold Rsqr in S. nra.
Qed.
Example C77_nonvacuous : exists s d, to_arc closest_scan bend (2, 1) = Ok (s, d) /\ from_arc bend s d = Ok (2, 1).
Proof.
  apply C77_round_trip.
  - apply closest_scan_ok.
  - cbn. lia.
  - cbn. constructor; [intros [K|[]]; injection K; lra|constructor; [intros []|constructor]].
  - apply bend_feet.
Qed.
Example C76_nonvacuous : exists s d x, to_arc closest_scan bend (2, 1) = Ok (s, d) /\ at_length euclid between bend s x /\ nearest_foot bend (2, 1) x /\ Rabs d = euclid x (2, 1).
Proof.
  apply C76_to_arc.
  - apply closest_scan_ok.
  - cbn. lia.
  - cbn. constructor; [intros [K|[]]; injection K; lra|constructor; [intros []|constructor]].
Qed.
