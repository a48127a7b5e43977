(** C94-C96: line strings beside a line string, and the removal of self-intersections. *)
From Coq Require Import List Bool Arith Reals Lia Lra Psatz.
From Verif Require Import ArcModel ArcSpec OffsetModel OffsetSpec OffsetWalk OffsetProofs OffsetProofs2 OffsetProofs3.
Import ListNotations.
Local Open Scope R_scope.

(** * C94 *)

(** Whatever way the line string turns: no point of the result is further away than the square root of 2 times the distance, and the result
    starts and ends beside the first and the last point. Without doubled points. *)
Theorem C94_not_further query meet l d : query_ok query -> meet_ok meet -> no_doubled l -> (2 <= length l)%nat ->
  exists r, offset_no_throw query meet l d = Done r /\ (2 <= length r)%nat /\
    Forall (fun x => exists y, on_line l y /\ euclid x y <= sqrt 2 * Rabs d) r /\
    (forall a b, nth_error l 0 = Some a -> nth_error l 1 = Some b -> beside a b a d (hd (0, 0) r)) /\
    (forall a b, nth_error l (length l - 2) = Some a -> nth_error l (length l - 1) = Some b -> beside a b b d (last r (0, 0))).
Proof. intros Q M D L. apply (offset_near query meet Q M l d D L). Qed.
Print Assumptions C94_not_further.

(** If the line string turns away from the side of the offset at all of its corners, and for negative distances by at most a right angle: one
    segment of the result runs beside each of its segments, with perhaps one more around a corner, and each point of the result has a distance
    between the given one and the square root of 2 times the given one from its segment. *)
Theorem C94_convex query meet l d : no_doubled l -> (2 <= length l)%nat ->
  (forall k s s', nth_error (pairs l) k = Some s -> nth_error (pairs l) (S k) = Some s' -> turns_away d s s') ->
  exists r, offset_no_throw query meet l d = Done r /\ moved d (pairs l) (pairs r) /\
    forall u x, In u (pairs r) -> on_segment u x -> exists s, In s (pairs l) /\ away s (Rabs d) x /\ near s (sqrt 2 * Rabs d) x.
Proof.
  intros D L T. destruct (offset_moved l d D T query meet L) as (r & E & Mv). exists r. split; [auto|]. split; [auto|].
  apply (moved_dist d _ _ Mv). apply D.
Qed.
Print Assumptions C94_convex.

Ltac num := cbn [fst snd]; lra.
Ltac unitv := unfold psub; cbn [fst snd]; f_equal; lra.
Ltac dec1 := repeat match goal with |- context [Rlt_dec ?a ?b] => destruct (Rlt_dec a b); [try (exfalso; lra)|try (exfalso; lra)] end.
Ltac conv := unfold convex_here; dec1; reflexivity.

Lemma half_overshoot f : overshoot 1 0 (-7/25) f = 1 / 2.
Proof.
  unfold overshoot. replace (1 * (-7/25) + 0 * f) with (-7/25) by lra.
  destruct (sharp_angle (-7/25)) as (C & S & C0 & S0 & H1 & H2 & _ & H3 & _); [lra|].
  assert (C1 : C = 3/5) by (assert (Y : (C - 3/5) * (C + 3/5) = 0) by lra; apply Rmult_integral in Y; destruct Y; lra).
  assert (S1 : S = 4/5) by (subst C; assert (Y : (S - 4/5) * (S + 4/5) = 0) by lra; apply Rmult_integral in Y; destruct Y; lra).
  subst. lra.
Qed.
(** A right angle to the right and a sharp turn to the right, seen from the left *)
Definition bent : list point := [(0, -5); (0, 0); (10, 0); (3, -24)].
Lemma bent_parts : extract_convex bent 1 = Done [[(-1, -5); (-1, 1); (21/2, 1); (111/10, 1/5); (99/25, -607/25)]].
Proof.
  unfold extract_convex. change (length bent) with 4%nat.
  rewrite (convex_parts_step bent 1 3 0 (-1, -5) [(-1, 1); (21/2, 1); (111/10, 1/5); (99/25, -607/25)] 3).
  - rewrite convex_parts_end by (simpl; lia). reflexivity.
  - simpl. lia.
  - rewrite (perp_eval bent 0 (0, -5) (0, 0) 1 5 0 1); try reflexivity; try lra; [|unitv]. unfold shifted. cbn [fst snd]. do 2 f_equal; lra.
  - change (length bent - (0 + 1))%nat with 3%nat. change (0 + 1)%nat with 1%nat. cbn [convex_part].
    rewrite (inner_lateral bent 0 (0, -5) (0, 0) (10, 0) 1 5 10 0 1 1 0); try reflexivity; try lra; try unitv; try conv. cbn [bind].
    rewrite (inner_sharp bent 1 (0, 0) (10, 0) (3, -24) 1 10 25 1 0 (-7/25) (-24/25)); try reflexivity; try lra; try unitv; try conv. cbn [bind].
    rewrite (lateral_last bent 2 (10, 0) (3, -24) 1 25 (-7/25) (-24/25)); try reflexivity; try lra; try unitv. cbn [bind].
    rewrite half_overshoot. unfold shifted. cbn [fst snd app]. do 3 f_equal; [f_equal; lra|]. f_equal; [f_equal; lra|]. f_equal; [f_equal; lra|]. f_equal. f_equal; lra.
Qed.
Lemma bent_offset query meet : offset_no_throw query meet bent 1 = Done [(-1, -5); (-1, 1); (21/2, 1); (111/10, 1/5); (99/25, -607/25)].
Proof. unfold offset_no_throw. rewrite bent_parts. reflexivity. Qed.
Example C94_nonvacuous query meet : offset_no_throw query meet bent 1 = Done [(-1, -5); (-1, 1); (21/2, 1); (111/10, 1/5); (99/25, -607/25)] /\
  no_doubled bent /\ forall k s s', nth_error (pairs bent) k = Some s -> nth_error (pairs bent) (S k) = Some s' -> turns_away 1 s s'.
Proof.
  split; [apply bent_offset|]. split.
  - intros s I E. simpl in I. repeat destruct I as [<-|I]; try destruct I; cbn [fst snd] in E; injection E; intros; lra.
  - intros k s s' H1 H2. left. split; [lra|]. destruct k as [|[|[|k]]]; simpl in H1, H2; try discriminate; try (destruct k; discriminate);
      injection H1 as <-; injection H2 as <-; unfold cross, step; cbn [fst snd]; lra.
Qed.

(** The same sharp turn to the left, seen from the right: the result passes the corner at a fifth of the distance. The overshoot has the sign of
    the distance, so both points lie on the wrong side. *)
Definition bent_left : list point := [(0, 0); (10, 0); (3, 24)].
Lemma bent_left_offset query meet : offset_no_throw query meet bent_left (-1) = Done [(0, -1); (19/2, -1); (541/50, 19/25); (99/25, 607/25)].
Proof.
  unfold offset_no_throw, extract_convex. change (length bent_left) with 3%nat.
  rewrite (convex_parts_step bent_left (-1) 2 0 (0, -1) [(19/2, -1); (541/50, 19/25); (99/25, 607/25)] 2).
  - rewrite convex_parts_end by (simpl; lia). reflexivity.
  - simpl. lia.
  - rewrite (perp_eval bent_left 0 (0, 0) (10, 0) (-1) 10 1 0); try reflexivity; try lra; [|unitv]. unfold shifted. cbn [fst snd]. do 2 f_equal; lra.
  - change (length bent_left - (0 + 1))%nat with 2%nat. change (0 + 1)%nat with 1%nat. cbn [convex_part].
    rewrite (inner_sharp bent_left 0 (0, 0) (10, 0) (3, 24) (-1) 10 25 1 0 (-7/25) (24/25)); try reflexivity; try lra; try unitv; try conv. cbn [bind].
    rewrite (lateral_last bent_left 1 (10, 0) (3, 24) (-1) 25 (-7/25) (24/25)); try reflexivity; try lra; try unitv. cbn [bind].
    rewrite half_overshoot. unfold shifted. cbn [fst snd app]. do 3 f_equal; [f_equal; lra|]. f_equal; [f_equal; lra|]. f_equal. f_equal; lra.
Qed.
Theorem C94_sharp_right_refuted : exists l d, no_doubled l /\ (2 <= length l)%nat /\ forall query meet, exists r u x y,
  offset_no_throw query meet l d = Done r /\ In u (pairs r) /\ on_segment u x /\ on_line l y /\ euclid x y = Rabs d / 5.
Proof.
  exists bent_left, (-1). split; [|split; [simpl; lia|]].
  - intros s I E. simpl in I. repeat destruct I as [<-|I]; try destruct I; cbn [fst snd] in E; injection E; intros; lra.
  - intros query meet. eexists. exists ((19/2, -1), (541/50, 19/25)), (between (19/2, -1) (541/50, 19/25) (1/2)), (10, 0).
    split; [apply bent_left_offset|]. split; [right; left; auto|]. split; [exists (1/2); split; [lra|auto]|]. split.
    + exists ((0, 0), (10, 0)). split; [left; auto|apply (on_snd ((0, 0), (10, 0)))].
    + unfold euclid, between. cbn [fst snd]. replace (Rabs (-1)) with 1 by (rewrite Rabs_left by lra; lra).
      replace (_ + _) with ((1/5) * (1/5)) by field. rewrite sqrt_square; lra.
Qed.
Print Assumptions C94_sharp_right_refuted.

(** A doubled point is moved by twice the distance. *)
Definition doubled : list point := [(0, 0); (10, 0); (10, 0); (20, 0)].
Lemma zero_normalized : normalized (0, 0) = (0, 0).
Proof. unfold normalized. destruct (Rlt_dec 0 (pdot (0, 0) (0, 0))) as [G|G]; [|auto]. unfold pdot in G. simpl in G. lra. Qed.
Lemma unit_x : normalized (10, 0) = (1, 0).
Proof. replace (10, 0) with (10 * 1, 10 * 0) by (f_equal; lra). apply normalized_unit; lra. Qed.
Theorem C94_doubled_point_refuted query meet : exists r x, offset_no_throw query meet [(0, 0); (10, 0); (10, 0); (20, 0)] 1 = Done r /\ In x r /\
  forall y, on_line [(0, 0); (10, 0); (10, 0); (20, 0)] y -> 2 <= euclid x y.
Proof.
  fold doubled. exists [(0, 1); (10, 2); (10, 2); (20, 1)], (10, 2). split; [|split; [right; left; auto|]].
  - unfold offset_no_throw, extract_convex. change (length doubled) with 4%nat.
    rewrite (convex_parts_step doubled 1 3 0 (0, 1) [(10, 2); (10, 2); (20, 1)] 3).
    + rewrite convex_parts_end by (simpl; lia). reflexivity.
    + simpl. lia.
    + rewrite (perp_eval doubled 0 (0, 0) (10, 0) 1 10 1 0); try reflexivity; try lra; [|unitv]. unfold shifted. cbn [fst snd]. do 2 f_equal; lra.
    + change (length doubled - (0 + 1))%nat with 3%nat. change (0 + 1)%nat with 1%nat. cbn [convex_part].
      assert (HN : norm (1, 0) = 1) by (unfold norm, pdot; simpl; replace (1 * 1 + 0 * 0) with 1 by lra; apply sqrt_1).
      assert (V1 : vicinity doubled 1 = ((10, 0), (0, 0))) by (unfold vicinity; cbn [Nat.eqb]; unfold psub, at_index; simpl; do 2 f_equal; lra).
      assert (V2 : vicinity doubled 2 = ((0, 0), (10, 0))) by (unfold vicinity; cbn [Nat.eqb]; unfold psub, at_index; simpl; do 2 f_equal; lra).
      assert (T : normalized (turned (1, 0)) = (0, 1)).
      { unfold turned. simpl. replace (- 0, 1) with (1 * 0, 1 * 1) by (f_equal; lra). apply normalized_unit; lra. }
      assert (S1 : shift_point doubled 1 1 (vicinity doubled 1) = Done ([(10, 2)], true)).
      { rewrite V1. unfold shift_point, get_convexity, is_convex. cbn [Nat.eqb negb andb length doubled Nat.add Nat.sub].
        unfold left_of_line, at_index, pdot, psub. cbn [nth doubled fst snd]. dec1. cbn [negb]. dec1. do 3 f_equal.
        unfold shift_lateral. cbn [Nat.eqb length doubled Nat.add]. rewrite zero_normalized, unit_x.
        replace (padd (0, 0) (1, 0)) with (1, 0) by (unfold padd; simpl; f_equal; lra). rewrite HN, T. dec1. unfold padd, pscale, at_index. simpl. f_equal; lra. }
      assert (S2 : shift_point doubled 1 2 (vicinity doubled 2) = Done ([(10, 2)], true)).
      { rewrite V2. unfold shift_point, get_convexity, is_convex. cbn [Nat.eqb negb andb length doubled Nat.add Nat.sub].
        unfold left_of_line, at_index, pdot, psub. cbn [nth doubled fst snd]. dec1. cbn [negb]. dec1. do 3 f_equal.
        unfold shift_lateral. cbn [Nat.eqb length doubled Nat.add]. rewrite zero_normalized, unit_x.
        replace (padd (1, 0) (0, 0)) with (1, 0) by (unfold padd; simpl; f_equal; lra). rewrite HN, T. dec1. unfold padd, pscale, at_index. simpl. f_equal; lra. }
      rewrite S1. cbn [bind]. rewrite S2. cbn [bind].
      rewrite (lateral_last doubled 2 (10, 0) (20, 0) 1 10 1 0); try reflexivity; try lra; try unitv. cbn [bind app].
      unfold shifted. cbn [fst snd]. repeat f_equal; lra.
  - intros y (s & I & O). apply sq_lower; [lra|].
    simpl in I. repeat destruct I as [<-|I]; try destruct I; apply on_coords in O; destruct O as (t & Ht & E1 & E2); unfold sq; cbn [fst snd];
      rewrite E1, E2; match goal with |- _ <= ?x * ?x + _ => pose proof (Rle_0_sqr x) as G; unfold Rsqr in G end; lra.
Qed.
Print Assumptions C94_doubled_point_refuted.

(** A step of the walk jumps into the second segment of a part, but goes on at the start of that part: a left turn with another point on the
    straight way behind it. The result has a point at half of the distance, and [offset] reports an inversion. *)
Definition behind_turn : list point := [(0, 0); (10, 0); (10, 1/2); (10, 10)].
Lemma behind_parts : extract_convex behind_turn 1 = Done [[(0, 1); (10, 1)]; [(9, 0); (9, 1/2); (9, 10)]].
Proof.
  unfold extract_convex. change (length behind_turn) with 4%nat.
  rewrite (convex_parts_step behind_turn 1 3 0 (0, 1) [(10, 1)] 1).
  - rewrite (convex_parts_step behind_turn 1 2 1 (9, 0) [(9, 1/2); (9, 10)] 3).
    + rewrite convex_parts_end by (simpl; lia). reflexivity.
    + simpl. lia.
    + rewrite (perp_eval behind_turn 1 (10, 0) (10, 1/2) 1 (1/2) 0 1); try reflexivity; try lra; [|unitv]. unfold shifted. cbn [fst snd]. do 2 f_equal; lra.
    + change (length behind_turn - (1 + 1))%nat with 2%nat. change (1 + 1)%nat with 2%nat. cbn [convex_part].
      rewrite (inner_lateral behind_turn 1 (10, 0) (10, 1/2) (10, 10) 1 (1/2) (19/2) 0 1 0 1); try reflexivity; try lra; try unitv; try conv. cbn [bind].
      rewrite (lateral_last behind_turn 2 (10, 1/2) (10, 10) 1 (19/2) 0 1); try reflexivity; try lra; try unitv. cbn [bind app].
      unfold shifted. cbn [fst snd]. do 3 f_equal; [f_equal; lra|]. f_equal. f_equal; lra.
  - simpl. lia.
  - rewrite (perp_eval behind_turn 0 (0, 0) (10, 0) 1 10 1 0); try reflexivity; try lra; [|unitv]. unfold shifted. cbn [fst snd]. do 2 f_equal; lra.
  - change (length behind_turn - (0 + 1))%nat with 3%nat. change (0 + 1)%nat with 1%nat. cbn [convex_part].
    rewrite (inner_concave behind_turn 0 (0, 0) (10, 0) (10, 1/2) 1 10 (1/2) 1 0 0 1); try reflexivity; try lra; try unitv; try conv. cbn [bind].
    unfold shifted. cbn [fst snd]. do 3 f_equal. f_equal; lra.
Qed.
Ltac coords := repeat match goal with H : on_segment ((_, _), (_, _)) _ |- _ => apply on_coords in H; destruct H as (? & ? & ? & ?) end.
Ltac no_touch := match goal with H : touch _ _ |- _ => destruct H as (? & ? & ?); coords; exfalso; lra end.
Ltac other n H := repeat (destruct n as [|n]; [simpl in H; try lia; try (injection H as <-)|]); try (destruct n; discriminate).
Lemma pt_eq (p q : point) : fst p = fst q -> snd p = snd q -> p = q.
Proof. destruct p, q. simpl. congruence. Qed.

Lemma behind_offset query meet : query_ok query -> meet_ok meet ->
  offset_no_throw query meet behind_turn 1 = Done [(0, 1); (9, 1); (9, 1/2); (9, 10)].
Proof.
  intros Q M. unfold offset_no_throw. rewrite behind_parts. cbn [bind join_parts flat_map segments_of app length].
  set (segs := [((0, 1), (10, 1)); ((9, 0), (9, 1/2)); ((9, 1/2), (9, 10))] : list segment).
  change (owners 0 [[(0, 1); (10, 1)]; [(9, 0); (9, 1/2); (9, 10)]]) with [0; 1; 1]%nat.
  cbn [join_loop nth_error].
  destruct (next_exit query meet Q M segs 0 ((0, 1), (10, 1)) 0 2 ((9, 1/2), (9, 10)) (9, 1)) as (cs & E & F).
  - reflexivity.
  - unfold free. cbn [fst snd]. repeat split; try lia; intros X; injection X; intros; lra.
  - exists (9/10). split; [lra|]. unfold between. cbn [fst snd]. f_equal; lra.
  - exists (1/19). split; [lra|]. unfold between. cbn [fst snd]. f_equal; lra.
  - intros y Y1 Y2. coords. apply pt_eq; cbn [fst snd]; lra.
  - cbn [fst]. unfold euclid. cbn [fst snd]. apply sqrt_lt_R0. lra.
  - intros n o N (_ & _ & _ & L) T. destruct n as [|[|[|n]]]; [lia| |auto|destruct n; discriminate]. simpl in N. injection N as <-. no_touch.
  - rewrite E. cbn [bind]. rewrite F. cbn [nth_error Nat.eqb].
    destruct (next_end query meet Q M segs 2 ((9, 0), (9, 1/2)) (euclid (fst ((9, 1/2), (9, 10))) (9, 1))) as (cs' & E' & F').
    + intros n o y N L. destruct n as [|[|[|n]]]; try lia. destruct n; discriminate.
    + rewrite E'. cbn [bind]. rewrite F'. cbn [nth_error bind last snd app]. reflexivity.
Qed.
Theorem C94_restart_refuted query meet nearest : query_ok query -> meet_ok meet -> nearest_ok nearest ->
  exists l r x y, offset_no_throw query meet l 1 = Done r /\ In x r /\ on_line l y /\ euclid x y = 1/2 /\ offset query meet nearest l 1 = Geometry.
Proof.
  intros Q M N. exists behind_turn, [(0, 1); (9, 1); (9, 1/2); (9, 10)], (9, 1/2), (9, 0).
  assert (EU : euclid (9, 1/2) (9, 0) = 1/2).
  { unfold euclid. cbn [fst snd]. replace (_ + _) with ((1/2) * (1/2)) by field. apply sqrt_square. lra. }
  assert (ON : on_segment ((0, 0), (10, 0)) (9, 0)) by (exists (9/10); split; [lra|unfold between; cbn [fst snd]; f_equal; lra]).
  split; [apply behind_offset; auto|]. split; [simpl; auto|]. split; [exists ((0, 0), (10, 0)); split; [left; auto|auto]|]. split; [auto|].
  unfold offset. rewrite behind_offset by auto. cbn [bind length Nat.ltb Nat.leb behind_turn].
  destruct (inverted nearest (segments_of behind_turn) 1 [(0, 1); (9, 1); (9, 1/2); (9, 10)]) eqn:E; [reflexivity|]. exfalso.
  assert (NE : segments_of behind_turn <> []) by discriminate.
  pose proof (proj1 (inverted_false nearest N _ _ _ NE) E (9, 1/2) ((0, 0), (10, 0)) (9, 0) ltac:(simpl; auto) ltac:(simpl; auto) ON) as G.
  rewrite EU in G. lra.
Qed.
Print Assumptions C94_restart_refuted.

(** * C95 *)

(** The joined line string: if parts meet only later parts, and these in their first segments, then the walk goes forward along the segments of the
    parts, from the first point of the first one to the last point of the last one, and does not cross itself. The last point is doubled. *)
Theorem C95_joined query meet parts : query_ok query -> meet_ok meet -> tidy parts -> linked parts -> single_crossings (flat_map pairs parts) ->
  Forall (fun p => (2 <= length p)%nat) parts -> (2 <= length parts)%nat ->
  exists r, join_parts query meet parts = Done (r ++ [last r (0, 0)]) /\ r <> [] /\ hd (0, 0) r = hd (0, 0) (hd [] parts) /\
    last r (0, 0) = last (last parts []) (0, 0) /\ walks_forward (flat_map pairs parts) r /\ no_crossing r.
Proof.
  intros Q M T K C F L. assert (E : flat_map pairs parts = flat_map segments_of parts).
  { clear. induction parts as [|p ps IH]; simpl; [auto|]. now rewrite segments_pairs, IH. }
  rewrite E in *. apply join_tidy; auto.
Qed.
Print Assumptions C95_joined.

(** A left turn: two parts that cross *)
Definition two_parts : list (list point) := [[(0, 1); (10, 1)]; [(9, 0); (9, 10)]].
Example C95_nonvacuous : query_ok query_exact /\ meet_ok meet_exact /\ nearest_ok nearest_exact /\ tidy two_parts /\ linked two_parts /\ single_crossings (flat_map pairs two_parts) /\
  join_parts query_exact meet_exact two_parts = Done [(0, 1); (9, 1); (9, 10); (9, 10)].
Proof.
  split; [apply query_exact_ok|]. split; [apply meet_exact_ok|]. split; [apply nearest_exact_ok|].
  split; [|split; [|split]].
  - intros i j i' j' p p' s s' L Hp Hp' Hs Hs' T.
    destruct i as [|[|i]]; [| |destruct i; discriminate]; simpl in Hp; injection Hp as <-;
    (destruct i' as [|[|i']]; [| |destruct i'; discriminate]); simpl in Hp'; injection Hp' as <-;
    (destruct j as [|j]; [|destruct j; discriminate]); (destruct j' as [|j']; [|destruct j'; discriminate]); lia.
  - intros i p Hp L. destruct i as [|i]; [|simpl in L; lia]. simpl in Hp. injection Hp as <-.
    exists 0%nat, ((0, 1), (10, 1)), 1%nat, [(9, 0); (9, 10)], ((9, 0), (9, 10)), (9, 1).
    split; [reflexivity|]. split; [lia|]. split; [reflexivity|]. split; [reflexivity|].
    split; [exists (9/10); split; [lra|unfold between; cbn [fst snd]; f_equal; lra]|].
    split; [exists (1/10); split; [lra|unfold between; cbn [fst snd]; f_equal; lra]|]. cbn [fst snd].
    split; [intros X; injection X; intros; lra|]. split; [intros X; injection X; intros; lra|]. split; [intros X; injection X; intros; lra|].
    split; [intros X; injection X; intros; lra|]. intros _ i0 p0 o y L0. lia.
  - intros i j s o p q L Hs Ho P1 P2 Q1 Q2. destruct j as [|[|j]]; [lia| |destruct j; discriminate]. destruct i as [|i]; [|lia].
    simpl in Hs, Ho. injection Hs as <-. injection Ho as <-. coords. apply pt_eq; lra.
  - unfold two_parts. cbn [join_parts flat_map segments_of app length].
    set (segs := [((0, 1), (10, 1)); ((9, 0), (9, 10))] : list segment).
    change (owners 0 [[(0, 1); (10, 1)]; [(9, 0); (9, 10)]]) with [0; 1]%nat. cbn [join_loop nth_error].
    destruct (next_exit query_exact meet_exact query_exact_ok meet_exact_ok segs 0 ((0, 1), (10, 1)) 0 1 ((9, 0), (9, 10)) (9, 1)) as (cs & E & F).
    + reflexivity.
    + unfold free. cbn [fst snd]. repeat split; try lia; intros X; injection X; intros; lra.
    + exists (9/10). split; [lra|]. unfold between. cbn [fst snd]. f_equal; lra.
    + exists (1/10). split; [lra|]. unfold between. cbn [fst snd]. f_equal; lra.
    + intros y Y1 Y2. coords. apply pt_eq; cbn [fst snd]; lra.
    + cbn [fst]. unfold euclid. cbn [fst snd]. apply sqrt_lt_R0. lra.
    + intros n o N (_ & _ & _ & L) T. destruct n as [|[|n]]; [lia|auto|destruct n; discriminate].
    + rewrite E. cbn [bind]. rewrite F. cbn [nth_error Nat.eqb].
      destruct (next_end query_exact meet_exact query_exact_ok meet_exact_ok segs 1 ((9, 0), (9, 10)) (euclid (fst ((9, 0), (9, 10))) (9, 1))) as (cs' & E' & F').
      * intros n o y N L. destruct n as [|[|n]]; try lia. destruct n; discriminate.
      * rewrite E'. cbn [bind]. rewrite F'. cbn [nth_error bind last snd app]. reflexivity.
Qed.

(** Joining always ends, at the last point of the last part, and uses points of the parts only. *)
Theorem C95_join_ends query meet parts : query_ok query -> meet_ok meet -> Forall (fun p => (2 <= length p)%nat) parts ->
  exists r, join_parts query meet parts = Done r /\ (forall x, In x r -> exists p s, In p parts /\ In s (pairs p) /\ on_segment s x) /\
    hd (0, 0) r = hd (0, 0) (hd [] parts) /\ last r (0, 0) = last (last parts []) (0, 0).
Proof.
  intros Q M F. destruct (join_general query meet Q M parts F) as (r & R1 & R2 & _ & R3 & R4). exists r. split; [auto|]. split; [|auto].
  rewrite Forall_forall in R2. exact R2.
Qed.
Print Assumptions C95_join_ends.

(** A result of [offset] for a positive distance: no point is nearer to the line string than the distance, up to the tolerance, or further away than
    the square root of 2 times the distance. Otherwise there is a GeometryError, exactly if some point is too near. *)
Theorem C95_checked query meet nearest l d : query_ok query -> meet_ok meet -> nearest_ok nearest -> no_doubled l -> (2 <= length l)%nat -> 0 < d ->
  exists r, offset_no_throw query meet l d = Done r /\
   ((offset query meet nearest l d = Done r /\
     (forall x y, In x r -> on_line l y -> d - / 10000000 <= euclid x y) /\ (forall x, In x r -> exists y, on_line l y /\ euclid x y <= sqrt 2 * d)) \/
    (offset query meet nearest l d = Geometry /\ exists x y, In x r /\ on_line l y /\ euclid x y < d - / 10000000)).
Proof.
  intros Q M N D L P. destruct (offset_near query meet Q M l d D L) as (r & R1 & _ & R2 & _). exists r. split; [auto|].
  unfold offset. rewrite R1. cbn [bind]. destruct (Nat.ltb_spec (length l) 2); [lia|].
  assert (NE : pairs l <> []) by (intros X; pose proof (pairs_length l) as PL; rewrite X in PL; simpl in PL; lia).
  rewrite segments_pairs. destruct (inverted nearest (pairs l) d r) eqn:E.
  - right. split; [reflexivity|]. clear R1 R2. induction r as [|p r IH]; [discriminate|]. simpl in E. destruct (nearest (pairs l) p) as [a b] eqn:En.
    destruct (nearest_distance nearest N (pairs l) p a b NE En) as (I1 & I2 & I3).
    destruct (Rlt_dec (distance (project_to a b p) p + / 10000000) d) as [G|G].
    + exists p, (project_to a b p). split; [left; auto|]. split; [exists (a, b); auto|]. rewrite distance_euclid in G. lra.
    + destruct (IH E) as (x & y & X1 & X2 & X3). exists x, y. split; [right; auto|auto].
  - left. split; [reflexivity|]. split.
    + intros x y I (s & S1 & S2). apply (proj1 (inverted_false nearest N _ _ _ NE) E x s y); auto.
    + rewrite Forall_forall in R2. intros x I. destruct (R2 x I) as (y & Y1 & Y2). exists y. rewrite Rabs_right in Y2 by lra. auto.
Qed.
Print Assumptions C95_checked.

(** Fewer than two points: [offset] throws InvalidInputError; [offset_no_throw], which is documented to do so as well, returns no points. *)
Theorem C95_too_short query meet nearest l d : (length l < 2)%nat -> offset query meet nearest l d = Invalid.
Proof.
  intros L. assert (E : offset_no_throw query meet l d = Done []).
  { unfold offset_no_throw, extract_convex. rewrite convex_parts_end by lia. reflexivity. }
  unfold offset. rewrite E. cbn [bind]. destruct (Nat.ltb_spec (length l) 2); [auto|lia].
Qed.
Print Assumptions C95_too_short.
Theorem C95_too_short_refuted query meet l d : (length l < 2)%nat -> offset_no_throw query meet l d = Done [].
Proof. intros L. unfold offset_no_throw, extract_convex. rewrite convex_parts_end by lia. reflexivity. Qed.
Print Assumptions C95_too_short_refuted.

(** For negative distances nothing is checked: [offset] never throws a GeometryError, even if the result runs through the line string. *)
Theorem C95_negative_unchecked query meet nearest l d : query_ok query -> meet_ok meet -> no_doubled l -> (2 <= length l)%nat -> d <= 0 ->
  exists r, offset query meet nearest l d = Done r /\ offset_no_throw query meet l d = Done r.
Proof.
  intros Q M D L P. destruct (offset_near query meet Q M l d D L) as (r & R1 & _). exists r. split; [|auto].
  unfold offset. rewrite R1. cbn [bind]. destruct (Nat.ltb_spec (length l) 2); [lia|]. now rewrite inverted_negative.
Qed.
Print Assumptions C95_negative_unchecked.

(** A turn back on the right: the result has a point on the line string itself. *)
Definition turn_back : list point := [(0, 0); (10, 0); (10, -3/2); (0, -3/2)].
Lemma turn_parts : extract_convex turn_back (-1) = Done [[(0, -1); (10, -1)]; [(9, 0); (9, -3/2)]; [(10, -1/2); (0, -1/2)]].
Proof.
  unfold extract_convex. change (length turn_back) with 4%nat.
  rewrite (convex_parts_step turn_back (-1) 3 0 (0, -1) [(10, -1)] 1).
  - rewrite (convex_parts_step turn_back (-1) 2 1 (9, 0) [(9, -3/2)] 2).
    + rewrite (convex_parts_step turn_back (-1) 1 2 (10, -1/2) [(0, -1/2)] 3).
      * rewrite convex_parts_end by (simpl; lia). reflexivity.
      * simpl. lia.
      * rewrite (perp_eval turn_back 2 (10, -3/2) (0, -3/2) (-1) 10 (-1) 0); try reflexivity; try lra; [|unitv]. unfold shifted. cbn [fst snd]. do 2 f_equal; lra.
      * change (length turn_back - (2 + 1))%nat with 1%nat. change (2 + 1)%nat with 3%nat. cbn [convex_part].
        rewrite (lateral_last turn_back 2 (10, -3/2) (0, -3/2) (-1) 10 (-1) 0); try reflexivity; try lra; try unitv. cbn [bind app].
        unfold shifted. cbn [fst snd]. do 3 f_equal. f_equal; lra.
    + simpl. lia.
    + rewrite (perp_eval turn_back 1 (10, 0) (10, -3/2) (-1) (3/2) 0 (-1)); try reflexivity; try lra; [|unitv]. unfold shifted. cbn [fst snd]. do 2 f_equal; lra.
    + change (length turn_back - (1 + 1))%nat with 2%nat. change (1 + 1)%nat with 2%nat. cbn [convex_part].
      rewrite (inner_concave turn_back 1 (10, 0) (10, -3/2) (0, -3/2) (-1) (3/2) 10 0 (-1) (-1) 0); try reflexivity; try lra; try unitv; try conv. cbn [bind].
      unfold shifted. cbn [fst snd]. do 3 f_equal. f_equal; lra.
  - simpl. lia.
  - rewrite (perp_eval turn_back 0 (0, 0) (10, 0) (-1) 10 1 0); try reflexivity; try lra; [|unitv]. unfold shifted. cbn [fst snd]. do 2 f_equal; lra.
  - change (length turn_back - (0 + 1))%nat with 3%nat. change (0 + 1)%nat with 1%nat. cbn [convex_part].
    rewrite (inner_concave turn_back 0 (0, 0) (10, 0) (10, -3/2) (-1) 10 (3/2) 1 0 0 (-1)); try reflexivity; try lra; try unitv; try conv. cbn [bind].
    unfold shifted. cbn [fst snd]. do 3 f_equal. f_equal; lra.
Qed.
Lemma turn_offset query meet : query_ok query -> meet_ok meet ->
  offset_no_throw query meet turn_back (-1) = Done [(0, -1); (9, -1); (9, -3/2); (0, -1/2); (0, -1/2)].
Proof.
  intros Q M. unfold offset_no_throw. rewrite turn_parts. cbn [bind join_parts flat_map segments_of app length].
  set (segs := [((0, -1), (10, -1)); ((9, 0), (9, -3/2)); ((10, -1/2), (0, -1/2))] : list segment).
  change (owners 0 [[(0, -1); (10, -1)]; [(9, 0); (9, -3/2)]; [(10, -1/2); (0, -1/2)]]) with [0; 1; 2]%nat.
  cbn [join_loop nth_error].
  destruct (next_exit query meet Q M segs 0 ((0, -1), (10, -1)) 0 1 ((9, 0), (9, -3/2)) (9, -1)) as (cs & E & F).
  - reflexivity.
  - unfold free. cbn [fst snd]. repeat split; try lia; intros X; injection X; intros; lra.
  - exists (9/10). split; [lra|]. unfold between. cbn [fst snd]. f_equal; lra.
  - exists (2/3). split; [lra|]. unfold between. cbn [fst snd]. f_equal; lra.
  - intros y Y1 Y2. coords. apply pt_eq; cbn [fst snd]; lra.
  - cbn [fst]. unfold euclid. cbn [fst snd]. apply sqrt_lt_R0. lra.
  - intros n o N (_ & _ & _ & L) T. destruct n as [|[|[|n]]]; [lia|auto| |destruct n; discriminate]. simpl in N. injection N as <-. no_touch.
  - rewrite E. cbn [bind]. rewrite F. cbn [nth_error Nat.eqb].
    destruct (next_end query meet Q M segs 1 ((9, 0), (9, -3/2)) (euclid (fst ((9, 0), (9, -3/2))) (9, -1))) as (cs' & E' & F').
    + intros n o y N L Y1 Y2. destruct n as [|[|[|n]]]; try lia; [|destruct n; discriminate]. simpl in N. injection N as <-. coords.
      destruct y as [y1 y2]. cbn [fst snd] in *. unfold euclid. cbn [fst snd]. apply sqrt_le_1_alt.
      replace y2 with (-1/2) by lra. replace y1 with 9 by lra. lra.
    + rewrite E'. cbn [bind]. rewrite F'. cbn [nth_error Nat.eqb].
      destruct (next_end query meet Q M segs 2 ((10, -1/2), (0, -1/2)) 0) as (cs2 & E2 & F2).
      * intros n o y N L. destruct n as [|[|[|n]]]; try lia. destruct n; discriminate.
      * rewrite E2. cbn [bind]. rewrite F2. cbn [nth_error bind last snd app]. reflexivity.
Qed.
Theorem C95_inverted_refuted query meet nearest : query_ok query -> meet_ok meet ->
  exists l r x, offset query meet nearest l (-1) = Done r /\ In x r /\ on_line l x.
Proof.
  intros Q M. exists turn_back, [(0, -1); (9, -1); (9, -3/2); (0, -1/2); (0, -1/2)], (9, -3/2). split; [|split].
  - unfold offset. rewrite turn_offset by auto. cbn [bind length Nat.ltb Nat.leb turn_back]. rewrite inverted_negative by lra. reflexivity.
  - simpl. auto.
  - exists ((10, -3/2), (0, -3/2)). split; [right; right; left; auto|]. exists (1/10). split; [lra|]. unfold between. cbn [fst snd]. f_equal; lra.
Qed.
Print Assumptions C95_inverted_refuted.

(** A line string around itself: the result crosses itself, and runs through the line string. The parts are not checked if there is only one. *)
Definition loop_line : list point := [(0, 0); (10, 0); (10, -10); (5, -10); (5, 10)].
Definition loop_result : list point := [(0, 1); (11, 1); (11, -11); (4, -11); (4, 10)].
Lemma loop_offset query meet : offset_no_throw query meet loop_line 1 = Done loop_result.
Proof.
  unfold offset_no_throw, extract_convex. change (length loop_line) with 5%nat.
  rewrite (convex_parts_step loop_line 1 4 0 (0, 1) [(11, 1); (11, -11); (4, -11); (4, 10)] 4).
  - rewrite convex_parts_end by (simpl; lia). reflexivity.
  - simpl. lia.
  - rewrite (perp_eval loop_line 0 (0, 0) (10, 0) 1 10 1 0); try reflexivity; try lra; [|unitv]. unfold shifted. cbn [fst snd]. do 2 f_equal; lra.
  - change (length loop_line - (0 + 1))%nat with 4%nat. change (0 + 1)%nat with 1%nat. cbn [convex_part].
    rewrite (inner_lateral loop_line 0 (0, 0) (10, 0) (10, -10) 1 10 10 1 0 0 (-1)); try reflexivity; try lra; try unitv; try conv. cbn [bind].
    rewrite (inner_lateral loop_line 1 (10, 0) (10, -10) (5, -10) 1 10 5 0 (-1) (-1) 0); try reflexivity; try lra; try unitv; try conv. cbn [bind].
    rewrite (inner_lateral loop_line 2 (10, -10) (5, -10) (5, 10) 1 5 20 (-1) 0 0 1); try reflexivity; try lra; try unitv; try conv. cbn [bind].
    rewrite (lateral_last loop_line 3 (5, -10) (5, 10) 1 20 0 1); try reflexivity; try lra; try unitv. cbn [bind].
    unfold shifted. cbn [fst snd app]. do 3 f_equal; [f_equal; lra|]. f_equal; [f_equal; lra|]. f_equal; [f_equal; lra|]. f_equal. f_equal; lra.
Qed.
Lemma far_x p y r : 0 <= r -> r <= Rabs (fst p - fst y) -> r <= euclid p y.
Proof.
  intros R0 H. apply sq_lower; [auto|]. unfold sq. pose proof (Rle_0_sqr (snd p - snd y)) as G. unfold Rsqr in G.
  assert (r * r <= Rabs (fst p - fst y) * Rabs (fst p - fst y)) by (apply Rmult_le_compat; auto).
  rewrite <- Rabs_mult, Rabs_right in H0 by (apply Rle_ge, Rle_0_sqr). lra.
Qed.
Lemma far_y p y r : 0 <= r -> r <= Rabs (snd p - snd y) -> r <= euclid p y.
Proof.
  intros R0 H. apply sq_lower; [auto|]. unfold sq. pose proof (Rle_0_sqr (fst p - fst y)) as G. unfold Rsqr in G.
  assert (r * r <= Rabs (snd p - snd y) * Rabs (snd p - snd y)) by (apply Rmult_le_compat; auto).
  rewrite <- Rabs_mult, Rabs_right in H0 by (apply Rle_ge, Rle_0_sqr). lra.
Qed.
Theorem C95_self_intersection_refuted query meet nearest : nearest_ok nearest ->
  exists l r, offset query meet nearest l 1 = Done r /\ ~ no_crossing r /\ (exists u x, In u (pairs r) /\ on_segment u x /\ on_line l x).
Proof.
  intros N. exists loop_line, loop_result. split; [|split].
  - unfold offset. rewrite loop_offset. cbn [bind length Nat.ltb Nat.leb loop_line].
    enough (E : inverted nearest (segments_of loop_line) 1 loop_result = false) by (rewrite E; reflexivity).
    apply inverted_false; [auto|discriminate|]. intros p s y Ip Is O. apply Rle_trans with 1; [lra|].
    simpl in Ip, Is. repeat destruct Ip as [<-|Ip]; try destruct Ip; repeat destruct Is as [<-|Is]; try destruct Is; coords;
    (apply far_x; [lra|cbn [fst snd]; unfold Rabs; match goal with |- context [Rcase_abs ?x] => destruct (Rcase_abs x) end; lra]) ||
    (apply far_y; [lra|cbn [fst snd]; unfold Rabs; match goal with |- context [Rcase_abs ?x] => destruct (Rcase_abs x) end; lra]).
  - intros C. apply (C 0%nat 3%nat ((0, 1), (11, 1)) ((4, -11), (4, 10)) (4, 1)); [lia|reflexivity|reflexivity| |].
    + split; [exists (4/11); split; [lra|unfold between; cbn [fst snd]; f_equal; lra]|]. cbn [fst snd]. split; intros X; injection X; intros; lra.
    + exists (4/7). split; [lra|]. unfold between. cbn [fst snd]. f_equal; lra.
  - exists ((4, -11), (4, 10)), (4, 0). split; [simpl; auto|]. split; [exists (11/21); split; [lra|unfold between; cbn [fst snd]; f_equal; lra]|].
    exists ((0, 0), (10, 0)). split; [left; auto|]. exists (4/10). split; [lra|]. unfold between. cbn [fst snd]. f_equal; lra.
Qed.
Print Assumptions C95_self_intersection_refuted.

(** * C96 *)

(** Removal of self-intersections: the result leads from the first point to the last one, forward along parts of the segments, each of a later segment
    than the one before. If no two segments have more than one point in common, the result does not cross itself. *)
Theorem C96_no_self_intersections query meet l : query_ok query -> meet_ok meet ->
  exists r, remove_self_intersections query meet l = Done r /\ hd (0, 0) r = hd (0, 0) l /\ last r (0, 0) = last l (0, 0) /\
    walks_forward (pairs l) r /\ (single_crossings (pairs l) -> no_crossing r).
Proof. intros Q M. apply (remove_spec query meet Q M l). Qed.
Print Assumptions C96_no_self_intersections.

(** A loop is cut off. *)
Definition looped : list point := [(0, 0); (10, 0); (10, 5); (5, 5); (5, -5)].
Example C96_nonvacuous : single_crossings (pairs looped) /\
  remove_self_intersections query_exact meet_exact looped = Done [(0, 0); (5, 0); (5, -5)].
Proof.
  split.
  - intros i j s o p q L Hs Ho P1 P2 Q1 Q2. destruct j as [|[|[|[|j]]]]; [lia| | | |destruct j; discriminate];
      (destruct i as [|[|[|i]]]; [| | |lia]); try lia; simpl in Hs, Ho; injection Hs as <-; injection Ho as <-; coords; apply pt_eq; lra.
  - unfold remove_self_intersections. change (length looped) with 5%nat. cbn [Nat.leb]. change (segments_of looped) with (pairs looped).
    cbn [remove_loop Nat.ltb Nat.leb Nat.sub length looped]. change (at_index looped 0, at_index looped (0 + 1)) with (((0, 0), (10, 0)) : segment).
    destruct (next_exit query_exact meet_exact query_exact_ok meet_exact_ok (pairs looped) 0 ((0, 0), (10, 0)) 0 3 ((5, 5), (5, -5)) (5, 0)) as (cs & E & F).
    + reflexivity.
    + unfold free. cbn [fst snd]. repeat split; try lia; intros X; injection X; intros; lra.
    + exists (1/2). split; [lra|]. unfold between. cbn [fst snd]. f_equal; lra.
    + exists (1/2). split; [lra|]. unfold between. cbn [fst snd]. f_equal; lra.
    + intros y Y1 Y2. coords. apply pt_eq; cbn [fst snd]; lra.
    + cbn [fst]. unfold euclid. cbn [fst snd]. apply sqrt_lt_R0. lra.
    + intros n o N (L1 & L2 & L3 & L) T. destruct n as [|[|[|[|n]]]]; [lia| | |auto|destruct n; discriminate]; simpl in N; injection N as <-.
      * exfalso. apply L1. reflexivity.
      * no_touch.
    + rewrite E. cbn [bind]. rewrite F. cbn [remove_loop Nat.ltb Nat.leb Nat.sub length looped bind]. reflexivity.
Qed.
