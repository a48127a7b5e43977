(** C73: the signed distance of a point to a line string. *)
From Coq Require Import List Bool Arith ZArith QArith Lqa Lia.
From Verif Require Import ClosestModel ClosestSpec ClosestProofs ClosestVec ClosestLine ClosestTree ClosestProps SideModel SideSpec SideProofs.
Import ListNotations.
Local Open Scope Q_scope.

(** The sign tells the side: of the segment the nearest point lies in, or of the corner at the nearest point. For line strings that are searched without tree. *)
Theorem C73_side tree ls p : (2 <= length ls)%nat -> (length ls < 50)%nat -> regular ls ->
  exists l x pl, signed_distance tree ls p = Ok (l, sq (V := plane) x p) /\ nearest_on ls p x /\ place_of ls x pl /\ (l = true <-> left_at pl p).
Proof. exact (side_ok tree ls p). Qed.
Print Assumptions C73_side.

(** With any tree the sign is right as well, for line strings of any length, if the nearest points are not at corners. *)
Theorem C73_off_corners tree ls p : query_ok (V := plane) tree bound_point -> (2 <= length ls)%nat -> off_corners ls p ->
  exists l x a b, signed_distance tree ls p = Ok (l, sq (V := plane) x p) /\ nearest_on ls p x /\ place_of ls x (Inside a b) /\ (l = true <-> 0 < turn a b p).
Proof. exact (side_clear tree ls p). Qed.
Print Assumptions C73_off_corners.

(** The absolute value is always the distance to a nearest point. *)
Theorem C73_distance tree ls p : query_ok (V := plane) tree bound_point -> ls <> [] ->
  exists l x, signed_distance tree ls p = Ok (l, sq (V := plane) x p) /\ nearest_on ls p x.
Proof.
  intros Hq Hne. destruct (closest_to_point_ok plane_lawful tree ls p Hq Hne) as (d & [a b] & x & segs & E & Es & Hin & Ex & Ed & Hopt).
  destruct (segments_ok plane_lawful ls Hne) as (segs' & Es' & _ & Hon & Hmem & _). rewrite Es in Es'. injection Es' as <-.
  assert (Hl : exists l, is_left ls p (a, b) x = Ok l).
  { unfold is_left. destruct (same_point b x); eauto.
    assert (find_point ls b <> []).
    { destruct (Hmem _ Hin) as [_ Hb]. cbn in Hb. clear -Hb. induction ls as [|y r IH]; [destruct Hb|]. cbn.
      destruct (same_point y b) eqn:F; [discriminate|]. apply IH. destruct Hb as [<-|]; auto.
      assert (same_point y y = true) by (apply same_point_iff; apply (sq_refl plane_lawful)). congruence. }
    destruct (find_point ls b) as [|? [|]]; [easy|eauto|]. destruct (negb _ && _); eauto. }
  destruct Hl as (l & El). exists l, x. split.
  - unfold signed_distance, closest_segment. rewrite E. cbn [fst snd] in *. rewrite <- Ex, El. reflexivity.
  - split; [apply Hon; exists (a, b); split; auto; rewrite Ex; apply (project_segment_on plane_lawful)|].
    intros y Hy. apply Hon in Hy. destruct Hy as (s' & A & B). rewrite <- Ed. eauto.
Qed.
Print Assumptions C73_distance.

(** Finding: with a tree the segment behind a corner can be found first. The line string turns left in a sharp corner; the point lies outside of the angle, thus on the
    right, but the sign is positive. The same corner without the points behind it is treated correctly. *)
Definition ca : plane := (1 # 10, -(1 # 20)). Definition cb : plane := (0, 0). Definition cc : plane := (5, -(10)).
Definition sharp : list plane := ca :: cb :: cc :: map (fun n => (5, -(10) - inject_Z (Z.of_nat n))) (seq 1 57).
Theorem C73_tree_refuted :
  signed_distance point_query sharp (1, 3) = Ok (true, 10) /\ signed_distance point_query [ca; cb; cc] (1, 3) = Ok (false, 10) /\
  place_of sharp cb (Corner ca cb cc) /\ ~ left_at (Corner ca cb cc) (1, 3).
Proof.
  split; [vm_compute; reflexivity|]. split; [vm_compute; reflexivity|]. split.
  - split; [exists []; eexists; reflexivity|vm_compute; reflexivity].
  - cbn [left_at]. intros H. apply corner_side_iff in H; [vm_compute in H; discriminate| |].
    + vm_compute. discriminate.
    + intros [K _]. vm_compute in K. discriminate.
Qed.
Print Assumptions C73_tree_refuted.

(** Finding: with a doubled point the corner is not recognised. *)
Definition da : plane := (-(10), 0). Definition dc : plane := (-(5), 1).
Theorem C73_double_refuted :
  signed_distance point_query [da; cb; cb; dc] (1, 1) = Ok (true, 2) /\ signed_distance point_query [da; cb; dc] (1, 1) = Ok (false, 2) /\
  ~ left_at (Corner da cb dc) (1, 1).
Proof.
  split; [vm_compute; reflexivity|]. split; [vm_compute; reflexivity|].
  cbn [left_at]. intros H. apply corner_side_iff in H; [vm_compute in H; discriminate| |].
  - vm_compute. discriminate.
  - intros [K _]. vm_compute in K. discriminate.
Qed.
Print Assumptions C73_double_refuted.

(** A right turn: the point in front of the corner is on the left, the one inside the angle on the right. *)
Definition turn_right : list plane := [(0, 0); (2, 0); (2, -(2))].
Example C73_nonvacuous :
  signed_distance point_query turn_right (3, 1) = Ok (true, 2) /\
  (exists d, signed_distance point_query turn_right (1, -(1)) = Ok (false, d) /\ d == 1) /\
  (exists d, signed_distance point_query turn_right (1, 2) = Ok (true, d) /\ d == 4) /\
  regular turn_right /\ left_at (Corner (0, 0) (2, 0) (2, -(2))) (3, 1).
Proof.
  split; [vm_compute; reflexivity|]. split; [eexists; split; [vm_compute; reflexivity|reflexivity]|].
  split; [eexists; split; [vm_compute; reflexivity|reflexivity]|]. split.
  - split.
    + intros l1 a b l2 E. destruct l1 as [|? [|? [|? [|]]]]; cbn in E; try discriminate; [injection E as <- <- _|injection E as _ <- <- _]; vm_compute; discriminate.
    + intros l1 a b c l2 E. destruct l1 as [|? [|? [|? [|]]]]; cbn in E; try discriminate. injection E as <- <- <- _. intros [K _]. vm_compute in K. discriminate.
  - cbn [left_at]. apply corner_side_iff; [vm_compute; discriminate|intros [K _]; vm_compute in K; discriminate|vm_compute; reflexivity].
Qed.

(** Sixty points in a row, which are searched with the tree. *)
Definition long : list plane := map (fun n => (inject_Z (Z.of_nat n), 0)) (seq 0 60).
Example C73_off_corners_nonvacuous :
  off_corners long (1 # 2, 1) /\ exists d, signed_distance point_query long (1 # 2, 1) = Ok (true, d) /\ d == 1.
Proof.
  split; [split|eexists; split; [vm_compute; reflexivity|reflexivity]].
  - intros l1 v l2 E _ _ [_ H].
    assert (Y : on_line long ((1 # 2, 0) : plane)).
    { right. exists [], (0, 0), (1, 0), (map (fun n => (inject_Z (Z.of_nat n), 0)) (seq 2 58)). split; [reflexivity|].
      exists (1 # 2). repeat split; vm_compute; congruence. }
    specialize (H _ Y). assert (Hv : In v long) by (rewrite E; apply in_or_app; cbn; auto).
    apply in_map_iff in Hv. destruct Hv as (n & <- & _). unfold sq in H. cbn [plane dot vsub fst snd] in H.
    set (q := inject_Z (Z.of_nat n)) in *.
    assert (K : q <= 0 \/ 1 <= q).
    { unfold q. destruct n as [|n]; [left; vm_compute; discriminate|right]. change 1 with (inject_Z 1). rewrite <- Zle_Qle. lia. }
    setoid_replace (((1 # 2) - (1 # 2)) * ((1 # 2) - (1 # 2)) + (0 - 1) * (0 - 1)) with 1 in H by ring.
    assert (0 <= q * (q - 1)) by (destruct K; [setoid_replace (q * (q - 1)) with ((- q) * (1 - q)) by ring|]; apply Qmult_le_0_compat; lra). lra.
  - intros v m w E K. assert (v = (0, 0)) as -> by (vm_compute in E; injection E; auto).
    assert (w = last long (0, 0)) as ->.
    { rewrite E. change ((0, 0) :: m ++ [w]) with (((0, 0) :: m) ++ [w]). now rewrite last_last. }
    vm_compute in K. discriminate.
Qed.
