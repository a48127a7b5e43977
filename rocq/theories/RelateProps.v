(** C98: relations of lanelets and areas and the line strings they have in common. *)
From Coq Require Import List Bool Arith Lia.
From Verif Require Import LineModel PathModel PathSpec RelateModel RelateSpec RelateProofs.
Import ListNotations.

(** * Polygons with a common edge *)

(** touches2d finds a common edge if the points of the second polygon are different and, for compound polygons, the first one is not empty. *)
Theorem C98_touches compound l1 l2 : (compound = true -> l1 <> []) -> simple l2 -> (exists p q, p <> q /\ In p l2 /\ In q l2) ->
  exists r, touches_2d compound l1 l2 = Done r /\ (r = true <-> share_edge l1 l2).
Proof. apply touches_ok. Qed.
Print Assumptions C98_touches.
(** Then the order of the polygons does not matter. *)
Theorem C98_touches_symmetric c1 c2 l1 l2 : simple l1 -> simple l2 ->
  (exists p q, p <> q /\ In p l1 /\ In q l1) -> (exists p q, p <> q /\ In p l2 /\ In q l2) ->
  touches_2d c1 l1 l2 = touches_2d c2 l2 l1.
Proof.
  intros S1 S2 T1 T2.
  assert (N1 : l1 <> []) by (destruct T1 as (p & q & _ & I & _); intros ->; contradiction).
  assert (N2 : l2 <> []) by (destruct T2 as (p & q & _ & I & _); intros ->; contradiction).
  destruct (touches_ok c1 l1 l2 (fun _ => N1) S2 T2) as (r & -> & H).
  destruct (touches_ok c2 l2 l1 (fun _ => N2) S1 T1) as (s & -> & K). f_equal.
  assert (E : share_edge l1 l2 <-> share_edge l2 l1) by (split; intros (a & b & D & A & B); exists b, a; auto).
  destruct r, s; try reflexivity.
  - symmetry. apply K, E, H. reflexivity.
  - apply H, E, K. reflexivity.
Qed.
Print Assumptions C98_touches_symmetric.
Example C98_touches_nonvacuous : touches_2d true [1; 2; 3; 4; 1] [5; 3; 2; 6; 5] = Done true /\ touches_2d false [1; 2; 3] [4; 2; 3] = Done false
  /\ simple [5; 3; 2; 6; 5] /\ share_edge [1; 2; 3; 4; 1] [5; 3; 2; 6; 5].
Proof.
  split; [reflexivity|]. split; [reflexivity|]. split.
  - right. exists 5, [3; 2; 6]. split; [reflexivity|]. repeat constructor; cbn; lia.
  - exists 2, 3. split; [lia|]. split; left; [exists [1], [4; 1]|exists [5], [6; 5]]; reflexivity.
Qed.
(** Finding: std::find stops at the first occurrence of a point. A polygon that passes a point twice can share an edge that is found
    in one direction only. *)
Theorem C98_twice_refuted : exists l1 l2, share_edge l1 l2 /\ share_edge l2 l1 /\ touches_2d false l1 l2 = Done false /\ touches_2d false l2 l1 = Done true.
Proof.
  exists [1; 2; 3], [2; 4; 5; 2; 1; 6]. split; [|split; [|split; reflexivity]].
  - exists 1, 2. split; [lia|]. split; left; [exists [], [3]|exists [2; 4; 5], [6]]; reflexivity.
  - exists 2, 1. split; [lia|]. split; left; [exists [2; 4; 5], [6]|exists [], [3]]; reflexivity.
Qed.
Print Assumptions C98_twice_refuted.
(** Finding: an empty compound polygon has one segment, which is accessed. *)
Theorem C98_empty_polygon_refuted : (forall l, touches_2d true [] l = Undefined) /\ (forall data ar, adjacent_areas data [] ar = Undefined)
  /\ (forall l, touches_2d false [] l = Done false).
Proof.
  split; [reflexivity|]. split; [|reflexivity]. intros data ar. unfold adjacent_areas. rewrite !outer_polygon_eq. reflexivity.
Qed.
Print Assumptions C98_empty_polygon_refuted.

(** * Areas *)
Theorem C98_adjacent data ar1 ar2 l1 l2 : outer_polygon data ar1 = Done l1 -> outer_polygon data ar2 = Done l2 ->
  l1 <> [] -> simple l2 -> (exists p q, p <> q /\ In p l2 /\ In q l2) ->
  exists r, adjacent_areas data ar1 ar2 = Done r /\ (r = true <-> share_edge l1 l2).
Proof. apply adjacent_ok. Qed.
Print Assumptions C98_adjacent.
(** determineCommonLine of two areas finds a line string of the first whose inverse is part of the second, whenever there is one. *)
Theorem C98_areas ar1 ar2 : first_with (fun b => In (turned b) ar2) ar1 (common_areas ar1 ar2).
Proof.
  destruct (common_areas ar1 ar2) as [b|] eqn:E.
  - apply common_areas_iff in E as F. destruct F as [_ J]. split; [exact J|]. unfold common_areas in E.
    pose proof (first_find (fun b => existsb (fun c => line_eqb c (linv b)) ar2) ar1) as F. rewrite E in F.
    destruct F as (_ & l1 & l2 & -> & F). exists l1, l2. split; [reflexivity|]. intros y I J'. apply (F y I).
    apply existsb_exists. exists (turned y). split; [exact J'|]. apply line_eqb_iff. reflexivity.
  - intros b I. eapply common_areas_none; eauto.
Qed.
Print Assumptions C98_areas.
Theorem C98_areas_symmetric ar1 ar2 : common_areas ar1 ar2 = None <-> common_areas ar2 ar1 = None.
Proof.
  assert (G : forall x y, common_areas x y = None -> common_areas y x = None).
  { intros x y E. destruct (common_areas y x) as [b|] eqn:F; [|reflexivity]. exfalso.
    apply common_areas_iff in F. destruct F as [I J]. apply (common_areas_none _ _ _ E J). rewrite turned_twice. exact I. }
  split; apply G.
Qed.
Print Assumptions C98_areas_symmetric.
(** Areas with a common line string of two different points are adjacent. *)
Theorem C98_common_adjacent data ar1 ar2 b l2 : common_areas ar1 ar2 = Some b ->
  (exists s1 x y s2, seen data b = s1 ++ x :: y :: s2 /\ x <> y) -> outer_polygon data ar2 = Done l2 -> simple l2 ->
  adjacent_areas data ar1 ar2 = Done true.
Proof. intros C (s1 & x & y & s2 & E & N) O S. eapply common_adjacent; eauto. Qed.
Print Assumptions C98_common_adjacent.

(** * An area in front of, behind and beside a lanelet *)
Section lane.
Variable data : nat -> list nat.
Variables (l : lanelet) (ar : list line).

(** determineCommonLinePreceding, -Following and -FollowingOrPreceding: the first line string that closes the front, the rear, either *)
Theorem C98_ahead : lane_drawn data l -> all_drawn data ar ->
  exists r, common_preceding data l ar = Done r /\ first_with (closes_front data l) ar r.
Proof. apply preceding_ok. Qed.
Theorem C98_behind : lane_drawn data l -> all_drawn data ar ->
  exists r, common_following data ar l = Done r /\ first_with (closes_rear data l) ar r.
Proof. apply following_ok. Qed.
Theorem C98_either : lane_drawn data l -> all_drawn data ar ->
  exists r, common_either data ar l = Done r /\ first_with (fun b => closes_front data l b \/ closes_rear data l b) ar r.
Proof. apply either_ok. Qed.

(** determineCommonLineLeft, -Right and -Sideways of a lanelet and an area give a bound of the lanelet. *)
Theorem C98_beside :
  (forall s, common_left l ar = Some s <-> s = left_bound l /\ In (turned (left_bound l)) ar) /\
  (forall s, common_right l ar = Some s <-> s = right_bound l /\ In (right_bound l) ar) /\
  (forall s, common_sideways l ar = Some s <-> (s = left_bound l /\ In (turned (left_bound l)) ar) \/
     (s = right_bound l /\ In (right_bound l) ar /\ ~ In (turned (left_bound l)) ar)).
Proof.
  unfold common_sideways.
  destruct (common_left_cases l ar) as [[-> I]|[-> I]], (common_right_cases l ar) as [[-> J]|[-> J]]; repeat split; intros; try intuition congruence.
Qed.
(** -Sideways of an area and a lanelet gives a line string of the area; it is found in the same cases, and it is the same line string,
    inverted on the left, unless the area contains both bounds. *)
Theorem C98_sideways :
  first_with (fun b => along_left l b \/ along_right l b) ar (common_sideways_ar ar l) /\
  (common_sideways_ar ar l = None <-> common_sideways l ar = None) /\
  (~ (In (turned (left_bound l)) ar /\ In (right_bound l) ar) ->
   forall b, common_sideways_ar ar l = Some b -> common_sideways l ar = Some (if left_of_ar l ar then turned b else b)).
Proof.
  pose proof (sideways_ar_ok l ar) as F. split; [exact F|].
  assert (L := left_of_ar_ok l ar). unfold along_left in L.
  assert (L' : left_of_ar l ar = true <-> In (turned (left_bound l)) ar).
  { rewrite L. split; [intros (b & I & ->); exact I|intros I; eauto]. }
  unfold common_sideways. split.
  - destruct (common_sideways_ar ar l) as [b|]; cbn in F.
    + destruct F as (P & l1 & l2 & -> & _). split; [discriminate|]. intros E.
      destruct (common_left_cases l (l1 ++ b :: l2)) as [[E1 I]|[E1 I]]; rewrite E1 in E; [discriminate|].
      destruct (common_right_cases l (l1 ++ b :: l2)) as [[E2 J]|[E2 J]]; rewrite E2 in E; [discriminate|].
      exfalso. destruct P as [P|P]; unfold along_left, along_right in P; subst b; [apply I|apply J]; apply in_or_app; right; left; reflexivity.
    + split; [|auto]. intros _.
      destruct (common_left_cases l ar) as [[E1 I]|[E1 I]]; rewrite E1; [exfalso; exact (F _ I (or_introl eq_refl))|].
      destruct (common_right_cases l ar) as [[E2 J]|[E2 J]]; rewrite E2; [exfalso; exact (F _ J (or_intror eq_refl))|]. reflexivity.
  - intros NB b E. rewrite E in F. apply first_in in F. destruct F as [Ib P].
    destruct P as [P|P]; unfold along_left, along_right in P; subst b.
    + rewrite (proj2 L' Ib). rewrite turned_twice. destruct (common_left_cases l ar) as [[-> I]|[_ I]]; [reflexivity|contradiction].
    + destruct (left_of_ar l ar) eqn:Z; [exfalso; apply NB; split; [apply L'; reflexivity|exact Ib]|].
      destruct (common_left_cases l ar) as [[_ I]|[-> I]]; [apply L' in I; congruence|].
      destruct (common_right_cases l ar) as [[-> J]|[_ J]]; [reflexivity|contradiction].
Qed.
(** leftOf and rightOf *)
Theorem C98_left_right : (left_of_ar l ar = true <-> common_left l ar <> None) /\ (right_of_ar l ar = true <-> common_right l ar <> None).
Proof.
  split.
  - rewrite left_of_ar_ok. unfold along_left. destruct (common_left_cases l ar) as [[-> I]|[-> I]].
    + split; [discriminate|]. intros _. eauto.
    + split; [intros (b & J & ->); contradiction|congruence].
  - rewrite right_of_ar_ok. unfold along_right. destruct (common_right_cases l ar) as [[-> I]|[-> I]].
    + split; [discriminate|]. intros _. eauto.
    + split; [intros (b & J & ->); contradiction|congruence].
Qed.

(** determineCommonLine of an area and a lanelet: a line string of the area that borders the lanelet in some way, if there is one. *)
Theorem C98_anywhere : lane_drawn data l -> all_drawn data ar ->
  exists r, common_anywhere data ar l = Done r /\ (forall b, r = Some b -> In b ar /\ borders data l b) /\
    (r = None -> forall b, In b ar -> ~ borders data l b) /\
    (forall e, common_either data ar l = Done (Some e) -> r = Some e).
Proof.
  intros L D. destruct (either_ok data l ar L D) as (e & E & F). rewrite (anywhere_eq _ _ _ _ E).
  pose proof (sideways_ar_ok l ar) as S. eexists. split; [reflexivity|]. destruct e as [b|].
  - apply first_in in F. destruct F as [I F]. split; [|split; [discriminate|intros c H; rewrite E in H; congruence]].
    intros c H. injection H as <-. split; [exact I|]. unfold borders. tauto.
  - split; [|split; [|intros c H; rewrite E in H; discriminate]].
    + intros c H. rewrite H in S. apply first_in in S. unfold borders. tauto.
    + intros N. rewrite N in S. cbn in F, S. intros b I B. specialize (F b I). specialize (S b I). unfold borders in B. tauto.
Qed.
(** The direction of the lanelet does not matter. *)
Theorem C98_direction m : lane_drawn data l -> all_drawn data ar -> opposite_lane l m ->
  common_anywhere data ar m = common_anywhere data ar l.
Proof.
  intros L D [E1 E2]. assert (E : m = invert l) by (destruct m as [ml mr]; cbn in E1, E2; rewrite E1, E2; reflexivity). subst m. clear E1 E2.
  destruct (either_ok data l ar L D) as (e & E & F). destruct (either_ok data (invert l) ar (invert_drawn _ _ L) D) as (e' & E' & F').
  assert (X : e = e').
  { eapply first_unique; [exact F|]. revert F'. apply first_iff. intros b _. rewrite invert_closes.
    assert (T : closes_front data l b <-> closes_rear data (invert l) b).
    { rewrite <- (invert_closes data (invert l)). destruct l as [[a i] [c j]]. unfold invert, linv. cbn. rewrite !negb_involutive. reflexivity. }
    tauto. }
  subst e'. rewrite (anywhere_eq _ _ _ _ E), (anywhere_eq _ _ _ _ E'). f_equal. destruct e as [b|]; [reflexivity|].
  eapply first_unique; [apply sideways_ar_ok|]. eapply first_iff; [|apply sideways_ar_ok]. intros b _.
  unfold along_left, along_right, invert. cbn [left_bound right_bound].
  change (linv (right_bound l)) with (turned (right_bound l)). change (linv (left_bound l)) with (turned (left_bound l)).
  rewrite turned_twice. tauto.
Qed.

(** follows of a lanelet and an area does not look at the direction of the line string. *)
Theorem C98_follows : lane_drawn data l -> all_drawn data ar ->
  exists r, follows_area data l ar = Done r /\ (r = true <-> exists b, In b ar /\ (closes_front data l b \/ closes_front data l (turned b))).
Proof. apply follows_ok. Qed.
(** Neither does follows of an area and a lanelet. *)
Theorem C98_followed : lane_drawn data l -> all_drawn data ar ->
  exists r, area_follows data ar l = Done r /\ (r = true <-> exists b, In b ar /\ (closes_rear data l b \/ closes_rear data l (turned b))).
Proof.
  intros L D. destruct (follows_ok data (invert l) ar (invert_drawn _ _ L) D) as (r & E & H). exists r. split; [exact E|]. rewrite H.
  split; intros (b & I & C); exists b; rewrite !invert_closes in *; auto.
Qed.
(** If no line string of the area runs the other way round, it agrees with the search for the common line string. *)
Theorem C98_follows_common : lane_drawn data l -> all_drawn data ar -> (forall b, In b ar -> ~ closes_front data l (turned b)) ->
  exists r s, follows_area data l ar = Done r /\ common_preceding data l ar = Done s /\ (r = true <-> s <> None).
Proof.
  intros L D N. destruct (follows_ok data l ar L D) as (r & E & H). destruct (preceding_ok data l ar L D) as (s & E' & F).
  exists r, s. split; [exact E|]. split; [exact E'|]. rewrite H. split.
  - intros (b & I & [C|C]); [|exfalso; exact (N b I C)]. intros ->. exact (F b I C).
  - intros X. destruct s as [b|]; [|contradiction]. apply first_in in F. exists b. tauto.
Qed.
End lane.
Print Assumptions C98_ahead. Print Assumptions C98_behind. Print Assumptions C98_either. Print Assumptions C98_beside. Print Assumptions C98_sideways.
Print Assumptions C98_left_right. Print Assumptions C98_anywhere. Print Assumptions C98_direction. Print Assumptions C98_follows. Print Assumptions C98_followed. Print Assumptions C98_follows_common.

(** A lanelet between the left bound 1-2 and the right bound 3-4, an area in front of it (line strings 4-2 and 2-5-6-4) and one
    around it, which contains both bounds *)
Definition ex_data (n : nat) : list nat :=
  match n with 0 => [1; 2] | 1 => [3; 4] | 2 => [4; 2] | 3 => [2; 5; 6; 4] | 4 => [1; 7; 3] | 5 => [4; 8; 2] | _ => [] end.
Definition straight (n : nat) := Line n false.
Definition ex_lane := Lanelet (straight 0) (straight 1).
Definition ex_front := [straight 2; straight 3].
Definition ex_around := [straight 1; straight 5; Line 0 true; straight 4].
Example C98_nonvacuous : lane_drawn ex_data ex_lane /\ all_drawn ex_data ex_front /\ common_preceding ex_data ex_lane ex_front = Done (Some (straight 2)) /\
  follows_area ex_data ex_lane ex_front = Done true /\ area_follows ex_data ex_front (invert ex_lane) = Done true /\ area_follows ex_data ex_front ex_lane = Done false /\ common_anywhere ex_data ex_front (invert ex_lane) = Done (Some (straight 2)) /\
  common_left ex_lane ex_around = Some (straight 0) /\ common_right ex_lane ex_around = Some (straight 1) /\
  common_sideways ex_lane [straight 9; Line 0 true] = Some (straight 0) /\ common_sideways_ar [straight 9; Line 0 true] ex_lane = Some (Line 0 true) /\
  adjacent_areas ex_data ex_front [Line 3 true; straight 9] = Done true /\ common_areas ex_front [straight 9; Line 3 true] = Some (straight 3).
Proof.
  split; [split; discriminate|]. split; [intros b [<-|[<-|[]]]; discriminate|]. repeat (split; [reflexivity|]). reflexivity.
Qed.
(** Finding: determineCommonLineSideways is said to be the same for both orders of the arguments. If the area contains both bounds the
    lanelet comes with its left bound, the area with the bound that is first in it. *)
Theorem C98_sideways_refuted : exists l ar b s, common_sideways l ar = Some s /\ common_sideways_ar ar l = Some b /\ l_data s <> l_data b.
Proof. exists ex_lane, ex_around, (straight 1), (straight 0). repeat split. discriminate. Qed.
Print Assumptions C98_sideways_refuted.
(** Finding: an area that contains the line string at the front of a lanelet in the other direction, so that it lies on this side of it,
    follows the lanelet. There is no common line string. *)
Theorem C98_follows_refuted : exists data l ar, lane_drawn data l /\ all_drawn data ar /\ follows_area data l ar = Done true /\
  (forall b, In b ar -> ~ closes_front data l b) /\ common_preceding data l ar = Done None.
Proof.
  exists ex_data, ex_lane, [Line 2 true; Line 5 true]. split; [split; discriminate|]. split; [intros b [<-|[<-|[]]]; discriminate|].
  split; [reflexivity|]. split; [|reflexivity].
  destruct (preceding_ok ex_data ex_lane [Line 2 true; Line 5 true]) as (r & E & F).
  - split; discriminate.
  - intros b [<-|[<-|[]]]; discriminate.
  - vm_compute in E. injection E as <-. exact F.
Qed.
Print Assumptions C98_follows_refuted.
(** Finding: the ends of bounds without points are accessed; follows of two lanelets checks for this. *)
Theorem C98_empty_bound_refuted : exists data l, (forall ar, follows_area data l ar = Undefined) /\ (forall ar, common_preceding data l ar = Undefined)
  /\ (forall ar, common_anywhere data ar l = Undefined) /\ (forall m, follows data l m = false).
Proof.
  exists (fun _ => []), ex_lane. repeat split.
Qed.
Print Assumptions C98_empty_bound_refuted.

(** * Two lanelets *)

(** [b] is a bound of [l] on the other side of which [m] lies. *)
Definition between_lanes (l m : lanelet) (b : line) : Prop :=
  (b = left_bound l /\ right_bound m = b) \/ (b = right_bound l /\ left_bound m = b).
Definition turned_lane (m : lanelet) : lanelet := Lanelet (turned (right_bound m)) (turned (left_bound m)).
(** determineCommonLine of two lanelets: a bound of the first one, with the second on the other side; if allowed in either direction. *)
Theorem C98_lanelets l m inv : match common_lanelets l m inv with
  | Some b => between_lanes l m b \/ (inv = true /\ between_lanes l (turned_lane m) b)
  | None => forall b, ~ between_lanes l m b /\ (inv = true -> ~ between_lanes l (turned_lane m) b)
  end.
Proof.
  unfold common_lanelets, between_lanes, left_of, right_of, left_of. change (invert m) with (turned_lane m).
  destruct (line_eqb (right_bound m) (left_bound l)) eqn:E1; [apply line_eqb_iff in E1; auto|].
  destruct (line_eqb (right_bound l) (left_bound m)) eqn:E2; [apply line_eqb_iff in E2; auto|].
  assert (N : forall b, ~ ((b = left_bound l /\ right_bound m = b) \/ (b = right_bound l /\ left_bound m = b))).
  { intros b [[-> X]|[-> X]].
    - apply line_eqb_iff in X. congruence.
    - symmetry in X. apply line_eqb_iff in X. congruence. }
  destruct inv; [|intros b; split; [apply N|discriminate]].
  destruct (line_eqb (right_bound (turned_lane m)) (left_bound l)) eqn:E3; [apply line_eqb_iff in E3; right; auto|].
  destruct (line_eqb (right_bound l) (left_bound (turned_lane m))) eqn:E4; [apply line_eqb_iff in E4; right; auto|].
  intros b. split; [apply N|]. intros _ [[-> X]|[-> X]].
  - apply line_eqb_iff in X. congruence.
  - symmetry in X. apply line_eqb_iff in X. congruence.
Qed.
Print Assumptions C98_lanelets.
Theorem C98_lanelets_symmetric l m inv : common_lanelets l m inv = None <-> common_lanelets m l inv = None.
Proof.
  assert (G : forall l m, common_lanelets l m inv = None -> common_lanelets m l inv = None).
  { clear. intros l m E. pose proof (C98_lanelets l m inv) as H. rewrite E in H. pose proof (C98_lanelets m l inv) as K.
    destruct (common_lanelets m l inv) as [b|]; [|reflexivity]. exfalso. unfold between_lanes, turned_lane in *. cbn [left_bound right_bound] in *.
    destruct K as [[[-> X]|[-> X]]|[-> [[-> X]|[-> X]]]].
    - destruct (H (right_bound l)) as [N _]. apply N. auto.
    - destruct (H (left_bound l)) as [N _]. apply N. auto.
    - destruct (H (left_bound l)) as [_ N]. apply (N eq_refl). left. split; [reflexivity|]. rewrite <- X. apply turned_twice.
    - destruct (H (right_bound l)) as [_ N]. apply (N eq_refl). right. split; [reflexivity|]. rewrite <- X. apply turned_twice. }
  split; apply G.
Qed.
Print Assumptions C98_lanelets_symmetric.
Example C98_lanelets_nonvacuous : common_lanelets ex_lane (Lanelet (straight 1) (straight 9)) false = Some (straight 1) /\
  common_lanelets ex_lane (Lanelet (Line 0 true) (straight 9)) false = None /\
  common_lanelets ex_lane (Lanelet (Line 0 true) (straight 9)) true = Some (straight 0).
Proof. repeat split. Qed.
(** Finding: lanelets on the same side of a common line string, e.g. where the carriageway widens, have none for this function, also if
    the direction is to be ignored. *)
Theorem C98_same_side_refuted : exists l m, left_bound l = left_bound m /\ common_lanelets l m true = None.
Proof. exists ex_lane, (Lanelet (straight 0) (straight 9)). split; reflexivity. Qed.
Print Assumptions C98_same_side_refuted.
