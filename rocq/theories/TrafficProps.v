(** C27 - C30, C48, C49: traffic rules against the tagging documentation. *)
From Coq Require Import List Arith Bool String Ascii QArith Lia.
From Verif Require Import TrafficModel TrafficSpec TrafficProofs.
From Verif Require AttrModel AttrProps.
Import ListNotations.
Local Open Scope string_scope.
Local Open Scope list_scope.
Local Open Scope nat_scope.

(** Concrete attributes: strings with the conversions of Attribute, velocities in km/h as
    rational numbers. *)
Definition sbool : string -> option bool := AttrModel.conv_bool.
Definition svel (s : string) : option Q :=
  snd (AttrModel.as_velocity AttrProps.lex_q AttrProps.stod_q AttrProps.q_kmh AttrProps.q_mps AttrProps.q_mph (AttrModel.Attr s None)).
Definition qkmh (n : nat) : Q := inject_Z (Z.of_nat n).

(** ** C27 *)
(** The line as seen along the given handle: crossing it to the left or right is the
    crossing [along l d] with respect to the stored direction. *)
Definition beside_right {V} (from to : @lanelet V) : Prop := right_bound from = left_bound to.
Definition beside_left {V} (from to : @lanelet V) : Prop := left_bound from = right_bound to.
Definition good_line {V} (lines : nat -> @ldata V) (l : line) : Prop :=
  unique (lattrs lines l) /\ complete_override (lattrs lines l).

Theorem C27_lane_change_partial {V} (str : V -> string) bool_of lines p (from to : @lanelet V) :
  In p known_participants -> good_line lines (left_bound from) -> good_line lines (right_bound from) ->
  ~ (beside_right from to /\ beside_left from to) ->
  can_change_lane str bool_of lines p from to = true <->
  pass_ll str bool_of p from = true /\ pass_ll str bool_of p to = true /\
  ((beside_right from to /\
    line_allows str bool_of p false (lattrs lines (right_bound from)) (along (right_bound from) LeftToRight)) \/
   (beside_left from to /\
    line_allows str bool_of p false (lattrs lines (left_bound from)) (along (left_bound from) RightToLeft))).
Proof.
  intros K [U1 C1] [U2 C2] NB. unfold can_change_lane.
  assert (R : left_of from to = true <-> beside_right from to) by (apply line_eqb_iff).
  assert (L : right_of from to = true <-> beside_left from to).
  { unfold right_of, left_of. rewrite line_eqb_iff. unfold beside_left. intuition congruence. }
  rewrite <- (lane_change_spec str bool_of lines p (right_bound from) false LeftToRight) by auto.
  rewrite <- (lane_change_spec str bool_of lines p (left_bound from) false RightToLeft) by auto.
  cbn [allowed].
  destruct (pass_ll str bool_of p from), (pass_ll str bool_of p to); cbn [negb orb];
    try (intuition discriminate).
  destruct (left_of from to) eqn:LO; [|destruct (right_of from to) eqn:RO].
  - assert (beside_right from to) by (apply R; auto). intuition.
  - assert (beside_left from to) by (apply L; auto).
    assert (~ beside_right from to) by (rewrite <- R; discriminate). intuition.
  - assert (~ beside_right from to) by (rewrite <- R; discriminate).
    assert (~ beside_left from to) by (rewrite <- L; discriminate). intuition discriminate.
Qed.
Print Assumptions C27_lane_change_partial.

(** Looking from the other side: for lanelets usable in both directions the answer does
    not depend on the direction in which the pair is seen. *)
Theorem C27_inverted_partial {V} (str : V -> string) bool_of lines p (from to : @lanelet V) :
  pass_ll str bool_of p from = pass_ll str bool_of p (linvert from) ->
  pass_ll str bool_of p to = pass_ll str bool_of p (linvert to) ->
  ~ (beside_right from to /\ beside_left from to) ->
  can_change_lane str bool_of lines p (linvert from) (linvert to) = can_change_lane str bool_of lines p from to.
Proof.
  intros P1 P2 NB. unfold can_change_lane. rewrite <- P1, <- P2.
  destruct (_ || _); auto.
  assert (IE : forall x y, line_eqb (linv x) (linv y) = line_eqb x y).
  { intros x y. destruct (line_eqb x y) eqn:E.
    - apply line_eqb_iff in E. apply line_eqb_iff. congruence.
    - destruct (line_eqb (linv x) (linv y)) eqn:E'; auto. apply line_eqb_iff in E'.
      assert (x = y) by (rewrite <- (linv_linv x), <- (linv_linv y); congruence).
      assert (line_eqb x y = true) by (apply line_eqb_iff; auto). congruence. }
  unfold right_of, left_of. rewrite !left_linvert, !right_linvert, !IE, !lct_linv.
  assert (SY : forall x y, line_eqb x y = line_eqb y x).
  { intros x y. unfold line_eqb. rewrite Nat.eqb_sym. f_equal. destruct (l_inv x), (l_inv y); auto. }
  rewrite (SY (left_bound from)), (SY (left_bound to)).
  destruct (line_eqb (right_bound to) (left_bound from)) eqn:E1, (line_eqb (right_bound from) (left_bound to)) eqn:E2; auto.
  - exfalso. apply NB. apply line_eqb_iff in E1, E2. split; unfold beside_left, beside_right; congruence.
  - destruct (lane_change_type str bool_of lines p (left_bound from) false); reflexivity.
  - destruct (lane_change_type str bool_of lines p (right_bound from) false); reflexivity.
Qed.
Print Assumptions C27_inverted_partial.

(** Three lanelets side by side: 0 | 1 : 2, a solid-dashed line between 1 and 2. *)
Definition ex_lines (n : nat) : @ldata string :=
  match n with
  | 0 => LData [("subtype", "solid"); ("type", "line_thin")] [0; 1]
  | 1 => LData [("subtype", "dashed"); ("type", "line_thin")] [2; 3]
  | 2 => LData [("subtype", "dashed_solid"); ("type", "line_thick")] [4; 5]
  | 3 => LData [("lane_change:left", "yes"); ("lane_change:right", "no"); ("type", "wall")] [6; 7]
  | 4 => LData [("lane_change:left", "no"); ("subtype", "dashed"); ("type", "line_thin")] [8; 9]
  | 5 => LData [("type", "virtual")] [1; 10; 3]
  | 6 => LData [("type", "wall")] [1; 11; 3]
  | _ => LData [] [12; 13]
  end.
Definition ex_ll (l r : nat) : @lanelet string :=
  Lanelet (Line l false) (Line r false) [("subtype", "road")] [] false.
Example C27_nonvacuous :
  can_change_lane (fun s => s) sbool ex_lines "vehicle:car" (ex_ll 0 1) (ex_ll 1 2) = true /\
  can_change_lane (fun s => s) sbool ex_lines "vehicle:car" (ex_ll 1 2) (ex_ll 0 1) = true /\
  can_change_lane (fun s => s) sbool ex_lines "vehicle:car" (ex_ll 1 2) (ex_ll 2 3) = true /\
  can_change_lane (fun s => s) sbool ex_lines "vehicle:car" (ex_ll 2 3) (ex_ll 1 2) = false /\
  can_change_lane (fun s => s) sbool ex_lines "vehicle:car" (ex_ll 2 3) (ex_ll 3 4) = false /\
  can_change_lane (fun s => s) sbool ex_lines "vehicle:car" (ex_ll 3 4) (ex_ll 2 3) = true /\
  can_change_lane (fun s => s) sbool ex_lines "pedestrian" (ex_ll 0 1) (ex_ll 1 2) = false /\
  good_line ex_lines (left_bound (ex_ll 3 1)) /\ ~ beside_left (ex_ll 1 2) (ex_ll 2 3).
Proof.
  repeat (split; [vm_compute; reflexivity|]). split; [|intros E; inversion E]. split.
  - repeat (constructor; [cbn; intuition discriminate|]). constructor.
  - right. split; intros _; eexists; cbn; unfold entry; cbn; auto.
Qed.

(** An override for one direction only: lane_change:left=no is ignored. *)
Theorem C27_incomplete_override_refuted :
  can_change_lane (fun s => s) sbool ex_lines "vehicle" (ex_ll 4 7) (ex_ll 3 4) = true /\
  entry (lattrs ex_lines (Line 4 false)) "lane_change:left" "no".
Proof. split; [vm_compute; reflexivity|cbn; unfold entry; cbn; auto]. Qed.
Print Assumptions C27_incomplete_override_refuted.
(** Lanelets with exchanged bounds: only the right one is looked at. *)
Theorem C27_both_sides_refuted :
  let from := ex_ll 1 0 in let to := ex_ll 0 1 in
  can_change_lane (fun s => s) sbool ex_lines "vehicle" from to = false /\ beside_left from to /\
  line_allows (fun s => s) sbool "vehicle" false (lattrs ex_lines (left_bound from)) RightToLeft.
Proof.
  cbv zeta. split; [vm_compute; reflexivity|]. split; [reflexivity|]. right. right.
  assert (A : forall k, In k ["lane_change"; "lane_change:left"; "lane_change:right"] -> absent (lattrs ex_lines (left_bound (ex_ll 1 0))) k).
  { intros k I v H. cbn in H. destruct H as [H|[H|[]]]; inversion H; subst; cbn in I; intuition discriminate. }
  split; [apply A; cbn; auto|]. split; [apply A; cbn; auto|]. split; [apply A; cbn; auto|].
  exists "line_thin", "dashed".
  split; [left; exists "line_thin"; split; [right; left; auto|auto]|].
  split; [left; exists "dashed"; split; [left; auto|auto]|].
  left. left. split; [left; left; auto|]. auto.
Qed.
Print Assumptions C27_both_sides_refuted.

(** ** C28 *)
Definition ex_area (ls : list line) (subtype : string) : @area string := Area ls [("subtype", subtype)] [].
(** A pedestrian area next to a car park: passing is allowed although the second area
    must not be used. *)
Theorem C28_area_area_refuted : exists from to : @area string,
  pass_ar_ar (fun s => s) sbool ex_lines Pedestrian "pedestrian" from to = true /\
  pass_ar (fun s => s) sbool Pedestrian "pedestrian" from = true /\
  pass_ar (fun s => s) sbool Pedestrian "pedestrian" to = false.
Proof.
  exists (ex_area [Line 5 false; Line 0 false] "walkway"), (ex_area [Line 5 true; Line 3 false] "parking").
  vm_compute. auto.
Qed.
Print Assumptions C28_area_area_refuted.
(** Vehicles must not use areas at all, but may pass from one to the other. *)
Theorem C28_vehicle_refuted : exists from to : @area string,
  pass_ar_ar (fun s => s) sbool ex_lines Vehicle "vehicle" from to = true /\
  forall a, pass_ar (fun s => s) sbool Vehicle "vehicle" a = false.
Proof.
  exists (ex_area [Line 5 false] "parking"), (ex_area [Line 5 true] "parking"). vm_compute. auto.
Qed.
Print Assumptions C28_vehicle_refuted.
(** What holds: a passable area is not entered from one that is not passable. *)
Theorem C28_area_area_partial {V} (str : V -> string) bool_of lines k p (from to : @area V) :
  pass_ar_ar str bool_of lines k p from to = true -> pass_ar str bool_of k p to = true ->
  pass_ar str bool_of k p from = true.
Proof. unfold pass_ar_ar. destruct (pass_ar str bool_of k p from); auto. cbn [negb andb]. intros H E. rewrite E in H. discriminate. Qed.
Print Assumptions C28_area_area_partial.
(** The other overloads require both to be passable. *)
Theorem C28_other_overloads {V} (str : V -> string) bool_of lines k p (l m : @lanelet V) (a : @area V) :
  (pass_ll_ll str bool_of lines p l m = true -> pass_ll str bool_of p l = true /\ pass_ll str bool_of p m = true) /\
  (pass_ll_ar str bool_of lines k p l a = Some true -> pass_ll str bool_of p l = true /\ pass_ar str bool_of k p a = true) /\
  (pass_ar_ll str bool_of lines k p a l = Some true -> pass_ll str bool_of p l = true /\ pass_ar str bool_of k p a = true).
Proof.
  split; [|split].
  - unfold pass_ll_ll. rewrite !andb_true_iff. tauto.
  - unfold pass_ll_ar. destruct (pass_ll str bool_of p l), (pass_ar str bool_of k p a); cbn; auto; discriminate.
  - unfold pass_ar_ll. destruct (pass_ll str bool_of p l), (pass_ar str bool_of k p a); cbn; auto; discriminate.
Qed.
Print Assumptions C28_other_overloads.
Example C28_nonvacuous :
  let walk := Lanelet (Line 0 false) (Line 5 false) [("subtype", "walkway")] [] false in
  let yard := ex_area [Line 5 false; Line 7 true] "walkway" in
  pass_ll_ar (fun s => s) sbool ex_lines Pedestrian "pedestrian" walk yard = Some true /\
  pass_ar_ll (fun s => s) sbool ex_lines Pedestrian "pedestrian" yard walk = Some true.
Proof. vm_compute. auto. Qed.

(** ** C29 *)
Theorem C29_overrides_partial {V} (str : V -> string) bool_of p (a : list (string * V)) :
  unique a -> In p known_participants -> good_overrides "participant" p a -> only_overrides "participant" a ->
  ~ tag_is str a "subtype" "bus_lane" ->
  pass_attrs str bool_of p a = true <-> may_use str bool_of p a.
Proof. intros U K G O NB. apply pass_attrs_spec; auto. intros E. apply NB. apply tag_attr; auto. Qed.
Print Assumptions C29_overrides_partial.
(** Other attributes do not matter. *)
Theorem C29_unrelated_partial {V} (str : V -> string) bool_of p (a b : list (string * V)) :
  unique a -> unique b -> In p known_participants ->
  good_overrides "participant" p a -> only_overrides "participant" a ->
  good_overrides "participant" p b -> only_overrides "participant" b ->
  (forall q v, entry a ("participant:" ++ q) v <-> entry b ("participant:" ++ q) v) ->
  (forall v, entry a "subtype" v <-> entry b "subtype" v) ->
  ~ tag_is str a "subtype" "bus_lane" ->
  pass_attrs str bool_of p a = pass_attrs str bool_of p b.
Proof.
  intros UA UB K GA OA GB OB E S NB.
  assert (T : forall s, tag_is str a "subtype" s <-> tag_is str b "subtype" s).
  { intros s. unfold tag_is, absent. unfold entry in *. split; (intros [(v & H & H')|[H H']]; [left; exists v; split; auto; apply S; auto|right; split; auto]);
      intros v I; apply (H v); apply S; auto. }
  assert (X : may_use str bool_of p a <-> may_use str bool_of p b).
  { unfold may_use, overridden, absent. unfold entry in *. split.
    - intros [[(q & v & I) (w & (r & C & J) & B)]|[N (s & TS & I)]].
      + left. split; [exists q, v; apply E; auto|]. exists w. split; auto. exists r. split; auto. apply E. auto.
      + right. split; [intros q v I'; apply (N q v); apply E; auto|]. exists s. split; auto. apply T. auto.
    - intros [[(q & v & I) (w & (r & C & J) & B)]|[N (s & TS & I)]].
      + left. split; [exists q, v; apply E; auto|]. exists w. split; auto. exists r. split; auto. apply E. auto.
      + right. split; [intros q v I'; apply (N q v); apply E; auto|]. exists s. split; auto. apply T. auto. }
  assert (A := C29_overrides_partial str bool_of p a UA K GA OA NB).
  assert (B := C29_overrides_partial str bool_of p b UB K GB OB (fun H => NB (proj2 (T _) H))).
  destruct (pass_attrs str bool_of p a), (pass_attrs str bool_of p b); auto; intuition.
Qed.
Print Assumptions C29_unrelated_partial.
(** The example of the documentation. *)
Definition doc_attrs : list (string * string) :=
  [("location", "urban"); ("one_way:pedestrian", "no"); ("participant:pedestrian", "yes"); ("participant:vehicle:bus", "yes");
   ("participant:vehicle:taxi", "yes"); ("subtype", "road"); ("type", "lanelet")].
Example C29_nonvacuous :
  unique doc_attrs /\ good_overrides "participant" "vehicle:taxi" doc_attrs /\ only_overrides "participant" doc_attrs /\
  map (fun p => pass_attrs (fun s => s) sbool p doc_attrs) known_participants =
    [false; true; false; false; false; false; false; true; false; true; false; false].
Proof.
  split; [|split; [split|split]].
  - repeat (constructor; [cbn; intuition discriminate|]). constructor.
  - intros k v I P. unfold entry, doc_attrs in I. cbn [In] in I.
    repeat (destruct I as [I|I]; [injection I as <- <-; first [discriminate P|cbn; eexists; split; [|reflexivity]; cbn; tauto]|]). destruct I.
  - intros q r v w I J C1 C2. unfold entry, doc_attrs in I, J. cbn [In] in I, J.
    apply coversb_iff in C1, C2.
    repeat (destruct I as [I|I]; [cbn in I; try discriminate; injection I as I I'; subst;
      repeat (destruct J as [J|J]; [cbn in J; try discriminate; injection J as J J'; subst; first [reflexivity|discriminate C1|discriminate C2]|]); destruct J|]).
    destruct I.
  - intros k v I. unfold entry, doc_attrs in I. cbn [In] in I.
    repeat (destruct I as [I|I]; [injection I as <- <-; cbn; first [discriminate|auto]|]). destruct I.
  - vm_compute. reflexivity.
Qed.

(** Any attribute that begins with "participant" counts as an override and closes the
    lanelet for everybody. *)
Theorem C29_unrelated_refuted : exists k v a p,
  prefix "participant:" k = false /\ pass_attrs (fun s => s) sbool p a = true /\
  pass_attrs (fun s => s) sbool p ((k, v) :: a) = false.
Proof. exists "participants_per_hour", "12", [("subtype", "road")], "vehicle". vm_compute. auto. Qed.
Print Assumptions C29_unrelated_refuted.
(** Bus lanes can not be used by buses. *)
Theorem C29_bus_lane_refuted : exists a,
  pass_attrs (fun s => s) sbool "vehicle:bus" a = false /\ tag_is (fun s : string => s) a "subtype" "bus_lane" /\
  inferred "bus_lane" "vehicle:bus".
Proof.
  exists [("subtype", "bus_lane")]. split; [vm_compute; reflexivity|]. split.
  - left. exists "bus_lane". split; [left; auto|auto].
  - unfold inferred. tauto.
Qed.
Print Assumptions C29_bus_lane_refuted.

(** ** C49 *)
Theorem C49_direction {V} (bool_of : V -> option bool) p (l : @lanelet V) :
  let a := ll_attrs l in
  unique a -> In p known_participants -> good_overrides "one_way" p a ->
  (absent a "one_way" -> only_overrides "one_way" a) ->
  (forall v, entry a "one_way" v -> bool_of v <> None /\ forall q, absent a ("one_way:" ++ q)) ->
  (ll_inv l = false -> driving_dir bool_of l p = true) /\
  (ll_inv l = true -> driving_dir bool_of l p = true <->
     (exists v, entry a "one_way" v /\ bool_of v = Some false) \/
     (exists v, overridden "one_way" p a v /\ bool_of v = Some false) \/
     (absent a "one_way" /\ (forall q, absent a ("one_way:" ++ q)) /\ p = "pedestrian")) /\
  (is_one_way bool_of p l = true <-> exists m, (m = l \/ m = linvert l) /\ driving_dir bool_of m p = false).
Proof.
  intros a U K G O W. split; [|split].
  - unfold driving_dir. intros ->. auto.
  - intros INV. unfold driving_dir. rewrite INV. cbn [negb]. fold a.
    destruct (afind a "one_way") as [v|] eqn:F.
    + assert (E := F). apply entry_afind in E; auto. destruct (W v E) as [BN AQ].
      destruct (bool_of v) as [b|] eqn:B; [|congruence]. split.
      * intros H. left. exists v. split; auto. destruct b; [discriminate|auto].
      * intros [(w & E' & B')|[(w & (q & _ & E') & _)|(A & _)]].
        -- rewrite <- (unique_entry a _ _ _ U E E') in B'. rewrite B in B'. inversion B'. auto.
        -- destruct (AQ q w). exact E'.
        -- destruct (A _ E).
    + apply afind_none in F. specialize (O F). destruct (has_override a "one_way") eqn:H.
      * apply has_override_iff in H as (k & v & E & P). assert (P' := O k v E P).
        destruct (prefix_exists _ _ P') as (q & ->).
        assert (X := get_override_spec bool_of a "one_way" p true U K G O false).
        change (("one_way" ++ ":" ++ p)%string) with (("one_way:" ++ p)%string) in X. rewrite negb_true_iff, X. split.
        -- intros [(w & OW & [B|[_ B]])|[_ B]]; try discriminate. right. left. eauto.
        -- intros [(w & E' & _)|[(w & OW & B)|(_ & A & _)]]; [destruct (F _ E')|left; eauto|].
           destruct (A q v). rewrite append_assoc in E. exact E.
      * assert (A : forall q, absent a ("one_way:" ++ q)).
        { intros q v E. assert (has_override a "one_way" = true); [|congruence]. apply has_override_iff.
          exists ("one_way:" ++ q)%string, v. split; auto. }
        rewrite String.eqb_eq. split; [auto|]. intros [(w & E' & _)|[(w & (q & _ & E') & _)|(_ & _ & H')]]; auto.
        -- destruct (F _ E').
        -- destruct (A q w). exact E'.
  - unfold is_one_way. destruct (driving_dir bool_of l p) eqn:D1, (driving_dir bool_of (linvert l) p) eqn:D2; cbn.
    + split; [discriminate|]. intros (m & [->| ->] & H); congruence.
    + split; auto. intros _. exists (linvert l). auto.
    + split; auto. intros _. exists l. auto.
    + exfalso. unfold driving_dir in D1, D2. destruct l as [l1 l2 at_ rs [|]]; cbn in *; discriminate.
Qed.
Print Assumptions C49_direction.
Example C49_nonvacuous :
  let l a inv := Lanelet (Line 0 false) (Line 1 false) a [] inv : @lanelet string in
  map (fun p => driving_dir sbool (l [("one_way:bicycle", "no")] true) p) ["vehicle"; "bicycle"; "pedestrian"] = [false; true; false] /\
  map (fun p => driving_dir sbool (l [] true) p) ["vehicle"; "bicycle"; "pedestrian"] = [false; false; true] /\
  map (fun p => driving_dir sbool (l [("one_way", "no")] true) p) ["vehicle:car"; "bicycle"; "pedestrian"] = [true; true; true] /\
  map (fun p => is_one_way sbool p (l [("one_way:vehicle", "no")] true)) ["vehicle:car"; "bicycle"] = [false; true].
Proof. vm_compute. auto. Qed.

(** ** C48 *)
(** Outer bounds run clockwise: the area lies to the right of each of its bounds.
    A bound beside a lanelet is its left bound in the other direction or its right bound;
    a bound at the end of a lanelet leads from the end of its right bound to the end of its
    left bound. *)
Definition beside {V} (l : @lanelet V) (b : line) : Prop := b = linv (left_bound l) \/ b = right_bound l.
Definition at_end {V} (lines : nat -> @ldata V) (l : @lanelet V) (b : line) : Prop := exists x y,
  back lines (left_bound l) = Some x /\ back lines (right_bound l) = Some y /\ back lines b = Some x /\ front lines b = Some y.
Definition nonempty {V} (lines : nat -> @ldata V) (l : line) : Prop := d_points (lines (l_data l)) <> [].

Lemma nonempty_ends {V} (lines : nat -> @ldata V) l : nonempty lines l -> exists x y, front lines l = Some x /\ back lines l = Some y.
Proof.
  unfold nonempty, front, back, points. intros N.
  assert (H : forall s : list nat, s <> [] -> exists x, hd_error s = Some x) by (intros [|x s] E; [congruence|exists x; auto]).
  assert (R : forall s : list nat, s <> [] -> rev s <> []) by (intros [|x s] E F; [auto|cbn in F; destruct (rev s); discriminate]).
  destruct (l_inv l).
  - destruct (H _ (R _ N)) as (x & ->). destruct (H _ (R _ (R _ N))) as (y & ->). eauto.
  - destruct (H _ N) as (x & ->). destruct (H _ (R _ N)) as (y & ->). eauto.
Qed.
Lemma common_find {V} (lines : nat -> @ldata V) (l : @lanelet V) (a : @area V) :
  nonempty lines (left_bound l) -> nonempty lines (right_bound l) -> (forall b, In b (ar_outer a) -> nonempty lines b) ->
  exists r, common_ll_ar lines l a = Some r /\
    match r with
    | Some b => In b (ar_outer a) /\ at_end lines l b
    | None => forall b, In b (ar_outer a) -> ~ at_end lines l b
    end.
Proof.
  intros NL NR NB. unfold common_ll_ar.
  destruct (nonempty_ends _ _ NL) as (_ & x & _ & EX). destruct (nonempty_ends _ _ NR) as (_ & y & _ & EY). rewrite EX, EY.
  set (f := fun (acc : option (option line)) b => _).
  assert (DONE : forall bs b, fold_left f bs (Some (Some b)) = Some (Some b)) by (induction bs; auto).
  assert (G : forall bs, (forall b, In b bs -> nonempty lines b) -> exists r, fold_left f bs (Some None) = Some r /\
    match r with Some b => In b bs /\ at_end lines l b | None => forall b, In b bs -> ~ at_end lines l b end).
  { induction bs as [|b bs IH]; intros NE; [exists None; split; auto; intros b []|]. cbn [fold_left].
    destruct (nonempty_ends lines b (NE b (or_introl eq_refl))) as (fb & bb & EF & EB).
    destruct IH as (r & IH & H); [intros; apply NE; right; auto|].
    assert (AE : at_end lines l b <-> bb = x /\ fb = y).
    { unfold at_end. split.
      - intros (x' & y' & H1 & H2 & H3 & H4). split; congruence.
      - intros [-> ->]. exists x, y. auto. }
    unfold f at 2. rewrite EB, EF. destruct (Nat.eqb_spec bb x) as [->|N1]; [destruct (Nat.eqb_spec fb y) as [->|N2]|].
    - rewrite DONE. exists (Some b). split; auto. split; [left; auto|]. apply AE. auto.
    - exists r. split; auto. destruct r; [destruct H; split; auto; right; auto|]. intros b' [<-|I]; [rewrite AE; tauto|auto].
    - exists r. split; auto. destruct r; [destruct H; split; auto; right; auto|]. intros b' [<-|I]; [rewrite AE; tauto|auto]. }
  apply G. auto.
Qed.
Lemma left_of_ar_iff {V} (l : @lanelet V) (a : @area V) : left_of_ar l a = true <-> In (linv (left_bound l)) (ar_outer a).
Proof.
  unfold left_of_ar. rewrite existsb_exists. split.
  - intros (b & I & E). apply line_eqb_iff in E. rewrite <- E, linv_linv. auto.
  - intros I. exists (linv (left_bound l)). split; auto. apply line_eqb_iff. apply linv_linv.
Qed.
Lemma right_of_ar_iff {V} (l : @lanelet V) (a : @area V) : right_of_ar l a = true <-> In (right_bound l) (ar_outer a).
Proof. unfold right_of_ar. rewrite left_of_ar_iff, left_linvert, linv_linv. tauto. Qed.
Lemma to_left_linv {V} (str : V -> string) bool_of lines p l :
  to_left (lane_change_type str bool_of lines p (linv l) true) = to_right (lane_change_type str bool_of lines p l true).
Proof. rewrite lct_linv. destruct (lane_change_type str bool_of lines p l true); auto. Qed.
Lemma to_right_linv {V} (str : V -> string) bool_of lines p l :
  to_right (lane_change_type str bool_of lines p (linv l) true) = to_left (lane_change_type str bool_of lines p l true).
Proof. rewrite lct_linv. destruct (lane_change_type str bool_of lines p l true); auto. Qed.

(** The bounds through which one can get from one to the other. *)
Definition enter_bounds {V} (lines : nat -> @ldata V) (from : @lanelet V) (to : @area V) (b : line) : Prop :=
  In b (ar_outer to) /\ (beside from b \/ at_end lines from b).
Definition leave_bounds {V} (lines : nat -> @ldata V) (from : @area V) (to : @lanelet V) (b : line) : Prop :=
  In b (ar_outer from) /\ (beside to b \/ at_end lines (linvert to) b).
Definition both_bounds {V} (from to : @area V) (b : line) : Prop := In b (ar_outer from) /\ In (linv b) (ar_outer to).
Definition crossable {V} (str : V -> string) bool_of (lines : nat -> @ldata V) p b d : Prop :=
  line_allows str bool_of p true (lattrs lines b) (along b d).

(** If passing is allowed, there is a common bound that may be crossed in this
    direction; conversely if there is only one common bound. *)
Theorem C48_lanelet_area_partial {V} (str : V -> string) bool_of lines k p (l : @lanelet V) (a : @area V) :
  In p known_participants ->
  nonempty lines (left_bound l) -> nonempty lines (right_bound l) -> (forall b, In b (ar_outer a) -> nonempty lines b) ->
  (forall b, In b (ar_outer a) -> good_line lines b) ->
  exists into out,
  pass_ll_ar str bool_of lines k p l a = Some into /\ pass_ar_ll str bool_of lines k p a l = Some out /\
  (into = true -> exists b, enter_bounds lines l a b /\ crossable str bool_of lines p b LeftToRight) /\
  (out = true -> exists b, leave_bounds lines a l b /\ crossable str bool_of lines p b RightToLeft) /\
  (pass_ll str bool_of p l = true -> pass_ar str bool_of k p a = true ->
   (forall b, enter_bounds lines l a b -> crossable str bool_of lines p b LeftToRight ->
      (forall c, enter_bounds lines l a c -> c = b) -> into = true) /\
   (forall b, leave_bounds lines a l b -> crossable str bool_of lines p b RightToLeft ->
      (forall c, leave_bounds lines a l c -> c = b) -> out = true)).
Proof.
  intros K NL NR NB GL.
  assert (CR : forall b d, In b (ar_outer a) -> crossable str bool_of lines p b d <-> allowed (lane_change_type str bool_of lines p b true) d = true).
  { intros b d I. destruct (GL b I) as [U C]. unfold crossable. rewrite lane_change_spec by auto. tauto. }
  destruct (common_find lines l a NL NR NB) as (ci & CI & HI).
  destruct (common_find lines (linvert l) a) as (co & CO & HO); auto.
  { rewrite left_linvert. exact NR. } { rewrite right_linvert. exact NL. }
  unfold pass_ll_ar, pass_ar_ll. rewrite CI, CO.
  set (PL := pass_ll str bool_of p l). set (PA := pass_ar str bool_of k p a).
  destruct (negb PL || negb PA) eqn:PP.
  { assert (PP' : negb PA || negb PL = true) by (rewrite orb_comm; auto). rewrite PP'.
    exists false, false. split; [reflexivity|]. split; [reflexivity|]. split; [discriminate|]. split; [discriminate|].
    intros H1 H2. rewrite H1, H2 in PP. discriminate. }
  assert (PP' : negb PA || negb PL = false) by (rewrite orb_comm; auto). rewrite PP'.
  assert (LI := left_of_ar_iff l a). assert (RI := right_of_ar_iff l a).
  assert (LT : to_left (lane_change_type str bool_of lines p (left_bound l) true) =
               to_right (lane_change_type str bool_of lines p (linv (left_bound l)) true)) by (rewrite to_right_linv; auto).
  assert (LT' : to_right (lane_change_type str bool_of lines p (left_bound l) true) =
               to_left (lane_change_type str bool_of lines p (linv (left_bound l)) true)) by (rewrite to_left_linv; auto).
  rewrite LT, LT'.
  (* the bound the code looks at *)
  assert (MAIN : forall d (E : @lanelet V -> line -> Prop) (g : option line) (m : @lanelet V),
     (match g with Some b => In b (ar_outer a) /\ E m b | None => forall b, In b (ar_outer a) -> ~ E m b end) ->
     exists r,
       (if left_of_ar l a then Some (allowed (lane_change_type str bool_of lines p (linv (left_bound l)) true) d)
        else if right_of_ar l a then Some (allowed (lane_change_type str bool_of lines p (right_bound l) true) d)
        else match g with Some b => Some (allowed (lane_change_type str bool_of lines p b true) d) | None => Some false end) = Some r /\
       (r = true -> exists b, (In b (ar_outer a) /\ (beside l b \/ E m b)) /\ crossable str bool_of lines p b d) /\
       (forall b, (In b (ar_outer a) /\ (beside l b \/ E m b)) -> crossable str bool_of lines p b d ->
          (forall c, (In c (ar_outer a) /\ (beside l c \/ E m c)) -> c = b) -> r = true)).
  { intros d E g m G. unfold beside. destruct (left_of_ar l a) eqn:LO; [|destruct (right_of_ar l a) eqn:RO].
    - assert (I : In (linv (left_bound l)) (ar_outer a)) by (apply LI; auto). eexists. split; [reflexivity|]. split.
      + intros H. exists (linv (left_bound l)). split; auto. apply CR; auto.
      + intros b IB CB UB. rewrite <- (UB (linv (left_bound l))) in CB by auto. apply CR in CB; auto.
    - assert (I : In (right_bound l) (ar_outer a)) by (apply RI; auto). eexists. split; [reflexivity|]. split.
      + intros H. exists (right_bound l). split; auto. apply CR; auto.
      + intros b IB CB UB. rewrite <- (UB (right_bound l)) in CB by auto. apply CR in CB; auto.
    - destruct g as [b|].
      + destruct G as [I EB]. eexists. split; [reflexivity|]. split.
        * intros H. exists b. split; auto. apply CR; auto.
        * intros c IC CB UB. rewrite <- (UB b) in CB by auto. apply CR in CB; auto.
      + exists false. split; auto. split; [discriminate|]. intros b [I [[-> | ->]|EB]] _ _.
        * apply LI in I. congruence.
        * apply RI in I. congruence.
        * destruct (G b I EB). }
  destruct (MAIN LeftToRight (at_end lines) ci l HI) as (r1 & E1 & S1 & C1).
  destruct (MAIN RightToLeft (at_end lines) co (linvert l) HO) as (r2 & E2 & S2 & C2).
  cbn [allowed] in E1, E2. exists r1, r2. split; [exact E1|]. split; [exact E2|]. split; [exact S1|]. split; [exact S2|].
  intros _ _. split; [exact C1|exact C2].
Qed.
Print Assumptions C48_lanelet_area_partial.
Theorem C48_area_area_partial {V} (str : V -> string) bool_of lines k p (from to : @area V) :
  In p known_participants -> (forall b, In b (ar_outer from) -> good_line lines b) ->
  (pass_ar_ar str bool_of lines k p from to = true ->
     exists b, both_bounds from to b /\ crossable str bool_of lines p b RightToLeft) /\
  (pass_ar str bool_of k p from = true -> pass_ar str bool_of k p to = true ->
   forall b, both_bounds from to b -> crossable str bool_of lines p b RightToLeft ->
     (forall c, both_bounds from to c -> c = b) -> pass_ar_ar str bool_of lines k p from to = true).
Proof.
  intros K GL.
  assert (CR : forall b d, In b (ar_outer from) -> crossable str bool_of lines p b d <-> allowed (lane_change_type str bool_of lines p b true) d = true).
  { intros b d I. destruct (GL b I) as [U C]. unfold crossable. rewrite lane_change_spec by auto. tauto. }
  assert (CF : match common_ar_ar from to with Some b => both_bounds from to b | None => forall b, ~ both_bounds from to b end).
  { unfold common_ar_ar. set (g := fun l : line => _). assert (GE : forall b, g b = true <-> In (linv b) (ar_outer to)).
    { intros b. subst g. cbn. destruct (find _ (ar_outer to)) as [m|] eqn:F.
      - apply find_some in F as [I E]. apply line_eqb_iff in E. subst m. tauto.
      - split; [discriminate|]. intros I. apply (find_none _ _ F) in I.
        assert (line_eqb (linv b) (linv b) = true) by (apply line_eqb_iff; auto). congruence. }
    destruct (find g (ar_outer from)) as [b|] eqn:F.
    - apply find_some in F as [I E]. apply GE in E. split; auto.
    - intros b [I J]. apply (find_none _ _ F) in I. apply GE in J. congruence. }
  unfold pass_ar_ar. split.
  - destruct (_ && _); [discriminate|]. destruct (common_ar_ar from to) as [b|]; [|discriminate].
    intros H. exists b. split; auto. apply CR; [apply CF|auto].
  - intros -> ->. cbn [negb andb]. intros b IB CB UB. destruct (common_ar_ar from to) as [c|].
    + rewrite <- (UB c CF) in CB. apply CR in CB; [auto|apply CF].
    + destruct (CF b IB).
Qed.
Print Assumptions C48_area_area_partial.
(** Two common bounds, a wall and an opening: only the first one counts. *)
Theorem C48_two_bounds_refuted : exists from to : @area string,
  pass_ar_ar (fun s => s) sbool ex_lines Pedestrian "pedestrian" from to = false /\
  pass_ar (fun s => s) sbool Pedestrian "pedestrian" from = true /\ pass_ar (fun s => s) sbool Pedestrian "pedestrian" to = true /\
  exists b, both_bounds from to b /\ crossable (fun s => s) sbool ex_lines "pedestrian" b RightToLeft.
Proof.
  exists (ex_area [Line 6 false; Line 5 false] "walkway"), (ex_area [Line 5 true; Line 6 true] "walkway").
  split; [vm_compute; reflexivity|]. split; [vm_compute; reflexivity|]. split; [vm_compute; reflexivity|].
  exists (Line 5 false). split; [split; cbn; auto|]. right. right.
  assert (A : forall k, In k ["lane_change"; "lane_change:left"; "lane_change:right"] -> absent (lattrs ex_lines (Line 5 false)) k).
  { intros k I v H. cbn in H. destruct H as [H|[]]; inversion H; subst; cbn in I; intuition discriminate. }
  split; [apply A; cbn; auto|]. split; [apply A; cbn; auto|]. split; [apply A; cbn; auto|].
  exists "virtual", "". split; [left; exists "virtual"; split; [left; auto|auto]|].
  split; [right; split; auto; intros v [H|[]]; inversion H|]. auto.
Qed.
Print Assumptions C48_two_bounds_refuted.
Example C48_nonvacuous :
  (* a walkway that ends at a yard, through the line 5 *)
  let lines := fun n => match n with 10 => LData [] [20; 1] | 11 => LData [] [21; 3] | 12 => LData [("type", "virtual")] [3; 22; 1] | _ => ex_lines n end in
  let walk := Lanelet (Line 10 false) (Line 11 false) [("subtype", "walkway")] [] false in
  let yard := ex_area [Line 12 false; Line 7 true] "walkway" in
  at_end lines walk (Line 12 false) /\
  pass_ll_ar (fun s => s) sbool lines Pedestrian "pedestrian" walk yard = Some true /\
  pass_ar_ll (fun s => s) sbool lines Pedestrian "pedestrian" yard walk = Some false /\
  pass_ar_ll (fun s => s) sbool lines Pedestrian "pedestrian" yard (linvert walk) = Some true.
Proof. split; [exists 1, 3; vm_compute; auto|vm_compute; auto]. Qed.

(** ** C30 *)
(** Speed tags used as documented. *)
Definition good_speed {V Vel} (bool_of : V -> option bool) (vel_of : V -> option Vel) p (a : list (string * V)) : Prop :=
  unique a /\ good_overrides "speed_limit" p a /\ good_overrides "speed_limit_mandatory" p a /\
  (forall k v, entry a k v -> prefix "speed_limit" k = true ->
     k = "speed_limit" \/ prefix "speed_limit:" k = true \/ k = "speed_limit_mandatory" \/ prefix "speed_limit_mandatory:" k = true) /\
  (forall v w, entry a "speed_limit_mandatory" v -> ~ overridden "speed_limit_mandatory" p a w) /\
  (forall v, entry a "speed_limit" v \/ overridden "speed_limit" p a v -> vel_of v <> None) /\
  (forall v, entry a "speed_limit_mandatory" v \/ overridden "speed_limit_mandatory" p a v -> bool_of v <> None).
Definition limit_tag {V Vel} (kmh : nat -> Vel) (vel_of : V -> option Vel) p (a : list (string * V)) (x : Vel) : Prop :=
  (exists v, overridden "speed_limit" p a v /\ vel_of v = Some x) \/
  ((forall v, ~ overridden "speed_limit" p a v) /\
   ((exists v, entry a "speed_limit" v /\ vel_of v = Some x) \/ (absent a "speed_limit" /\ x = kmh 0))).
Definition mandatory_tag {V} (bool_of : V -> option bool) p (a : list (string * V)) (b : bool) : Prop :=
  (exists v, (entry a "speed_limit_mandatory" v \/ overridden "speed_limit_mandatory" p a v) /\ bool_of v = Some b) \/
  (absent a "speed_limit_mandatory" /\ (forall v, ~ overridden "speed_limit_mandatory" p a v) /\ b = true).
Definition tag_or {V} (str : V -> string) (a : list (string * V)) (k d s : string) : Prop :=
  (exists v, entry a k v /\ str v = s) \/ (absent a k /\ s = d).
(** Inferred limits (German values): limit in km/h and whether it is mandatory. *)
Definition inferred_limit (p location subtype : string) (n : nat) (m : bool) : Prop :=
  (p = "pedestrian" /\ n = 5 /\ m = true) \/
  (p = "bicycle" /\ n = 20 /\ m = true) \/
  (covers "vehicle" p /\
   ((location = "urban" /\ subtype = "road" /\ n = 50 /\ m = true) \/
    (location = "nonurban" /\ subtype = "road" /\ n = 100 /\ m = true) \/
    ((location = "urban" \/ location = "nonurban") /\ subtype = "highway" /\ n = 130 /\ m = false) \/
    ((location = "urban" \/ location = "nonurban") /\ subtype = "play_street" /\ n = 7 /\ m = true) \/
    (location = "urban" /\ subtype = "exit" /\ n = 50 /\ m = true))).

(** The limit of the first speed limit element, for vehicles. *)
Theorem C30_regulatory_element {V Vel} (str : V -> string) bool_of (vel_of : V -> option Vel) parse kmh p before r after (a : list (string * V)) s :
  Forall (fun x => r_speed x = false) before -> r_speed r = true ->
  (exists t, r_signs r = Some s :: t) \/ (r_signs r = [] /\ r_sign_type r = Some s) ->
  speed_limit str bool_of vel_of parse kmh Vehicle p (before ++ r :: after) a =
  match sign_velocity parse kmh s with Some v => Some (Info v true) | None => None end.
Proof.
  intros F R S. unfold speed_limit.
  assert (E : limit_from_regs parse kmh Vehicle (before ++ r :: after) =
    match sign_velocity parse kmh s with Some v => Some (Some (Info v true)) | None => None end).
  { induction before as [|x before IH]; cbn [app limit_from_regs].
    - rewrite R. unfold sign_type. destruct S as [(t & ->)|[-> ->]]; auto.
    - inversion F; subst. rewrite H1. auto. }
  rewrite E. destruct (sign_velocity parse kmh s); auto.
Qed.
Print Assumptions C30_regulatory_element.
(** Sign 274-n means n km/h. *)
Theorem C30_signs {Vel} (parse : string -> option Vel) kmh n :
  In n [5; 10; 15; 20; 30; 40; 50; 60; 70; 80; 90; 100; 110; 120; 130] ->
  sign_velocity parse kmh ("de274-" ++ AttrModel.print_Z (Z.of_nat n)) = Some (kmh n).
Proof. intros I. cbn [In] in I. repeat (destruct I as [<-|I]; [vm_compute; reflexivity|]). destruct I. Qed.
Print Assumptions C30_signs.

Theorem C30_tags_partial {V Vel} (str : V -> string) bool_of (vel_of : V -> option Vel) parse kmh k p rs (a : list (string * V)) :
  In p known_participants -> good_speed bool_of vel_of p a ->
  k <> Vehicle \/ Forall (fun r => r_speed r = false) rs ->
  exists i, speed_limit str bool_of vel_of parse kmh k p rs a = Some i /\
  ((exists t v, entry a t v /\ prefix "speed_limit" t = true) ->
     limit_tag kmh vel_of p a (i_limit i) /\ mandatory_tag bool_of p a (i_mandatory i)) /\
  ((forall t v, entry a t v -> prefix "speed_limit" t = false) ->
     forall loc sub n m, tag_or str a "location" "urban" loc -> tag_or str a "subtype" "road" sub ->
       inferred_limit p loc sub n m -> i = Info (kmh n) m).
Proof.
  intros K (U & G1 & G2 & KEYS & NM & LP & MP) RS. unfold speed_limit.
  assert (LR : limit_from_regs parse kmh k rs = Some None).
  { destruct RS as [N|F]; [destruct rs as [|x r], k; try congruence; auto|].
    destruct k; [|destruct rs; auto|destruct rs; auto]. induction rs as [|x r IH]; auto. inversion F; subst.
    cbn [limit_from_regs]. rewrite H1. auto. }
  rewrite LR. clear LR RS.
  assert (HO : has_override a "speed_limit" || has_override a "speed_limit_mandatory" = has_override a "speed_limit").
  { destruct (has_override a "speed_limit") eqn:H1; auto. cbn. destruct (has_override a "speed_limit_mandatory") eqn:H2; auto.
    apply has_override_iff in H2 as (t & v & E & P). rewrite <- H1. symmetry. apply has_override_iff. exists t, v. split; auto.
    destruct (prefix_exists _ _ P) as (b & ->). reflexivity. }
  rewrite HO. destruct (has_override a "speed_limit") eqn:H.
  - eexists. split; [reflexivity|]. cbn [i_limit i_mandatory]. apply has_override_iff in H as (t0 & v0 & E0 & P0).
    split; [intros _|intros H; rewrite (H _ _ E0) in P0; discriminate]. split.
    + set (d := or_else _ _).
      assert (X := get_override_gen vel_of a "speed_limit" "speed_limit:" p d U K G1 (or_introl eq_refl)
         (get_override vel_of a "speed_limit:" ("speed_limit" ++ ":" ++ p) d)).
      change (("speed_limit" ++ ":" ++ p)%string) with (("speed_limit:" ++ p)%string) in X.
      destruct X as [X _]. specialize (X eq_refl). destruct X as [(v & OV & [C|[C _]])|[NO ->]].
      * left. eauto.
      * exfalso. apply (LP v); auto.
      * right. split; auto. subst d. destruct (afind a "speed_limit") as [v|] eqn:F.
        -- apply entry_afind in F; auto. left. exists v. split; auto. destruct (vel_of v) eqn:C; auto.
           exfalso. apply (LP v); auto.
        -- right. split; auto. apply afind_none. auto.
    + assert (KM : forall t w, entry a t w -> prefix "speed_limit_mandatory" t = true ->
         t = "speed_limit_mandatory" \/ prefix "speed_limit_mandatory:" t = true).
      { intros t w E P. destruct (KEYS t w E) as [->|[Q|[->|Q]]]; auto.
        - destruct (prefix_exists _ _ P) as (b & ->). reflexivity.
        - destruct (prefix_exists _ _ P) as (b & ->). discriminate Q. }
      destruct (afind a "speed_limit_mandatory") as [v|] eqn:F.
      * apply entry_afind in F; auto. left. exists v. split; auto.
        assert (Y := get_override_base bool_of a "speed_limit_mandatory" p true v U K G2).
        change (("speed_limit_mandatory" ++ ":" ++ p)%string) with (("speed_limit_mandatory:" ++ p)%string) in Y.
        rewrite Y; auto.
        -- destruct (bool_of v) eqn:C; auto. exfalso. apply (MP v); auto.
        -- intros t w E P. destruct (KM t w E P); auto.
        -- intros w. apply (NM v w F).
      * apply afind_none in F.
        assert (O : only_overrides "speed_limit_mandatory" a).
        { intros t w E P. destruct (KM t w E P) as [->|]; auto. destruct (F _ E). }
        assert (X := get_override_spec bool_of a "speed_limit_mandatory" p true U K G2 O
          (get_override bool_of a "speed_limit_mandatory" ("speed_limit_mandatory" ++ ":" ++ p) true)).
        change (("speed_limit_mandatory" ++ ":" ++ p)%string) with (("speed_limit_mandatory:" ++ p)%string) in X.
        destruct X as [X _]. specialize (X eq_refl). destruct X as [(v & OV & [C|[C _]])|[NO ->]].
        -- left. eauto.
        -- exfalso. apply (MP v); auto.
        -- right. auto.
  - eexists. split; [reflexivity|]. split.
    + intros (t & v & E & P). assert (has_override a "speed_limit" = true); [|congruence]. apply has_override_iff. eauto.
    + intros _ loc sub n m TL TS IL.
      assert (AL : forall key d s, tag_or str a key d s -> attr_string str a key d = s).
      { intros key d s [(v & E & <-)|[A ->]]; unfold attr_string.
        - apply entry_afind in E; auto. rewrite E. auto.
        - apply afind_none in A. rewrite A. auto. }
      apply AL in TL, TS. unfold limit_from_type. rewrite TL, TS. clear TL TS AL.
      destruct IL as [(-> & -> & ->)|[(-> & -> & ->)|(CV & IL)]]; [reflexivity|reflexivity|].
      apply known_vehicle in CV; auto. unfold startswith. rewrite CV.
      destruct (String.eqb_spec p "pedestrian") as [->|_]; [discriminate CV|].
      destruct (String.eqb_spec p "bicycle") as [->|_]; [discriminate CV|].
      destruct IL as [(-> & -> & -> & ->)|[(-> & -> & -> & ->)|[([-> | ->] & -> & -> & ->)|[([-> | ->] & -> & -> & ->)|(-> & -> & -> & ->)]]]];
        reflexivity.
Qed.
Print Assumptions C30_tags_partial.
Example C30_nonvacuous :
  let sl k p a := speed_limit (fun s => s) sbool svel svel qkmh k p [] a in
  sl Vehicle "vehicle:car" [("speed_limit", "30 km/h"); ("speed_limit:vehicle:truck", "20 mph")] = Some (Info (30 # 1) true) /\
  sl Vehicle "vehicle:truck" [("speed_limit", "30 km/h"); ("speed_limit:vehicle", "10 mps")] = Some (Info (36 # 1) true) /\
  sl Bicycle "bicycle" [("speed_limit", "30"); ("speed_limit_mandatory", "no")] = Some (Info (30 # 1) false) /\
  sl Vehicle "vehicle:car" [("location", "nonurban"); ("subtype", "highway")] = Some (Info (130 # 1) false) /\
  speed_limit (fun s => s) sbool svel svel qkmh Vehicle "vehicle" [Reg false [] None; Reg true [Some "de274-60"] None] [] = Some (Info (60 # 1) true).
Proof. vm_compute. repeat split. Qed.

(** Bus lanes in town: the documented limit is the city limit, the result is 0 km/h. *)
Theorem C30_bus_lane_refuted :
  speed_limit (fun s => s) sbool svel svel qkmh Vehicle "vehicle:bus" [] [("location", "urban"); ("subtype", "bus_lane")] =
  Some (Info (0 # 1) true).
Proof. vm_compute. reflexivity. Qed.
Print Assumptions C30_bus_lane_refuted.
(** A tag speed_limit_mandatory for the participant is overridden by the general one,
    contrary to speed_limit. *)
Theorem C30_fine_mandatory_refuted :
  speed_limit (fun s => s) sbool svel svel qkmh Vehicle "vehicle:car" []
    [("speed_limit", "30"); ("speed_limit:vehicle", "50"); ("speed_limit_mandatory", "yes"); ("speed_limit_mandatory:vehicle", "no")] =
  Some (Info (50 # 1) true).
Proof. vm_compute. reflexivity. Qed.
Print Assumptions C30_fine_mandatory_refuted.
(** The mandatory tag alone, and any key that begins with speed_limit, gives 0 km/h. *)
Theorem C30_zero_refuted :
  speed_limit (fun s => s) sbool svel svel qkmh Vehicle "vehicle" [] [("speed_limit_source", "survey"); ("subtype", "road")] =
  Some (Info (0 # 1) true).
Proof. vm_compute. reflexivity. Qed.
Print Assumptions C30_zero_refuted.
