(** Properties of the checks of a map. *)
From Coq Require Import List Arith Bool String Ascii ZArith Reals Lia Lra.
From Verif Require Import AttrModel ValidationModel ValidationSpec ValidationProofs ValidationProofs2.
Import ListNotations.
Open Scope string_scope.
Open Scope list_scope.

(** * C81: unknown tags *)

(** A warning is given for exactly the tags whose key begins with none of the words of
    its kind of primitive, with kind, id and key of the primitive. *)
Theorem C81_unknown_tags m i : In i (unknown_tags m) <->
  exists p e k v, In e (of_kind p m) /\ In (k, v) (t_attrs e)
    /\ (forall w, In w (key_words p) -> ~ begins k w)
    /\ i = Issue Warning p (t_id e) ("attribute " ++ k ++ " is not a known lanelet2 tag.")%string.
Proof. apply unknown_tags_in. Qed.
Print Assumptions C81_unknown_tags.

(** No warning is given for a map with documented keys only, without the name and
    surface of roads and the participants of areas. *)
Theorem C81_documented_partial m :
  (forall p e k v, In e (of_kind p m) -> In (k, v) (t_attrs e) ->
     documented p k /\ k <> "road_name" /\ k <> "road_surface" /\ (p = PArea -> ~ begins k "participant")) ->
  unknown_tags m = [].
Proof.
  intros A. destruct (unknown_tags m) as [|i r] eqn:E; [reflexivity|]. exfalso.
  assert (Hi : In i (unknown_tags m)) by (rewrite E; now left).
  apply C81_unknown_tags in Hi. destruct Hi as (p & e & k & v & He & Hk & N & _).
  destruct (A p e k v He Hk) as (D & N1 & N2 & N3).
  assert (W : exists w, In w (key_words p) /\ begins k w); [|destruct W as (w & Hw & Hb); exact (N w Hw Hb)].
  clear - He D N1 N2 N3.
  assert (B : forall w r, begins (w ++ r)%string w) by (intros w r; now exists r).
  destruct D as [p|p|k H|p k [->| ->] H|p who [->| ->]|p who [->| ->]|p who [->| ->]| |who|k H].
  - exists "type". split; [destruct p; cbn; tauto|exact (B "type" "")].
  - exists "subtype". split; [destruct p; cbn; tauto|exact (B "subtype" "")].
  - cbn in H. repeat destruct H as [<-|H]; try contradiction.
    + exists "lane_change". split; [cbn; tauto|exact (B "lane_change" "")].
    + exists "lane_change". split; [cbn; tauto|exact (B "lane_change" ":left")].
    + exists "lane_change". split; [cbn; tauto|exact (B "lane_change" ":right")].
    + exists "width". split; [cbn; tauto|exact (B "width" "")].
    + exists "height". split; [cbn; tauto|exact (B "height" "")].
    + exists "temporary". split; [cbn; tauto|exact (B "temporary" "")].
    + exists "color". split; [cbn; tauto|exact (B "color" "")].
  - cbn in H. repeat destruct H as [<-|H]; try contradiction.
    + exists "location". split; [cbn; tauto|exact (B "location" "")].
    + exists "region". split; [cbn; tauto|exact (B "region" "")].
    + exists "speed_limit". split; [cbn; tauto|exact (B "speed_limit" "")].
    + exists "speed_limit". split; [cbn; tauto|exact (B "speed_limit" "_mandatory")].
  - cbn in H. repeat destruct H as [<-|H]; try contradiction.
    + exists "location". split; [cbn; tauto|exact (B "location" "")].
    + exists "region". split; [cbn; tauto|exact (B "region" "")].
    + exists "speed_limit". split; [cbn; tauto|exact (B "speed_limit" "")].
    + exists "speed_limit". split; [cbn; tauto|exact (B "speed_limit" "_mandatory")].
  - exists "participant". split; [cbn; tauto|exact (B "participant" (":" ++ who)%string)].
  - exfalso. apply (N3 eq_refl). exact (B "participant" (":" ++ who)%string).
  - exists "speed_limit". split; [cbn; tauto|exact (B "speed_limit" (":" ++ who)%string)].
  - exists "speed_limit". split; [cbn; tauto|exact (B "speed_limit" (":" ++ who)%string)].
  - exists "speed_limit". split; [cbn; tauto|exact (B "speed_limit" ("_mandatory:" ++ who)%string)].
  - exists "speed_limit". split; [cbn; tauto|exact (B "speed_limit" ("_mandatory:" ++ who)%string)].
  - exists "one_way". split; [cbn; tauto|exact (B "one_way" "")].
  - exists "one_way". split; [cbn; tauto|exact (B "one_way" (":" ++ who)%string)].
  - exists k. split; [cbn in *; tauto|]. exists "". now rewrite string_app_nil.
Qed.
Print Assumptions C81_documented_partial.

(** False for all documented keys: a lanelet with the name of its road and an area
    with a participant, as in the documentation, get a warning. *)
Theorem C81_documented_refuted :
  exists m, documented PLanelet "road_name" /\ documented PArea "participant:pedestrian"
    /\ unknown_tags m
       = [Issue Warning PLanelet 7 "attribute road_name is not a known lanelet2 tag.";
          Issue Warning PArea 8 "attribute participant:pedestrian is not a known lanelet2 tag."].
Proof.
  exists (TagMap [] [] [Tagged 7 [("road_name", "Main Street"); ("subtype", "road"); ("type", "lanelet")]]
            [Tagged 8 [("participant:pedestrian", "yes"); ("type", "multipolygon")]] []).
  split; [apply doc_region; cbn; tauto|]. split; [apply (doc_participant PArea "pedestrian"); tauto|].
  vm_compute. reflexivity.
Qed.
Print Assumptions C81_documented_refuted.

Example C81_nonvacuous :
  unknown_tags (TagMap [] [Tagged 3 [("subtype", "solid"); ("type", "line_thin"); ("typo", "x"); ("widht", "2")]] [] [] [])
  = [Issue Warning PLineString 3 "attribute typo is not a known lanelet2 tag.";
     Issue Warning PLineString 3 "attribute widht is not a known lanelet2 tag."]
  /\ map build_text (unknown_tags (TagMap [Tagged 0 [("elevation", "3"); ("x", "")]] [] [] [] []))
     = ["Warning: attribute x is not a known lanelet2 tag."].
Proof. vm_compute. split; reflexivity. Qed.

(** * C82: tag values *)

(** Points, lanelets, areas and regulatory elements: a warning is given for exactly the
    tags whose values are not among the allowed ones. *)
Theorem C82_values_partial m i : i_primitive i <> PLineString ->
  (In i (unknown_tag_values m) <->
   exists p e k v, In e (of_kind p m) /\ bad_value p e k v
     /\ i = Issue Warning p (t_id e) ("value " ++ v ++ " is not a known value for " ++ k)%string).
Proof. apply unknown_values_in. Qed.
Print Assumptions C82_values_partial.

(** Line strings: a warning is given for exactly the types that are not among the
    allowed ones (provided no key ends in "subtype" but is longer). *)
Theorem C82_line_types_partial m i : i_primitive i = PLineString ->
  (forall e t v, In e (m_lines m) -> In ((t ++ "subtype")%string, v) (t_attrs e) -> t = "") ->
  (In i (unknown_tag_values m) <->
   exists e v, In e (m_lines m) /\ bad_value PLineString e "type" v
     /\ i = Issue Warning PLineString (t_id e) ("value " ++ v ++ " is not a known value for type")%string).
Proof. intros Hi H. apply unknown_line_values; [exact Hi|]. intros e He t v. now apply H. Qed.
Print Assumptions C82_line_types_partial.

(** False for the subtypes of line strings: none is ever reported. The table has a row
    for a line of type curbstone, but the key is made of the name of the tag "type"
    instead of its value. *)
Theorem C82_line_subtypes_refuted :
  exists e, bad_value PLineString e "subtype" "purple"
    /\ unknown_tag_values (TagMap [] [e] [] [] []) = [].
Proof.
  exists (Tagged 4 [("subtype", "purple"); ("type", "curbstone")]). split.
  - split; [cbn; tauto|]. exists ["high"; "low"]. split; [reflexivity|]. cbn. intuition discriminate.
  - vm_compute. reflexivity.
Qed.
Print Assumptions C82_line_subtypes_refuted.

(** ... and a line string with a key such as "bumpsubtype" is reported. *)
Theorem C82_combined_key_refuted :
  unknown_tag_values (TagMap [] [Tagged 4 [("bumpsubtype", "speed"); ("type", "bump")]] [] [] [])
  = [Issue Warning PLineString 4 "value speed is not a known value for bumpsubtype"].
Proof. vm_compute. reflexivity. Qed.
Print Assumptions C82_combined_key_refuted.

(** The subtype exit, documented for lanelets and areas (LaneletAndAreaTagging.md:51),
    is reported for lanelets. *)
Theorem C82_exit_refuted :
  unknown_tag_values (TagMap [] [] [Tagged 4 [("subtype", "exit"); ("type", "lanelet")]]
                                   [Tagged 5 [("subtype", "exit"); ("type", "multipolygon")]] [])
  = [Issue Warning PLanelet 4 "value exit is not a known value for subtype"].
Proof. vm_compute. reflexivity. Qed.
Print Assumptions C82_exit_refuted.

Example C82_nonvacuous :
  unknown_tag_values (TagMap [Tagged 1 [("type", "pole")]; Tagged 2 [("type", "tree")]]
                             [Tagged 3 [("type", "line_thinn")]; Tagged 4 [("type", "zig-zag")]]
                             [Tagged 5 [("location", "urbane"); ("subtype", "walkway"); ("type", "lanelet")]] []
                             [Tagged 6 [("subtype", "whatever"); ("type", "regulatory")]])
  = [Issue Warning PPoint 2 "value tree is not a known value for type";
     Issue Warning PLineString 3 "value line_thinn is not a known value for type";
     Issue Warning PLanelet 5 "value urbane is not a known value for location";
     Issue Warning PRegulatoryElement 6 "value regulatory is not a known value for type"].
Proof. vm_compute. reflexivity. Qed.

(** * C83: mandatory tags and truth values *)

Theorem C83_mandatory_tags m i : In i (mandatory_tags m) <->
  exists p e k, In e (of_kind p m) /\ In k (required p) /\ (forall v, ~ In (k, v) (t_attrs e))
    /\ i = Issue Warning p (t_id e) ("should have a " ++ k ++ " attribute.")%string.
Proof. apply mandatory_tags_in. Qed.
Print Assumptions C83_mandatory_tags.

Theorem C83_bool_tags m i : In i (bool_tags m) <->
  exists p e k v, p <> PPoint /\ In e (of_kind p m) /\ In (k, v) (t_attrs e)
    /\ (exists w, In w yes_no_words /\ begins k w) /\ ~ truth_value v
    /\ i = Issue Warning p (t_id e)
             ("attribute " ++ k ++ ": " ++ v ++ " should be convertible to bool, but isn't.")%string.
Proof. apply bool_tags_in. Qed.
Print Assumptions C83_bool_tags.

Example C83_nonvacuous :
  let m := TagMap [] [Tagged 3 [("lane_change:left", "maybe"); ("temporary", "001")]]
             [Tagged 5 [("location", "urban"); ("one_way", "-1"); ("participant:vehicle", "yes")]] [] [] in
  mandatory_tags m
  = [Issue Warning PLineString 3 "should have a type attribute.";
     Issue Warning PLanelet 5 "should have a type attribute.";
     Issue Warning PLanelet 5 "should have a subtype attribute."]
  /\ bool_tags m
     = [Issue Warning PLineString 3 "attribute lane_change:left: maybe should be convertible to bool, but isn't.";
        Issue Warning PLanelet 5 "attribute one_way: -1 should be convertible to bool, but isn't."]
  /\ truth_value "001" /\ ~ truth_value "-1".
Proof.
  split; [vm_compute; reflexivity|]. split; [vm_compute; reflexivity|]. split.
  - right. exists 2. cbn. tauto.
  - intros H. apply conv_bool_spec in H. destruct H as [b H]. vm_compute in H. discriminate.
Qed.

(** * C84: doubled points *)

(** A line string or polygon is reported exactly if it has the same point twice in
    succession, and once, with the first such point. *)
Theorem C84_duplicated_points lines polygons i : In i (duplicated_points lines polygons) <->
  exists kind word id l, (kind = PLineString /\ word = "Linestring" /\ In (id, l) lines
                          \/ kind = PPolygon /\ word = "Polygon" /\ In (id, l) polygons)
    /\ exists a p q b, l = a ++ p :: q :: b /\ p_data p = p_data q
         /\ (forall x y, in_succession x y (a ++ [p]) -> p_data x <> p_data y)
         /\ i = Issue Error kind id
                  (word ++ " contains the point " ++ print_Z (p_id p)
                   ++ " multiple times in succession. This is not allowed!")%string.
Proof.
  unfold duplicated_points. rewrite in_app_iff, !in_flat_map. split.
  - intros [((id & l) & Hl & H)|((id & l) & Hl & H)]; cbn [fst snd] in H;
      destruct (has_duplicates l) eqn:E; try contradiction; destruct H as [<-|[]];
      apply has_duplicates_some in E; destruct E as (a & p & q & b & El & D & -> & F).
    + exists PLineString, "Linestring", id, l. split; [tauto|]. exists a, p, q, b. repeat split; auto.
    + exists PPolygon, "Polygon", id, l. split; [tauto|]. exists a, p, q, b. repeat split; auto.
  - intros (kind & word & id & l & [(-> & -> & H)|(-> & -> & H)] & a & p & q & b & El & D & F & ->);
      assert (S : has_duplicates l = Some (p_id p)) by (apply has_duplicates_some; exists a, p, q, b; auto).
    + left. exists (id, l). split; [exact H|]. cbn [fst snd]. rewrite S. now left.
    + right. exists (id, l). split; [exact H|]. cbn [fst snd]. rewrite S. now left.
Qed.
Print Assumptions C84_duplicated_points.

(** Nothing is reported exactly if no point follows itself. *)
Theorem C84_none lines polygons : duplicated_points lines polygons = [] <->
  forall id l p q, In (id, l) (lines ++ polygons) -> in_succession p q l -> p_data p <> p_data q.
Proof.
  split.
  - intros H id l p q Hl S.
    assert (N : has_duplicates l = None).
    { destruct (has_duplicates l) eqn:E; [|reflexivity]. exfalso.
      apply in_app_iff in Hl. unfold duplicated_points in H. apply app_eq_nil in H. destruct H as [H1 H2].
      destruct Hl as [Hl|Hl].
      - rewrite flat_map_concat_map in H1. apply (in_map (fun l => match has_duplicates (snd l) with
                     | Some d => [Issue Error PLineString (fst l)
                                    ("Linestring contains the point " ++ print_Z d
                                     ++ " multiple times in succession. This is not allowed!")%string]
                     | None => []
                     end)) in Hl. apply in_split in Hl. destruct Hl as (l1 & l2 & X). rewrite X in H1.
        cbn [fst snd] in H1. rewrite E, concat_app in H1. apply app_eq_nil in H1. destruct H1. discriminate.
      - rewrite flat_map_concat_map in H2. apply (in_map (fun l => match has_duplicates (snd l) with
                     | Some d => [Issue Error PPolygon (fst l)
                                    ("Polygon contains the point " ++ print_Z d
                                     ++ " multiple times in succession. This is not allowed!")%string]
                     | None => []
                     end)) in Hl. apply in_split in Hl. destruct Hl as (l1 & l2 & X). rewrite X in H2.
        cbn [fst snd] in H2. rewrite E, concat_app in H2. apply app_eq_nil in H2. destruct H2. discriminate. }
    now apply (proj1 (has_duplicates_none l) N).
  - intros H. assert (N : forall x, In x (lines ++ polygons) -> has_duplicates (snd x) = None).
    { intros [id l] Hx. apply has_duplicates_none. intros p q. eapply H, Hx. }
    destruct (duplicated_points lines polygons) as [|i r] eqn:E; [reflexivity|]. exfalso.
    assert (Hi : In i (duplicated_points lines polygons)) by (rewrite E; now left).
    unfold duplicated_points in Hi. rewrite in_app_iff, !in_flat_map in Hi.
    destruct Hi as [(x & Hx & Hi)|(x & Hx & Hi)];
      (rewrite N in Hi by (apply in_app_iff; tauto); destruct Hi).
Qed.
Print Assumptions C84_none.

(** False for the boundary of a polygon, which runs from the last to the first point: a
    polygon that ends with the point it begins with is not reported. *)
Theorem C84_polygon_refuted :
  exists p q r, p_data p <> p_data q /\ p_data q <> p_data r /\ p_data p <> p_data r
    /\ duplicated_points [] [(9%Z, [p; q; r; p])] = [].
Proof.
  exists (VPoint 1 11 0 0 0), (VPoint 2 12 1 0 0), (VPoint 3 13 1 1 0). cbn [p_data].
  repeat split; discriminate.
Qed.
Print Assumptions C84_polygon_refuted.

Example C84_nonvacuous :
  let p := VPoint 1 11 0 0 0 in let q := VPoint 2 12 1 0 0 in
  duplicated_points [(5%Z, [p; q; p]); (6%Z, [p; q; q; p; p])] [(7%Z, [p; p; q])]
  = [Issue Error PLineString 6 "Linestring contains the point 12 multiple times in succession. This is not allowed!";
     Issue Error PPolygon 7 "Polygon contains the point 11 multiple times in succession. This is not allowed!"].
Proof. cbn. reflexivity. Qed.

(** * C85: points too close *)

Open Scope R_scope.

(** A reported pair consists of two points less than 5 cm apart. Conversely a point
    less than 5 cm from another one is reported, if all points within 5 cm in the plane
    have its height. *)
Theorem C85_points_too_close_partial nearest points :
  (forall p q, In p points -> In q points -> p_data p = p_data q -> p = q) ->
  (forall p, In p points -> two_nearest points p (nearest p)) ->
  (forall i, In i (points_too_close nearest points) ->
     exists p q, In p points /\ In q points /\ p <> q /\ space_distance p q < 5 / 100
       /\ i = Issue Warning PPoint (p_id p)
                ("Point is very close to point " ++ print_Z (p_id q)
                 ++ ". This can lead to defects in the map")%string)
  /\ (forall p q, In p points -> In q points -> p <> q -> space_distance p q < 5 / 100 ->
      (forall r, In r points -> flat_distance p r < 5 / 100 -> p_z r = p_z p) ->
      exists r, In r points /\ space_distance p r < 5 / 100
        /\ In (Issue Warning PPoint (p_id p)
                 ("Point is very close to point " ++ print_Z (p_id r)
                  ++ ". This can lead to defects in the map")%string)
              (points_too_close nearest points)).
Proof.
  intros D N. split.
  - apply too_close_in; assumption.
  - apply too_close_found; assumption.
Qed.
Print Assumptions C85_points_too_close_partial.

(** False without the condition on the heights: the query for the nearest points looks
    at the plane, the distance is one in space. Points 11 and 13 are 1 cm apart and
    neither is reported because a point on a bridge is above the first, and another one
    above the second. *)
Theorem C85_heights_refuted :
  exists p q r s nearest,
    let points := [p; q; r; s] in
    (forall a b, In a points -> In b points -> p_data a = p_data b -> a = b)
    /\ (forall a, In a points -> two_nearest points a (nearest a))
    /\ space_distance p r = 1 / 100
    /\ points_too_close nearest points = [].
Proof.
  set (p := VPoint 1 11 0 0 0). set (q := VPoint 2 12 0 0 10).
  set (r := VPoint 3 13 (1 / 100) 0 0). set (s := VPoint 4 14 (1 / 100) 0 10).
  exists p, q, r, s, (fun a => if (p_data a <=? 2)%nat then [p; q] else [r; s]). cbv zeta.
  assert (Z0 : sqrt 0 = 0) by apply sqrt_0.
  assert (FD : forall x y z w, p_y x = p_y y -> (p_x x - p_x y) ^ 2 = z * z -> 0 <= z -> w = z -> flat_distance x y = w).
  { intros x y z w Hy Hx Hz ->. unfold flat_distance. rewrite Hy, Hx.
    replace (z * z + (p_y y - p_y y) ^ 2) with (z * z) by ring. now apply sqrt_square. }
  split; [|split; [|split]].
  - intros a b [<-|[<-|[<-|[<-|[]]]]] [<-|[<-|[<-|[<-|[]]]]]; cbn; intros E; try discriminate; reflexivity.
  - assert (F0 : forall x y, p_x x = p_x y -> p_y x = p_y y -> flat_distance x y = 0).
    { intros x y Hx Hy. apply FD with (z := 0); auto; [rewrite Hx; ring|lra]. }
    intros a [<-|[<-|[<-|[<-|[]]]]]; (split; [|split; [|split]]); cbn [p_data p q r s Nat.leb];
      try (repeat constructor; cbn; unfold p, q, r, s; intuition congruence);
      try (intros z [<-|[<-|[]]]; cbn; tauto); try reflexivity;
      intros x y [<-|[<-|[]]] _ _; rewrite F0 by reflexivity; apply sqrt_pos.
  - unfold space_distance. cbn [p r p_x p_y p_z].
    replace ((0 - 1 / 100) ^ 2 + (0 - 0) ^ 2 + (0 - 0) ^ 2) with (1 / 100 * (1 / 100)) by field.
    apply sqrt_square. lra.
  - assert (T : forall x y, p_x x = p_x y -> p_y x = p_y y -> (p_z x - p_z y) * (p_z x - p_z y) = 10 * 10 -> distance3 x y = 10).
    { intros x y Hx Hy Hz. unfold distance3. rewrite Hx, Hy, Hz.
      replace ((p_x y - p_x y) * (p_x y - p_x y) + (p_y y - p_y y) * (p_y y - p_y y) + 10 * 10) with (10 * 10) by ring.
      apply sqrt_square. lra. }
    unfold points_too_close. cbn [flat_map].
    cbn [p_data p q r s Nat.leb same_point Nat.eqb]. fold p q r s.
    unfold same_point. cbn [p_data p q r s Nat.eqb]. fold p q r s.
    repeat (rewrite T by (cbn; try reflexivity; ring); destruct (Rlt_dec 10 (5 / 100)) as [X|_]; [exfalso; lra|]).
    reflexivity.
Qed.
Print Assumptions C85_heights_refuted.

Example C85_nonvacuous :
  let p := VPoint 1 11 0 0 0 in let q := VPoint 2 12 (3 / 100) 0 0 in
  points_too_close (fun _ => [p; q]) [p; q]
  = [Issue Warning PPoint 11 "Point is very close to point 12. This can lead to defects in the map";
     Issue Warning PPoint 12 "Point is very close to point 11. This can lead to defects in the map"].
Proof.
  cbv zeta. unfold points_too_close. cbn [flat_map same_point p_data Nat.eqb].
  assert (D1 : distance3 (VPoint 1 11 0 0 0) (VPoint 2 12 (3 / 100) 0 0) = 3 / 100).
  { unfold distance3. cbn [p_x p_y p_z].
    replace ((0 - 3 / 100) * (0 - 3 / 100) + (0 - 0) * (0 - 0) + (0 - 0) * (0 - 0)) with (3 / 100 * (3 / 100)) by field.
    apply sqrt_square. lra. }
  assert (D2 : distance3 (VPoint 2 12 (3 / 100) 0 0) (VPoint 1 11 0 0 0) = 3 / 100).
  { unfold distance3. cbn [p_x p_y p_z].
    replace ((3 / 100 - 0) * (3 / 100 - 0) + (0 - 0) * (0 - 0) + (0 - 0) * (0 - 0)) with (3 / 100 * (3 / 100)) by field.
    apply sqrt_square. lra. }
  rewrite D1, D2. destruct (Rlt_dec (3 / 100) (5 / 100)); [reflexivity|exfalso; lra].
Qed.

(** * C86: curvature *)

(** For three successive points of a bound of a lanelet whose distances have a product
    of 1e-20 or more a warning is given exactly if they lie on a circle with a radius
    below two metres. *)
Theorem C86_circle_partial p q s :
  1 / 10 ^ 20 <= flat_distance p q * flat_distance p s * flat_distance q s ->
  (forall id i, In i (check_curvature id [p; q; s]) <->
     circle_below 2 p q s
     /\ i = Issue Warning PLanelet id
              ("Curvature at point " ++ print_Z (p_id q)
               ++ " is bigger than 0.5. This can confuse algorithms using this map.")%string).
Proof.
  intros H id i.
  assert (F : forall a b, flat_distance a b = distance2 a b).
  { intros a b. unfold flat_distance, distance2. f_equal. ring. }
  rewrite !F in H. rewrite <- (too_curved_spec p q s H), check_curvature_in. split.
  - intros (a & p' & q' & s' & b & E & T & ->).
    destruct a as [|x [|y [|z a]]]; cbn in E; inversion E; subst; auto; destruct a; discriminate.
  - intros [T ->]. exists [], p, q, s, []. auto.
Qed.
Print Assumptions C86_circle_partial.

(** The warnings of a map: one for each three successive points of a bound that would
    be reported on their own. *)
Theorem C86_triples lanelets i : In i (curvature_too_big lanelets) <->
  exists id left right, In (id, left, right) lanelets
    /\ exists l a p q s b, (l = left \/ l = right) /\ l = (a ++ p :: q :: s :: b)%list
         /\ In i (check_curvature id [p; q; s]).
Proof.
  assert (T : forall id l j, In j (check_curvature id l) <->
            exists a p q s b, l = (a ++ p :: q :: s :: b)%list /\ In j (check_curvature id [p; q; s])).
  { intros id l j. rewrite check_curvature_in. split.
    - intros (a & p & q & s & b & E & C & ->). exists a, p, q, s, b. split; [exact E|].
      apply check_curvature_in. exists [], p, q, s, []. auto.
    - intros (a & p & q & s & b & E & H). apply check_curvature_in in H.
      destruct H as (a' & p' & q' & s' & b' & E' & C & ->).
      destruct a' as [|x [|y [|z a']]]; cbn in E'; inversion E'; subst; try (destruct a'; discriminate).
      exists a, p', q', s', b. auto. }
  unfold curvature_too_big. rewrite in_flat_map. split.
  - intros (((id & left) & right) & Hl & H). cbn [fst snd] in H. exists id, left, right. split; [exact Hl|].
    apply in_app_iff in H. destruct H as [H|H]; apply T in H; destruct H as (a & p & q & s & b & E & H).
    + exists left, a, p, q, s, b. auto.
    + exists right, a, p, q, s, b. auto.
  - intros (id & left & right & Hl & l & a & p & q & s & b & Hlr & E & H).
    exists (id, left, right). split; [exact Hl|]. cbn [fst snd]. apply in_app_iff.
    destruct Hlr as [<-|<-]; [left|right]; apply T; exists a, p, q, s, b; auto.
Qed.
Print Assumptions C86_triples.

(** Doubled points are always reported. *)
Theorem C86_doubled id p q s :
  flat_distance p q = 0 \/ flat_distance p s = 0 \/ flat_distance q s = 0 ->
  exists i, check_curvature id [p; q; s] = [i].
Proof.
  assert (F : forall a b, flat_distance a b = distance2 a b).
  { intros a b. unfold flat_distance, distance2. f_equal. ring. }
  rewrite !F. intros H. cbn [check_curvature app]. unfold too_curved, signed_curvature.
  destruct (Rlt_dec _ _) as [_|N]; [eexists; reflexivity|]. exfalso. apply N.
  replace (distance2 p q * distance2 p s * distance2 q s) with 0 by (destruct H as [->|[-> | ->]]; ring).
  apply Rdiv_lt_0_compat; lra.
Qed.
Print Assumptions C86_doubled.

(** False for a bound that turns back on itself: the direction changes by 180 degrees,
    no warning is given. *)
Theorem C86_reversal_refuted id :
  check_curvature id [VPoint 1 11 0 0 0; VPoint 2 12 10 0 0; VPoint 3 13 5 0 0] = [].
Proof.
  destruct (check_curvature id _) as [|i r] eqn:E; [reflexivity|]. exfalso.
  assert (Hi : In i (check_curvature id [VPoint 1 11 0 0 0; VPoint 2 12 10 0 0; VPoint 3 13 5 0 0])) by (rewrite E; now left).
  assert (S : forall x y z w d, x - y = d \/ y - x = d -> 0 <= d -> flat_distance (VPoint z w x 0 0) (VPoint z w y 0 0) = d).
  { intros x y z w d Hd Hp. unfold flat_distance. cbn [p_x p_y].
    replace ((x - y) ^ 2 + (0 - 0) ^ 2) with (d * d) by (destruct Hd; subst d; ring). now apply sqrt_square. }
  apply C86_circle_partial in Hi.
  - destruct Hi as [(cx & cy & r' & Hr & C1 & C2 & C3) _]. unfold on_circle in *. cbn [p_x p_y] in *. nra.
  - assert (S1 : flat_distance (VPoint 1 11 0 0 0) (VPoint 2 12 10 0 0) = 10) by exact (S 0 10 1%nat 11%Z 10 ltac:(lra) ltac:(lra)).
    assert (S2 : flat_distance (VPoint 1 11 0 0 0) (VPoint 3 13 5 0 0) = 5) by exact (S 0 5 1%nat 11%Z 5 ltac:(lra) ltac:(lra)).
    assert (S3 : flat_distance (VPoint 2 12 10 0 0) (VPoint 3 13 5 0 0) = 5) by exact (S 10 5 1%nat 11%Z 5 ltac:(lra) ltac:(lra)).
    rewrite S1, S2, S3. lra.
Qed.
Print Assumptions C86_reversal_refuted.

(** A corner of 90 degrees with sides of one metre: the circle has a radius of
    about 0.7 m. With sides of four metres there is no warning. *)
Example C86_nonvacuous :
  (forall d, 0 < d -> circle_below 2 (VPoint 1 11 d 0 0) (VPoint 2 12 0 0 0) (VPoint 3 13 0 d 0)
                      <-> d * d < 8)
  /\ check_curvature 7 [VPoint 1 11 1 0 0; VPoint 2 12 0 0 0; VPoint 3 13 0 1 0]
     = [Issue Warning PLanelet 7
          "Curvature at point 12 is bigger than 0.5. This can confuse algorithms using this map."].
Proof.
  assert (K : forall d, 0 < d -> circle_below 2 (VPoint 1 11 d 0 0) (VPoint 2 12 0 0 0) (VPoint 3 13 0 d 0) <-> d * d < 8).
  { intros d Hd. split.
    - intros (cx & cy & r & Hr & C1 & C2 & C3). unfold on_circle in *. cbn [p_x p_y] in *.
      assert (X : d * (d - 2 * cx) = 0) by lra. assert (Y : d * (d - 2 * cy) = 0) by lra.
      apply Rmult_integral in X. apply Rmult_integral in Y.
      assert (cx = d / 2) by lra. assert (cy = d / 2) by lra. subst. nra.
    - intros H. exists (d / 2), (d / 2), (sqrt (d * d / 2)).
      assert (Q : sqrt (d * d / 2) ^ 2 = d * d / 2).
      { rewrite <- Rsqr_pow2. apply Rsqr_sqrt. nra. }
      unfold on_circle. cbn [p_x p_y]. rewrite Q. repeat split; try field.
      + apply sqrt_lt_R0. nra.
      + apply Rsqr_incrst_0; [|apply sqrt_pos|lra]. rewrite Rsqr_sqrt by nra. unfold Rsqr. lra. }
  split; [exact K|].
  assert (F : forall x y z w, flat_distance (VPoint 1 11 x y 0) (VPoint 2 12 z w 0)
                              = sqrt ((x - z) ^ 2 + (y - w) ^ 2)) by reflexivity.
  assert (In1 : In (Issue Warning PLanelet 7
          "Curvature at point 12 is bigger than 0.5. This can confuse algorithms using this map.")
          (check_curvature 7 [VPoint 1 11 1 0 0; VPoint 2 12 0 0 0; VPoint 3 13 0 1 0])).
  { apply C86_circle_partial.
    - unfold flat_distance. cbn [p_x p_y].
      replace ((1 - 0) ^ 2 + (0 - 0) ^ 2) with 1 by ring. replace ((1 - 0) ^ 2 + (0 - 1) ^ 2) with 2 by ring.
      replace ((0 - 0) ^ 2 + (0 - 1) ^ 2) with 1 by ring. rewrite sqrt_1.
      assert (1 <= sqrt 2) by (rewrite <- sqrt_1 at 1; apply sqrt_le_1; lra). lra.
    - split; [apply K; lra|reflexivity]. }
  cbn [check_curvature app] in *. destruct (too_curved _ _ _); [|destruct In1].
  reflexivity.
Qed.
Close Scope R_scope.

(** * C87: selection of the checks and report *)

(** The pieces of a filter are the non-empty parts between commas. The checks listed
    for it are exactly the registered ones that it selects, each once if the names are
    different. *)
Theorem C87_available_checks matches map_names rule_names graph_names flt :
  (forall n, In n (available_checks matches map_names rule_names graph_names flt) <->
     In n (map_names ++ rule_names ++ graph_names) /\ selected matches flt n)
  /\ (NoDup (map_names ++ rule_names ++ graph_names) ->
      NoDup (available_checks matches map_names rule_names graph_names flt)).
Proof.
  split.
  - intros n. unfold available_checks. rewrite !in_app_iff, !match_validators_in. tauto.
  - intros H. unfold available_checks.
    assert (D : forall {A} (x y : list A), NoDup (x ++ y) <-> NoDup x /\ NoDup y /\ forall a, In a x -> ~ In a y).
    { intros A x y. induction x as [|h t IH]; cbn [app].
      - split; [intros Hy; repeat split; auto; constructor|tauto].
      - rewrite !NoDup_cons_iff, IH, in_app_iff. cbn [In]. split.
        + intros (N & Ht & Hy & Hd). repeat split; try tauto. intros a [<-|Ha]; [tauto|now apply Hd].
        + intros ((N & Ht) & Hy & Hd). repeat split; try tauto.
          * intros [X|X]; [contradiction|]. apply (Hd h); auto.
          * intros a Ha. apply Hd. now right. }
    rewrite !D in *. destruct H as (H1 & (H2 & H3 & H4) & H5).
    repeat split; try (now apply match_validators_nodup).
    + intros a. rewrite !match_validators_in. intros [Ha _] [Hb _]. exact (H4 a Ha Hb).
    + intros a. rewrite in_app_iff, !match_validators_in. intros [Ha _] Hb. apply (H5 a Ha), in_app_iff. tauto.
Qed.
Print Assumptions C87_available_checks.

(** The issues of a map are those of the checks the filter selects: on the map, on the
    traffic rules, and on a routing graph for each rules; a check that finds nothing is
    not listed, a graph that cannot be built is an error of its own. *)
Theorem C87_validate_map {G Rule} matches map_names rule_names graph_names flt run_map run_rules
    (rules : list Rule) rule_text (build : Rule -> G + string) run_graph d :
  In d (validate_map matches map_names rule_names graph_names flt run_map run_rules rules rule_text build run_graph) <->
  d_issues d <> [] /\
  ((In (d_check d) map_names /\ selected matches flt (d_check d) /\ d_issues d = run_map (d_check d))
   \/ (In (d_check d) rule_names /\ selected matches flt (d_check d) /\ d_issues d = run_rules rules (d_check d))
   \/ (exists r g, In r rules /\ build r = inl g /\ In (d_check d) graph_names
         /\ selected matches flt (d_check d) /\ d_issues d = run_graph g r (d_check d))
   \/ (exists r what n, In r rules /\ build r = inr what /\ In n graph_names /\ selected matches flt n
         /\ d = Detected "general" [Issue Error PPoint 0
                  ("Failed to create routing graph for " ++ rule_text r ++ ": " ++ what)%string])).
Proof.
  unfold validate_map. rewrite !in_app_iff, !run_validators_in, !match_validators_in.
  assert (GR : In d (run_graph_validators (match_validators matches (parse_filter flt) graph_names) rules rule_text build run_graph) <->
    (d_issues d <> [] /\ exists r g, In r rules /\ build r = inl g /\ In (d_check d) graph_names
         /\ selected matches flt (d_check d) /\ d_issues d = run_graph g r (d_check d))
    \/ (exists r what n, In r rules /\ build r = inr what /\ In n graph_names /\ selected matches flt n
         /\ d = Detected "general" [Issue Error PPoint 0
                  ("Failed to create routing graph for " ++ rule_text r ++ ": " ++ what)%string])).
  { assert (M := match_validators_in matches flt graph_names).
    destruct (match_validators matches (parse_filter flt) graph_names) as [|n0 ns] eqn:E.
    - cbn [run_graph_validators]. split; [intros []|].
      intros [(_ & r & g & _ & _ & Hn & S & _)|(r & what & n & _ & _ & Hn & S & _)]; [apply (M (d_check d))|apply (M n)]; auto.
    - change (run_graph_validators (n0 :: ns) rules rule_text build run_graph)
        with (flat_map (fun r => match build r with
                            | inl g => run_validators (n0 :: ns) (run_graph g r)
                            | inr what => [Detected "general"
                                             [plain_issue Error ("Failed to create routing graph for "
                                                                 ++ rule_text r ++ ": " ++ what)%string]]
                            end) rules).
      rewrite in_flat_map. split.
      + intros (r & Hr & H). destruct (build r) as [g|what] eqn:B.
        * apply run_validators_in in H. destruct H as (Hn & Hi & N). apply M in Hn. left. rewrite Hi.
          split; [exact N|]. exists r, g. tauto.
        * destruct H as [<-|[]]. right. destruct (proj1 (M n0) (or_introl eq_refl)) as [Hn S].
          exists r, what, n0. repeat split; auto.
      + intros [(N & r & g & Hr & B & Hn & S & Hi)|(r & what & n & Hr & B & Hn & S & ->)]; exists r; split; auto; rewrite B.
        * apply run_validators_in. split; [apply M; tauto|]. split; [exact Hi|congruence].
        * now left. }
  rewrite GR. split.
  - intros [(Hn & Hi & N)|[(Hn & Hi & N)|[(N & H)|(r & what & n & Hr & B & Hn & S & ->)]]].
    + split; [congruence|]. left. tauto.
    + split; [congruence|]. right. left. tauto.
    + split; [exact N|]. right. right. left. exact H.
    + split; [discriminate|]. right. right. right. exists r, what, n. auto.
  - intros (N & [H|[H|[H|H]]]).
    + left. destruct H as (Hn & S & Hi). split; [tauto|]. split; [exact Hi|congruence].
    + right. left. destruct H as (Hn & S & Hi). split; [tauto|]. split; [exact Hi|congruence].
    + right. right. left. tauto.
    + right. right. right. exact H.
Qed.
Print Assumptions C87_validate_map.

(** The report has a line for each error and each warning of a check, and no other. *)
Theorem C87_report l t :
  (In t (fst (build_report l)) <->
   exists d i, In d l /\ In i (d_issues d) /\ i_severity i = Error
     /\ t = (build_text i ++ " [" ++ d_check d ++ "]")%string)
  /\ (In t (snd (build_report l)) <->
      exists d i, In d l /\ In i (d_issues d) /\ i_severity i = Warning
        /\ t = (build_text i ++ " [" ++ d_check d ++ "]")%string).
Proof.
  rewrite build_report_eq. cbn [fst snd]. rewrite !in_flat_map. unfold errors, warnings. split; split.
  - intros (d & Hd & H). apply in_map_iff in H. destruct H as (i & <- & H). apply filter_In in H. destruct H as [Hi S].
    exists d, i. repeat split; auto. destruct (i_severity i); congruence.
  - intros (d & i & Hd & Hi & S & ->). exists d. split; [exact Hd|]. apply in_map_iff. exists i. split; [reflexivity|].
    apply filter_In. split; [exact Hi|now rewrite S].
  - intros (d & Hd & H). apply in_map_iff in H. destruct H as (i & <- & H). apply filter_In in H. destruct H as [Hi S].
    exists d, i. repeat split; auto. destruct (i_severity i); congruence.
  - intros (d & i & Hd & Hi & S & ->). exists d. split; [exact Hd|]. apply in_map_iff. exists i. split; [reflexivity|].
    apply filter_In. split; [exact Hi|now rewrite S].
Qed.
Print Assumptions C87_report.

(** An issue of severity Info is in no report, although a check found it. *)
Theorem C87_info_refuted :
  exists d, d_issues d <> [] /\ build_report [d] = ([], []).
Proof. exists (Detected "c" [Issue Info PPoint 3 "m"]). split; [discriminate|reflexivity]. Qed.
Print Assumptions C87_info_refuted.

(** A name that an empty filter and a filter of commas select with all others, and
    two filters that select the same check once. *)
Example C87_nonvacuous :
  let eq a b := String.eqb a b in
  available_checks eq ["a"; "b"] ["c"] [] ",," = ["a"; "b"; "c"]
  /\ available_checks eq ["a"; "b"] ["c"] [] "c,x,a,,a" = ["a"; "c"]
  /\ selected eq "c,x,a,,a" "a" /\ ~ selected eq "c,x,a,,a" "b"
  /\ build_report (validate_map eq ["a"; "b"] [] ["g"] "b,g"
       (fun n => [Issue Error PLanelet 5 n]) (fun _ _ => []) [1; 2] (fun r => if Nat.eqb r 1 then "one" else "two")
       (fun r => if Nat.eqb r 1 then inl tt else inr "broken") (fun _ r n => [Issue Warning PArea 6 n]))
     = (["Error: lanelet 5 b [b]"; "Error: Failed to create routing graph for two: broken [general]"],
        ["Warning: area 6 g [g]"]).
Proof.
  cbv zeta. split; [reflexivity|]. split; [reflexivity|].
  assert (M := match_validators_in String.eqb "c,x,a,,a" ["a"; "b"]).
  split; [apply (M "a"); vm_compute; tauto|]. split; [|vm_compute; reflexivity].
  intros S. assert (H : In "b" (match_validators String.eqb (parse_filter "c,x,a,,a") ["a"; "b"])).
  { apply M. split; [cbn; tauto|exact S]. }
  vm_compute in H. intuition discriminate.
Qed.
