(** Properties of the round trip of a map through its OSM representation (C34). *)
From Coq Require Import List Arith Bool String Ascii ZArith QArith Sorted Permutation Lia.
From Verif Require Import AttrModel OsmModel BoundaryModel OsmSpec OsmRelProofs OsmProps OsmMapModel OsmMapSpec BoundarySpec BoundaryProofs BoundaryProps OsmTripSpec OsmTripProofs.
Import ListNotations.
Local Open Scope string_scope.
Local Open Scope nat_scope.
Local Open Scope list_scope.

(** A well-formed map is written and loaded without errors, and the loaded map is the same
    one, except for the tags that name the kinds of elements, the line string at which a ring of an
    area is entered and the order of the inner rings. Weaker than the property: what [map_ok]
    asks for (see the refutations below). *)
Theorem C34_round_trip_partial : forall {P D} (to_geo : P -> option (D * D * D)) from_geo origin align ring_valid create reloc (m : @mmap P),
  reloc_ok reloc -> map_ok to_geo from_geo align ring_valid create m ->
  exists f m', write_map false to_geo reloc m = Some (f, []) /\
    load_map from_geo origin align ring_valid create f = Done (m', []) /\ same_map m m'.
Proof. intros. apply trip_ok; auto. Qed.
Print Assumptions C34_round_trip_partial.

(** The same with the file in between written as XML and read again: here the points have to come
    back from the text of their coordinates. *)
Theorem C34_file_partial : forall {P D} (zero_d : D) is_zero print_id parse_id fmt parse_d (to_geo : P -> option (D * D * D)) from_geo
    origin align ring_valid create reloc upload josm (m : @mmap P),
  reloc_ok reloc ->
  map_ok (fun p => option_map (as_text zero_d is_zero fmt parse_d josm) (to_geo p)) from_geo align ring_valid create m ->
  texts_ok print_id parse_id m ->
  exists f doc f' m', write_map false to_geo reloc m = Some (f, []) /\
    write is_zero print_id fmt upload josm f = Some doc /\
    read zero_d parse_id parse_d true reloc doc = Some (f', []) /\
    load_map from_geo origin align ring_valid create f' = Done (m', []) /\ same_map m m'.
Proof. intros. apply file_trip; auto. Qed.
Print Assumptions C34_file_partial.

(** * A map *)
Notation zpos := (Z * Z * Z)%type.
Definition tgeo (p : zpos) : option (Q * Q * Q) := let '(x, y, z) := p in Some (inject_Z x / inject_Z 8, inject_Z y, inject_Z z)%Q.
Definition fgeo (g : Q * Q * Q) : option zpos := let '(x, y, z) := g in Some (Qnum (Qred (x * inject_Z 8)), Qnum (Qred y), Qnum (Qred z)).
(** Directions of the lines from the first to the last point. *)
Definition dirs (pl pr : list zpos) : bool * bool :=
  match pl, pr with
  | (x1, y1, _) :: _, (x2, y2, _) :: _ =>
    let '(x1', y1', _) := last pl (0, 0, 0)%Z in let '(x2', y2', _) := last pr (0, 0, 0)%Z in
    (false, Z.ltb ((x1' - x1) * (x2' - x2) + (y1' - y1) * (y2' - y2)) 0)
  | _, _ => (false, false)
  end.
Fixpoint area2 (ps : list zpos) : Z :=
  match ps with
  | (x, y, _) :: (((x', y', _) :: _) as r) => (x * y' - x' * y + area2 r)%Z
  | _ => 0%Z
  end.
Definition clockwise (ps : list zpos) : bool := Z.ltb (area2 ps) 0.
Definition make (st : string) (_ : mreg) : bool := String.eqb st "light".
Definition at_xy (i : Z) : zpos := let '(x, y) := ex_xy i in (x, y, i)%Z.
Definition trip_map : @mmap zpos :=
  MMap (map (fun i => (i, MPoint (if Z.eqb i 4 then [("type", "bulb")] else []) (at_xy i))) [2; 1; 3; 4; 5; 6]%Z)
       [(10, MLine [("type", "curb")] [1; 2] false); (12, MLine [] [3; 1] false); (11, MLine [("area", "no")] [3; 2] true);
        (13, MLine [] [5; 4] false); (14, MLine [] [4; 6; 5] true); (15, MLine [] [4; 5] false)]%Z
       [(20, MPoly [("area", "yes"); ("type", "x")] [1; 2; 3])]%Z
       [(30, MLanelet [("one_way", "no")] (Bound 10 false) (Bound 13 true) (Some (Bound 15 false)) [41; 40])]%Z
       [(31, MArea [] [(10, false); (11, true); (12, false)] [[(13, true); (14, true)]] [40])]%Z
       [(40, MReg [("subtype", "light"); ("type", "regulatory_element")]
                  [("ref_line", [PLine 15 false; PLine 11 false]); ("refers", [PLanelet (Some 30); PPoly 20; PArea (Some 31); PPoint 6])]);
        (41, MReg [("subtype", "light")] [])]%Z.
(** The tags are added, the inner ring is entered at its other line string. *)
Definition trip_map' : @mmap zpos :=
  MMap (map (fun i => (i, MPoint (if Z.eqb i 4 then [("type", "bulb")] else []) (at_xy i))) [1; 2; 3; 4; 5; 6]%Z)
       [(10, MLine [("type", "curb")] [1; 2] false); (11, MLine [("area", "no")] [3; 2] false); (12, MLine [] [3; 1] false);
        (13, MLine [] [5; 4] false); (14, MLine [] [4; 6; 5] false); (15, MLine [] [4; 5] false)]%Z
       [(20, MPoly [("area", "yes"); ("type", "x")] [1; 2; 3])]%Z
       [(30, MLanelet [("one_way", "no"); ("type", "lanelet")] (Bound 10 false) (Bound 13 true) (Some (Bound 15 false)) [41; 40])]%Z
       [(31, MArea [("type", "multipolygon")] [(10, false); (11, true); (12, false)] [[(14, true); (13, true)]] [40])]%Z
       [(40, MReg [("subtype", "light"); ("type", "regulatory_element")]
                  [("ref_line", [PLine 15 false; PLine 11 false]); ("refers", [PLanelet (Some 30); PPoly 20; PArea (Some 31); PPoint 6])]);
        (41, MReg [("subtype", "light"); ("type", "regulatory_element")] [])]%Z.

Lemma positions_at l ps : positions trip_map l ps -> ps = map at_xy l.
Proof.
  intros F. induction F as [|j p l ps (q & Hq & <-) F IH]; auto. cbn [map]. f_equal; auto.
  cbn in Hq. repeat (destruct Hq as [[= <- <-]|Hq]; [reflexivity|]). contradiction.
Qed.
Ltac each H := repeat (destruct H as [[= <- <-]|H]); [..|contradiction].
Ltac member := cbn; tauto.
Ltac sorted1 := unfold sorted_attrs; cbn; repeat constructor.
Ltac nodup := repeat (constructor; [cbn; intuition discriminate|]); constructor.
Lemma trip_ring r : In r [[LS 10 [1; 2] false; LS 11 [3; 2] true; LS 12 [3; 1] false]; [LS 13 [5; 4] true; LS 14 [4; 6; 5] true]]%Z -> ring_ok clockwise trip_map r.
Proof.
  intros H. split.
  - destruct H as [<-|[<-|[]]]; (split; [discriminate|]); eexists; repeat (eapply walk_cons; [reflexivity|reflexivity|]); apply walk_nil.
  - intros s t ps Rot Rev. apply rotations in Rot. destruct Rot as (k & Hk & ->). apply reversed_unique in Rev. subst t.
    split; intros Hp; apply positions_at in Hp; subst ps;
    (destruct H as [<-|[<-|[]]]; cbn in Hk; do 4 (destruct k as [|k]; [vm_compute; auto|]); lia).
Qed.
Lemma trip_map_ok geo : (forall i, In i [1; 2; 3; 4; 5; 6]%Z -> exists g, geo (at_xy i) = Some g /\ fgeo g = Some (at_xy i)) ->
  map_ok geo fgeo dirs clockwise make trip_map.
Proof.
  intros G. unfold map_ok.
  split; [|split; [|split; [|split; [|split; [|split; [|split; [|split]]]]]]].
  - split; [|split]; cbn; try nodup. intros k x H. each H. cbn. sorted1.
  - split; [|split]; intros k x H; cbn in H; each H; cbn; sorted1.
  - cbn. nodup.
  - intros k x H. unfold point_ok. assert (In k [1; 2; 3; 4; 5; 6]%Z /\ p_xyz x = at_xy k) as [I ->] by (cbn in H; each H; split; first [reflexivity|member]).
    apply G. exact I.
  - intros k x H. cbn in H. each H; (split; [discriminate|]); (split; [intros i Hi; cbn in Hi; intuition (subst; member)|]); (split; [cbn; sorted1|]);
      intros v Hv; cbn in Hv; (repeat (destruct Hv as [Hv|Hv]; [first [discriminate Hv|injection Hv as <-; vm_compute; discriminate]|])); contradiction.
  - intros k x H. cbn in H. each H; (split; [discriminate|]); (split; [intros i Hi; cbn in Hi; intuition (subst; member)|]).
    intros v Hv. cbn in Hv. destruct Hv as [[= <-]|[[=]|[]]]. reflexivity.
  - intros k x H. cbn in H. each H. split; [|split; [|split]].
    + intros w Hw. cbn in Hw. destruct Hw as [[=]|[]].
    + intros i Hi. cbn in Hi. intuition (subst; member).
    + exists 10%Z, false, 13%Z, true. split; auto. split; auto. split; [member|]. split; [member|].
      intros pl pr (l & Hl & Pl) (r & Hr & Pr). apply positions_at in Pl. apply positions_at in Pr. subst.
      cbn in Hl, Hr. repeat (destruct Hl as [Hl|Hl]; [try discriminate|]); [|contradiction]. injection Hl as <-.
      repeat (destruct Hr as [Hr|Hr]; [try discriminate|]); [|contradiction]. injection Hr as <-. reflexivity.
    + intros c [= <-]. exists 15%Z. split; auto. split; [discriminate|member].
  - intros k x H. cbn in H. each H. split; [|split; [|split]].
    + intros w [].
    + intros i Hi. cbn in Hi. intuition (subst; member).
    + exists [LS 10 [1; 2] false; LS 11 [3; 2] true; LS 12 [3; 1] false]%Z. split; [|split].
      * repeat first [apply Forall2_nil|apply Forall2_cons]; eexists; (split; [cbn; eauto 10|reflexivity]).
      * apply trip_ring. cbn. auto.
      * cbn. nodup.
    + exists [[LS 13 [5; 4] true; LS 14 [4; 6; 5] true]]%Z. split; [|split].
      * repeat first [apply Forall2_nil|apply Forall2_cons]; eexists; (split; [cbn; eauto 10|reflexivity]).
      * intros r [<-|[]]. apply trip_ring. cbn. auto.
      * cbn. nodup.
  - intros k x H. cbn in H. each H; (split; [|split; [|split; [|split]]]).
    + intros w Hw. cbn in Hw. destruct Hw as [[=]|[[= <-]|[]]]. auto.
    + exists "light". split; [cbn; auto|]. intros. reflexivity.
    + cbn. sorted1.
    + intros role l Hl. cbn in Hl. each Hl; discriminate.
    + intros role l p Hl Hp. cbn in Hl. each Hl; cbn in Hp; repeat (destruct Hp as [<-|Hp]; [cbn; eauto 12|]); contradiction.
    + intros w Hw. cbn in Hw. destruct Hw as [[=]|[]].
    + exists "light". split; [cbn; auto|]. intros. reflexivity.
    + cbn. sorted1.
    + intros role l [].
    + intros role l p [].
Qed.
Definition trip (m : @mmap zpos) : option (outcome (@mmap zpos * list lerror) * list error) :=
  match write_map false tgeo deque_reloc m with
  | Some (f, errs) => Some (load_map fgeo (0, 0, 0)%Z dirs clockwise make f, errs)
  | None => None
  end.
Definition file_trip_of (m : @mmap zpos) : option (outcome (@mmap zpos * list lerror)) :=
  match write_map false tgeo deque_reloc m with
  | Some (f, []) => match write q_zero print_Z q_fmt false false f with
    | Some doc => match read (0 # 1) z_parse q_parse true deque_reloc doc with
      | Some (f', []) => Some (load_map fgeo (0, 0, 0)%Z dirs clockwise make f')
      | _ => None
      end
    | None => None
    end
  | _ => None
  end.
Example C34_nonvacuous :
  map_ok tgeo fgeo dirs clockwise make trip_map /\ trip trip_map = Some (Done (trip_map', []), []) /\
  map_ok (fun p => option_map (as_text (0 # 1) q_zero q_fmt q_parse false) (tgeo p)) fgeo dirs clockwise make trip_map /\
  texts_ok print_Z z_parse trip_map /\ file_trip_of trip_map = Some (Done (trip_map', [])).
Proof.
  split; [|split; [vm_compute; reflexivity|split; [|split; [|vm_compute; reflexivity]]]].
  - apply trip_map_ok. intros i H. cbn in H. repeat (destruct H as [<-|H]; [eexists; split; reflexivity|]). contradiction.
  - apply trip_map_ok. intros i H. cbn in H. repeat (destruct H as [<-|H]; [eexists; split; vm_compute; reflexivity|]). contradiction.
  - assert (forall k a, id_ok print_Z z_parse k -> attrs_ok a -> text_ok print_Z z_parse k a) as T by (split; auto).
    assert (forall a, StronglySorted (fun x y => String.ltb x y = true) (map fst a) -> (forall k v, In (k, v) a -> k <> "ele" /\ no_nul k /\ no_nul v) -> attrs_ok a) as A by (split; auto).
    split; [|split; [|split; [|split; [|split]]]]; intros k x H; cbn in H; each H; try (apply T; [vm_compute; auto|]);
      try (apply A; [cbn; repeat constructor|intros a b Hab; cbn in Hab; each Hab; (split; [discriminate|split; reflexivity])]).
    all: split; [apply T; [vm_compute; auto|]; apply A; [cbn; repeat constructor|intros a b Hab; cbn in Hab; each Hab; (split; [discriminate|split; reflexivity])]|].
    all: intros role l Hl; cbn in Hl; each Hl; reflexivity.
Qed.

(** * What is lost without an error *)
Definition small (ls : list (Z * mline)) (ps : list (Z * mpoly)) (lls : list (Z * mlanelet)) (rs : list (Z * mreg)) : @mmap zpos :=
  MMap (map (fun i => (i, MPoint [] (at_xy i))) [1; 2; 4; 5]%Z) ls ps lls [] rs.
Definition line0 (l : list Z) : mline := MLine [] l false.
Definition bounds : list (Z * mline) := [(10, line0 [1; 2]); (13, line0 [4; 5])]%Z.
(** A lanelet with a tag "type" of its own is written with this tag and not loaded. *)
Theorem C34_type_refuted : exists m m', trip m = Some (Done (m', []), []) /\ map fst (m_lanelets m) = [30]%Z /\ m_lanelets m' = [].
Proof.
  exists (small bounds [] [(30, MLanelet [("type", "road")] (Bound 10 false) (Bound 13 false) None [])]%Z []). eexists.
  split; [vm_compute; reflexivity|]. split; reflexivity.
Qed.
Print Assumptions C34_type_refuted.
(** The tag "area" decides whether a way is loaded as line string or as polygon. *)
Theorem C34_kind_refuted : exists m m', trip m = Some (Done (m', []), []) /\
  map fst (m_lines m) = [10]%Z /\ map fst (m_polys m) = [20]%Z /\ map fst (m_lines m') = [20]%Z /\ map fst (m_polys m') = [10]%Z.
Proof.
  exists (small [(10, MLine [("area", "yes")] [1; 2; 5; 1] false)]%Z [(20, MPoly [("area", "no")] [1; 2; 4])]%Z [] []). eexists.
  split; [vm_compute; reflexivity|]. repeat split.
Qed.
Print Assumptions C34_kind_refuted.
(** The orientation of a custom centerline and of line strings of regulatory elements is not written. *)
Theorem C34_orientation_refuted : exists m m', trip m = Some (Done (m', []), []) /\
  map (fun e => ll_center (snd e)) (m_lanelets m) = [Some (Bound 13 true)]%Z /\
  map (fun e => ll_center (snd e)) (m_lanelets m') = [Some (Bound 13 false)]%Z /\
  map (fun e => re_params (snd e)) (m_regs m) = [[("ref_line", [PLine 13 true])]]%Z /\
  map (fun e => re_params (snd e)) (m_regs m') = [[("ref_line", [PLine 13 false])]]%Z.
Proof.
  exists (small bounds [] [(30, MLanelet [] (Bound 10 false) (Bound 13 false) (Some (Bound 13 true)) [])]%Z
                [(40, MReg [("subtype", "light")] [("ref_line", [PLine 13 true])])]%Z). eexists.
  split; [vm_compute; reflexivity|]. repeat split.
Qed.
Print Assumptions C34_orientation_refuted.
(** A role without parameters is not written. *)
Theorem C34_role_refuted : exists m m', trip m = Some (Done (m', []), []) /\
  map (fun e => re_params (snd e)) (m_regs m) = [[("refers", [])]] /\ map (fun e => re_params (snd e)) (m_regs m') = [[]].
Proof. exists (small [] [] [] [(40, MReg [("subtype", "light")] [("refers", [])])]%Z). eexists. split; [vm_compute; reflexivity|]. repeat split. Qed.
Print Assumptions C34_role_refuted.
(** The layers of a map have ids of their own; line strings and polygons share the ids of the
    ways: a polygon with the id of a line string is lost. Lanelets, areas and regulatory elements share
    those of the relations: the members of a lanelet become members of the regulatory element. *)
Theorem C34_ids_refuted : exists m m', trip m = Some (Done (m', []), []) /\
  map fst (m_lines m) = [10; 13]%Z /\ map fst (m_polys m) = [10]%Z /\ map fst (m_lanelets m) = [40]%Z /\ map (fun e => re_params (snd e)) (m_regs m) = [[]] /\
  map fst (m_lines m') = [10; 13]%Z /\ m_polys m' = [] /\ m_lanelets m' = [] /\
  map (fun e => re_params (snd e)) (m_regs m') = [[("left", [PLine 10 false]); ("right", [PLine 13 false])]]%Z.
Proof.
  exists (small bounds [(10, MPoly [] [1; 2; 4])]%Z [(40, MLanelet [] (Bound 10 false) (Bound 13 false) None [])]%Z
                [(40, MReg [("subtype", "light")] [])]%Z). eexists.
  split; [vm_compute; reflexivity|]. repeat split.
Qed.
Print Assumptions C34_ids_refuted.
(** An empty line string is lost when the map is loaded, with an error. *)
Theorem C34_empty_refuted : exists m m', trip m = Some (Done (m', [LEmpty 10%Z]), []) /\ map fst (m_lines m) = [10]%Z /\ m_lines m' = [].
Proof. exists (small [(10, line0 [])]%Z [] [] []). eexists. split; [vm_compute; reflexivity|]. repeat split. Qed.
Print Assumptions C34_empty_refuted.
