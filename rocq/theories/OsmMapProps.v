(** Properties of writing a map (C33) and of the map round trip (C34). *)
From Coq Require Import List Arith Bool String Ascii ZArith Sorted Lia.
From Verif Require Import AttrModel OsmModel BoundaryModel OsmSpec OsmRelProofs OsmProps OsmMapModel OsmMapSpec OsmWriteProofs.
Import ListNotations.
Local Open Scope string_scope.
Local Open Scope list_scope.

(** Writing: the file has exactly the expected elements, a relation exactly the members that
    are in the map, in their order, and there is one error for every other member.
    Weaker than the property: in no regulatory element a lanelet or area follows one that is
    not in the map. *)
Theorem C33_write_partial : forall {P D} (to_geo : P -> option (D * D * D)) reloc (m : @mmap P), reloc_ok reloc ->
  layers_ok m -> attrs_sorted m -> ids_distinct m -> missing_last m ->
  exists f, write_map false to_geo reloc m = Some (f, node_errors to_geo m ++ way_errors to_geo m ++ rel_errors m (f_nodes f) (f_ways f)) /\
    is_map Z.ltb (f_nodes f) (node_of to_geo m) /\ is_map Z.ltb (f_ways f) (way_of to_geo m) /\
    is_map Z.ltb (f_rels f) (rel_of m (f_nodes f) (f_ways f)).
Proof. intros P D to_geo reloc m R L A I M. apply write_map_spec; auto. Qed.
Print Assumptions C33_write_partial.

(** With the correction of OsmFile.cpp (by one position for placeholders behind the one that
    is removed) it would hold for every map. *)
Theorem C33_write_corrected : forall {P D} (to_geo : P -> option (D * D * D)) reloc (m : @mmap P), reloc_ok reloc ->
  layers_ok m -> attrs_sorted m -> ids_distinct m ->
  exists f, write_map true to_geo reloc m = Some (f, node_errors to_geo m ++ way_errors to_geo m ++ rel_errors m (f_nodes f) (f_ways f)) /\
    is_map Z.ltb (f_nodes f) (node_of to_geo m) /\ is_map Z.ltb (f_ways f) (way_of to_geo m) /\
    is_map Z.ltb (f_rels f) (rel_of m (f_nodes f) (f_ways f)).
Proof. intros P D to_geo reloc m R L A I. apply write_map_spec; auto. Qed.
Print Assumptions C33_write_corrected.

Definition geo (p : Z * Z * Z) : option (Z * Z * Z) := if Z.eqb (snd p) 100 then None else Some p.
Definition pt (a : attributes) (x y : Z) : @mpoint (Z * Z * Z) := MPoint a (x, y, 0%Z).
Definition line (l : list Z) : mline := MLine [] l false.
Definition lane (l r : Z) (regs : list Z) : mlanelet := MLanelet [] (Bound l false) (Bound r false) None regs.
Definition wmap (params : list (string * list param)) : @mmap (Z * Z * Z) :=
  MMap [(5, pt [("type", "bulb")] 1 2); (6, pt [] 3 4)]%Z [(10, line [5; 6]); (11, MLine [] [6; 5] true); (12, line [6; 7])]%Z []
       [(1, lane 10 11 [2; 3]%Z)]%Z [] [(2, MReg [("subtype", "x")] params)]%Z.
Lemma wmap_ok params : layers_ok (wmap params) /\ attrs_sorted (wmap params) /\ ids_distinct (wmap params).
Proof.
  assert (S1 : forall x, Sorted.StronglySorted (fun a b => String.ltb a b = true) [x]) by (repeat constructor).
  split; [|split].
  - split; [|split]; cbn.
    + repeat (constructor; [cbn; intuition discriminate|]). constructor.
    + repeat (constructor; [cbn; intuition discriminate|]). constructor.
    + tauto.
  - split; [|split]; cbn; intros k x H; try tauto; destruct H as [[= <- <-]|[]]; cbn; [apply S1|constructor].
  - split; [|split]; cbn.
    + repeat (constructor; [cbn; intuition discriminate|]). constructor.
    + intros k l i [[= <- <-]|[]] Hi; cbn in Hi; intuition lia.
    + tauto.
Qed.
(** Otherwise undefined behaviour: an iterator past the end is dereferenced, or a member that
    had been written is overwritten and a null pointer stays, which osm::write dereferences. *)
Theorem C33_write_refuted :
  (exists m, layers_ok m /\ attrs_sorted m /\ ids_distinct m /\ write_map false geo deque_reloc m = None) /\
  (exists m f e, layers_ok m /\ attrs_sorted m /\ ids_distinct m /\ write_map false geo deque_reloc m = Some (f, e) /\
     map (fun x => map snd (r_members (snd x))) (f_rels f) = [[RWay 10; RWay 11; RRel 2]; [RNull; RRel 1]]%Z /\
     map (fun r => map snd (reg_members m (f_nodes f) (f_ways f) (snd r))) (m_regs m) = [[RRel 1; RNode 5]]%Z /\
     write (Z.eqb 0) print_Z (fun _ => print_Z) false false f = None).
Proof.
  split.
  - exists (wmap [("refers", [PLanelet (Some 99); PLanelet (Some 1)])])%Z. split; [apply wmap_ok|]. split; [apply wmap_ok|]. split; [apply wmap_ok|].
    vm_compute. reflexivity.
  - exists (wmap [("refers", [PLanelet (Some 99); PLanelet (Some 1); PPoint 5])])%Z.
    destruct (write_map false geo deque_reloc (wmap [("refers", [PLanelet (Some 99); PLanelet (Some 1); PPoint 5])])%Z) as [[f e]|] eqn:E; [|vm_compute in E; discriminate].
    exists f, e. split; [apply wmap_ok|]. split; [apply wmap_ok|]. split; [apply wmap_ok|]. split; auto.
    vm_compute in E. injection E as <- <-. vm_compute. auto.
Qed.
Print Assumptions C33_write_refuted.

Definition ex_params : list (string * list param) :=
  [("ref_line", [PLine 12 false; PLine 11 true; PPoint 7]); ("refers", [PLanelet (Some 1); PLanelet None; PArea (Some 98); PPoint 5])]%Z.
Example C33_write_nonvacuous : missing_last (wmap ex_params) /\
  write_map false geo deque_reloc (wmap ex_params) = Some
   (File [(5, Node 5 [("type", "bulb")] 1 2 0); (6, Node 6 [] 3 4 0)]%Z [(10, Way 10 [] [5; 6]); (11, Way 11 [] [6; 5])]%Z
         [(1, Relation 1 [("type", "lanelet")] [("left", RWay 10); ("right", RWay 11); ("regulatory_element", RRel 2)]);
          (2, Relation 2 [("subtype", "x"); ("type", "regulatory_element")] [("ref_line", RWay 11); ("refers", RRel 1); ("refers", RNode 5)])]%Z,
    [EWay 12; EMember 2 12; EMember 2 7; EExpired 2; EMember 1 3; ERelation 2 98])%Z.
Proof.
  split; [|vm_compute; reflexivity].
  intros k r a x b i [[= <- <-]|[]] E W X.
  assert (In x (params (MReg [("subtype", "x")] ex_params))) as Hx by (rewrite E; apply in_or_app; cbn; auto).
  cbn in E, Hx. repeat (destruct a as [|? a]; cbn in E; [injection E as <- <-; cbn in W; first [discriminate W|injection W as <-; cbn; first [reflexivity|discriminate X]]|injection E as _ E]).
  destruct a; discriminate.
Qed.
