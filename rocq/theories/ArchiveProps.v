(** Properties of the binary format of a map. *)
From Coq Require Import List Bool Arith ZArith String Lia.
From Verif Require Import ArchiveModel ArchiveSpec ArchiveProofs ArchiveRead ArchiveSim ArchiveSim2 ArchiveSim3.
Import ListNotations.
Local Open Scope string_scope.

(** C97: what is read is a copy of what was written, also where lanelets, areas and regulatory elements refer to each other. *)
Theorem C97_round_trip : forall heap registry m c c',
  good_heap heap -> good_layers heap m -> held heap m -> Forall (constructible registry heap) heap ->
  exists u os m', write_file heap m c = Done (u, (c + 1)%Z) /\ read_file registry u c' = Done (os, m', Z.max c' (c + 1)) /\ copied heap m os m'.
Proof. intros heap registry m c c' G L H C. exact (round_trip heap G registry C m c c' L H). Qed.
Print Assumptions C97_round_trip.

(** For the regulatory elements of the library *)
Theorem C97_library_rules : forall heap m c c', good_heap heap -> good_layers heap m -> held heap m ->
  (forall i t ps, In (Reg i t ps) heap -> fits heap t ps) ->
  exists u os m', write_file heap m c = Done (u, (c + 1)%Z) /\ read_file builtin u c' = Done (os, m', Z.max c' (c + 1)) /\ copied heap m os m'.
Proof.
  intros heap m c c' G L H F. apply C97_round_trip; auto. apply Forall_forall. intros o X. destruct o; try exact I. apply fits_constructible. eapply F; eauto.
Qed.
Print Assumptions C97_library_rules.

(** No id of the map is issued again, if the ids were issued or registered in the process that wrote the map. *)
Theorem C97_ids : forall heap registry m c c', good_heap heap -> good_layers heap m -> held heap m -> Forall (constructible registry heap) heap ->
  Forall (fun o => (id_of o < c)%Z) heap ->
  exists u os m' next, write_file heap m c = Done (u, (c + 1)%Z) /\ read_file registry u c' = Done (os, m', next) /\
    (c' <= next)%Z /\ Forall (fun e => exists o, e = Some o /\ (id_of o < next)%Z) os.
Proof.
  intros heap registry m c c' G L H C B. destruct (C97_round_trip heap registry m c c' G L H C) as (u & os & m' & A1 & A2 & (rho & C1 & C2 & C3 & _)).
  exists u, os, m', (Z.max c' (c + 1)). split; [auto|]. split; [auto|]. split; [lia|]. apply Forall_forall. intros e X. apply In_nth_error in X as (n & X).
  assert (LN : n < List.length os) by (apply nth_error_Some; congruence). destruct (C2 n LN) as (a & A). destruct (C3 a n A) as (o & o' & O1 & O2 & O3).
  exists o'. split; [congruence|]. rewrite Forall_forall in B. specialize (B o (nth_error_In _ _ O1)).
  assert (id_of o' = id_of o) by (destruct o, o'; cbn [copy id_of] in *; try contradiction; symmetry; tauto). lia.
Qed.
Print Assumptions C97_ids.

(** Two lanelets and an area share two regulatory elements that refer to them. *)
Definition crossing : list (obj nat) :=
  [Point 1 [] 5 6 0; Point 2 [("k", "v")] 7 8 1; Point 3 [] 5 9 0; Point 4 [] 9 9 0;
   Line 10 [] [0; 1]; Line 11 [("type", "curbstone")] [2; 3]; Line 12 [] [1; 3];
   Lanelet 20 [] (false, 4) (true, 5) [9] None; Lanelet 21 [("subtype", "road")] (false, 5) (false, 6) [9; 10] (Some (true, 6));
   Reg 30 [("subtype", "right_of_way")] [("ref_line", [PLine (false, 6)]); ("right_of_way", [PLanelet (Some (false, 7))]); ("yield", [PLanelet (Some (true, 8))])];
   Reg 31 [("a", "b")] [("area", [PArea (Some 11); PPoint 0; PPolygon (false, 4)])];
   Area 40 [] [[(false, 4); (true, 6)]; []] [(true, 5); (false, 6)] [10; 9]].
Definition crossing_map : layers := Layers [0; 1; 2; 3] [(false, 4); (true, 5); (false, 6)] [(true, 4)] [11] [(false, 7); (true, 8)] [9; 10].

Ltac find_obj := repeat eexists; reflexivity.
Lemma crossing_good : good_heap crossing /\ good_layers crossing crossing_map /\ held crossing crossing_map /\ (forall i t ps, In (Reg i t ps) crossing -> fits crossing t ps).
Proof.
  assert (P : forall a, a < 4 -> is_point crossing a) by (intros a H; destruct a as [|[|[|[|]]]]; try lia; find_obj).
  assert (L : forall a, 4 <= a < 7 -> is_line crossing a) by (intros a H; do 7 (destruct a as [|a]; [try lia; find_obj|]); lia).
  assert (LL : forall a, 7 <= a < 9 -> is_lanelet crossing a) by (intros a H; do 9 (destruct a as [|a]; [try lia; find_obj|]); lia).
  assert (R : forall a, 9 <= a < 11 -> is_reg crossing a) by (intros a H; do 11 (destruct a as [|a]; [try lia; find_obj|]); lia).
  assert (A : is_area crossing 11) by find_obj.
  split; [split|split; [|split]].
  - repeat constructor; cbn [good_obj good_param snd]; auto 8 with arith; try (apply P; lia); try (apply L; lia); try (apply LL; lia); try (apply R; lia).
    all: repeat split; repeat constructor; try (apply P; lia); try (apply L; lia); try (apply LL; lia); try (apply R; lia); auto.
  - intros a b i t t' ps ps' E1 E2. do 12 (destruct a as [|a]; [try discriminate E1; do 12 (destruct b as [|b]; [try discriminate E2; try reflexivity; cbn in E1, E2; congruence|]); destruct b; discriminate|]). destruct a; discriminate.
  - unfold good_layers. cbn [points_ lines polygons areas lanelets regs_ crossing_map map snd].
    repeat split; try (repeat constructor; (apply P || apply L || apply LL || apply R || exact A); lia); unfold unique_ids; cbn; repeat constructor; cbn; intuition congruence.
  - intros i t ps e p X. cbn in X. repeat (destruct X as [X|X]; [try discriminate X|]); [| |contradiction]; injection X as <- <- <-; intros Y Z; cbn in Y; repeat (destruct Y as [<-|Y]); try contradiction; cbn in Z; repeat (destruct Z as [<-|Z]); try contradiction; cbn; auto.
  - intros i t ps X. cbn in X. repeat (destruct X as [X|X]; [try discriminate X|]); [| |contradiction]; injection X as <- <- <-; unfold fits; cbn.
    + do 4 right. left. repeat split; discriminate.
    + left. reflexivity.
Qed.
Example C97_nonvacuous :
  exists u, write_file crossing crossing_map 100 = Done (u, 101%Z) /\ exists os m', read_file builtin u 7 = Done (os, m', 101%Z) /\ copied crossing crossing_map os m' /\
    List.length os = 12 /\
    (exists t l r c r30 r31, nth_error os 11 = Some (Some (Lanelet 21 t l r [Some r30; Some r31] c)) /\
      (exists ps, nth_error os r30 = Some (Some (Reg 30 [("subtype", "right_of_way")] ps))) /\
      (exists a ps, nth_error os r31 = Some (Some (Reg 31 [("a", "b"); ("subtype", "regulatory_element")] (("area", PArea (Some a) :: ps) :: nil))) /\
        exists ins out, nth_error os a = Some (Some (Area 40 [] ins out [Some r31; Some r30])))).
Proof.
  destruct crossing_good as (G & L & H & F). destruct (C97_library_rules crossing crossing_map 100 7 G L H F) as (u & os & m' & A1 & A2 & A3).
  exists u. split; [exact A1|]. exists os, m'. split; [exact A2|]. split; [exact A3|].
  assert (A1' := A1). vm_compute in A1'. injection A1' as <-. vm_compute in A2. injection A2 as <- <-. split; [reflexivity|]. repeat eexists; reflexivity.
Qed.

(** A regulatory element without constructor can be written; the file cannot be read. *)
Definition one_rule (t : attributes) (ps : list (string * list param)) : list (obj nat) :=
  [Point 1 [] 0 0 0; Point 2 [] 1 0 0; Line 3 [] [0; 1]; Line 4 [] [1; 0]; Lanelet 5 [] (false, 2) (false, 3) [5] None; Reg 6 t ps].
Definition one_map : layers := Layers [0; 1] [(false, 2); (false, 3)] [] [] [(false, 4)] [5].
Theorem C97_unknown_rule_refuted : exists heap m u, good_heap heap /\ write_file heap m 10 = Done (u, 11%Z) /\ read_file builtin u 1 = Invalid.
Proof.
  exists (one_rule [("subtype", "my_rule")] []), one_map. eexists. split; [|split; reflexivity]. split.
  - repeat constructor; cbn; repeat eexists; reflexivity.
  - intros a b i t t' ps ps' E1 E2. do 6 (destruct a as [|a]; [try discriminate E1; do 6 (destruct b as [|b]; [try discriminate E2; try reflexivity; cbn in E1, E2; congruence|]); destruct b; discriminate|]). destruct a; discriminate.
Qed.
Print Assumptions C97_unknown_rule_refuted.
(** The same for a traffic light whose last light was removed by removeTrafficLight *)
Theorem C97_no_light_refuted : exists heap m u, write_file heap m 10 = Done (u, 11%Z) /\ read_file builtin u 1 = Invalid /\
  exists t, nth_error heap 5 = Some (Reg 6 t [("ref_line", [PLine (false, 2)])]) /\ value "subtype" t = Some "traffic_light".
Proof.
  exists (one_rule [("subtype", "traffic_light")] [("ref_line", [PLine (false, 2)])]), one_map. eexists. split; [reflexivity|]. split; [reflexivity|]. eexists. split; reflexivity.
Qed.
Print Assumptions C97_no_light_refuted.
(** What the constructors of the library accept, by example *)
Example C97_constructors : forall t ps ok,
  In (t, ps, ok)
    [([("subtype", "traffic_light")], [("refers", [PPolygon (true, 3)]); ("ref_line", [PPoint 0; PLine (false, 2)])], true);
     ([("subtype", "traffic_light")], [("refers", [PLine (true, 3)]); ("ref_line", [PLine (false, 3); PLine (false, 2)])], false);
     ([("subtype", "traffic_sign")], [("ref_line", [])], false);
     ([("subtype", "speed_limit"); ("sign_type", "50")], [("refers", [PPoint 1])], true);
     ([("subtype", "speed_limit"); ("sign_type", "50")], [("refers", [PLine (false, 2)])], false);
     ([("subtype", "all_way_stop")], [("ref_line", [PLine (false, 2)]); ("yield", [PLanelet (Some (false, 4))])], true);
     ([("subtype", "all_way_stop")], [("yield", [PLanelet (Some (false, 4))])], true);
     ([("subtype", "all_way_stop")], [("ref_line", [PLine (false, 2); PLine (false, 3)]); ("yield", [PLanelet (Some (false, 4))])], false);
     ([("subtype", "all_way_stop")], [("right_of_way", [PLanelet (Some (false, 4))])], false);
     ([("subtype", "right_of_way")], [("right_of_way", [PLanelet (Some (false, 4))])], false);
     ([("subtype", "right_of_way")], [("right_of_way", [PLanelet (Some (false, 4))]); ("yield", [PPoint 0; PLanelet (Some (false, 4))])], true);
     ([("subtype", "right_of_way")], [("right_of_way", [PPoint 0]); ("yield", [PLanelet (Some (false, 4))])], false);
     ([("subtype", "")], [], true)] ->
  exists u, write_file (one_rule t ps) one_map 10 = Done (u, 11%Z) /\
    match read_file builtin u 1 with Done _ => ok = true | Invalid => ok = false | _ => False end.
Proof.
  intros t ps ok H. cbn in H. repeat (destruct H as [H|H]; [injection H as <- <- <-; eexists; split; [vm_compute; reflexivity|vm_compute; reflexivity]|]). contradiction.
Qed.

(** A lanelet that is only a parameter is gone after reading, and the copy cannot be written. *)
Definition outside : list (obj nat) :=
  [Point 1 [] 0 0 0; Point 2 [] 1 0 0; Line 3 [] [0; 1]; Line 4 [] [1; 0]; Lanelet 5 [] (false, 2) (false, 3) [6] None; Lanelet 7 [] (false, 3) (false, 2) [] None;
   Reg 6 [("subtype", "right_of_way")] [("right_of_way", [PLanelet (Some (false, 4))]); ("yield", [PLanelet (Some (false, 5))])]].
Theorem C97_outside_refuted : exists m u, good_heap outside /\ good_layers outside m /\ write_file outside m 10 = Done (u, 11%Z) /\
  exists os m' n, read_file builtin u 1 = Done (os, m', 11%Z) /\
    nth_error os n = Some (Some (Reg 6 [("subtype", "right_of_way")] [("right_of_way", [PLanelet (Some (false, 4))]); ("yield", [PLanelet None])])) /\
    ~ copied outside m os m'.
Proof.
  exists (Layers [0; 1] [(false, 2); (false, 3)] [] [] [(false, 4)] [6]). eexists. split; [|split; [|split; [vm_compute; reflexivity|]]].
  - split; [repeat constructor; cbn; repeat eexists; reflexivity|].
    intros a b i t t' ps ps' E1 E2. do 7 (destruct a as [|a]; [try discriminate E1; do 7 (destruct b as [|b]; [try discriminate E2; try reflexivity; cbn in E1, E2; congruence|]); destruct b; discriminate|]). destruct a; discriminate.
  - unfold good_layers, unique_ids. cbn. repeat split; repeat constructor; cbn; try (repeat eexists; reflexivity); intuition congruence.
  - eexists _, _, 5. split; [vm_compute; reflexivity|]. split; [reflexivity|]. intros (rho & C1 & C2 & C3 & _). destruct (C2 5) as (a & A); [cbn; lia|].
    destruct (C3 a 5 A) as (o & o' & O1 & O2 & O3). cbn in O2. injection O2 as <-. do 7 (destruct a as [|a]; [cbn in O1; injection O1 as <-; cbn [copy] in O3; try contradiction|]).
    + destruct O3 as (_ & _ & O3). inversion O3 as [|? ? ? ? _ O4]; subst. inversion O4 as [|? ? ? ? [_ O5] _]; subst. cbn [snd] in O5. inversion O5 as [|? ? ? ? O6 _]; subst. exact O6.
    + destruct a; discriminate.
Qed.
Print Assumptions C97_outside_refuted.
Theorem C97_expired : exists heap m, write_file heap m 10 = Expired /\
  heap = one_rule [("subtype", "right_of_way")] [("right_of_way", [PLanelet (Some (false, 4))]); ("yield", [PLanelet None])].
Proof. eexists _, one_map. split; [|reflexivity]. reflexivity. Qed.
Print Assumptions C97_expired.

(** Ids that were not registered are issued again: the id of the next point is the id of a point of the map. *)
Theorem C97_ids_refuted : exists heap m u os m' next, good_heap heap /\ good_layers heap m /\ write_file heap m 10 = Done (u, 11%Z) /\ read_file builtin u 1 = Done (os, m', next) /\
  exists t x y z, nth_error os 0 = Some (Some (Point next t x y z)).
Proof.
  exists [Point 11 [] 0 0 0], (Layers [0] [] [] [] [] []). eexists _, _, _, _. split; [|split; [|split; [vm_compute; reflexivity|split; [vm_compute; reflexivity|]]]].
  - split; [repeat constructor|]. intros a b i t t' ps ps' E1. destruct a as [|[|]]; discriminate.
  - unfold good_layers, unique_ids. cbn. repeat split; repeat constructor; cbn; try (repeat eexists; reflexivity); intuition congruence.
  - cbn. repeat eexists.
Qed.
Print Assumptions C97_ids_refuted.

(** Two regulatory elements with the same id become one. *)
Theorem C97_same_id_refuted : exists heap m u os m', good_layers heap m /\ write_file heap m 10 = Done (u, 11%Z) /\ read_file builtin u 1 = Done (os, m', 11%Z) /\
  (exists t ps, nth_error heap 5 = Some (Reg 6 t ps) /\ value "a" t = Some "1") /\ (exists t ps, nth_error heap 7 = Some (Reg 6 t ps) /\ value "a" t = Some "2") /\
  (exists t l r c, nth_error heap 6 = Some (Lanelet 8 t l r [7] c)) /\
  exists n t l r k c ps, nth_error os n = Some (Some (Lanelet 8 t l r [Some k] c)) /\ nth_error os k = Some (Some (Reg 6 [("a", "1"); ("subtype", "regulatory_element")] ps)).
Proof.
  exists (one_rule [("a", "1")] [] ++ [Lanelet 8 [] (false, 3) (false, 2) [7] None; Reg 6 [("a", "2")] []])%list, (Layers [0; 1] [(false, 2); (false, 3)] [] [] [(false, 4); (false, 6)] [5]).
  eexists _, _, _. split; [|split; [vm_compute; reflexivity|split; [vm_compute; reflexivity|]]].
  - unfold good_layers, unique_ids. cbn. repeat split; repeat constructor; cbn; try (repeat eexists; reflexivity); intuition congruence.
  - repeat split; try (repeat eexists; reflexivity). exists 6. repeat eexists; cbn; reflexivity.
Qed.
Print Assumptions C97_same_id_refuted.
