(** Outlines of paths of lanelets and areas; remaining lanes. *)
From Coq Require Import List Bool Arith Reals Lia Lra.
From Verif Require Import LineModel LineSpec PathModel PathSpec PathProofs PathProofs2.
Import ListNotations.
Local Open Scope R_scope.

(** * C92: getEnclosingPolygon3d *)

(** What is summed around the polygon, for every function of directed edges which changes its sign with
    the direction (areas, angles, crossings, counts of an edge), is the sum for the primitives of the path
    without that for the line strings crossed between the end of a lanelet and an area. *)
Theorem C92_outline data path :
  (forall p, In p path -> well_formed data p) -> chained data path -> no_return data path ->
  exists poly, enclosing_polygon data path = Done poly
    /\ forall f, oriented f -> exists gs, crossings data path gs
         /\ around f poly + total (map (around f) gs) = total (map (fun p => around f (outline data p)) path).
Proof.
  intros W Ch Nr. destruct (enclosing_path data (fun _ _ => 0) ltac:(intros a b; lra) False path W (False_ind _) Ch Nr) as (poly & _ & E & _).
  exists poly. split; [exact E|]. intros f Ho. destruct (enclosing_path data f Ho False path W (False_ind _) Ch Nr) as (poly' & gs & E' & C & _ & A).
  exists gs. split; [exact C|]. congruence.
Qed.
Print Assumptions C92_outline.

Lemma short_around f b : oriented f -> (length b <= 2)%nat -> around f b = 0.
Proof.
  intros Ho L. destruct b as [|x [|y [|]]]; cbn in L; try lia; unfold around; cbn; rewrite ?(Ho x y), ?(oriented_same f x Ho); lra.
Qed.
(** Nothing is lost if the line strings crossed have two points. *)
Theorem C92_exact data path f :
  (forall p, In p path -> well_formed data p) -> chained data path -> no_return data path ->
  (forall pre p q post b, path = pre ++ p :: q :: post -> crossing data p q b -> (length b <= 2)%nat) -> oriented f ->
  exists poly, enclosing_polygon data path = Done poly
    /\ around f poly = total (map (fun p => around f (outline data p)) path).
Proof.
  intros W Ch Nr Sh Ho. destruct (C92_outline data path W Ch Nr) as (poly & E & A). exists poly. split; [exact E|].
  destruct (A f Ho) as (gs & C & S). enough (Z : total (map (around f) gs) = 0) by lra. clear - C Sh Ho.
  revert gs C. induction path as [|p path IH]; intros gs C; [cbn in C; subst; reflexivity|].
  destruct path as [|q path]; [cbn in C; subst; reflexivity|]. destruct gs as [|g gs]; [reflexivity|]. destruct C as [G C].
  assert (T := IH (fun pre p' q' post b E => Sh (p :: pre) p' q' post b (f_equal (cons p) E)) gs C).
  unfold total in *. cbn [map fold_right]. rewrite T. rewrite short_around; [lra|exact Ho|].
  destruct G as [->|G]; [cbn; lia|]. exact (Sh [] p q path g eq_refl G).
Qed.
Print Assumptions C92_exact.

(** Paths of lanelets; twice the signed areas *)
Theorem C92_lanelets data lanes xy :
  (forall l, In l lanes -> well_formed data (Lane l)) -> chained data (map Lane lanes) -> no_return data (map Lane lanes) ->
  exists poly, enclosing_polygon data (map Lane lanes) = Done poly
    /\ around (shoelace xy) poly = total (map (fun l => around (shoelace xy) (outline data (Lane l))) lanes).
Proof.
  intros W Ch Nr.
  destruct (C92_exact data (map Lane lanes) (shoelace xy)) as (poly & E & A); [|exact Ch|exact Nr| | |].
  - intros p Hp. apply in_map_iff in Hp. destruct Hp as (l & <- & H). auto.
  - intros pre p q post b E (bs & l & ll & s & H & _).
    assert (N : ~ In (Region bs) (map Lane lanes)) by (intros K; apply in_map_iff in K; destruct K as (? & K & _); discriminate).
    exfalso. apply N. rewrite E. apply in_or_app. right. destruct H as [[_ ->]|[-> _]]; [right; now left|now left].
  - intros a b. unfold shoelace. lra.
  - exists poly. split; [exact E|]. rewrite A, map_map. reflexivity.
Qed.
Print Assumptions C92_lanelets.

(** No point is doubled, if none is in the outlines of the lanelets and the line strings of areas are not closed. *)
Theorem C92_no_doubled_points data path poly : (2 <= length path)%nat ->
  (forall p, In p path -> well_formed data p /\ neat data p) -> chained data path -> no_return data path ->
  enclosing_polygon data path = Done poly -> tidy poly.
Proof.
  intros L W Ch Nr E.
  destruct (enclosing_path data (fun _ _ => 0) ltac:(intros a b; lra) True path (fun p H => proj1 (W p H))
    (fun _ => conj L (fun p H => proj2 (W p H))) Ch Nr) as (poly' & _ & E' & _ & T & _).
  rewrite E in E'. injection E' as <-. exact (T I).
Qed.
Print Assumptions C92_no_doubled_points.

(** The points are those of the primitives, for every path. *)
Theorem C92_points data path poly x : enclosing_polygon data path = Done poly -> In x poly ->
  exists p, In p path /\ In x (outline data p).
Proof. apply enclosing_points. Qed.
Print Assumptions C92_points.

(** How the call ends: with a polygon if areas are related to what is before and after them, with an error at
    the first pair which is not, GeometryError after an area, std::runtime_error after a lanelet. *)
Theorem C92_outcome data path : (forall p, In p path -> well_formed data p) ->
  match enclosing_polygon data path with
  | Done _ => areas_joined data path
  | NoGeometry => exists pre bs n post, path = pre ++ Region bs :: n :: post
      /\ ~ joined data (Region bs) n /\ areas_joined data (pre ++ [Region bs])
  | RuntimeFailure => exists pre l bs post, path = pre ++ Lane l :: Region bs :: post
      /\ ~ joined data (Lane l) (Region bs) /\ areas_joined data (pre ++ [Lane l])
  | Undefined | InvalidInput => False
  end.
Proof. apply enclosing_ends. Qed.
Print Assumptions C92_outcome.

(** ** A path of two lanelets and an area *)
Definition ex_data (i : nat) : list nat :=
  match i with
  | 0 => [0; 1] | 1 => [2; 3]        (* a lanelet from x = 0 to 10 *)
  | 2 => [1; 4] | 3 => [3; 5]        (* and on to 20 *)
  | 4 => [5; 4] | 5 => [4; 6; 7; 5]  (* an area from there to 30 *)
  | 6 => [5; 8; 4]                   (* with a bend *)
  | _ => []
  end%nat.
Definition ex_xy (p : nat) : R * R :=
  nth p [(0, 2); (10, 2); (0, 0); (10, 0); (20, 2); (20, 0); (30, 2); (30, 0)] (21, 1).
Definition ex_line (i : nat) : line := Line i false.
Definition ex_a := Lanelet (ex_line 0) (ex_line 1).
Definition ex_b := Lanelet (ex_line 2) (ex_line 3).
Definition ex_area := Region [ex_line 4; ex_line 5].
Definition ex_bent := Region [ex_line 6; ex_line 5].

(** The ends of the sides, for the examples *)
Definition ends_of (data : nat -> list nat) (p : prim) : list (nat * nat) :=
  let e l := (hd 0%nat (seen data l), last (seen data l) 0%nat) in
  match p with
  | Lane l => let (a0, a1) := e (left_bound l) in let (b0, b1) := e (right_bound l) in [(a0, a1); (b1, b0); (a1, b1); (b0, a0)]
  | Region bs => map e bs
  end.
Lemma from_to_ends l a b : from_to l a b -> a = hd 0%nat l /\ b = last l 0%nat.
Proof. intros (r & r' & E & E'). split; [now rewrite E|]. rewrite E'. now rewrite last_last. Qed.
Lemma ends_of_side data p s a b : has_side data p s -> from_to s a b -> In (a, b) (ends_of data p).
Proof.
  intros H F. apply from_to_ends in F. destruct F as [-> ->]. destruct H as [l|l|l s H|bs l H]; cbn [ends_of].
  - now left.
  - right. left. f_equal.
    + destruct (seen data (right_bound l)) eqn:Q using rev_ind; [reflexivity|]. now rewrite rev_app_distr, last_last.
    + destruct (seen data (right_bound l)); [reflexivity|]. cbn [rev hd]. now rewrite last_last.
  - destruct H as [r x r' y E1 E2|x r y r' E1 E2]; rewrite E1, E2.
    + rewrite !last_last. cbn. auto.
    + cbn. auto.
  - apply in_map_iff. eauto.
Qed.
Definition no_return_at data p q o : bool :=
  forallb (fun '(a, b) => negb (existsb (fun '(c, d) => Nat.eqb a d && Nat.eqb b c) (ends_of data p)
                                && existsb (fun '(c, d) => Nat.eqb a d && Nat.eqb b c) (ends_of data o))) (ends_of data q).
Lemma no_return_check data p q o : no_return_at data p q o = true ->
  forall s t u, has_side data p s -> has_side data q t -> has_side data o u -> opposite s t -> opposite t u -> False.
Proof.
  intros H s t u Hs Ht Hu (a & b & F1 & F2) (c & d & F3 & F4). destruct (from_to_inj _ _ _ _ _ F2 F3) as [-> ->].
  unfold no_return_at in H. rewrite forallb_forall in H. specialize (H _ (ends_of_side _ _ _ _ _ Ht F3)). cbn in H.
  apply negb_true_iff, andb_false_iff in H. destruct H as [H|H].
  - assert (K : existsb (fun '(c0, d0) => Nat.eqb c d0 && Nat.eqb d c0) (ends_of data p) = true); [|congruence].
    apply existsb_exists. exists (d, c). split; [exact (ends_of_side _ _ _ _ _ Hs F1)|]. now rewrite !Nat.eqb_refl.
  - assert (K : existsb (fun '(c0, d0) => Nat.eqb c d0 && Nat.eqb d c0) (ends_of data o) = true); [|congruence].
    apply existsb_exists. exists (d, c). split; [exact (ends_of_side _ _ _ _ _ Hu F4)|]. now rewrite !Nat.eqb_refl.
Qed.

Lemma ex_wf p : In p [Lane ex_a; Lane ex_b; ex_area; ex_bent] -> well_formed ex_data p.
Proof.
  intros [<-|[<-|[<-|[<-|[]]]]]; cbn.
  - split; discriminate.
  - split; discriminate.
  - split; [lia|]. exists 5%nat, 4%nat. split; [exists [4%nat], [5%nat]; auto|].
    exists 5%nat. split; [exists [6; 7; 5]%nat, [4; 6; 7]%nat; auto|reflexivity].
  - split; [lia|]. exists 5%nat, 4%nat. split; [exists [8; 4]%nat, [5; 8]%nat; auto|].
    exists 5%nat. split; [exists [6; 7; 5]%nat, [4; 6; 7]%nat; auto|reflexivity].
Qed.
Lemma ex_neat p : In p [Lane ex_a; Lane ex_b; ex_area] -> neat ex_data p.
Proof.
  intros [<-|[<-|[<-|[]]]]; cbn [neat].
  - unfold tidy. cbn. repeat split; lia.
  - unfold tidy. cbn. repeat split; lia.
  - intros l a b [<-|[<-|[]]] F; apply from_to_ends in F; destruct F as [-> ->]; cbn; lia.
Qed.
Lemma ex_ab : related ex_data (Lane ex_a) (Lane ex_b).
Proof. left. exists [0]%nat, 1%nat, [4]%nat, [2]%nat, 3%nat, [5]%nat. auto. Qed.
Lemma ex_end : lane_end ex_data ex_b [4; 5]%nat.
Proof. apply (end_back ex_data ex_b [1]%nat 4%nat [3]%nat 5%nat); reflexivity. Qed.
Lemma ex_touch c : c = ex_line 4 \/ c = ex_line 6 -> touches ex_data ex_b [c; ex_line 5].
Proof.
  intros H. left. exists c, [4; 5]%nat. split; [now left|]. split; [exact ex_end|]. exists 4%nat, 5%nat. split; [exists [5]%nat, [4]%nat; auto|].
  destruct H as [->| ->]; [exists [4]%nat, [5]%nat; auto|exists [8; 4]%nat, [5; 8]%nat; auto].
Qed.

Example C92_nonvacuous :
  (forall p, In p [Lane ex_a; Lane ex_b; ex_area] -> well_formed ex_data p)
  /\ chained ex_data [Lane ex_a; Lane ex_b; ex_area] /\ no_return ex_data [Lane ex_a; Lane ex_b; ex_area]
  /\ enclosing_polygon ex_data [Lane ex_a; Lane ex_b; ex_area] = Done [3; 2; 0; 1; 4; 6; 7; 5]%nat
  /\ around (shoelace ex_xy) [3; 2; 0; 1; 4; 6; 7; 5]%nat = - 120
  /\ (forall p, In p [Lane ex_a; Lane ex_b; ex_area] -> neat ex_data p)
  /\ enclosing_polygon ex_data [Lane ex_a; ex_area] = RuntimeFailure
  /\ enclosing_polygon ex_data [ex_area; Lane ex_a] = NoGeometry.
Proof.
  split; [intros p Hp; apply ex_wf; cbn in *; tauto|]. split; [split; [exact ex_ab|split; [apply ex_touch; auto|exact I]]|].
  split; [split; [apply no_return_check; reflexivity|exact I]|]. split; [vm_compute; reflexivity|].
  split; [unfold around, shoelace; cbn; lra|]. split; [intros p Hp; apply ex_neat; cbn in *; tauto|]. split; vm_compute; reflexivity.
Qed.

(** ** Findings *)

(** A bend in the border between the end of a lanelet and an area is lost. *)
Theorem C92_bent_border_refuted : exists data path xy poly,
  (forall p, In p path -> well_formed data p) /\ chained data path /\ no_return data path
  /\ enclosing_polygon data path = Done poly
  /\ around (shoelace xy) poly <> total (map (fun p => around (shoelace xy) (outline data p)) path).
Proof.
  exists ex_data, [Lane ex_a; Lane ex_b; ex_bent], ex_xy, [3; 2; 0; 1; 4; 6; 7; 5]%nat.
  split; [intros p Hp; apply ex_wf; cbn in *; tauto|]. split; [split; [exact ex_ab|split; [apply ex_touch; auto|exact I]]|].
  split; [split; [apply no_return_check; reflexivity|exact I]|]. split; [vm_compute; reflexivity|].
  unfold around, shoelace, total. cbn. lra.
Qed.
Print Assumptions C92_bent_border_refuted.

(** A path which comes back by the side it came from has another polygon. *)
Theorem C92_return_refuted : exists data path xy poly,
  (forall p, In p path -> well_formed data p) /\ chained data path
  /\ (forall pre p q post b, path = pre ++ p :: q :: post -> crossing data p q b -> (length b <= 2)%nat)
  /\ enclosing_polygon data path = Done poly
  /\ around (shoelace xy) poly <> total (map (fun p => around (shoelace xy) (outline data p)) path).
Proof.
  exists ex_data, [Lane ex_b; ex_area; Lane (invert ex_b)], ex_xy. eexists.
  split; [|split; [|split; [|split; [vm_compute; reflexivity|]]]].
  - intros p [<-|[<-|[<-|[]]]]; [apply ex_wf; cbn; tauto|apply ex_wf; cbn; tauto|]. split; discriminate.
  - split; [apply ex_touch; auto|]. split; [|exact I]. left. exists (ex_line 4), [4; 5]%nat. split; [now left|].
    split; [apply (end_front ex_data (invert ex_b) 5 [3]%nat 4 [1]%nat); reflexivity|].
    exists 4%nat, 5%nat. split; [exists [5]%nat, [4]%nat; auto|exists [4]%nat, [5]%nat; auto].
  - intros pre p q post b E (bs & l & ll & s & H & Hl & -> & He & x & y & F & F').
    assert (K : In (Region bs) (pre ++ p :: q :: post) /\ In (Lane ll) (pre ++ p :: q :: post)).
    { split; apply in_or_app; right; destruct H as [[-> ->]|[-> ->]]; cbn; auto. }
    rewrite <- E in K. destruct K as [K1 K2].
    assert (Q : bs = [ex_line 4; ex_line 5]) by (destruct K1 as [?|[K|[?|[]]]]; try discriminate; injection K; auto).
    subst bs. destruct Hl as [<-|[<-|[]]]; [cbn; lia|]. exfalso.
    apply from_to_ends in F'. destruct F' as [-> ->]. cbn in F. assert (G := ends_of_side ex_data (Lane ll) s _ _ (side_end ex_data ll s He) F).
    destruct K2 as [K2|[K2|[K2|[]]]]; try discriminate; injection K2 as <-; cbn in G; repeat (destruct G as [G|G]; [discriminate|]); exact G.
  - unfold around, shoelace, total. cbn. lra.
Qed.
Print Assumptions C92_return_refuted.

(** Lanelets which are not related are joined without an error. *)
Theorem C92_unrelated_refuted : exists data a b xy poly,
  well_formed data (Lane a) /\ well_formed data (Lane b) /\ ~ related data (Lane a) (Lane b)
  /\ enclosing_polygon data [Lane a; Lane b] = Done poly
  /\ around (shoelace xy) poly <> around (shoelace xy) (outline data (Lane a)) + around (shoelace xy) (outline data (Lane b)).
Proof.
  exists ex_data, ex_a, (Lanelet (ex_line 4) (Line 5 true)), ex_xy. eexists.
  split; [apply ex_wf; cbn; tauto|]. split; [split; discriminate|]. split; [|split; [vm_compute; reflexivity|]].
  - intros [H|[H|[H|H]]].
    + apply follows_succession in H. vm_compute in H. discriminate.
    + apply follows_succession in H. vm_compute in H. discriminate.
    + discriminate.
    + discriminate.
  - unfold around, shoelace. cbn. lra.
Qed.
Print Assumptions C92_unrelated_refuted.

(** The polygon of a single area ends with the point it starts with. *)
Theorem C92_single_area_refuted data bs : well_formed data (Region bs) ->
  exists poly a, enclosing_polygon data [Region bs] = Done poly /\ from_to poly a a.
Proof.
  intros [L (a & H)]. cbn [enclosing_polygon]. unfold bounding_polygon. rewrite compound_spec. eexists. exists a. split; [reflexivity|].
  apply dedup_from_to. exact (proj1 (linked_way data (fun _ _ => 0) ltac:(intros x y; lra) a bs a H ltac:(intros ->; cbn in L; lia))).
Qed.
Print Assumptions C92_single_area_refuted.

(** * C93: getRemainingLane *)

(** The lane from a position on: the longest piece of the path in which every lanelet succeeds the one before *)
Theorem C93_remaining_lane data path : exists rest, path = remaining_lane data path ++ rest
  /\ successive data (remaining_lane data path) /\ (path <> [] -> remaining_lane data path <> [])
  /\ (forall l r n q, remaining_lane data path = r ++ [l] -> rest = n :: q -> ~ in_succession data l n).
Proof. apply remaining_spec. Qed.
Print Assumptions C93_remaining_lane.
(** Every such piece is part of it. *)
Theorem C93_longest data path lane rest : path = lane ++ rest -> successive data lane ->
  exists more, remaining_lane data path = lane ++ more.
Proof.
  revert lane. induction path as [|a path IH]; intros lane E Sc.
  - destruct lane; [|discriminate]. exists []. reflexivity.
  - destruct lane as [|a' lane]; [eexists; reflexivity|]. cbn [app] in E. injection E as <- E. destruct path as [|b path].
    + destruct lane; [|discriminate]. exists []. reflexivity.
    + change (remaining_lane data (a :: b :: path)) with (a :: if negb (follows data a b) then [] else remaining_lane data (b :: path)).
      destruct lane as [|b' lane]; [eexists; reflexivity|]. assert (b' = b) by (cbn in E; congruence). subst b'.
      destruct Sc as [S1 S2]. apply follows_succession in S1. rewrite S1. cbn [negb].
      destruct (IH (b :: lane) E S2) as (more & ->). exists more. reflexivity.
Qed.
Print Assumptions C93_longest.
Example C93_nonvacuous : remaining_lane ex_data [ex_a; ex_b; ex_a] = [ex_a; ex_b]
  /\ successive ex_data [ex_a; ex_b] /\ ~ in_succession ex_data ex_b ex_a.
Proof.
  split; [reflexivity|]. split; [split; [|exact I]; now apply follows_succession|].
  intros H. apply follows_succession in H. vm_compute in H. discriminate.
Qed.
