(** Properties of the partition of polygons (PolygonTriangulationGeometry.cpp) *)
From Coq Require Import List Bool Arith ZArith QArith Permutation Sorted Lia.
From Verif Require Import PartitionModel PartitionSpec PartitionLists PartitionMerge PartitionProofs.
Import ListNotations.
Local Open Scope nat_scope.

(** * C78: the parts fill the polygon *)

(** If the edges of the polygon are edges of the Voronoi polygons, the partition ends without an exception. Every part is put together from Voronoi
    polygons, each of those inside the polygon is used once, and together the parts are bounded by the edges of the polygon: all others occur in both directions. *)
Theorem C78_partition_fills cells n convex order : (forall l, Permutation (order l) l) -> 3 <= n -> divided cells n ->
  exists parts groups, convex_partition cells convex n order = Ok parts /\
    Forall2 (fun g p => fill (map (fun i => nth i cells []) g) (edges p)) groups parts /\
    NoDup (concat groups) /\ (forall i, In i (concat groups) <-> reached cells n i) /\
    Forall (inside n) parts /\ fill parts (edges (seq 0 n)).
Proof.
  intros Ho Hn Hd. destruct (partition_ok cells n convex order Ho Hn Hd) as (ps & gs & E & F & D & R & I & Fi & _). exists ps, gs. repeat (split; [solve [auto]|]). auto.
Qed.
Print Assumptions C78_partition_fills.

(** Sums over directed edges that change their sign with the direction *)
Local Open Scope Z_scope.
Lemma sum_app f a b : sum_edges f (a ++ b) = sum_edges f a + sum_edges f b.
Proof. unfold sum_edges. induction a as [|x a IH]; cbn [app fold_right]; [lia|]. rewrite IH. lia. Qed.
Lemma sum_perm f a b : Permutation a b -> sum_edges f a = sum_edges f b.
Proof. unfold sum_edges. intros P. induction P; cbn [fold_right]; lia. Qed.
Lemma sum_turned f l : (forall a b, f (b, a) = - f (a, b)) -> sum_edges f (map turned l) = - sum_edges f l.
Proof. unfold sum_edges. intros H. induction l as [|[a b] l IH]; cbn [map fold_right]; [lia|]. rewrite IH. unfold turned. cbn [fst snd]. rewrite H. lia. Qed.
Lemma fill_sum f ps border : (forall a b, f (b, a) = - f (a, b)) -> fill ps border -> sum_edges f (flat_map edges ps) = sum_edges f border.
Proof. intros H (inner & P). rewrite (sum_perm f _ _ P), !sum_app, sum_turned by auto. lia. Qed.
(** The areas of the parts add up to the area of the polygon, wherever the points are. *)
Theorem C78_partition_area cells n convex order pts : (forall l, Permutation (order l) l) -> (3 <= n)%nat -> divided cells n ->
  exists parts, convex_partition cells convex n order = Ok parts /\ fold_right Z.add 0 (map (area pts) parts) = area pts (seq 0 n).
Proof.
  intros Ho Hn Hd. destruct (C78_partition_fills cells n convex order Ho Hn Hd) as (ps & gs & E & _ & _ & _ & _ & F). exists ps. split; auto.
  set (f e := fst (at_point pts (fst e)) * snd (at_point pts (snd e)) - snd (at_point pts (fst e)) * fst (at_point pts (snd e))).
  assert (Hf : forall a b, f (b, a) = - f (a, b)) by (intros; unfold f; cbn; ring). pose proof (fill_sum f ps _ Hf F) as K. unfold area. fold f. rewrite <- K.
  clear. induction ps as [|p ps IH]; cbn [map fold_right flat_map]; auto. rewrite sum_app, IH. reflexivity.
Qed.
Print Assumptions C78_partition_area.

(** * C79: the parts are convex *)

Theorem C79_parts_convex cells n convex order : (forall l, Permutation (order l) l) -> (3 <= n)%nat -> divided cells n ->
  (forall i c, reached cells n i -> nth_error cells i = Some c -> turns convex c) ->
  exists parts, convex_partition cells convex n order = Ok parts /\ Forall (turns convex) parts.
Proof.
  intros Ho Hn Hd Ht. destruct (partition_ok cells n convex order Ho Hn Hd) as (ps & gs & E & F & D & R & I & Fi & T). exists ps. split; auto.
Qed.
Print Assumptions C79_parts_convex.

(** An L: the Voronoi polygon 3 is outside. *)
Notation ell := [(0, 0); (0, 5); (2, 4); (2, 2); (4, 3); (6, 0)] (only parsing).
Lemma ell_delaunay : delaunay ell = [[0; 1; 3]; [0; 3; 5]; [1; 2; 3]; [2; 4; 3]; [3; 4; 5]]%nat.
Proof. vm_compute. reflexivity. Qed.

Definition ell_cells : list (list nat) := [[0; 1; 3]; [0; 3; 5]; [1; 2; 3]; [2; 4; 3]; [3; 4; 5]]%nat.
Lemma ell_reached i : reached ell_cells 6 i -> In i [0; 1; 2; 4]%nat.
Proof.
  intros R. induction R as [i c N H|i c e j d R IH N He Ho Nj Hd].
  - destruct i as [|[|[|[|[|[|]]]]]]; cbn in N; inversion N; subst; cbn in H |- *; intuition congruence.
  - destruct IH as [<-|[<-|[<-|[<-|[]]]]]; cbn in N; inversion N; subst c; cbn in He;
    (destruct He as [<-|[<-|[<-|[]]]]; try (exfalso; apply Ho; vm_compute; tauto);
     destruct j as [|[|[|[|[|[|]]]]]]; cbn in Nj; inversion Nj; subst d; unfold turned in Hd; cbn in Hd |- *; intuition congruence).
Qed.
Lemma ell_divided : divided ell_cells 6.
Proof.
  split.
  - exists 0%nat, [0; 1; 3]%nat. split; [reflexivity|]. left. reflexivity.
  - intros i c R N. apply ell_reached in R. split; [|split].
    + destruct R as [<-|[<-|[<-|[<-|[]]]]]; inversion N; subst; cbn; lia.
    + destruct R as [<-|[<-|[<-|[<-|[]]]]]; inversion N; subst; cbn; intuition lia.
    + exists [], c. split; auto. rewrite app_nil_r. destruct R as [<-|[<-|[<-|[<-|[]]]]]; inversion N; subst; repeat constructor.
  - intros i c e R N He Ho. apply ell_reached in R.
    destruct R as [<-|[<-|[<-|[<-|[]]]]]; inversion N; subst c; (destruct He as [<-|[<-|[<-|[]]]]; try (exfalso; apply Ho; vm_compute; tauto)).
    all: match goal with |- exists j d, _ /\ In ?e _ => let e' := eval vm_compute in e in change e with e' end.
    all: try (exists 0%nat; eexists; split; [reflexivity|vm_compute; tauto]).
    all: try (exists 1%nat; eexists; split; [reflexivity|vm_compute; tauto]).
    all: try (exists 2%nat; eexists; split; [reflexivity|vm_compute; tauto]).
    all: exists 4%nat; eexists; split; [reflexivity|vm_compute; tauto].
  - intros i c j d e Ni Nj Hi Hj. destruct i as [|[|[|[|[|[|]]]]]]; cbn in Ni; inversion Ni; subst c; destruct j as [|[|[|[|[|[|]]]]]]; cbn in Nj; inversion Nj; subst d; auto;
    cbn in Hi, Hj; intuition congruence.
Qed.
Example C78_nonvacuous : simple ell = true /\ clockwise ell = true /\ general_position ell = true /\ delaunay ell = ell_cells /\ divided ell_cells 6 /\
  convex_partition ell_cells (right_turn ell) 6 (fun l => l) = Ok [[0; 1; 2; 3]; [0; 3; 4; 5]]%nat /\
  map (area ell) [[0; 1; 2; 3]; [0; 3; 4; 5]]%nat = [-14; -20] /\ area ell (seq 0 6) = -34.
Proof. split; [|split; [|split; [|split; [|split; [exact ell_divided|split; [|split]]]]]]; vm_compute; reflexivity. Qed.
Example C79_nonvacuous : divided ell_cells 6 /\ (forall i c, reached ell_cells 6 i -> nth_error ell_cells i = Some c -> turns (right_turn ell) c) /\
  Forall (turns (right_turn ell)) [[0; 1; 2; 3]; [0; 3; 4; 5]]%nat /\ ~ turns (right_turn ell) (seq 0 6).
Proof.
  split; [exact ell_divided|]. split; [|split].
  - intros i c R N x y z Hx Hy. apply ell_reached in R. destruct R as [<-|[<-|[<-|[<-|[]]]]]; inversion N; subst c; cbn in Hx, Hy;
    intuition (repeat match goal with H : (_, _) = (_, _) |- _ => inversion H; clear H; subst end; try discriminate; reflexivity).
  - repeat constructor; intros x y z Hx Hy; cbn in Hx, Hy;
    intuition (repeat match goal with H : (_, _) = (_, _) |- _ => inversion H; clear H; subst end; try discriminate; reflexivity).
  - intros H. specialize (H 2 3 4)%nat. cbn [edges] in H. assert (K : right_turn ell (2, 3)%nat (3, 4)%nat = true) by (apply H; vm_compute; tauto). vm_compute in K. discriminate.
Qed.

(** * C80: polygons with edges that are no Delaunay edges *)

Section Orders.
Variable order : list connection -> list connection.
Hypothesis order_perm : forall l, Permutation (order l) l.
Lemma order_nil : order [] = []. Proof. apply Permutation_nil. symmetry. auto. Qed.
Lemma order_one a : order [a] = [a]. Proof. apply Permutation_length_1_inv. symmetry. auto. Qed.
Lemma order_two a b : order [a; b] = [a; b] \/ order [a; b] = [b; a]. Proof. apply Permutation_length_2_inv. symmetry. auto. Qed.

Notation notch := [(5, 2); (3, 4); (8, 7); (9, 10); (11, 7); (10, 1); (8, 2); (9, 8)] (only parsing).
Definition notch_cells : list (list nat) := [[0; 1; 2]; [0; 2; 6]; [0; 6; 5]; [1; 3; 2]; [2; 3; 7]; [2; 4; 6]; [2; 7; 4]; [3; 4; 7]; [4; 5; 6]]%nat.
Notation walk := (traverse notch_cells (right_turn notch) 8 order).
Lemma walk_step fuel head gates origin ps vs : walk (S fuel) head gates origin ps vs =
  do l <- find_gates_loop notch_cells 8 gates vs;
  do (s, closed) <- open_loop notch_cells (right_turn notch) (walk fuel) (order l) (State head ps vs) [];
  closed_loop notch_cells (walk fuel) closed (if origin then State (poly s) (parts s ++ [poly s]) (visited s) else s).
Proof. cbn [traverse]. unfold find_gates. destruct (find_gates_loop notch_cells 8 gates vs); reflexivity. Qed.
Lemma open_cons rec c r s closed : open_loop notch_cells (right_turn notch) rec (c :: r) s closed =
  if existsb (Nat.eqb (c_new c)) (visited s) then open_loop notch_cells (right_turn notch) rec r s closed
  else
    do local <- adjacent (poly s) (c_border c);
    if connection_convex (right_turn notch) local (c_first c, c_second c) then
      do new <- polygon_by_index notch_cells (c_new c);
      do (merged, added) <- merge (poly s) new (c_border c);
      do s' <- rec merged added false (parts s) (c_new c :: visited s);
      open_loop notch_cells (right_turn notch) rec r s' closed
    else open_loop notch_cells (right_turn notch) rec r s (closed ++ [c]).
Proof. reflexivity. Qed.
Lemma closed_cons rec c r s : closed_loop notch_cells rec (c :: r) s =
  if existsb (Nat.eqb (c_new c)) (visited s) then closed_loop notch_cells rec r s
  else
    do new <- polygon_by_index notch_cells (c_new c);
    do s' <- rec new (segments_except new (c_border c)) true (parts s) (visited s);
    closed_loop notch_cells rec r (State (poly s) (parts s') (visited s')).
Proof. reflexivity. Qed.
Ltac value t := let t' := eval vm_compute in t in change t with t'.
Ltac walk_on :=
  repeat (first
  [ rewrite walk_step | rewrite open_cons | rewrite closed_cons | rewrite order_nil | rewrite order_one
  | match goal with
    | |- context [find_gates_loop notch_cells 8 ?g ?v] => value (find_gates_loop notch_cells 8 g v)
    | |- context [existsb ?f ?l] => value (existsb f l)
    | |- context [adjacent ?p ?b] => value (adjacent p b)
    | |- context [connection_convex ?c ?a ?b] => value (connection_convex c a b)
    | |- context [polygon_by_index ?p ?b] => value (polygon_by_index p b)
    | |- context [merge ?p ?q ?b] => value (merge p q b)
    | |- context [open_loop ?c ?r ?w [] ?s ?cl] => change (open_loop c r w [] s cl) with (@Ok (state * list connection) (s, cl))
    | |- context [closed_loop ?c ?w [] ?s] => change (closed_loop c w [] s) with (@Ok state s)
    | |- context [order [?a; ?b]] => destruct (order_two a b) as [E|E]; rewrite E; clear E
    end ]; cbn [bind poly parts visited c_border c_first c_second c_new app]).
(** Three polygons around the point 7 whose gates are closed: they are visited again and again. *)
Lemma walk_forever fuel : forall ps,
  walk fuel [2; 3; 7]%nat (segments_except [2; 3; 7] (7, 3))%nat true ps [5; 1; 0]%nat = OutOfFuel /\
  walk fuel [2; 7; 4]%nat (segments_except [2; 7; 4] (7, 2))%nat true ps [5; 1; 0]%nat = OutOfFuel /\
  walk fuel [3; 4; 7]%nat (segments_except [3; 4; 7] (7, 4))%nat true ps [5; 1; 0]%nat = OutOfFuel.
Proof.
  induction fuel as [|fuel IH]; intros ps; [auto|]. split; [|split]; walk_on.
  - destruct (IH (ps ++ [[2; 3; 7]])%nat) as (_ & E & _). rewrite E. reflexivity.
  - destruct (IH (ps ++ [[2; 7; 4]])%nat) as (_ & _ & E). rewrite E. reflexivity.
  - destruct (IH (ps ++ [[3; 4; 7]])%nat) as (E & _). rewrite E. reflexivity.
Qed.
Lemma walk_backwards fuel : forall ps,
  walk fuel [2; 3; 7]%nat (segments_except [2; 3; 7] (2, 7))%nat true ps [5; 1; 0]%nat = OutOfFuel /\
  walk fuel [2; 7; 4]%nat (segments_except [2; 7; 4] (4, 7))%nat true ps [5; 1; 0]%nat = OutOfFuel /\
  walk fuel [3; 4; 7]%nat (segments_except [3; 4; 7] (3, 7))%nat true ps [5; 1; 0]%nat = OutOfFuel.
Proof.
  induction fuel as [|fuel IH]; intros ps; [auto|]. split; [|split]; walk_on.
  - destruct (IH (ps ++ [[2; 3; 7]])%nat) as (_ & _ & E). rewrite E. reflexivity.
  - destruct (IH (ps ++ [[2; 7; 4]])%nat) as (E & _). rewrite E. reflexivity.
  - destruct (IH (ps ++ [[3; 4; 7]])%nat) as (_ & E & _). rewrite E. reflexivity.
Qed.
Lemma walk_corner fuel ps : walk fuel [2; 7; 4]%nat (segments_except [2; 7; 4] (2, 4))%nat true ps [5; 1; 0]%nat = OutOfFuel.
Proof.
  destruct fuel as [|fuel]; [auto|]. walk_on.
  - rewrite (proj1 (walk_backwards fuel _)). reflexivity.
  - rewrite (proj2 (proj2 (walk_forever fuel _))). reflexivity.
Qed.
Lemma walk_end fuel ps : walk fuel [4; 5; 6]%nat (segments_except [4; 5; 6] (4, 6))%nat true ps [5; 1; 0]%nat =
  match fuel with O => OutOfFuel | S _ => Ok (State [4; 5; 6]%nat (ps ++ [[4; 5; 6]%nat]) [5; 1; 0]%nat) end.
Proof. destruct fuel as [|fuel]; [auto|]. walk_on. reflexivity. Qed.
(** The recursion has no end: no fuel is enough, whatever the order of the gates. *)
Theorem C80_endless_recursion_refuted : simple notch = true /\ clockwise notch = true /\ general_position notch = true /\ delaunay notch = notch_cells /\
  destination notch_cells (1, 0)%nat = Ok 0%nat /\ forall fuel, walk fuel [0; 1; 2]%nat (segments_except [0; 1; 2] (1, 0))%nat true [] [0]%nat = OutOfFuel.
Proof.
  split; [vm_compute; reflexivity|]. split; [vm_compute; reflexivity|]. split; [vm_compute; reflexivity|]. split; [vm_compute; reflexivity|]. split; [reflexivity|].
  intros fuel. destruct fuel as [|fuel]; [auto|]. walk_on. destruct fuel as [|fuel]; [auto|]. walk_on. all: destruct fuel as [|fuel]; [auto|]; walk_on.
  all: first [ rewrite walk_corner; reflexivity | rewrite walk_end; destruct fuel as [|fuel]; [reflexivity|]; set (f := S fuel); clearbody f; cbn [bind poly parts visited app]; walk_on; rewrite walk_corner; reflexivity ].
Qed.
End Orders.
Print Assumptions C80_endless_recursion_refuted.

(** The exception of a polygon whose edge from 3 to 4 is no Delaunay edge *)
Notation crossed := [(3, 9); (11, 8); (3, 4); (1, 4); (5, 6); (4, 6)] (only parsing).
Theorem C80_partition_throws_refuted : simple crossed = true /\ clockwise crossed = true /\ general_position crossed = true /\
  convex_partition (delaunay crossed) (right_turn crossed) 6 (fun l => l) = Thrown /\
  Forall (fun c => ~ In (3, 4)%nat (edges c)) (delaunay crossed).
Proof.
  split; [vm_compute; reflexivity|]. split; [vm_compute; reflexivity|]. split; [vm_compute; reflexivity|]. split; [vm_compute; reflexivity|].
  let d := eval vm_compute in (delaunay crossed) in change (delaunay crossed) with d. repeat constructor; cbn; intuition discriminate.
Qed.
Print Assumptions C80_partition_throws_refuted.

(** The triangles of a polygon that is not convex cover its convex hull. *)
Notation arrow := [(0, 0); (0, 10); (3, 3); (10, 0)] (only parsing).
Theorem C80_triangles_outside_refuted : simple arrow = true /\ clockwise arrow = true /\ general_position arrow = true /\
  triangulate (delaunay arrow) 4 = Ok [(0, 1, 2); (0, 2, 3); (1, 3, 2)]%nat /\
  area arrow (seq 0 4) = -60 /\ map (triangle_area arrow) [(0, 1, 2); (0, 2, 3); (1, 3, 2)]%nat = [-30; -30; -40].
Proof. repeat (split; [vm_compute; reflexivity|]). vm_compute. reflexivity. Qed.
Print Assumptions C80_triangles_outside_refuted.

(** What triangulate does: the triangles of each Voronoi polygon have its area, those outside included. *)
Lemma fan_area pts a x r : fold_right Z.add 0 (map (triangle_area pts) (fan a (x :: r))) = area pts (a :: x :: r).
Proof.
  set (f e := fst (at_point pts (fst e)) * snd (at_point pts (snd e)) - snd (at_point pts (fst e)) * fst (at_point pts (snd e))).
  assert (Hf : forall u v, f (v, u) = - f (u, v)) by (intros; unfold f; cbn; ring).
  assert (Ht : forall u v w, triangle_area pts (u, v, w) = f (u, v) + f (v, w) + f (w, u)).
  { intros. unfold triangle_area, side, f. cbn [fst snd]. ring. }
  assert (Ha : forall y l, sum_edges f (path (y :: l ++ [a])) + f (a, y) = fold_right Z.add 0 (map (triangle_area pts) (fan a (y :: l)))).
  { intros y l. revert y. induction l as [|z l IH]; intros y.
    - cbn. rewrite (Hf a y). lia.
    - change (fan a (y :: z :: l)) with ((a, y, z) :: fan a (z :: l)). cbn [app map fold_right]. rewrite <- IH, path_cons. cbn [sum_edges fold_right]. fold (sum_edges f (path (z :: l ++ [a]))).
      rewrite Ht, (Hf a z). unfold sum_edges. lia. }
  unfold area. fold f. rewrite <- Ha, edges_path. cbn [app]. rewrite path_cons. unfold sum_edges. cbn [fold_right]. lia.
Qed.
Theorem C80_triangulate_partial pts cells n : (3 <= n)%nat ->
  exists ts, triangulate cells n = Ok ts /\ fold_right Z.add 0 (map (triangle_area pts) ts) = fold_right Z.add 0 (map (area pts) cells).
Proof.
  intros Hn. unfold triangulate. destruct (Nat.ltb_spec n 3); [lia|]. exists (flat_map subdivide cells). split; auto.
  induction cells as [|c cells IH]; [reflexivity|]. cbn [flat_map map fold_right]. rewrite map_app, fold_right_app, IH. clear.
  assert (K : forall l z, fold_right Z.add z l = fold_right Z.add 0 l + z) by (induction l as [|x l IH]; intros z; cbn; [lia|rewrite IH; lia]).
  rewrite K. f_equal. destruct c as [|a [|x r]]; [reflexivity| |apply (fan_area pts a x r)]. unfold area, sum_edges. cbn. ring.
Qed.
Print Assumptions C80_triangulate_partial.
Example C80_nonvacuous : triangulate [[0; 1; 2; 3]]%nat 4 = Ok [(0, 1, 2); (0, 2, 3)]%nat /\ area [(0, 0); (0, 4); (4, 4); (4, 0)] [0; 1; 2; 3]%nat = -32 /\
  map (triangle_area [(0, 0); (0, 4); (4, 4); (4, 0)]) [(0, 1, 2); (0, 2, 3)]%nat = [-16; -16].
Proof. repeat (split; [vm_compute; reflexivity|]). vm_compute. reflexivity. Qed.

(** The documented accuracy is a millimetre, but points 8 millimetres apart coincide. *)
Theorem C80_accuracy_refuted : to_voronoi (1 # 1000)%Q = to_voronoi (9 # 1000)%Q.
Proof. reflexivity. Qed.
Print Assumptions C80_accuracy_refuted.

(** * C79: the number of parts *)

Section Count.
Variable order : list connection -> list connection.
Hypothesis order_perm : forall l, Permutation (order l) l.
(** Four corners to the inside; two diagonals, 2-10 and 4-8, make three convex parts, but they are no Delaunay edges. *)
Definition bow : list (Z * Z) := [(-19, -5); (-4, 47); (0, 17); (1, 40); (9, 31); (11, 64); (26, 18); (23, -5); (10, -5); (6, -21); (0, -17); (-20, -51)].
Definition bow_cells : list (list nat) :=
  [[0; 1; 2]; [0; 2; 8]; [0; 8; 10]; [0; 10; 11]; [1; 3; 2]; [1; 5; 3]; [2; 3; 4]; [2; 4; 6]; [2; 6; 8]; [3; 5; 4]; [4; 5; 6]; [6; 7; 8]; [7; 9; 8]; [7; 11; 9];
   [8; 9; 10]; [9; 11; 10]]%nat.
Notation walk := (traverse bow_cells (right_turn bow) 12 order).
Lemma bow_step fuel head gates origin ps vs : walk (S fuel) head gates origin ps vs =
  do l <- find_gates_loop bow_cells 12 gates vs;
  do (s, closed) <- open_loop bow_cells (right_turn bow) (walk fuel) (order l) (State head ps vs) [];
  closed_loop bow_cells (walk fuel) closed (if origin then State (poly s) (parts s ++ [poly s]) (visited s) else s).
Proof. cbn [traverse]. unfold find_gates. destruct (find_gates_loop bow_cells 12 gates vs); reflexivity. Qed.
Lemma bow_open rec c r s closed : open_loop bow_cells (right_turn bow) rec (c :: r) s closed =
  if existsb (Nat.eqb (c_new c)) (visited s) then open_loop bow_cells (right_turn bow) rec r s closed
  else
    do local <- adjacent (poly s) (c_border c);
    if connection_convex (right_turn bow) local (c_first c, c_second c) then
      do new <- polygon_by_index bow_cells (c_new c);
      do (merged, added) <- merge (poly s) new (c_border c);
      do s' <- rec merged added false (parts s) (c_new c :: visited s);
      open_loop bow_cells (right_turn bow) rec r s' closed
    else open_loop bow_cells (right_turn bow) rec r s (closed ++ [c]).
Proof. reflexivity. Qed.
Lemma bow_closed rec c r s : closed_loop bow_cells rec (c :: r) s =
  if existsb (Nat.eqb (c_new c)) (visited s) then closed_loop bow_cells rec r s
  else
    do new <- polygon_by_index bow_cells (c_new c);
    do s' <- rec new (segments_except new (c_border c)) true (parts s) (visited s);
    closed_loop bow_cells rec r (State (poly s) (parts s') (visited s')).
Proof. reflexivity. Qed.
Ltac value t := let t' := eval vm_compute in t in change t with t'.
Ltac bow_on :=
  repeat (first
  [ match goal with
    | |- context [find_gates_loop bow_cells 12 ?g ?v] => value (find_gates_loop bow_cells 12 g v)
    | |- context [existsb ?f ?l] => value (existsb f l)
    | |- context [adjacent ?p ?b] => value (adjacent p b)
    | |- context [connection_convex ?c ?a ?b] => value (connection_convex c a b)
    | |- context [polygon_by_index ?p ?b] => value (polygon_by_index p b)
    | |- context [merge ?p ?q ?b] => value (merge p q b)
    | |- context [open_loop ?c ?r ?w [] ?s ?cl] => change (open_loop c r w [] s cl) with (@Ok (state * list connection) (s, cl))
    | |- context [closed_loop ?c ?w [] ?s] => change (closed_loop c w [] s) with (@Ok state s)
    | |- context [order []] => rewrite (order_nil order order_perm)
    | |- context [order [?a]] => rewrite (order_one order order_perm a)
    | |- context [order [?a; ?b]] => let E := fresh in destruct (order_two order order_perm a b) as [E|E]; rewrite E; clear E
    end | rewrite bow_open | rewrite bow_closed | rewrite bow_step ]; cbn [bind poly parts visited c_border c_first c_second c_new app]).
Ltac perm_pull x pre suf :=
  lazymatch suf with
  | x :: ?t => let p := eval cbv [rev app rev_append] in (rev pre) in
      match goal with |- Permutation (_ :: ?l) _ => change (Permutation (x :: l) (p ++ x :: t)); apply Permutation_cons_app; cbn [app] end
  | ?y :: ?t => perm_pull x (y :: pre) t
  end.
Ltac perm_solve :=
  repeat match goal with |- Permutation (?x :: _) ?r => perm_pull x (@nil (nat * nat)) r end; apply perm_nil.
(** The documented bound, 2 N + 1 parts for the smallest number N of convex parts, is not kept: three convex parts are enough, eight are returned. *)
Theorem C79_number_refuted : simple bow = true /\ clockwise bow = true /\ general_position bow = true /\ delaunay bow = bow_cells /\
  forallb (fun e => existsb (fun c => existsb (same_segment e) (edges c)) bow_cells) (edges (seq 0 12)) = true /\
  (exists best, length best = 3%nat /\ fill best (edges (seq 0 12)) /\ Forall (turns (right_turn bow)) best /\ Forall (inside 12) best) /\
  exists parts, convex_partition bow_cells (right_turn bow) 12 order = Ok parts /\ (length parts = 8 /\ length parts > 2 * 3 + 1)%nat.
Proof.
  split; [vm_compute; reflexivity|]. split; [vm_compute; reflexivity|]. split; [vm_compute; reflexivity|]. split; [vm_compute; reflexivity|]. split; [vm_compute; reflexivity|]. split.
  - exists [[0; 1; 2; 10; 11]; [2; 3; 4; 8; 9; 10]; [4; 5; 6; 7; 8]]%nat. split; [reflexivity|]. split; [|split].
    + exists [(2, 10); (4, 8)]%nat. vm_compute. perm_solve.
    + repeat apply Forall_cons; try apply Forall_nil; intros x y z Hx Hy; cbn in Hx, Hy;
      intuition (repeat match goal with H : (_, _) = (_, _) |- _ => inversion H; clear H; subst end; try discriminate; reflexivity).
    + repeat apply Forall_cons; try apply Forall_nil; (split; [cbn; lia|]; split; [cbn; intuition lia|]).
      * exists [], [0; 1; 2; 10; 11]%nat. split; [reflexivity|]. rewrite app_nil_r. repeat constructor.
      * exists [], [2; 3; 4; 8; 9; 10]%nat. split; [reflexivity|]. rewrite app_nil_r. repeat constructor.
      * exists [], [4; 5; 6; 7; 8]%nat. split; [reflexivity|]. rewrite app_nil_r. repeat constructor.
  - unfold convex_partition, merge_triangulation. change (12 <? 3)%nat with false. cbv iota. value (destination bow_cells (1, 0)%nat). cbn [bind].
    value (polygon_by_index bow_cells 0%nat). cbn [bind]. value (segments_except [0; 1; 2] (1, 0))%nat. bow_on.
    all: eexists; split; [reflexivity|]; cbn; lia.
Qed.
End Count.
Print Assumptions C79_number_refuted.
