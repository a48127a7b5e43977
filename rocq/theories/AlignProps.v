(** C108: the bounds of a lane are aligned. *)
From Coq Require Import List Bool Arith ZArith QArith Lqa Lia.
From Verif Require Import ClosestModel ClosestSpec ClosestProofs ClosestVec ClosestLine ClosestTree SideModel SideSpec SideProofs AlignModel AlignSpec AlignProofs.
Import ListNotations.
Local Open Scope Q_scope.

(** In whatever directions the bounds of a lane are given, they are returned in the direction in which the lane lies between them. *)
Theorem C108_align_partial tree left right l r : query_ok (V := plane) tree bound_point -> bounds left right -> either_way left l -> either_way right r ->
  align tree l r = Ok (left, right).
Proof. exact (align_ok tree left right l r). Qed.
Print Assumptions C108_align_partial.

(** Lanes for which this holds: the middle of each bound is on the proper side of all segments of the other one. *)
Theorem C108_segments tree left right l r : query_ok (V := plane) tree bound_point ->
  (2 <= length left < 50)%nat -> (2 <= length right < 50)%nat ->
  (forall m, in_middle right m -> forall l1 a b l2, left = l1 ++ a :: b :: l2 -> turn a b m < 0) ->
  (forall m, in_middle left m -> forall l1 a b l2, right = l1 ++ a :: b :: l2 -> 0 < turn a b m) ->
  either_way left l -> either_way right r -> align tree l r = Ok (left, right).
Proof. intros. apply align_ok; auto. now apply bounds_of. Qed.
Print Assumptions C108_segments.

(** The example of the documentation: straight bounds along the x axis. *)
Theorem C108_documented tree (a b c d y z : Q) l r : query_ok (V := plane) tree bound_point -> a < b -> c < d -> z < y ->
  either_way [(a, y); (b, y)] l -> either_way [(c, z); (d, z)] r -> align tree l r = Ok ([(a, y); (b, y)], [(c, z); (d, z)]).
Proof.
  intros Hq H1 H2 H3. apply C108_segments; auto; try (cbn; lia).
  - intros m [(u & v & [E|[E _]] & A & B)|(L & _)] l1 s t l2 E2; [|discriminate|cbn in L; lia].
    injection E as <- <-. destruct l1 as [|? [|? [|]]]; try discriminate. injection E2 as <- <- _. destruct m as [mx my]. unfold turn. cbn [fst snd] in *.
    assert (X : my == z) by lra. rewrite X. setoid_replace ((b - a) * (z - y) - (y - y) * (mx - b)) with (- ((b - a) * (y - z))) by ring.
    assert (0 < (b - a) * (y - z)) by (apply Qmult_lt_0_compat; lra). lra.
  - intros m [(u & v & [E|[E _]] & A & B)|(L & _)] l1 s t l2 E2; [|discriminate|cbn in L; lia].
    injection E as <- <-. destruct l1 as [|? [|? [|]]]; try discriminate. injection E2 as <- <- _. destruct m as [mx my]. unfold turn. cbn [fst snd] in *.
    assert (X : my == y) by lra. rewrite X. setoid_replace ((d - c) * (y - z) - (z - z) * (mx - d)) with ((d - c) * (y - z)) by ring.
    apply Qmult_lt_0_compat; lra.
Qed.
Print Assumptions C108_documented.

(** Nothing but directions changes, for any line strings; it never fails. *)
Theorem C108_directions tree left right : query_ok (V := plane) tree bound_point ->
  exists l r, align tree left right = Ok (l, r) /\ either_way left l /\ either_way right r.
Proof. exact (align_total tree left right). Qed.
Print Assumptions C108_directions.

(** Without points there is nothing to align. *)
Theorem C108_empty tree ls : align tree [] ls = Ok ([], ls) /\ align tree ls [] = Ok (ls, []).
Proof. unfold align. cbn [length]. rewrite !Nat.eqb_refl, !orb_true_r. cbn. auto. Qed.
Print Assumptions C108_empty.

(** Finding: a bound whose middle lies on the other bound is on neither side. The lane is turned around with every call. *)
Definition flat : list plane := [(0, 0); (1, 0); (2, 0)]. Definition roof : list plane := [(0, -(1)); (1, 0); (2, -(1))].
Theorem C108_touching_refuted :
  align point_query flat roof = Ok (rev flat, rev roof) /\ align point_query (rev flat) (rev roof) = Ok (flat, roof).
Proof. split; vm_compute; reflexivity. Qed.
Print Assumptions C108_touching_refuted.

(** Finding: the lane winds outwards with a gap that is less than its width. Both bounds have the right direction, but the left bound is reversed. *)
Definition inner : list plane := [(0, 0); (2, 0); (4, 0); (5, 0); (6, 0); (7, 0); (10, 0); (10, 10); (-(5), 10); (-(5), -(5)); (15, -(5))].
Definition outer : list plane := [(0, -(4)); (2, -(4)); (4, -(4)); (5, -(4)); (6, -(4)); (7, -(4)); (14, -(4)); (14, 14); (-(9), 14); (-(9), -(9)); (15, -(9))].
Definition cells (left right : list plane) : list (plane * plane * (plane * plane)) := combine (pairs left) (pairs right).
Theorem C108_spiral_refuted :
  (forall l l' r r', In (l, l', (r, r')) (cells inner outer) -> turn l l' r < 0 /\ turn l l' r' < 0 /\ 0 < turn r r' l /\ 0 < turn r r' l') /\
  align point_query inner outer = Ok (rev inner, outer).
Proof.
  split; [|vm_compute; reflexivity]. intros l l' r r' H. cbn in H.
  repeat (destruct H as [H|H]; [injection H as <- <- <- <-; repeat split; vm_compute; reflexivity|]). destruct H.
Qed.
Print Assumptions C108_spiral_refuted.

(** A bend, in all four directions; and a single point as bound. *)
Definition bend_left : list plane := [(0, 0); (2, 0); (4, 1); (6, 3)].
Definition bend_right : list plane := [(0, -(2)); (3, -(2)); (5, -(1)); (7, 1)].
Example C108_nonvacuous :
  bounds bend_left bend_right /\
  align point_query bend_left bend_right = Ok (bend_left, bend_right) /\ align point_query (rev bend_left) bend_right = Ok (bend_left, bend_right) /\
  align point_query bend_left (rev bend_right) = Ok (bend_left, bend_right) /\ align point_query (rev bend_left) (rev bend_right) = Ok (bend_left, bend_right) /\
  align point_query [(1, 1)] (rev bend_right) = Ok ([(1, 1)], bend_right) /\ align point_query (rev bend_left) [(4, -(1))] = Ok (bend_left, [(4, -(1))]) /\
  bounds [(1, 1)] [(0, 0); (2, 0)].
Proof.
  split; [|split; [vm_compute; reflexivity|split; [vm_compute; reflexivity|split; [vm_compute; reflexivity|split; [vm_compute; reflexivity|split; [vm_compute; reflexivity|split; [vm_compute; reflexivity|]]]]]]].
  - apply bounds_of; try (cbn; lia).
    + intros m [(u & v & [E|[E _]] & A & B)|(L & k1 & k2 & E & Len)] l1 s t l2 E2; try discriminate.
      destruct k1 as [|? [|? [|? [|? [|]]]]]; try discriminate; injection E; intros; subst; cbn in Len; try lia;
      destruct l1 as [|? [|? [|? [|? [|]]]]]; try discriminate; injection E2; intros; subst; vm_compute; reflexivity.
    + intros m [(u & v & [E|[E _]] & A & B)|(L & k1 & k2 & E & Len)] l1 s t l2 E2; try discriminate.
      destruct k1 as [|? [|? [|? [|? [|]]]]]; try discriminate; injection E; intros; subst; cbn in Len; try lia;
      destruct l1 as [|? [|? [|? [|? [|]]]]]; try discriminate; injection E2; intros; subst; vm_compute; reflexivity.
  - split; [discriminate|]. split; [discriminate|]. split; [cbn; lia|]. intros _ m Hm. 
    assert (K : forall l1 a b l2, [(0, 0); (2, 0)] = l1 ++ a :: b :: l2 -> 0 < turn a b m).
    { intros l1 a b l2 E. destruct l1 as [|? [|? [|]]]; try discriminate. injection E as <- <- _.
      destruct Hm as [(u & v & [F|[F ->]] & A & B)|(L & _)]; [discriminate| |cbn in L; lia]. injection F as <-. unfold turn. cbn [fst snd] in *. lra. }
    destruct (all_left _ _ K) as [A B]. split; auto. split; [cbn; lia|]. left. split; [cbn; lia|auto].
Qed.
