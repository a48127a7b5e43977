(** Properties C09, C10 and C46: spatial queries. *)
From Coq Require Import List Bool NArith Arith Lia Permutation Sorted QArith.
From Verif Require Import NearestModel NearestProofs NearestGeom MapModel MapSpec.
Import ListNotations.

(** * C09 findNearest *)
(** For every totally preordered type of distances, every lower bound of the distance
    by the distance to the bounding box and every order of elements with the same
    box distance. *)
Theorem C09_find_nearest_partial (D A : Type) (leb : D -> D -> bool)
    (bdist dist : A -> D) (n : nat) (els q : list A) :
  (forall a b, leb a b = true \/ leb b a = true) ->
  (forall a b c, leb a b = true -> leb b c = true -> leb a c = true) ->
  (forall x, leb (bdist x) (dist x) = true) -> (0 < n)%nat ->
  Permutation els q -> StronglySorted (fun x y => leb (bdist x) (bdist y) = true) q ->
  (N.of_nat (length els) < 2 ^ 32)%N ->
  exists r rest, find_nearest leb n bdist dist q = Some r /\
    length r = min n (length els) /\
    Permutation els (map snd r ++ rest) /\
    (forall d x, In (d, x) r -> d = dist x) /\
    StronglySorted (fun v w => leb (fst v) (fst w) = true) r /\
    (forall v y, In v r -> In y rest -> leb (fst v) (dist y) = true).
Proof.
  intros T1 T2 B N P S Z.
  destruct (find_nearest_spec leb T1 T2 bdist dist n B N q S) as (r & out & E & I).
  { rewrite <- (Permutation_length P). auto. }
  exists r, out. destruct I as [IS ID IP IL IO].
  split; [auto|]. split; [rewrite IL, (Permutation_length P); auto|].
  split; [rewrite P; auto|]. split; [auto|]. split; [auto|]. auto.
Qed.
Print Assumptions C09_find_nearest_partial.

(** For line strings and a point, in exact arithmetic (squared distances), without
    any assumption on the distances. A line string has a first point and further ones. *)
Definition line := (pt * list pt)%type.
Definition line_d (p : pt) (l : line) : Q := line_sqdist p (fst l) (snd l).
Definition line_bd (p : pt) (l : line) : Q := box_sqdist (box_of (fst l) (snd l)) p.

Theorem C09_find_nearest_lines (p : pt) (n : nat) (els q : list line) :
  (0 < n)%nat -> Permutation els q ->
  StronglySorted (fun x y => Qle_bool (line_bd p x) (line_bd p y) = true) q ->
  (N.of_nat (length els) < 2 ^ 32)%N ->
  exists r rest, find_nearest Qle_bool n (line_bd p) (line_d p) q = Some r /\
    length r = min n (length els) /\
    Permutation els (map snd r ++ rest) /\
    StronglySorted (fun v w => fst v <= fst w)%Q r /\
    (forall d l, In (d, l) r ->
       (exists x, on_line (fst l) (snd l) x /\ d == sqdist p x)%Q /\
       (forall x, on_line (fst l) (snd l) x -> d <= sqdist p x)%Q /\
       (forall l' x, In l' rest -> on_line (fst l') (snd l') x -> d <= sqdist p x)%Q).
Proof.
  intros N P S Z.
  destruct (C09_find_nearest_partial Q line Qle_bool (line_bd p) (line_d p) n els q
              q_total q_trans (fun x => proj2 (Qle_bool_iff _ _) (box_bound p (fst x) (snd x))) N P S Z)
    as (r & rest & E & L & PE & DI & SO & RE).
  exists r, rest. split; [auto|]. split; [auto|]. split; [auto|]. split.
  - clear -SO. induction SO as [|v r SO IH F]; constructor; auto.
    rewrite Forall_forall in *. intros w Hw. apply Qle_bool_iff. auto.
  - intros d l Hd. rewrite (DI d l Hd). destruct (line_min p (fst l) (snd l)) as [M1 M2].
    split; [exact M1|]. split; [exact M2|]. intros l' x H' Hx.
    apply Qle_trans with (line_d p l').
    + apply Qle_bool_iff. specialize (RE _ l' Hd H'). simpl in RE.
      rewrite (DI d l Hd) in RE. exact RE.
    + apply (proj2 (line_min p (fst l') (snd l'))); auto.
Qed.
Print Assumptions C09_find_nearest_lines.

(** Three line strings around the origin, in the order of their boxes; the one with
    the nearest box is not the nearest. *)
Definition l1 : line := ((-(4#1), 1#1), [(4#1, 1#1)])%Q.
Definition l2 : line := ((-(1#1), 7#1), [(-(1#1), 9#1)])%Q.
Definition l3 : line := ((-(6#1), 0#1), [(0#1, 6#1)])%Q.
Example C09_nonvacuous :
  StronglySorted (fun x y => Qle_bool (line_bd (0, 0) x) (line_bd (0, 0) y) = true)%Q [l3; l1; l2] /\
  option_map (map snd) (find_nearest Qle_bool 2 (line_bd (0, 0)%Q) (line_d (0, 0)%Q) [l3; l1; l2]) = Some [l1; l3].
Proof.
  split; [repeat constructor|vm_compute; reflexivity].
Qed.

(** With count = 0 the first element already reads the last one of an empty vector. *)
Theorem C09_count_zero_refuted :
  exists (q : list nat), find_nearest Nat.leb 0 (fun x => x) (fun x => x) q = None.
Proof. exists [1%nat]. reflexivity. Qed.
Print Assumptions C09_count_zero_refuted.

(** While looking for the one nearest of two elements the insertion position is an
    iterator that pop_back has invalidated (formally undefined, C++ [vector.modifiers]). *)
Theorem C09_stale_iterator_refuted :
  exists n (bdist dist : nat -> nat) (x y : nat),
    (0 < n /\ bdist x <= dist x /\ bdist y <= dist y /\ bdist x <= bdist y)%nat /\
    visit Nat.leb n bdist dist [] x = Some (false, [(dist x, x)]) /\
    visit Nat.leb n bdist dist [(dist x, x)] y = Some (false, [(dist y, y)]) /\
    stale_iterator Nat.leb n [(dist x, x)] (dist y) = true.
Proof.
  exists 1%nat, (fun _ => 0%nat), (fun x => x), 5%nat, 3%nat.
  repeat split; try (vm_compute; reflexivity); try lia.
Qed.
Print Assumptions C09_stale_iterator_refuted.

(** Elements with an empty bounding box (here a line string without points) are in the
    layer but never returned: less than min(n, layer size) elements come back. *)
Theorem C09_layer_size_refuted :
  exists hp s, add hp 2 (TLine (0, false))%nat (empty_map (fun _ => 0%Z) 1000) = Some s /\
    length (members s KLine) = 1%nat /\
    find_nearest Nat.leb 1 (fun _ => 0%nat) (fun _ : handle => 0%nat) (l_tree (m_layer s KLine)) = Some [].
Proof.
  exists (Heap [OLine []] (fun _ => true)). eexists. split; [vm_compute; reflexivity|].
  split; reflexivity.
Qed.
Print Assumptions C09_layer_size_refuted.

(** * C10 searchUntil, nearestUntil *)
(** [f] is a predicate with state; None: an exception or undefined behaviour. *)
Theorem C10_search_until (S A : Type) (f : S -> A -> option (bool * S)) s tree q r s' calls :
  (tree = [] -> q = []) ->
  find_until f s tree q = Some (r, s', calls) ->
  match r with
  | None => rejected f s q s' /\ calls = q
  | Some x => exists pre post s1, q = pre ++ x :: post /\ calls = pre ++ [x] /\
                rejected f s pre s1 /\ f s1 x = Some (true, s')
  end.
Proof.
  intros H E. unfold find_until in E. destruct tree as [|t tree].
  - rewrite (H eq_refl). inversion E; subst. split; [constructor|auto].
  - apply find_if_spec; auto.
Qed.
Print Assumptions C10_search_until.

Theorem C10_nearest_until (S A : Type) (f : S -> A -> option (bool * S)) s q r s' calls :
  (N.of_nat (length q) < 2 ^ 32)%N ->
  nearest_until f s q = Some (r, s', calls) ->
  match r with
  | None => rejected f s q s' /\ calls = q
  | Some x => exists pre post s1, q = pre ++ x :: post /\ calls = pre ++ [x] /\
                rejected f s pre s1 /\ f s1 x = Some (true, s')
  end.
Proof.
  intros L E. unfold nearest_until in E. rewrite (to_unsigned_small _ L), firstn_all in E.
  destruct q as [|y q]; [inversion E; subst; split; [constructor|auto]|].
  apply find_if_spec; auto.
Qed.
Print Assumptions C10_nearest_until.

(** For predicates without state: the first element that is accepted. *)
Theorem C10_pure (A : Type) (p : A -> bool) q :
  (N.of_nat (length q) < 2 ^ 32)%N ->
  exists r s' calls, nearest_until (fun (s : unit) x => Some (p x, s)) tt q = Some (r, s', calls) /\
    (r = None <-> forall x, In x q -> p x = false) /\
    (forall x, r = Some x -> p x = true /\ exists pre post, q = pre ++ x :: post /\ forall y, In y pre -> p y = false).
Proof.
  intros L.
  assert (T : exists r s' calls, nearest_until (fun (s : unit) x => Some (p x, s)) tt q = Some (r, s', calls)).
  { unfold nearest_until. destruct q as [|y q]; [eauto|].
    apply (find_if_total _ (fun _ => True)); auto. intros s x _. eauto. }
  destruct T as (r & s' & calls & E). exists r, s', calls. split; auto.
  assert (X := C10_nearest_until _ _ _ _ _ _ _ _ L E).
  assert (R : forall l a b, rejected (fun (s : unit) x => Some (p x, s)) a l b -> forall y, In y l -> p y = false).
  { induction l as [|z l IH]; intros a b HR y Hy; [destruct Hy|].
    inversion HR; subst. destruct Hy as [Ey|Hy]; [subst; congruence|eapply IH; eauto]. }
  destruct r as [x|].
  - destruct X as (pre & post & s1 & -> & _ & RJ & PX). inversion PX as [PX'].
    split.
    + split; [discriminate|]. intros HF. rewrite (HF x) in PX'; [discriminate|apply in_app_iff; simpl; auto].
    + intros y Ey. inversion Ey; subst y. split; auto. exists pre, post. split; auto. eapply R; eauto.
  - destruct X as [RJ _]. split.
    + split; auto. intros _. eapply R; eauto.
    + intros y Ey. discriminate.
Qed.
Print Assumptions C10_pure.

(** A predicate that accepts the second even number it sees. *)
Example C10_nonvacuous :
  nearest_until (fun (s : bool) x => Some (if Nat.even x then if s then (true, s) else (false, true) else (false, s)))
    false [1; 2; 3; 4; 5; 6]%nat = Some (Some 4%nat, true, [1; 2; 3; 4]%nat) /\
  find_until (fun (s : bool) x => Some (if Nat.even x then if s then (true, s) else (false, true) else (false, s)))
    false [1; 2; 3]%nat [1; 2; 3]%nat = Some (None, true, [1; 2; 3]%nat).
Proof. split; vm_compute; reflexivity. Qed.

(** A tree with 2^32 elements: its size becomes the unsigned number 0, nothing is
    found although everything would be accepted. *)
Theorem C10_size_truncation_refuted :
  exists (q : list nat), q <> [] /\
    nearest_until (fun (s : unit) (_ : nat) => Some (true, s)) tt q = Some (None, tt, []).
Proof.
  exists (repeat 0%nat (N.to_nat (2 ^ 32))). unfold nearest_until, to_unsigned.
  rewrite repeat_length, N2Nat.id.
  assert (E : ((2 ^ 32) mod (2 ^ 32) = 0)%N) by reflexivity. rewrite E. clear E.
  assert (P : N.to_nat (2 ^ 32) <> 0%nat) by lia.
  destruct (N.to_nat (2 ^ 32)) as [|k]; [congruence|]. split; [discriminate|]. reflexivity.
Qed.
Print Assumptions C10_size_truncation_refuted.

(** * C46 findWithin2d *)
(** [hit]: the bounding box of the element meets the search box; [q] is any order of
    the elements found by the box search, [sort] any sorting function. *)
Theorem C46_find_within (D A : Type) (leb : D -> D -> bool) (dist : A -> D) (max : D)
    (hit : A -> bool) (sort : list (D * A) -> list (D * A)) (els q : list A) :
  (forall l, Permutation l (sort l) /\ StronglySorted (fun v w => leb (fst v) (fst w) = true) (sort l)) ->
  (forall x, leb (dist x) max = true -> hit x = true) ->
  Permutation q (filter hit els) ->
  let r := find_within leb sort dist max q in
  Permutation r (map (fun x => (dist x, x)) (filter (fun x => leb (dist x) max) els)) /\
  StronglySorted (fun v w => leb (fst v) (fst w) = true) r.
Proof.
  intros HS HH HP. unfold find_within. cbv zeta.
  split; [|apply HS]. rewrite <- (proj1 (HS _)).
  assert (X : forall l, filter (fun v : D * A => leb (fst v) max) (map (fun x => (dist x, x)) l)
            = map (fun x => (dist x, x)) (filter (fun x => leb (dist x) max) l)).
  { induction l as [|x l IH]; simpl; auto. destruct (leb (dist x) max); simpl; congruence. }
  rewrite X. apply Permutation_map.
  assert (Y : filter (fun x => leb (dist x) max) els = filter (fun x => leb (dist x) max) (filter hit els)).
  { clear -HH. induction els as [|x l IH]; simpl; auto. destruct (leb (dist x) max) eqn:E.
    - rewrite (HH _ E). simpl. rewrite E, IH; auto.
    - destruct (hit x); simpl; rewrite ?E; auto. }
  rewrite Y. revert HP. clear. generalize (filter hit els). intros l HP. induction HP; simpl; auto.
  - destruct (leb (dist x) max); [constructor|]; auto.
  - destruct (leb (dist x) max), (leb (dist y) max); auto; apply perm_swap.
  - etransitivity; eauto.
Qed.
Print Assumptions C46_find_within.

(** The box search around a point does not miss any line string. *)
Theorem C46_box_search_complete (p : pt) (d : Q) (l : line) :
  (0 <= d)%Q -> Qle_bool (line_d p l) (sq d) = true ->
  boxes_meet (around p d) (box_of (fst l) (snd l)) = true.
Proof. intros D H. apply search_bound; auto. apply Qle_bool_iff; auto. Qed.
Print Assumptions C46_box_search_complete.

Fixpoint insert_sorted (v : Q * line) (l : list (Q * line)) : list (Q * line) :=
  match l with [] => [v] | w :: l' => if Qle_bool (fst v) (fst w) then v :: l else w :: insert_sorted v l' end.
Example C46_nonvacuous :
  filter (fun l => boxes_meet (around (0, 0) (5#1)) (box_of (fst l) (snd l)))%Q [l1; l2; l3] = [l1; l3] /\
  map snd (find_within Qle_bool (fold_right insert_sorted []) (line_d (0, 0)%Q) (sq (2#1)) [l1; l3]) = [l1] /\
  map snd (find_within Qle_bool (fold_right insert_sorted []) (line_d (0, 0)%Q) (sq (5#1)) [l3; l1]) = [l1; l3].
Proof. split; [|split]; vm_compute; reflexivity. Qed.
