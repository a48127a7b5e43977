(** C113: with lane changes at a fixed price, paths, reachable sets and routes are cheapest trips through the map. *)
From Coq Require Import NArith ZArith List Bool Arith Lia Relations Permutation.
From Verif Require RoutingProps.
From Verif Require Import CostAlg GraphModel DijkstraModel BuilderModel BuilderSpec BuilderProofs BuilderProofs2 BuilderProofs3 BuilderProofs4 BuilderProps RoutingSpec RouteSpec
  RouteBuilderModel RouteQueryModel JourneySpec JourneyProofs JourneyProps TripSpec TripProofs.
Import ListNotations.
Local Open Scope nat_scope.

Section Props.
Context (A : CostAlg) (one : cost A) (w : world) (ru : rules) (costs : list (@module A))
        (order : list (lref * lref) -> list (lref * lref)) (Hset : setting w ru one order) (Hreg : forall s, regular w ru s)
        (cok wok : cost A -> Prop) (Hlaws : CostLaws A cok wok).

(** The shortest path with lane changes is a cheapest trip, and there is none if no trip has a finite cost. *)
Theorem C113_shortest_path g k m p tie a b : build one w ru costs order = Ok g -> nth_error costs (N.to_nat k) = Some m -> fixed_price m p ->
  match shortest_path tie g (L a) (L b) k true false with
  | QRet (Some q) => exists ls, q = map L ls /\ cheapest_trip w ru (drives_or_changes w ru m p) a b ls
  | QRet None => no_trip w ru (drives_or_changes w ru m p) a b
  | QThrow | QBroken => False
  end.
Proof.
  intros Hb Hk Hp. exact (trips_path A one w ru costs order Hset g Hb k m Hk cok wok Hlaws tie true _ a b (steps_changes A one w ru costs order Hset g Hb k m Hk p Hreg Hp)).
Qed.
(** The same over given lanelets in between. *)
Theorem C113_shortest_path_via g k m p tie a via b : build one w ru costs order = Ok g -> nth_error costs (N.to_nat k) = Some m -> fixed_price m p ->
  match shortest_path_via tie g (L a) (map L via) (L b) k true false with
  | QRet (Some q) => exists ls, q = map L ls /\ stages w ru (drives_or_changes w ru m p) (a :: via ++ [b]) ls
  | QRet None => exists l x y r, a :: via ++ [b] = l ++ x :: y :: r /\ no_trip w ru (drives_or_changes w ru m p) x y
  | QThrow | QBroken => False
  end.
Proof.
  intros Hb Hk Hp. exact (trips_via A one w ru costs order Hset g Hb k m Hk cok wok Hlaws tie true _ a via b (steps_changes A one w ru costs order Hset g Hb k m Hk p Hreg Hp)).
Qed.
(** The reachable set consists of the lanelets to which a trip within the budget leads; the reachable set towards a lanelet
    of those from which one does, where the costs are added from the end. *)
Theorem C113_reachable g k m p tie (towards : bool) a budget : build one w ru costs order = Ok g -> nth_error costs (N.to_nat k) = Some m -> fixed_price m p ->
  comparable cok budget ->
  let St := drives_or_changes w ru m p in
  exists l, reachable_set towards false tie g (L a) budget k true = QRet l /\ NoDup l /\
    forall x, In x l <-> exists b, x = L b /\ within w ru (if towards then backwards St else St) a budget b.
Proof.
  intros Hb Hk Hp Hc St. apply (trips_reach A one w ru costs order Hset g Hb k m Hk cok wok Hlaws tie towards true); [|exact Hc].
  pose proof (steps_changes A one w ru costs order Hset g Hb k m Hk p Hreg Hp) as S. destruct towards; [apply steps_back; exact S|exact S].
Qed.
(** A route with lane changes contains a cheapest trip, everything in it can be driven to, and there is none if there is no
    trip. Where the builder counts lanes wrongly (C65), the outcome is undefined. *)
Theorem C113_route_partial g k m p tie a b : build one w ru costs order = Ok g -> nth_error costs (N.to_nat k) = Some m -> fixed_price m p -> no_rings w ru ->
  match get_route tie g (L a) (L b) k true with
  | Done (Some r) =>
      (exists ls, cheapest_trip w ru (drives_or_changes w ru m p) a b ls /\ forall c, In c ls -> contains r (L c) = true) /\
      forall x, contains r x = true -> exists d, x = L d /\ clos_refl_trans lref (moves_to w ru) a d
  | Done None => no_trip w ru (drives_or_changes w ru m p) a b
  | Undefined => exists ls, cheapest_trip w ru (drives_or_changes w ru m p) a b ls
  | Thrown | Endless => False
  end.
Proof.
  intros Hb Hk Hp Hn.
  exact (trips_route A one w ru costs order Hset g Hb k m Hk cok wok Hlaws tie _ a b Hreg Hn (steps_changes A one w ru costs order Hset g Hb k m Hk p Hreg Hp)).
Qed.
End Props.
(** Without lane changes also towards a lanelet, and on any map. *)
Theorem C113_towards (A : CostAlg) one w ru costs order (Hset : setting w ru one order) cok wok (Hlaws : CostLaws A cok wok) g k m tie a budget :
  build one w ru costs order = Ok g -> nth_error costs (N.to_nat k) = Some m -> comparable cok budget ->
  exists l, reachable_set true false tie g (L a) budget k false = QRet l /\ NoDup l /\
    forall x, In x l <-> exists b, x = L b /\ within w ru (backwards (drives_on w ru m)) a budget b.
Proof.
  intros Hb Hk Hc. apply (trips_reach A one w ru costs order Hset g Hb k m Hk cok wok Hlaws tie true false); [|exact Hc].
  exact (steps_back A g _ _ (steps_on A one w ru costs order Hset g Hb k m Hk)).
Qed.
Print Assumptions C113_shortest_path.
Print Assumptions C113_shortest_path_via.
Print Assumptions C113_reachable.
Print Assumptions C113_route_partial.
Print Assumptions C113_towards.

(** * The map of C109 *)
Lemma tr_fixed : fixed_price tr_module (Some 3%Z : cost ZCost).
Proof. intros f t. reflexivity. Qed.
Lemma tr_changes s x y : changeable tr_world tr_rules s (x, y) -> s = SRight /\ x = (2%N, false) /\ y = (5%N, false) \/ s = SLeft /\ x = (5%N, false) /\ y = (2%N, false).
Proof.
  intros (Ux & Uy & [Hn H] & _). apply tr_usable in Ux, Uy. cbn [fst snd] in *.
  repeat (destruct Ux as [<-|Ux]; [|]); try destruct Ux; repeat (destruct Uy as [<-|Uy]; [|]); try destruct Uy; destruct s; try discriminate H; auto.
Qed.
Lemma tr_no_rings : no_rings tr_world tr_rules.
Proof.
  assert (K : forall s x y, clos_trans lref (fun x y => changeable tr_world tr_rules s (x, y)) x y ->
    s = SRight /\ x = (2%N, false) /\ y = (5%N, false) \/ s = SLeft /\ x = (5%N, false) /\ y = (2%N, false)).
  { intros s x y H. induction H as [x y H|x y z _ IH1 _ IH2]; [apply tr_changes; auto|].
    destruct IH1 as [(-> & -> & ->)|(-> & -> & ->)], IH2 as [(E1 & E2 & E3)|(E1 & E2 & E3)]; discriminate. }
  intros s a H. destruct (K s a a H) as [(_ & -> & E)|(_ & -> & E)]; discriminate.
Qed.
Notation r d := ((d%N, false) : lref).
Notation tr_steps := (drives_or_changes tr_world tr_rules tr_module (Some 3%Z : cost ZCost)).
Notation tr_build := (build o1 tr_world tr_rules [tr_module] id_order).
(** Lanelet 5 is reached from 1 by changing the lane beside 2, at a cost of 33, and leads to 4 at a cost of 13. *)
Example C113_nonvacuous : exists g, tr_build = Ok g /\
  shortest_path RoutingProps.tie0 g (L (r 1)) (L (r 5)) 0 true false = QRet (Some (map L [r 1; r 2; r 5])) /\
  cheapest_trip tr_world tr_rules tr_steps (r 1) (r 5) [r 1; r 2; r 5] /\
  shortest_path RoutingProps.tie0 g (L (r 5)) (L (r 4)) 0 true false = QRet (Some (map L [r 5; r 2; r 4])) /\
  cheapest_trip tr_world tr_rules tr_steps (r 5) (r 4) [r 5; r 2; r 4] /\
  shortest_path_via RoutingProps.tie0 g (L (r 1)) (map L [r 5]) (L (r 4)) 0 true false = QRet (Some (map L [r 1; r 2; r 5; r 2; r 4])) /\
  stages tr_world tr_rules tr_steps [r 1; r 5; r 4] [r 1; r 2; r 5; r 2; r 4] /\
  no_trip tr_world tr_rules tr_steps (r 3) (r 5) /\
  ~ within tr_world tr_rules tr_steps (r 1) (Some 32%Z : cost ZCost) (r 5) /\ within tr_world tr_rules tr_steps (r 1) (Some 33%Z : cost ZCost) (r 5) /\
  within tr_world tr_rules (backwards tr_steps) (r 4) (Some 13%Z : cost ZCost) (r 5) /\ ~ within tr_world tr_rules (backwards tr_steps) (r 4) (Some 12%Z : cost ZCost) (r 5) /\
  (exists rt, get_route RoutingProps.tie0 g (L (r 1)) (L (r 5)) 0 true = Done (Some rt) /\ contains rt (L (r 2)) = true /\ contains rt (L (r 3)) = false).
Proof.
  assert (Q : match tr_build with
    | Ok g => (shortest_path RoutingProps.tie0 g (L (r 1)) (L (r 5)) 0 true false, shortest_path RoutingProps.tie0 g (L (r 5)) (L (r 4)) 0 true false,
               shortest_path_via RoutingProps.tie0 g (L (r 1)) (map L [r 5]) (L (r 4)) 0 true false, shortest_path RoutingProps.tie0 g (L (r 3)) (L (r 5)) 0 true false,
               (reachable_set false false RoutingProps.tie0 g (L (r 1)) (Some 32%Z : cost ZCost) 0 true, reachable_set false false RoutingProps.tie0 g (L (r 1)) (Some 33%Z : cost ZCost) 0 true,
                reachable_set true false RoutingProps.tie0 g (L (r 4)) (Some 13%Z : cost ZCost) 0 true, reachable_set true false RoutingProps.tie0 g (L (r 4)) (Some 12%Z : cost ZCost) 0 true),
               match get_route RoutingProps.tie0 g (L (r 1)) (L (r 5)) 0 true with Done (Some rt) => (contains rt (L (r 2)), contains rt (L (r 3))) | _ => (false, false) end)
    | _ => (QBroken, QBroken, QBroken, QBroken, (QBroken, QBroken, QBroken, QBroken), (false, false)) end =
    (QRet (Some (map L [r 1; r 2; r 5])), QRet (Some (map L [r 5; r 2; r 4])), QRet (Some (map L [r 1; r 2; r 5; r 2; r 4])), QRet None,
     (QRet (map L [r 1; r 2; r 3; r 4]), QRet (map L [r 1; r 2; r 3; r 4; r 5]), QRet (map L [r 2; r 3; r 4; r 5]), QRet (map L [r 2; r 3; r 4])), (true, false))) by (vm_compute; reflexivity).
  destruct tr_build as [g| | |] eqn:Hg; [|discriminate..]. exists g. split; [reflexivity|]. injection Q as E1 E2 E3 E4 E5 E6 E7 E8 E9.
  pose proof (fun a b => C113_shortest_path ZCost o1 tr_world tr_rules [tr_module] id_order tr_setting tr_regular zcok zwok ZCostLaws g 0 tr_module _ RoutingProps.tie0 a b Hg eq_refl tr_fixed) as T.
  pose proof (T (r 1) (r 5)) as T1. rewrite E1 in T1. pose proof (T (r 5) (r 4)) as T2. rewrite E2 in T2. pose proof (T (r 3) (r 5)) as T4. rewrite E4 in T4.
  pose proof (C113_shortest_path_via ZCost o1 tr_world tr_rules [tr_module] id_order tr_setting tr_regular zcok zwok ZCostLaws g 0 tr_module _ RoutingProps.tie0 (r 1) [r 5] (r 4) Hg eq_refl tr_fixed) as T3.
  cbn [map] in T3. rewrite E3 in T3.
  pose proof (fun t a z => C113_reachable ZCost o1 tr_world tr_rules [tr_module] id_order tr_setting tr_regular zcok zwok ZCostLaws g 0 tr_module _ RoutingProps.tie0 t a (Some z : cost ZCost) Hg eq_refl
    tr_fixed (RoutingProps.C12_comparable z)) as R. cbv zeta in R.
  split; [exact E1|]. destruct T1 as (ls & Els & T1). apply (map_L_inj [r 1; r 2; r 5]) in Els as <-. split; [exact T1|].
  split; [exact E2|]. destruct T2 as (ls & Els & T2). apply (map_L_inj [r 5; r 2; r 4]) in Els as <-. split; [exact T2|].
  split; [exact E3|]. destruct T3 as (ls & Els & T3). apply (map_L_inj [r 1; r 2; r 5; r 2; r 4]) in Els as <-. split; [exact T3|]. split; [exact T4|].
  assert (Z : forall t a z ls b, reachable_set t false RoutingProps.tie0 g (L a) (Some z : cost ZCost) 0 true = QRet (map L ls) ->
    (In b ls <-> within tr_world tr_rules (if t then backwards tr_steps else tr_steps) a (Some z : cost ZCost) b)).
  { clear -R. intros t a z ls b E. destruct (R t a z) as (l & El & _ & Hl). rewrite E in El. injection El as <-. split.
    - intros Hin. destruct (proj1 (Hl (L b)) (in_map L _ _ Hin)) as (b' & Eb & W). apply L_inj' in Eb as <-. exact W.
    - intros W. assert (Hx : In (L b) (map L ls)) by (apply Hl; eauto). apply in_map_iff in Hx as (b' & Eb & Hx). apply L_inj' in Eb as <-. exact Hx. }
  split; [intros W; apply (Z false (r 1) 32%Z [r 1; r 2; r 3; r 4] (r 5) E5) in W; clear -W; simpl in W; intuition discriminate|].
  split; [apply (Z false (r 1) 33%Z [r 1; r 2; r 3; r 4; r 5] (r 5) E6); clear; simpl; auto 10|].
  split; [apply (Z true (r 4) 13%Z [r 2; r 3; r 4; r 5] (r 5) E7); clear; simpl; auto 10|].
  split; [intros W; apply (Z true (r 4) 12%Z [r 2; r 3; r 4] (r 5) E8) in W; clear -W; simpl in W; intuition discriminate|].
  clear -E9. destruct (get_route RoutingProps.tie0 g (L (r 1)) (L (r 5)) 0 true) as [[rt|]| | |]; [|discriminate E9..]. injection E9 as E9 E10.
  exists rt. auto.
Qed.
Print Assumptions C113_nonvacuous.

(** * Where the property fails *)
(** If a change is only possible on a long stretch, then where lanes merge the iteration order of a hash map decides whether there is a path at all. *)
Theorem C113_order_refuted : exists w ru order order' g g' a b, setting w ru o1 order /\ setting w ru o1 order' /\ (forall s, regular w ru s) /\
  build o1 w ru [ex_module] order = Ok g /\ build o1 w ru [ex_module] order' = Ok g' /\
  shortest_path RoutingProps.tie0 g (L a) (L b) 0 true false = QRet (Some [L a; L b]) /\ shortest_path RoutingProps.tie0 g' (L a) (L b) 0 true false = QRet None.
Proof.
  exists (toy merge_points merge_left merge_right [1; 2; 3; 4; 5]%N false), (toy_rules false), id_order, (@rev (lref * lref)).
  do 2 eexists. exists (1, false)%N, (3, false)%N.
  assert (Hn : NoDup [1; 2; 3; 4; 5]%N) by (repeat constructor; simpl; intuition discriminate).
  split; [apply toy_setting; [exact Hn|intros; apply Permutation_refl]|].
  split; [apply toy_setting; [exact Hn|intros; apply Permutation_sym, Permutation_rev]|].
  split; [|split; [vm_compute; reflexivity|split; [vm_compute; reflexivity|split; vm_compute; reflexivity]]].
  assert (Hu : forall l, usable (toy merge_points merge_left merge_right [1; 2; 3; 4; 5]%N false) (toy_rules false) l ->
     In l [(1, false); (2, false); (3, false); (4, false); (5, false)]%N).
  { intros [d i] (Hd & _ & H). simpl in *. destruct i; [discriminate|]. repeat (destruct Hd as [<-|Hd]; [auto 10|]). destruct Hd. }
  intros s. constructor.
  - intros a b b' Ha Hb Hb' [_ H] [_ H']. apply Hu in Ha, Hb, Hb'.
    repeat (destruct Ha as [<-|Ha]; [|]); try destruct Ha;
    repeat (destruct Hb as [<-|Hb]; [|]); try destruct Hb; destruct s; try discriminate H;
    repeat (destruct Hb' as [<-|Hb']; [|]); try destruct Hb'; try discriminate H'; try reflexivity.
  - intros a b Ha Hb [_ H] Hc. apply Hu in Ha, Hb. apply follows_iff in Hc.
    repeat (destruct Ha as [<-|Ha]; [|]); try destruct Ha;
    repeat (destruct Hb as [<-|Hb]; [|]); try destruct Hb; destruct s; try discriminate H; discriminate Hc.
Qed.
Print Assumptions C113_order_refuted.

(** A road of two lanes: 1, 2, 3, 4 on the right and 5, 6, 7 on the left, where the lane can be changed only between 1 and 5. From 6 one
    can also drive over 8 to 4; the left lane ends with 7. *)
Definition ov_points (d : nat) : list nat :=
  match d with 0 => [0; 1] | 1 => [1; 2] | 2 => [2; 3] | 3 => [3; 4] | 10 => [10; 11] | 11 => [11; 12] | 12 => [12; 13] | 13 => [13; 14]
  | 20 => [20; 21] | 21 => [21; 22] | 22 => [22; 23] | 30 => [22; 13] | 31 => [12; 3] | _ => [] end.
Definition ov_pair (l : list (N * N)) (a b : lref) : bool := existsb (fun p => N.eqb (fst p) (fst a) && N.eqb (snd p) (fst b))%bool l.
Definition ov_world : world := {|
  w_points := ov_points; w_pid := Z.of_nat;
  w_left := fun d => ln (match N.to_nat d with 1 => 10 | 2 => 11 | 3 => 12 | 4 => 13 | 5 => 20 | 6 => 21 | 7 => 22 | _ => 30 end);
  w_right := fun d => ln (match N.to_nat d with 1 => 0 | 2 => 1 | 3 => 2 | 4 => 3 | 5 => 10 | 6 => 11 | 7 => 12 | _ => 31 end);
  w_layer := [1; 2; 3; 4; 5; 6; 7; 8]%N; w_areas := []; w_near := fun _ => [1; 2; 3; 4; 5; 6; 7; 8]%N; w_near_areas := fun _ => [];
  w_meet := ov_pair [(3, 8); (8, 3); (7, 8); (8, 7)]%N; w_meet_area := fun _ _ => false; w_meet_areas := fun _ _ => false |}.
Definition ov_rules : rules := {|
  may_use := fun l => negb (snd l); may_use_area := fun _ => true; may_pass := fun _ _ => true; may_change := ov_pair [(1, 5); (5, 1)]%N |}.
Definition ov_module : @module ZCost := {| m_succeeding := fun _ _ => Some 10%Z : cost ZCost; m_change := fun _ _ => Some 10%Z : cost ZCost |}.
Lemma ov_usable l : usable ov_world ov_rules l <-> In l (map (fun d => (d, false)) [1; 2; 3; 4; 5; 6; 7; 8]%N).
Proof.
  destruct l as [d i]. unfold usable. simpl. split.
  - intros (Hd & _ & Hu). destruct i; [discriminate|]. repeat (destruct Hd as [<-|Hd]; [simpl; auto 12|]). destruct Hd.
  - intros H. repeat (destruct H as [H|H]; [injection H as <- <-; simpl; auto 12|]). destruct H.
Qed.
Lemma ov_meet a b : w_meet ov_world a b = w_meet ov_world b a.
Proof.
  unfold ov_world, ov_pair. cbn [w_meet existsb fst snd].
  destruct (N.eqb 3 (fst a)), (N.eqb 8 (fst a)), (N.eqb 7 (fst a)), (N.eqb 3 (fst b)), (N.eqb 8 (fst b)), (N.eqb 7 (fst b)); reflexivity.
Qed.
Lemma ov_setting : setting ov_world ov_rules o1 id_order.
Proof.
  constructor; [split; reflexivity|intros c; apply Permutation_refl|].
  assert (Hu : forall d, usable ov_world ov_rules (d, false) <-> In d [1; 2; 3; 4; 5; 6; 7; 8]%N) by (intros d; unfold usable; simpl; tauto).
  constructor; simpl.
  - repeat constructor; simpl; intuition discriminate.
  - constructor.
  - intros _. repeat constructor; simpl; intuition discriminate.
  - intros _. constructor.
  - intros _ d Hd. apply Hu. auto.
  - intros _ b [].
  - intros l Hl. apply Hl.
  - intros l d _ Hd _. apply Hu in Hd. auto.
  - intros a d _ Hd _. apply Hu in Hd. auto.
  - intros a b _ [Hb _] _. auto.
  - exact (fun a b => ov_meet _ _).
Qed.
Lemma ov_regular s : regular ov_world ov_rules s.
Proof.
  constructor.
  - intros a b b' Ha Hb Hb' [Hn H] [Hn' H']. apply ov_usable in Ha, Hb, Hb'.
    repeat (destruct Ha as [<-|Ha]; [|]); try destruct Ha;
    repeat (destruct Hb as [<-|Hb]; [|]); try destruct Hb; destruct s; try discriminate H;
    repeat (destruct Hb' as [<-|Hb']; [|]); try destruct Hb'; try discriminate H'; try reflexivity.
  - intros a b Ha Hb Hn Hc. apply ov_usable in Ha, Hb. apply follows_iff in Hc. destruct Hn as [_ H].
    repeat (destruct Ha as [<-|Ha]; [|]); try destruct Ha;
    repeat (destruct Hb as [<-|Hb]; [|]); try destruct Hb; destruct s; try discriminate H; discriminate Hc.
Qed.
Lemma ov_no_rings : no_rings ov_world ov_rules.
Proof.
  assert (C : forall s x y, changeable ov_world ov_rules s (x, y) -> s = SLeft /\ x = (1%N, false) /\ y = (5%N, false) \/ s = SRight /\ x = (5%N, false) /\ y = (1%N, false)).
  { intros s x y (Ux & Uy & [Hn H] & Hc). apply ov_usable in Ux, Uy. cbn [fst snd] in *.
    repeat (destruct Ux as [<-|Ux]; [|]); try destruct Ux; repeat (destruct Uy as [<-|Uy]; [|]); try destruct Uy; try discriminate Hc; destruct s; try discriminate H; auto. }
  assert (K : forall s x y, clos_trans lref (fun x y => changeable ov_world ov_rules s (x, y)) x y ->
    s = SLeft /\ x = (1%N, false) /\ y = (5%N, false) \/ s = SRight /\ x = (5%N, false) /\ y = (1%N, false)).
  { intros s x y H. induction H as [x y H|x y z _ IH1 _ IH2]; [apply C; auto|].
    destruct IH1 as [(-> & -> & ->)|(-> & -> & ->)], IH2 as [(E1 & E2 & E3)|(E1 & E2 & E3)]; discriminate. }
  intros s a H. destruct (K s a a H) as [(_ & -> & E)|(_ & -> & E)]; discriminate.
Qed.
(** Asking for the route from 1 to 4 with lane changes has undefined behaviour: lanelet 7 is pruned, but the section 6, 7 beside the
    route is permitted as a whole. *)
Theorem C113_route_refuted : exists w ru m p g a b ls, setting w ru o1 id_order /\ (forall s, regular w ru s) /\ no_rings w ru /\ fixed_price m p /\
  build o1 w ru [m] id_order = Ok g /\ cheapest_trip w ru (drives_or_changes w ru m p) a b ls /\ get_route RoutingProps.tie0 g (L a) (L b) 0 true = Undefined.
Proof.
  exists ov_world, ov_rules, ov_module, (Some 10%Z : cost ZCost).
  assert (Hp : fixed_price ov_module (Some 10%Z : cost ZCost)) by (intros f t; reflexivity).
  assert (Q : match build o1 ov_world ov_rules [ov_module] id_order with
    | Ok g => (shortest_path RoutingProps.tie0 g (L (r 1)) (L (r 4)) 0 true false, match get_route RoutingProps.tie0 g (L (r 1)) (L (r 4)) 0 true with Undefined => true | _ => false end)
    | _ => (QBroken, false) end = (QRet (Some (map L [r 1; r 2; r 3; r 4])), true)) by (vm_compute; reflexivity).
  destruct (build o1 ov_world ov_rules [ov_module] id_order) as [g| | |] eqn:Hg; [|discriminate..]. injection Q as E1 E2.
  exists g, (r 1), (r 4), [r 1; r 2; r 3; r 4]. split; [exact ov_setting|]. split; [exact ov_regular|]. split; [exact ov_no_rings|]. split; [exact Hp|]. split; [reflexivity|].
  pose proof (C113_shortest_path ZCost o1 ov_world ov_rules [ov_module] id_order ov_setting ov_regular zcok zwok ZCostLaws g 0 ov_module _ RoutingProps.tie0 (r 1) (r 4) Hg eq_refl Hp) as T.
  rewrite E1 in T. destruct T as (ls & Els & T). apply (map_L_inj [r 1; r 2; r 3; r 4]) in Els as <-. split; [exact T|]. clear -E2.
  destruct (get_route RoutingProps.tie0 g (L (r 1)) (L (r 4)) 0 true); try discriminate E2. reflexivity.
Qed.
Print Assumptions C113_route_refuted.
