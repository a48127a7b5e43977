(** C109: paths, reachable sets and routes are told in terms of the map, not of the graph built from it. *)
From Coq Require Import NArith ZArith List Bool Arith Lia Relations Permutation.
From Verif Require RoutingProps.
From Verif Require Import CostAlg GraphModel DijkstraModel BuilderModel BuilderSpec BuilderProofs BuilderProofs2 BuilderProofs3 BuilderProofs4 BuilderProps RoutingSpec RouteSpec
  RouteBuilderModel RouteQueryModel JourneySpec JourneyProofs.
Import ListNotations.
Local Open Scope nat_scope.

Section Props.
Context (A : CostAlg) (one : cost A) (w : world) (ru : rules) (costs : list (@module A))
        (order : list (lref * lref) -> list (lref * lref)) (Hset : setting w ru one order)
        (cok wok : cost A -> Prop) (Hlaws : CostLaws A cok wok).

(** Without lane changes, the shortest path is a cheapest way through the map, and there is none if no way has a finite cost. *)
Theorem C109_shortest_path g k m tie a b : build one w ru costs order = Ok g -> nth_error costs (N.to_nat k) = Some m ->
  match shortest_path tie g (L a) (L b) k false false with
  | QRet (Some p) => exists ls, p = map L ls /\ cheapest w ru m a b ls
  | QRet None => no_way w ru m a b
  | QThrow | QBroken => False
  end.
Proof. intros Hb Hk. exact (travel_path A one w ru costs order Hset g Hb k m Hk cok wok Hlaws tie a b). Qed.
(** The reachable set consists of the lanelets to which a way leads whose cost does not exceed the budget. *)
Theorem C109_reachable g k m tie a budget : build one w ru costs order = Ok g -> nth_error costs (N.to_nat k) = Some m -> comparable cok budget ->
  exists l, reachable_set false false tie g (L a) budget k false = QRet l /\ NoDup l /\
    forall x, In x l <-> exists b ls c, x = L b /\ way w ru m a ls b c /\ payable c /\ cle A c budget.
Proof. intros Hb Hk. exact (travel_reach A one w ru costs order Hset g Hb k m Hk cok wok Hlaws tie a budget). Qed.
(** A route contains a cheapest way, and everything it contains can be driven to. *)
Theorem C109_route g k m tie a b : build one w ru costs order = Ok g -> nth_error costs (N.to_nat k) = Some m ->
  match get_route tie g (L a) (L b) k false with
  | Done (Some r) =>
      (exists ls, cheapest w ru m a b ls /\ forall c, In c ls -> contains r (L c) = true) /\
      forall x, contains r x = true -> exists d, x = L d /\ clos_refl_trans lref (leads_to w ru) a d
  | Done None => no_way w ru m a b
  | Thrown | Undefined | Endless => False
  end.
Proof. intros Hb Hk. exact (travel_route A one w ru costs order Hset g Hb k m Hk cok wok Hlaws tie a b). Qed.
(** With lane changes, a path is found exactly if one can get there by driving on and changing lanes, and each of its steps is one or the other. *)
Theorem C109_lane_changes_partial g k m tie a b : build one w ru costs order = Ok g -> nth_error costs (N.to_nat k) = Some m ->
  (forall s, regular w ru s) -> generous m ->
  match shortest_path tie g (L a) (L b) k true false with
  | QRet (Some p) => exists ls, p = map L (a :: ls) /\ each_moves w ru a ls /\ List.last (a :: ls) a = b /\ NoDup (a :: ls)
  | QRet None => usable w ru a -> usable w ru b -> ~ clos_refl_trans lref (moves_to w ru) a b
  | QThrow | QBroken => False
  end.
Proof. intros Hb Hk Hr Hg. exact (travel_changes A one w ru costs order Hset g Hb k m Hk Hr cok wok Hlaws tie a b Hg). Qed.
End Props.
Print Assumptions C109_shortest_path.
Print Assumptions C109_reachable.
Print Assumptions C109_route.
Print Assumptions C109_lane_changes_partial.

(** * A map *)
(** Lanelet 1 is followed by 2 and by 3, both by 4; beside 2 lies lanelet 5, which ends there. *)
Definition tr_points (d : nat) : list nat :=
  match d with 0 => [0; 1] | 1 => [10; 11] | 2 => [1; 2] | 3 => [11; 12] | 4 => [1; 5; 2] | 5 => [11; 15; 12] | 6 => [2; 3] | 7 => [12; 13] | 8 => [20; 21] | _ => [] end.
Definition tr_world : world := {|
  w_points := tr_points; w_pid := Z.of_nat;
  w_left := fun d => match d with 1%N => ln 0 | 2%N => ln 2 | 3%N => ln 4 | 4%N => ln 6 | _ => ln 3 end;
  w_right := fun d => match d with 1%N => ln 1 | 2%N => ln 3 | 3%N => ln 5 | 4%N => ln 7 | _ => ln 8 end;
  w_layer := [1; 2; 3; 4; 5]%N; w_areas := []; w_near := fun _ => [1; 2; 3; 4; 5]%N; w_near_areas := fun _ => [];
  w_meet := fun a b => false; w_meet_area := fun _ _ => false; w_meet_areas := fun _ _ => false |}.
Definition tr_rules : rules := {|
  may_use := fun l => negb (snd l); may_use_area := fun _ => true;
  may_pass := fun a b => match a, b with ELanelet _ false, ELanelet _ false => true | _, _ => false end;
  may_change := fun a b => true |}.
(** The way over lanelet 2 is longer, and a lane change costs three. *)
Definition tr_module : @module ZCost := {|
  m_succeeding := fun a b => (match b with ELanelet 2 _ => Some 30%Z | _ => Some 10%Z end) : cost ZCost;
  m_change := fun _ _ => Some 3%Z : cost ZCost |}.
Lemma tr_usable l : usable tr_world tr_rules l <-> In l [(1, false); (2, false); (3, false); (4, false); (5, false)]%N.
Proof.
  destruct l as [d i]. unfold usable. simpl. split.
  - intros (Hd & _ & Hu). destruct Hd as [<-|[<-|[<-|[<-|[<-|[]]]]]], i; simpl in *; try discriminate; auto 10.
  - intros [H|[H|[H|[H|[H|[]]]]]]; injection H as <- <-; simpl; auto 10.
Qed.
Lemma tr_setting : setting tr_world tr_rules o1 id_order.
Proof.
  constructor; [split; reflexivity|intros c; apply Permutation_refl|].
  assert (Hu : forall d, usable tr_world tr_rules (d, false) <-> In d [1; 2; 3; 4; 5]%N) by (intros d; unfold usable; simpl; tauto).
  constructor; simpl.
  - repeat constructor; simpl; intuition discriminate.
  - constructor.
  - intros _. repeat constructor; simpl; intuition discriminate.
  - intros _. constructor.
  - intros _ d Hd. apply Hu. auto.
  - intros _ b [].
  - intros l Hl. apply Hl.
  - intros l d _ Hd _. apply Hu in Hd. auto.
  - intros a d _ Hd _. apply Hu in Hd. auto.
  - intros a b _ [Hb _] _. auto.
  - reflexivity.
Qed.
Lemma tr_regular s : regular tr_world tr_rules s.
Proof.
  constructor.
  - intros a b b' Ha Hb Hb' [Hn H] [Hn' H']. apply tr_usable in Ha, Hb, Hb'.
    repeat (destruct Ha as [<-|Ha]; [|]); try destruct Ha;
    repeat (destruct Hb as [<-|Hb]; [|]); try destruct Hb; destruct s; try discriminate H;
    repeat (destruct Hb' as [<-|Hb']; [|]); try destruct Hb'; try discriminate H'; try reflexivity.
  - intros a b Ha Hb Hn Hc. apply tr_usable in Ha, Hb. apply follows_iff in Hc. destruct Hn as [_ H].
    repeat (destruct Ha as [<-|Ha]; [|]); try destruct Ha;
    repeat (destruct Hb as [<-|Hb]; [|]); try destruct Hb; destruct s; try discriminate H; discriminate Hc.
Qed.
Lemma tr_generous : generous tr_module.
Proof.
  constructor.
  - intros x y. simpl. destruct y as [[|[| [|[]|] |]] i|d]; split; reflexivity.
  - intros f t. split; reflexivity.
  - intros [c|] [d|]; unfold payable; simpl; auto.
Qed.
Lemma map_L_inj l l' : map L l = map L l' -> l = l'.
Proof.
  revert l'. induction l as [|a l IH]; intros [|b l'] H; try discriminate; auto. injection H as H1 H2 H3. f_equal; [destruct a, b; cbn in *; congruence|auto].
Qed.
Lemma tr_uses d : In d [1; 2; 3; 4; 5]%N -> usable tr_world tr_rules (d, false).
Proof. intros Hd. apply tr_usable. simpl in *. intuition (subst; auto 10). Qed.
Lemma tr_leads a b : In (a, b) [(1, 2); (1, 3); (2, 4); (3, 4)]%N -> leads_to tr_world tr_rules (a, false) (b, false).
Proof.
  intros H. assert (In a [1; 2; 3; 4; 5]%N /\ In b [1; 2; 3; 4; 5]%N) as [Ha Hb] by (simpl in *; intuition congruence).
  split; [apply tr_uses; auto|]. split; [apply tr_uses; auto|]. split; [|reflexivity]. apply follows_iff.
  simpl in H. destruct H as [H|[H|[H|[H|[]]]]]; injection H as <- <-; reflexivity.
Qed.
Notation tr_build := (build o1 tr_world tr_rules [tr_module] id_order).
(** Short for a lanelet that is not inverted. *)
Notation r d := ((d%N, false) : lref).
Example C109_nonvacuous : exists g, build o1 tr_world tr_rules [tr_module] id_order = Ok g /\
  shortest_path RoutingProps.tie0 g (L (r 1)) (L (r 4)) 0 false false = QRet (Some (map L [r 1; r 3; r 4])) /\ cheapest tr_world tr_rules tr_module (r 1) (r 4) [r 1; r 3; r 4] /\
  shortest_path RoutingProps.tie0 g (L (r 1)) (L (r 5)) 0 false false = QRet None /\ no_way tr_world tr_rules tr_module (r 1) (r 5) /\
  shortest_path RoutingProps.tie0 g (L (r 1)) (L (r 5)) 0 true false = QRet (Some (map L [r 1; r 2; r 5])) /\ each_moves tr_world tr_rules (r 1) [r 2; r 5] /\
  way tr_world tr_rules tr_module (r 1) [r 1; r 2; r 4] (r 4) (Some 40%Z : cost ZCost) /\
  (exists rt, get_route RoutingProps.tie0 g (L (r 1)) (L (r 4)) 0 false = Done (Some rt) /\ contains rt (L (r 3)) = true) /\
  (exists l, reachable_set false false RoutingProps.tie0 g (L (r 1)) (Some 20%Z : cost ZCost) 0 false = QRet l /\ In (L (r 4)) l /\ ~ In (L (r 2)) l).
Proof.
  assert (Q : match tr_build with
    | Ok g => (shortest_path RoutingProps.tie0 g (L (r 1)) (L (r 4)) 0 false false, shortest_path RoutingProps.tie0 g (L (r 1)) (L (r 5)) 0 false false,
               shortest_path RoutingProps.tie0 g (L (r 1)) (L (r 5)) 0 true false, reachable_set false false RoutingProps.tie0 g (L (r 1)) (Some 20%Z : cost ZCost) 0 false,
               match get_route RoutingProps.tie0 g (L (r 1)) (L (r 4)) 0 false with Done (Some rt) => contains rt (L (r 3)) | _ => false end)
    | _ => (QBroken, QBroken, QBroken, QBroken, false) end =
    (QRet (Some (map L [r 1; r 3; r 4])), QRet None, QRet (Some (map L [r 1; r 2; r 5])), QRet (map L [r 1; r 3; r 4]), true)) by (vm_compute; reflexivity).
  destruct tr_build as [g| | |] eqn:Hg; [|discriminate..]. exists g. split; [reflexivity|]. injection Q as E1 E2 E3 E4 E5.
  pose proof (C109_shortest_path ZCost o1 tr_world tr_rules [tr_module] id_order tr_setting zcok zwok ZCostLaws g 0 tr_module RoutingProps.tie0 (r 1) (r 4) Hg eq_refl) as T1. rewrite E1 in T1.
  pose proof (C109_shortest_path ZCost o1 tr_world tr_rules [tr_module] id_order tr_setting zcok zwok ZCostLaws g 0 tr_module RoutingProps.tie0 (r 1) (r 5) Hg eq_refl) as T2. rewrite E2 in T2.
  pose proof (C109_lane_changes_partial ZCost o1 tr_world tr_rules [tr_module] id_order tr_setting zcok zwok ZCostLaws g 0 tr_module RoutingProps.tie0 (r 1) (r 5) Hg eq_refl tr_regular tr_generous) as T3. rewrite E3 in T3.
  destruct (C109_reachable ZCost o1 tr_world tr_rules [tr_module] id_order tr_setting zcok zwok ZCostLaws g 0 tr_module RoutingProps.tie0 (r 1) (Some 20%Z : cost ZCost) Hg eq_refl) as (l & El & _ & Hl).
  { exact (RoutingProps.C12_comparable 20). }
  split; [exact E1|]. destruct T1 as (ls & Els & T1). apply (map_L_inj [r 1; r 3; r 4]) in Els as <-. split; [exact T1|]. split; [exact E2|]. split; [exact T2|]. split; [exact E3|].
  destruct T3 as (ls & Els & T3 & _). apply (map_L_inj (r 1 :: [r 2; r 5])) in Els. injection Els as <-. split; [exact T3|].
  split.
  { apply (way_on tr_world tr_rules tr_module (r 1) [r 1; r 2] (r 2) (Some 30%Z : cost ZCost) (r 4)); [|apply tr_leads; simpl; auto|reflexivity|reflexivity].
    apply (way_on tr_world tr_rules tr_module (r 1) [r 1] (r 1) (Some 0%Z : cost ZCost) (r 2)); [|apply tr_leads; simpl; auto|reflexivity|reflexivity].
    constructor. apply tr_uses. simpl. auto. }
  split.
  { clear -E5. destruct (get_route RoutingProps.tie0 g (L (r 1)) (L (r 4)) 0 false) as [[rt|]| | |]; [|discriminate E5..]. exists rt. split; [reflexivity|exact E5]. }
  exists l. split; [exact El|]. rewrite E4 in El. injection El as <-. clear. split; [simpl; auto|]. simpl. intuition discriminate.
Qed.
Print Assumptions C109_nonvacuous.
