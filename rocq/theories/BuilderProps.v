(** C56-C61: the routing graph that RoutingGraphBuilder builds for a map. *)
From Coq Require Import NArith ZArith List Bool Arith Lia Permutation.
From Verif Require Import CostAlg GraphModel GraphSpec GraphProofs TrafficModel BuilderModel BuilderSpec BuilderProofs BuilderProofs2 BuilderProofs3 BuilderProofs4.
Import ListNotations.
Local Open Scope nat_scope.

Section Props.
Context (A : CostAlg) (one : cost A) (w : world) (ru : rules) (costs : list (@module A))
        (order : list (lref * lref) -> list (lref * lref)) (Hset : setting w ru one order).
Notation built_as g := (build one w ru costs order = Ok g).

Lemma one_ok : good_cost one = true.
Proof. destruct (set_one _ _ _ _ Hset) as [H1 H2]. unfold good_cost. rewrite H1, H2. auto. Qed.
Lemma sane_ok : sane w ru.
Proof. apply (set_sane _ _ _ _ Hset). Qed.
Hint Resolve one_ok sane_ok : core.
Lemma shape g : built_as g -> exists E0 cs Q, built one w ru costs g E0 cs Q.
Proof. apply build_shape; [exact one_ok|apply Hset|apply Hset]. Qed.

(** ** C56 *)
(** If the bounds of all usable lanelets have points and no cost is negative, the graph is built. *)
Theorem C56_build_total : (forall l, usable w ru l -> drawn w (fst l)) -> (forall m, In m costs -> unsigned_module m) ->
  exists g, built_as g.
Proof.
  intros Hd Hc. apply build_total; [exact one_ok|exact (set_sane _ _ _ _ Hset)|exact Hc|].
  intros l Hl. apply drawn_anchored, Hd. apply in_V. auto.
Qed.
(** Its vertices are the usable lanelets, in both directions where both can be used, and the usable areas. *)
Theorem C56_vertices g : built_as g -> forall x, (exists v, get_vertex g x = Some v) <-> drivable w ru x.
Proof. intros H. destruct (shape g H) as (E0 & cs & Q & B). intros x. eapply vertex_iff; eauto. Qed.
(** A usable lanelet with a bound without points: front() of an empty line string. *)
Theorem C56_undrawn l : usable w ru l -> ~ drawn w (fst l) -> build one w ru costs order = UB.
Proof.
  intros Hl Hd. unfold build.
  pose proof (index_loop_ub (A := A) w ru costs l) as H.
  erewrite H; [reflexivity|apply in_V; auto|]. intros Ha. apply Hd. apply anchored_drawn. auto.
Qed.

(** ** C57 *)
(** There is a successor edge exactly from a usable lanelet to a usable lanelet that begins where it ends and can be passed
    to from it, with the cost of the module, unless that cost is infinite. *)
Theorem C57_successors g : built_as g -> forall x y k c, joined g x y Successor k c <-> exists a b m, x = L a /\ y = L b /\
  usable w ru a /\ usable w ru b /\ continued_by w a b /\ may_pass ru (L a) (L b) = true /\
  nth_error costs (N.to_nat k) = Some m /\ c = m_succeeding m (L a) (L b) /\ good_cost c = true.
Proof. intros H. destruct (shape g H) as (E0 & cs & Q & B). intros. eapply successor_iff; eauto. Qed.
(** No edge occurs twice; for successor edges the beginning and the end of each usable lanelet have to differ. *)
Theorem C57_edges_once g : built_as g ->
  forall x y r k, (r = Successor -> forall l, usable w ru l -> open_ended w l) -> length (parallel g x y r k) <= 1.
Proof.
  intros H x y r k Ho. destruct (shape g H) as (E0 & cs & Q & B). eapply edges_once'; eauto.
  intros Hr. eapply F_slots; eauto.
Qed.

(** ** C58 *)
(** An adjacent edge leads to the lanelet that shares the bound on this side, costs one, and means that the lane cannot be
    changed, or that the module finds the change too costly. *)
Theorem C58_adjacent_sound g : built_as g -> forall s x y k c, joined g x y (adjacent s) k c -> exists a b, x = L a /\ y = L b /\
  usable w ru a /\ usable w ru b /\ neighbour w s b a /\ c = one /\
  (may_change ru a b = true -> exists froms tos m, nth_error costs (N.to_nat k) = Some m /\
     cfinite A (m_change m (a :: froms) (b :: tos)) = false).
Proof.
  intros H. destruct (shape g H) as (E0 & cs & Q & B). intros s x y k c Hj.
  eapply adjacent_sound in Hj as (a & b & -> & -> & Ha & Hb & Hn & -> & Hm); eauto.
  exists a, b. split; auto. split; auto. split; auto. split; auto. split; auto. split; auto.
  intros Hc. destruct (Hm Hc) as (pre & post & m & _ & Hk & Hf). eauto.
Qed.
(** Where the lane cannot be changed the edge is there for every module. *)
Theorem C58_adjacent_complete g : built_as g -> forall s a b k, usable w ru a -> usable w ru b -> neighbour w s b a ->
  may_change ru a b = false -> ~ continued_by w a b -> (s = SRight -> ~ neighbour w SLeft b a) ->
  N.to_nat k < length costs -> joined g (L a) (L b) (adjacent s) k one.
Proof.
  intros H. destruct (shape g H) as (E0 & cs & Q & B). intros s a b k Ha Hb Hn Hm Hc Hs Hk.
  apply nth_error_Some in Hk. destruct (nth_error costs (N.to_nat k)) as [m|] eqn:E; [|congruence].
  eapply adjacent_complete; eauto.
Qed.

(** ** C59 *)
(** On regular maps a lane change edge belongs to a stretch of lanelets along which the lane can be changed, and its cost is
    the cost of changing the lane over the rest of the stretch. *)
Theorem C59_change_sound g s : built_as g -> regular w ru s -> forall x y k c, joined g x y (changing s) k c ->
  exists a b pre post m, x = L a /\ y = L b /\ stretch w ru g s (pre ++ (a, b) :: post) /\
    nth_error costs (N.to_nat k) = Some m /\ c = m_change m (a :: map fst post) (b :: map snd post) /\ good_cost c = true.
Proof. intros H Hreg. destruct (shape g H) as (E0 & cs & Q & B). intros. eapply changing_sound; eauto. Qed.
(** Every pair of lanelets between which the lane can be changed is part of a stretch, and has a lane change edge for each
    module with a finite cost and an adjacent edge for each other module. *)
Theorem C59_change_complete g s : built_as g -> regular w ru s -> forall a b, changeable w ru s (a, b) ->
  exists pre post, stretch w ru g s (pre ++ (a, b) :: post) /\ forall k m, nth_error costs (N.to_nat k) = Some m ->
    let c := m_change m (a :: map fst post) (b :: map snd post) in
    (good_cost c = true -> joined g (L a) (L b) (changing s) k c) /\
    (cfinite A c = false -> joined g (L a) (L b) (adjacent s) k one).
Proof.
  intros H Hreg. destruct (shape g H) as (E0 & cs & Q & B). intros. eapply change_complete; eauto.
Qed.

(** ** C60 *)
(** Two lanelets are marked as conflicting exactly if they are the two directions of one lanelet, or if they overlap, do
    not touch as neighbours and are not both inverted; the edge costs one. *)
Theorem C60_conflicts g : built_as g -> forall a b k c, joined g (L a) (L b) Conflicting k c <->
  usable w ru a /\ usable w ru b /\ c = one /\ N.to_nat k < length costs /\
  (b = inv a \/ (fst a <> fst b /\ w_meet w a b = true /\ ~ touch w a b /\ (snd a = false \/ snd b = false))).
Proof.
  intros H. destruct (shape g H) as (E0 & cs & Q & B). intros a b k c.
  rewrite (conflict_iff one w ru costs one_ok (set_sane _ _ _ _ Hset) g E0 cs Q B).
  assert (Hk : (exists m, nth_error costs (N.to_nat k) = Some m) <-> N.to_nat k < length costs).
  { rewrite <- nth_error_Some. split; [intros [m ->]; discriminate|]. destruct (nth_error _ _); eauto. congruence. }
  rewrite Hk. tauto.
Qed.
(** Conflicts between lanelets are mutual. *)
Theorem C60_conflicts_mutual g : built_as g -> forall a b k c,
  joined g (L a) (L b) Conflicting k c -> joined g (L b) (L a) Conflicting k c.
Proof.
  intros H. destruct (shape g H) as (E0 & cs & Q & B). intros a b k c Hj. pose proof Hj as Hx.
  apply (C60_conflicts g H) in Hx as (_ & _ & -> & Hk & _).
  rewrite (joined_iff one w ru costs g E0 cs Q B) in *. rewrite in_F in *. destruct Hj as [Hj|[[s Hj]|Hj]].
  - left. pose proof Hj as Hi. apply (st_conf_sound _ _ _ _ _ _ _ (bt_state _ _ _ _ _ _ _ _ B)) in Hi as (_ & _ & _ & _ & _ & Hi & _).
    eapply (st_conf_sym _ _ _ _ _ _ _ (bt_state _ _ _ _ _ _ _ _ B)) in Hj as [_ Hj]; eauto.
  - apply contrib_rel in Hj. destruct s, Hj; discriminate.
  - apply area_conflict_ends in Hj as [z Hj]. discriminate.
Qed.

(** ** C61 *)
(** Area edges join areas with lanelets and areas that can be passed to. *)
Theorem C61_area_edges g : built_as g -> forall x y k c, joined g x y RArea k c <->
  drivable w ru x /\ drivable w ru y /\ ((exists a, x = EArea a) \/ (exists a, y = EArea a)) /\ x <> y /\ may_pass ru x y = true /\
  exists m, nth_error costs (N.to_nat k) = Some m /\ c = m_succeeding m x y /\ good_cost c = true.
Proof. intros H. destruct (shape g H) as (E0 & cs & Q & B). intros. eapply area_iff; eauto. Qed.
(** Conflicts with areas: a lanelet in its own direction that overlaps an area leads to the area, an area b that overlaps
    an area a leads to a, each only where it cannot be passed. *)
Theorem C61_area_conflicts g : built_as g -> forall x y k c, (exists a, x = EArea a) \/ (exists a, y = EArea a) ->
  joined g x y Conflicting k c <->
  c = one /\ (exists m, nth_error costs (N.to_nat k) = Some m) /\ exists a, y = EArea a /\ usable_area w ru a /\
  ((exists d, x = L (d, false) /\ usable w ru (d, false) /\ w_meet_area w a d = true /\
      forall i, may_pass ru y (L (d, i)) = false /\ may_pass ru (L (d, i)) y = false) \/
   (exists b, x = EArea b /\ usable_area w ru b /\ a <> b /\ w_meet_areas w a b = true /\ may_pass ru y x = false)).
Proof.
  intros H. destruct (shape g H) as (E0 & cs & Q & B). intros. eapply area_conflict_iff; eauto.
Qed.
End Props.
Print Assumptions C56_build_total.
Print Assumptions C56_vertices.
Print Assumptions C56_undrawn.
Print Assumptions C57_successors.
Print Assumptions C57_edges_once.
Print Assumptions C58_adjacent_sound.
Print Assumptions C58_adjacent_complete.
Print Assumptions C59_change_sound.
Print Assumptions C59_change_complete.
Print Assumptions C60_conflicts.
Print Assumptions C60_conflicts_mutual.
Print Assumptions C61_area_edges.
Print Assumptions C61_area_conflicts.

(** * A map *)
(** Two lanes of two lanelets each, 1 and 2 on the left, 3 and 4 on the right, and lanelet 5 that crosses them and can be
    used in both directions. From lanelet 4 one can leave to area 1, which overlaps lanelet 5 and area 2. *)
Definition ln (d : nat) : line := Line d false.
Definition ex_points (d : nat) : list nat :=
  match d with
  | 0 => [0; 1] | 1 => [1; 2] | 2 => [3; 4] | 3 => [4; 5] | 4 => [6; 7] | 5 => [7; 8] | 6 => [9; 10] | 7 => [11; 12]
  | _ => [] end.
Definition ex_world : world := {|
  w_points := ex_points; w_pid := Z.of_nat;
  w_left := fun d => match d with 1%N => ln 0 | 2%N => ln 1 | 3%N => ln 2 | 4%N => ln 3 | _ => ln 6 end;
  w_right := fun d => match d with 1%N => ln 2 | 2%N => ln 3 | 3%N => ln 4 | 4%N => ln 5 | _ => ln 7 end;
  w_layer := [1; 2; 3; 4; 5]%N; w_areas := [1; 2]%N;
  w_near := fun _ => [1; 2; 3; 4; 5]%N; w_near_areas := fun _ => [1; 2]%N;
  w_meet := fun a b => N.eqb (fst a) 5 || N.eqb (fst b) 5;
  w_meet_area := fun a d => N.eqb a 1 && N.eqb d 5;
  w_meet_areas := fun _ _ => true |}.
Definition ex_rules : rules := {|
  may_use := fun l => negb (snd l) || N.eqb (fst l) 5;
  may_use_area := fun _ => true;
  may_pass := fun a b => match a, b with
    | ELanelet _ false, ELanelet _ false => true | ELanelet 4 false, EArea 1 => true | _, _ => false end;
  may_change := fun a b => negb (N.eqb (fst a) 4) |}.
(** A lane change over two or more lanelets costs three, over a single lanelet it is not possible. *)
Definition ex_module : @module ZCost := {|
  m_succeeding := fun _ _ => Some 10%Z : cost ZCost;
  m_change := fun f _ => if Nat.leb 2 (length f) then Some 3%Z : cost ZCost else None |}.
Definition id_order (c : list (lref * lref)) := c.
Notation o1 := (Some 1%Z : cost ZCost).
Notation ex_build := (build o1 ex_world ex_rules [ex_module] id_order).

Definition listed : list lref := [(1, false); (2, false); (3, false); (4, false); (5, false); (5, true)]%N.
Lemma ex_usable l : usable ex_world ex_rules l <-> In l listed.
Proof.
  destruct l as [d i]. unfold usable. simpl. split.
  - intros (Hd & _ & Hu). destruct Hd as [<-|[<-|[<-|[<-|[<-|[]]]]]], i; simpl in *; try discriminate; auto 10.
  - intros [H|[H|[H|[H|[H|[H|[]]]]]]]; injection H as <- <-; simpl; auto 10.
Qed.
Lemma ex_setting : setting ex_world ex_rules o1 id_order.
Proof.
  constructor; [split; reflexivity|intros c; apply Permutation_refl|].
  assert (Hu : forall d, usable ex_world ex_rules (d, false) <-> In d [1; 2; 3; 4; 5]%N).
  { intros d. unfold usable. simpl. tauto. }
  constructor; simpl.
  - repeat constructor; simpl; intuition discriminate.
  - repeat constructor; simpl; intuition discriminate.
  - intros _. repeat constructor; simpl; intuition discriminate.
  - intros _. repeat constructor; simpl; intuition discriminate.
  - intros _ d Hd. apply Hu. auto.
  - intros _ b Hb. split; auto.
  - intros l Hl. apply Hl.
  - intros l d _ Hd _. apply Hu in Hd. auto.
  - intros a d _ Hd _. apply Hu in Hd. auto.
  - intros a b _ [Hb _] _. auto.
  - intros a b. apply orb_comm.
Qed.
Lemma ex_regular s : regular ex_world ex_rules s.
Proof.
  constructor.
  - intros a b b' Ha Hb Hb' [Hn H] [Hn' H']. apply ex_usable in Ha, Hb, Hb'.
    repeat (destruct Ha as [<-|Ha]; [|]); try destruct Ha;
    repeat (destruct Hb as [<-|Hb]; [|]); try destruct Hb; destruct s; try discriminate H;
    repeat (destruct Hb' as [<-|Hb']; [|]); try destruct Hb'; try discriminate H'; try reflexivity.
  - intros a b Ha Hb Hn Hc. apply ex_usable in Ha, Hb. apply follows_iff in Hc. destruct Hn as [_ H].
    repeat (destruct Ha as [<-|Ha]; [|]); try destruct Ha;
    repeat (destruct Hb as [<-|Hb]; [|]); try destruct Hb; destruct s; try discriminate H; discriminate Hc.
Qed.
Lemma ex_drawn l : usable ex_world ex_rules l -> drawn ex_world (fst l).
Proof.
  rewrite ex_usable. intros H. repeat (destruct H as [<-|H]; [split; discriminate|]). destruct H.
Qed.
Lemma ex_unsigned m : In m [ex_module] -> unsigned_module m.
Proof.
  intros [<-|[]]. split.
  - intros a b. left. reflexivity.
  - intros f t. unfold unsigned. cbn [m_change ex_module]. destruct (2 <=? length f); [left|right]; reflexivity.
Qed.
Lemma ex_open l : usable ex_world ex_rules l -> open_ended ex_world l.
Proof.
  rewrite ex_usable. intros H p q x y Hs He. apply starts_iff in Hs as [S1 S2]. apply ends_iff in He as [E1 E2].
  repeat (destruct H as [<-|H]; [vm_compute in S1, S2, E1, E2; injection S1 as <-; injection S2 as <-; injection E1 as <-; injection E2 as <-;
    intros a b [<-|[<-|[]]] [<-|[<-|[]]]; vm_compute; discriminate|]). destruct H.
Qed.

Example C56_nonvacuous : exists g, ex_build = Ok g /\ length (g_edges g) = 28 /\
  (exists v, get_vertex g (L (5, true)%N) = Some v) /\ get_vertex g (L (4, true)%N) = None.
Proof.
  destruct (C56_build_total ZCost o1 ex_world ex_rules [ex_module] id_order ex_setting ex_drawn ex_unsigned) as [g Hg].
  exists g. split; [exact Hg|]. vm_compute in Hg. injection Hg as <-. split; [reflexivity|]. split; [eexists; reflexivity|reflexivity].
Qed.
Example C57_nonvacuous : exists g, ex_build = Ok g /\ joined g (L (1, false)%N) (L (2, false)%N) Successor 0 (Some 10%Z : cost ZCost) /\
  (forall x y r k, length (parallel g x y r k) <= 1) /\ parallel g (L (1, false)%N) (L (2, false)%N) Successor 0 = [Some 10%Z].
Proof.
  destruct C56_nonvacuous as (g & Hg & _). exists g. split; auto. split; [|split].
  - apply (C57_successors ZCost o1 ex_world ex_rules [ex_module] id_order ex_setting g Hg).
    exists (1, false)%N, (2, false)%N, ex_module. rewrite !ex_usable. simpl.
    repeat split; auto 10. apply follows_iff. reflexivity.
  - intros x y r k. exact (C57_edges_once ZCost o1 ex_world ex_rules [ex_module] id_order ex_setting g Hg x y r k (fun _ => ex_open)).
  - vm_compute in Hg. injection Hg as <-. reflexivity.
Qed.
Example C58_nonvacuous : exists g, ex_build = Ok g /\ joined g (L (4, false)%N) (L (2, false)%N) (adjacent SLeft) 0 o1 /\
  joined g (L (2, false)%N) (L (4, false)%N) (adjacent SRight) 0 o1.
Proof.
  destruct C56_nonvacuous as (g & Hg & _). exists g. split; auto. split.
  - apply (C58_adjacent_complete ZCost o1 ex_world ex_rules [ex_module] id_order ex_setting g Hg).
    + apply ex_usable. simpl. auto 10. + apply ex_usable. simpl. auto 10. + split; [discriminate|reflexivity]. + reflexivity.
    + intros H. apply follows_iff in H. discriminate. + discriminate. + simpl. lia.
  - destruct (C59_change_complete ZCost o1 ex_world ex_rules [ex_module] id_order ex_setting g SRight Hg (ex_regular SRight) (2, false)%N (4, false)%N)
      as (pre & post & Hst & Hc).
    + unfold changeable. rewrite !ex_usable. simpl. repeat split; auto 10. discriminate.
    + vm_compute in Hg. injection Hg as <-. eexists. split; [do 23 right; left; reflexivity|]. repeat split; reflexivity.
Qed.
(** The change from lanelet 1 to lanelet 3 is part of a stretch of two pairs, the one from 2 to 4 is its end. *)
Example C59_nonvacuous : exists g, ex_build = Ok g /\
  stretch ex_world ex_rules g SRight [((1, false), (3, false)); ((2, false), (4, false))]%N /\
  joined g (L (1, false)%N) (L (3, false)%N) (changing SRight) 0 (Some 3%Z : cost ZCost).
Proof.
  destruct C56_nonvacuous as (g & Hg & _). exists g. split; auto.
  assert (Hj : joined g (L (1, false)%N) (L (3, false)%N) (changing SRight) 0 (Some 3%Z : cost ZCost)).
  { clear -Hg. vm_compute in Hg. injection Hg as <-. eexists. split; [do 22 right; left; reflexivity|]. repeat split; reflexivity. }
  split; auto.
  destruct (C59_change_sound ZCost o1 ex_world ex_rules [ex_module] id_order ex_setting g SRight Hg (ex_regular SRight) _ _ _ _ Hj)
    as (a & b & pre & post & m & Ha & Hb & Hst & Hm & Hc & _).
  apply L_inj in Ha, Hb. subst a b. simpl in Hm. injection Hm as <-.
  assert (Hch : forall p, changeable ex_world ex_rules SRight p -> p = ((1, false), (3, false))%N \/ p = ((2, false), (4, false))%N).
  { intros [a b] (Ha & Hb & [_ Hn] & Hm). simpl in Ha, Hb, Hn, Hm. apply ex_usable in Ha, Hb.
    repeat (destruct Ha as [<-|Ha]; [|]); try destruct Ha; repeat (destruct Hb as [<-|Hb]; [|]); try destruct Hb;
    try discriminate Hn; try discriminate Hm; auto. }
  assert (Hin : forall p, In p post -> p = ((2, false), (4, false))%N).
  { intros p Hp. assert (Hp' : In p (pre ++ ((1, false), (3, false))%N :: post)) by (apply in_app_iff; simpl; auto).
    apply (str_change _ _ _ _ _ Hst) in Hp'. destruct (Hch p Hp') as [-> | ->]; auto.
    exfalso. pose proof (str_once _ _ _ _ _ Hst) as Hn. rewrite map_app in Hn. simpl in Hn. apply NoDup_remove_2 in Hn.
    apply Hn, in_app_iff. right. apply (in_map fst) in Hp. auto. }
  assert (Hpost : post = [((2, false), (4, false))%N]).
  { destruct post as [|p [|q r]]; [discriminate Hc| |].
    - rewrite (Hin p); simpl; auto.
    - exfalso. pose proof (str_once _ _ _ _ _ Hst) as Hn. rewrite map_app in Hn. apply NoDup_app_remove in Hn as (_ & Hn & _).
      rewrite (Hin p), (Hin q) in Hn by (simpl; auto). simpl in Hn. inversion Hn as [|? ? _ Hn']. inversion Hn' as [|? ? Hn'' _]. apply Hn''. simpl. auto. }
  assert (Hpre : pre = []).
  { destruct pre as [|p pre]; auto. exfalso. pose proof (str_once _ _ _ _ _ Hst) as Hn.
    assert (Hp : In p ((p :: pre) ++ ((1, false), (3, false))%N :: post)) by (simpl; auto).
    apply (str_change _ _ _ _ _ Hst) in Hp. subst post. rewrite map_app in Hn. apply NoDup_app_remove in Hn as (_ & _ & Hn).
    apply (Hn (fst p)); [simpl; auto|]. destruct (Hch p Hp) as [-> | ->]; simpl; auto. }
  subst. exact Hst.
Qed.
Example C60_nonvacuous : exists g, ex_build = Ok g /\ joined g (L (1, false)%N) (L (5, true)%N) Conflicting 0 o1 /\
  ~ joined g (L (1, false)%N) (L (2, false)%N) Conflicting 0 o1.
Proof.
  destruct C56_nonvacuous as (g & Hg & _). exists g. split; auto.
  rewrite !(C60_conflicts ZCost o1 ex_world ex_rules [ex_module] id_order ex_setting g Hg). split.
  - rewrite !ex_usable. split; [simpl; auto 10|]. split; [simpl; auto 10|]. split; auto. split; [simpl; lia|]. right.
    split; [discriminate|]. split; [reflexivity|]. split; [|auto].
    intros [([] & [[_ H]|[_ H]])|[H|[H|H]]]; try (apply follows_iff in H); discriminate.
  - intros (_ & _ & _ & _ & [H|(_ & _ & H & _)]); [discriminate|]. apply H. right. left. apply follows_iff. reflexivity.
Qed.
Example C61_nonvacuous : exists g, ex_build = Ok g /\ joined g (L (4, false)%N) (EArea 1) RArea 0 (Some 10%Z : cost ZCost) /\
  joined g (L (5, false)%N) (EArea 1) Conflicting 0 o1 /\ joined g (EArea 2) (EArea 1) Conflicting 0 o1.
Proof.
  destruct C56_nonvacuous as (g & Hg & _). exists g. split; auto.
  assert (U : forall d, In d [1; 2; 3; 4; 5]%N -> usable ex_world ex_rules (d, false)). { intros d Hd. unfold usable. simpl. auto. }
  assert (UA : forall a, In a [1; 2]%N -> usable_area ex_world ex_rules a). { intros a Ha. split; auto. }
  split; [|split].
  - apply (C61_area_edges ZCost o1 ex_world ex_rules [ex_module] id_order ex_setting g Hg).
    split; [apply (U 4%N); simpl; auto|]. split; [apply (UA 1%N); simpl; auto|]. split; [eauto|]. split; [discriminate|]. split; [reflexivity|].
    exists ex_module. auto.
  - apply (C61_area_conflicts ZCost o1 ex_world ex_rules [ex_module] id_order ex_setting g Hg); [eauto|].
    split; auto. split; [exists ex_module; auto|]. exists 1%N. split; auto. split; [apply UA; simpl; auto|]. left. exists 5%N.
    split; auto. split; [apply U; simpl; auto 10|]. split; auto. intros []; auto.
  - apply (C61_area_conflicts ZCost o1 ex_world ex_rules [ex_module] id_order ex_setting g Hg); [eauto|].
    split; auto. split; [exists ex_module; auto|]. exists 1%N. split; auto. split; [apply UA; simpl; auto|]. right. exists 2%N.
    split; auto. split; [apply UA; simpl; auto|]. split; [discriminate|]. auto.
Qed.

(** * What does not hold *)
Definition toy (pts : nat -> list nat) (lf rt : N -> nat) (layer : list N) (meet : bool) : world := {|
  w_points := pts; w_pid := Z.of_nat; w_left := fun d => ln (lf d); w_right := fun d => ln (rt d);
  w_layer := layer; w_areas := []; w_near := fun _ => layer; w_near_areas := fun _ => [];
  w_meet := fun _ _ => meet; w_meet_area := fun _ _ => false; w_meet_areas := fun _ _ => false |}.
Definition toy_rules (both : bool) : rules := {|
  may_use := fun l => negb (snd l) || both; may_use_area := fun _ => true;
  may_pass := fun _ _ => true; may_change := fun _ _ => true |}.
Lemma toy_setting pts lf rt layer meet both (order : list (lref * lref) -> list (lref * lref)) :
  NoDup layer -> (forall c, Permutation (order c) c) -> setting (toy pts lf rt layer meet) (toy_rules both) o1 order.
Proof.
  intros Hn Ho. constructor; [split; reflexivity|auto|]. constructor; simpl; auto.
  - constructor. - intros _. constructor. - intros x d Hd. repeat split; auto. - intros a b []. - intros l Hl. apply Hl.
  - intros l d _ Hd _. apply Hd. - intros a d [[] _]. - intros a b [[] _].
Qed.

(** Building is not safe for every map: a bound without points. *)
Theorem C56_safe_refuted : exists w ru, setting w ru o1 id_order /\ build o1 w ru [ex_module] id_order = UB.
Proof.
  exists (toy (fun _ => []) (fun _ => 0) (fun _ => 1) [1%N] false), (toy_rules false). split.
  - apply toy_setting; [repeat constructor; simpl; auto|intros; apply Permutation_refl].
  - reflexivity.
Qed.
Print Assumptions C56_safe_refuted.

(** A lanelet that ends where it begins is found twice: the edge to it is added twice. *)
Definition ring_points (d : nat) : list nat := match d with 0 => [0; 1; 0] | _ => [2; 3; 2] end.
Theorem C57_once_refuted : exists w ru g, setting w ru o1 id_order /\ (forall l, usable w ru l -> drawn w (fst l)) /\
  build o1 w ru [ex_module] id_order = Ok g /\ exists a, usable w ru a /\ parallel g (L a) (L a) Successor 0 = [Some 10%Z; Some 10%Z].
Proof.
  exists (toy ring_points (fun _ => 0) (fun _ => 1) [1%N] false), (toy_rules false). eexists. split; [|split; [|split]].
  - apply toy_setting; [repeat constructor; simpl; auto|intros; apply Permutation_refl].
  - intros l _. split; discriminate.
  - vm_compute. reflexivity.
  - exists (1, false)%N. split; [repeat split; simpl; auto|]. reflexivity.
Qed.
Print Assumptions C57_once_refuted.

(** Of two lanelets on the same side to which the lane can be changed one has no edge at all. *)
Definition fork_points (d : nat) : list nat := match d with 0 => [0; 1] | 1 => [2; 3] | 2 => [4; 5] | _ => [6; 7] end.
Definition fork_left (d : N) : nat := match d with 1%N => 0 | 2%N => 2 | _ => 3 end.
Definition fork_right (d : N) : nat := match d with 1%N => 1 | _ => 0 end.
Theorem C59_second_neighbour_refuted : exists w ru g a b, setting w ru o1 id_order /\
  build o1 w ru [ex_module] id_order = Ok g /\ changeable w ru SLeft (a, b) /\ ~ continued_by w a b /\
  forall r, parallel g (L a) (L b) r 0 = [].
Proof.
  exists (toy fork_points fork_left fork_right [1; 2; 3]%N false), (toy_rules false). eexists. exists (1, false)%N, (3, false)%N.
  split; [|split; [|split; [|split]]].
  - apply toy_setting; [repeat constructor; simpl; intuition discriminate|intros; apply Permutation_refl].
  - vm_compute. reflexivity.
  - repeat split; simpl; auto. discriminate.
  - intros H. apply follows_iff in H. discriminate.
  - intros []; vm_compute; reflexivity.
Qed.
Print Assumptions C59_second_neighbour_refuted.

(** Where a lane merges, the cost of a lane change depends on the iteration order of the hash map. *)
Definition merge_points (d : nat) : list nat :=
  match d with
  | 0 => [0; 1] | 1 => [1; 2] | 2 => [3; 4] | 3 => [4; 5] | 4 => [6; 7] | 5 => [7; 8] | 6 => [9; 1] | _ => [10; 4] end.
Definition merge_left (d : N) : nat := match d with 1%N => 0 | 2%N => 1 | 3%N => 2 | 4%N => 3 | _ => 6 end.
Definition merge_right (d : N) : nat := match d with 1%N => 2 | 2%N => 3 | 3%N => 4 | 4%N => 5 | _ => 7 end.
Theorem C59_order_refuted : exists w ru order order' g g' a b, setting w ru o1 order /\ setting w ru o1 order' /\
  regular w ru SRight /\ build o1 w ru [ex_module] order = Ok g /\ build o1 w ru [ex_module] order' = Ok g' /\
  parallel g (L a) (L b) RRight 0 = [Some 3%Z] /\ parallel g' (L a) (L b) RRight 0 = [].
Proof.
  exists (toy merge_points merge_left merge_right [1; 2; 3; 4; 5]%N false), (toy_rules false), id_order, (@rev (lref * lref)).
  do 2 eexists. exists (1, false)%N, (3, false)%N.
  assert (Hn : NoDup [1; 2; 3; 4; 5]%N) by (repeat constructor; simpl; intuition discriminate).
  split; [apply toy_setting; [exact Hn|intros; apply Permutation_refl]|].
  split; [apply toy_setting; [exact Hn|intros; apply Permutation_sym, Permutation_rev]|].
  split; [|split; [vm_compute; reflexivity|split; [vm_compute; reflexivity|split; reflexivity]]].
  assert (Hu : forall l, usable (toy merge_points merge_left merge_right [1; 2; 3; 4; 5]%N false) (toy_rules false) l ->
     In l [(1, false); (2, false); (3, false); (4, false); (5, false)]%N).
  { intros [d i] (Hd & _ & H). simpl in *. destruct i; [discriminate|]. repeat (destruct Hd as [<-|Hd]; [auto 10|]). destruct Hd. }
  constructor.
  - intros a b b' Ha Hb Hb' [_ H] [_ H']. apply Hu in Ha, Hb, Hb'.
    repeat (destruct Ha as [<-|Ha]; [|]); try destruct Ha;
    repeat (destruct Hb as [<-|Hb]; [|]); try destruct Hb; try discriminate H;
    repeat (destruct Hb' as [<-|Hb']; [|]); try destruct Hb'; try discriminate H'; try reflexivity.
  - intros a b Ha Hb [_ H] Hc. apply Hu in Ha, Hb. apply follows_iff in Hc.
    repeat (destruct Ha as [<-|Ha]; [|]); try destruct Ha;
    repeat (destruct Hb as [<-|Hb]; [|]); try destruct Hb; try discriminate H; discriminate Hc.
Qed.
Print Assumptions C59_order_refuted.

(** Two overlapping lanelets that can be used in both directions: nothing marks the conflict of the two opposite directions. *)
Theorem C60_inverted_refuted : exists w ru g a b, setting w ru o1 id_order /\ build o1 w ru [ex_module] id_order = Ok g /\
  usable w ru a /\ usable w ru b /\ w_meet w a b = true /\ ~ touch w a b /\ fst a <> fst b /\
  forall r, parallel g (L a) (L b) r 0 = [] /\ parallel g (L b) (L a) r 0 = [].
Proof.
  exists (toy ex_points (fun d => if N.eqb d 1 then 0 else 4) (fun d => if N.eqb d 1 then 2 else 6) [1; 2]%N true), (toy_rules true).
  eexists. exists (1, true)%N, (2, true)%N.
  split; [apply toy_setting; [repeat constructor; simpl; intuition discriminate|intros; apply Permutation_refl]|].
  split; [vm_compute; reflexivity|]. split; [repeat split; simpl; auto|]. split; [repeat split; simpl; auto|]. split; [reflexivity|].
  split; [intros [([] & [[_ H]|[_ H]])|[H|[H|H]]]; try (apply follows_iff in H); discriminate|].
  split; [discriminate|]. intros []; vm_compute; auto.
Qed.
Print Assumptions C60_inverted_refuted.

(** Lanelets that begin at the same place in opposite directions are never in conflict; for lanelets that end at the same
    place this is not excluded. *)
Theorem C60_head_on_refuted : exists w ru g a b, setting w ru o1 id_order /\ build o1 w ru [ex_module] id_order = Ok g /\
  usable w ru a /\ usable w ru b /\ fst a <> fst b /\ continued_by w a (inv b) /\ joined g (L a) (L b) Conflicting 0 o1.
Proof.
  exists (toy (fun d => match d with 0 => [0; 1] | 1 => [2; 3] | 2 => [4; 3] | _ => [5; 1] end)
    (fun d => if N.eqb d 1 then 0 else 2) (fun d => if N.eqb d 1 then 1 else 3) [1; 2]%N true), (toy_rules false).
  eexists. exists (1, false)%N, (2, false)%N.
  split; [apply toy_setting; [repeat constructor; simpl; intuition discriminate|intros; apply Permutation_refl]|].
  split; [vm_compute; reflexivity|]. split; [repeat split; simpl; auto|]. split; [repeat split; simpl; auto|]. split; [discriminate|].
  split; [apply follows_iff; reflexivity|]. eexists. split; [left; reflexivity|]. repeat split; reflexivity.
Qed.
Print Assumptions C60_head_on_refuted.

(** Conflicts with areas are not mutual, and only one direction of a lanelet has them. *)
Theorem C61_mutual_refuted : exists w ru g d a, setting w ru o1 id_order /\ build o1 w ru [ex_module] id_order = Ok g /\
  usable w ru (d, true) /\ usable_area w ru a /\ w_meet_area w a d = true /\
  joined g (L (d, false)) (EArea a) Conflicting 0 o1 /\
  (forall r, parallel g (EArea a) (L (d, false)) r 0 = []) /\ (forall r, parallel g (L (d, true)) (EArea a) r 0 = []).
Proof.
  destruct C61_nonvacuous as (g & Hg & _ & Hj & _). exists ex_world, ex_rules, g, 5%N, 1%N.
  split; [exact ex_setting|]. split; [exact Hg|]. split; [apply ex_usable; simpl; auto 10|]. split; [split; simpl; auto|].
  split; [reflexivity|]. split; [exact Hj|]. clear -Hg. vm_compute in Hg. injection Hg as <-.
  split; intros []; vm_compute; reflexivity.
Qed.
Print Assumptions C61_mutual_refuted.
