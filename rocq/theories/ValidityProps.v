(** C62-C64: neighbour relations of the routing graph, its validity check, validity of built graphs. *)
From Coq Require Import NArith ZArith List Bool Arith Lia Relations Permutation.
From Verif Require Import CostAlg GraphModel GraphSpec GraphProofs GraphProofs2 GraphProps TrafficModel BuilderModel BuilderSpec BuilderProofs BuilderProofs2 BuilderProofs3 BuilderProofs4 BuilderProps ValidityModel ValiditySpec ValidityProofs ValidityProofs2 ValidityProofs3.
Import ListNotations.
Local Open Scope nat_scope.

Section Props.
Context {A : CostAlg} (n : N) (ops : list (gop A)).
Notation g := (gbuild n ops).
Hypothesis Hlanes : lanes_only g.

(** ** C62 *)
(** leftRelations and rightRelations return a walk to the outermost lane: every lanelet is a neighbour of the one before
    on this side, is reported with the kind of the edge, and the last one has no further neighbour. *)
Theorem C62_relations_sound s a k fuel l : (k < n)%N -> relations g s a k fuel = Ret (Some l) -> lane_walk g s k a l.
Proof.
  intros Hk. apply relations_sound; auto using gbuild_ok, gbuild_canonical. rewrite gbuild_costs. auto.
Qed.
(** If every lanelet has at most one neighbour on the side, the walk is found whenever there is one. *)
Theorem C62_relations_complete s a k l : (k < n)%N -> single_sided g s k -> lane_walk g s k a l ->
  forall fuel, length l < fuel -> relations g s a k fuel = Ret (Some l).
Proof.
  intros Hk Hs Hw fuel Hf. apply relations_complete; auto using gbuild_ok, gbuild_canonical. rewrite gbuild_costs. auto.
Qed.
(** Without rings of neighbours the loops end, and no lanelet is met twice. *)
Theorem C62_relations_end s a k fuel : (k < n)%N -> no_ring g s k -> length (g_verts g) < fuel ->
  exists l, relations g s a k fuel = Ret (Some l) /\ NoDup (a :: map fst l).
Proof.
  intros Hk Hr Hf. assert (Hk' : (k < g_numcosts g)%N) by (rewrite gbuild_costs; auto).
  destruct (relations_total g (gbuild_ok n ops) (gbuild_canonical n ops) Hlanes k Hk' s a fuel Hr Hf) as [l Hl].
  exists l. split; auto. eapply walk_nodup; eauto using gbuild_ok, gbuild_canonical. eapply relations_sound; eauto using gbuild_ok, gbuild_canonical.
Qed.

(** ** C63 *)
(** The check reports no error exactly for consistent graphs, and throws otherwise if asked to. *)
Theorem C63_check_exact fuel e : (0 < n)%N -> check_validity g false fuel = Ret (Some e) ->
  (e = [] <-> consistent g 0) /\ (check_validity g true fuel = Throws <-> ~ consistent g 0).
Proof.
  intros Hn H. unfold check_validity in *. destruct (check_all g (g_lookup g) fuel) as [[e'|]|] eqn:E; try discriminate.
  simpl in H. injection H as ->. assert (Hk' : (0 < g_numcosts g)%N) by (rewrite gbuild_costs; auto).
  pose proof (check_exact g (gbuild_ok n ops) (gbuild_canonical n ops) Hlanes (gbuild_keyed n ops) Hk' fuel e E) as He.
  split; [exact He|]. simpl. destruct e as [|x e]; simpl.
  - split; [discriminate|]. intros Hc. destruct Hc. apply He. auto.
  - split; auto. intros _ Hc. apply He in Hc. discriminate.
Qed.
(** Without rings of neighbours the check ends. *)
Theorem C63_check_ends fuel : (0 < n)%N -> (forall s, no_ring g s 0) -> length (g_verts g) < fuel ->
  exists e, check_validity g false fuel = Ret (Some e).
Proof.
  intros Hn Hr Hf. assert (Hk' : (0 < g_numcosts g)%N) by (rewrite gbuild_costs; auto).
  destruct (check_total g (gbuild_ok n ops) (gbuild_canonical n ops) Hlanes Hk' fuel Hr Hf) as [e He].
  exists e. unfold check_validity. rewrite He. auto.
Qed.
End Props.
Print Assumptions C62_relations_sound.
Print Assumptions C62_relations_complete.
Print Assumptions C62_relations_end.
Print Assumptions C63_check_exact.
Print Assumptions C63_check_ends.

(** ** C64 *)
Section Built.
Context (A : CostAlg) (one : cost A) (w : world) (ru : rules) (costs : list (@module A))
        (order : list (lref * lref) -> list (lref * lref)) (Hset : setting w ru one order).
Notation built_as g := (build one w ru costs order = Ok g).
(** The builder only adds vertices and edges: what holds for every history of graph operations (C16-C23, C62, C63) holds for
    the graph of every map. *)
Theorem C64_history g : built_as g -> exists ops, g = gbuild (N.of_nat (length costs)) ops /\ lanes_only g.
Proof.
  intros H. destruct (shape A one w ru costs order Hset g H) as (E0 & cs & Q & B). apply built_history in H as [ops ->].
  exists ops. split; auto. eapply built_lanes; [eapply one_ok; eauto|exact B|apply gbuild_ok].
Qed.
(** Where lanelets have at most one neighbour on each side and lanes do not form rings, the built graph passes the check:
    neighbours agree with each other. *)
Theorem C64_built_valid g : built_as g -> costs <> [] -> (forall m, In m costs -> unsigned_module m) ->
  (forall s, regular w ru s) -> (forall s, no_map_ring w ru s) ->
  forall fuel throw, length (g_verts g) < fuel -> check_validity g throw fuel = Ret (Some []).
Proof.
  intros H Hne Hc Hreg Hring fuel throw Hf.
  destruct (shape A one w ru costs order Hset g H) as (E0 & cs & Q & B).
  destruct (C64_history g H) as (ops & Hops & Hl).
  destruct costs as [|m costs'] eqn:Ecosts; [congruence|]. rewrite <- Ecosts in *.
  assert (Hm : nth_error costs (N.to_nat 0) = Some m) by (rewrite Ecosts; auto).
  assert (Hgo : graph_ok g) by (rewrite Hops; apply gbuild_ok).
  assert (Hr : forall s, no_ring g s 0).
  { intros s. eapply built_no_ring; eauto; eapply one_ok; eauto. }
  assert (Hcons : consistent g 0).
  { eapply (built_consistent one w ru costs); eauto; [eapply one_ok; eauto|eapply sane_ok; eauto]. }
  assert (Hn : (0 < N.of_nat (length costs))%N) by (rewrite Ecosts; simpl; lia).
  rewrite Hops in Hl, Hr, Hcons, Hf. rewrite Hops.
  destruct (C63_check_ends _ ops Hl fuel Hn Hr Hf) as [e He].
  destruct (C63_check_exact _ ops Hl fuel e Hn He) as [He' Ht].
  apply He' in Hcons as Hnil. subst e. destruct throw; [|exact He].
  unfold check_validity in *. destruct (check_all _ _ fuel) as [[e'|]|]; try discriminate. simpl in *. injection He as ->. auto.
Qed.
(** leftRelations and rightRelations list the lanes of the map beside the lanelet in their order, for every module. *)
Theorem C64_relations_map g : built_as g -> (forall m, In m costs -> unsigned_module m) ->
  (forall s, regular w ru s) -> (forall s, no_map_ring w ru s) ->
  forall s a k fuel, usable w ru a -> N.to_nat k < length costs -> length (g_verts g) < fuel ->
  exists l bs, relations g s (L a) k fuel = Ret (Some l) /\ map fst l = map L bs /\ lane_row w ru s a bs.
Proof.
  intros H Hc Hreg Hring s a k fuel Ha Hk Hf.
  destruct (shape A one w ru costs order Hset g H) as (E0 & cs & Q & B).
  destruct (C64_history g H) as (ops & Hops & Hl).
  destruct (nth_error costs (N.to_nat k)) as [m|] eqn:Em; [|apply nth_error_None in Em; lia].
  assert (Hr : no_ring g s k) by (eapply built_no_ring; eauto; eapply one_ok; eauto).
  assert (Hkn : (k < N.of_nat (length costs))%N) by lia.
  rewrite Hops in Hl, Hr, Hf. destruct (C62_relations_end _ ops Hl s (L a) k fuel Hkn Hr Hf) as (l & Hrel & _).
  pose proof (C62_relations_sound _ ops Hl s (L a) k fuel l Hkn Hrel) as Hw. rewrite <- Hops in Hw, Hrel.
  eapply walk_row in Hw as (bs & Hbs & Hrow); eauto; eapply one_ok; eauto.
Qed.
End Built.
Print Assumptions C64_relations_map.
Print Assumptions C64_history.
Print Assumptions C64_built_valid.

(** * Examples *)
(** Four lanes; the lane cannot be changed between the second and the third. *)
Definition lane_ops : list (gop ZCost) :=
  [OpVertex (ll 1); OpVertex (ll 2); OpVertex (ll 3); OpVertex (ll 4);
   zedge 1 2 1 RLeft; zedge 2 3 1 AdjacentLeft; zedge 3 4 1 RLeft;
   zedge 2 1 1 RRight; zedge 3 2 1 AdjacentRight; zedge 4 3 1 AdjacentRight].
Ltac by_edges := intros e He _; vm_compute in He;
  repeat (destruct He as [<-|He]; [split; intros ? [= <-]; reflexivity|]); destruct He.
Lemma lane_lanes : lanes_only (gbuild 1 lane_ops).
Proof. by_edges. Qed.
(** A rank shows that there is no ring. *)
Lemma ranked {A : CostAlg} (g : graph A) s k (rank : elem -> nat) :
  (forall e, In e (g_edges g) -> ei_costid (e_info e) = k -> ei_rel (e_info e) = changing s \/ ei_rel (e_info e) = adjacent s ->
     forall a b, vertex_elem g (e_src e) = Some a -> vertex_elem g (e_tgt e) = Some b -> rank a < rank b) -> no_ring g s k.
Proof.
  intros H. assert (Ht : forall a b, clos_trans elem (step_aside g s k) a b -> rank a < rank b).
  { intros a b Hab. induction Hab as [a b (e & He & Hb)|a b c _ IH1 _ IH2]; [|lia].
    apply in_side in He. rewrite !in_kind in He. destruct He as [(H1 & H2 & H3 & H4)|(H1 & H2 & H3 & H4)]; eapply (H e); eauto. }
  intros a Ha. apply Ht in Ha. lia.
Qed.
Definition number (a : elem) : nat := match a with ELanelet d _ => N.to_nat d | EArea d => N.to_nat d end.
Lemma lane_no_ring s : no_ring (gbuild 1 lane_ops) s 0.
Proof.
  apply (ranked _ s 0%N (fun a => match s with SLeft => number a | SRight => 4 - number a end)).
  intros e He _ Hr a b Ha Hb. vm_compute in He.
  repeat (destruct He as [<-|He]; [destruct s; destruct Hr as [Hr|Hr]; try discriminate Hr; injection Ha as <-; injection Hb as <-; vm_compute; lia|]).
  destruct He.
Qed.
Example C62_nonvacuous : relations (gbuild 1 lane_ops) SLeft (ll 1) 0 5 = Ret (Some [(ll 2, RLeft); (ll 3, AdjacentLeft); (ll 4, RLeft)]) /\
  relations (gbuild 1 lane_ops) SRight (ll 3) 0 5 = Ret (Some [(ll 2, AdjacentRight); (ll 1, RRight)]) /\
  lane_walk (gbuild 1 lane_ops) SLeft 0 (ll 1) [(ll 2, RLeft); (ll 3, AdjacentLeft); (ll 4, RLeft)] /\
  exists l, relations (gbuild 1 lane_ops) SRight (ll 4) 0 5 = Ret (Some l) /\ NoDup (ll 4 :: map fst l).
Proof.
  split; [reflexivity|]. split; [reflexivity|]. split.
  - apply (C62_relations_sound 1 lane_ops lane_lanes SLeft (ll 1) 0 5); reflexivity.
  - apply (C62_relations_end 1 lane_ops lane_lanes); [reflexivity|apply lane_no_ring|vm_compute; lia].
Qed.
Example C63_nonvacuous : consistent (gbuild 1 lane_ops) 0 /\
  check_validity (gbuild 1 (lane_ops ++ [zedge 1 3 1 AdjacentLeft])) false 5 =
    Ret (Some [(ll 1, BothKinds SLeft); (ll 1, NotClosest VAdjacentLeft)]) /\
  check_validity (gbuild 1 (lane_ops ++ [zedge 1 3 1 AdjacentLeft])) true 5 = Throws /\
  (exists e, check_validity (gbuild 1 lane_ops) false 5 = Ret (Some e)).
Proof.
  split; [|split; [reflexivity|split; [reflexivity|]]].
  - apply (C63_check_exact 1 lane_ops lane_lanes 5 []); reflexivity.
  - apply (C63_check_ends 1 lane_ops lane_lanes); [reflexivity|apply lane_no_ring|vm_compute; lia].
Qed.

(** * What does not hold *)
(** Neighbours in a ring: leftRelations does not end. *)
Definition turn_ops : list (gop ZCost) :=
  [OpVertex (ll 1); OpVertex (ll 2); zedge 1 2 1 RLeft; zedge 2 1 1 AdjacentLeft].
Theorem C62_end_refuted : lanes_only (gbuild 1 turn_ops) /\ forall fuel, relations (gbuild 1 turn_ops) SLeft (ll 1) 0 fuel = Ret None.
Proof.
  split; [by_edges|]. intros fuel. unfold relations. generalize fuel at 1. intros inner.
  destruct inner as [|[|i]].
  - destruct fuel; reflexivity.
  - destruct fuel; reflexivity.
  - induction fuel as [|f IH]; [reflexivity|]. cbn [relations_from].
    replace (neighbours_until_end (change_view SLeft) (gbuild 1 turn_ops) (ll 1) 0 (S (S i))) with (Ret (Some [ll 2])) by reflexivity.
    cbn [List.last].
    replace (neighbours_until_end (adjacent_view SLeft) (gbuild 1 turn_ops) (ll 2) 0 (S (S i))) with (Ret (Some [ll 1])) by reflexivity.
    cbn [List.last]. rewrite IH. reflexivity.
Qed.
(** With two kinds of neighbours the relations of a lanelet are not continued by those of its neighbour. *)
Definition both_ops : list (gop ZCost) :=
  [OpVertex (ll 1); OpVertex (ll 2); OpVertex (ll 3); OpVertex (ll 4);
   zedge 1 2 1 AdjacentLeft; zedge 2 3 1 RLeft; zedge 2 4 1 AdjacentLeft].
Theorem C62_prefix_refuted : lanes_only (gbuild 1 both_ops) /\ no_ring (gbuild 1 both_ops) SLeft 0 /\
  relations (gbuild 1 both_ops) SLeft (ll 1) 0 5 = Ret (Some [(ll 2, AdjacentLeft); (ll 4, AdjacentLeft)]) /\
  relations (gbuild 1 both_ops) SLeft (ll 2) 0 5 = Ret (Some [(ll 3, RLeft)]).
Proof.
  split; [by_edges|]. split; [|split; reflexivity].
  apply (ranked _ SLeft 0%N number). intros e He _ _ a b Ha Hb. vm_compute in He.
  repeat (destruct He as [<-|He]; [injection Ha as <-; injection Hb as <-; vm_compute; lia|]). destruct He.
Qed.
(** A consistent graph on which the check does not end: lanes around a pillar. *)
Definition pillar_ops : list (gop ZCost) :=
  [OpVertex (ll 1); OpVertex (ll 2); zedge 1 2 1 RLeft; zedge 2 1 1 RLeft; zedge 1 2 1 RRight; zedge 2 1 1 RRight].
Theorem C63_end_refuted : lanes_only (gbuild 1 pillar_ops) /\ consistent (gbuild 1 pillar_ops) 0 /\
  forall fuel throw, check_validity (gbuild 1 pillar_ops) throw fuel = Ret None.
Proof.
  assert (Hl : lanes_only (gbuild 1 pillar_ops)) by by_edges.
  assert (Hs : forall s a, side_edges (gbuild 1 pillar_ops) s 0 a = match s, a with
     | SLeft, ELanelet 1 false => [Edge 0 1 (EInfo (A := ZCost) (Some 1%Z) 0 RLeft)]
     | SLeft, ELanelet 2 false => [Edge 1 0 (EInfo (A := ZCost) (Some 1%Z) 0 RLeft)]
     | SRight, ELanelet 1 false => [Edge 0 1 (EInfo (A := ZCost) (Some 1%Z) 0 RRight)]
     | SRight, ELanelet 2 false => [Edge 1 0 (EInfo (A := ZCost) (Some 1%Z) 0 RRight)]
     | _, _ => [] end).
  { intros [] [[|[[]|[]|]] []|[|]]; reflexivity. }
  split; auto. split.
  - intros s. split.
    + intros a. rewrite Hs. destruct s, a as [[|[[]|[]|]] []|]; simpl; lia.
    + intros s' a b Hs' (e & He & Hb). rewrite Hs in He.
      destruct s, s', a as [[|[[]|[]|]] []|]; simpl in He; try contradiction; try congruence; destruct He as [<-|[]]; injection Hb as <-; rewrite Hs; eexists; split; reflexivity.
  - intros fuel throw. unfold check_validity.
    assert (H : check_all (gbuild 1 pillar_ops) (g_lookup (gbuild 1 pillar_ops)) fuel = Ret None); [|rewrite H; reflexivity].
    change (g_lookup (gbuild 1 pillar_ops)) with [(ll 1, 0); (ll 2, 1)]. cbn [check_all].
    assert (Hr : relations (gbuild 1 pillar_ops) SRight (ll 2) 0 fuel = Ret None).
    { unfold relations. destruct fuel as [|f]; [reflexivity|]. cbn [relations_from]. rewrite (neighbours_diverge (gbuild 1 pillar_ops)); auto.
      - reflexivity.
      - eapply nr_more; [|apply nr_one]; reflexivity. }
    assert (Hcs : check_side (gbuild 1 pillar_ops) SLeft (ll 1) 0 fuel = Ret None); [|rewrite Hcs; reflexivity].
    unfold check_side. cbn [get_filtered]. change (get_filtered (gbuild 1 pillar_ops) (change_view SLeft) 0) with (Some (GView (gbuild 1 pillar_ops) 0 (view_mask VLeft))).
    change (get_filtered (gbuild 1 pillar_ops) (adjacent_view SLeft) 0) with (Some (GView (gbuild 1 pillar_ops) 0 (view_mask VAdjacentLeft))).
    cbv beta iota.
    change (look (GView (gbuild 1 pillar_ops) 0 (view_mask VLeft)) (change_view SLeft) 0) with (Some (ll 2), @nil flaw).
    change (look (GView (gbuild 1 pillar_ops) 0 (view_mask VAdjacentLeft)) (adjacent_view SLeft) 0) with (@None elem, @nil flaw).
    cbv beta iota zeta. unfold check_back. cbn [opposite]. rewrite Hr. reflexivity.
Qed.
(** Without a cost module the check throws, also if it should not. *)
Theorem C63_no_module_refuted : exists (ops : list (gop ZCost)), lanes_only (gbuild 0 ops) /\ g_edges (gbuild 0 ops) = [] /\
  forall fuel, check_validity (gbuild 0 ops) false fuel = Throws.
Proof. exists [OpVertex (ll 1)]. split; [intros e []|]. split; reflexivity. Qed.
Print Assumptions C62_end_refuted.
Print Assumptions C62_prefix_refuted.
Print Assumptions C63_end_refuted.
Print Assumptions C63_no_module_refuted.

(** ** The map of BuilderProps *)
Lemma ex_no_ring s : no_map_ring ex_world ex_rules s.
Proof.
  set (rank := fun l : lref => if N.eqb (fst l) 3 || N.eqb (fst l) 4 then 1 else 0).
  assert (H : forall a b, clos_trans lref (fun a b => usable ex_world ex_rules a /\ usable ex_world ex_rules b /\ neighbour ex_world s b a) a b ->
     match s with SLeft => rank b < rank a | SRight => rank a < rank b end).
  { intros a b Hab. induction Hab as [a b (Ha & Hb & _ & H)|a b c _ IH1 _ IH2]; [|destruct s; lia].
    apply ex_usable in Ha, Hb.
    repeat (destruct Ha as [<-|Ha]; [|]); try destruct Ha;
    repeat (destruct Hb as [<-|Hb]; [|]); try destruct Hb; destruct s; try discriminate H; vm_compute; lia. }
  intros a Ha. apply H in Ha. destruct s; lia.
Qed.
Lemma ex_value {T} (f : graph ZCost -> T) x : match ex_build with Ok g => Some (f g) | _ => None end = Some x -> forall g, ex_build = Ok g -> f g = x.
Proof. intros H g Hg. rewrite Hg in H. congruence. Qed.
Lemma ex_check (f : graph ZCost -> bool) : match ex_build with Ok g => Some (f g) | _ => None end = Some true -> forall g, ex_build = Ok g -> f g = true.
Proof. apply ex_value. Qed.
Example C64_nonvacuous : exists g, ex_build = Ok g /\ check_validity g true 20 = Ret (Some []) /\
  relations g SRight (L (1, false)%N) 0 20 = Ret (Some [(L (3, false)%N, RRight)]) /\
  relations g SRight (L (2, false)%N) 0 20 = Ret (Some [(L (4, false)%N, AdjacentRight)]) /\
  exists l bs, relations g SLeft (L (4, false)%N) 0 20 = Ret (Some l) /\ map fst l = map L bs /\ lane_row ex_world ex_rules SLeft (4, false)%N bs.
Proof.
  destruct (C56_build_total ZCost o1 ex_world ex_rules [ex_module] id_order ex_setting ex_drawn ex_unsigned) as [g Hg].
  assert (Hlen : length (g_verts g) < 20). { apply Nat.ltb_lt. apply (ex_check (fun g => length (g_verts g) <? 20)); [vm_compute; reflexivity|exact Hg]. }
  exists g. split; [exact Hg|]. split; [|split; [|split]].
  - apply (C64_built_valid ZCost o1 ex_world ex_rules [ex_module] id_order ex_setting g Hg); auto using ex_unsigned, ex_regular, ex_no_ring. discriminate.
  - apply (ex_value (fun g => relations g SRight (L (1, false)%N) 0 20)); [vm_compute; reflexivity|exact Hg].
  - apply (ex_value (fun g => relations g SRight (L (2, false)%N) 0 20)); [vm_compute; reflexivity|exact Hg].
  - apply (C64_relations_map ZCost o1 ex_world ex_rules [ex_module] id_order ex_setting g Hg); auto using ex_unsigned, ex_regular, ex_no_ring.
    apply ex_usable. simpl. auto 10.
Qed.
(** With two lanelets on the same side (a road that splits its left border) the built graph does not pass its own check. *)
Theorem C64_fork_refuted : exists w ru g, setting w ru o1 id_order /\ build o1 w ru [ex_module] id_order = Ok g /\
  (forall s, no_map_ring w ru s) /\ check_validity g false 10 = Ret (Some [(L (3, false)%N, NotClosest VAdjacentRight)]).
Proof.
  exists (toy fork_points fork_left fork_right [1; 2; 3]%N false), (toy_rules false). eexists. split; [|split; [|split]].
  - apply toy_setting; [repeat constructor; simpl; intuition discriminate|intros; apply Permutation_refl].
  - vm_compute. reflexivity.
  - intros s. set (W := toy _ _ _ _ _). set (R := toy_rules false). set (rank := fun l : lref => if N.eqb (fst l) 1 then 1 else 0).
    assert (Hu : forall l, usable W R l -> In l [(1, false); (2, false); (3, false)]%N).
    { intros [d i] (Hd & _ & H). simpl in *. destruct i; [discriminate|]. repeat (destruct Hd as [<-|Hd]; [auto 10|]). destruct Hd. }
    assert (H : forall a b, clos_trans lref (fun a b => usable W R a /\ usable W R b /\ neighbour W s b a) a b ->
       match s with SLeft => rank b < rank a | SRight => rank a < rank b end).
    { intros a b Hab. induction Hab as [a b (Ha & Hb & _ & H)|a b c _ IH1 _ IH2]; [|destruct s; lia].
      apply Hu in Ha, Hb.
      repeat (destruct Ha as [<-|Ha]; [|]); try destruct Ha;
      repeat (destruct Hb as [<-|Hb]; [|]); try destruct Hb; destruct s; try discriminate H; vm_compute; lia. }
    intros a Ha. apply H in Ha. destruct s; lia.
  - vm_compute. reflexivity.
Qed.
Print Assumptions C64_fork_refuted.
