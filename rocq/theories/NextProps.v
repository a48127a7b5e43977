(** C111: followingRelations and previousRelations always find a relation, and it is the way one gets there. *)
From Coq Require Import NArith ZArith List Bool Arith Lia Permutation.
From Verif Require RoutingProps.
From Verif Require Import CostAlg GraphModel GraphSpec GraphProofs GraphProofs2 BuilderModel BuilderSpec BuilderProofs BuilderProofs2 BuilderProofs3 BuilderProofs4 BuilderProps
  ValidityProps NextModel NextSpec NextProofs.
Import ListNotations.
Local Open Scope nat_scope.

Section Props.
Context (A : CostAlg) (one : cost A) (w : world) (ru : rules) (costs : list (@module A))
        (order : list (lref * lref) -> list (lref * lref)) (Hset : setting w ru one order).
Hypothesis Hsome : costs <> [].

Lemma step_relation g lc a b : build one w ru costs order = Ok g -> is_lanelet b = true -> next_lanelet g lc (L a) b ->
  exists b' r, b = L b' /\ routing_relation g (L a) b false = Ret (Some r) /\
    (exists c, BuilderSpec.joined g (L a) b r 0 c) /\ (plain w a b' -> gets_to w ru lc a b' r).
Proof.
  intros Hb Hl (e & He & Hs & Ht & Hk & Hr). destruct b as [d i|]; [|discriminate]. exists (d, i).
  assert (D : driving (ei_rel (e_info e))) by (unfold driving; tauto).
  destruct (shape A one w ru costs order Hset g Hb) as (E0 & cs & Q & B).
  destruct (C64_history A one w ru costs order Hset g Hb) as (ops & Eg & _).
  assert (Hok : graph_ok g) by (rewrite Eg; apply gbuild_ok). assert (Hcan : canonical g) by (rewrite Eg; apply gbuild_canonical).
  assert (Hn : (0 < g_numcosts g)%N) by (rewrite Eg, gbuild_costs; destruct costs; [congruence|cbn; lia]).
  assert (G : good_cost one = true) by (destruct (set_one _ _ _ _ Hset) as [K1 K2]; unfold good_cost; rewrite K1, K2; reflexivity).
  assert (Hm : exists m0, hd_error costs = Some m0) by (destruct costs; [congruence|eexists; reflexivity]). destruct Hm as (m0 & Hm).
  pose proof (set_sane _ _ _ _ Hset) as Sn.
  pose proof (build_batched one w ru costs order (proj1 (set_one _ _ _ _ Hset)) g Hb) as Bt.
  pose proof (edge_is_joined g e (L a) (L (d, i)) He Hs Ht) as J. rewrite Hk in J.
  destruct (relation_found one w ru costs G Sn g E0 cs Q B Bt Hok Hcan Hn m0 Hm a (d, i) _ _ D J) as (r & c & Er & Jr).
  exists r. split; [reflexivity|]. split; [exact Er|]. split; [eauto|]. intros [Pf Pn].
  pose proof (relation_right one w ru costs G Sn g E0 cs Q B a (d, i) _ _ _ _ Pn Pf D J Jr) as ->.
  destruct Hr as [Hr|(Hlc & Hr)].
  - rewrite Hr in *. apply (successor_iff one w ru costs G g E0 cs Q B) in J as (x & y & m & Ex & Ey & ? & ? & ? & ? & _). apply L_inj in Ex, Ey. subst x y. cbn. auto.
  - destruct Hr as [Hr|Hr]; rewrite Hr in *; (split; [exact Hlc|]).
    + apply (changing_coll one w ru costs G g E0 cs Q B SLeft) in J. apply (coll_change one w ru costs g E0 cs Q B) in J. exact J.
    + apply (changing_coll one w ru costs G g E0 cs Q B SRight) in J. apply (coll_change one w ru costs g E0 cs Q B) in J. exact J.
Qed.

(** No empty Optional is dereferenced: each following lanelet comes with the relation of an edge to it, and with the right one on plain maps. *)
Theorem C111_following_partial g a lc : build one w ru costs order = Ok g ->
  exists l, following_relations g (L a) lc = Got l /\ following g (L a) lc = Ret (map fst l) /\
    forall x r, In (x, r) l -> exists b, x = L b /\ (exists c, BuilderSpec.joined g (L a) x r 0 c) /\ (plain w a b -> gets_to w ru lc a b r).
Proof.
  intros Hb. destruct (C64_history A one w ru costs order Hset g Hb) as (ops & Eg & _).
  assert (Hn : (0 < g_numcosts g)%N) by (rewrite Eg, gbuild_costs; destruct costs; [congruence|cbn; lia]).
  destruct (following_spec g ltac:(rewrite Eg; apply gbuild_ok) ltac:(rewrite Eg; apply gbuild_canonical) (L a) lc Hn) as (l & _ & F & _ & H & _).
  unfold following_relations. rewrite F. cbn [asked and_then].
  destruct (with_relation_got g (L a) l (fun x r => exists b, x = L b /\ (exists c, BuilderSpec.joined g (L a) x r 0 c) /\ (plain w a b -> gets_to w ru lc a b r)))
    as (rs & E & M & K).
  - intros x Hx. apply H in Hx as [Hx Hn']. destruct (step_relation g lc a x Hb Hx Hn') as (b & r & E & Er & Jr & Kr). eauto 10.
  - exists rs. split; [exact E|]. split; [congruence|exact K].
Qed.
(** The same backwards, whether assertions are compiled in or not: no lanelet is left out. *)
Theorem C111_previous_partial checked g a lc : build one w ru costs order = Ok g ->
  exists l, previous_relations checked g (L a) lc = Got l /\ previous g (L a) lc = Ret (map fst l) /\
    forall x r, In (x, r) l -> exists b, x = L b /\ (exists c, BuilderSpec.joined g x (L a) r 0 c) /\ (plain w b a -> gets_to w ru lc b a r).
Proof.
  intros Hb. destruct (C64_history A one w ru costs order Hset g Hb) as (ops & Eg & _).
  assert (Hn : (0 < g_numcosts g)%N) by (rewrite Eg, gbuild_costs; destruct costs; [congruence|cbn; lia]).
  destruct (following_spec g ltac:(rewrite Eg; apply gbuild_ok) ltac:(rewrite Eg; apply gbuild_canonical) (L a) lc Hn) as (_ & l & _ & F & _ & H).
  unfold previous_relations. rewrite F. cbn [asked and_then].
  destruct (with_relation_back_got g checked (L a) l (fun x r => exists b, x = L b /\ (exists c, BuilderSpec.joined g x (L a) r 0 c) /\ (plain w b a -> gets_to w ru lc b a r)))
    as (rs & E & M & K).
  - intros x Hx. apply H in Hx as [Hx Hn']. destruct x as [d i|]; [|discriminate].
    destruct (step_relation g lc (d, i) (L a) Hb eq_refl Hn') as (b & r & E & Er & Jr & Kr). apply L_inj in E. subst b. exists r. split; [exact Er|].
    exists (d, i). auto.
  - exists rs. split; [exact E|]. split; [congruence|exact K].
Qed.
End Props.
Print Assumptions C111_following_partial.
Print Assumptions C111_previous_partial.

(** On the map of C56 *)
Example C111_nonvacuous :
  match build o1 ex_world ex_rules [ex_module] id_order with
  | Ok g => (following_relations g (L (1, false)%N) true, previous_relations true g (L (4, false)%N) true)
  | _ => (Undefined, Undefined)
  end =
  (Got [(L (2, false)%N, Successor); (L (3, false)%N, RRight)], Got [(L (3, false)%N, Successor)]).
Proof. vm_compute. reflexivity. Qed.

(** For a graph filled by hand in another order, an empty Optional would be dereferenced: the order in which the builder inserts the edges matters. *)
Example C111_order_matters : exists ops : list (gop ZCost),
  following (gbuild 2 ops) (L (1, false)%N) false = Ret [L (2, false)%N] /\ following_relations (gbuild 2 ops) (L (1, false)%N) false = Undefined /\
  previous_relations true (gbuild 2 ops) (L (2, false)%N) false = Aborted /\ previous_relations false (gbuild 2 ops) (L (2, false)%N) false = Got [].
Proof.
  exists [OpVertex (L (1, false)%N); OpVertex (L (2, false)%N);
          OpEdge (L (1, false)%N) (L (2, false)%N) (EInfo (Some 1%Z : cost ZCost) 1 Successor);
          OpEdge (L (1, false)%N) (L (2, false)%N) (EInfo (Some 1%Z : cost ZCost) 0 Successor)].
  vm_compute. auto.
Qed.

(** A lanelet for both directions whose bounds begin in one point: turning round there is reported as a conflict. *)
Definition tip_points (d : nat) : list nat := match d with 0 => [0; 1] | _ => [0; 2] end.
Theorem C111_conflict_refuted : exists w ru g a b, setting w ru o1 id_order /\ (forall l, usable w ru l -> drawn w (fst l)) /\
  build o1 w ru [ex_module] id_order = Ok g /\ usable w ru a /\ usable w ru b /\ continued_by w a b /\ may_pass ru (L a) (L b) = true /\
  following_relations g (L a) false = Got [(L b, Conflicting)] /\ previous_relations true g (L b) false = Got [(L a, Conflicting)].
Proof.
  exists (toy tip_points (fun _ => 0) (fun _ => 1) [1%N] false), (toy_rules true). eexists. exists (1, true)%N, (1, false)%N. split; [|split; [|split]].
  - apply toy_setting; [repeat constructor; simpl; auto|intros; apply Permutation_refl].
  - intros l _. split; discriminate.
  - vm_compute. reflexivity.
  - split; [repeat split; simpl; auto|]. split; [repeat split; simpl; auto|]. split; [apply follows_iff; reflexivity|]. split; [reflexivity|]. vm_compute. auto.
Qed.
Print Assumptions C111_conflict_refuted.
