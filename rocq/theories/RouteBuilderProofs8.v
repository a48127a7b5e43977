(** Routes, in terms of the elements of the routing graph. *)
From Coq Require Import NArith List Bool Arith Lia Relations.
From Verif Require Import CostAlg GraphModel GraphSpec GraphProofs GraphProofs2 RouteSpec RouteBuilderModel RouteBuilderSpec RouteBuilderProofs
  RouteBuilderProofs2 RouteBuilderProofs3 RouteBuilderProofs4 RouteBuilderProofs5 RouteBuilderProofs6 RouteBuilderProofs7.
Import ListNotations.
Local Open Scope nat_scope.

Lemma linked_rt {T} (R : T -> T -> Prop) q : forall v, linked R (v :: q) -> forall x, In x (v :: q) -> clos_refl_trans T R v x.
Proof.
  induction q as [|w q IH]; intros v H x [<-|Hx]; try apply rt_refl; [destruct Hx|].
  destruct H as [H1 H2]. eapply rt_trans; [apply rt_step, H1|]. apply IH; auto.
Qed.

Section Elements.
Context {A : CostAlg}.
Variable m : N.
Variable ops : list (gop A).
Notation g := (gbuild m ops).
Variable k : N.
Variable lc : bool.
Notation es := (orig_edges g lc k).
Notation n := (length (g_verts g)).
Notation edge := (edge A).
Notation el := (el g).
Notation joined := (joined g k lc).

Lemma Hg : graph_ok g.
Proof. apply gbuild_ok. Qed.
Lemma es_used e : In e es <-> In e (g_edges g) /\ used k lc e = true.
Proof.
  unfold orig_edges, used. rewrite filter_In.
  replace (has_rel (orig_mask lc) (ei_rel (e_info e))) with (in_view lc (ei_rel (e_info e))); [tauto|].
  destruct lc, (ei_rel (e_info e)); reflexivity.
Qed.
Lemma es_sub : incl es (g_edges g).
Proof. intros e He. apply es_used in He. tauto. Qed.
Lemma es_bound e : In e es -> e_src e < n /\ e_tgt e < n.
Proof. intros He. apply es_sub in He. apply (go_edges _ Hg e) in He. tauto. Qed.
(** Vertices that are found by their element. *)
Definition proper (v : nat) : Prop := get_vertex g (el v) = Some v.
Lemma proper_of a v : get_vertex g a = Some v -> proper v /\ el v = a /\ v < n.
Proof.
  intros H. destruct (go_lookup _ Hg a v H) as [H1 H2]. unfold vertex_elem in H1.
  assert (E : el v = a) by (unfold RouteBuilderProofs7.el; erewrite nth_error_nth; eauto).
  split; [unfold proper; rewrite E; auto|auto].
Qed.
Lemma proper_elem v : proper v -> vertex_elem g v = Some (el v).
Proof. intros H. apply (go_lookup _ Hg _ _ H). Qed.
Lemma edge_proper e : In e (g_edges g) -> proper (e_src e) /\ proper (e_tgt e).
Proof.
  intros He. destruct (gbuild_canonical m ops e He) as [(a & Ha) (b & Hb)]. apply proper_of in Ha, Hb. tauto.
Qed.
Lemma proper_inj u v : proper u -> proper v -> el u = el v -> u = v.
Proof. unfold proper. congruence. Qed.

Definition kind_of (kind : relation -> bool) (e : edge) : bool := kind (ei_rel (e_info e)).
Lemma along_kind p q u t : (forall e, In e es -> p e = q e) -> along es p u t <-> along es q u t.
Proof.
  intros H. split; intros (e & H1 & H2 & H3 & H4); exists e; (split; [auto|split; [auto|split; [auto|]]]); rewrite <- H4; [symmetry|]; apply H; auto.
Qed.
Lemma drive_kind (e : edge) : rel m_drivable e = kind_of driving e.
Proof. unfold rel, kind_of. destruct (ei_rel (e_info e)); reflexivity. Qed.
Lemma succ_kind (e : edge) : succ_edge e = kind_of following e.
Proof. unfold succ_edge, kind_of. destruct (ei_rel (e_info e)); reflexivity. Qed.
Lemma change_kind (e : edge) : change_edge e = kind_of changing e.
Proof. unfold change_edge, rel, kind_of. destruct (ei_rel (e_info e)); reflexivity. Qed.
Lemma left_kind (e : edge) : rel (bits RLeft) e = kind_of to_left e.
Proof. unfold rel, kind_of. destruct (ei_rel (e_info e)); reflexivity. Qed.
Lemma right_kind (e : edge) : rel (bits RRight) e = kind_of to_right e.
Proof. unfold rel, kind_of. destruct (ei_rel (e_info e)); reflexivity. Qed.

(** Edges between vertices and edges between elements. *)
Lemma along_joined kind u t : along es (kind_of kind) u t -> proper u /\ proper t /\ joined kind (el u) (el t).
Proof.
  intros (e & H1 & <- & <- & H2). apply es_used in H1 as [H1 H3]. destruct (edge_proper e H1) as [Hs Ht].
  split; [auto|]. split; [auto|]. exists e. repeat split; auto using proper_elem.
Qed.
Lemma joined_along kind a b u : get_vertex g a = Some u -> joined kind a b -> exists t, get_vertex g b = Some t /\ along es (kind_of kind) u t.
Proof.
  intros Hu (e & H1 & H2 & H3 & H4 & H5). destruct (edge_proper e H1) as [Hs Ht].
  rewrite (proper_elem _ Hs) in H2. rewrite (proper_elem _ Ht) in H3. injection H2 as H2. injection H3 as H3.
  unfold proper in Hs, Ht. rewrite H2 in Hs. rewrite H3 in Ht. exists (e_tgt e). split; auto.
  exists e. split; [apply es_used; auto|]. split; [congruence|auto].
Qed.
Lemma joined_vertex kind a b : joined kind a b -> exists u t, get_vertex g a = Some u /\ get_vertex g b = Some t /\ along es (kind_of kind) u t.
Proof.
  intros H. destruct H as (e & H1 & H2 & H3 & H4 & H5). destruct (edge_proper e H1) as [Hs Ht].
  rewrite (proper_elem _ Hs) in H2. rewrite (proper_elem _ Ht) in H3. injection H2 as H2. injection H3 as H3.
  unfold proper in Hs, Ht. rewrite H2 in Hs. rewrite H3 in Ht. exists (e_src e), (e_tgt e). split; auto. split; auto.
  exists e. split; [apply es_used; auto|auto].
Qed.
Lemma rt_elems (R : nat -> nat -> Prop) (S : elem -> elem -> Prop) : (forall u t, R u t -> proper u /\ proper t /\ S (el u) (el t)) ->
  forall u t, clos_refl_trans nat R u t -> clos_refl_trans elem S (el u) (el t).
Proof.
  intros H u t K. induction K as [u t K|u|u v t K1 IH1 K2 IH2]; [apply rt_step, H; auto|apply rt_refl|eapply rt_trans; eauto].
Qed.
Lemma t_elems (R : nat -> nat -> Prop) (S : elem -> elem -> Prop) : (forall u t, R u t -> proper u /\ proper t /\ S (el u) (el t)) ->
  forall u t, clos_trans nat R u t -> clos_trans elem S (el u) (el t).
Proof. intros H u t K. induction K as [u t K|u v t K1 IH1 K2 IH2]; [apply t_step, H; auto|eapply t_trans; eauto]. Qed.
Lemma rt_vertices kind a b u : get_vertex g a = Some u -> clos_refl_trans elem (joined kind) a b ->
  exists t, get_vertex g b = Some t /\ clos_refl_trans nat (along es (kind_of kind)) u t.
Proof.
  intros Hu K. revert u Hu. induction K as [a b K|a|a b c K1 IH1 K2 IH2]; intros u Hu.
  - destruct (joined_along kind a b u Hu K) as (t & H1 & H2). exists t. split; auto. apply rt_step; auto.
  - exists u. split; auto. apply rt_refl.
  - destruct (IH1 u Hu) as (v & H1 & H2). destruct (IH2 v H1) as (t & H3 & H4). exists t. split; auto. eapply rt_trans; eauto.
Qed.
Lemma unwind_rings : lanes_unwind g k lc -> no_rings es.
Proof.
  intros [Hl Hr]. split; intros v H.
  - apply (Hl (el v)). eapply t_elems; [|exact H]. intros u t K. apply along_joined. eapply along_kind; [|exact K]. intros e _. symmetry. apply left_kind.
  - apply (Hr (el v)). eapply t_elems; [|exact H]. intros u t K. apply along_joined. eapply along_kind; [|exact K]. intros e _. symmetry. apply right_kind.
Qed.
Lemma two_one : two_lanes g k lc -> forall v, cnt change_edge (outs es v) <= 1.
Proof.
  intros H v. eapply Nat.le_trans; [|apply (H v)]. unfold outs, orig_edges. rewrite !cnt_filter. apply cnt_le.
  intros e He. apply andb_true_iff in He as [He1 He2]. apply andb_true_iff in He2 as [He2 He3].
  assert (Hu : used k lc e = true).
  { unfold used. apply andb_true_iff in He1 as [He1 He4]. apply andb_true_iff. split; auto.
    rewrite <- He4. destruct lc, (ei_rel (e_info e)); reflexivity. }
  rewrite He2, Hu. rewrite change_kind in He3. auto.
Qed.

(** * The path *)
Lemma vertices_ok p : (forall a, In a p -> exists v, get_vertex g a = Some v) ->
  exists vs, vertices_of g p = Done vs /\ map el vs = p /\ (forall v, In v vs -> proper v).
Proof.
  induction p as [|a p IH]; intros H; simpl; [exists []; split; auto; split; auto; intros v []|].
  destruct (H a (or_introl eq_refl)) as (v & Hv). rewrite Hv. destruct IH as (vs & E & H1 & H2); [intros; apply H; simpl; auto|].
  rewrite E. cbn [rbind]. exists (v :: vs). destruct (proper_of a v Hv) as (K1 & K2 & _). simpl. rewrite H1, K2. split; auto. split; auto.
  intros w [<-|Hw]; auto.
Qed.
Lemma linked_vertices kind vs : (forall v, In v vs -> proper v) -> linked (joined kind) (map el vs) -> linked (along es (kind_of kind)) vs.
Proof.
  induction vs as [|u vs IH]; intros H Hl; simpl; auto. destruct vs as [|t vs]; auto. destruct Hl as [H1 H2]. split; [|apply IH; auto; intros; apply H; right; auto].
  destruct (joined_along kind (el u) (el t) u (H u (or_introl eq_refl)) H1) as (t' & Ht & K).
  rewrite (H t (or_intror (or_introl eq_refl))) in Ht. injection Ht as ->. auto.
Qed.
Lemma linked_ext {T} (R S : T -> T -> Prop) l : (forall x y, R x y -> S x y) -> linked R l -> linked S l.
Proof. intros H. induction l as [|x l IH]; simpl; auto. destruct l as [|y l]; auto. intros [H1 H2]. auto. Qed.

Variable path : list elem.
Hypothesis Hpath : route_path g k lc path.
Hypothesis Hlanes : lanes_only g k lc.
Notation drive := (along es (rel m_drivable)).
Notation start := (hd (EArea 0) path).
Notation goal := (hd (EArea 0) (rev path)).

Record on_path (vs : list nat) (b e : nat) : Prop := {
  op_vs : vertices_of g path = Done vs;
  op_map : map el vs = path;
  op_proper : forall v, In v vs -> proper v;
  op_begin : hd_error vs = Some b;
  op_end : hd_error (rev vs) = Some e;
  op_goal : exists r, rev path = el e :: r;
  op_start : exists r, path = el b :: r;
  op_linked : linked drive vs;
  op_in : In b vs /\ In e vs }.
Lemma path_vertices : exists vs b e, on_path vs b e.
Proof.
  destruct Hpath as (Hne & Hall & Hlink).
  destruct (vertices_ok path) as (vs & E & H1 & H2); [intros a Ha; apply Hall; auto|].
  destruct vs as [|b vs]; [simpl in H1; congruence|].
  destruct (rev (b :: vs)) as [|e vr] eqn:Er; [apply (f_equal (@length nat)) in Er; rewrite rev_length in Er; discriminate|].
  exists (b :: vs), b, e. constructor; auto.
  - rewrite Er. auto.
  - exists (map el vr). rewrite <- H1, <- map_rev, Er. auto.
  - exists (map el vs). rewrite <- H1. auto.
  - eapply linked_ext; [|apply (linked_vertices driving); [exact H2|rewrite H1; exact Hlink]].
    intros x y. apply along_kind. intros x' _. apply drive_kind.
  - split; [simpl; auto|]. apply in_rev. rewrite Er. simpl. auto.
Qed.
Lemma proper_bound v : proper v -> v < n.
Proof. intros H. apply (go_lookup _ Hg _ _ H). Qed.

Lemma last_done vs b e : on_path vs b e -> exists last, last_lanelets es n vs = Done last /\
  (b = e /\ last = [] \/ b <> e /\ forall v, In v last <-> clos_refl_trans nat (along es change_edge) e v).
Proof.
  intros [H1 H2 H3 H4 H5 _ _ H6 H7]. unfold last_lanelets. destruct vs as [|x vs]; [discriminate|]. injection H4 as ->.
  destruct (rev (b :: vs)) as [|y vr]; [discriminate|]. injection H5 as ->.
  destruct (Nat.eqb_spec b e) as [->|Hbe]; [exists []; auto|].
  destruct (bfs_spec (fun v => map e_tgt (filter (rel m_changes) (outs es v))) n) with (fuel := S n) (start := e) as (l & E & _ & Hr & _).
  - intros u t _ Ht. apply in_map_iff in Ht as (x & <- & Hx). apply filter_In in Hx as [Hx _]. apply outs_in in Hx as [Hx _]. apply es_bound; auto.
  - apply proper_bound, H3, H7.
  - lia.
  - rewrite E. exists (e :: l). split; auto. right. split; auto. intros v. rewrite Hr.
    assert (Heq : forall u t, In t (map e_tgt (filter (rel m_changes) (outs es u))) <-> along es change_edge u t).
    { intros u t. rewrite in_map_iff. split.
      - intros (x & <- & Hx). apply filter_In in Hx as [Hx K]. apply outs_in in Hx as [Hx <-]. exists x. auto.
      - intros (x & Hx & <- & <- & K). exists x. split; auto. apply filter_In. split; auto. apply outs_in. auto. }
    split; apply rt_mono; intros; apply Heq; auto.
Qed.
Lemma reached_lanelet v : (exists u, In u path /\ exists w, get_vertex g u = Some w /\ clos_refl_trans nat drive w v) -> is_lanelet (el v) = true /\ proper v.
Proof.
  intros (a & Ha & w & Hw & K). destruct Hpath as (_ & Hall & _). destruct (proper_of a w Hw) as (Hp & He & _).
  assert (Hl : is_lanelet (el w) = true) by (rewrite He; apply Hall; auto). clear Ha Hw He. apply clos_rt_rt1n in K.
  induction K as [w|w x v K1 K2 IH]; auto.
  assert (K1' : along es (kind_of driving) w x) by (eapply along_kind; [|exact K1]; intros; symmetry; apply drive_kind).
  apply along_joined in K1' as (_ & Hx & Hj). apply IH; auto. eapply Hlanes; eauto.
Qed.
(** The lanelets that are determined, and the route built for them. *)
Lemma grown_on vs b e last on : on_path vs b e -> grow es n (S n) last b e vs = Done on ->
  incl vs on /\ (forall v, In v on -> clos_refl_trans nat drive b v /\ v < n) /\
  (forall v, In v on -> is_lanelet (nth v (g_verts g) (EArea 0)) = true /\ v < n /\ get_vertex g (nth v (g_verts g) (EArea 0)) = Some v).
Proof.
  intros Ho E. pose proof Ho as [H1 H2 H3 H4 H5 _ _ H6 (Hb & He)].
  assert (Hbn : b < n) by (apply proper_bound; auto).
  destruct (grow_reached es n es_bound last b e Hbn (S n) vs on Hb) as (K1 & K2); auto.
  - intros v Hv. split; [|apply proper_bound; auto]. destruct vs as [|x vs]; [destruct Hb|]. injection H4 as ->. eapply linked_rt; eauto.
  - split; auto. split; auto. intros v Hv. destruct (K1 v Hv) as [L1 L2].
    destruct (reached_lanelet v) as [L3 L4]; [|split; [exact L3|split; [exact L2|exact L4]]].
    exists (el b). split; [rewrite <- H2; apply in_map; auto|]. exists b. split; [apply H3; auto|exact L1].
Qed.
Lemma path_reached vs b e last on : on_path vs b e -> grow es n (S n) last b e vs = Done on ->
  forall v, In v vs -> clos_refl_trans nat (fun u t => In t (map e_tgt (route_out es on u))) b v.
Proof.
  intros Ho E. destruct (grown_on _ _ _ _ _ Ho E) as (Hi & _). pose proof Ho as [_ _ _ H4 _ _ _ H6 _].
  destruct vs as [|x vs]; [discriminate|]. injection H4 as ->. apply linked_rt.
  clear Ho E. revert b Hi H6. induction vs as [|t vs IH]; intros b Hi H6; simpl; auto. destruct H6 as [(x & K1 & K2 & K3 & K4) H7]. split; [|apply IH; auto; intros y Hy; apply Hi; right; auto].
  apply in_map_iff. exists x. split; auto. apply filter_In. split; [apply outs_in; auto|]. apply mem_in. apply Hi. rewrite K3. simpl; auto.
Qed.
Record result_of (r : route A) (vs : list nat) (b e : nat) (last on order disc : list nat) : Prop := {
  ro_path : on_path vs b e;
  ro_last : last_lanelets es n vs = Done last;
  ro_on : grow es n (S n) last b e vs = Done on;
  ro_built : built g es on r disc (concat (map (route_out es on) order)) (rev order);
  ro_nodup : NoDup order;
  ro_begin : hd_error order = Some b /\ hd_error disc = Some b;
  ro_order : forall x, In x order <-> clos_refl_trans nat (fun u t => In t (map e_tgt (route_out es on u))) b x;
  ro_disc : forall x, In x disc <-> In x order;
  ro_incl : incl order on }.
Lemma build_steps vs b e last on : on_path vs b e -> last_lanelets es n vs = Done last -> grow es n (S n) last b e vs = Done on ->
  exists r order disc, build_route g path lc k = Done (Some r) /\ result_of r vs b e last on order disc.
Proof.
  intros Ho El Eg. destruct (grown_on _ _ _ _ _ Ho Eg) as (K1 & K2 & K3). pose proof Ho as [H1 H2 H3 H4 H5 (rp & Hrp) (sp & Hsp) H6 (Hb & He)].
  destruct (finalize_built g es on Hg es_sub K3 b (el e)) as (r & order & disc & F1 & F2 & F3 & F4 & F5 & F6 & F7 & F8); [auto|].
  assert (Hgoal : match get_vertex (r_graph r) (el e) with Some _ => true | None => false end = true).
  { assert (Hd : In e disc) by (apply F7, F6; eapply path_reached; eauto). apply In_nth_error in Hd as (i & Hi).
    destruct F2 as ((_ & _ & _ & _ & L & _) & _). rewrite (proj2 (L e i (K1 e He)) Hi). auto. }
  rewrite Hgoal in F1. exists r, order, disc. split.
  - unfold build_route, route_lanelets. rewrite H1. cbn [rbind]. destruct vs as [|x vs]; [discriminate|]. injection H4 as ->.
    destruct (rev (b :: vs)) as [|y vr] eqn:Er; [discriminate|]. injection H5 as ->. rewrite El. cbn [rbind]. rewrite Eg. cbn [rbind].
    rewrite Hrp. exact F1.
  - constructor; auto.
Qed.
Lemma build_undefined vs b e last o : on_path vs b e -> last_lanelets es n vs = Done last -> grow es n (S n) last b e vs = o ->
  o = Undefined -> build_route g path lc k = Undefined.
Proof.
  intros Ho El Eg ->. pose proof Ho as [H1 H2 H3 H4 H5 _ _ H6 (Hb & He)].
  unfold build_route, route_lanelets. rewrite H1. cbn [rbind]. destruct vs as [|x vs]; [discriminate|]. injection H4 as ->.
  destruct (rev (b :: vs)) as [|y vr] eqn:Er; [discriminate|]. injection H5 as ->. rewrite El. cbn [rbind]. rewrite Eg. auto.
Qed.
Lemma build_inv r : build_route g path lc k = Done (Some r) -> exists vs b e last on order disc, result_of r vs b e last on order disc.
Proof.
  intros E. destruct path_vertices as (vs & b & e & Ho). destruct (last_done vs b e Ho) as (last & El & _).
  assert (Hd : exists on, grow es n (S n) last b e vs = Done on).
  { pose proof Ho as [H1 H2 H3 H4 H5 _ _ H6 (Hb & He)]. unfold build_route, route_lanelets in E. rewrite H1 in E. cbn [rbind] in E.
    destruct vs as [|x vs]; [discriminate|]. injection H4 as ->.
    destruct (rev (b :: vs)) as [|y vr] eqn:Er; [discriminate|]. injection H5 as ->. rewrite El in E. cbn [rbind] in E.
    destruct (grow es n (S n) last b e (b :: vs)) as [on| | |]; try discriminate. eauto. }
  destruct Hd as (on & Eg). destruct (build_steps vs b e last on Ho El Eg) as (r' & order & disc & E' & H). rewrite E in E'. injection E' as <-.
  exists vs, b, e, last, on, order, disc. auto.
Qed.
Lemma lanelets_of r vs b e last on order disc : result_of r vs b e last on order disc -> route_lanelets g path lc k = Done on.
Proof.
  intros [Ho El Eg _ _ _ _ _ _]. pose proof Ho as [H1 H2 H3 H4 H5 _ _ H6 (Hb & He)]. unfold route_lanelets. rewrite H1. cbn [rbind].
  destruct vs as [|x vs]; [discriminate|]. injection H4 as ->.
  destruct (rev (b :: vs)) as [|y vr] eqn:Er; [discriminate|]. injection H5 as ->. rewrite El. cbn [rbind]. auto.
Qed.
End Elements.
