(** The growth of a route and its outcome, in terms of the elements of the routing graph. *)
From Coq Require Import NArith List Bool Arith Lia Relations.
From Verif Require Import CostAlg GraphModel GraphSpec GraphProofs GraphProofs2 RouteSpec RouteBuilderModel RouteBuilderSpec RouteBuilderProofs
  RouteBuilderProofs2 RouteBuilderProofs3 RouteBuilderProofs4 RouteBuilderProofs5 RouteBuilderProofs6 RouteBuilderProofs7 RouteBuilderProofs8
  RouteBuilderProofs9.
Import ListNotations.
Local Open Scope nat_scope.

Section Growth.
Context {A : CostAlg}.
Variable m : N.
Variable ops : list (gop A).
Notation g := (gbuild m ops).
Variable k : N.
Variable lc : bool.
Notation es := (orig_edges g lc k).
Notation n := (length (g_verts g)).
Notation edge := (edge A).
Notation el := (el g).
Notation joined := (joined g k lc).
Notation proper := (proper m ops).

Lemma step_iff p kind u v : (forall e : edge, p e = kind_of kind e) -> proper u -> proper v ->
  (along es p u v <-> joined kind (el u) (el v)).
Proof.
  intros Hp Hu Hv. split.
  - intros H. apply along_joined. eapply along_kind; [|exact H]. intros; symmetry; apply Hp.
  - intros H. destruct (joined_along m ops k lc kind _ _ u Hu H) as (t & Ht & K). unfold RouteBuilderProofs8.proper in Hv. rewrite Hv in Ht. injection Ht as <-.
    eapply along_kind; [|exact K]. intros; apply Hp.
Qed.
Lemma step_proper (p : edge -> bool) u v : along es p u v -> proper u /\ proper v.
Proof. intros (e & H & <- & <- & _). apply (edge_proper m ops). eapply es_sub; eauto. Qed.
Lemma step_elem p kind u v : (forall e : edge, p e = kind_of kind e) -> along es p u v -> proper u /\ proper v /\ joined kind (el u) (el v).
Proof. intros Hp H. destruct (step_proper p u v H) as [Hu Hv]. split; [auto|]. split; [auto|]. apply (step_iff p kind); auto. Qed.
Lemma any_kind (e : edge) : true = kind_of any_relation e.
Proof. auto. Qed.
Lemma beside_kind (e : edge) : rel m_beside e = kind_of beside e.
Proof. unfold rel, kind_of. destruct (ei_rel (e_info e)); reflexivity. Qed.
Lemma meeting_kind (e : edge) : rel m_conflict e = kind_of meeting e.
Proof. unfold rel, kind_of. destruct (ei_rel (e_info e)); reflexivity. Qed.
Lemma related_kind (e : edge) : change_edge e || rel m_conflict e = kind_of changing_or_meeting e.
Proof. unfold change_edge, rel, kind_of. destruct (ei_rel (e_info e)); reflexivity. Qed.
Lemma not_crossing_kind (e : edge) : negb (relation_eqb (ei_rel (e_info e)) Conflicting) = kind_of not_crossing e.
Proof. unfold kind_of. destruct (ei_rel (e_info e)); reflexivity. Qed.

Variables (last : list nat) (begin : nat) (beyond : elem -> Prop).
Hypothesis Hbegin : proper begin.
Hypothesis Hbeyond : forall u, proper u -> beyond (el u) -> In u last.

Section On.
Variable on : list nat.
Hypothesis Hon : forall v, In v on -> proper v.
Lemma in_elems v : proper v -> In (el v) (map el on) <-> In v on.
Proof.
  intros Hv. rewrite in_map_iff. split.
  - intros (u & E & Hu). apply (proper_inj m ops) in E; auto. congruence.
  - intros H. eauto.
Qed.
Lemma off_iff v : proper v -> outside es on v <-> off_route elem joined (map el on) (el v).
Proof.
  intros Hv. unfold outside, off_route. rewrite (in_elems v Hv).
  assert (H1 : (exists u, In u on /\ along es (fun e => change_edge e || rel m_conflict e) v u) <-> (exists c, In c (map el on) /\ joined changing_or_meeting (el v) c)).
  { split.
    - intros (u & Hu & H). exists (el u). split; [apply in_map; auto|]. apply (step_iff _ _ v u related_kind); auto.
    - intros (c & Hc & H). apply in_map_iff in Hc as (u & <- & Hu). exists u. split; auto. apply (step_iff _ _ v u related_kind); auto. }
  assert (H2 : (exists u, In u on /\ along es change_edge v u /\ along es change_edge u v) <-> (exists c, In c (map el on) /\ joined changing (el v) c /\ joined changing c (el v))).
  { split.
    - intros (u & Hu & K1 & K2). exists (el u). split; [apply in_map; auto|]. split; apply (step_iff _ _ _ _ change_kind); auto.
    - intros (c & Hc & K1 & K2). apply in_map_iff in Hc as (u & <- & Hu). exists u. split; auto. split; apply (step_iff _ _ _ _ change_kind); auto. }
  rewrite H1, H2. tauto.
Qed.
Lemma near_elem v : near es on v -> next_to elem joined (map el on) (el v).
Proof.
  intros [H|(u & Hu & H)]; [left; apply in_map; auto|]. right. exists (el u). split; [apply in_map; auto|].
  apply (step_elem _ any_relation v u any_kind) in H. tauto.
Qed.
Lemma driven_elem u v : near_drive es last on u v -> proper u /\ proper v /\ driven elem joined beyond (map el on) (el u) (el v).
Proof.
  intros [H1 H2]. assert (Hp : proper u /\ proper v) by (destruct H2 as [H2|[H2 _]]; eapply step_proper; eauto).
  destruct Hp as [Hu Hv]. split; [auto|]. split; [auto|]. split; [apply near_elem; auto|]. destruct H2 as [H2|[H2 H3]].
  - left. apply (step_iff _ _ u v change_kind); auto.
  - right. split; [apply (step_iff _ _ u v succ_kind); auto|]. intros H. apply H3. auto.
Qed.
Lemma linked_elems p : (forall v, In v p -> proper v) -> linked (along es (rel m_drivable)) p -> linked (joined driving) (map el p).
Proof.
  induction p as [|u p IH]; simpl; auto. intros Hp H. destruct p as [|t p]; simpl; auto. destruct H as [H1 H2]. split; [|apply IH; auto].
  apply (step_iff _ _ u t drive_kind); auto. apply Hp. simpl; auto.
Qed.
Lemma hd_elems p : p <> [] -> hd_error (map el p) = Some (el (hd 0 p)).
Proof. destruct p; [congruence|auto]. Qed.
Lemma last_elems p : p <> [] -> hd_error (rev (map el p)) = Some (el (List.last p 0)).
Proof.
  intros Hp. destruct (exists_last Hp) as (q & x & ->). rewrite last_last, map_app, rev_app_distr. auto.
Qed.
Lemma permitted_elems p : permitted_section es on p -> detour elem joined (map el on) (map el p) /\
  (all_beside_route elem joined (map el on) (map el p) \/ along_route elem joined (map el on) (map el p)).
Proof.
  intros ((Hne & Hl & Ho & u & Hu & Hd) & Hp).
  assert (Hpp : forall v, In v p -> proper v).
  { intros v Hv. destruct (Ho v Hv) as (_ & (w & _ & H) & _). apply (proj1 (step_proper _ _ _ H)). }
  split.
  - split; [apply linked_elems; auto|]. split.
    + intros c Hc. apply in_map_iff in Hc as (v & <- & Hv). apply off_iff; auto.
    + exists (el (hd 0 p)), (el u). split; [apply hd_elems; auto|]. split; [apply in_map; auto|]. eapply step_elem; [apply drive_kind|auto].
  - destruct Hp as [Hp|(from & to & Hf & Ht & Df & Dt & Hr)].
    + left. intros c Hc. apply in_map_iff in Hc as (v & <- & Hv). destruct (Hp v Hv) as (w & Hw & [H|H]); exists (el w); (split; [apply in_map; auto|]).
      * left. eapply step_elem; [apply beside_kind|auto].
      * right. eapply step_elem; [apply beside_kind|auto].
    + right. exists (el (hd 0 p)), (el (List.last p 0)), (el from), (el to). split; [apply hd_elems; auto|]. split; [apply last_elems; auto|].
      split; [apply in_map; auto|]. split; [apply in_map; auto|]. split; [eapply step_elem; [apply drive_kind|auto]|].
      split; [eapply step_elem; [apply drive_kind|auto]|]. eapply rt_elems with (m := m) (ops := ops); [|exact Hr].
      intros x y (H & Hy & w & Hw & Hc). destruct (step_elem _ not_crossing x y not_crossing_kind H) as (Px & Py & Hj).
      split; [auto|]. split; [auto|]. split; [auto|]. split; [apply in_map; auto|]. exists (el w). split.
      * destruct Hw as [Hw|Hw]; [left|right]; (eapply rt_elems with (m := m) (ops := ops); [|exact Hw]); intros a c Hac; eapply step_elem; try exact Hac; intros; [apply left_kind|apply right_kind].
      * destruct Hc as [->|[->|(t & Htp & Hc)]]; auto. right. right. exists (el t). split; [apply in_map; auto|]. eapply step_elem; [apply meeting_kind|auto].
Qed.
Lemma join_elem v : joins es last begin on v -> proper v /\ may_join elem joined beyond (el begin) (map el on) (el v).
Proof.
  intros [H1 H2 (t & H3 & H4) H5]. pose proof (driven_elem v t H3) as (Hv & Ht & Hd). split; [auto|]. constructor.
  - rewrite in_elems; auto.
  - eapply rt_elems with (m := m) (ops := ops); [|exact H2]. apply driven_elem.
  - exists (el t). split; auto. destruct H4 as [H4|H4]; [left|right; apply in_map; auto]. eapply step_elem; [apply succ_kind|auto].
  - destruct H5 as [H5|(p & Hp & Hvp)]; [left; rewrite <- off_iff; auto|]. right. exists (map el p).
    destruct (permitted_elems p Hp) as [K1 K2]. split; [auto|]. split; [auto|]. apply in_map; auto.
Qed.
End On.
Lemma grown_elems path on : (forall v, In v path -> proper v) -> grown es last begin path on ->
  (forall v, In v on -> proper v) /\ grown_from elem joined beyond (el begin) (map el path) (map el on).
Proof.
  intros Hp H. induction H as [|on new H [IH1 IH2] Hn]; [split; auto; constructor|].
  split.
  - intros v Hv. apply in_app_or in Hv as [Hv|Hv]; auto. apply (join_elem on IH1 v). auto.
  - rewrite map_app. constructor; auto. intros c Hc. apply in_map_iff in Hc as (v & <- & Hv). apply (join_elem on IH1 v). auto.
Qed.
End Growth.

(** * The outcome *)
Section Outcome.
Context {A : CostAlg}.
Variable m : N.
Variable ops : list (gop A).
Notation g := (gbuild m ops).
Variable k : N.
Variable lc : bool.
Notation es := (orig_edges g lc k).
Notation n := (length (g_verts g)).
Notation el := (el g).
Notation joined := (joined g k lc).
Variable path : list elem.
Hypothesis Hpath : route_path g k lc path.
Hypothesis Hlanes : lanes_only g k lc.

Lemma build_ends : lanes_unwind g k lc -> build_route g path lc k = Undefined \/ exists r, build_route g path lc k = Done (Some r).
Proof.
  intros Hu. destruct (path_vertices m ops k lc path Hpath) as (vs & b & e & Ho). destruct (last_done m ops k lc path vs b e Ho) as (last & El & _).
  pose proof Ho as [_ _ H3 _ _ _ _ _ (Hb & _)].
  destruct (grow_outcome es n (es_bound m ops k lc) (unwind_rings m ops k lc Hu) last b e (proper_bound m ops b (H3 b Hb)) vs Hb) as [E|(on & E & _)].
  - intros v Hv. apply proper_bound; auto.
  - left. eapply build_undefined; eauto.
  - right. destruct (build_steps m ops k lc path Hpath Hlanes vs b e last on Ho El E) as (r & order & disc & Er & _). eauto.
Qed.
Definition route_end (x : elem) : Prop := hd_error path <> hd_error (rev path) /\
  exists z, hd_error (rev path) = Some z /\ clos_refl_trans elem (joined changing) z x.
Lemma end_last vs b e last u : on_path m ops k lc path vs b e -> last_lanelets es n vs = Done last -> proper m ops u -> route_end (el u) -> In u last.
Proof.
  intros Ho El Hu [H1 (z & H2 & H3)]. destruct (last_done m ops k lc path vs b e Ho) as (last' & El' & [[-> _]|[_ Hl]]); rewrite El in El'; injection El' as <-.
  - destruct Ho as [_ _ _ _ _ (r1 & E1) (r2 & E2) _ _]. rewrite E1 in H1. rewrite E2 in H1. destruct H1. auto.
  - apply Hl. pose proof Ho as [_ _ Hp _ _ (r1 & E1) _ _ [_ He]]. rewrite E1 in H2. injection H2 as <-.
    destruct (rt_vertices m ops k lc changing (el e) (el u) e (Hp e He) H3) as (t & Ht & K). unfold proper in Hu. rewrite Hu in Ht. injection Ht as <-.
    eapply rt_mono; [|exact K]. intros x y. apply along_kind. intros f _. apply change_kind.
Qed.
Lemma build_grown r vs b e last on order disc : lanes_unwind g k lc -> result_of m ops k lc path r vs b e last on order disc ->
  grown_from elem joined route_end (hd (EArea 0) path) path (map el on).
Proof.
  intros Hu Hr. pose proof Hr as [Ho El Eg _ _ _ _ _ _]. pose proof Ho as [_ Hm H3 _ _ _ (sp & Hsp) _ (Hb & _)].
  destruct (grow_outcome es n (es_bound m ops k lc) (unwind_rings m ops k lc Hu) last b e (proper_bound m ops b (H3 b Hb)) vs Hb) as [E|(on' & E & Hg)].
  - intros v Hv. apply proper_bound; auto.
  - congruence.
  - rewrite Eg in E. injection E as <-.
    replace (hd (EArea 0) path) with (el b) by (rewrite Hsp; auto). rewrite <- Hm.
    eapply (grown_elems m ops k lc last b route_end); eauto. intros u Pu Hx. eapply end_last; eauto.
Qed.
Lemma contained_in r vs b e last on order disc a : result_of m ops k lc path r vs b e last on order disc ->
  contains r a = true <-> clos_refl_trans elem (fun x y => joined any_relation x y /\ In y (map el on)) (hd (EArea 0) path) a.
Proof.
  intros Hr. rewrite (contained m ops k lc path r vs b e last on order disc Hr). pose proof Hr as [Ho _ _ _ _ _ Hord _ Hi]. pose proof Ho as [_ _ Hp _ _ _ (sp & Hsp) _ (Hb & _)].
  rewrite Hsp. simpl. split.
  - intros (v & Hv & ->). apply Hord in Hv. eapply rt_elems with (m := m) (ops := ops); [|exact Hv]. intros u t Ht. apply in_map_iff in Ht as (x & <- & Hx).
    apply out_edge in Hx as (Hx & <- & Hxo). destruct (along_joined m ops k lc any_relation (e_src x) (e_tgt x)) as (P1 & P2 & P3); [exists x; auto|].
    split; [auto|]. split; [auto|]. split; [auto|]. apply in_map; auto.
  - intros H. apply clos_rt_rtn1 in H. induction H as [|y z [H1 H2] H IH]; [exists b; split; auto; apply Hord, rt_refl|].
    destruct IH as (u & Hu & ->). destruct (joined_along m ops k lc any_relation (el u) z u) as (t & Ht & (x & X1 & X2 & X3 & _)); [|exact H1|].
    + apply (on_ok m ops k lc path Hpath Hlanes r vs b e last on order disc Hr u). auto.
    + destruct (proper_of m ops z t Ht) as (Pt & <- & _). exists t. split; auto. apply Hord in Hu. apply Hord.
      eapply rt_trans; [exact Hu|]. apply rt_step. apply in_map_iff. exists x. split; auto. apply out_edge. split; [auto|]. split; [auto|].
      rewrite X3. apply in_map_iff in H2 as (w & Ew & Hw). assert (t = w); [|congruence]. apply (proper_inj m ops); auto.
      apply (on_ok m ops k lc path Hpath Hlanes r vs b e last on order disc Hr w). auto.
Qed.
Lemma contained_leads r a : build_route g path lc k = Done (Some r) -> contains r a = true ->
  exists z, hd_error (rev path) = Some z /\
  (clos_refl_trans elem (joined driving) a z \/ exists w, clos_refl_trans elem (joined driving) a w /\ clos_trans elem (joined following) w w).
Proof.
  intros E Ha. destruct (build_inv m ops k lc path Hpath Hlanes r E) as (vs & b & e & last & on & order & disc & Hr).
  apply (contained m ops k lc path r vs b e last on order disc Hr) in Ha as (v & Hv & ->).
  pose proof Hr as [Ho _ Eg _ _ _ _ _ Hi]. pose proof Ho as [_ _ Hp Hb0 He0 (rp & Hrp) _ Hl (Hb & He)]. exists (el e). rewrite Hrp. split; auto.
  assert (D : forall u t, clos_refl_trans nat (along es (rel m_drivable)) u t -> clos_refl_trans elem (joined driving) (el u) (el t)).
  { intros u t. apply (rt_elems m ops). intros x y H. apply along_joined. eapply along_kind; [|exact H]. intros; symmetry; apply drive_kind. }
  destruct (grow_leads es n (es_bound m ops k lc) last b e (proper_bound m ops b (Hp b Hb)) (S n) vs on Hb) with (v := v) as [K|(w & K1 & K2)]; auto.
  - intros x Hx. pose proof (linked_last _ vs x Hx Hl) as K. replace (List.last vs x) with e in K; auto.
    clear - He0. destruct vs as [|y vs] using rev_ind; [discriminate|]. rewrite rev_app_distr in He0. injection He0 as ->. rewrite last_last. auto.
  - right. exists (el w). split; auto. eapply (t_elems m ops); [|exact K2]. intros x y H. apply along_joined. eapply along_kind; [|exact H]. intros; symmetry; apply succ_kind.
Qed.
Lemma removelast_map {S T} (f : S -> T) l : removelast (map f l) = map f (removelast l).
Proof. induction l as [|x l IH]; simpl; auto. destruct l; simpl in *; auto. rewrite IH. auto. Qed.
Lemma not_last vs b e last : ends_once g k lc path -> on_path m ops k lc path vs b e -> last_lanelets es n vs = Done last ->
  forall v, In v (removelast vs) -> ~ In v last.
Proof.
  intros He Ho El v Hv Hl. pose proof Ho as [_ Hm Hp _ _ (rp & Hrp) (sp & Hsp) _ (Hb & Hee)].
  destruct (last_done m ops k lc path vs b e Ho) as (last' & El' & [[_ Hl']|[Hne K]]); rewrite El in El'; injection El' as <-; [rewrite Hl' in Hl; destruct Hl|].
  apply K in Hl. destruct (He (el b) (el e)) as [E|H]; [rewrite Hsp; auto|rewrite Hrp; auto| |].
  - apply Hne. apply (proper_inj m ops); auto.
  - apply (H (el v)).
    + rewrite <- Hm, removelast_map. apply in_map; auto.
    + eapply (rt_elems m ops); [|exact Hl]. intros x y Hxy. apply along_joined. eapply along_kind; [|exact Hxy]. intros; symmetry; apply change_kind.
Qed.
Lemma mutual_contained r a c : two_lanes g k lc -> ends_once g k lc path -> build_route g path lc k = Done (Some r) ->
  contains r a = true -> joined changing a c -> joined changing c a -> contains r c = true.
Proof.
  intros Htwo Honce E Ha H1 H2. destruct (build_inv m ops k lc path Hpath Hlanes r E) as (vs & b & e & last & on & order & disc & Hr).
  pose proof (contained m ops k lc path r vs b e last on order disc Hr) as Hc. apply Hc in Ha as (v & Hv & ->). 
  pose proof Hr as [Ho El Eg _ _ _ _ _ Hi]. pose proof Ho as [_ _ Hp Hb0 He0 _ _ Hl (Hb & He)].
  assert (Pv : proper m ops v) by (apply (on_ok m ops k lc path Hpath Hlanes r vs b e last on order disc Hr v); auto).
  destruct (joined_along m ops k lc changing (el v) c v Pv H1) as (u & Hu & K). destruct (proper_of m ops c u Hu) as (Pu & <- & _).
  assert (Hbn : b < n) by (apply (proper_bound m ops); auto).
  destruct (grow_alive es n (es_bound m ops k lc) (two_one m ops k lc Htwo) last b e Hbn (S n) vs on) as [Al Ad]; auto.
  { eapply not_last; eauto. }
  assert (Hbon : In b on) by (apply Hi; destruct Hr as [_ _ _ _ _ [Hb' _] _ _ _]; destruct order; [discriminate|]; injection Hb' as ->; left; auto).
  assert (Huo : In u on).
  { apply (mutual_joins es n (es_bound m ops k lc) (two_one m ops k lc Htwo) last b e Hbn on v u); auto.
    - eapply along_kind; [|exact K]. intros; apply change_kind.
    - apply (step_iff m ops k lc change_edge changing u v change_kind); auto. }
  apply Hc. exists u. split; auto. destruct K as (x & X1 & X2 & X3 & _). rewrite <- X3.
  apply (on_order m ops k lc path r vs b e last on order disc Hr x); auto; [rewrite X2; auto|rewrite X3; auto].
Qed.
End Outcome.

Section NoLaneChanges.
Context {A : CostAlg}.
Variable m : N.
Variable ops : list (gop A).
Notation g := (gbuild m ops).
Variable k : N.
Notation es := (orig_edges g false k).
Notation n := (length (g_verts g)).
Lemma no_beside e : In e es -> rel m_beside e = false.
Proof.
  intros He. apply es_used in He as [_ He]. unfold used in He. apply andb_true_iff in He as [_ He]. unfold rel.
  destruct (ei_rel (e_info e)); try discriminate; reflexivity.
Qed.
Lemma no_change e : In e es -> change_edge e = false.
Proof.
  intros He. apply es_used in He as [_ He]. unfold used in He. apply andb_true_iff in He as [_ He]. unfold change_edge, rel.
  destruct (ei_rel (e_info e)); try discriminate; reflexivity.
Qed.
Lemma build_without path : route_path g k false path -> lanes_only g k false -> ends_once g k false path ->
  exists r, build_route g path false k = Done (Some r).
Proof.
  intros Hpath Hlanes Honce. destruct (path_vertices m ops k false path Hpath) as (vs & b & e & Ho).
  destruct (last_done m ops k false path vs b e Ho) as (last & El & Hl). pose proof Ho as [_ _ H3 Hb0 He0 _ _ Hlk (Hb & _)].
  assert (Hlast : forall v, In v last -> v = e).
  { intros v Hv. destruct Hl as [[_ ->]|[_ Hl]]; [destruct Hv|]. apply Hl in Hv. apply clos_rt_rt1n in Hv. destruct Hv as [|y z (x & X1 & X2 & X3 & X4) _]; auto.
    rewrite no_change in X4 by auto. discriminate. }
  assert (Hone : forall v, cnt change_edge (outs es v) <= 1).
  { intros v. rewrite cnt_none; auto. intros x Hx. apply outs_in in Hx as [Hx _]. apply no_change; auto. }
  destruct (grow_done es n (es_bound m ops k false) Hone last b e (proper_bound m ops b (H3 b Hb)) no_beside Hlast vs Hb0 He0 Hlk) as (on & E).
  - eapply not_last; eauto.
  - intros v Hv. apply (proper_bound m ops); auto.
  - destruct (build_steps m ops k false path Hpath Hlanes vs b e last on Ho El E) as (r & order & disc & Er & _). eauto.
Qed.
End NoLaneChanges.
