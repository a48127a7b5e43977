(** The route object in terms of the elements of the routing graph. *)
From Coq Require Import NArith List Bool Arith Lia Relations.
From Verif Require Import CostAlg GraphModel GraphSpec GraphProofs GraphProofs2 RouteSpec RouteBuilderModel RouteBuilderSpec RouteBuilderProofs
  RouteBuilderProofs2 RouteBuilderProofs3 RouteBuilderProofs4 RouteBuilderProofs5 RouteBuilderProofs6 RouteBuilderProofs7 RouteBuilderProofs8.
Import ListNotations.
Local Open Scope nat_scope.

Lemma Forall2_filter {S T} (P : S -> T -> Prop) (p : S -> bool) (q : T -> bool) l l' :
  Forall2 P l l' -> (forall x y, In x l -> In y l' -> P x y -> p x = q y) -> Forall2 P (filter p l) (filter q l').
Proof.
  intros H. induction H as [|x y l l' H1 H2 IH]; intros Hpq; simpl; [constructor|].
  rewrite <- (Hpq x y) by (simpl; auto). destruct (p x); [constructor; auto|]; apply IH; intros; apply Hpq; simpl; auto.
Qed.
Lemma Forall2_in {S T} (P : S -> T -> Prop) l l' : Forall2 P l l' -> forall y, In y l' -> exists x, In x l /\ P x y.
Proof. intros H. induction H as [|x y l l' H1 H2 IH]; intros z []; [subst; exists x; simpl; auto|]. destruct (IH z H) as (w & Hw & K). exists w. simpl; auto. Qed.
Lemma Forall2_in_l {S T} (P : S -> T -> Prop) l l' : Forall2 P l l' -> forall x, In x l -> exists y, In y l' /\ P x y.
Proof. intros H. induction H as [|x y l l' H1 H2 IH]; intros z []; [subst; exists y; simpl; auto|]. destruct (IH z H) as (w & Hw & K). exists w. simpl; auto. Qed.
Lemma Forall2_map_eq {S T U} (P : S -> T -> Prop) (f : S -> U) (h : T -> U) l l' :
  Forall2 P l l' -> (forall x y, In x l -> P x y -> f x = h y) -> map f l = map h l'.
Proof.
  intros H. induction H as [|x y l l' H1 H2 IH]; intros Hf; simpl; auto. f_equal; [apply Hf; simpl; auto|]. apply IH. intros; apply Hf; simpl; auto.
Qed.
Lemma Forall2_length {S T} (P : S -> T -> Prop) l l' : Forall2 P l l' -> length l = length l'.
Proof. intros H. induction H; simpl; auto. Qed.
Lemma filter_filter {T} (p q : T -> bool) l : filter p (filter q l) = filter (fun x => q x && p x) l.
Proof. induction l as [|x l IH]; simpl; auto. destruct (q x); simpl; [destruct (p x)|]; rewrite IH; auto. Qed.
Lemma filter_nothing {T} (p : T -> bool) l : (forall x, In x l -> p x = false) -> filter p l = [].
Proof. induction l as [|x l IH]; simpl; intros H; auto. rewrite (H x) by auto. apply IH. auto. Qed.

Lemma filter_true {T} (p : T -> bool) l : (forall x, In x l -> p x = true) -> filter p l = l.
Proof. induction l as [|x l IH]; simpl; intros H; auto. rewrite (H x) by auto. f_equal. auto. Qed.
Lemma nodup_map {S T} (f : S -> T) l : (forall x y, In x l -> In y l -> f x = f y -> x = y) -> NoDup l -> NoDup (map f l).
Proof.
  intros Hf H. induction H as [|x l Hx H IH]; simpl; constructor.
  - intros K. apply in_map_iff in K as (y & E & Hy). apply Hf in E; simpl; auto. congruence.
  - apply IH. intros; apply Hf; simpl; auto.
Qed.

Section Object.
Context {A : CostAlg}.
Variable m : N.
Variable ops : list (gop A).
Notation g := (gbuild m ops).
Variable k : N.
Variable lc : bool.
Notation es := (orig_edges g lc k).
Notation n := (length (g_verts g)).
Notation edge := (edge A).
Notation el := (el g).
Notation joined := (joined g k lc).
Notation proper := (proper m ops).
Variable path : list elem.
Hypothesis Hpath : route_path g k lc path.
Hypothesis Hlanes : lanes_only g k lc.

Section Of.
Variable r : route A.
Variables (vs : list nat) (b e : nat) (last on order disc : list nat).
Hypothesis Hr : result_of m ops k lc path r vs b e last on order disc.
Notation dn := (concat (map (route_out es on) order)).
Notation rg := (r_graph r).

Lemma on_ok v : In v on -> is_lanelet (el v) = true /\ v < n /\ proper v.
Proof.
  intros Hv. destruct Hr as [Ho _ Eg _ _ _ _ _ _].
  destruct (grown_on m ops k lc path Hpath Hlanes vs b e last on Ho Eg) as (_ & _ & K). apply (K v Hv).
Qed.
Lemma disc_on v : In v disc -> In v on.
Proof. intros H. apply (ro_disc _ _ _ _ _ _ _ _ _ _ _ _ _ Hr) in H. eapply ro_incl; eauto. Qed.
Lemma rg_ok : graph_ok rg.
Proof. destruct Hr as [_ _ _ (((ro & ->) & _) & _) _ _ _ _ _]. apply gbuild_ok. Qed.
Lemma rg_vertex i v : nth_error disc i = Some v <-> vertex_elem rg i = Some (el v) /\ In v on.
Proof.
  destruct Hr as [_ _ _ ((_ & Hnd & Hi & Hv & _ & _) & _) _ _ _ _ _]. unfold vertex_elem. rewrite Hv, nth_error_map. split.
  - intros H. rewrite H. split; auto. apply Hi. eapply nth_error_In; eauto.
  - intros [H1 H2]. destruct (nth_error disc i) as [u|] eqn:E; [|discriminate]. injection H1 as H1. f_equal.
    apply (proper_inj m ops); auto; [apply on_ok, Hi; eapply nth_error_In; eauto|apply on_ok; auto].
Qed.
Lemma rg_get v i : In v on -> get_vertex rg (el v) = Some i <-> nth_error disc i = Some v.
Proof. destruct Hr as [_ _ _ ((_ & _ & _ & _ & H & _) & _) _ _ _ _ _]. auto. Qed.
(** The elements of the route are those of the visited vertices. *)
Lemma contained a : contains r a = true <-> exists v, In v order /\ a = el v.
Proof.
  unfold contains. destruct (get_vertex rg a) as [i|] eqn:E.
  - split; auto. intros _. destruct (go_lookup _ rg_ok a i E) as [H1 _]. unfold vertex_elem in H1.
    pose proof Hr as [_ _ _ ((_ & _ & _ & Hv & _ & _) & _) _ _ _ Hd _]. rewrite Hv, nth_error_map in H1.
    destruct (nth_error disc i) as [v|] eqn:Ei; [|discriminate]. injection H1 as <-. exists v. split; auto. apply Hd. eapply nth_error_In; eauto.
  - split; [discriminate|]. intros (v & Hv & ->). pose proof Hr as [_ _ _ _ _ _ _ Hd Hi]. apply Hd in Hv.
    pose proof (disc_on v Hv) as Ho. apply In_nth_error in Hv as (i & Hi'). apply rg_get in Hi'; auto. congruence.
Qed.
Lemma contained_el v : proper v -> contains r (el v) = true <-> In v order.
Proof.
  intros Hp. rewrite contained. split.
  - intros (u & Hu & E). assert (v = u); [|congruence]. apply (proper_inj m ops); auto. apply on_ok. eapply ro_incl; eauto.
  - intros H. eauto.
Qed.
Lemma contained_path a : In a path -> contains r a = true.
Proof.
  intros Ha. pose proof Hr as [Ho _ Eg _ _ _ Hord _ _]. pose proof Ho as [_ Hm _ _ _ _ _ _ _].
  rewrite <- Hm in Ha. apply in_map_iff in Ha as (v & <- & Hv). apply contained. exists v. split; auto. apply Hord.
  eapply path_reached; eauto.
Qed.
Lemma out_edge u x : In x (route_out es on u) <-> In x es /\ e_src x = u /\ In (e_tgt x) on.
Proof. unfold route_out. rewrite filter_In, outs_in, mem_in. tauto. Qed.
Lemma order_step u x : In u order -> In x (route_out es on u) -> In (e_tgt x) order.
Proof.
  intros Hu Hx. apply (ro_order _ _ _ _ _ _ _ _ _ _ _ _ _ Hr) in Hu. apply (ro_order _ _ _ _ _ _ _ _ _ _ _ _ _ Hr).
  eapply rt_trans; [exact Hu|]. apply rt_step. apply in_map; auto.
Qed.
(** A lanelet of the determined set that an edge of the route leads to is on the route. *)
Lemma on_order x : In x es -> In (e_src x) order -> (In (e_tgt x) on <-> In (e_tgt x) order).
Proof.
  intros Hx Hs. split; [|eapply ro_incl; eauto]. intros Ht. apply (order_step (e_src x)); auto. apply out_edge. auto.
Qed.
(** Reached within the route. *)
Lemma contained_reached a : contains r a = true -> is_lanelet a = true /\
  clos_refl_trans elem (joined driving) (hd (EArea 0) path) a /\
  clos_refl_trans elem (fun x y => joined any_relation x y /\ contains r x = true /\ contains r y = true) (hd (EArea 0) path) a.
Proof.
  intros Ha. apply contained in Ha as (v & Hv & ->). pose proof Hr as [Ho _ Eg _ _ _ Hord _ Hi]. pose proof Ho as [_ _ _ _ _ _ (sp & Hsp) _ _].
  destruct (grown_on m ops k lc path Hpath Hlanes vs b e last on Ho Eg) as (_ & K & _).
  split; [apply on_ok; auto|]. rewrite Hsp. simpl. split.
  - eapply rt_elems with (m := m) (ops := ops); [|apply K; auto]. intros u t H. apply along_joined. eapply along_kind; [|exact H]. intros; symmetry; apply drive_kind.
  - pose proof (proj1 (Hord v) Hv) as Hrt. apply clos_rt_rtn1 in Hrt. clear Hv. induction Hrt as [|y z Hyz Hrt IH]; [apply rt_refl|].
    eapply rt_trans; [exact IH|]. apply rt_step. apply clos_rtn1_rt in Hrt. apply Hord in Hrt.
    apply in_map_iff in Hyz as (x & <- & Hx). pose proof (order_step y x Hrt Hx) as Ht. apply out_edge in Hx as (Hx & <- & Hxo).
    split; [|split; apply contained; eauto]. apply along_joined. exists x. auto.
Qed.

(** * Edges *)
Lemma dn_from u : filter (fun x => Nat.eqb (e_src x) u) dn = if mem u order then route_out es on u else [].
Proof.
  pose proof (ro_nodup _ _ _ _ _ _ _ _ _ _ _ _ _ Hr) as Hnd. clear Hr.
  induction order as [|v l IH]; auto. cbn [map concat]. rewrite filter_app. apply NoDup_cons_iff in Hnd as [Hv Hnd]. rewrite (IH Hnd). simpl.
  rewrite Nat.eqb_sym. destruct (Nat.eqb_spec v u) as [->|Huv].
  - rewrite (proj2 (mem_out u l)) by auto. simpl. rewrite app_nil_r. apply filter_true. intros x Hx. apply out_edge in Hx as (_ & <- & _). apply Nat.eqb_refl.
  - simpl. rewrite filter_nothing; auto. intros x Hx. apply out_edge in Hx as (_ & <- & _). apply Nat.eqb_neq. auto.
Qed.
Lemma dn_count p : cnt p dn = cnt (fun x => mem (e_src x) order && mem (e_tgt x) on && p x) es.
Proof.
  pose proof (ro_nodup _ _ _ _ _ _ _ _ _ _ _ _ _ Hr) as Hnd. clear Hr.
  induction order as [|v l IH]; simpl; [symmetry; apply cnt_none; auto|]. apply NoDup_cons_iff in Hnd as [Hv Hnd]. rewrite cnt_app, (IH Hnd).
  unfold route_out, outs. rewrite !cnt_filter. rewrite (cnt_split (fun x => (Nat.eqb (e_src x) v || mem (e_src x) l) && mem (e_tgt x) on && p x) (fun x => Nat.eqb (e_src x) v)).
  f_equal; apply cnt_ext; intros x _; destruct (Nat.eqb_spec (e_src x) v) as [Es|]; simpl; auto.
  - destruct (mem (e_tgt x) on), (p x); auto.
  - destruct (mem (e_src x) l), (mem (e_tgt x) on), (p x); auto.
  - rewrite Es, (proj2 (mem_out v l)) by auto. simpl. destruct (mem (e_tgt x) on && p x); auto.
  - destruct (mem (e_src x) l), (mem (e_tgt x) on), (p x); auto.
Qed.
Lemma dn_in_es x : In x dn <-> In x es /\ In (e_src x) order /\ In (e_tgt x) on.
Proof.
  rewrite in_concat. split.
  - intros (l & Hl & Hx). apply in_map_iff in Hl as (u & <- & Hu). apply out_edge in Hx as (H1 & <- & H2). auto.
  - intros (H1 & H2 & H3). exists (route_out es on (e_src x)). split; [apply in_map; auto|]. apply out_edge. auto.
Qed.
Notation matches := (fun x f => nth_error disc (e_src f) = Some (e_src x) /\ nth_error disc (e_tgt f) = Some (e_tgt x) /\
                                e_info f = as_route (e_info x)).
Lemma rg_edges : Forall2 matches dn (g_edges rg).
Proof. destruct Hr as [_ _ _ ((_ & _ & _ & _ & _ & H) & _) _ _ _ _ _]. auto. Qed.
Lemma is_src i u v : nth_error disc i = Some u -> In v on -> is_elem rg i (el v) = Nat.eqb u v.
Proof.
  intros Hi Hv. pose proof (proj1 (rg_vertex i u) Hi) as [H1 H2]. unfold is_elem. rewrite H1.
  destruct (Nat.eqb_spec u v) as [->|Huv]; [apply elem_eqb_eq; auto|]. destruct (elem_eqb (el u) (el v)) eqn:E; auto.
  apply elem_eqb_eq in E. destruct Huv. apply (proper_inj m ops); auto; apply on_ok; auto.
Qed.
Lemma is_src_g x v : In x (g_edges g) -> proper v -> is_elem g (e_src x) (el v) = Nat.eqb (e_src x) v.
Proof.
  intros Hx Hv. destruct (edge_proper m ops x Hx) as [Hs _]. unfold is_elem. rewrite (proper_elem m ops _ Hs).
  destruct (Nat.eqb_spec (e_src x) v) as [->|Huv]; [apply elem_eqb_eq; auto|]. destruct (elem_eqb (el (e_src x)) (el v)) eqn:E; auto.
  apply elem_eqb_eq in E. destruct Huv. apply (proper_inj m ops); auto.
Qed.
Lemma edges_of v : In v order -> Forall2 matches (route_out es on v) (edges_from rg (el v)).
Proof.
  intros Hv. assert (Hvo : In v on) by (eapply ro_incl; eauto).
  pose proof (dn_from v) as E. rewrite (proj2 (mem_in v order)) in E by auto. rewrite <- E. unfold edges_from.
  eapply Forall2_filter; [apply rg_edges|]. intros x f _ _ (H1 & _ & _). rewrite (is_src (e_src f) (e_src x) v H1 Hvo). auto.
Qed.
Definition target_in (x : edge) : bool := match vertex_elem g (e_tgt x) with Some c => contains r c | None => false end.
Lemma route_edges a : contains r a = true ->
  map (told rg) (edges_from rg a) = map (told g) (filter (fun x => used k lc x && target_in x) (edges_from g a)).
Proof.
  intros Ha. apply contained in Ha as (v & Hv & ->). assert (Hvo : In v on) by (eapply ro_incl; eauto). destruct (on_ok v Hvo) as (_ & _ & Hpv).
  assert (E : filter (fun x => used k lc x && target_in x) (edges_from g (el v)) = route_out es on v).
  { unfold edges_from, route_out, outs, orig_edges. rewrite !filter_filter. apply filter_ext_in. intros x Hx. rewrite (is_src_g x v Hx Hpv).
    destruct (Nat.eqb_spec (e_src x) v) as [Es|]; [|rewrite !andb_false_r; auto]. simpl. destruct (edge_proper m ops x Hx) as [_ Ht].
    assert (Eu : used k lc x = (N.eqb (ei_costid (e_info x)) k && has_rel (orig_mask lc) (ei_rel (e_info x)))).
    { unfold used. f_equal. destruct lc, (ei_rel (e_info x)); reflexivity. }
    rewrite <- Eu. destruct (used k lc x) eqn:Euse; auto. simpl. unfold target_in. rewrite (proper_elem m ops _ Ht).
    apply eq_true_iff_eq. rewrite (contained_el _ Ht), mem_in. symmetry. apply on_order; [apply es_used; auto|congruence]. }
  rewrite E. symmetry. eapply Forall2_map_eq; [apply edges_of; auto|]. intros x f Hx (H1 & H2 & H3). unfold told. apply out_edge in Hx as (Hx & _ & Hto).
  rewrite (proper_elem m ops (e_tgt x)) by (apply on_ok; auto). rewrite (proj1 (proj1 (rg_vertex _ _) H2)), H3. auto.
Qed.
Lemma route_costs f : In f (g_edges rg) -> ei_costid (e_info f) = 0%N.
Proof. intros Hf. destruct (Forall2_in _ _ _ rg_edges f Hf) as (x & _ & _ & _ & ->). auto. Qed.
Lemma route_conflicts a : contains r a = true ->
  map Some (conflicting_in_map r a) = map (fun x => vertex_elem g (e_tgt x)) (filter (fun x => used k lc x && crossing (ei_rel (e_info x))) (edges_from g a)).
Proof.
  intros Ha. apply contained in Ha as (v & Hv & ->). assert (Hvo : In v on) by (eapply ro_incl; eauto). destruct (on_ok v Hvo) as (_ & _ & Hpv).
  pose proof Hr as [_ _ _ (_ & _ & (_ & Hc)) _ _ _ Hd _]. pose proof (proj2 (Hd v) Hv) as Hvd. apply In_nth_error in Hvd as (i & Hi).
  unfold conflicting_in_map. rewrite (proj2 (rg_get v i Hvo) Hi). rewrite (nth_error_nth _ _ _ (Hc i v Hi)).
  rewrite (proj2 (mem_in v (rev order))) by (apply -> in_rev; auto). unfold confl. rewrite map_map.
  assert (E : filter (fun x => used k lc x && crossing (ei_rel (e_info x))) (edges_from g (el v)) = filter (rel (bits Conflicting)) (outs es v)).
  { unfold edges_from, outs, orig_edges. rewrite !filter_filter. apply filter_ext_in. intros x Hx. rewrite (is_src_g x v Hx Hpv).
    assert (Eu : used k lc x = (N.eqb (ei_costid (e_info x)) k && has_rel (orig_mask lc) (ei_rel (e_info x)))).
    { unfold used. f_equal. destruct lc, (ei_rel (e_info x)); reflexivity. }
    rewrite <- Eu. destruct (Nat.eqb (e_src x) v), (used k lc x); auto. simpl. unfold rel. destruct (ei_rel (e_info x)); reflexivity. }
  rewrite E. apply map_ext_in. intros x Hx. apply filter_In in Hx as [Hx _]. apply outs_in in Hx as [Hx _]. apply es_sub in Hx.
  symmetry. apply (proper_elem m ops). apply (edge_proper m ops x Hx).
Qed.
Lemma route_verts : NoDup (g_verts rg) /\ hd_error (g_verts rg) = hd_error path /\ length (g_verts rg) = length order.
Proof.
  pose proof Hr as [Ho _ _ ((_ & Hnd & Hi & Hv & _ & _) & _) Hno [_ Hb] _ Hd _]. rewrite Hv. split; [|split].
  - apply nodup_map; auto. intros x y Hx Hy. apply (proper_inj m ops); apply on_ok; auto.
  - destruct Ho as [_ _ _ _ _ _ (sp & ->) _ _]. destruct disc; [discriminate|]. injection Hb as ->. auto.
  - rewrite map_length. apply Nat.le_antisymm; apply NoDup_incl_length; auto; intros x; apply Hd.
Qed.

(** * Lanes *)
Lemma one_successor_count (l : list edge) : forall has, one_successor has l = true <-> cnt succ_edge l = (if has then 0 else 1).
Proof.
  induction l as [|x l IH]; intros has; simpl; [destruct has; unfold cnt; simpl; split; try discriminate; auto|].
  rewrite cnt_cons. unfold succ_edge at 1. destruct (relation_eqb (ei_rel (e_info x)) Successor), has; simpl; try rewrite IH; try lia; split; discriminate || lia.
Qed.
Lemma same_lane_counts x : different_lane es on x = false <->
  succ_edge x = true /\ cnt succ_edge (route_in es on (e_tgt x)) = 1 /\ cnt succ_edge (route_out es on (e_src x)) = 1.
Proof.
  unfold different_lane. fold (succ_edge x). pose proof (one_successor_count (route_in es on (e_tgt x)) false) as H1.
  pose proof (one_successor_count (route_out es on (e_src x)) false) as H2.
  destruct (succ_edge x), (one_successor false (route_in es on (e_tgt x))), (one_successor false (route_out es on (e_src x))); simpl; intuition congruence.
Qed.
Lemma cnt_one {T} (p : T -> bool) l x : cnt p l <= 1 -> In x l -> p x = true -> filter p l = [x].
Proof.
  intros H1 H2 H3. unfold cnt in H1. assert (K : In x (filter p l)) by (apply filter_In; auto).
  destruct (filter p l) as [|y [|z q]]; [destruct K|destruct K as [->|[]]; auto|simpl in H1; lia].
Qed.
Lemma matches_succ (x f : edge) : matches x f -> is_succ f = succ_edge x.
Proof. intros (_ & _ & H). unfold is_succ, succ_edge. rewrite H. auto. Qed.
Lemma leaving_match v : In v on -> Forall2 matches (filter (fun x => Nat.eqb (e_src x) v && succ_edge x) dn) (leaving rg (el v)).
Proof.
  intros Hv. unfold leaving. eapply Forall2_filter; [apply rg_edges|]. intros x f _ _ H. rewrite (matches_succ x f H). destruct H as (H & _).
  rewrite (is_src _ _ v H Hv). auto.
Qed.
Lemma entering_match v : In v on -> Forall2 matches (filter (fun x => Nat.eqb (e_tgt x) v && succ_edge x) dn) (entering rg (el v)).
Proof.
  intros Hv. unfold entering. eapply Forall2_filter; [apply rg_edges|]. intros x f _ _ H. rewrite (matches_succ x f H). destruct H as (_ & H & _).
  rewrite (is_src _ _ v H Hv). auto.
Qed.
Lemma disc_nodup : NoDup disc.
Proof. destruct Hr as [_ _ _ ((_ & H & _) & _) _ _ _ _ _]. auto. Qed.
Lemma same_continues u t : same es on dn u t -> continues rg (el u) (el t).
Proof.
  intros (x & Hx & <- & <- & Hd). apply same_lane_counts in Hd as (Hs & Hin & Hout). pose proof Hx as Hx'. apply dn_in_es in Hx' as (He & Hso & Hto).
  assert (Hso' : In (e_src x) on) by (eapply ro_incl; eauto).
  pose proof (leaving_match _ Hso') as L. pose proof (entering_match _ Hto) as E.
  rewrite (cnt_one _ dn x) in L; [|rewrite dn_count, <- Hout; unfold route_out, outs; rewrite !cnt_filter; apply cnt_le|auto|rewrite Nat.eqb_refl; auto].
  2: { intros y. rewrite !andb_true_iff. tauto. }
  rewrite (cnt_one _ dn x) in E; [|rewrite dn_count, <- Hin; unfold route_in, ins; rewrite !cnt_filter; apply cnt_le|auto|rewrite Nat.eqb_refl; auto].
  2: { intros y. rewrite !andb_true_iff, !mem_in. intros ((K1 & K2) & K3 & K4). split; [auto|]. split; [|auto]. eapply ro_incl; eauto. }
  inversion L as [|? f ? l1 (M1 & M2 & M3) L' Eq1 Eq2]. inversion L'; subst. inversion E as [|? f' ? l2 (M1' & M2' & M3') E' Eq3 Eq4]. inversion E'; subst.
  assert (f = f') as <-.
  { pose proof disc_nodup as Hnd. pose proof (nodup_index _ _ _ _ Hnd M1 M1'). pose proof (nodup_index _ _ _ _ Hnd M2 M2').
    destruct f, f'. simpl in *. congruence. }
  exists f. rewrite <- Eq2, <- Eq4. auto.
Qed.
Lemma continues_same a c : incl on order -> continues rg a c -> exists u t, a = el u /\ c = el t /\ In u order /\ In t order /\ same es on dn u t.
Proof.
  intros Hall (f & L & E). assert (Hf : In f (leaving rg a)) by (rewrite L; simpl; auto). assert (Hf' : In f (entering rg c)) by (rewrite E; simpl; auto).
  unfold leaving in Hf. unfold entering in Hf'. apply filter_In in Hf as [Hf Hs]. apply filter_In in Hf' as [_ Ht].
  apply andb_true_iff in Hs as [Hs Hsu]. apply andb_true_iff in Ht as [Ht _].
  destruct (Forall2_in _ _ _ rg_edges f Hf) as (x & Hx & M1 & M2 & M3). pose proof Hx as Hx'. apply dn_in_es in Hx' as (He & Hso & Hto).
  assert (Hso' : In (e_src x) on) by (eapply ro_incl; eauto).
  assert (Ea : a = el (e_src x)).
  { unfold is_elem in Hs. rewrite (proj1 (proj1 (rg_vertex _ _) M1)) in Hs. apply elem_eqb_eq in Hs. auto. }
  assert (Ec : c = el (e_tgt x)).
  { unfold is_elem in Ht. rewrite (proj1 (proj1 (rg_vertex _ _) M2)) in Ht. apply elem_eqb_eq in Ht. auto. }
  exists (e_src x), (e_tgt x). split; [auto|]. split; [auto|]. split; [auto|]. split; [auto|]. exists x. split; [auto|]. split; [auto|]. split; [auto|].
  apply same_lane_counts. subst a c. pose proof (leaving_match _ Hso') as K1. pose proof (entering_match _ Hto) as K2. rewrite L in K1. rewrite E in K2.
  apply Forall2_length in K1, K2. simpl in K1, K2. fold (cnt (fun y => Nat.eqb (e_src y) (e_src x) && succ_edge y) dn) in K1.
  fold (cnt (fun y => Nat.eqb (e_tgt y) (e_tgt x) && succ_edge y) dn) in K2. rewrite dn_count in K1, K2. split; [|split].
  - erewrite <- matches_succ; [exact Hsu|]. auto.
  - rewrite <- K2. unfold route_in, ins. rewrite !cnt_filter. apply cnt_ext. intros y _.
    destruct (Nat.eqb_spec (e_tgt y) (e_tgt x)) as [Et|]; simpl; [|rewrite !andb_false_r; auto]. rewrite Et, (proj2 (mem_in (e_tgt x) on)) by auto.
    rewrite andb_true_r. f_equal. apply eq_true_iff_eq. rewrite !mem_in. split; auto. eapply ro_incl; eauto.
  - rewrite <- K1. unfold route_out, outs. rewrite !cnt_filter. apply cnt_ext. intros y _.
    destruct (Nat.eqb_spec (e_src y) (e_src x)) as [Es|]; simpl; [|rewrite !andb_false_r; auto]. rewrite Es, (proj2 (mem_in (e_src x) order)) by auto. auto.
Qed.
Lemma lane_at_some v : In v order -> exists l, lane_of r (el v) = Some l.
Proof.
  intros Hv. pose proof Hr as [_ _ _ (_ & (Hl & _) & _) _ _ _ Hd Hi]. pose proof (proj2 (Hd v) Hv) as Hv'. apply In_nth_error in Hv' as (i & H).
  unfold lane_of. rewrite (proj2 (rg_get v i (Hi v Hv)) H). destruct (nth_error (r_lanes r) i) eqn:E; eauto. apply nth_error_None in E. apply nth_lt in H. lia.
Qed.
Lemma disc_order : length disc = length order.
Proof.
  pose proof Hr as [_ _ _ _ Hno _ _ Hd _]. apply Nat.le_antisymm; apply NoDup_incl_length; auto using disc_nodup; intros x; apply Hd.
Qed.
Lemma lanes_equal u v : length order <= N.to_nat 65536 -> In u order -> In v order ->
  (lane_of r (el u) = lane_of r (el v) <-> clos_refl_sym_trans nat (same es on dn) u v).
Proof.
  intros Hlen Hu Hv. pose proof Hr as [_ _ _ (_ & (Hl & _ & H) & _) _ _ _ Hd Hi]. rewrite <- disc_order in Hlen. specialize (H Hlen).
  destruct (lane_at_some u Hu) as (l & El). destruct (lane_at_some v Hv) as (l' & El'). rewrite El, El'.
  pose proof (proj2 (Hd u) Hu) as Hu'. pose proof (proj2 (Hd v) Hv) as Hv'. apply In_nth_error in Hu' as (i & Hui). apply In_nth_error in Hv' as (j & Hvj).
  unfold lane_of in El, El'. rewrite (proj2 (rg_get u i (Hi u Hu)) Hui) in El. rewrite (proj2 (rg_get v j (Hi v Hv)) Hvj) in El'.
  rewrite <- (H i j u v l l') by auto. split; congruence.
Qed.
Lemma lanes_sound a c : length (g_verts rg) <= N.to_nat 65536 -> contains r a = true -> contains r c = true -> lane_of r a = lane_of r c ->
  clos_refl_sym_trans elem (continues rg) a c.
Proof.
  intros Hlen Ha Hc E. apply contained in Ha as (u & Hu & ->). apply contained in Hc as (v & Hv & ->).
  destruct route_verts as (_ & _ & Hl). rewrite Hl in Hlen. apply lanes_equal in E; auto. clear Hu Hv.
  induction E as [u v H|u|u v H IH|u v w H1 IH1 H2 IH2]; [apply rst_step, same_continues; auto|apply rst_refl|apply rst_sym; auto|eapply rst_trans; eauto].
Qed.
Lemma lanes_complete a c : length (g_verts rg) <= N.to_nat 65536 -> incl on order -> contains r a = true ->
  clos_refl_sym_trans elem (continues rg) a c -> contains r c = true /\ lane_of r a = lane_of r c.
Proof.
  intros Hlen Hall Ha H. destruct route_verts as (_ & _ & Hl). rewrite Hl in Hlen.
  assert (K : (contains r a = true <-> contains r c = true) /\ (contains r a = true -> lane_of r a = lane_of r c)).
  { clear Ha. induction H as [a c H|a|a c H [IH1 IH2]|a d c H1 [IH1 IH1'] H2 [IH2 IH2']].
    - destruct (continues_same a c Hall H) as (u & t & -> & -> & Hu & Ht & Hs). split; [|intros _; apply lanes_equal; auto; apply rst_step; auto].
      split; intros _; apply contained; eauto.
    - tauto.
    - split; [tauto|]. intros Hc. symmetry. apply IH2. tauto.
    - split; [tauto|]. intros Hc. rewrite IH1' by auto. apply IH2'. tauto. }
  split; apply K; auto.
Qed.
Lemma lane_reps : exists reps, NoDup reps /\ length reps = num_lanes r /\ (forall x, In x reps -> contains r x = true) /\
  (forall x y, In x reps -> In y reps -> lane_of r x = lane_of r y -> x = y) /\
  (forall a, contains r a = true -> exists x, In x reps /\ lane_of r a = lane_of r x).
Proof.
  assert (H : forall ls, incl ls (r_lanes r) -> exists reps, Forall2 (fun l a => contains r a = true /\ lane_of r a = Some l) ls reps).
  { induction ls as [|l ls IH]; intros Hi; [exists []; constructor|]. destruct IH as (reps & K); [intros x Hx; apply Hi; right; auto|].
    assert (Hl : In l (r_lanes r)) by (apply Hi; left; auto). apply In_nth_error in Hl as (i & Hl).
    pose proof Hr as [_ _ _ (_ & (Hlen & _) & _) _ _ _ Hd Hio]. destruct (nth_error disc i) as [v|] eqn:Ei.
    2: { apply nth_error_None in Ei. apply nth_lt in Hl. lia. }
    assert (Hv : In v order) by (apply Hd; eapply nth_error_In; eauto).
    exists (el v :: reps). constructor; auto. split; [apply contained; eauto|]. unfold lane_of. rewrite (proj2 (rg_get v i (Hio v Hv)) Ei). auto. }
  destruct (H (nodup N.eq_dec (r_lanes r))) as (reps & K); [intros x Hx; apply nodup_In in Hx; auto|].
  assert (Hinj : forall x y, In x reps -> In y reps -> lane_of r x = lane_of r y -> x = y).
  { pose proof (NoDup_nodup N.eq_dec (r_lanes r)) as Hnd. clear H. induction K as [|l a ls reps [K1 K2] K IH]; [intros x y []|].
    apply NoDup_cons_iff in Hnd as [Hn Hnd].
    assert (Hne : forall y, In y reps -> lane_of r a <> lane_of r y).
    { intros y Hy E. destruct (Forall2_in _ _ _ K y Hy) as (l' & Hl' & _ & E'). rewrite E', K2 in E. injection E as <-. auto. }
    intros x y [<-|Hx] [<-|Hy] E; auto; exfalso; [eapply Hne; eauto|eapply Hne; eauto]. }
  exists reps. split; [|split; [|split; [|split; [auto|]]]].
  - pose proof (NoDup_nodup N.eq_dec (r_lanes r)) as Hnd. clear H Hinj. induction K as [|l a ls reps [K1 K2] K IH]; [constructor|].
    apply NoDup_cons_iff in Hnd as [Hn Hnd]. constructor; auto. intros Ha. destruct (Forall2_in _ _ _ K a Ha) as (l' & Hl' & _ & E'). congruence.
  - unfold num_lanes. symmetry. eapply Forall2_length; eauto.
  - intros x Hx. destruct (Forall2_in _ _ _ K x Hx) as (l' & _ & E' & _). auto.
  - intros a Ha. apply contained in Ha as (v & Hv & ->). destruct (lane_at_some v Hv) as (l & El).
    assert (Hl : In l (nodup N.eq_dec (r_lanes r))).
    { apply nodup_In. unfold lane_of in El. destruct (get_vertex rg (el v)); [|discriminate]. eapply nth_error_In; eauto. }
    destruct (Forall2_in_l _ _ _ K l Hl) as (x & Hx & _ & Ex). exists x. split; auto. congruence.
Qed.
End Of.
End Object.
