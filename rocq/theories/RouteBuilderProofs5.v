(** The outcomes of the rounds; which lanelets join the route. *)
From Coq Require Import NArith List Bool Arith Lia Relations.
From Verif Require Import CostAlg GraphModel RouteSpec RouteBuilderModel RouteBuilderProofs RouteBuilderProofs2 RouteBuilderProofs3
  RouteBuilderProofs4.
Import ListNotations.
Local Open Scope nat_scope.

Section Rounds.
Context {A : CostAlg}.
Variable es : list (edge A).
Variable n : nat.
Hypothesis Hes : forall e, In e es -> e_src e < n /\ e_tgt e < n.
Hypothesis Hring : no_rings es.
Notation edge := (edge A).
Notation along := (along es).
Notation drive := (along (rel m_drivable)).
Notation change := (along change_edge).

Lemma last_rev {T} (l : list T) b r d : rev l = b :: r -> List.last l d = b.
Proof. intros H. rewrite <- (rev_involutive l), H. simpl. apply last_last. Qed.
Lemma last_in {T} (x : T) l d : In (List.last (x :: l) d) (x :: l).
Proof.
  revert x. induction l as [|y l IH]; intros x; [left; auto|]. right. apply IH.
Qed.

Section On.
Variable on : list nat.
Notation outside := (outside es on).
Notation parallel := (parallel es on).
Notation all_beside := (all_beside es on).

Lemma always_spec p : p <> [] -> (forall v, In v p -> v < n) ->
  exists b, always_conflicts es n on p = Done b /\ (b = true -> parallel p).
Proof.
  intros Hp Hn. unfold always_conflicts. destruct p as [|f q]; [congruence|].
  destruct (rev (f :: q)) as [|b r] eqn:Er.
  { apply (f_equal (@length nat)) in Er. rewrite rev_length in Er. discriminate. }
  destruct (find _ (filter _ (ins es f))) as [e1|] eqn:E1; [|eexists; split; [reflexivity|discriminate]].
  destruct (find _ (filter _ (outs es b))) as [e2|] eqn:E2; [|eexists; split; [reflexivity|discriminate]].
  apply find_some in E1 as [H1 K1]. apply find_some in E2 as [H2 K2]. apply filter_In in H1 as [H1 D1]. apply filter_In in H2 as [H2 D2].
  apply ins_in in H1 as [H1 F1]. apply outs_in in H2 as [H2 F2]. rewrite mem_in in K1, K2.
  destruct (has_path_spec (path_next es n on (f :: q) (e_src e1) (e_tgt e2)) (nexts es n on (f :: q) (e_src e1) (e_tgt e2)) n (e_src e1) (e_tgt e2))
    as (x & E & Hx).
  - intros u Hu. apply path_next_total; auto.
  - intros u t Hu Ht.
    destruct (path_next_step es n Hes on _ _ _ _ _ (path_next_total es n Hes on (f :: q) (e_src e1) (e_tgt e2) u Hring Hu) _ Ht)
      as [(e & He & _ & <- & _) _]. apply Hes; auto.
  - apply Hes; auto.
  - exists x. split; [exact E|]. intros Hxt. apply Hx in Hxt. exists (e_src e1), (e_tgt e2). split; [auto|]. split; [auto|].
    split; [exists e1; auto|]. split.
    + exists e2. rewrite (last_rev _ _ _ 0 Er). auto.
    + assert (Hs : e_src e1 < n) by (apply Hes; auto). revert Hxt Hs. generalize (e_tgt e2) at 2 4. generalize (e_src e1) at 2 3 5.
      intros a c Hac. apply clos_rt_rt1n in Hac. induction Hac as [|x0 y z Hxy _ IH]; intros Hs; [apply rt_refl|].
      pose proof (path_next_step es n Hes on _ _ _ _ _ (path_next_total es n Hes on (f :: q) (e_src e1) (e_tgt e2) x0 Hring Hs) _ Hxy) as Hst.
      eapply rt_trans; [apply rt_step; exact Hst|]. apply IH. destruct Hst as [(e & He & _ & <- & _) _]. apply Hes; auto.
Qed.
(** A section that leaves the route: it begins at the route, all its lanelets are outside. *)
Definition leaving_section (p : list nat) : Prop :=
  p <> [] /\ linked drive p /\ (forall v, In v p -> outside v) /\ exists u, In u on /\ drive u (hd 0 p).
Definition permitted_section (p : list nat) : Prop := leaving_section p /\ (all_beside p \/ parallel p).

Lemma permit_spec fresh permitted p : p <> [] -> (forall v, In v p -> v < n) ->
  permit es n on fresh permitted p = Undefined \/
  exists l, permit es n on fresh permitted p = Done l /\
    (forall v, In v l -> In v permitted \/ In v p /\ (all_beside p \/ parallel p)).
Proof.
  intros Hp Hn. unfold permit. destruct (never_conflicts es on p) eqn:En; cbn [rbind].
  - destruct (forallb _ p); auto. right. eexists. split; [reflexivity|]. intros v Hv. apply in_app_or in Hv as [Hv|Hv]; auto.
    right. split; auto. left. apply never_spec; auto.
  - destruct (always_spec p Hp Hn) as (b & -> & Hb). cbn [rbind]. destruct b.
    + destruct (forallb _ p); auto. right. eexists. split; [reflexivity|]. intros v Hv. apply in_app_or in Hv as [Hv|Hv]; auto.
    + right. eexists. split; [reflexivity|]. auto.
Qed.
Lemma permit_paths_spec fresh ps : forall permitted, (forall p, In p ps -> p <> [] /\ forall v, In v p -> v < n) ->
  permit_paths es n on fresh permitted ps = Undefined \/
  exists l, permit_paths es n on fresh permitted ps = Done l /\
    (forall v, In v l -> In v permitted \/ exists p, In p ps /\ In v p /\ (all_beside p \/ parallel p)).
Proof.
  induction ps as [|p ps IH]; intros permitted H; simpl.
  - right. eexists. split; [reflexivity|]. auto.
  - destruct (H p (or_introl eq_refl)) as [H1 H2].
    destruct (permit_spec fresh permitted p H1 H2) as [->|(l & -> & Hl)]; cbn [rbind]; auto.
    destruct (IH l (fun p Hp => H p (or_intror Hp))) as [->|(l' & -> & Hl')]; auto.
    right. eexists. split; [reflexivity|]. intros v Hv. destruct (Hl' v Hv) as [Hv'|(p' & K1 & K2 & K3)].
    + destruct (Hl v Hv') as [?|[? ?]]; auto. right. exists p. auto.
    + right. exists p'. auto.
Qed.
Lemma section_drive u t : In t (section_next es on u) -> drive u t /\ outside t.
Proof.
  unfold section_next. intros H. apply in_map_iff in H as (e & <- & He). apply filter_In in He as [He K].
  apply outs_in in He as [He Es]. apply andb_true_iff in K as [K1 K2]. split; [exists e; auto|]. apply conflicts_spec; auto.
Qed.
Lemma section_paths v : v < n -> outside v -> exists b ps seen,
  dfs (fun u => Done (section_next es on u)) (fun _ => false) (S n) [] v [] = Done (b, ps, seen) /\
  forall p, In p ps -> p <> [] /\ hd 0 p = v /\ linked (fun u t => In t (section_next es on u)) p /\ (forall x, In x p -> x < n /\ outside x).
Proof.
  intros Hv Ho.
  destruct (dfs_spec (fun u => Done (section_next es on u)) (section_next es on) (fun _ => false) n) with
    (fuel := S n) (path := @nil nat) (v := v) (seen := @nil nat) as (b & ps & seen & E & Hok); auto.
  - intros u t Hu Ht. apply section_drive in Ht as [(e & He & _ & <- & _) _]. apply Hes; auto.
  - repeat constructor; auto.
  - intros x [].
  - intros x [].
  - intros x [].
  - simpl; lia.
  - exists b, ps, seen. split; auto. intros p Hp. destruct (d_paths _ _ _ _ _ _ _ _ _ Hok p Hp) as (q & -> & Hl & Hn).
    cbn [app]. split; [discriminate|]. split; [auto|]. split; [auto|]. intros x Hx. split; auto.
    clear - Hx Ho Hl. destruct Hx as [<-|Hx]; auto. revert v Hl Ho. induction q as [|y q IH]; intros v Hl Ho; [destruct Hx|].
    destruct Hl as [H1 H2]. apply section_drive in H1 as [_ H1]. destruct Hx as [<-|Hx]; auto. eapply IH; eauto.
Qed.
Lemma linked_mono {T} (R S : T -> T -> Prop) l : (forall x y, R x y -> S x y) -> linked R l -> linked S l.
Proof. intros H. induction l as [|a l IH]; auto. destruct l as [|b l]; auto. intros [H1 H2]. split; [apply H; auto|apply IH; auto]. Qed.
Lemma permit_all_spec fresh l : forall permitted, (forall v, In v l -> v < n /\ outside v) ->
  permit_all es n on fresh permitted l = Undefined \/
  exists r, permit_all es n on fresh permitted l = Done r /\
    (forall v, In v r -> In v permitted \/ exists p, permitted_section p /\ In v p).
Proof.
  induction l as [|v l IH]; intros permitted H; cbn [permit_all].
  - right. eexists. split; [reflexivity|]. auto.
  - destruct (connects_to_route es on v) eqn:Ec.
    + destruct (section_paths v) as (b & ps & seen & -> & Hps); [apply H; left; auto|apply H; left; auto|]. cbn [rbind fst snd].
      destruct (permit_paths_spec fresh ps permitted) as [->|(r & -> & Hr)]; cbn [rbind]; auto.
      { intros p Hp. destruct (Hps p Hp) as (K1 & _ & _ & K2). split; auto. intros x Hx. apply K2; auto. }
      destruct (IH r (fun x Hx => H x (or_intror Hx))) as [->|(r' & -> & Hr')]; auto.
      right. eexists. split; [reflexivity|]. intros x Hx. destruct (Hr' x Hx) as [Hx'|?]; auto.
      destruct (Hr x Hx') as [?|(p & K1 & K2 & K3)]; auto. right. exists p. split; auto. split; auto.
      destruct (Hps p K1) as (L1 & L2 & L3 & L4). split; auto. split.
      { eapply linked_mono; [|exact L3]. intros a c Hac. apply section_drive in Hac. tauto. }
      split; [intros y Hy; apply L4; auto|]. rewrite L2. unfold connects_to_route in Ec.
      apply existsb_exists in Ec as (e & He & K). apply filter_In in He as [He _]. apply ins_in in He as [He Et].
      rewrite andb_true_iff, mem_in in K. exists (e_src e). split; [tauto|]. exists e. tauto.
    + cbn [rbind]. apply IH. intros x Hx. apply H. right; auto.
Qed.
Lemma out_spec m : (forall v, In v (valid m) -> v < n) ->
  out_of_route es n on m = Undefined \/
  exists gone, out_of_route es n on m = Done gone /\
    forall v, In v (valid m) -> ~ In v gone -> ~ outside v \/ exists p, permitted_section p /\ In v p.
Proof.
  intros Hv. unfold out_of_route. set (fresh := filter _ (valid m)).
  assert (Hf : forall v, In v fresh <-> In v (valid m) /\ outside v).
  { intros v. unfold fresh. rewrite filter_In. rewrite conflicts_spec. tauto. }
  destruct (permit_all_spec fresh fresh []) as [->|(r & -> & Hr)]; auto.
  - intros v K. apply Hf in K as [K1 K2]. auto.
  - right. cbn [rbind]. eexists. split; [reflexivity|]. intros v K1 K2.
    destruct (in_dec Nat.eq_dec v fresh) as [Hin|Hin].
    + right. destruct (mem v r) eqn:Em.
      * apply mem_in in Em. destruct (Hr v Em) as [[]|?]; auto.
      * destruct K2. apply filter_In. rewrite Em. auto.
    + left. intros Ho. apply Hin, Hf. auto.
Qed.
End On.

(** * Which lanelets join the route *)
Section Joins.
Variable last : list nat.
Variables begin end_ : nat.
Hypothesis Hbn : begin < n.
(** Next to the route: the lanelet belongs to it or has a relation to a lanelet of it. *)
Definition near (on : list nat) (v : nat) : Prop := In v on \/ exists u, In u on /\ along (fun _ => true) v u.
(** Driven near the route: one relation that does not leave the route behind its end. *)
Definition near_drive (on : list nat) (u t : nat) : Prop := near on t /\ (change u t \/ along succ_edge u t /\ ~ In u last).
(** A lanelet may join the route: it is reached near the route, it is followed by a lanelet that is reached as well,
    or a lane change leads to the route; and it does not leave the route, or only for a permitted section. *)
Record joins (on : list nat) (v : nat) : Prop := {
  j_new : ~ In v on;
  j_reached : clos_refl_trans nat (near_drive on) begin v;
  j_goes_on : exists t, near_drive on v t /\ (along succ_edge v t \/ In t on);
  j_stays : ~ outside es on v \/ exists p, permitted_section on p /\ In v p }.
Inductive grown (path : list nat) : list nat -> Prop :=
| grown_path : grown path path
| grown_more on new : grown path on -> (forall v, In v new -> joins on v) -> grown path (new ++ on).

Lemma next_near on v : next_to_route es on v = true <-> near on v.
Proof.
  unfold next_to_route, near. rewrite orb_true_iff, mem_in, existsb_exists. split.
  - intros [H|(e & He & H)]; auto. apply outs_in in He as [He Es]. rewrite orb_true_iff, !mem_in in H. destruct H as [H|H].
    + right. exists (e_tgt e). split; auto. exists e. auto.
    + left. congruence.
  - intros [H|(u & Hu & (e & H1 & H2 & H3 & _))]; auto. right. exists e. rewrite outs_in. split; auto. rewrite orb_true_iff, !mem_in, H3. auto.
Qed.
Lemma near_out_drive on u e : In e (near_out es on last u) ->
  near_drive on u (e_tgt e) /\ (succ_edge e = true -> along succ_edge u (e_tgt e)).
Proof.
  unfold near_out, within. intros H. apply filter_In in H as [H K]. apply outs_in in H as [H Es]. rewrite !andb_true_iff in K.
  destruct K as [[K1 K2] K3]. apply next_near in K3. split; [|intros; exists e; auto]. split; auto.
  apply drivable_kind in K1 as [K1|K1]; [right|left; exists e; auto]. split; [exists e; auto|].
  apply orb_true_iff in K2 as [K2|K2].
  - exfalso. unfold succ_edge in K1. unfold rel in K2. apply relation_eqb_eq in K1. rewrite K1 in K2. discriminate K2.
  - apply negb_true_iff, mem_out in K2. congruence.
Qed.
Lemma folls_mono on v ks ks' : incl ks ks' -> folls es on last ks v <= folls es on last ks' v.
Proof.
  intros H. apply cnt_le. intros e. rewrite !andb_true_iff, !mem_in. intros [? ?]; auto.
Qed.
Lemma lost_mono on v ks ks' : incl ks ks' -> lost es on last ks' v <= lost es on last ks v.
Proof.
  intros H. apply cnt_le. intros e. rewrite !andb_true_iff, !negb_true_iff, !mem_out. intros [? ?]; auto.
Qed.
Lemma add_joins on : In begin on -> (forall v, In v on -> v < n) ->
  add_adjacent es n on last begin end_ = Undefined \/
  exists new, add_adjacent es n on last begin end_ = Done new /\ forall v, In v new -> joins on v.
Proof.
  intros Hb Hon. destruct (add_spec es n Hes on last begin end_ Hbn Hb) as (m1 & Hc & Hk & Hs & E & Hd).
  destruct (out_spec on m1) as [Eu|(gone & Eg & Hg)].
  { intros v Hv. apply Hk, valid_keys; auto. }
  - left. rewrite E, Eu. auto.
  - right. destruct (Hd gone Eg) as (m2 & Hc2 & Hk2 & ->). eexists. split; [reflexivity|].
    intros v Hv. apply filter_In in Hv as [Hv Hn]. apply negb_true_iff, mem_out in Hn.
    apply (valid_in es on last) in Hv as [Hv Hl]; auto. pose proof (proj1 (Hk2 v) Hv) as [Hv1 Hng].
    constructor; auto.
    + destruct (Hk v Hv1) as [Hr _]. eapply rt_mono; [|exact Hr]. intros x y Hxy. apply in_map_iff in Hxy as (e & <- & He).
      apply near_out_drive in He. tauto.
    + apply (nonleaf_support es n on last begin Hbn) in Hl as (e & He & Ht & Hse). destruct (near_out_drive on v e He) as [H1 H2].
      exists (e_tgt e). split; auto. destruct Hse as [Hse|[_ Hse]]; auto.
    + assert (Hval : In v (valid m1)).
      { apply (valid_in es on last); auto. split; auto. assert (Hi : incl (keys m2) (keys m1)) by (intros x Hx; apply Hk2; auto).
        pose proof (folls_mono on v _ _ Hi). pose proof (lost_mono on v _ _ Hi). lia. }
      destruct (Hg v Hval Hng) as [?|?]; auto.
Qed.
Lemma grow_outcome path : In begin path -> (forall v, In v path -> v < n) ->
  grow es n (S n) last begin end_ path = Undefined \/
  exists on, grow es n (S n) last begin end_ path = Done on /\ grown path on.
Proof.
  intros Hb Hp.
  apply (grow_ends es n Hes last begin end_ Hbn (fun o => o = Undefined \/ exists on, o = Done on /\ grown path on)
           (fun on => grown path on /\ forall v, In v on -> v < n)); auto.
  - intros on new Hbo [Hg Hn] E. destruct (new_spec es n Hes last begin end_ Hbn on new Hbo E) as [_ Hnew]. split.
    + constructor; auto. destruct (add_joins on Hbo Hn) as [E'|(new' & E' & H)]; rewrite E in E'; [discriminate|]. injection E' as ->. auto.
    + intros v Hv. apply in_app_or in Hv as [Hv|Hv]; auto. apply Hnew; auto.
  - intros on [Hg _]. right. eauto.
  - intros on o Hbo [Hg Hn] _ E. destruct (add_joins on Hbo Hn) as [E'|(new' & E' & H)]; rewrite <- E, E'; auto.
  - split; auto. constructor.
  - lia.
Qed.
End Joins.
End Rounds.
