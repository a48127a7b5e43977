(** The route where no lanelet has lane changes to more than one lanelet: the counters are exact. *)
From Coq Require Import NArith List Bool Arith Lia Relations.
From Verif Require Import CostAlg GraphModel RouteSpec RouteBuilderModel RouteBuilderProofs RouteBuilderProofs2 RouteBuilderProofs3
  RouteBuilderProofs4 RouteBuilderProofs5.
Import ListNotations.
Local Open Scope nat_scope.

Section Exact.
Context {A : CostAlg}.
Variable es : list (edge A).
Variable n : nat.
Hypothesis Hes : forall e, In e es -> e_src e < n /\ e_tgt e < n.
Hypothesis Hone : forall v, cnt change_edge (outs es v) <= 1.
Notation edge := (edge A).
Notation along := (along es).
Notation drive := (along (rel m_drivable)).
Notation change := (along change_edge).
Variable last : list nat.
Variables begin end_ : nat.
Hypothesis Hbn : begin < n.

Section On.
Variable on : list nat.
Hypothesis Hbon : In begin on.
Notation near_out := (near_out es on last).
Notation counted := (counted es on last).
Notation supports := (supports on).
Notation near_step := (fun u t => In t (map e_tgt (near_out u))).

Lemma support_counts m v e : counted m -> In v (keys m) -> In e (near_out v) -> supports (keys m) e ->
  0 < folls es on last (keys m) v \/ lost es on last (keys m) v < chs es on last v.
Proof.
  intros Hc Hv He [Ht [Hs|[Hs Hto]]].
  - left. apply cnt_pos. exists e. split; auto. apply mem_in in Ht. rewrite Hs, Ht. auto.
  - right. assert (Hch : 0 < chs es on last v).
    { apply cnt_pos. exists e. split; auto. apply mem_in in Hto. rewrite Hs, Hto. auto. }
    assert (Hk : 0 < cnt (fun e => change_edge e && mem (e_tgt e) (keys m)) (near_out v)).
    { apply cnt_pos. exists e. split; auto. apply mem_in in Ht. rewrite Hs, Ht. auto. }
    assert (Hle : cnt change_edge (near_out v) <= 1).
    { eapply Nat.le_trans; [|apply (Hone v)]. unfold RouteBuilderModel.near_out. rewrite cnt_filter. apply cnt_le.
      intros x Hx. apply andb_true_iff in Hx. tauto. }
    rewrite (cnt_split change_edge (fun e => mem (e_tgt e) (keys m))) in Hle. fold (lost es on last (keys m) v) in Hle. lia.
Qed.
(** A set of lanelets that support each other is not pruned. *)
Lemma survive m m1 (X : nat -> Prop) : pruned es on last end_ m m1 -> counted m ->
  (forall x, X x -> In x (keys m) /\ (x = end_ \/ exists e, In e (near_out x) /\ X (e_tgt e) /\ (succ_edge e = true \/ change_edge e = true /\ In (e_tgt e) on))) ->
  forall x, X x -> In x (keys m1).
Proof.
  intros Hp. induction Hp as [|m u c m' Hu Hk Hl Hp IH]; intros Hc HX x Hx; [apply HX; auto|].
  apply IH; auto; [apply remove_counted; auto; apply keys_in; eauto|].
  intros y Hy. destruct (HX y Hy) as [H1 H2]. split; auto. apply remove_keys_in. split; auto. intros ->.
  destruct H2 as [H2|(e & H2 & H3 & H4)]; [auto|].
  destruct (support_counts m u e Hc H1 H2) as [K|K].
  - split; auto. apply HX; auto.
  - rewrite (ct_counts _ _ _ _ Hc u c Hu) in Hl. unfold is_leaf in Hl. simpl in Hl. apply Nat.eqb_eq in Hl. lia.
  - rewrite (ct_counts _ _ _ _ Hc u c Hu) in Hl. unfold is_leaf in Hl. simpl in Hl. apply Nat.eqb_eq in Hl. lia.
Qed.
(** The lanelets of the route are reached and go on, all near the route. *)
Definition alive : Prop := exists X : nat -> Prop, (forall x, In x on -> X x) /\
  forall x, X x -> clos_refl_trans nat near_step begin x /\
    (x = end_ \/ exists e, In e (near_out x) /\ X (e_tgt e) /\ (succ_edge e = true \/ change_edge e = true /\ In (e_tgt e) on)).
Lemma alive_round : alive -> exists m1, counted m1 /\
  (forall v, In v (keys m1) -> clos_refl_trans nat near_step begin v /\ v < n) /\
  (forall v, In v (keys m1) -> v = end_ \/ exists e, In e (near_out v) /\ supports (keys m1) e) /\
  (forall v, In v (keys m1) -> v = end_ \/ In v (valid m1)) /\
  add_adjacent es n on last begin end_ = rbind (out_of_route es n on m1) (fun gone =>
     Done (filter (fun v => negb (mem v on)) (valid (fold_left (fun m v => remove es on last v m) gone m1)))) /\
  (forall Y : nat -> Prop, (forall x, Y x -> clos_refl_trans nat near_step begin x /\
     exists e, In e (near_out x) /\ (Y (e_tgt e) \/ In (e_tgt e) on) /\ (succ_edge e = true \/ change_edge e = true /\ In (e_tgt e) on)) ->
     forall x, Y x \/ In x on -> In x (keys m1)).
Proof.
  intros (X & HX1 & HX2).
  destruct (round_spec es n Hes on last begin end_ Hbn Hbon) as (m0 & m1 & E0 & E1 & Hc0 & Hk0 & Hn0 & Hp & Hc1 & Hi & Hl).
  exists m1. split; auto. split; [intros v Hv; split; [apply Hk0|apply Hn0]; auto|].
  split; [intros; eapply kept_support; eauto|]. split.
  { intros v Hv. apply keys_in in Hv as (c & Hv). destruct (Hl v c Hv) as [?|Hf]; auto. right. unfold valid. apply in_map_iff.
    exists (v, c). split; auto. apply filter_In. simpl. rewrite Hf. auto. }
  split; [unfold add_adjacent; rewrite E0, E1; auto|].
  intros Y HY x Hx. apply (survive m0 m1 (fun x => Y x \/ X x)); auto; [|destruct Hx; auto].
  intros y [Hy|Hy].
  - destruct (HY y Hy) as (K1 & e & K2 & K3 & K4). split; [apply Hk0; auto|]. right. exists e. split; auto. split; auto. destruct K3; auto.
  - destruct (HX2 y Hy) as (K1 & K2). split; [apply Hk0; auto|]. destruct K2 as [?|(e & K2 & K3 & K4)]; auto. right. exists e. auto.
Qed.
End On.

Lemma alive_grows on new : In begin on -> alive on -> add_adjacent es n on last begin end_ = Done new -> alive (new ++ on).
Proof.
  intros Hb Ha E. destruct (alive_round on Hb Ha) as (m1 & Hc & Hk & Hs & Hv & Ea & Hsu). exists (fun x => In x (keys m1)).
  assert (Hon : forall x, In x on -> In x (keys m1)) by (intros x Hx; apply (Hsu (fun _ => False)); [tauto|auto]).
  assert (Hi : incl on (new ++ on)) by (intros x Hx; apply in_or_app; auto).
  split.
  - intros x Hx. apply in_app_or in Hx as [Hx|Hx]; auto.
    rewrite Ea in E. destruct (out_of_route es n on m1) as [gone| | |] eqn:Eg; try discriminate. cbn [rbind] in E. injection E as <-.
    apply filter_In in Hx as [Hx _]. apply valid_keys in Hx.
    destruct (removes_counted es on last gone m1 Hc (out_nodup es n on last m1 gone Hc Eg)) as [_ Hk2].
    { intros v Hvg. apply valid_keys. eapply (out_sub es n); eauto. }
    apply Hk2 in Hx. tauto.
  - intros x Hx. destruct (Hk x Hx) as [Hr _]. split.
    + eapply rt_mono; [|exact Hr]. intros a b Hab. apply in_map_iff in Hab as (e & <- & He). apply in_map. eapply near_mono; eauto.
    + destruct (Hs x Hx) as [?|(e & He & Ht & Hk2)]; auto. right. exists e. split; [eapply near_mono; eauto|]. split; auto.
      destruct Hk2 as [?|[? ?]]; auto.
Qed.
(** The path is alive. *)
Lemma on_next on v : In v on -> next_to_route es on v = true.
Proof. intros H. unfold next_to_route. apply mem_in in H. rewrite H. auto. Qed.
Lemma near_edge on u t : drive u t -> In t on -> ~ In u last -> exists e, In e (near_out es on last u) /\ e_tgt e = t /\ (succ_edge e = true \/ change_edge e = true).
Proof.
  intros (e & H1 & H2 & H3 & H4) Ht Hu. exists e. split; [|split; [auto|apply drivable_kind; auto]].
  unfold near_out. apply filter_In. split; [apply outs_in; auto|]. rewrite H3, on_next, andb_true_r by auto.
  unfold within. rewrite H4, H2. apply mem_out in Hu. rewrite Hu, orb_true_r. auto.
Qed.
Lemma linked_split {T} (R : T -> T -> Prop) pre x y post : linked R (pre ++ x :: y :: post) -> R x y.
Proof. induction pre as [|a pre IH]; intros H; [destruct H; auto|]. apply IH. destruct pre; destruct H; auto. Qed.
Lemma removelast_in {T} pre (x y : T) post : In x (removelast (pre ++ x :: y :: post)).
Proof.
  induction pre as [|a pre IH]; [left; auto|]. destruct pre; [right; left; auto|]. right. apply IH.
Qed.
Lemma alive_path path : hd_error path = Some begin -> hd_error (rev path) = Some end_ -> linked drive path ->
  (forall v, In v (removelast path) -> ~ In v last) -> alive path.
Proof.
  intros Hh Hl Hd Hr. exists (fun x => In x path). split; auto. intros x Hx. split.
  - apply in_split in Hx as (pre & post & Ep).
    assert (H : forall pre x post, path = pre ++ x :: post ->
      clos_refl_trans nat (fun u t => In t (map e_tgt (near_out es path last u))) begin x); [|eauto].
    clear x pre post Ep. induction pre as [|a pre IH] using rev_ind; intros x post Ep.
    + rewrite Ep in Hh. injection Hh as ->. apply rt_refl.
    + rewrite <- app_assoc in Ep. simpl in Ep. eapply rt_trans; [eapply IH; eauto|]. apply rt_step.
      assert (Hax : drive a x) by (eapply linked_split; rewrite <- Ep; eauto).
      destruct (near_edge path a x Hax) as (e & He & <- & _).
      * rewrite Ep. apply in_or_app; right; right; left; auto.
      * apply Hr. rewrite Ep. apply removelast_in.
      * apply in_map; auto.
  - apply in_split in Hx as (pre & post & Ep). destruct post as [|y post].
    + left. rewrite Ep, rev_app_distr in Hl. injection Hl as ->. auto.
    + right. assert (Hax : drive x y) by (eapply linked_split; rewrite <- Ep; eauto).
      assert (Hy : In y path) by (rewrite Ep; apply in_or_app; right; right; left; auto).
      destruct (near_edge path x y Hax) as (e & He & <- & Hk); auto.
      * apply Hr. rewrite Ep. apply removelast_in.
      * exists e. split; auto. split; auto. destruct Hk; auto.
Qed.

(** Lane changes to and fro. *)
Lemma mutual_joins on v u : In begin on -> alive on -> add_adjacent es n on last begin end_ = Done [] ->
  In v on -> change v u -> change u v -> In u on.
Proof.
  intros Hb Ha E Hv (e & E1 & E2 & E3 & E4) (o & O1 & O2 & O3 & O4).
  destruct (in_dec Nat.eq_dec u on) as [|Hn]; auto. exfalso.
  destruct (alive_round on Hb Ha) as (m1 & Hc & Hk & Hs & Hval & Ea & Hsu).
  assert (Hon : forall x, In x on -> In x (keys m1)) by (intros x Hx; apply (Hsu (fun _ => False)); [tauto|auto]).
  assert (Hin : forall a x, In x es -> e_src x = a -> change_edge x = true -> next_to_route es on (e_tgt x) = true -> In x (near_out es on last a)).
  { intros a x X1 X2 X3 X4. unfold near_out. apply filter_In. split; [apply outs_in; auto|]. apply andb_true_iff. split; auto.
    unfold within. apply andb_true_iff. split; [apply drivable_kind; auto|]. apply orb_true_iff. left. apply negb_true_iff.
    unfold change_edge, rel in *. destruct (ei_rel (e_info x)); vm_compute in X3 |- *; congruence. }
  assert (Hu : next_to_route es on u = true).
  { unfold next_to_route. apply orb_true_iff. right. apply existsb_exists. exists o. rewrite outs_in. split; auto.
    apply orb_true_iff. left. apply mem_in. congruence. }
  assert (Hvn : next_to_route es on v = true).
  { unfold next_to_route. apply orb_true_iff. left. apply mem_in. auto. }
  assert (Hou : In o (near_out es on last u)) by (apply Hin; auto; congruence).
  assert (Huk : In u (keys m1)).
  { apply (Hsu (fun x => x = u)); auto. intros x ->. split.
    - eapply rt_trans; [apply Hk, Hon, Hv|]. apply rt_step. rewrite <- E3. apply in_map. apply Hin; auto. congruence.
    - exists o. split; auto. rewrite O3. auto. }
  assert (Hout : conflicts_with_route es on u = false).
  { destruct (conflicts_with_route es on u) eqn:Ec; auto. apply conflicts_spec in Ec as (_ & _ & Hno). destruct Hno.
    exists v. split; auto. split; [exists o; auto|exists e; auto]. }
  rewrite Ea in E. destruct (out_of_route es n on m1) as [gone| | |] eqn:Eg; try discriminate. cbn [rbind] in E. injection E as E.
  destruct (removes_counted es on last gone m1 Hc (out_nodup es n on last m1 gone Hc Eg)) as [Hc2 Hk2].
  { intros x Hx. apply valid_keys. eapply (out_sub es n); eauto. }
  set (m2 := fold_left _ gone m1) in *.
  assert (Hu2 : In u (valid m2)).
  { apply (valid_in es on last); auto.
    assert (Huk2 : In u (keys m2)).
    { apply Hk2. split; auto. intros Hg. destruct (out_sub es n on m1 gone Eg u Hg). congruence. }
    split; auto. eapply support_counts; eauto. split; [|right; split; auto; congruence]. rewrite O3. apply Hk2. split; auto.
    intros Hg. eapply (gone_off es n); eauto. }
  assert (Hf : In u (filter (fun v => negb (mem v on)) (valid m2))).
  { apply filter_In. split; auto. apply negb_true_iff, mem_out. auto. }
  rewrite E in Hf. destruct Hf.
Qed.
Lemma grow_alive fuel path on : hd_error path = Some begin -> hd_error (rev path) = Some end_ -> linked drive path ->
  (forall v, In v (removelast path) -> ~ In v last) -> grow es n fuel last begin end_ path = Done on ->
  alive on /\ add_adjacent es n on last begin end_ = Done [].
Proof.
  intros H1 H2 H3 H4 H. assert (Hb : In begin path) by (destruct path; [discriminate|]; injection H1 as ->; left; auto).
  destruct (grow_inv es n last begin end_ alive alive_grows fuel path on Hb (alive_path path H1 H2 H3 H4) H) as (K1 & _ & K2). auto.
Qed.

(** * Without lane changes *)
Section NoChanges.
Hypothesis Hnb : forall e, In e es -> rel m_beside e = false.
Lemma no_lane_rings : no_rings es.
Proof.
  split; intros v H; apply clos_trans_t1n in H; assert (Hx : exists u, along (fun e => rel m_beside e) v u).
  - inversion H as [y (e & H1 & H2 & H3 & H4)|y z (e & H1 & H2 & H3 & H4)]; subst; exists (e_tgt e), e; (split; [auto|split; [auto|split; [auto|]]]);
      unfold rel in *; destruct (ei_rel (e_info e)); vm_compute in H4 |- *; congruence.
  - destruct Hx as (u & e & H1 & _ & _ & H2). rewrite Hnb in H2 by auto. discriminate.
  - inversion H as [y (e & H1 & H2 & H3 & H4)|y z (e & H1 & H2 & H3 & H4)]; subst; exists (e_tgt e), e; (split; [auto|split; [auto|split; [auto|]]]);
      unfold rel in *; destruct (ei_rel (e_info e)); vm_compute in H4 |- *; congruence.
  - destruct Hx as (u & e & H1 & _ & _ & H2). rewrite Hnb in H2 by auto. discriminate.
Qed.
Hypothesis Hlast : forall v, In v last -> v = end_.

Lemma no_undefined on : In begin on -> In end_ on -> (forall v, In v on -> v < n) -> alive on ->
  exists new, add_adjacent es n on last begin end_ = Done new.
Proof.
  intros Hb He Hn Ha. destruct (alive_round on Hb Ha) as (m1 & Hc & Hk & Hs & Hval & Ea & Hsu).
  assert (Hon : forall x, In x on -> In x (keys m1)) by (intros x Hx; apply (Hsu (fun _ => False)); [tauto|auto]).
  assert (Hout : exists gone, out_of_route es n on m1 = Done gone); [|destruct Hout as (gone & Eg); rewrite Ea, Eg; cbn [rbind]; eauto].
  unfold out_of_route. set (fresh := filter (conflicts_with_route es on) (valid m1)).
  assert (Hf : forall v, In v fresh <-> In v (valid m1) /\ outside es on v).
  { intros v. unfold fresh. rewrite filter_In, conflicts_spec. tauto. }
  assert (Hperm : forall permitted p, p <> [] -> (forall x, In x p -> x < n /\ outside es on x) ->
            linked (fun u t => In t (section_next es on u)) p -> In (hd 0 p) fresh ->
            exists l, permit es n on fresh permitted p = Done l).
  { intros permitted p Hp Hx Hl Hh. unfold permit.
    assert (En : never_conflicts es on p = false).
    { destruct (never_conflicts es on p) eqn:En; auto. apply never_spec in En. destruct p as [|x p]; [congruence|].
      destruct (En x (or_introl eq_refl)) as (u & _ & [(e & E1 & _ & _ & E2)|(e & E1 & _ & _ & E2)]); rewrite Hnb in E2 by auto; discriminate. }
    rewrite En.
    destruct (always_spec es n Hes no_lane_rings on p Hp (fun v Hv => proj1 (Hx v Hv))) as (b & -> & Hpar). cbn [rbind].
    destruct b; [|eauto]. assert (Hall : forallb (fun v => mem v fresh) p = true); [|rewrite Hall; eauto].
    apply forallb_forall. intros v Hv. apply mem_in, Hf. split; [|apply Hx; auto].
    destruct (Hpar eq_refl) as (from & to & _ & Hto & _ & Hdr & _).
    assert (Hpk : forall x, In x p -> In x (keys m1)).
    { intros x Hxp. apply (Hsu (fun x => In x p)); auto. clear x Hxp v Hv. intros x Hxp.
      assert (Hnl : forall y, In y p -> ~ In y last).
      { intros y Hy Hyl. apply Hlast in Hyl. subst y. destruct (Hx end_ Hy) as [_ [Ho _]]. auto. }
      assert (Hnear : forall y, In y p -> next_to_route es on y = true).
      { intros y Hy. destruct (Hx y Hy) as [_ (_ & (u & Hu & (e & E1 & E2 & E3 & _)) & _)]. unfold next_to_route.
        apply orb_true_iff. right. apply existsb_exists. exists e. rewrite outs_in. split; auto. apply orb_true_iff. left. apply mem_in. congruence. }
      assert (Hed : forall u t, drive u t -> In u p -> next_to_route es on t = true -> exists e, In e (near_out es on last u) /\ e_tgt e = t /\ succ_edge e = true).
      { intros u t (e & E1 & E2 & E3 & E4) Hu Ht. exists e. split; [|split; auto].
        - unfold near_out. apply filter_In. split; [apply outs_in; auto|]. rewrite E3, Ht, andb_true_r. unfold within. rewrite E4, E2.
          apply Hnl, mem_out in Hu. rewrite Hu, orb_true_r. auto.
        - apply drivable_kind in E4 as [E4|E4]; auto. specialize (Hnb e E1). unfold change_edge, rel in *.
          destruct (ei_rel (e_info e)); vm_compute in E4, Hnb |- *; congruence. }
      apply in_split in Hxp as (pre & post & Ep). split.
      - assert (H : forall pre x post, p = pre ++ x :: post ->
          clos_refl_trans nat (fun u t => In t (map e_tgt (near_out es on last u))) begin x); [|eauto].
        clear x pre post Ep. induction pre as [|a pre IH] using rev_ind; intros x post Ep.
        + rewrite Ep in Hh. simpl in Hh. apply Hf in Hh as [Hh _]. apply Hk, valid_keys; auto.
        + rewrite <- app_assoc in Ep. simpl in Ep. eapply rt_trans; [eapply IH; eauto|]. apply rt_step.
          assert (Hax : In x (section_next es on a)).
          { apply (linked_split (fun u t => In t (section_next es on u)) pre a x post). rewrite <- Ep. auto. }
          apply section_drive in Hax as [Hax _].
          destruct (Hed a x Hax) as (e & K1 & <- & _).
          * rewrite Ep. apply in_or_app; right; left; auto.
          * apply Hnear. rewrite Ep. apply in_or_app; right; right; left; auto.
          * apply in_map; auto.
      - destruct post as [|y post].
        + assert (El : List.last p 0 = x) by (rewrite Ep; apply last_last). rewrite El in Hdr.
          destruct (Hed x to Hdr) as (e & K1 & K2 & K3).
          * rewrite Ep. apply in_or_app; right; left; auto.
          * apply on_next; auto.
          * exists e. rewrite K2. auto.
        + assert (Hax : In y (section_next es on x)).
          { apply (linked_split (fun u t => In t (section_next es on u)) pre x y post). rewrite <- Ep. auto. }
          apply section_drive in Hax as [Hax _].
          destruct (Hed x y Hax) as (e & K1 & K2 & K3).
          * rewrite Ep. apply in_or_app; right; left; auto.
          * apply Hnear. rewrite Ep. apply in_or_app; right; right; left; auto.
          * exists e. rewrite K2. split; auto. split; auto. left. rewrite Ep. apply in_or_app; right; right; left; auto. }
    destruct (Hval v (Hpk v Hv)) as [->|?]; auto. exfalso. destruct (Hx end_ Hv) as [_ [Ho _]]. auto. }
  assert (Hall : forall l permitted, incl l fresh -> exists r, permit_all es n on fresh permitted l = Done r).
  { induction l as [|v l IH]; intros permitted Hl; cbn [permit_all]; [eauto|].
    assert (Hv : In v fresh) by (apply Hl; left; auto).
    assert (Hl' : incl l fresh) by (intros x Hx; apply Hl; right; auto).
    destruct (connects_to_route es on v); [|apply IH; auto].
    destruct (section_paths es n Hes on v) as (b & ps & seen & -> & Hps).
    - apply Hf in Hv as [Hv _]. apply Hk, valid_keys; auto.
    - apply Hf; auto.
    - cbn [rbind fst snd].
      assert (Hpp : forall permitted, exists r, permit_paths es n on fresh permitted ps = Done r).
      { clear permitted. induction ps as [|p ps IHp]; intros permitted; cbn [permit_paths]; [eauto|].
        destruct (Hps p (or_introl eq_refl)) as (K1 & K2 & K3 & K4).
        destruct (Hperm permitted p K1 K4 K3) as (r & ->); [rewrite K2; auto|]. cbn [rbind]. apply IHp.
        intros q Hq. apply Hps. right; auto. }
      destruct (Hpp permitted) as (r & ->). cbn [rbind]. apply IH; auto. }
  destruct (Hall fresh [] (incl_refl _)) as (r & ->). cbn [rbind]. eauto.
Qed.
Lemma grow_done path : hd_error path = Some begin -> hd_error (rev path) = Some end_ -> linked drive path ->
  (forall v, In v (removelast path) -> ~ In v last) -> (forall v, In v path -> v < n) ->
  exists on, grow es n (S n) last begin end_ path = Done on.
Proof.
  intros H1 H2 H3 H4 Hp. assert (Hb : In begin path) by (destruct path; [discriminate|]; injection H1 as ->; left; auto).
  assert (He : In end_ path).
  { apply in_rev. destruct (rev path); [discriminate|]. injection H2 as ->. left; auto. }
  apply (grow_ends es n Hes last begin end_ Hbn (fun o => exists on, o = Done on)
           (fun on => alive on /\ In end_ on /\ forall v, In v on -> v < n)); auto.
  - intros on new Hbo (Ha & Heo & Hn) E. destruct (new_spec es n Hes last begin end_ Hbn on new Hbo E) as [_ Hnew]. split; [|split].
    + eapply alive_grows; eauto.
    + apply in_or_app; auto.
    + intros v Hv. apply in_app_or in Hv as [Hv|Hv]; auto. apply Hnew; auto.
  - intros on _. eauto.
  - intros on o Hbo (Ha & Heo & Hn) _ E. destruct (no_undefined on Hbo Heo Hn Ha) as (new & En). rewrite <- E, En. auto.
  - split; [apply alive_path; auto|auto].
  - lia.
Qed.
End NoChanges.
End Exact.
