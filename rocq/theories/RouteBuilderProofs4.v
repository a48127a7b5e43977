(** The outcomes of the rounds, and sections that leave the route. *)
From Coq Require Import NArith List Bool Arith Lia Relations.
From Verif Require Import CostAlg GraphModel RouteSpec RouteBuilderModel RouteBuilderProofs RouteBuilderProofs2 RouteBuilderProofs3.
Import ListNotations.
Local Open Scope nat_scope.

Section Outcomes.
Context {A : CostAlg}.
Variable es : list (edge A).
Variable n : nat.
Hypothesis Hes : forall e, In e es -> e_src e < n /\ e_tgt e < n.
Notation edge := (edge A).
Notation along := (along es).
Notation drive := (along (rel m_drivable)).
Notation change := (along change_edge).

Lemma get_next_along mask v t : get_next es mask v = Some t -> along (rel mask) v t.
Proof.
  unfold get_next. destruct (find _ _) as [e|] eqn:E; [|discriminate]. intros [= <-]. apply find_some in E as [H1 H2].
  apply outs_in in H1 as [H1 H3]. exists e. auto.
Qed.
Lemma along_bound p v t : along p v t -> v < n /\ t < n.
Proof. intros (e & H & <- & <- & _). apply Hes; auto. Qed.

(** * Sideways *)
Section Sideway.
Variable mask : N.
Variable f : nat -> bool.
Definition trapped (l : list nat) : Prop := forall x, In x l -> f x = false /\ exists y, get_next es mask x = Some y /\ In y l.
Lemma trapped_endless l : trapped l -> forall fuel x, In x l -> sideway es mask f fuel (Some x) = None.
Proof.
  intros H. induction fuel as [|k IH]; intros x Hx; destruct (H x Hx) as (Hf & y & Hy & Hin); simpl; rewrite Hf; auto.
  rewrite Hy. auto.
Qed.
Lemma sideway_trapped fuel : forall p v, NoDup (p ++ [v]) -> (forall x, In x (p ++ [v]) -> x < n) ->
  linked (along (rel mask)) (p ++ [v]) ->
  (forall x, In x p -> f x = false /\ exists y, get_next es mask x = Some y /\ In y (p ++ [v])) ->
  n <= fuel + length p -> sideway es mask f fuel (Some v) = None ->
  exists l, trapped l /\ In v l /\ exists w, clos_refl_trans nat (along (rel mask)) v w /\ clos_trans nat (along (rel mask)) w w.
Proof.
  induction fuel as [|k IH]; intros p v Hnd Hb Hl Hp Hn E.
  - pose proof (bounded_length n _ Hnd Hb) as H. rewrite app_length in H. simpl in H. lia.
  - simpl in E. destruct (f v) eqn:Ef; [discriminate|]. destruct (get_next es mask v) as [t|] eqn:Et; [|destruct k; discriminate].
    pose proof (get_next_along mask v t Et) as Ha.
    destruct (in_dec Nat.eq_dec t (p ++ [v])) as [Hin|Hin].
    + exists (p ++ [v]). split; [|split].
      * intros x Hx. apply in_app_or in Hx as [Hx|[<-|[]]]; auto. split; auto. exists t. auto.
      * apply in_or_app; right; left; auto.
      * exists t. split; [apply rt_step; auto|]. apply clos_rt_t with v; [|apply t_step; auto].
        pose proof (linked_last _ _ _ Hin Hl) as Hr. rewrite last_last in Hr. auto.
    + destruct (IH (p ++ [v]) t) as (l & H1 & H2 & w & H3 & H4); auto.
      * apply NoDup_app; auto; [repeat constructor; auto|]. intros x Hx [<-|[]]. auto.
      * intros x Hx. apply in_app_or in Hx as [Hx|[<-|[]]]; auto. apply along_bound in Ha. tauto.
      * rewrite <- app_assoc. apply linked_snoc; auto.
      * intros x Hx. apply in_app_or in Hx as [Hx|[<-|[]]].
        -- destruct (Hp x Hx) as (K1 & y & K2 & K3). split; auto. exists y. split; auto. apply in_or_app; auto.
        -- split; auto. exists t. split; auto. apply in_or_app; right; left; auto.
      * rewrite app_length. simpl. lia.
      * exists (v :: l). split; [|split; [left; auto|]].
        -- intros x [<-|Hx].
           ++ split; auto. exists t. split; auto. right; auto.
           ++ destruct (H1 x Hx) as (K1 & y & K2 & K3). split; auto. exists y. split; auto. right; auto.
        -- exists w. split; auto. eapply rt_trans; [apply rt_step; exact Ha|auto].
Qed.
(** A search that does not end after as many steps as there are vertices never ends. *)
Lemma sideway_none v : v < n -> sideway es mask f n (Some v) = None ->
  (forall fuel, sideway es mask f fuel (Some v) = None) /\ exists w, clos_refl_trans nat (along (rel mask)) v w /\ clos_trans nat (along (rel mask)) w w.
Proof.
  intros Hv E. destruct (sideway_trapped n [] v) as (l & H1 & H2 & H3); simpl; auto.
  - repeat constructor; auto.
  - intros x [<-|[]]; auto.
  - intros x [].
  - lia.
  - split; auto. intros fuel. eapply trapped_endless; eauto.
Qed.
Lemma sideway_true fuel v : sideway es mask f fuel (Some v) = Some true ->
  exists w, clos_refl_trans nat (along (rel mask)) v w /\ f w = true.
Proof.
  revert v. induction fuel as [|k IH]; intros v; simpl; destruct (f v) eqn:Ef; try discriminate.
  - intros _. exists v. split; [apply rt_refl|auto].
  - intros _. exists v. split; [apply rt_refl|auto].
  - destruct (get_next es mask v) as [t|] eqn:Et; [|destruct k; discriminate].
    intros H. apply IH in H as (w & H1 & H2). exists w. split; auto. eapply rt_trans; [apply rt_step, get_next_along; exact Et|auto].
Qed.
End Sideway.
Definition lefts := along (rel (bits RLeft)).
Definition rights := along (rel (bits RRight)).
Definition no_rings : Prop := (forall v, ~ clos_trans nat lefts v v) /\ (forall v, ~ clos_trans nat rights v v).
Lemma any_sideway_true f v : any_sideway es n f v = Some true ->
  exists w, (clos_refl_trans nat lefts v w \/ clos_refl_trans nat rights v w) /\ f w = true.
Proof.
  unfold any_sideway. destruct (sideway es (bits RLeft) f n (Some v)) as [[|]|] eqn:E; try discriminate.
  - intros _. apply sideway_true in E as (w & H1 & H2). exists w. auto.
  - destruct (get_next es (bits RRight) v) as [t|] eqn:Et; [|destruct n; discriminate].
    intros H. apply sideway_true in H as (w & H1 & H2). exists w. split; auto. right.
    eapply rt_trans; [apply rt_step, get_next_along; exact Et|auto].
Qed.
Lemma any_sideway_some f v : no_rings -> v < n -> any_sideway es n f v <> None.
Proof.
  intros [Hl Hr] Hv E. unfold any_sideway in E. destruct (sideway es (bits RLeft) f n (Some v)) as [[|]|] eqn:E1; try discriminate.
  - destruct (get_next es (bits RRight) v) as [t|] eqn:Et; [|destruct n; discriminate].
    apply sideway_none in E as (_ & w & _ & H); [eapply Hr; eauto|]. apply get_next_along, along_bound in Et. tauto.
  - apply sideway_none in E1 as (_ & w & _ & H); [eapply Hl; eauto|auto].
Qed.

(** * Sections that leave the route *)
Section Leaving.
Variable on : list nat.
(** The lanelet is related to the route, but no lane change leads to the route and back. *)
Definition outside (v : nat) : Prop := ~ In v on /\ (exists u, In u on /\ along (fun e => change_edge e || rel m_conflict e) v u) /\ ~ (exists u, In u on /\ change v u /\ change u v).
Lemma back_change (e : edge) : existsb (fun o => Nat.eqb (e_tgt o) (e_src e) && rel m_changes o) (outs es (e_tgt e)) = true <->
  change (e_tgt e) (e_src e).
Proof.
  rewrite existsb_exists. split.
  - intros (o & Ho & H). apply outs_in in Ho as [H1 H2]. apply andb_true_iff in H as [H3 H4]. apply Nat.eqb_eq in H3. exists o. auto.
  - intros (o & H1 & H2 & H3 & H4). exists o. rewrite outs_in, andb_true_iff, Nat.eqb_eq. auto.
Qed.
Definition mutual (e : edge) : bool := mem (e_tgt e) on && change_edge e &&
  existsb (fun o => Nat.eqb (e_tgt o) (e_src e) && rel m_changes o) (outs es (e_tgt e)).
Definition related (e : edge) : bool := mem (e_tgt e) on && (change_edge e || rel m_conflict e).
Lemma section_fold l : forall nb cf, let '(nb', cf') := fold_left (section_step es on) l (nb, cf) in
  nb' = nb || existsb mutual l /\ (nb' = false -> cf' = cf || existsb related l).
Proof.
  induction l as [|e l IH]; intros nb cf; simpl; [rewrite !orb_false_r; auto|].
  unfold section_step at 2, mutual at 1, related at 1. fold (change_edge e).
  set (back := existsb _ (outs es (e_tgt e))).
  destruct (mem (e_tgt e) on); simpl; [|apply IH].
  destruct (change_edge e); simpl.
  - specialize (IH (nb || back) (cf || negb (nb || back) || rel m_conflict e)).
    destruct (fold_left (section_step es on) l _) as [nb' cf']. destruct IH as [H1 H2]. rewrite <- orb_assoc in H1. split; auto.
    intros E. rewrite (H2 E). rewrite E in H1. symmetry in H1. apply orb_false_iff in H1 as [H1 H3]. apply orb_false_iff in H3 as [H3 _].
    rewrite H1, H3. simpl. rewrite !orb_true_r. auto.
  - specialize (IH nb (cf || rel m_conflict e)). destruct (fold_left (section_step es on) l _) as [nb' cf']. destruct IH as [H1 H2].
    split; auto. intros E. rewrite (H2 E), <- orb_assoc. auto.
Qed.
Lemma conflicts_spec v : conflicts_with_route es on v = true <-> outside v.
Proof.
  unfold conflicts_with_route, outside. destruct (mem v on) eqn:Em.
  { apply mem_in in Em. split; [discriminate|tauto]. }
  apply mem_out in Em. pose proof (section_fold (outs es v) false false) as H.
  destruct (fold_left _ _ _) as [nb cf]. destruct H as [H1 H2]. simpl in H1, H2.
  assert (Hnb : nb = true <-> exists u, In u on /\ change v u /\ change u v).
  { rewrite H1, existsb_exists. split.
    - intros (e & He & H). apply outs_in in He as [He Es]. unfold mutual in H. rewrite !andb_true_iff, mem_in in H.
      destruct H as ((K1 & K2) & K3). apply back_change in K3. exists (e_tgt e). split; auto. split; [exists e; auto|]. rewrite <- Es. auto.
    - intros (u & Hu & (e & K1 & K2 & K3 & K4) & K5). exists e. rewrite outs_in. split; auto. unfold mutual.
      rewrite !andb_true_iff, mem_in, K3. split; auto. rewrite <- K3. apply back_change. rewrite K2, K3. auto. }
  assert (Hcf : existsb related (outs es v) = true <-> exists u, In u on /\ along (fun e => change_edge e || rel m_conflict e) v u).
  { rewrite existsb_exists. split.
    - intros (e & He & H). apply outs_in in He as [He Es]. unfold related in H. rewrite andb_true_iff, mem_in in H.
      exists (e_tgt e). split; [tauto|]. exists e. tauto.
    - intros (u & Hu & (e & K1 & K2 & K3 & K4)). exists e. rewrite outs_in. split; auto. unfold related.
      rewrite andb_true_iff, mem_in, K3. auto. }
  rewrite andb_true_iff, negb_true_iff. split.
  - intros [K1 K2]. split; auto. split.
    + apply Hcf. rewrite <- (H2 K2). auto.
    + intros K. apply Hnb in K. congruence.
  - intros (_ & K1 & K2). assert (nb = false) by (destruct nb; auto; destruct K2; apply Hnb; auto).
    split; auto. rewrite H2; auto. apply Hcf; auto.
Qed.

(** A list of lanelets all of which have neighbours on the route. *)
Definition all_beside (p : list nat) : Prop :=
  forall v, In v p -> exists u, In u on /\ (along (rel m_beside) u v \/ along (rel m_beside) v u).
Lemma never_spec p : never_conflicts es on p = true -> all_beside p.
Proof.
  unfold never_conflicts. rewrite forallb_forall. intros H v Hv. apply H in Hv. unfold beside_route in Hv.
  rewrite orb_true_iff, !existsb_exists in Hv. destruct Hv as [(e & He & K)|(e & He & K)]; apply filter_In in He as [He _];
    rewrite andb_true_iff, mem_in in K; destruct K as [K1 K2].
  - apply ins_in in He as [He Et]. exists (e_src e). split; auto. left. exists e. auto.
  - apply outs_in in He as [He Et]. exists (e_tgt e). split; auto. right. exists e. auto.
Qed.
(** A lanelet of the route beside which, or on which, there is a conflict with the list; from and to need none. *)
Definition accompanies (p : list nat) (from to v : nat) : Prop := In v on /\ exists u, (clos_refl_trans nat lefts v u \/ clos_refl_trans nat rights v u) /\ (u = from \/ u = to \/ exists t, In t p /\ along (rel m_conflict) u t).
Definition parallel (p : list nat) : Prop := exists from to,
  In from on /\ In to on /\ drive from (hd 0 p) /\ drive (List.last p 0) to /\ clos_refl_trans nat (fun u v => along (fun e => negb (relation_eqb (ei_rel (e_info e)) Conflicting)) u v /\ accompanies p from to v) from to.
Lemma accompanies_spec p from to v : on_route_and_conflict es n on p from to v = Some true -> accompanies p from to v.
Proof.
  unfold on_route_and_conflict. intros H. apply any_sideway_true in H as (w & H1 & H2).
  rewrite andb_true_iff, mem_in in H2. destruct H2 as [H2 H3]. split; auto. exists w. split; auto.
  rewrite !orb_true_iff, !Nat.eqb_eq in H3. destruct H3 as [[-> | ->]|H3]; auto. right. right.
  apply existsb_exists in H3 as (e & He & K). apply outs_in in He as [He Es]. rewrite andb_true_iff, mem_in in K.
  exists (e_tgt e). split; [tauto|]. exists e. tauto.
Qed.
Lemma filter_res_done f l r : filter_res f l = Done r -> forall t, In t r <-> In t l /\ f t = Some true.
Proof.
  revert r. induction l as [|x l IH]; simpl; intros r; [intros [= <-]; simpl; tauto|].
  destruct (f x) as [b|] eqn:E; [|discriminate]. destruct (filter_res f l) as [r'| | |]; try discriminate. cbn [rbind].
  intros [= <-] t. specialize (IH r' eq_refl t). destruct b; simpl; rewrite IH; intuition (subst; try tauto; congruence).
Qed.
Lemma filter_res_total f l : (forall x, In x l -> f x <> None) -> exists r, filter_res f l = Done r.
Proof.
  induction l as [|x l IH]; intros H; simpl; [eauto|]. destruct (f x) as [b|] eqn:E; [|destruct (H x); simpl; auto].
  destruct IH as [r ->]; [intros y Hy; apply H; right; auto|]. cbn [rbind]. eauto.
Qed.
Definition nexts (p : list nat) (from to v : nat) : list nat :=
  match path_next es n on p from to v with Done l => l | _ => [] end.
Lemma path_next_step p from to v l : path_next es n on p from to v = Done l -> forall t, In t l ->
  along (fun e => negb (relation_eqb (ei_rel (e_info e)) Conflicting)) v t /\ accompanies p from to t.
Proof.
  intros E t Ht. unfold path_next in E. apply (filter_res_done _ _ _ E) in Ht as [H1 H2]. split; [|apply accompanies_spec; auto].
  apply in_map_iff in H1 as (e & <- & He). apply filter_In in He as [He K]. apply outs_in in He as [He Es]. exists e. auto.
Qed.
Lemma path_next_total p from to v : no_rings -> v < n -> path_next es n on p from to v = Done (nexts p from to v).
Proof.
  intros Hr Hv. unfold nexts. assert (H : exists l, path_next es n on p from to v = Done l); [|destruct H as [l ->]; auto].
  apply filter_res_total. intros t Ht. apply any_sideway_some; auto.
  apply in_map_iff in Ht as (e & <- & He). apply filter_In in He as [He _]. apply outs_in in He as [He _]. apply Hes; auto.
Qed.
End Leaving.
End Outcomes.
