From Coq Require Import NArith List Bool Arith Lia Relations Permutation.
From Verif Require Import CostAlg GraphModel GraphSpec GraphProofs GraphProofs2 TrafficModel BuilderModel BuilderSpec BuilderProofs BuilderProofs2 BuilderProofs3 BuilderProofs4 ValidityModel ValiditySpec ValidityProofs ValidityProofs2.
Import ListNotations.
Local Open Scope nat_scope.

(** * The builder performs a sequence of graph operations *)
Section History.
Context {A : CostAlg}.
Variable one : cost A.
Variable w : world.
Variable ru : rules.
Variable costs : list (@module A).
Variable order : list (lref * lref) -> list (lref * lref).
Variable n : N.
Definition made (g : graph A) : Prop := exists ops, g = gbuild n ops.
Lemma each_keep {S T} (P : S -> Prop) (f : S -> T -> res S) l : (forall s x s', P s -> f s x = Ok s' -> P s') ->
  forall s s', P s -> each f s l = Ok s' -> P s'.
Proof.
  intros Hf. induction l as [|x l IH]; intros s s' Hs H; simpl in H.
  - injection H as <-. auto.
  - apply bind_ok in H as (s1 & H1 & H). eauto.
Qed.
Lemma made_step g o : made g -> made (gstep g o).
Proof. intros [ops ->]. exists (ops ++ [o]). unfold gbuild. rewrite fold_left_app. auto. Qed.
Lemma made_put g a b i g' : made g -> put g a b i = Ok g' -> made g'.
Proof.
  intros Hm H. assert (g' = fst (add_edge g a b i)) as ->.
  { unfold put in H. destruct (add_edge g a b i) as [g1 []]; simpl; congruence. }
  apply (made_step g (OpEdge a b i)). auto.
Qed.
Lemma made_assign g a b r g' : made g -> assign_costs one costs g a b r = Ok g' -> made g'.
Proof. apply (each_keep made). intros. eapply made_put; eauto. Qed.
Lemma made_following idx g l g' : made g -> add_following one w ru costs idx g l = Ok g' -> made g'.
Proof.
  unfold add_following. intros Hm H. apply bind_ok in H as (k & _ & H). revert Hm H. apply (each_keep made). intros. eapply made_assign; eauto.
Qed.
Lemma made_sideway s idx l st st' : made (fst st) -> add_sideway one w ru costs s idx l st = Ok st' -> made (fst st').
Proof.
  unfold add_sideway. intros Hm H. apply bind_ok in H as (k & _ & H). revert Hm H.
  apply (each_keep (fun st : graph A * collector => made (fst st))). intros [g c] b st1 Hm H.
  destruct (_ && _ && _); [|injection H as <-; auto]. destruct (may_change ru l b); [injection H as <-; auto|].
  apply bind_ok in H as (g' & H' & H). injection H as <-. eapply made_assign; eauto.
Qed.
Lemma made_conflicting g l g' : made g -> add_conflicting one w ru costs g l = Ok g' -> made g'.
Proof.
  unfold add_conflicting. apply (each_keep made). intros g0 d g1 Hm H.
  destruct (_ && _); [apply bind_ok in H as (g2 & H1 & H2); eapply made_assign in H1; eauto; eapply made_assign; eauto|].
  destruct (has_edge _ _ _); [injection H as <-; auto|]. destruct (_ || _); [injection H as <-; auto|].
  destruct (overlaps _ _ _); [|injection H as <-; auto].
  apply bind_ok in H as (g2 & H1 & H2); eapply made_assign in H1; eauto; eapply made_assign; eauto.
Qed.
Lemma made_change_seq sd seq : forall g g', made g -> assign_change one costs sd g seq = Ok g' -> made g'.
Proof.
  induction seq as [|[x y] seq IH]; intros g g' Hm H; cbn [assign_change] in H; [injection H as <-; auto|].
  apply bind_ok in H as (g1 & H1 & H). apply (IH g1); auto. revert Hm H1. apply (each_keep made). intros. eapply made_put; eauto.
Qed.
Lemma made_change sd g c g' : made g -> change_edges one costs order sd g c = Ok g' -> made g'.
Proof.
  unfold change_edges. intros Hm H. apply bind_ok in H as (st & H1 & H). injection H as <-.
  assert (Hm' : made (fst (g, @nil lref))) by auto. revert Hm' H1.
  apply (each_keep (fun st : graph A * list lref => made (fst st))). intros [g0 v] e st1 Hs H.
  destruct (visited v (fst e)); [injection H as <-; auto|]. apply bind_ok in H as (r & _ & H).
  apply bind_ok in H as (g2 & H2 & H). injection H as <-. eapply made_change_seq; eauto.
Qed.
Lemma made_if (b : bool) g x y r g' : made g -> (if b then assign_costs one costs g x y r else Ok g) = Ok g' -> made g'.
Proof. destruct b; [apply made_assign|]. intros Hm [= <-]. auto. Qed.
Lemma made_areas g g' : made g -> area_edges one w ru costs g = Ok g' -> made g'.
Proof.
  unfold area_edges. apply (each_keep made). intros g0 a g1 Hm H. apply bind_ok in H as (g2 & H1 & H2).
  assert (Hm2 : made g2).
  { revert Hm H1. apply (each_keep made). intros g3 d g4 Hm H.
    do 4 (apply bind_ok in H as (? & Hx & H); apply made_if in Hx; auto; clear Hm; rename Hx into Hm).
    destruct (_ || _); [injection H as <-; auto|]. eapply made_if; eauto. }
  revert Hm2 H2. apply (each_keep made). intros g3 b g4 Hm' H. destruct (N.eqb b a); [injection H as <-; auto|].
  destruct (may_pass _ _ _); [eapply made_assign; eauto|]. eapply made_if; eauto.
Qed.
End History.
Section Built.
Context {A : CostAlg}.
Variable one : cost A.
Variable w : world.
Variable ru : rules.
Variable costs : list (@module A).
Variable order : list (lref * lref) -> list (lref * lref).
Lemma built_history g : build one w ru costs order = Ok g -> exists ops, g = gbuild (N.of_nat (length costs)) ops.
Proof.
  set (n := N.of_nat (length costs)). unfold build. intros H. apply bind_ok in H as ([g0 idx] & H0 & H). apply bind_ok in H as (g1 & H1 & H2).
  cbn [fst snd] in *. change (made n g). eapply made_areas; [|exact H2]. clear H2 g.
  assert (Hm0 : made n g0).
  { assert (Hm : made n (fst (empty_graph (A := A) n, @nil (key * lref)))) by (exists []; auto). unfold n in Hm. revert Hm H0.
    apply (each_keep (fun st : graph A * index => made n (fst st))). intros [g2 i2] l st Hm H.
    apply bind_ok in H as (i3 & _ & H). injection H as <-. cbn [fst] in *. apply (made_step n g2 (OpVertex (L l))). auto. }
  assert (Hm1 : made n (fold_left add_vertex (map EArea (passable_areas w ru)) g0)).
  { revert g0 H0 H1 Hm0. generalize (map EArea (passable_areas w ru)). intros l g0 _ _. revert g0.
    induction l as [|a l IH]; intros g0 Hm; simpl; auto. apply IH. apply (made_step n g0 (OpVertex a)). auto. }
  unfold lanelet_edges in H1. apply bind_ok in H1 as ([[g2 cl] cr] & H1 & H2).
  assert (Hm2 : made n g2).
  { set (st0 := (fold_left add_vertex (map EArea (passable_areas w ru)) g0, @nil (lref * lref), @nil (lref * lref))) in *.
    assert (Hm : made n (fst (fst st0))) by exact Hm1. change (made n (fst (fst (g2, cl, cr)))). revert Hm H1.
    apply (each_keep (fun st : graph A * collector * collector => made n (fst (fst st)))). intros [[g3 c3] d3] l st Hm H.
    cbn [fst] in Hm. apply bind_ok in H as (g4 & F1 & H). apply bind_ok in H as ([g5 c5] & F2 & H). apply bind_ok in H as ([g6 c6] & F3 & H).
    apply bind_ok in H as (g7 & F4 & H). injection H as <-. cbn [fst snd] in *.
    eapply made_following in F1; eauto. eapply made_sideway in F2; eauto. eapply made_sideway in F3; eauto. eapply made_conflicting; eauto. }
  apply bind_ok in H2 as (g3 & H2 & H3). eapply made_change; [|exact H3]. eapply made_change; [|exact H2]. auto.
Qed.

(** * Built graphs are consistent *)
Hypothesis one_good : good_cost one = true.
Hypothesis Hsane : sane w ru.
Variables (g : graph A) (E0 : list (elem * elem * einfo A)) (cs : side -> collector) (Q : side -> list (list (lref * lref))).
Hypothesis B : built one w ru costs g E0 cs Q.
Hypothesis Hreg : forall s, regular w ru s.
Hypothesis Hring : forall s, no_map_ring w ru s.
Hypothesis Hcosts : forall m, In m costs -> unsigned_module m.
Variables (k : N) (m : @module A).
Hypothesis Hk : nth_error costs (N.to_nat k) = Some m.

Notation joins := (joined g).
Lemma changing_in_Q s x y c : joins x y (changing s) k c -> exists a b pre post, x = L a /\ y = L b /\ changeable w ru s (a, b) /\
  In (pre ++ (a, b) :: post) (Q s) /\ c = m_change m (a :: map fst post) (b :: map snd post) /\ cfinite A c = true.
Proof.
  rewrite (joined_iff one w ru costs g E0 cs Q B). intros HF. pose proof HF as H. apply in_F in H as [H|[[s' H]|H]].
  - exfalso. revert H. apply (rel_E0_changing one w ru costs g E0 cs Q B).
  - pose proof (contrib_rel one w ru costs Q _ _ H) as Hs. assert (s' = s) as ->. { destruct s, s', Hs; simpl in *; congruence. }
    eapply contrib_sound in H as (a & b & pre & post & k' & m' & Hq & Hm & Hc & Heq & Hg); eauto.
    unfold change_info in Heq. simpl in Heq. destruct (cfinite A (m_change m' (a :: map fst post) (b :: map snd post))) eqn:Ef; simpl in Heq.
    + injection Heq as -> -> -> ->. exists a, b, pre, post. eapply coll_sound in Hc as [Hc _]; eauto.
      assert (m' = m) by congruence. subst m'. auto 10.
    + exfalso. injection Heq as _ _ _ _ Hrel. destruct s; discriminate.
  - apply area_rel in H as [[H|H] _]; destruct s; discriminate.
Qed.
Lemma same_run s a b b' pre post pre' post' : In (pre ++ (a, b) :: post) (Q s) -> In (pre' ++ (a, b') :: post') (Q s) -> post = post'.
Proof.
  pose proof (run_keys one w ru costs g E0 cs Q B s) as Hn. revert Hn. generalize (Q s) as q.
  assert (Hsplit : forall l (r r' : list (lref * lref)) x x' p p', NoDup (map fst l) -> l = p ++ x :: r -> l = p' ++ x' :: r' -> fst x = fst x' -> r = r').
  { clear. induction l as [|y l IH]; intros r r' x x' p p' Hn H1 H2 Hx; [destruct p; discriminate|]. simpl in Hn. inversion Hn as [|? ? Hy Hn']; subst.
    destruct p as [|z p], p' as [|z' p']; simpl in *.
    - congruence.
    - injection H1 as -> ->. injection H2 as -> ->. exfalso. apply Hy. rewrite Hx, map_app, in_app_iff. simpl. auto.
    - injection H1 as -> ->. injection H2 as -> H2. exfalso. apply Hy. rewrite <- Hx, map_app, in_app_iff. simpl. auto.
    - injection H1 as -> ->. injection H2 as -> H2. eapply (IH r r' x x'); eauto. }
  intros q Hn H1 H2. apply in_split in H1 as (q1 & q2 & ->). rewrite concat_app, !map_app in Hn. simpl in Hn.
  apply in_app_iff in H2. rewrite map_app in Hn. apply NoDup_app_remove in Hn as (_ & Hn & D1). apply NoDup_app_remove in Hn as (N2 & _ & D2).
  assert (Ha : In a (map fst (pre ++ (a, b) :: post))) by (rewrite map_app, in_app_iff; simpl; auto).
  assert (Ha' : forall l, In (pre' ++ (a, b') :: post') l -> In a (map fst (concat l))).
  { intros l Hl. apply in_map_iff. exists (a, b'). split; auto. apply in_concat. eexists. split; eauto. rewrite in_app_iff. simpl. auto. }
  destruct H2 as [H2|[H2|H2]].
  - exfalso. apply (D1 a); auto. rewrite in_app_iff. auto.
  - eapply (Hsplit _ post post' (a, b) (a, b')); eauto.
  - exfalso. apply (D2 a); auto.
Qed.
(** Not both kinds. *)
Lemma not_both s a b c c' : joins (L a) (L b) (changing s) k c -> joins (L a) (L b) (adjacent s) k c' -> False.
Proof.
  intros H1 H2. apply changing_in_Q in H1 as (a1 & b1 & pre & post & Ha & Hb & Hch & Hq & Hc & Hf). apply L_inj in Ha, Hb. subst a1 b1.
  eapply adjacent_sound in H2 as (a1 & b1 & Ha & Hb & _ & _ & _ & _ & H2); eauto. apply L_inj in Ha, Hb. subst a1 b1.
  destruct H2 as (pre' & post' & m' & Hq' & Hm & Hf'); [apply Hch|]. assert (m' = m) by congruence. subst m'.
  assert (post = post') by (eapply same_run; eauto). subst post'. congruence.
Qed.
Lemma side_neighbour s x y r c : r = changing s \/ r = adjacent s -> joins x y r k c ->
  exists a b, x = L a /\ y = L b /\ usable w ru a /\ usable w ru b /\ neighbour w s b a.
Proof.
  intros [-> | ->] H.
  - apply changing_in_Q in H as (a & b & _ & _ & -> & -> & (Ha & Hb & Hn & _) & _). simpl in *. exists a, b. auto.
  - eapply adjacent_sound in H as (a & b & -> & -> & Ha & Hb & Hn & _); eauto. exists a, b. auto.
Qed.
Lemma neighbour_opposite s a b : neighbour w s b a -> neighbour w (opposite s) a b.
Proof. intros [H1 H2]. split; [auto|]. destruct s; simpl; auto. Qed.
Lemma neighbour_joined s a b : usable w ru a -> usable w ru b -> neighbour w s b a ->
  exists r c, (r = changing s \/ r = adjacent s) /\ joins (L a) (L b) r k c.
Proof.
  intros Ha Hb Hn. destruct (may_change ru a b) eqn:Em.
  - destruct (change_complete one w ru costs one_good g E0 cs Q B s a b (Hreg s)) as (pre & post & _ & H); [repeat split; auto; try apply Ha; try apply Hb; apply Hn|].
    destruct (H k m Hk) as [H1 H2]. destruct (cfinite A (m_change m (a :: map fst post) (b :: map snd post))) eqn:Ef; [|exists (adjacent s), one; auto].
    exists (changing s). eexists. split; [auto|]. apply H1. unfold good_cost. rewrite Ef. simpl. apply negb_true_iff.
    assert (Hm : unsigned_module m) by (apply Hcosts; eapply nth_error_In; eauto). destruct (proj2 Hm (a :: map fst post) (b :: map snd post)); congruence.
  - exists (adjacent s), one. split; auto. eapply adjacent_complete; eauto.
    + eapply beside_not_ahead; eauto.
    + intros -> Hn'. apply (Hring SLeft a). eapply t_trans; apply t_step.
      * split; [exact Ha|]. split; [exact Hb|exact Hn'].
      * split; [exact Hb|]. split; [exact Ha|]. apply (neighbour_opposite SRight) in Hn. exact Hn.
Qed.
Lemma in_side_joined s x e : In e (side_edges g s k x) <-> In e (g_edges g) /\ exists r, (r = changing s \/ r = adjacent s) /\
  vertex_elem g (e_src e) = Some x /\ e_info e = EInfo (ei_cost (e_info e)) k r.
Proof.
  rewrite in_side, !in_kind. split.
  - intros [(H1 & H2 & H3 & H4)|(H1 & H2 & H3 & H4)]; (split; [auto|]); exists (ei_rel (e_info e)); (split; [auto|]); (split; [auto|]);
      destruct (e_info e); simpl in *; congruence.
  - intros (H1 & r & [-> | ->] & H2 & ->); [left|right]; auto.
Qed.
Lemma joined_side s x y r c : (r = changing s \/ r = adjacent s) -> joins x y r k c -> step_aside g s k x y.
Proof.
  intros Hr (e & H1 & H2 & H3 & H4). exists e. split; [|exact H3]. apply in_side_joined. split; auto. exists r. split; auto. split; auto.
  rewrite H4. auto.
Qed.
Lemma side_joined s x e y : In e (side_edges g s k x) -> leads g e y -> exists r, (r = changing s \/ r = adjacent s) /\
  ei_rel (e_info e) = r /\ joins x y r k (ei_cost (e_info e)).
Proof.
  intros H Hl. apply in_side_joined in H as (H1 & r & Hr & H2 & H3). exists r. split; auto. rewrite H3 at 1. split; auto. exists e. auto.
Qed.
Hypothesis Hg : graph_ok g.
Lemma side_target s x e : In e (side_edges g s k x) -> exists y, leads g e y.
Proof.
  intros H. apply in_side_joined in H as (H & _). destruct (go_edges _ Hg _ H) as (_ & Ht & _). unfold leads.
  destruct (vertex_elem g (e_tgt e)) as [y|] eqn:E; eauto. apply nth_error_None in E. lia.
Qed.
Lemma built_single s : single_sided g s k.
Proof.
  intros x. destruct (side_edges g s k x) as [|e rest] eqn:E; [simpl; lia|].
  assert (He : In e (side_edges g s k x)) by (rewrite E; simpl; auto).
  destruct (side_target s x e He) as [y Hy]. destruct (side_joined s x e y He Hy) as (r & Hr & Hre & Hj).
  destruct (side_neighbour s x y r _ Hr Hj) as (a & b & -> & -> & Ha & Hb & Hn).
  (* all edges lead to b and have the relation r *)
  assert (Hall : forall e', In e' (side_edges g s k (L a)) -> leads g e' (L b) /\ ei_rel (e_info e') = r).
  { intros e' He'. destruct (side_target s _ e' He') as [y' Hy']. destruct (side_joined s _ e' y' He' Hy') as (r' & Hr' & Hre' & Hj').
    destruct (side_neighbour s _ y' r' _ Hr' Hj') as (a' & b' & Ha1 & -> & _ & Hb' & Hn'). apply L_inj in Ha1. subst a'.
    assert (b' = b) by (apply (one_beside _ _ _ (Hreg s) a); auto). subst b'. split; auto.
    destruct Hr as [-> | ->], Hr' as [-> | ->]; try congruence; exfalso; eapply not_both; eauto. }
  assert (Hp : length (parallel g (L a) (L b) r k) <= 1).
  { eapply edges_once'; eauto. intros ->. destruct Hr, s; discriminate. }
  assert (Hle : length (side_edges g s k (L a)) <= length (parallel g (L a) (L b) r k)).
  { unfold parallel. rewrite map_length. revert Hall. unfold side_edges. clear. induction (g_edges g) as [|x l IH]; simpl; intros Hall; auto.
    destruct (is_elem (vertex_elem g (e_src x)) (L a) && N.eqb (ei_costid (e_info x)) k &&
      (relation_eqb (ei_rel (e_info x)) (changing s) || relation_eqb (ei_rel (e_info x)) (adjacent s))) eqn:Ex.
    - destruct (Hall x (or_introl eq_refl)) as [Hl Hr]. unfold leads in Hl. apply andb_true_iff in Ex as [Ex _]. apply andb_true_iff in Ex as [E1 E2].
      rewrite E1, E2, (proj2 (is_elem_iff _ _) Hl), (proj2 (relation_eqb_iff _ _) Hr). simpl. apply le_n_S. apply IH. intros. apply Hall. simpl. auto.
    - etransitivity; [apply IH; auto|]. match goal with |- _ <= length (if ?b then _ else _) => destruct b end; simpl; auto. }
  rewrite E in Hle. lia.
Qed.
Lemma built_consistent : consistent g k.
Proof.
  intros s. split; [apply built_single|]. intros s' x y Hs' (e & He & Hy).
  replace s' with (opposite s) by (destruct s, s'; simpl; congruence). clear Hs' s'.
  destruct (side_joined s x e y He Hy) as (r & Hr & _ & Hj).
  destruct (side_neighbour s x y r _ Hr Hj) as (a & b & -> & -> & Ha & Hb & Hn).
  destruct (neighbour_joined (opposite s) b a Hb Ha (neighbour_opposite _ _ _ Hn)) as (r' & c' & Hr' & Hj').
  destruct (joined_side _ _ _ _ _ Hr' Hj') as (e' & He' & Hl'). exists e'. split; auto. apply in_single; auto. apply built_single.
Qed.
Lemma built_no_ring s : no_ring g s k.
Proof.
  assert (H : forall x y, clos_trans elem (step_aside g s k) x y -> exists a b, x = L a /\ y = L b /\
    clos_trans lref (fun a b => usable w ru a /\ usable w ru b /\ neighbour w s b a) a b).
  { intros x y H. induction H as [x y (e & He & Hy)|x y z _ (a & b & -> & -> & IH1) _ (b' & c & Hb & -> & IH2)].
    - destruct (side_joined s x e y He Hy) as (r & Hr & _ & Hj).
      destruct (side_neighbour s x y r _ Hr Hj) as (a & b & -> & -> & Ha & Hb & Hn). exists a, b. split; auto. split; auto. apply t_step. auto.
    - apply L_inj in Hb. subst b'. exists a, c. split; auto. split; auto. eapply t_trans; eauto. }
  intros x Hx. destruct (H x x Hx) as (a & b & -> & Hb & Hc). apply L_inj in Hb. subst b. apply (Hring s a Hc).
Qed.
Lemma walk_row s x l : lane_walk g s k x l -> forall a, x = L a -> usable w ru a ->
  exists bs, map fst l = map L bs /\ lane_row w ru s a bs.
Proof.
  intros Hw. induction Hw as [x H|x y e l He Hy Hw IH]; intros a -> Ha.
  - exists []. split; auto. constructor. intros b Hb Hn.
    destruct (neighbour_joined s a b Ha Hb Hn) as (r & c & Hr & Hj). destruct (joined_side _ _ _ _ _ Hr Hj) as (e & He & _).
    rewrite H in He. destruct He.
  - destruct (side_joined s _ e y He Hy) as (r & Hr & _ & Hj).
    destruct (side_neighbour s _ y r _ Hr Hj) as (a' & b & Ha' & -> & _ & Hb & Hn). apply L_inj in Ha'. subst a'.
    destruct (IH b eq_refl Hb) as (bs & Hbs & Hrow). exists (b :: bs). simpl. rewrite Hbs. split; auto. econstructor; eauto.
Qed.
End Built.
(** Neighbour edges of any module join lanelets. *)
Section Lanes.
Context {A : CostAlg} (one : cost A) (w : world) (ru : rules) (costs : list (@module A)).
Variables (g : graph A) (E0 : list (elem * elem * einfo A)) (cs : side -> collector) (Q : side -> list (list (lref * lref))).
Hypothesis one_good : good_cost one = true.
Hypothesis B : built one w ru costs g E0 cs Q.
Lemma built_lanes : graph_ok g -> lanes_only g.
Proof.
  intros Hg e He [s Hr].
  destruct (go_edges _ Hg _ He) as (Hs & Ht & _).
  destruct (vertex_elem g (e_src e)) as [x|] eqn:Ex; [|apply nth_error_None in Ex; lia].
  destruct (vertex_elem g (e_tgt e)) as [y|] eqn:Ey; [|apply nth_error_None in Ey; lia].
  assert (Hj : joined g x y (ei_rel (e_info e)) (ei_costid (e_info e)) (ei_cost (e_info e))).
  { exists e. split; auto. split; auto. split; auto. destruct (e_info e); auto. }
  assert (exists a b, x = L a /\ y = L b) as (a & b & -> & ->).
  { destruct Hr as [Hr|Hr]; rewrite Hr in Hj.
    - rewrite (joined_iff one w ru costs g E0 cs Q B) in Hj. apply in_F in Hj as [H|[[s' H]|H]].
      + exfalso. revert H. apply (rel_E0_changing one w ru costs g E0 cs Q B).
      + apply in_flat_map in H as (q & _ & H). apply contrib_ends in H as (a & b & _ & H). simpl in H. injection H as -> ->. eauto.
      + apply area_rel in H as [[H|H] _]; destruct s; discriminate.
    - apply (adjacent_sound one w ru costs one_good g E0 cs Q B) in Hj as (a & b & -> & -> & _). eauto. }
  split; intros z [= <-]; auto.
Qed.
End Lanes.
