(** Proofs about followingRelations and previousRelations. *)
From Coq Require Import NArith ZArith List Bool Arith Lia.
From Verif Require Import CostAlg GraphModel GraphSpec GraphProofs GraphProofs2 TrafficModel BuilderModel BuilderSpec BuilderProofs BuilderProofs2
  BuilderProofs3 BuilderProofs4 NextModel.
Import ListNotations.
Local Open Scope nat_scope.

Section Order.
Context {A : CostAlg}.
Variable one : cost A.
Variable w : world.
Variable ru : rules.
Variable costs : list (@module A).
Variable order : list (lref * lref) -> list (lref * lref).
Hypothesis one_finite : cfinite A one = true.
Implicit Types g : graph A.

(** Edges of the same two vertices come by batches, one edge per module beginning with module 0; this one is missing only if its cost is not
    finite. *)
Definition missing g (u v : nat) (r : relation) : Prop :=
  (r = Successor \/ r = RArea) /\
  exists a b m, get_vertex g a = Some u /\ get_vertex g b = Some v /\ hd_error costs = Some m /\ cfinite A (m_succeeding m a b) = false.
Definition zero_before (pre : list (edge A)) (u v : nat) : Prop :=
  exists e, In e pre /\ e_src e = u /\ e_tgt e = v /\ ei_costid (e_info e) = 0%N.
Definition batched g : Prop :=
  forall pre e post, g_edges g = pre ++ e :: post -> ei_costid (e_info e) <> 0%N ->
    zero_before pre (e_src e) (e_tgt e) \/ missing g (e_src e) (e_tgt e) (ei_rel (e_info e)).

Lemma put_cases g a b i g' : put g a b i = Ok g' ->
  (g' = g /\ (get_vertex g a = None \/ get_vertex g b = None \/ cfinite A (ei_cost i) = false)) \/
  (exists u v, get_vertex g a = Some u /\ get_vertex g b = Some v /\
     g' = Graph (g_verts g) (g_lookup g) (g_edges g ++ [Edge u v i]) (g_numcosts g)).
Proof.
  unfold put, add_edge. destruct (get_vertex g a) as [u|]; [|intros [= <-]; auto]. destruct (get_vertex g b) as [v|]; [|intros [= <-]; auto].
  unfold add_edge_v. destruct (cfinite A (ei_cost i)) eqn:F; cbn [negb]; [|intros [= <-]; auto].
  destruct (cltb A (ei_cost i) (czero A)); [discriminate|]. intros [= <-]. right. exists u, v. auto.
Qed.

Lemma batched_add g u v i : batched g ->
  (ei_costid i <> 0%N -> zero_before (g_edges g) u v \/ missing g u v (ei_rel i)) ->
  batched (Graph (g_verts g) (g_lookup g) (g_edges g ++ [Edge u v i]) (g_numcosts g)).
Proof.
  intros B H pre e post E N. cbn [g_edges] in E. destruct (exists_last (l := e :: post)) as (l & x & El); [discriminate|].
  destruct post as [|y post'].
  - apply app_inj_tail in E as [E <-]. subst pre. cbn in *. destruct (H N) as [Z|M]; [left; auto|right; exact M].
  - destruct (exists_last (l := y :: post')) as (l' & x' & El'); [discriminate|]. rewrite El' in E.
    rewrite app_comm_cons, app_assoc in E. apply app_inj_tail in E as [E _].
    destruct (B pre e l' E N) as [Z|M]; [left; auto|right; exact M].
Qed.

(** A batch: the loop over the modules for one pair of elements *)
Lemma batch_ok (f : N * @module A -> einfo A) g a b g' :
  (forall km, ei_costid (f km) = fst km) ->
  (forall m, hd_error costs = Some m -> cfinite A (ei_cost (f (0%N, m))) = true \/
     (cfinite A (m_succeeding m a b) = false /\ forall km, ei_rel (f km) = Successor \/ ei_rel (f km) = RArea)) ->
  batched g -> each (fun g km => put g a b (f km)) g (modules costs) = Ok g' -> batched g'.
Proof.
  intros Hid H0 B. unfold modules. destruct costs as [|m ms] eqn:Ec; [intros [= <-]; auto|]. cbn [length seq map combine each].
  intros E. apply bind_ok in E as (g1 & P & E).
  destruct (get_vertex g a) as [u|] eqn:Eu.
  2:{ assert (K : forall l g2, get_vertex g2 a = None -> each (fun g km => put g a b (f km)) g2 l = Ok g' -> g' = g2).
      { induction l as [|x l IH]; intros g2 K; cbn [each]; [intros [= <-]; auto|]. intros X. apply bind_ok in X as (g3 & P3 & X).
        unfold put, add_edge in P3. rewrite K in P3. injection P3 as <-. auto. }
      unfold put, add_edge in P. rewrite Eu in P. injection P as <-. apply K in E; auto. subst. auto. }
  destruct (get_vertex g b) as [v|] eqn:Ev.
  2:{ assert (K : forall l g2, get_vertex g2 b = None -> each (fun g km => put g a b (f km)) g2 l = Ok g' -> g' = g2).
      { induction l as [|x l IH]; intros g2 K; cbn [each]; [intros [= <-]; auto|]. intros X. apply bind_ok in X as (g3 & P3 & X).
        unfold put, add_edge in P3. rewrite K in P3. destruct (get_vertex g2 a); injection P3 as <-; auto. }
      unfold put, add_edge in P. rewrite Eu, Ev in P. injection P as <-. apply K in E; auto. subst. auto. }
  set (I := fun g2 : graph A => batched g2 /\ get_vertex g2 a = Some u /\ get_vertex g2 b = Some v /\
     (zero_before (g_edges g2) u v \/ (cfinite A (m_succeeding m a b) = false /\ forall km, ei_rel (f km) = Successor \/ ei_rel (f km) = RArea))).
  assert (I1 : I g1).
  { destruct (put_cases _ _ _ _ _ P) as [(-> & C)|(u' & v' & Eu' & Ev' & ->)].
    - split; auto. split; auto. split; auto. right. destruct (H0 m eq_refl) as [F|M]; auto. exfalso.
      destruct C as [C|[C|C]]; [congruence|congruence|]. change (cfinite A (ei_cost (f (0%N, m))) = false) in C. congruence.
    - rewrite Eu in Eu'. injection Eu' as <-. rewrite Ev in Ev'. injection Ev' as <-. split.
      + apply batched_add; auto. rewrite Hid. cbn. congruence.
      + split; auto. split; auto. left. exists (Edge u v (f (0%N, m))). cbn. rewrite in_app_iff, Hid. cbn. auto. }
  assert (K : forall l g2, I g2 -> (forall km, In km l -> fst km <> 0%N) -> each (fun g km => put g a b (f km)) g2 l = Ok g' -> I g').
  { induction l as [|x l IH]; intros g2 I2 Nz; cbn [each]; [intros [= <-]; auto|]. intros X. apply bind_ok in X as (g3 & P3 & X).
    eapply IH; [|intros km K; apply Nz; cbn; auto|exact X]. destruct I2 as (B2 & V1 & V2 & C).
    destruct (put_cases _ _ _ _ _ P3) as [(-> & _)|(u' & v' & Eu' & Ev' & ->)]; [exact (conj B2 (conj V1 (conj V2 C)))|].
    rewrite V1 in Eu'. injection Eu' as <-. rewrite V2 in Ev'. injection Ev' as <-. split.
    - apply batched_add; auto. intros _. destruct C as [Z|[M R]]; [left; auto|]. right. split; [apply R|]. exists a, b, m. rewrite Ec. auto.
    - split; auto. split; auto. destruct C as [(e & He & C)|C]; [left|right; auto]. exists e. cbn. rewrite in_app_iff. auto. }
  apply (K _ _ I1) in E; [apply E|]. intros [k m'] K'. apply in_combine_l in K'. apply in_map_iff in K' as (n & <- & K'). apply in_seq in K'. cbn. lia.
Qed.

Lemma assign_batched g a b r g' : batched g -> assign_costs one costs g a b r = Ok g' -> batched g'.
Proof.
  intros B. unfold assign_costs. apply batch_ok; auto. intros m Hm. cbn [ei_cost ei_rel fst snd edge_cost].
  destruct r; cbn [edge_cost]; auto; destruct (cfinite A (m_succeeding m a b)) eqn:F; auto.
Qed.

Lemma each_batched {T} (f : graph A -> T -> res (graph A)) l : (forall g x g', batched g -> f g x = Ok g' -> batched g') ->
  forall g g', batched g -> each f g l = Ok g' -> batched g'.
Proof.
  intros H. induction l as [|x l IH]; cbn [each]; intros g g' B; [intros [= <-]; auto|]. intros E. apply bind_ok in E as (g1 & E1 & E). eauto.
Qed.

Lemma following_batched idx g l g' : batched g -> add_following one w ru costs idx g l = Ok g' -> batched g'.
Proof.
  intros B E. unfold add_following in E. apply bind_ok in E as (k & _ & E). revert E. apply each_batched; auto.
  intros g1 x g2 B1. apply assign_batched. auto.
Qed.
Lemma sideway_batched s idx l st st' : batched (fst st) -> add_sideway one w ru costs s idx l st = Ok st' -> batched (fst st').
Proof.
  intros B E. unfold add_sideway in E. apply bind_ok in E as (k & _ & E). revert st st' B E. induction (equal_range idx k) as [|b bs IH]; cbn [each].
  - intros st st' B [= <-]. auto.
  - intros [g c] st' B E. apply bind_ok in E as ([g1 c1] & E1 & E). apply (IH (g1, c1)); auto. cbn [fst] in *.
    destruct (_ && _); [|injection E1 as <- <-; auto]. destruct (may_change ru l b); [injection E1 as <- <-; auto|].
    apply bind_ok in E1 as (g2 & E2 & E1). injection E1 as <- <-. eapply assign_batched; eauto.
Qed.
Lemma conflicting_batched g l g' : batched g -> add_conflicting one w ru costs g l = Ok g' -> batched g'.
Proof.
  intros B. unfold add_conflicting. apply each_batched; auto. clear - one_finite. intros g d g' B E.
  destruct (_ && _); [|destruct (has_edge _ _ _); [injection E as <-; auto|]; destruct (_ || _); [injection E as <-; auto|];
    destruct (overlaps _ _ _); [|injection E as <-; auto]];
  (apply bind_ok in E as (g1 & E1 & E); eapply assign_batched; [eapply assign_batched; eauto|eauto]).
Qed.
Lemma assign_change_batched s seq : forall g g', batched g -> assign_change one costs s g seq = Ok g' -> batched g'.
Proof.
  induction seq as [|[x y] seq IH]; intros g g' B; cbn [assign_change]; [intros [= <-]; auto|]. intros E. apply bind_ok in E as (g1 & E1 & E).
  apply (IH g1); auto. revert E1. apply batch_ok; auto.
  - intros [k m]. unfold change_info. destruct (negb _); reflexivity.
  - intros m _. left. unfold change_info. cbn [fst snd]. destruct (cfinite A (m_change m _ _)) eqn:F; cbn [negb ei_cost]; auto.
Qed.
Lemma change_batched s g c g' : batched g -> change_edges one costs order s g c = Ok g' -> batched g'.
Proof.
  intros B E. unfold change_edges in E. apply bind_ok in E as ([g1 v1] & E & E'). injection E' as <-.
  assert (K : forall l st st', batched (fst st) -> each (fun (st : graph A * list lref) e => let (g, v) := st in
    if visited v (fst e) then Ok st else bind (sequence g c v (fst e) (snd e)) (fun r =>
         bind (assign_change one costs s g (fst r)) (fun g' => Ok (g', snd r)))) st l = Ok st' -> batched (fst st')).
  { induction l as [|x l IH]; cbn [each]; [intros st st' B1 [= <-]; auto|]. intros [g2 v2] st' B1 X. apply bind_ok in X as ([g3 v3] & X1 & X).
    apply (IH (g3, v3)); auto. destruct (visited v2 (fst x)); [injection X1 as <- <-; auto|].
    apply bind_ok in X1 as (r & _ & X1). apply bind_ok in X1 as (g4 & X2 & X1). injection X1 as <- <-. eapply assign_change_batched; eauto. }
  exact (K (order c) (g, []) (g1, v1) B E).
Qed.
Lemma cond_batched (b : bool) g x y r g' : batched g -> (if b then assign_costs one costs g x y r else Ok g) = Ok g' -> batched g'.
Proof. destruct b; [apply assign_batched|intros B [= <-]; auto]. Qed.
Lemma areas_batched g g' : batched g -> area_edges one w ru costs g = Ok g' -> batched g'.
Proof.
  intros B. unfold area_edges. apply each_batched; auto. clear B g g'. intros g a g' B E. apply bind_ok in E as (g1 & E1 & E).
  assert (B1 : batched g1).
  { revert E1. unfold area_lanelets. apply each_batched; auto. clear - one_finite. intros g d g' B E. cbv zeta in E.
    apply bind_ok in E as (g1 & E1 & E). apply bind_ok in E as (g2 & E2 & E). apply bind_ok in E as (g3 & E3 & E). apply bind_ok in E as (g4 & E4 & E).
    apply cond_batched in E1; auto. apply cond_batched in E2; auto. apply cond_batched in E3; auto. apply cond_batched in E4; auto.
    destruct (_ || _); [injection E as <-; auto|]. destruct (w_meet_area _ _ _); [|injection E as <-; auto]. eapply assign_batched; eauto. }
  revert E. unfold area_areas. apply each_batched; auto. clear - one_finite. intros g b g' B E. destruct (N.eqb b a); [injection E as <-; auto|].
  destruct (may_pass _ _ _); [eapply assign_batched; eauto|]. destruct (w_meet_areas _ _ _); [|injection E as <-; auto]. eapply assign_batched; eauto.
Qed.

Lemma no_edges_batched g : g_edges g = [] -> batched g.
Proof. intros E pre e post H. rewrite E in H. destruct pre; discriminate. Qed.

Lemma build_batched g : build one w ru costs order = Ok g -> batched g.
Proof.
  intros H. unfold build in H. apply bind_ok in H as ([g0 i0] & H0 & H). cbn [fst snd] in H.
  assert (E0 : g_edges g0 = []).
  { assert (K : forall l (st st' : graph A * index), g_edges (fst st) = [] ->
      each (fun (st : graph A * index) l => bind (add_points w (snd st) l) (fun idx => Ok (add_vertex (fst st) (L l), idx))) st l = Ok st' ->
      g_edges (fst st') = []).
    { induction l as [|x l IH]; cbn [each]; [intros st st' B1 [= <-]; auto|]. intros st st' B1 X. apply bind_ok in X as (s1 & X1 & X).
      apply (IH s1); auto. apply bind_ok in X1 as (i & _ & X1). injection X1 as <-. auto. }
    apply (K _ _ _ (eq_refl : g_edges (fst (empty_graph (N.of_nat (length costs)), [] : index)) = []) H0). }
  assert (E1 : forall l g1, g_edges g1 = [] -> g_edges (fold_left (@add_vertex A) l g1) = []).
  { induction l as [|x l IH]; intros g1 E; cbn [fold_left]; auto. }
  apply bind_ok in H as (g3 & H & Har). eapply areas_batched; [|exact Har].
  unfold lanelet_edges in H. apply bind_ok in H as ([[g1 cl] cr] & H1 & H). apply bind_ok in H as (g2 & HL & HR).
  eapply change_batched; [|exact HR]. eapply change_batched; [|exact HL].
  assert (K : forall l st st', batched (fst (fst st)) -> each (fun (st : graph A * collector * collector) l =>
    let '(g, cl, cr) := st in
    bind (add_following one w ru costs i0 g l) (fun g =>
    bind (add_sideway one w ru costs SLeft i0 l (g, cl)) (fun gl =>
    bind (add_sideway one w ru costs SRight i0 l (fst gl, cr)) (fun gr =>
    bind (add_conflicting one w ru costs (fst gr) l) (fun g => Ok (g, snd gl, snd gr)))))) st l = Ok st' -> batched (fst (fst st'))).
  { induction l as [|x l IH]; cbn [each]; [intros st st' B1 [= <-]; auto|]. intros [[ga ca] cb] st' B1 X. apply bind_ok in X as (s1 & X1 & X).
    apply (IH s1); auto. apply bind_ok in X1 as (ga1 & Y1 & X1). apply bind_ok in X1 as (gl & Y2 & X1). apply bind_ok in X1 as (gr & Y3 & X1).
    apply bind_ok in X1 as (gb & Y4 & X1). injection X1 as <-. cbn [fst].
    eapply conflicting_batched; [|exact Y4]. apply (sideway_batched SRight i0 x (fst gl, cb) gr); [|exact Y3]. cbn [fst]. apply (sideway_batched SLeft i0 x (ga1, ca) gl); [|exact Y2].
    cbn [fst] in *. eapply following_batched; eauto. }
  exact (K _ (_, [], []) _ (no_edges_batched _ (E1 _ _ E0)) H1).
Qed.
End Order.

Lemma find_first {T} (f : T -> bool) l x : find f l = Some x ->
  exists pre post, l = pre ++ x :: post /\ f x = true /\ forall y, In y pre -> f y = false.
Proof.
  induction l as [|y l IH]; cbn [find]; [discriminate|]. destruct (f y) eqn:E.
  - intros [= <-]. exists [], l. split; [reflexivity|]. split; [exact E|]. intros z [].
  - intros H. destruct (IH H) as (pre & post & -> & K & N). exists (y :: pre), post. split; [reflexivity|]. split; auto. intros z [<-|Z]; auto.
Qed.
Lemma concat_key {T K} (f : T -> K) (Q : list (list T)) q q' x y : NoDup (map f (concat Q)) -> In q Q -> In q' Q -> In x q -> In y q' ->
  f x = f y -> q = q'.
Proof.
  induction Q as [|p Q IH]; cbn [concat]; intros N; [intros []|]. rewrite map_app in N. destruct (NoDup_app_remove _ _ N) as (_ & N2 & D).
  assert (X : forall z r, In r Q -> In z r -> In (f z) (map f (concat Q))).
  { intros z r Hr Hz. apply in_map. apply in_concat. eauto. }
  intros [<-|Hq] [<-|Hq'] Hx Hy E; [reflexivity| | |apply (IH N2); auto].
  - exfalso. apply (D (f x)); [apply in_map; auto|]. rewrite E. eauto.
  - exfalso. apply (D (f y)); [apply in_map; auto|]. rewrite <- E. eauto.
Qed.
Lemma split_key {T K} (f : T -> K) pre x post : forall pre' y post', NoDup (map f (pre ++ x :: post)) ->
  pre ++ x :: post = pre' ++ y :: post' -> f x = f y -> x = y /\ post = post'.
Proof.
  induction pre as [|p pre IH]; intros [|p' pre'] y post' N E F; cbn [app map] in *.
  - injection E as -> ->. auto.
  - exfalso. injection E as -> E. inversion N as [|? ? N1 _]; subst. apply N1. rewrite F, map_app, in_app_iff. cbn. auto.
  - exfalso. injection E as -> E. inversion N as [|? ? N1 _]; subst. apply N1. rewrite <- F, map_app, in_app_iff. cbn. auto.
  - injection E as -> E. inversion N; subst. eapply IH; eauto.
Qed.

Section Answers.
Context {A : CostAlg}.
Variable one : cost A.
Variable w : world.
Variable ru : rules.
Variable costs : list (@module A).
Hypothesis one_good : good_cost one = true.
Hypothesis Hsane : sane w ru.
Variables (g : graph A) (E0 : list (elem * elem * einfo A)) (cs : side -> collector) (Q : side -> list (list (lref * lref))).
Hypothesis B : built one w ru costs g E0 cs Q.
Hypothesis Hbat : batched costs g.
Hypothesis Hok : graph_ok g.
Hypothesis Hcan : canonical g.
Hypothesis Hnum : (0 < g_numcosts g)%N.
Variable m0 : @module A.
Hypothesis Hm0 : hd_error costs = Some m0.

Lemma m0_nth : nth_error costs (N.to_nat 0) = Some m0.
Proof. destruct costs; [discriminate|]. injection Hm0 as ->. reflexivity. Qed.

Notation jn := (BuilderSpec.joined g).
Lemma edge_is_joined e x y : In e (g_edges g) -> vertex_elem g (e_src e) = Some x -> vertex_elem g (e_tgt e) = Some y ->
  jn x y (ei_rel (e_info e)) (ei_costid (e_info e)) (ei_cost (e_info e)).
Proof. intros He Hx Hy. exists e. split; auto. split; auto. split; auto. destruct (e_info e); auto. Qed.

(** Successors are not among the pairs for lane changes. *)
Lemma joined_slk a b k c : jn (L a) (L b) Successor k c -> slk one w ru costs a b.
Proof.
  intros J. apply (joined_iff one w ru costs g E0 cs Q B) in J. apply (succ_in_E0 one w ru costs E0 Q) in J.
  destruct (state_succ_in _ _ _ _ _ _ _ _ (bt_state _ _ _ _ _ _ _ _ B) J eq_refl) as (p & _ & H).
  pose proof H as H'. apply in_succ_of in H' as (n & E1 & E2 & _). apply L_inj in E1, E2. subst p n. exists (EInfo c k Successor). exact H.
Qed.
Lemma changing_coll s a b k c : jn (L a) (L b) (changing s) k c -> In (a, b) (cs s).
Proof.
  intros J. apply (joined_iff one w ru costs g E0 cs Q B) in J. apply in_F in J as [H|[[s' H]|H]].
  - exfalso. eapply (rel_E0_changing one w ru costs g E0 cs Q B); eauto.
  - pose proof (contrib_rel one w ru costs Q _ _ H) as Hs. cbn in Hs. assert (s' = s) as -> by (destruct s, s', Hs; cbn in *; congruence).
    apply (contrib_sound one w ru costs one_good g E0 cs Q B) in H as (a' & b' & pre & post & k' & m & _ & _ & Hc & Heq & _).
    injection Heq as H1 H2 H3 H4. destruct a, b, a', b'; cbn in *; subst; auto.
  - apply (area_rel one w ru costs) in H as [[H|H] _]; destruct s; discriminate.
Qed.
Lemma coll_not_slk s a b : In (a, b) (cs s) -> ~ slk one w ru costs a b.
Proof. intros H. apply (st_coll_sound _ _ _ _ _ _ _ (bt_state _ _ _ _ _ _ _ _ B)) in H. apply H. Qed.
Lemma coll_change s a b : In (a, b) (cs s) -> changeable w ru s (a, b).
Proof. intros H. apply (coll_sound one w ru costs g E0 cs Q B) in H. apply H. Qed.

Definition driving (r : relation) : Prop := r = Successor \/ r = RLeft \/ r = RRight.
Lemma driving_cases a b r k c : driving r -> jn (L a) (L b) r k c ->
  (r = Successor /\ slk one w ru costs a b) \/ (exists s, r = changing s /\ In (a, b) (cs s)).
Proof.
  intros [->|[->| ->]] J.
  - left. split; auto. eapply joined_slk; eauto.
  - right. exists SLeft. split; auto. eapply (changing_coll SLeft); eauto.
  - right. exists SRight. split; auto. eapply (changing_coll SRight); eauto.
Qed.

Lemma no_none x y k c : ~ jn x y RNone k c.
Proof.
  intros J. apply (joined_iff one w ru costs g E0 cs Q B), in_F in J as [H|[[s H]|H]].
  - apply (st_rel _ _ _ _ _ _ _ (bt_state _ _ _ _ _ _ _ _ B)) in H. cbn in H. repeat (destruct H as [H|H]; [discriminate|]). destruct H.
  - apply (contrib_rel one w ru costs Q) in H. destruct s, H; discriminate.
  - apply (area_rel one w ru costs) in H as [[H|H] _]; discriminate.
Qed.

(** What routingRelation sees *)
Lemma relation_found a b r c : driving r -> jn (L a) (L b) r 0 c ->
  exists r' c', routing_relation g (L a) (L b) false = Ret (Some r') /\ jn (L a) (L b) r' 0 c'.
Proof.
  intros D J. pose proof J as (e0 & He & Hs & Ht & Hi).
  pose proof (src_vertex _ Hok Hcan _ _ He Hs) as Vs. pose proof (tgt_vertex _ Hok Hcan _ _ He Ht) as Vt.
  unfold routing_relation, get_filtered. destruct (N.leb_spec (g_numcosts g) 0); [lia|].
  unfold get_edge_info_for. cbn [v_graph v_costid v_mask]. rewrite Vs, Vt.
  destruct (first_edge g (e_src e0) (e_tgt e0)) as [e1|] eqn:F.
  2:{ exfalso. apply (find_none _ _ F) in He. rewrite !Nat.eqb_refl in He. discriminate. }
  apply find_first in F as (pre & post & El & Hf & Hpre). apply andb_true_iff in Hf as [F1 F2]. apply Nat.eqb_eq in F1, F2.
  assert (H1 : In e1 (g_edges g)) by (rewrite El; apply in_elt).
  assert (J1 := edge_is_joined e1 (L a) (L b) H1 ltac:(rewrite F1; auto) ltac:(rewrite F2; auto)).
  destruct (N.eq_dec (ei_costid (e_info e1)) 0) as [Z|Z].
  - assert (edge_passes 0 (view_mask WithoutConflicting) (e_info e1) = true) as ->.
    { unfold edge_passes. rewrite Z. destruct (ei_rel (e_info e1)); try reflexivity. destruct (no_none _ _ _ _ J1). }
    cbn [option_map]. rewrite Z in J1. eauto.
  - exfalso. destruct (Hbat pre e1 post El Z) as [(e & Hin & S1 & S2 & _)|([R|R] & a' & b' & m & Va & Vb & Hm & Inf)].
    + apply Hpre in Hin. rewrite S1, S2, F1, F2, !Nat.eqb_refl in Hin. discriminate.
    + rewrite R in J1. apply joined_slk in J1 as Sl. rewrite F1 in Va. rewrite F2 in Vb.
      destruct (go_lookup _ Hok _ _ Va) as [Va' _]. destruct (go_lookup _ Hok _ _ Vb) as [Vb' _]. rewrite Hs in Va'. rewrite Ht in Vb'.
      injection Va' as <-. injection Vb' as <-. rewrite Hm0 in Hm. injection Hm as <-.
      destruct (driving_cases _ _ _ _ _ D J) as [[-> _]|(s & _ & C)]; [|exact (coll_not_slk _ _ _ C Sl)].
      apply (successor_iff one w ru costs one_good g E0 cs Q B) in J as (x & y & m & Ex & Ey & _ & _ & _ & _ & Em & Ec & G).
      apply L_inj in Ex, Ey. subst x y. rewrite m0_nth in Em. injection Em as <-. subst c. unfold good_cost in G. unfold L in *. rewrite Inf in G. discriminate.
    + rewrite R in J1. apply (area_iff one w ru costs one_good Hsane g E0 cs Q B) in J1 as (_ & _ & [[z C]|[z C]] & _); discriminate.
Qed.

(** The relation is the right one for different lanelets that do not touch on both sides. *)
Lemma relation_right a b r c r' c' : ~ (neighbour w SLeft b a /\ neighbour w SRight b a) -> fst a <> fst b ->
  driving r -> jn (L a) (L b) r 0 c -> jn (L a) (L b) r' 0 c' -> r' = r.
Proof.
  intros Hn Hf D J J'. destruct (driving_cases _ _ _ _ _ D J) as [[-> Sl]|(s & -> & C)].
  - (* driving on *)
    assert (Hns : forall s, ~ In (a, b) (cs s)) by (intros s C; exact (coll_not_slk _ _ _ C Sl)).
    destruct r'; auto; exfalso.
    all: try (exact (no_none _ _ _ _ J')).
    all: try (apply (changing_coll SLeft) in J'; exact (Hns _ J')).
    all: try (apply (changing_coll SRight) in J'; exact (Hns _ J')).
    all: try (apply (area_iff one w ru costs one_good Hsane g E0 cs Q B) in J' as (_ & _ & [[z C]|[z C]] & _); discriminate).
    all: try (apply (conflict_iff one w ru costs one_good Hsane g E0 cs Q B) in J' as (_ & _ & _ & _ & [->|(_ & _ & T & _)]);
              [apply Hf; reflexivity|apply T; right; left; eapply slk_continued; eauto]).
    all: apply (joined_iff one w ru costs g E0 cs Q B), in_F in J' as [H|[[s H]|H]].
    all: try (apply (area_rel one w ru costs) in H as [[H|H] _]; discriminate).
    all: try (apply (contrib_sound one w ru costs one_good g E0 cs Q B) in H as (a' & b' & pre & post & k' & m & _ & _ & Hc & Heq & _);
              injection Heq as H1 H2 H3 H4; apply (Hns s); destruct a, b, a', b'; cbn in *; subst; exact Hc).
    + apply (st_side_sound _ _ _ _ _ _ _ (bt_state _ _ _ _ _ _ _ _ B) SLeft) in H as (x & y & Ex & Ey & _ & _ & _ & _ & _ & K).
      apply L_inj in Ex, Ey. subst. auto.
    + apply (st_side_sound _ _ _ _ _ _ _ (bt_state _ _ _ _ _ _ _ _ B) SRight) in H as (x & y & Ex & Ey & _ & _ & _ & _ & _ & K).
      apply L_inj in Ex, Ey. subst. auto.
  - (* changing the lane *)
    destruct (coll_change _ _ _ C) as (Ua & Ub & Nb & Mc). cbn [fst snd] in *.
    assert (Same : forall s', neighbour w s' b a -> s' = s) by (intros s' N'; destruct s, s'; auto; exfalso; apply Hn; auto).
    assert (Run : forall s' t, In (L a, L b, t) (flat_map (contrib one w ru costs s') (Q s')) -> ei_costid t = 0%N -> ei_rel t = changing s).
    { intros s' t Ht Zt. pose proof Ht as Ht'.
      apply (contrib_sound one w ru costs one_good g E0 cs Q B) in Ht as (a' & b' & pre & post & k' & m & Hq & Hm & Hc & Heq & _).
      assert (a' = a /\ b' = b) as [-> ->] by (injection Heq; destruct a, b, a', b'; cbn; intros; subst; auto).
      assert (s' = s) as -> by (apply Same; apply (coll_change _ _ _ Hc)).
      apply (joined_iff one w ru costs g E0 cs Q B) in J. apply in_F in J as [H|[[s' H]|H]].
      - exfalso. eapply (rel_E0_changing one w ru costs g E0 cs Q B); eauto.
      - pose proof (contrib_rel one w ru costs Q _ _ H) as Hs'. cbn in Hs'. assert (s' = s) as -> by (destruct s, s', Hs'; cbn in *; congruence).
        apply (contrib_sound one w ru costs one_good g E0 cs Q B) in H as (a' & b' & pre' & post' & k2 & m2 & Hq2 & Hm2 & Hc2 & Heq2 & _).
        assert (a' = a /\ b' = b) as [-> ->] by (injection Heq2; destruct a, b, a', b'; cbn; intros; subst; auto).
        pose proof (run_keys one w ru costs g E0 cs Q B s) as Nk.
        assert (Eq : pre ++ (a, b) :: post = pre' ++ (a, b) :: post').
        { eapply (concat_key fst); eauto; apply in_elt. }
        assert (Nq : NoDup (map fst (pre ++ (a, b) :: post))).
        { clear - Nk Hq. induction (Q s) as [|q qs IH]; [destruct Hq|]. cbn [concat] in Nk. rewrite map_app in Nk.
          destruct (NoDup_app_remove _ _ Nk) as (N1 & N2 & _). destruct Hq as [->|Hq]; auto. }
        destruct (split_key fst pre (a, b) post pre' (a, b) post' Nq Eq eq_refl) as [_ <-].
        injection Heq as Heq. injection Heq2 as Heq2.
        assert (K1 : forall n x y (mm : @module A), ei_costid (change_info one (n, mm) s x y) = n)
          by (intros; unfold change_info; destruct (negb _); reflexivity).
        rewrite Heq, K1 in Zt. subst k'. assert (k2 = 0%N) by (rewrite <- (K1 k2 (a :: map fst post) (b :: map snd post) m2), <- Heq2; reflexivity). subst k2.
        rewrite Hm in Hm2. injection Hm2 as <-. rewrite Heq, <- Heq2. reflexivity.
      - apply (area_rel one w ru costs) in H as [[H|H] _]; destruct s; discriminate. }
    pose proof J' as J2. apply (joined_iff one w ru costs g E0 cs Q B), in_F in J' as [H|[[s' H]|H]].
    + assert (R := st_rel _ _ _ _ _ _ _ (bt_state _ _ _ _ _ _ _ _ B) _ H). cbn in R. exfalso.
      destruct R as [<-|[<-|[<-|[<-|[]]]]].
      * exact (coll_not_slk _ _ _ C (joined_slk _ _ _ _ J2)).
      * apply (st_side_sound _ _ _ _ _ _ _ (bt_state _ _ _ _ _ _ _ _ B) SLeft) in H as (x & y & Ex & Ey & _ & _ & _ & _ & K & _).
        apply L_inj in Ex, Ey. subst. congruence.
      * apply (st_side_sound _ _ _ _ _ _ _ (bt_state _ _ _ _ _ _ _ _ B) SRight) in H as (x & y & Ex & Ey & _ & _ & _ & _ & K & _).
        apply L_inj in Ex, Ey. subst. congruence.
      * apply (conflict_iff one w ru costs one_good Hsane g E0 cs Q B) in J2 as (_ & _ & _ & _ & [->|(_ & _ & T & _)]);
          [apply Hf; reflexivity|]. apply T. left. exists s. left. exact Nb.
    + exact (Run s' _ H eq_refl).
    + exfalso. assert (K : exists x, L a = EArea x \/ L b = EArea x); [|destruct K as (x & [K|K]); discriminate].
      apply (area_rel one w ru costs) in H as [[H|H] Hx]; cbn in H; subst r'.
      * apply (area_iff one w ru costs one_good Hsane g E0 cs Q B) in J2 as (_ & _ & [[z C']|[z C']] & _); eauto.
      * exact Hx.
Qed.
End Answers.

Section Graph.
Context {A : CostAlg}.
Variable g : graph A.
Hypothesis Hok : graph_ok g.
Hypothesis Hcan : canonical g.

(** The loops *)
Lemma with_relation_got a l (P : elem -> relation -> Prop) :
  (forall b, In b l -> exists r, routing_relation g a b false = Ret (Some r) /\ P b r) ->
  exists rs, with_relation g a l = Got rs /\ map fst rs = l /\ forall b r, In (b, r) rs -> P b r.
Proof.
  induction l as [|b l IH]; intros H.
  - exists []. split; [reflexivity|]. split; [reflexivity|]. intros ? ? [].
  - destruct (H b (or_introl eq_refl)) as (r & E & K). destruct IH as (rs & E' & M & K'); [intros; apply H; right; auto|].
    exists ((b, r) :: rs). cbn [with_relation]. rewrite E. cbn [asked and_then]. rewrite E'. cbn [and_then map fst].
    split; [reflexivity|]. split; [congruence|]. intros b' r' [[= <- <-]|Hin]; auto.
Qed.
Lemma with_relation_back_got ch a l (P : elem -> relation -> Prop) :
  (forall b, In b l -> exists r, routing_relation g b a false = Ret (Some r) /\ P b r) ->
  exists rs, with_relation_back ch g a l = Got rs /\ map fst rs = l /\ forall b r, In (b, r) rs -> P b r.
Proof.
  induction l as [|b l IH]; intros H.
  - exists []. split; [reflexivity|]. split; [reflexivity|]. intros ? ? [].
  - destruct (H b (or_introl eq_refl)) as (r & E & K). destruct IH as (rs & E' & M & K'); [intros; apply H; right; auto|].
    exists ((b, r) :: rs). cbn [with_relation_back]. rewrite E. cbn [asked and_then]. rewrite E'. cbn [and_then map fst].
    split; [reflexivity|]. split; [congruence|]. intros b' r' [[= <- <-]|Hin]; auto.
Qed.
End Graph.
