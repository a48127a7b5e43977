From Coq Require Import NArith List Bool Arith Lia.
From Verif Require Import CostAlg GraphModel GraphSpec.
Import ListNotations.

Lemma elem_eqb_eq a b : elem_eqb a b = true <-> a = b.
Proof.
  destruct a, b; simpl; try (split; congruence).
  - rewrite andb_true_iff, N.eqb_eq, eqb_true_iff. split; [intros [-> ->]; auto|intros H; injection H; auto].
  - rewrite N.eqb_eq. split; [intros ->; auto|intros H; injection H; auto].
Qed.

Section Proofs.
Context {A : CostAlg}.

(** * Views *)
Lemma view_exact (n : view_name) (costid : N) (i : einfo A) :
  n <> WithoutConflicting ->
  edge_passes costid (view_mask n) i = true <-> ei_costid i = costid /\ In (ei_rel i) (advertised n).
Proof.
  intros Hn. unfold edge_passes. rewrite andb_true_iff, N.eqb_eq.
  generalize (ei_costid i = costid), (ei_rel i). intros X r.
  destruct n, r; try congruence; vm_compute; intuition congruence.
Qed.

(** * Building *)
Definition inv (seen : list elem) (g : graph A) : Prop :=
  (forall a v, assoc a (g_lookup g) = Some v -> nth_error (g_verts g) v = Some a) /\
  (forall a, known a seen = true <-> exists v, assoc a (g_lookup g) = Some v) /\
  (forall e, In e (g_edges g) -> e_src e < length (g_verts g) /\ e_tgt e < length (g_verts g) /\
      good_cost (ei_cost (e_info e)) = true) /\
  (forall v a, nth_error (g_verts g) v = Some a -> known a seen = true).

Lemma assoc_app a l b v :
  assoc a (l ++ [(b, v)]) = match assoc a l with Some x => Some x | None => if elem_eqb a b then Some v else None end.
Proof.
  induction l as [|[k x] l IH]; simpl; auto. destruct (elem_eqb a k); auto.
Qed.

Definition named (g : graph A) (e : edge A) : option elem * option elem * einfo A :=
  (vertex_elem g (e_src e), vertex_elem g (e_tgt e), e_info e).
Definition some_named (t : elem * elem * einfo A) : option elem * option elem * einfo A :=
  (Some (fst (fst t)), Some (snd (fst t)), snd t).

Lemma inv_vertex seen g a : inv seen g -> inv (a :: seen) (add_vertex g a) /\
   g_edges (add_vertex g a) = g_edges g /\
   (forall v, v < length (g_verts g) -> vertex_elem (add_vertex g a) v = vertex_elem g v).
Proof.
  intros (H1 & H2 & H3 & H4). split; [|split; [reflexivity|]].
  - unfold inv, add_vertex; simpl. repeat split.
    + intros b v. destruct (assoc a (g_lookup g)) eqn:E.
      * intros H. rewrite nth_error_app1; auto. apply nth_error_Some. rewrite (H1 _ _ H). congruence.
      * rewrite assoc_app. destruct (assoc b (g_lookup g)) eqn:E2.
        -- intros H. injection H as <-. rewrite nth_error_app1; auto.
           apply nth_error_Some. rewrite (H1 _ _ E2). congruence.
        -- destruct (elem_eqb b a) eqn:E3; [|discriminate]. intros H. injection H as <-.
           apply elem_eqb_eq in E3. subst. rewrite nth_error_app2, Nat.sub_diag by auto. auto.
    + destruct (assoc a (g_lookup g)) eqn:E.
      * rewrite orb_true_iff. intros [H|H]; [|apply H2; auto].
        apply elem_eqb_eq in H. subst. eauto.
      * rewrite orb_true_iff, assoc_app. intros [H|H].
        -- apply elem_eqb_eq in H. subst. rewrite E. rewrite (proj2 (elem_eqb_eq a a)); eauto.
        -- apply H2 in H as [v ->]. eauto.
    + intros [v H]. rewrite orb_true_iff. destruct (assoc a (g_lookup g)) eqn:E.
      * right. apply H2. eauto.
      * rewrite assoc_app in H. destruct (assoc a0 (g_lookup g)) eqn:E2.
        -- right. apply H2. eauto.
        -- destruct (elem_eqb a0 a); [auto|discriminate].
    + rewrite app_length. simpl. apply H3 in H. lia.
    + rewrite app_length. simpl. apply H3 in H. lia.
    + apply H3 in H. tauto.
    + intros v b Hv. rewrite orb_true_iff.
      destruct (Nat.lt_ge_cases v (length (g_verts g))) as [Hlt|Hge].
      * rewrite nth_error_app1 in Hv by auto. eauto.
      * rewrite nth_error_app2 in Hv by auto.
        destruct (v - length (g_verts g)) as [|k]; simpl in Hv.
        -- injection Hv as <-. left. apply elem_eqb_eq. auto.
        -- destruct k; discriminate.
  - intros v Hv. unfold vertex_elem; simpl. rewrite nth_error_app1; auto.
Qed.

Lemma inv_edge seen g a b i : inv seen g ->
  inv seen (fst (add_edge g a b i)) /\
  g_verts (fst (add_edge g a b i)) = g_verts g /\
  map (named (fst (add_edge g a b i))) (g_edges (fst (add_edge g a b i))) =
    map (named g) (g_edges g) ++
    (if known a seen && known b seen && good_cost (ei_cost i) then [some_named (a, b, i)] else []) /\
  (snd (add_edge g a b i) =
    if known a seen && known b seen && cfinite A (ei_cost i)
    then if cltb A (ei_cost i) (czero A) then ThrowsRoutingGraphError else Added
    else Dropped).
Proof.
  intros Hinv. destruct Hinv as (H1 & H2 & H3 & H4). unfold add_edge, get_vertex.
  destruct (assoc a (g_lookup g)) as [u|] eqn:Ea.
  2:{ assert (known a seen = false) as ->.
      { destruct (known a seen) eqn:E; auto. apply H2 in E as [v E]. congruence. }
      simpl. rewrite app_nil_r. unfold inv. auto 10. }
  assert (known a seen = true) as -> by (apply H2; eauto).
  destruct (assoc b (g_lookup g)) as [v|] eqn:Eb.
  2:{ assert (known b seen = false) as ->.
      { destruct (known b seen) eqn:E; auto. apply H2 in E as [v E]. congruence. }
      simpl. rewrite app_nil_r. unfold inv. auto 10. }
  assert (known b seen = true) as -> by (apply H2; eauto).
  unfold add_edge_v, good_cost. simpl.
  destruct (cfinite A (ei_cost i)) eqn:Ef; simpl; [|rewrite app_nil_r; unfold inv; auto 10].
  destruct (cltb A (ei_cost i) (czero A)) eqn:En; simpl; [rewrite app_nil_r; unfold inv; auto 10|].
  split; [|split; [auto|split; auto]].
  - unfold inv; simpl. split; [auto|split; [auto|split; [|auto]]].
    intros e He. apply in_app_or in He as [He|[<-|[]]]; [auto|]. simpl. repeat split.
    + apply nth_error_Some. rewrite (H1 _ _ Ea). congruence.
    + apply nth_error_Some. rewrite (H1 _ _ Eb). congruence.
    + unfold good_cost. rewrite Ef, En. auto.
  - rewrite map_app. f_equal. simpl. unfold named, some_named, vertex_elem; simpl.
    rewrite (H1 _ _ Ea), (H1 _ _ Eb). auto.
Qed.

Lemma named_stable g g' es :
  (forall v, v < length (g_verts g) -> vertex_elem g' v = vertex_elem g v) ->
  (forall e, In e es -> e_src e < length (g_verts g) /\ e_tgt e < length (g_verts g)) ->
  map (named g') es = map (named g) es.
Proof.
  intros Hv He. apply map_ext_in. intros e Hin. destruct (He e Hin). unfold named. rewrite !Hv; auto.
Qed.

Lemma build_from ops : forall seen g, inv seen g ->
  let g' := fold_left gstep ops g in
  (exists seen', inv seen' g') /\
  map (named g') (g_edges g') = map (named g) (g_edges g) ++ map some_named (wanted seen ops).
Proof.
  induction ops as [|o ops IH]; intros seen g Hinv; simpl.
  - split; [eauto|]. rewrite app_nil_r. auto.
  - destruct o as [a|a b i]; simpl.
    + destruct (inv_vertex seen g a Hinv) as (Hi & He & Hv).
      destruct (IH _ _ Hi) as (IH1 & IH2). split; auto. rewrite IH2, He. f_equal.
      apply named_stable; auto. intros e Hin. apply Hinv in Hin. tauto.
    + destruct (inv_edge seen g a b i Hinv) as (Hi & _ & He & _).
      destruct (IH _ _ Hi) as (IH1 & IH2). split; auto. rewrite IH2, He, <- app_assoc. f_equal.
      destruct (known a seen && known b seen && good_cost (ei_cost i)); reflexivity.
Qed.

Lemma inv_empty n : inv [] (empty_graph n).
Proof.
  unfold inv; simpl. repeat split; try discriminate; try contradiction.
  - intros [v H]. discriminate.
  - destruct v; discriminate.
Qed.

Lemma gbuild_edges n ops :
  map (named (gbuild n ops)) (g_edges (gbuild n ops)) = map some_named (wanted [] ops).
Proof. apply (build_from ops [] (empty_graph n) (inv_empty n)). Qed.

(** Facts used by the searches *)
Record graph_ok (g : graph A) : Prop := {
  go_lookup : forall a v, get_vertex g a = Some v -> vertex_elem g v = Some a /\ v < length (g_verts g);
  go_edges : forall e, In e (g_edges g) -> e_src e < length (g_verts g) /\ e_tgt e < length (g_verts g) /\
      cfinite A (ei_cost (e_info e)) = true /\ cltb A (ei_cost (e_info e)) (czero A) = false;
  go_known : forall v a, vertex_elem g v = Some a -> exists u, get_vertex g a = Some u
}.

Lemma gbuild_ok n ops : graph_ok (gbuild n ops).
Proof.
  destruct (build_from ops [] (empty_graph n) (inv_empty n)) as ((seen & H1 & H2 & H3 & H4) & _).
  constructor.
  - intros a v H. split; [apply H1; auto|]. apply nth_error_Some.
    unfold gbuild. unfold get_vertex, gbuild in H. rewrite (H1 _ _ H). congruence.
  - intros e He. destruct (H3 e He) as (? & ? & Hg). unfold good_cost in Hg.
    apply andb_true_iff in Hg as [? Hg]. apply negb_true_iff in Hg. auto.
  - intros v a H. apply H2. eapply H4; eauto.
Qed.

Lemma gbuild_costs n (ops : list (gop A)) : g_numcosts (gbuild n ops) = n.
Proof.
  unfold gbuild. change n with (g_numcosts (empty_graph (A := A) n)) at 2. generalize (empty_graph (A := A) n).
  induction ops as [|o ops IH]; intros g; simpl; auto. rewrite IH. destruct o; simpl; auto.
  unfold add_edge. destruct (get_vertex g a), (get_vertex g b); auto. unfold add_edge_v.
  destruct (negb _); auto. destruct (cltb _ _ _); auto.
Qed.

Lemma gresult_spec n ops o :
  gresult (gbuild n ops) o =
  match o with
  | OpVertex _ => Added
  | OpEdge a b i =>
      let seen := fold_left (fun s o => match o with OpVertex e => e :: s | OpEdge _ _ _ => s end) ops [] in
      if known a seen && known b seen && cfinite A (ei_cost i)
      then if cltb A (ei_cost i) (czero A) then ThrowsRoutingGraphError else Added
      else Dropped
  end.
Proof.
  destruct o as [e|a b i]; auto. simpl.
  assert (H : forall ops seen g, inv seen g ->
     inv (fold_left (fun s o => match o with OpVertex e => e :: s | OpEdge _ _ _ => s end) ops seen)
         (fold_left gstep ops g)).
  { clear. induction ops as [|o ops IH]; intros seen g Hinv; simpl; auto. apply IH.
    destruct o as [e|a b i]; [apply inv_vertex; auto|apply inv_edge; auto]. }
  apply (inv_edge _ _ a b i (H ops [] _ (inv_empty n))).
Qed.
End Proofs.
