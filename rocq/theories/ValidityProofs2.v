From Coq Require Import NArith List Bool Arith Lia Relations.
From Verif Require Import CostAlg GraphModel GraphSpec GraphProofs GraphProofs2 TrafficModel BuilderModel BuilderSpec BuilderProofs ValidityModel ValiditySpec ValidityProofs.
Import ListNotations.
Local Open Scope nat_scope.

Lemma in_single (T : Type) (x : T) l : In x l -> length l <= 1 -> l = [x].
Proof. destruct l as [|y [|z l]]; simpl; intros H Hn; [tauto|destruct H as [->|[]]; auto|lia]. Qed.

Section Keys.
Context {A : CostAlg}.
Definition keyed (g : graph A) : Prop := NoDup (map fst (g_lookup g)).
Lemma assoc_none a l : assoc a l = None <-> ~ In a (map fst l).
Proof.
  induction l as [|[x v] l IH]; simpl; [tauto|]. destruct (elem_eqb a x) eqn:E.
  - apply elem_eqb_eq in E. subst. split; [discriminate|tauto].
  - rewrite IH. assert (x <> a) by (intros ->; rewrite (proj2 (elem_eqb_eq a a) eq_refl) in E; discriminate). tauto.
Qed.
Lemma assoc_some a v l : NoDup (map fst l) -> assoc a l = Some v <-> In (a, v) l.
Proof.
  induction l as [|[x u] l IH]; simpl; intros Hn; [split; [discriminate|tauto]|]. inversion Hn as [|? ? Hx Hn']; subst.
  destruct (elem_eqb a x) eqn:E.
  - apply elem_eqb_eq in E. subst x. split; [intros [= ->]; auto|]. intros [[= ->]|H]; auto.
    exfalso. apply Hx. apply (in_map fst) in H. auto.
  - rewrite (IH Hn'). split; [auto|]. intros [[= -> ->]|H]; auto. rewrite (proj2 (elem_eqb_eq a a) eq_refl) in E. discriminate.
Qed.
Lemma gbuild_keyed n (ops : list (gop A)) : keyed (gbuild n ops).
Proof.
  unfold gbuild. assert (H : keyed (empty_graph (A := A) n)) by constructor. revert H. generalize (empty_graph (A := A) n).
  induction ops as [|o ops IH]; intros g H; simpl; auto. apply IH. destruct o as [a|a b i]; simpl.
  - unfold keyed, add_vertex. simpl. destruct (assoc a (g_lookup g)) eqn:E; [exact H|]. rewrite map_app. simpl.
    apply assoc_none in E. revert E H. unfold keyed. generalize (map fst (g_lookup g)). clear.
    induction l as [|x l IH]; simpl; intros H1 H2; [constructor; [intros []|constructor]|]. inversion H2; subst.
    constructor; [|apply IH; auto]. rewrite in_app_iff. simpl. intuition.
  - unfold keyed, add_edge, add_edge_v. destruct (get_vertex g a), (get_vertex g b); auto.
    destruct (negb _); auto. destruct (cltb _ _ _); auto.
Qed.
End Keys.

Section Check.
Context {A : CostAlg}.
Variable g : graph A.
Hypothesis Hg : graph_ok g.
Hypothesis Hc : canonical g.
Hypothesis Hl : lanes_only g.
Hypothesis Hkeys : keyed g.
Hypothesis Hk : (0 < g_numcosts g)%N.
Notation KE := (kind_edges g 0%N).

Lemma look_kind s n r a v : kind s n r -> get_vertex g a = Some v ->
  look (GView g 0 (view_mask n)) n v = match KE r a with [] => (None, []) | [e] => (vertex_elem g (e_tgt e), []) | _ => (None, [Several n]) end.
Proof.
  intros Hkind Hv. unfold look, neighbouring_strict. rewrite (kind_out g Hg Hc 0%N s n r a v Hkind Hv).
  unfold neighbouring_lanelet, neighbouring. rewrite (kind_out g Hg Hc 0%N s n r a v Hkind Hv). cbn [v_graph].
  destruct (KE r a) as [|e [|e' l]] eqn:E; simpl; auto.
  destruct (kind_tgt g Hg Hl 0%N s n r a e Hkind) as (d & i & ->); [rewrite E; simpl; auto|auto].
Qed.
(** The test of the way back. *)
Lemma check_back_ok s n a b fuel e : (forall x, length (side_edges g (opposite s) 0 x) <= 1) ->
  check_back g s n a (Some b) fuel = Ret (Some e) ->
  (e = [] <-> exists e', side_edges g (opposite s) 0 b = [e'] /\ leads g e' a).
Proof.
  intros Hone. unfold check_back. destruct (relations g (opposite s) b 0 fuel) as [[l|]|] eqn:E; try discriminate.
  unfold relations in E. apply (relations_head g Hg Hc Hl 0%N Hk) in E.
  pose proof (side_length g 0%N (opposite s) b) as Hlen. specialize (Hone b).
  assert (Hside : forall e', side_edges g (opposite s) 0 b = [e'] <->
     KE (changing (opposite s)) b = [e'] /\ KE (adjacent (opposite s)) b = [] \/ KE (changing (opposite s)) b = [] /\ KE (adjacent (opposite s)) b = [e']).
  { intros e'. pose proof (in_side g 0%N (opposite s) b e') as Hin. split.
    - intros Heq. rewrite Heq in *. simpl in Hlen. destruct (proj1 Hin (or_introl eq_refl)) as [H|H].
      + left. destruct (KE (changing _) b) as [|x [|]]; simpl in *; try lia; try tauto. destruct H as [->|[]].
        split; auto. destruct (KE _ b); auto. simpl in Hlen. lia.
      + right. destruct (KE (adjacent _) b) as [|x [|]]; simpl in *; try lia; try tauto. destruct H as [->|[]].
        split; auto. destruct (KE _ b); auto. simpl in Hlen. lia.
    - intros H. apply in_single; auto. apply Hin. destruct H as [[-> _]|[_ ->]]; simpl; auto. }
  destruct l as [|[y r] l]; simpl in E.
  - intros [= <-]. split; [discriminate|]. intros (e' & He & Hlead). unfold leads in Hlead.
    apply Hside in He as [[H1 H2]|[H1 H2]]; rewrite H1 in E; [|rewrite H2 in E]; congruence.
  - intros [= <-]. assert (Hy : exists e', side_edges g (opposite s) 0 b = [e'] /\ leads g e' y).
    { destruct (KE (changing (opposite s)) b) as [|x lx] eqn:Ec.
      - destruct (KE (adjacent (opposite s)) b) as [|x lx] eqn:Ea; [discriminate|]. exists x. split; [|unfold leads; congruence].
        apply Hside. right. split; auto. simpl in Hlen. destruct lx; auto. simpl in Hlen. lia.
      - exists x. split; [|unfold leads; congruence]. apply Hside. left. simpl in Hlen.
        destruct lx; [|simpl in Hlen; lia]. destruct (KE (adjacent (opposite s)) b); auto. simpl in Hlen. lia. }
    destruct Hy as (e' & He & Hy). destruct (elem_eqb y a) eqn:Ey.
    + apply elem_eqb_eq in Ey. subst. split; eauto.
    + split; [discriminate|]. intros (e2 & He2 & H2). assert (y = a) by (unfold leads in *; congruence). subst.
      rewrite (proj2 (elem_eqb_eq a a) eq_refl) in Ey. discriminate.
Qed.
Definition side_fine s a : Prop := length (side_edges g s 0 a) <= 1 /\
  forall b, step_aside g s 0 a b -> exists e, side_edges g (opposite s) 0 b = [e] /\ leads g e a.

Lemma app_nil4 {T} (a b c d e : list T) : a ++ b ++ c ++ d ++ e = [] <-> a = [] /\ b = [] /\ c = [] /\ d = [] /\ e = [].
Proof. split; [intros H; repeat apply app_eq_nil in H as [? H]; auto|intros (-> & -> & -> & -> & ->); auto]. Qed.
Lemma check_side_eq s a v fuel e : get_vertex g a = Some v -> check_side g s a v fuel = Ret (Some e) ->
  exists o e1 oa e2 e4 e5, look (GView g 0 (view_mask (change_view s))) (change_view s) v = (o, e1) /\
    look (GView g 0 (view_mask (adjacent_view s))) (adjacent_view s) v = (oa, e2) /\
    check_back g s (change_view s) a o fuel = Ret (Some e4) /\ check_back g s (adjacent_view s) a oa fuel = Ret (Some e5) /\
    e = e1 ++ e2 ++ (if is_some o && is_some oa then [BothKinds s] else []) ++ e4 ++ e5.
Proof.
  intros Hv. unfold check_side, get_filtered. destruct (N.leb_spec (g_numcosts g) 0); [lia|].
  destruct (look _ (change_view s) v) as [o e1]. destruct (look _ (adjacent_view s) v) as [oa e2].
  destruct (check_back g s (change_view s) a o fuel) as [[e4|]|] eqn:E4, (check_back g s (adjacent_view s) a oa fuel) as [[e5|]|] eqn:E5; try discriminate.
  intros [= <-]. exists o, e1, oa, e2, e4, e5. auto 10.
Qed.
(** At most one neighbour: no message about several or both kinds. *)
Lemma check_side_single s a v fuel : get_vertex g a = Some v -> check_side g s a v fuel = Ret (Some []) ->
  length (side_edges g s 0 a) <= 1.
Proof.
  intros Hv H. apply check_side_eq in H as (o & e1 & oa & e2 & e4 & e5 & L1 & L2 & _ & _ & He); auto.
  symmetry in He. apply app_nil4 in He as (-> & -> & Hb & _).
  rewrite (look_kind s _ _ a v (change_kind s) Hv) in L1. rewrite (look_kind s _ _ a v (adjacent_kind s) Hv) in L2.
  rewrite (side_length g 0%N). destruct (KE (changing s) a) as [|x [|]] eqn:E1; try discriminate;
    destruct (KE (adjacent s) a) as [|y [|]] eqn:E2; try discriminate; simpl; try lia. exfalso.
  destruct (kind_tgt g Hg Hl 0%N s _ _ a x (change_kind s)) as (d & i & T1); [rewrite E1; simpl; auto|].
  destruct (kind_tgt g Hg Hl 0%N s _ _ a y (adjacent_kind s)) as (d' & i' & T2); [rewrite E2; simpl; auto|].
  rewrite T1 in L1. rewrite T2 in L2. injection L1 as <-. injection L2 as <-. discriminate.
Qed.
Lemma check_side_iff s a v fuel e : (forall x, length (side_edges g (opposite s) 0 x) <= 1) -> get_vertex g a = Some v ->
  check_side g s a v fuel = Ret (Some e) -> e = [] <-> side_fine s a.
Proof.
  intros Hone Hv H. split.
  - intros ->. assert (Hs : length (side_edges g s 0 a) <= 1) by (eapply check_side_single; eauto). split; auto.
    apply check_side_eq in H as (o & e1 & oa & e2 & e4 & e5 & L1 & L2 & C1 & C2 & He); auto.
    symmetry in He. apply app_nil4 in He as (-> & -> & _ & -> & ->).
    rewrite (look_kind s _ _ a v (change_kind s) Hv) in L1. rewrite (look_kind s _ _ a v (adjacent_kind s) Hv) in L2.
    intros b (x & Hx & Hb). pose proof (side_length g 0%N s a) as Hlen. apply in_side in Hx as [Hx|Hx].
    + apply in_single in Hx; [|lia]. rewrite Hx in L1. injection L1 as <-. unfold leads in Hb. rewrite Hb in C1.
      apply check_back_ok in C1; auto. apply C1. auto.
    + apply in_single in Hx; [|lia]. rewrite Hx in L2. injection L2 as <-. unfold leads in Hb. rewrite Hb in C2.
      apply check_back_ok in C2; auto. apply C2. auto.
  - intros [Hs Hback]. apply check_side_eq in H as (o & e1 & oa & e2 & e4 & e5 & L1 & L2 & C1 & C2 & ->); auto.
    rewrite (look_kind s _ _ a v (change_kind s) Hv) in L1. rewrite (look_kind s _ _ a v (adjacent_kind s) Hv) in L2.
    rewrite (side_length g 0%N) in Hs. apply app_nil4.
    assert (K1 : KE (changing s) a = [] \/ exists x, KE (changing s) a = [x]).
    { destruct (KE (changing s) a) as [|x [|]]; simpl in Hs; eauto. lia. }
    assert (K2 : KE (adjacent s) a = [] \/ exists x, KE (adjacent s) a = [x]).
    { destruct (KE (adjacent s) a) as [|x [|]]; simpl in Hs; eauto. lia. }
    assert (B1 : e1 = [] /\ (KE (changing s) a = [] -> o = None) /\ e4 = []).
    { destruct K1 as [K|[x K]]; rewrite K in L1; injection L1 as <- <-.
      - simpl in C1. injection C1 as <-. auto.
      - split; auto. split; [rewrite K; discriminate|].
        destruct (kind_tgt g Hg Hl 0%N s _ _ a x (change_kind s)) as (d & i & T); [rewrite K; simpl; auto|]. rewrite T in C1.
        apply check_back_ok in C1; auto. apply C1. apply Hback. exists x. split; [|exact T].
        apply in_side. left. rewrite K. simpl. auto. }
    assert (B2 : e2 = [] /\ (KE (adjacent s) a = [] -> oa = None) /\ e5 = []).
    { destruct K2 as [K|[x K]]; rewrite K in L2; injection L2 as <- <-.
      - simpl in C2. injection C2 as <-. auto.
      - split; auto. split; [rewrite K; discriminate|].
        destruct (kind_tgt g Hg Hl 0%N s _ _ a x (adjacent_kind s)) as (d & i & T); [rewrite K; simpl; auto|]. rewrite T in C2.
        apply check_back_ok in C2; auto. apply C2. apply Hback. exists x. split; [|exact T].
        apply in_side. right. rewrite K. simpl. auto. }
    destruct B1 as (-> & N1 & ->), B2 as (-> & N2 & ->). split; auto. split; auto. split; [|auto].
    destruct K1 as [K|[x K]].
    + rewrite (N1 K). auto.
    + destruct K2 as [K'|[y K']]; [rewrite (N2 K'); destruct (is_some o); auto|]. rewrite K, K' in Hs. simpl in Hs. lia.
Qed.
Lemma check_all_nil l fuel e : check_all g l fuel = Ret (Some e) ->
  exists f : side -> elem * nat -> list flaw, (forall s x, In x l -> check_side g s (fst x) (snd x) fuel = Ret (Some (f s x))) /\
    (e = [] <-> forall s x, In x l -> f s x = []).
Proof.
  intros H. exists (fun s x => match check_side g s (fst x) (snd x) fuel with Ret (Some e) => e | _ => [] end).
  revert e H. induction l as [|[a v] l IH]; intros e H; cbn [check_all] in H.
  - injection H as <-. split; [intros ? ? []|]. split; [intros _ ? ? []|auto].
  - destruct (check_side g SLeft a v fuel) as [[e1|]|] eqn:E1; try discriminate.
    destruct (check_side g SRight a v fuel) as [[e2|]|] eqn:E2; try discriminate.
    destruct (check_all g l fuel) as [[e3|]|]; try discriminate. injection H as <-.
    destruct (IH e3 eq_refl) as [H1 H2]. split.
    + intros s x [<-|Hx]; [|auto]. simpl. destruct s; rewrite ?E1, ?E2; auto.
    + split.
      * intros He. apply app_eq_nil in He as [He He3]. apply map_eq_nil in He. apply app_eq_nil in He as [-> ->].
        intros s x [<-|Hx]; [|apply H2; auto]. simpl. destruct s; rewrite ?E1, ?E2; auto.
      * intros Hf. pose proof (Hf SLeft (a, v) (or_introl eq_refl)) as F1. pose proof (Hf SRight (a, v) (or_introl eq_refl)) as F2.
        simpl in F1, F2. rewrite E1 in F1. rewrite E2 in F2. subst. simpl. apply H2. intros. apply Hf. right. auto.
Qed.
Lemma unknown_side s a : get_vertex g a = None -> side_edges g s 0 a = [].
Proof. intros H. apply kinds_nil; apply kind_nil; auto. Qed.
Theorem check_exact fuel e : check_all g (g_lookup g) fuel = Ret (Some e) -> e = [] <-> consistent g 0.
Proof.
  intros H. apply check_all_nil in H as (f & Hf & He). rewrite He. clear He e. split.
  - intros Hnil. assert (Hone : forall s, single_sided g s 0).
    { intros s a. destruct (get_vertex g a) as [v|] eqn:Ev; [|rewrite unknown_side by auto; simpl; lia].
      assert (Hin : In (a, v) (g_lookup g)) by (apply assoc_some; auto). specialize (Hf s _ Hin). rewrite Hnil in Hf by auto.
      eapply check_side_single; eauto. }
    intros s. split; auto. intros s' a b Hs' Hab. replace s' with (opposite s) by (destruct s, s'; simpl; congruence). destruct (get_vertex g a) as [v|] eqn:Ev.
    + assert (Hin : In (a, v) (g_lookup g)) by (apply assoc_some; auto). specialize (Hf s _ Hin). rewrite Hnil in Hf by auto.
      apply check_side_iff in Hf; auto; [|apply Hone]. apply Hf; auto.
    + destruct Hab as (x & Hx & _). rewrite unknown_side in Hx by auto. destruct Hx.
  - intros Hcons s [a v] Hin. specialize (Hf s _ Hin). simpl in Hf.
    assert (Hv : get_vertex g a = Some v) by (apply assoc_some; auto).
    apply check_side_iff in Hf; auto; [|apply (Hcons (opposite s))]. apply Hf. split; [apply (Hcons s)|]. intros b. apply (Hcons s). destruct s; discriminate.
Qed.
Lemma check_back_total s n a o fuel : no_ring g (opposite s) 0 -> length (g_verts g) < fuel ->
  exists e, check_back g s n a o fuel = Ret (Some e).
Proof.
  intros Hr Hf. unfold check_back. destruct o as [b|]; [|eauto].
  destruct (relations_total g Hg Hc Hl 0%N Hk (opposite s) b fuel Hr Hf) as [[|[y r] l] ->]; eauto.
Qed.
Theorem check_total fuel : (forall s, no_ring g s 0) -> length (g_verts g) < fuel ->
  exists e, check_all g (g_lookup g) fuel = Ret (Some e).
Proof.
  intros Hr Hf. assert (Hs : forall s a v, exists e, check_side g s a v fuel = Ret (Some e)).
  { intros s a v. unfold check_side, get_filtered. destruct (N.leb_spec (g_numcosts g) 0); [lia|].
    destruct (look _ (change_view s) v) as [o e1]. destruct (look _ (adjacent_view s) v) as [oa e2].
    destruct (check_back_total s (change_view s) a o fuel (Hr _) Hf) as [e4 ->].
    destruct (check_back_total s (adjacent_view s) a oa fuel (Hr _) Hf) as [e5 ->]. eauto. }
  induction (g_lookup g) as [|[a v] l [e IH]]; cbn [check_all]; [eauto|].
  destruct (Hs SLeft a v) as [e1 ->]. destruct (Hs SRight a v) as [e2 ->]. rewrite IH. eauto.
Qed.
End Check.
