(** Submaps: conversion to maps and lifetime. *)
From Coq Require Import ZArith List Bool Lia.
From Verif Require Import MapModel MapSpec MapProofs MapProofs2 MapProofs3 SubmapModel SubmapSpec SubmapProofs.
Import ListNotations.
Open Scope Z_scope.

Lemma ref_fst hp ids h h' k b : fst h = fst h' -> references hp ids h k b -> references hp ids h' k b.
Proof.
  intros E R. inversion R; subst; try solve [rewrite E in *; eapply ref_line_point; eauto]; rewrite E in *.
  - eapply ref_poly_point; eauto.
  - eapply ref_left; eauto.
  - eapply ref_right; eauto.
  - eapply ref_center; eauto.
  - eapply ref_ll_reg; eauto.
  - eapply ref_outer; eauto.
  - eapply ref_inner; eauto.
  - eapply ref_ar_reg; eauto.
  - eapply ref_par_point; eauto.
  - eapply ref_par_line; eauto.
  - eapply ref_par_poly; eauto.
  - eapply ref_par_lanelet; eauto.
  - eapply ref_par_area; eauto.
Qed.
Lemma in_handles sb k h : In h (layer_handles sb k) <-> exists i, element (sb_map sb) k i h.
Proof.
  unfold layer_handles, element. rewrite in_map_iff. split; [intros ([i x] & <- & H); eauto|intros (i & H); exists (i, h); auto].
Qed.
Lemma adds_done hp fuel ts s : heap_ok hp -> (forall t, In t ts -> target_ok hp t) -> 0 < m_next s -> (length (hp_objs hp) < fuel)%nat ->
  exists s', add_all hp fuel ts s = Some s'.
Proof.
  intros HO T N F. apply (fold_opt_done hp _ fuel).
  - intros t u Ht Hm Hn. destruct (add_done hp HO fuel t u) as [u' Eu]; auto. exists u'. split; auto. eapply add_grows; eauto.
  - assert (B := mu_from_bound s (hp_objs hp) 0). unfold mu. lia.
  - exact N.
Qed.
Section conversion.
Variables (hp : heap) (sb : submap).
Hypothesis HO : heap_ok hp.
Hypothesis OK : sub_ok hp sb.
Hypothesis PK : parts_ok hp sb.
Let s := sb_map sb.
Let lls := layer_handles sb KLanelet.
Let ars := map h_addr (layer_handles sb KArea).
Lemma lls_in h : In h lls -> exists i, element s KLanelet i h.
Proof. apply in_handles. Qed.
Lemma ars_in a : In a ars -> exists i h, element s KArea i h /\ fst h = a.
Proof. intros H. apply in_map_iff in H as (h & <- & H). apply in_handles in H as (i & H). exists i, h. auto. Qed.
Lemma elem_listed k h i : element s k i h -> has_kind hp k (fst h) /\ m_ids s (fst h) <> 0 /\ m_ids s (fst h) < m_next s.
Proof. intros H. destruct OK as (_ & _ & E). apply E in H. fold s in H. destruct H as (A & B & C & D). subst i. auto. Qed.
Lemma line_from l : In l (all_lines hp (fresh_map s) lls ars) ->
  exists k i h, element s k i h /\ (k = KLanelet \/ k = KArea) /\ references hp (m_ids s) h KLine (fst l).
Proof.
  intros H. destruct (lines_ref hp (fresh_map s) lls ars l) as (h & Hh & R); auto.
  - intros x Hx. apply lls_in in Hx as (i & Hx). apply elem_listed in Hx. tauto.
  - intros a Ha. apply ars_in in Ha as (i & x & Hx & <-). apply elem_listed in Hx. tauto.
  - cbn in R. destruct Hh as [Hh|(a & Ha & ->)].
    + apply lls_in in Hh as (i & Hh). exists KLanelet, i, h. auto.
    + apply ars_in in Ha as (i & x & Hx & E). exists KArea, i, x. split; [exact Hx|]. split; [auto|]. eapply ref_fst; [|exact R]. auto.
Qed.
Lemma convert fuel : (length (hp_objs hp) < fuel)%nat -> exists s', lanelet_map hp fuel sb = Some s' /\ self_contained hp s' /\ wf hp s' /\
  (forall k i h, element s k i h -> exists h', get k i s' = Some h' /\ (k = KLanelet -> h' = h) /\ (k = KArea -> fst h' = fst h)) /\
  (forall k i h, element s' k i h -> reaches hp (m_ids s') (has_element sb) (fst h)) /\
  (forall a, m_ids s a <> 0 -> m_ids s' a = m_ids s a).
Proof.
  intros F. destruct OK as (NX & ND & EL). unfold lanelet_map. fold s lls ars.
  destruct (create_map_spec hp fuel lls ars (fresh_map s) (m_ids s) (m_next s)) as (s1 & E1 & W1 & SC1 & G1 & G2); auto.
  - intros h H. apply lls_in in H as (i & H). apply (elem_listed _ _ _ H).
  - intros h H. apply in_map_iff in H as (a & <- & H). apply ars_in in H as (i & x & Hx & <-). apply (elem_listed _ _ _ Hx).
  - intros l H. apply line_from in H as (k & i & h & Eh & K & R). split; [eapply references_kind; eauto|]. apply (proj1 (PK k i h KLine (fst l) Eh K R eq_refl)).
  - intros p H. apply in_map_iff in H as (q & <- & H). apply in_flat_map in H as (l & Hl & Hq). apply line_from in Hl as (k & i & h & Eh & K & R).
    assert (Rq : references hp (m_ids s) (fst l, false) KPoint q) by (eapply ref_fst; [|apply points_ref; exact Hq]; reflexivity).
    split; [eapply references_kind; eauto|]. apply (proj2 (PK k i h KLine (fst l) Eh K R eq_refl)). exact Rq.
  - rewrite E1. set (ts := map (fun h => TReg (h_addr h)) (layer_handles sb KReg) ++ map (fun h => TPoly (h_addr h)) (layer_handles sb KPoly)
      ++ map TLine (layer_handles sb KLine) ++ map (fun h => TPoint (h_addr h)) (layer_handles sb KPoint)).
    assert (TS : forall t, In t ts -> exists k i h, element s k i h /\ target_kind t = k /\ target_addr t = fst h).
    { intros t Ht. unfold ts in Ht. rewrite !in_app_iff, !in_map_iff in Ht.
      destruct Ht as [(h & <- & H)|[(h & <- & H)|[(h & <- & H)|(h & <- & H)]]]; apply in_handles in H as (i & H); eexists _, i, h; eauto. }
    assert (ST : forall k i h, element s k i h -> k <> KLanelet -> k <> KArea -> exists t, In t ts /\ target_kind t = k /\ target_addr t = fst h).
    { intros k i h H N1 N2. assert (I : In h (layer_handles sb k)) by (apply in_handles; eauto). unfold ts.
      destruct k; try contradiction.
      - exists (TPoint (h_addr h)). split; [|auto]. rewrite !in_app_iff, !in_map_iff. right. right. right. eauto.
      - exists (TLine h). split; [|auto]. rewrite !in_app_iff, !in_map_iff. right. right. left. eauto.
      - exists (TPoly (h_addr h)). split; [|auto]. rewrite !in_app_iff, !in_map_iff. right. left. eauto.
      - exists (TReg (h_addr h)). split; [|auto]. rewrite !in_app_iff, !in_map_iff. left. eauto. }
    assert (TO : forall t, In t ts -> target_ok hp t).
    { intros t Ht. destruct (TS t Ht) as (k & i & h & Eh & K & A). unfold target_ok. rewrite K, A. apply (elem_listed _ _ _ Eh). }
    destruct (adds_done hp fuel ts s1 HO TO (wf_next _ _ W1) F) as (s2 & E2). exists s2. split; [exact E2|].
    assert (C1 : comp hp (m_ids s1) s1 (fun _ => False)).
    { split; [|intros ky b B0 B1; contradiction]. intros k i h ky b He R. left. destruct (SC1 k i h ky b He R) as [N (h' & Gt)]. split; [exact N|].
      exists h'. unfold get, inval in Gt. destruct (Z.eqb_spec (m_ids s1 b) 0); [discriminate|exact Gt]. }
    destruct (add_all_spec (m_ids s1) hp HO fuel ts s1 s2 (fun _ => False) TO W1 C1 E2) as (W2 & C2 & T2).
    assert (G12 : grows s1 s2) by (eapply add_all_grows; exact E2).
    destruct (create_map_start hp fuel lls ars (fresh_map s) s1 (fun _ => eq_refl) E1) as (s4 & I4 & L4 & A4).
    assert (G41 : grows s4 s1) by (eapply add_all_grows; exact A4).
    assert (G : grows s4 s2) by (eapply grows_trans; eauto).
    assert (KI : forall a, m_ids s a <> 0 -> m_ids s2 a = m_ids s a).
    { intros a N. transitivity (m_ids s4 a); [|rewrite I4; reflexivity]. apply grows_ids; [exact G|]. rewrite I4. exact N. }
    split; [apply (comp_self_contained (m_ids s1)); exact C2|]. split; [exact W2|]. split; [|split; [|exact KI]].
    + intros k i h H. destruct (EL _ _ _ H) as (K & Ei & Ni & Li). fold s in Ei.
      assert (GT : forall x, lookup i (l_elems (m_layer s2 k)) = Some x -> get k i s2 = Some x).
      { intros x L. unfold get, inval. destruct (Z.eqb_spec i 0); [contradiction|exact L]. }
      assert (UN : forall x, In x (layer_handles sb k) -> m_ids s (fst x) = i -> x = h).
      { intros x Hx Ex. apply in_handles in Hx as (j & Hx). fold s in Hx. destruct (EL _ _ _ Hx) as (_ & Ej & _). fold s in Ej.
        assert (Eji : j = i) by congruence. rewrite Eji in Hx. assert (A := in_lookup i h _ (ND k) H). assert (B := in_lookup i x _ (ND k) Hx). fold s in A, B. congruence. }
      assert (D : k = KLanelet \/ k = KArea \/ (k <> KLanelet /\ k <> KArea)) by (destruct k; intuition congruence).
      destruct D as [->|[->|[N1 N2]]].
      * destruct (to_map_facts (fresh_map s) lls) as (_ & A2 & A3). destruct (A3 h) as (h' & L); [apply in_handles; eauto|]. change (lookup (m_ids s (fst h)) (to_map (fresh_map s) lls) = Some h') in L. rewrite <- Ei in L.
        assert (h' = h). { apply lookup_in in L. apply A2 in L as [L1 L2]. apply UN; auto. } subst h'.
        exists h. split; [|split; [auto|discriminate]]. apply GT. eapply grows_lookup; [exact G|]. rewrite L4. exact L.
      * destruct (to_map_facts (fresh_map s) (map (fun a => (a, false)) ars)) as (_ & A2 & A3).
        destruct (A3 (fst h, false)) as (h' & L); [apply in_map_iff; exists (fst h); split; [auto|]; apply in_map_iff; exists h; split; [auto|apply in_handles; eauto]|].
        change (lookup (m_ids s (fst h)) (to_map (fresh_map s) (map (fun a => (a, false)) ars)) = Some h') in L. rewrite <- Ei in L. exists h'. split; [|split; [discriminate|intros _]].
        -- apply GT. eapply grows_lookup; [exact G|]. rewrite L4. exact L.
        -- apply lookup_in in L. apply A2 in L as [L1 L2]. apply in_map_iff in L2 as (a & <- & L2). apply in_map_iff in L2 as (x & <- & L2).
           cbn [fst h_addr]. rewrite (UN x L2); [reflexivity|]. symmetry. exact L1.
      * destruct (ST k i h H N1 N2) as (t & Ht & Kt & At). destruct (T2 t Ht) as (N & x & L). rewrite Kt, At in L.
        exists x. split; [|split; intros; contradiction]. apply GT. rewrite Ei, <- (KI (fst h)); [exact L|]. rewrite <- Ei. exact Ni.
    + set (P := reaches hp (m_ids s2) (has_element sb)).
      assert (CL : forall h k b, P (fst h) -> references hp (m_ids s2) h k b -> P b).
      { intros h k b Ph R. eapply reach_step; [exact Ph|]. eapply ref_fst; [|exact R]. reflexivity. }
      assert (EP : forall k i h, element s k i h -> P (fst h)) by (intros k i h H; apply reach_root; exists k, i, h; auto).
      assert (O1 : forall k i h, element s1 k i h -> P (fst h)).
      { eapply (create_map_only hp P (m_ids s2) fuel lls ars (fresh_map s) s1); auto.
        - intros h Hh. apply lls_in in Hh as (i & Hh). split; [apply (elem_listed _ _ _ Hh)|eapply EP; eauto].
        - intros a Ha. apply ars_in in Ha as (i & x & Hx & <-). split; [apply (elem_listed _ _ _ Hx)|eapply EP; eauto].
        - intros a N. rewrite (grows_ids s1 s2 a G12 N). exact N. }
      assert (O2 : only P s1 s2).
      { eapply (adds_only hp HO (m_ids s2) P CL fuel ts); [|exact E2|intros a N; exact N]. intros t Ht. split; [apply TO; exact Ht|].
        destruct (TS t Ht) as (k & i & h & Eh & _ & ->). eapply EP; eauto. }
      intros k i h H. apply O2 in H as [H|H]; [eapply O1; eauto|exact H].
Qed.
End conversion.

(** * Building submaps *)
Lemma element_layer_add hp k h s k' i x : element (layer_add hp k h s) k' i x ->
  element s k' i x \/ (k' = k /\ x = h /\ i = m_ids s (h_addr h) /\ lookup i (l_elems (m_layer s k)) = None).
Proof.
  intros H. unfold element, layer_add in H. cbn in H. destruct (kind_eqb k' k) eqn:K; [|auto]. apply kind_eqb_true in K. subst k'.
  cbn in H. unfold insert_elem in H. destruct (lookup (m_ids s (h_addr h)) (l_elems (m_layer s k))) eqn:L; [auto|].
  apply in_app_or in H as [H|[H|[]]]; [auto|]. injection H as <- <-. auto.
Qed.
Definition checked (a : nat) (s : mstate) : mstate := if m_ids s a =? inval then assign_id a s else register_id (m_ids s a) s.
Lemma checked_facts a s : 0 < m_next s -> grows s (checked a s) /\ m_ids (checked a s) a <> 0 /\ m_ids (checked a s) a < m_next (checked a s) /\
  (forall k, m_layer (checked a s) k = m_layer s k).
Proof.
  intros N. unfold checked. destruct (Z.eqb_spec (m_ids s a) inval) as [E|E].
  - destruct (assign_facts a s N) as (A & B). split; [apply grows_assign|]. unfold assign_id. rewrite E. cbn. rewrite Nat.eqb_refl.
    repeat split; lia.
  - split; [apply grows_register|]. unfold register_id. cbn. unfold inval in E. split; [exact E|].
    split; [|reflexivity]. destruct (Z.ltb_spec (m_next s) (m_ids s a + 1)); lia.
Qed.
Lemma layer_add_nodup hp k h s k' : NoDup (used_ids s k') -> NoDup (used_ids (layer_add hp k h s) k').
Proof.
  intros N. unfold used_ids, layer_add. cbn. destruct (kind_eqb k' k) eqn:K; [|exact N]. apply kind_eqb_true in K. subst k'. cbn.
  unfold insert_elem. destruct (lookup _ _) eqn:L; [exact N|]. rewrite map_app. cbn. apply NoDup_snoc; [exact N|]. apply lookup_none. exact L.
Qed.
Lemma sub_add_ok hp k h sb : sub_ok hp sb -> has_kind hp k (fst h) -> sub_ok hp (sub_add hp k h sb).
Proof.
  intros (N & ND & E) K. unfold sub_ok, sub_add. cbn [sb_map]. unfold submap_add. change (h_addr h) with (fst h). fold (checked (fst h) (sb_map sb)).
  destruct (checked_facts (fst h) (sb_map sb) N) as (G & A & B & L). set (s1 := checked (fst h) (sb_map sb)) in *.
  assert (Gn := g_next _ _ G). split; [cbn [m_next layer_add]; lia|]. split.
  - intros k'. apply layer_add_nodup. unfold used_ids. rewrite L. apply ND.
  - intros k' i x H. apply element_layer_add in H as [H|(-> & -> & -> & _)].
    + unfold element in H. rewrite L in H. destruct (E _ _ _ H) as (E1 & E2 & E3 & E4). split; [exact E1|]. cbn.
      pose proof (grows_ids _ _ (fst x) G) as Gi. rewrite <- E2 in Gi. specialize (Gi E3). split; [congruence|]. split; [exact E3|]. pose proof (g_next _ _ G). lia.
    + split; [exact K|]. cbn. auto.
Qed.
Lemma sub_adds_ok hp l : forall sb, sub_ok hp sb -> (forall k h, In (k, h) l -> has_kind hp k (fst h)) -> sub_ok hp (sub_adds hp l sb).
Proof.
  induction l as [|[k h] l IH]; intros sb O K; [exact O|]. unfold sub_adds. cbn [fold_left fst snd]. apply IH; [|intros; apply K; right; auto].
  apply sub_add_ok; [exact O|apply K; left; auto].
Qed.
Lemma make_elem hp k m s k' i h : element (make_layer hp k m s) k' i h -> (k' = k /\ In (i, h) m) \/ element s k' i h.
Proof.
  unfold element. rewrite make_layer_elems. destruct (kind_eqb k' k) eqn:K; [|auto]. apply kind_eqb_true in K. auto.
Qed.
Lemma create_submap_elem hp lls ars s k i h : element (sb_map (create_submap hp lls ars s)) k i h ->
  i = m_ids s (fst h) /\ ((k = KLanelet /\ In h lls) \/ (k = KArea /\ In (fst h) ars)).
Proof.
  unfold create_submap. cbn [sb_map]. intros H. apply make_elem in H as [[-> H]|H].
  - apply (proj1 (proj2 (to_map_facts (fresh_map s) _))) in H as [E H]. split; [exact E|]. right. split; [auto|].
    apply in_map_iff in H as (a & <- & H). exact H.
  - apply make_elem in H as [[-> H]|[]]. apply (proj1 (proj2 (to_map_facts (fresh_map s) _))) in H as [E H]. auto.
Qed.
Lemma create_submap_ok hp lls ars s : 0 < m_next s -> listed hp s KLanelet lls -> listed hp s KArea (map (fun a => (a, false)) ars) ->
  sub_ok hp (create_submap hp lls ars s).
Proof.
  intros N HL HA.
  assert (I : m_ids (sb_map (create_submap hp lls ars s)) = m_ids s) by (unfold create_submap; cbn [sb_map]; rewrite !make_ids; reflexivity).
  assert (X : m_next s <= m_next (sb_map (create_submap hp lls ars s))).
  { unfold create_submap. cbn [sb_map]. eapply Z.le_trans; [|apply make_layer_next]. apply (make_layer_next hp KLanelet _ (fresh_map s)). }
  split; [lia|]. split.
  - intros k. unfold used_ids, create_submap. cbn [sb_map]. rewrite !make_layer_elems.
    destruct (kind_eqb k KArea); [apply to_map_facts|]. destruct (kind_eqb k KLanelet); [apply to_map_facts|]. constructor.
  - intros k i h H. apply create_submap_elem in H as [E H]. rewrite I. subst i. destruct H as [[-> H]|[-> H]].
    + destruct (HL h H) as (A & B & C). unfold h_addr in *. repeat split; auto. lia.
    + destruct (HA (fst h, false)) as (A & B & C); [apply in_map_iff; eauto|]. cbn in A, B, C. repeat split; auto. lia.
Qed.

(** * Tracked parameters *)
Lemma tracked_iff hp r a : (exists ps, obj hp r = Some (OReg ps) /\ In a (flat_map (tracked hp) ps)) <-> uses hp r a.
Proof.
  split.
  - intros (ps & E & H). exists ps. split; [exact E|]. apply in_flat_map in H as (p & Hp & H). destruct p as [x|x|x|h|x]; try contradiction; cbn in H.
    + destruct (alive hp KLanelet (h_addr h)) eqn:Al; [|contradiction]. destruct H as [<-|[]]. apply alive_kind in Al. left. exists h. auto.
    + destruct (alive hp KArea x) eqn:Al; [|contradiction]. destruct H as [<-|[]]. apply alive_kind in Al. right. auto.
  - intros (ps & E & H). exists ps. split; [exact E|]. apply in_flat_map. destruct H as [(h & Hp & <- & K)|[Hp K]].
    + exists (ParLanelet h). split; [exact Hp|]. cbn. apply alive_kind in K. unfold h_addr. rewrite K. left. reflexivity.
    + exists (ParArea a). split; [exact Hp|]. cbn. apply alive_kind in K. rewrite K. left. reflexivity.
Qed.
Lemma track_uses hp r a kept : In a (track hp r kept) <-> In a kept \/ uses hp r a.
Proof.
  unfold track. rewrite in_app_iff, <- tracked_iff. unfold params_of. destruct (obj hp r) as [[]|] eqn:E; split;
    intros [H|H]; auto; try contradiction; try (destruct H as (ps & E' & H); injection E' as <-; auto; fail); try (destruct H as (ps & E' & H); discriminate); right; eauto.
Qed.
Lemma tracks_uses hp regs a : forall kept, In a (fold_left (fun l r => track hp r l) regs kept) <-> In a kept \/ exists r, In r regs /\ uses hp r a.
Proof.
  induction regs as [|r regs IH]; intros kept; cbn [fold_left].
  - split; [auto|]. intros [H|(r & [] & _)]. exact H.
  - rewrite IH, track_uses. split.
    + intros [[H|H]|(x & I & H)]; [auto|right; exists r; cbn; auto|right; exists x; cbn; auto].
    + intros [H|(x & [<-|I] & H)]; [auto|auto|right; eauto].
Qed.
Definition tracks hp sb : Prop := forall k i h r a, element (sb_map sb) k i h -> In r (rules_of hp k (fst h)) -> uses hp r a -> In a (sb_kept sb).
Lemma tracks_create hp lls ars s : tracks hp (create_submap hp lls ars s).
Proof.
  intros k i h r a H R U. apply create_submap_elem in H as [_ H]. unfold create_submap. cbn [sb_kept]. apply tracks_uses. right. exists r. split; [|exact U].
  apply in_or_app. destruct H as [[-> H]|[-> H]]; cbn [rules_of] in R; [left|right]; apply in_flat_map; eauto.
Qed.
Lemma tracks_add hp k h sb : tracks hp sb -> tracks hp (sub_add hp k h sb).
Proof.
  intros T k' i x r a H R U. unfold sub_add in *. cbn [sb_map sb_kept] in *. apply tracks_uses.
  unfold submap_add in H. apply element_layer_add in H as [H|(-> & -> & _)].
  - left. apply (T k' i x r a); [|exact R|exact U]. unfold element in *.
    destruct (m_ids (sb_map sb) (h_addr h) =? inval); [rewrite assign_layers in H|]; exact H.
  - right. eauto.
Qed.
Lemma tracks_adds hp l : forall sb, tracks hp sb -> tracks hp (sub_adds hp l sb).
Proof. induction l as [|[k h] l IH]; intros sb T; [exact T|]. apply IH. apply tracks_add. exact T. Qed.
Lemma tracks_rules hp sb r a : tracks hp sb -> rule_in hp sb r -> uses hp r a -> kept_alive hp sb a.
Proof.
  intros T R U. apply alive_tracked. destruct R as [(i & h & E & <-)|[(i & h & l & rb & c & regs & E & Eo & I)|(i & h & outer & inner & regs & E & Eo & I)]].
  - eapply (T KReg); eauto. cbn. auto.
  - eapply (T KLanelet); eauto. cbn. unfold regs_of. rewrite Eo. exact I.
  - eapply (T KArea); eauto. cbn. unfold regs_of. rewrite Eo. exact I.
Qed.

(** * Destroyed lanelets and areas *)
Lemma sweep_nth live l : forall a n, nth_error (sweep live a l) n =
  match nth_error l n with
  | Some o => Some (match o with OLanelet _ _ _ _ | OArea _ _ _ => if live (a + n)%nat then o else OPoint | _ => o end)
  | None => None
  end.
Proof.
  induction l as [|o l IH]; intros a [|n]; cbn [sweep nth_error]; auto.
  - rewrite Nat.add_0_r. reflexivity.
  - rewrite IH. rewrite Nat.add_succ_r. reflexivity.
Qed.
Lemma collect_obj hp live a : obj (collect hp live) a =
  match obj hp a with
  | Some o => Some (match o with OLanelet _ _ _ _ | OArea _ _ _ => if live a then o else OPoint | _ => o end)
  | None => None
  end.
Proof. unfold obj, collect. cbn [hp_objs]. rewrite sweep_nth. reflexivity. Qed.
Lemma collect_live hp live a o : obj hp a = Some o -> live a = true -> obj (collect hp live) a = Some o.
Proof. intros E L. rewrite collect_obj, E, L. destruct o; reflexivity. Qed.
Lemma collect_uses hp live r a : uses hp r a -> live a = true -> uses (collect hp live) r a.
Proof.
  intros (ps & E & H) L. exists ps. split; [rewrite collect_obj, E; reflexivity|].
  assert (K : forall k, has_kind hp k a -> has_kind (collect hp live) k a).
  { intros k (o & Eo & Ko). exists o. split; [apply collect_live; assumption|exact Ko]. }
  destruct H as [(h & H & E1 & H1)|[H H1]]; [left; exists h; auto|right; auto].
Qed.
Lemma collect_kind hp live k a : has_kind hp k a -> (k = KLanelet \/ k = KArea -> live a = true) -> has_kind (collect hp live) k a.
Proof.
  intros (o & E & K) L. unfold has_kind. rewrite collect_obj, E. eexists. split; [reflexivity|].
  destruct o; cbn in K |- *; try exact K; subst k; rewrite L by auto; reflexivity.
Qed.
Lemma collect_ok hp live : heap_ok hp -> heap_ok (collect hp live).
Proof.
  intros HO a o E. rewrite collect_obj in E. destruct (obj hp a) as [o0|] eqn:E0; [|discriminate]. assert (O := HO a o0 E0).
  assert (K : forall k x, k <> KLanelet -> k <> KArea -> has_kind hp k x -> has_kind (collect hp live) k x).
  { intros k x N1 N2 H. apply collect_kind; [exact H|]. intros [?|?]; contradiction. }
  assert (C : object_ok (collect hp live) o0).
  { destruct o0 as [|pts|pts|l r c regs|outer inner regs|ps]; cbn in O |- *; auto; try (intros p Hp; apply K; try discriminate; auto; fail).
    - destruct O as (A & B & D & F). repeat split; intros; apply K; try discriminate; eauto.
    - destruct O as (A & B & D). repeat split; intros; apply K; try discriminate; eauto.
    - destruct O as (A & B & D). repeat split; intros; apply K; try discriminate; eauto. }
  injection E as <-. destruct o0; auto; destruct (live a); auto; exact I.
Qed.
Lemma collect_same hp live a o : obj (collect hp live) a = Some o -> o <> OPoint -> obj hp a = Some o.
Proof.
  rewrite collect_obj. destruct (obj hp a) as [o0|]; [|discriminate]. intros E N. injection E as E. f_equal.
  destruct o0; auto; destruct (live a); auto; congruence.
Qed.
Lemma collect_references hp live ids h k b : references (collect hp live) ids h k b -> references hp ids h k b.
Proof.
  intros R. inversion R; subst; repeat match goal with H : obj (collect _ _) _ = Some _ |- _ => apply collect_same in H; [|discriminate] end.
  - eapply ref_line_point; eauto.
  - eapply ref_poly_point; eauto.
  - eapply ref_left; eauto.
  - eapply ref_right; eauto.
  - eapply ref_center; eauto.
  - eapply ref_ll_reg; eauto.
  - eapply ref_outer; eauto.
  - eapply ref_inner; eauto.
  - eapply ref_ar_reg; eauto.
  - eapply ref_par_point; eauto.
  - eapply ref_par_line; eauto.
  - eapply ref_par_poly; eauto.
  - eapply ref_par_lanelet; eauto.
  - eapply ref_par_area; eauto.
Qed.
Lemma sweep_length live l : forall a, length (sweep live a l) = length l.
Proof. induction l as [|o l IH]; intros a; cbn [sweep length]; auto. Qed.

(** The map made after the destruction of lanelets and areas has the parameters of the regulatory elements. *)
Lemma converted_later hp sb live fuel : heap_ok hp -> sub_ok hp sb -> parts_ok hp sb -> tracks hp sb -> survives hp sb live ->
  (length (hp_objs hp) < fuel)%nat -> exists s', lanelet_map (collect hp live) fuel sb = Some s' /\ self_contained (collect hp live) s' /\
    (forall k i h, element (sb_map sb) k i h -> exists h', get k i s' = Some h' /\ (k = KLanelet -> h' = h) /\ (k = KArea -> fst h' = fst h)) /\
    forall i h a, element s' KReg i h -> rule_in hp sb (fst h) -> uses hp (fst h) a ->
      exists k h', (k = KLanelet \/ k = KArea) /\ has_kind (collect hp live) k a /\ get k (m_ids s' a) s' = Some h'.
Proof.
  intros HO OK PK T SV F.
  assert (EV : forall k i h, element (sb_map sb) k i h -> live (fst h) = true).
  { intros k i h H. apply SV. apply alive_element. exists k, i, h. auto. }
  assert (OK' : sub_ok (collect hp live) sb).
  { destruct OK as (A & B & C). split; [exact A|]. split; [exact B|]. intros k i h H. destruct (C k i h H) as (C1 & C2). split; [|exact C2].
    apply collect_kind; [exact C1|]. intros _. eauto. }
  assert (PK' : parts_ok (collect hp live) sb).
  { intros k i h ky b H K R Ky. destruct (PK k i h ky b H K (collect_references _ _ _ _ _ _ R) Ky) as (A & B). split; [exact A|].
    intros p Rp. apply B. eapply collect_references; eauto. }
  destruct (convert (collect hp live) sb (collect_ok hp live HO) OK' PK' fuel) as (s' & E & SC & W & EL & _ & KI).
  { unfold collect. cbn [hp_objs]. rewrite sweep_length. exact F. }
  exists s'. split; [exact E|]. split; [exact SC|]. split; [exact EL|]. intros i h a Eh R U.
  assert (La : live a = true) by (apply SV; eapply tracks_rules; eauto). apply collect_uses with (live := live) in U; [|exact La].
  destruct U as (ps & Eo & [(x & Hx & <- & (o & Ex & Kx))|[Hx (o & Ex & Kx)]]); destruct o; try discriminate.
  - assert (Rf : references (collect hp live) (m_ids s') h KLanelet (fst x)) by (eapply ref_par_lanelet; eauto).
    destruct (SC _ _ _ _ _ Eh Rf) as (_ & h' & G). exists KLanelet, h'. split; [auto|]. split; [|exact G]. eexists. split; [exact Ex|reflexivity].
  - assert (Rf : references (collect hp live) (m_ids s') h KArea a) by (eapply ref_par_area; eauto).
    destruct (SC _ _ _ _ _ Eh Rf) as (_ & h' & G). exists KArea, h'. split; [auto|]. split; [|exact G]. eexists. split; [exact Ex|reflexivity].
Qed.
