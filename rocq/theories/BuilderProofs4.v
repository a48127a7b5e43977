From Coq Require Import NArith ZArith List Bool Arith Lia Permutation.
From Verif Require Import CostAlg GraphModel GraphSpec GraphProofs TrafficModel BuilderModel BuilderSpec BuilderProofs BuilderProofs2 BuilderProofs3.
Import ListNotations.
Local Open Scope nat_scope.

Lemma NoDup_app_remove {T} (l1 l2 : list T) : NoDup (l1 ++ l2) -> NoDup l1 /\ NoDup l2 /\ (forall x, In x l1 -> In x l2 -> False).
Proof.
  induction l1 as [|x l1 IH]; simpl; intros H; [repeat split; auto; constructor|]. inversion H as [|? ? Hx Hn]; subst.
  rewrite in_app_iff in Hx. destruct (IH Hn) as (H1 & H2 & H3). split; [constructor; auto|]. split; auto. intros y [->|Hy] Hy'; eauto.
Qed.
Section Result.
Context {A : CostAlg}.
Variable one : cost A.
Variable w : world.
Variable ru : rules.
Variable costs : list (@module A).
Hypothesis one_good : good_cost one = true.
Hypothesis Hsane : sane w ru.
Notation triple := (elem * elem * einfo A)%type.
Notation mods := (modules costs).
Notation V := (vertices w ru).
Notation VS := (Vs w ru).
Notation CON := (contrib one w ru costs).
Implicit Types (E X : list triple) (g : graph A).

Lemma mods_nth k m : In (k, m) mods <-> nth_error costs (N.to_nat k) = Some m.
Proof.
  unfold modules.
  assert (H : forall (l : list (@module A)) n, In (k, m) (combine (map N.of_nat (seq n (length l))) l) <->
     n <= N.to_nat k /\ nth_error l (N.to_nat k - n) = Some m).
  { induction l as [|x l IH]; intros n; simpl.
    - split; [tauto|]. intros [_ H]. destruct (N.to_nat k - n); discriminate.
    - rewrite IH. split.
      + intros [Heq|[Hle Hn]].
        * injection Heq as <- <-. rewrite Nat2N.id, Nat.sub_diag. auto.
        * split; [lia|]. replace (N.to_nat k - n) with (S (N.to_nat k - S n)) by lia. auto.
      + intros [Hle Hn]. destruct (N.to_nat k - n) as [|j] eqn:Ej.
        * left. simpl in Hn. injection Hn as ->. f_equal. lia.
        * right. split; [lia|]. replace (N.to_nat k - S n) with j by lia. auto. }
  rewrite H, Nat.sub_0_r. split; [tauto|]. split; [lia|auto].
Qed.
Lemma in_ids k : In k (ids costs) <-> exists m, nth_error costs (N.to_nat k) = Some m.
Proof.
  unfold ids. rewrite in_map_iff. split.
  - intros ([k' m] & <- & H). exists m. apply mods_nth. auto.
  - intros [m H]. exists (k, m). split; auto. apply mods_nth. auto.
Qed.

Variables (g : graph A) (E0 : list triple) (cs : side -> collector) (Q : side -> list (list (lref * lref))).
Hypothesis B : built one w ru costs g E0 cs Q.
Notation F := (((E0 ++ flat_map (CON SLeft) (Q SLeft)) ++ flat_map (CON SRight) (Q SRight)) ++ quiet_areas one w ru costs).
Notation St := (bt_state _ _ _ _ _ _ _ _ B).
Notation Hr := (bt_repr _ _ _ _ _ _ _ _ B).

Lemma joined_iff a b r k c : joined g a b r k c <-> In (a, b, EInfo c k r) F.
Proof. apply (repr_edge VS). apply Hr. Qed.
Lemma in_F t : In t F <-> In t E0 \/ (exists s, In t (flat_map (CON s) (Q s))) \/ In t (quiet_areas one w ru costs).
Proof.
  rewrite !in_app_iff. split.
  - intros [[[H|H]|H]|H]; eauto.
  - intros [H|[[[] H]|H]]; auto.
Qed.
Lemma contrib_rel s t : In t (flat_map (CON s) (Q s)) -> ei_rel (snd t) = adjacent s \/ ei_rel (snd t) = changing s.
Proof.
  intros H. apply in_flat_map in H as (q & _ & H). apply contrib_in in H as (x & y & rest & m & pre & _ & _ & -> & _).
  apply change_rel.
Qed.
Lemma in_area_batch a d t : In t (area_batch one w ru costs a d) ->
  (exists i, may_pass ru (EArea a) (L (d, i)) = true /\ In t (batch one w ru costs (EArea a) (L (d, i)) RArea)) \/
  (exists i, may_pass ru (L (d, i)) (EArea a) = true /\ In t (batch one w ru costs (L (d, i)) (EArea a) RArea)) \/
  ((forall i, may_pass ru (EArea a) (L (d, i)) = false /\ may_pass ru (L (d, i)) (EArea a) = false) /\
   w_meet_area w a d = true /\ In t (batch one w ru costs (L (d, false)) (EArea a) Conflicting)).
Proof.
  unfold area_batch. rewrite !in_app_iff. intros [H|[H|[H|[H|H]]]].
  - destruct (may_pass _ _ _) eqn:E; [|destruct H]. left. eauto.
  - destruct (may_pass ru (EArea a) (L (d, true))) eqn:E; [|destruct H]. left. eauto.
  - destruct (may_pass ru (L (d, false)) (EArea a)) eqn:E; [|destruct H]. right. left. eauto.
  - destruct (may_pass ru (L (d, true)) (EArea a)) eqn:E; [|destruct H]. right. left. eauto.
  - right. right. destruct (_ || _ || _ || _) eqn:E; [destruct H|]. apply orb_false_iff in E as [E E4].
    apply orb_false_iff in E as [E E3]. apply orb_false_iff in E as [E1 E2].
    destruct (w_meet_area w a d); [|destruct H]. split; auto. intros []; auto.
Qed.
Lemma area_rel t : In t (quiet_areas one w ru costs) ->
  (ei_rel (snd t) = RArea \/ ei_rel (snd t) = Conflicting) /\
  (exists a, fst (fst t) = EArea a \/ snd (fst t) = EArea a).
Proof.
  unfold quiet_areas. intros H. apply in_flat_map in H as (a & Ha & H). unfold area_contrib in H.
  apply in_app_iff in H as [H|H]; apply in_flat_map in H as (d & Hd & H).
  - destruct t as [[x y] i]. apply in_area_batch in H as [(j & _ & H)|[(j & _ & H)|(_ & _ & H)]];
      apply in_batch in H as (-> & -> & _ & _ & km & _ & -> & _); simpl; eauto.
  - destruct t as [[x y] i]. unfold areas_batch in H. destruct (N.eqb d a); [destruct H|].
    destruct (may_pass _ _ _); [|destruct (w_meet_areas w a d); [|destruct H]];
      apply in_batch in H as (-> & -> & _ & _ & km & _ & -> & _); simpl; eauto.
Qed.

(** * Vertices *)
Lemma vertex_iff x : (exists v, get_vertex g x = Some v) <->
  drivable w ru x.
Proof.
  rewrite <- (repr_known VS g F x Hr). destruct x as [d i|a].
  - change (ELanelet d i) with (L (d, i)). rewrite in_Vs. apply in_V.
  - rewrite in_Vs_area. apply in_areas.
Qed.

(** * Following lanelets *)
Lemma succ_in_E0 x y c k : In (x, y, EInfo c k Successor) F <-> In (x, y, EInfo c k Successor) E0.
Proof.
  rewrite in_F. split; auto. intros [H|[[s H]|H]]; auto.
  - apply contrib_rel in H. simpl in H. destruct s; destruct H; discriminate.
  - apply area_rel in H as [[H|H] _]; discriminate.
Qed.
Lemma followers_iff a b : In a V -> In b (followers w ru a) <-> In b V /\ continued_by w a b /\ may_pass ru (L a) (L b) = true.
Proof.
  intros Ha. split.
  - intros H. apply in_followers in H as (H1 & H2 & H3). rewrite follows_iff in H2. auto.
  - intros (H1 & H2 & H3). apply follows_iff in H2. unfold followers.
    destruct (bt_anchored _ _ _ _ _ _ _ _ B a Ha) as (p & q & x & y & _ & He). apply ends_iff in He as [E1 E2].
    unfold end_key. rewrite E1, E2. simpl. apply filter_In. rewrite H2, H3. split; auto.
    eapply followed_found; eauto. apply (bt_anchored _ _ _ _ _ _ _ _ B b H1). rewrite E1, E2. auto.
Qed.
Lemma successor_iff x y k c : joined g x y Successor k c <-> exists a b m, x = L a /\ y = L b /\
  usable w ru a /\ usable w ru b /\ continued_by w a b /\ may_pass ru (L a) (L b) = true /\
  nth_error costs (N.to_nat k) = Some m /\ c = m_succeeding m (L a) (L b) /\ good_cost c = true.
Proof.
  rewrite joined_iff, succ_in_E0. split.
  - intros H. apply (state_succ_in _ _ _ _ _ _ _ _ St) in H as (a & Ha & H); [|reflexivity].
    apply in_succ_of in H as (b & -> & -> & Hb & H). apply in_batch in H as (_ & _ & Va & Vb & [k' m] & Hk & Heq & Hg).
    simpl in Heq. injection Heq as -> ->. apply followers_iff in Hb as (H1 & H2 & H3); auto.
    exists a, b, m. rewrite <- !in_V. apply mods_nth in Hk. simpl in Hg. auto 10.
  - intros (a & b & m & -> & -> & Ha & Hb & Hf & Hp & Hk & -> & Hg).
    rewrite <- in_V in Ha, Hb.
    assert (Hin : In (L a, L b, EInfo (m_succeeding m (L a) (L b)) k Successor) (filter is_succ E0)).
    { rewrite (st_succ _ _ _ _ _ _ _ St). apply in_flat_map. exists a. split; auto. apply in_flat_map. exists b.
      split; [apply followers_iff; auto|]. apply in_batch. rewrite !in_Vs. repeat split; auto.
      exists (k, m). split; [apply mods_nth; auto|]. auto. }
    apply filter_In in Hin. tauto.
Qed.
Lemma slk_continued a b : slk one w ru costs a b -> continued_by w a b.
Proof. intros H. apply slk_follows in H as [H _]. apply follows_iff. auto. Qed.

(** * Lanelets beside *)
Lemma candidate_iff s a b : candidate w ru s a b <-> usable w ru b /\ neighbour w s b a.
Proof.
  unfold candidate. rewrite in_V. split.
  - intros (H1 & H2 & H3). split; auto. apply beside_iff; auto.
  - intros (H1 & H2). assert (a <> b) by (intros ->; apply (proj1 H2); auto). split; [auto|split; [auto|]]. apply beside_iff; auto.
Qed.
Lemma rel_E0_changing s x y c k : ~ In (x, y, EInfo c k (changing s)) E0.
Proof.
  intros H. apply (st_rel _ _ _ _ _ _ _ St) in H. simpl in H. destruct s; simpl in H; intuition discriminate.
Qed.
Lemma coll_sound s a b : In (a, b) (cs s) -> changeable w ru s (a, b) /\ In a V /\ In b V.
Proof.
  intros H. apply (st_coll_sound _ _ _ _ _ _ _ St) in H as (H1 & H2 & H3 & _). apply candidate_iff in H2 as (H2 & H4).
  unfold changeable. simpl. rewrite <- !in_V. rewrite <- in_V in H2. auto 10.
Qed.
Lemma contrib_sound s t : In t (flat_map (CON s) (Q s)) -> exists a b pre post k m,
  In (pre ++ (a, b) :: post) (Q s) /\ nth_error costs (N.to_nat k) = Some m /\ In (a, b) (cs s) /\
  t = (L a, L b, change_info one (k, m) s (a :: map fst post) (b :: map snd post)) /\ good_cost (ei_cost (snd t)) = true.
Proof.
  intros H. apply in_flat_map in H as (q & Hq & H).
  apply contrib_in in H as (a & b & post & [k m] & pre & -> & Hm & -> & _ & _ & Hg).
  exists a, b, pre, post, k, m. split; auto. split; [apply mods_nth; auto|]. split; [|auto].
  apply (Permutation_in _ (bt_all _ _ _ _ _ _ _ _ B s)). apply in_concat. eexists. split; eauto.
  apply in_app_iff. simpl. auto.
Qed.
Lemma in_contrib s pre a b post k m : In (pre ++ (a, b) :: post) (Q s) -> nth_error costs (N.to_nat k) = Some m ->
  good_cost (ei_cost (change_info one (k, m) s (a :: map fst post) (b :: map snd post))) = true ->
  In (L a, L b, change_info one (k, m) s (a :: map fst post) (b :: map snd post)) F.
Proof.
  intros Hq Hm Hg. apply in_F. right. left. exists s. apply in_flat_map. eexists. split; eauto.
  assert (Hc : In (a, b) (cs s)).
  { apply (Permutation_in _ (bt_all _ _ _ _ _ _ _ _ B s)). apply in_concat. eexists. split; eauto. apply in_app_iff. simpl. auto. }
  apply coll_sound in Hc as (_ & Ha & Hb).
  clear Hq. induction pre as [|[x y] pre IH].
  - cbn [app]. cbn [contrib]. apply in_app_iff. left. apply in_flat_map. exists (k, m).
    split; [apply mods_nth; auto|]. apply in_accepted. cbn [fst snd]. rewrite !in_Vs. auto.
  - cbn [app contrib]. apply in_app_iff. right. auto.
Qed.

Lemma adjacent_sound s x y k c : joined g x y (adjacent s) k c -> exists a b, x = L a /\ y = L b /\
  usable w ru a /\ usable w ru b /\ neighbour w s b a /\ c = one /\
  (may_change ru a b = true -> exists pre post m, In (pre ++ (a, b) :: post) (Q s) /\ nth_error costs (N.to_nat k) = Some m /\
     cfinite A (m_change m (a :: map fst post) (b :: map snd post)) = false).
Proof.
  rewrite joined_iff, in_F. intros [H|[[s' H]|H]].
  - apply (st_side_sound _ _ _ _ _ _ _ St) in H as (a & b & -> & -> & -> & _ & Ha & Hc & Hm & _).
    apply candidate_iff in Hc as (Hb & Hn). exists a, b. rewrite <- (in_V _ _ a). repeat split; auto; try apply Hb; try apply Hn.
    intros. congruence.
  - pose proof (contrib_rel _ _ H) as Hs. assert (s' = s) as ->. { destruct s, s', Hs; simpl in *; congruence. }
    apply contrib_sound in H as (a & b & pre & post & k' & m & Hq & Hm & Hc & Heq & Hg).
    apply coll_sound in Hc as ((Ha & Hb & Hn & Hch) & _). simpl in *.
    unfold change_info in Heq. simpl in Heq. destruct (cfinite A (m_change m (a :: map fst post) (b :: map snd post))) eqn:Ef; simpl in Heq.
    + exfalso. injection Heq as _ _ _ _ Hrel. destruct s; discriminate.
    + injection Heq as -> -> -> ->. exists a, b. repeat split; auto; try apply Ha; try apply Hb; try apply Hn.
      intros _. exists pre, post, m. auto.
  - apply area_rel in H as [[H|H] _]; destruct s; discriminate.
Qed.
Lemma adjacent_complete s a b k m : usable w ru a -> usable w ru b -> neighbour w s b a -> may_change ru a b = false ->
  ~ continued_by w a b -> (s = SRight -> ~ neighbour w SLeft b a) ->
  nth_error costs (N.to_nat k) = Some m -> joined g (L a) (L b) (adjacent s) k one.
Proof.
  intros Ha Hb Hn Hm Hc Hs Hk. apply joined_iff, in_F. left.
  apply (st_side_complete _ _ _ _ _ _ _ St); auto.
  - apply in_V. auto.
  - apply candidate_iff. auto.
  - intros H. apply slk_continued in H. auto.
  - intros -> H. apply candidate_iff in H as [_ H]. apply Hs; auto.
  - apply in_ids. eauto.
Qed.

Lemma coll_iff s p : regular w ru s -> In p (cs s) <-> changeable w ru s p.
Proof.
  intros Hreg. destruct p as [a b]. split; [intros H; apply coll_sound in H; tauto|].
  intros (Ha & Hb & Hn & Hm). simpl in *.
  assert (Ht : target (cs s) a <> None).
  { apply (st_coll_complete _ _ _ _ _ _ _ St s a b); auto.
    - apply in_V. auto. - apply candidate_iff. auto.
    - intros H. apply slk_continued in H. revert H. eapply beside_not_ahead; eauto. }
  destruct (target (cs s) a) as [b'|] eqn:Et; [|congruence]. apply target_in in Et.
  pose proof (coll_sound _ _ _ Et) as ((_ & Hb' & Hn' & _) & _). simpl in *.
  rewrite (one_beside _ _ _ Hreg a b b'); auto.
Qed.

Lemma quiet_F a : nextsE F a = nextsE E0 a /\ prevsE F a = prevsE E0 a.
Proof.
  assert (Q3 : quiet (quiet_areas one w ru costs)). { intros t Ht. apply area_rel in Ht as [[-> | ->] _]; discriminate. }
  pose proof (contribs_quiet one w ru costs SLeft (Q SLeft)) as Q1.
  pose proof (contribs_quiet one w ru costs SRight (Q SRight)) as Q2.
  rewrite (nexts_quiet _ _ _ Q3), (nexts_quiet _ _ _ Q2), (nexts_quiet _ _ _ Q1).
  rewrite (prevs_quiet _ _ _ Q3), (prevs_quiet _ _ _ Q2), (prevs_quiet _ _ _ Q1). auto.
Qed.
Lemma succ_ends t : In t F -> zero_succ t = true -> exists a b, fst t = (L a, L b).
Proof.
  destruct t as [[x y] [c k r]]. unfold zero_succ. simpl. intros H Hz. apply andb_true_iff in Hz as [Hz _].
  apply relation_eqb_eq in Hz. subst r. apply succ_in_E0 in H.
  apply (state_succ_in _ _ _ _ _ _ _ _ St) in H as (a & Ha & H); [|reflexivity].
  apply in_succ_of in H as (b & -> & -> & _). eauto.
Qed.
Lemma lanelets_back (l : list (option elem)) : (forall o, In o l -> exists b, o = Some (L b)) ->
  map (fun b => Some (L b)) (lanelets_of l) = l.
Proof.
  induction l as [|o l IH]; intros H; simpl; auto. destruct (H o) as [[d i] ->]; simpl; auto.
  unfold L at 1. simpl. f_equal. apply IH. intros. apply H. simpl. auto.
Qed.
Lemma next_edges_map a : map (fun e => vertex_elem g (e_tgt e)) (next_edges g a) = map (fun b => Some (L b)) (nextsE E0 a).
Proof.
  rewrite <- (proj1 (quiet_F a)). unfold nextsE, next_edges. rewrite lanelets_back.
  - apply filter_map_rel. eapply forall2_weaken; [|apply (repr_forall2 _ _ _ _ Hr)].
    intros e' [[x y] i] _ Hnm. unfold named, some_named in Hnm. simpl in Hnm. injection Hnm as H1 H2 H3. split; [|auto].
    rewrite H1, H3. unfold zero_succ. cbn [fst snd is_elem]. destruct (elem_eqb x (L a)), (relation_eqb _ _), (N.eqb _ _); auto.
  - intros o Ho. apply in_map_iff in Ho as (t & <- & Ht). apply filter_In in Ht as [Ht Hz]. apply andb_true_iff in Hz as [Hz _].
    destruct (succ_ends t Ht Hz) as (x & y & ->). simpl. eauto.
Qed.
Lemma prev_edges_map a : map (fun e => vertex_elem g (e_src e)) (prev_edges g a) = map (fun b => Some (L b)) (prevsE E0 a).
Proof.
  rewrite <- (proj2 (quiet_F a)). unfold prevsE, prev_edges. rewrite lanelets_back.
  - apply filter_map_rel. eapply forall2_weaken; [|apply (repr_forall2 _ _ _ _ Hr)].
    intros e' [[x y] i] _ Hnm. unfold named, some_named in Hnm. simpl in Hnm. injection Hnm as H1 H2 H3. split; [|auto].
    rewrite H2, H3. unfold zero_succ. cbn [fst snd is_elem]. destruct (elem_eqb y (L a)), (relation_eqb _ _), (N.eqb _ _); auto.
  - intros o Ho. apply in_map_iff in Ho as (t & <- & Ht). apply filter_In in Ht as [Ht Hz]. apply andb_true_iff in Hz as [Hz _].
    destruct (succ_ends t Ht Hz) as (x & y & ->). simpl. eauto.
Qed.
Lemma map_single {T U} (f : T -> U) l u : map f l = [u] <-> exists t, l = [t] /\ f t = u.
Proof.
  split.
  - destruct l as [|t [|]]; simpl; try discriminate. intros H. injection H as <-. eauto.
  - intros (t & -> & <-). auto.
Qed.
Lemma only_next_iff a b : only_next g a b <-> nextsE E0 a = [b].
Proof.
  unfold only_next. rewrite <- (map_single (fun e => vertex_elem g (e_tgt e))), next_edges_map, map_single. split.
  - intros (t & -> & H). injection H as H1 H2. destruct t, b. simpl in *. congruence.
  - intros ->. eauto.
Qed.
Lemma only_prev_iff a b : only_prev g a b <-> prevsE E0 b = [a].
Proof.
  unfold only_prev. rewrite <- (map_single (fun e => vertex_elem g (e_src e))), prev_edges_map, map_single. split.
  - intros (t & -> & H). injection H as H1 H2. destruct t, a. simpl in *. congruence.
  - intros ->. eauto.
Qed.
Lemma each_follows_consec l : consec (onward E0) l -> each_follows g l.
Proof.
  induction l as [|p l IH]; simpl; auto. destruct l as [|q l]; auto. intros [H1 H].
  split; [|apply IH; auto]. unfold pair_follows. rewrite !only_next_iff, !only_prev_iff. exact H1.
Qed.
Lemma run_ok s l : regular w ru s -> In l (Q s) -> stretch w ru g s l.
Proof.
  intros Hreg Hl. assert (Hsub : forall p, In p l -> In p (cs s)).
  { intros p Hp. apply (Permutation_in _ (bt_all _ _ _ _ _ _ _ _ B s)). apply in_concat. eauto. }
  constructor.
  - intros p Hp. apply coll_iff; auto.
  - apply each_follows_consec. pose proof (bt_train _ _ _ _ _ _ _ _ B s) as Ht. rewrite Forall_forall in Ht. auto.
  - assert (Hn : NoDup (map fst (concat (Q s)))).
    { eapply Permutation_NoDup; [apply Permutation_map, Permutation_sym, (bt_all _ _ _ _ _ _ _ _ B s)|].
      apply (st_keys _ _ _ _ _ _ _ St). }
    apply in_split in Hl as (l1 & l2 & Heq). rewrite Heq, concat_app in Hn. simpl in Hn.
    rewrite !map_app in Hn. clear -Hn.
    assert (Hr : forall (x y : list lref), NoDup (x ++ y) -> NoDup y).
    { induction x as [|z x IH]; simpl; auto. intros y H. inversion H; auto. }
    apply Hr in Hn. revert Hn. generalize (map fst (concat l2)) (map fst l). clear. intros z.
    induction l as [|x l IH]; simpl; intros H; [constructor|]. inversion H; subst. constructor; auto.
    intros Hi. apply H2. apply in_app_iff. auto.
  - intros p q Hp Hq [N1 P1] [N2 P2]. apply only_next_iff in N1, N2. apply only_prev_iff in P1, P2.
    pose proof (bt_closed _ _ _ _ _ _ _ _ B s) as Hc. rewrite Forall_forall in Hc.
    apply (Hc l Hl p q); try (apply coll_iff; auto). unfold mutual. auto.
Qed.
Lemma changeable_run s p : regular w ru s -> changeable w ru s p -> exists pre post, In (pre ++ p :: post) (Q s).
Proof.
  intros Hreg Hp. apply (coll_iff s p Hreg) in Hp.
  apply (Permutation_in _ (Permutation_sym (bt_all _ _ _ _ _ _ _ _ B s))) in Hp. apply in_concat in Hp as (l & Hl & Hp).
  apply in_split in Hp as (pre & post & ->). eauto.
Qed.
Lemma changing_sound s x y k c : regular w ru s -> joined g x y (changing s) k c ->
  exists a b pre post m, x = L a /\ y = L b /\ stretch w ru g s (pre ++ (a, b) :: post) /\
    nth_error costs (N.to_nat k) = Some m /\ c = m_change m (a :: map fst post) (b :: map snd post) /\ good_cost c = true.
Proof.
  intros Hreg. rewrite joined_iff. intros HF. pose proof HF as H. apply in_F in H as [H|[[s' H]|H]].
  - destruct (rel_E0_changing _ _ _ _ _ H).
  - pose proof (contrib_rel _ _ H) as Hs. assert (s' = s) as ->. { destruct s, s', Hs; simpl in *; congruence. }
    apply contrib_sound in H as (a & b & pre & post & k' & m & Hq & Hm & Hc & Heq & Hg).
    exists a, b, pre, post, m. assert (Hst := run_ok _ _ Hreg Hq).
    unfold change_info in Heq. simpl in Heq. destruct (cfinite A (m_change m (a :: map fst post) (b :: map snd post))) eqn:Ef; simpl in Heq.
    + injection Heq as -> -> -> ->. simpl in Hg. auto 10.
    + exfalso. injection Heq as _ _ _ _ Hrel. destruct s; discriminate.
  - apply area_rel in H as [[H|H] _]; destruct s; discriminate.
Qed.
Lemma change_complete s a b : regular w ru s -> changeable w ru s (a, b) ->
  exists pre post, stretch w ru g s (pre ++ (a, b) :: post) /\ forall k m, nth_error costs (N.to_nat k) = Some m ->
    let c := m_change m (a :: map fst post) (b :: map snd post) in
    (good_cost c = true -> joined g (L a) (L b) (changing s) k c) /\
    (cfinite A c = false -> joined g (L a) (L b) (adjacent s) k one).
Proof.
  intros Hreg Hc. destruct (changeable_run s (a, b) Hreg Hc) as (pre & post & Hq). exists pre, post.
  split; [apply run_ok; auto|]. intros k m Hm c. pose proof (in_contrib s pre a b post k m Hq Hm) as Hin.
  unfold change_info in Hin. simpl in Hin. fold c in Hin. split; intros Hg; rewrite joined_iff.
  - assert (Hf : cfinite A c = true). { revert Hg. unfold good_cost. destruct (cfinite A c); auto. }
    rewrite Hf in Hin. simpl in Hin. auto.
  - rewrite Hg in Hin. simpl in Hin. auto.
Qed.
(** * Conflicts *)
Lemma inv_or a b : fst a = fst b -> a = b \/ b = inv a.
Proof. destruct a as [d i], b as [d' j]. simpl. intros ->. unfold inv. simpl. destruct i, j; auto. Qed.
Lemma overlaps_iff a b : fst a <> fst b -> overlaps w a b = true <-> w_meet w a b = true /\ ~ touch w a b.
Proof.
  intros Hne. unfold overlaps. destruct (N.eqb_spec (fst a) (fst b)) as [|_]; [contradiction|].
  assert (Hab : b <> a) by (intros ->; auto). assert (Hai : b <> inv a) by (intros ->; auto).
  assert (Ht : touch w a b <-> line_eqb (rbound w a) (lbound w b) || line_eqb (lbound w a) (rbound w b)
       || line_eqb (linv (lbound w a)) (lbound w b) || line_eqb (linv (rbound w a)) (rbound w b)
       || follows w a b || follows w b a || follows w (inv a) b || follows w (inv b) a = true).
  { assert (Hx : follows w (inv b) a = follows w (inv a) b).
    { unfold follows. rewrite !lbound_inv, !rbound_inv.
      assert (He : forall l, last w (linv l) = first w l).
      { intros [d i]. unfold last, first, line_points, linv. simpl. destruct i; simpl; rewrite ?rev_involutive; auto. }
      rewrite !He. unfold same_point. rewrite andb_comm.
      f_equal; repeat (destruct (first w _); auto); apply Nat.eqb_sym. }
    rewrite Hx, !orb_true_iff, !line_eqb_eq, !follows_iff. unfold touch, neighbour. split.
    - intros [([] & [[_ H]|[_ H]])|[H|[H|H]]]; rewrite ?lbound_inv, ?rbound_inv in H; auto 10.
    - intros [[[[[[[H|H]|H]|H]|H]|H]|H]|H]; auto.
      + left. exists SRight. auto. + left. exists SLeft. auto.
      + left. exists SRight. right. rewrite rbound_inv. auto. + left. exists SLeft. right. rewrite lbound_inv. auto. }
  destruct (_ || _) eqn:E.
  - split; [discriminate|]. intros [_ H]. exfalso. apply H, Ht. auto.
  - split; [|tauto]. intros H. split; auto. intros H'. apply Ht in H'. congruence.
Qed.
Lemma both_ways_usable a : usable w ru a -> usable w ru (inv a) -> is_both_ways w ru a = true.
Proof.
  intros H H'. apply existsb_exists. exists (fst a, false). split; [|apply N.eqb_refl].
  unfold both_ways. apply filter_In. destruct H as (H1 & H2 & H3), H' as (H1' & H2' & H3').
  split; [apply in_passable; simpl; auto|]. unfold inv in *. simpl in *. destruct a as [d []]; simpl in *; auto.
Qed.
Lemma area_conflict_ends x y c k : In (x, y, EInfo c k Conflicting) (quiet_areas one w ru costs) ->
  exists a, y = EArea a.
Proof.
  unfold quiet_areas. intros H. apply in_flat_map in H as (a & Ha & H). unfold area_contrib in H.
  apply in_app_iff in H as [H|H]; apply in_flat_map in H as (d & Hd & H).
  - apply in_area_batch in H as [(j & _ & H)|[(j & _ & H)|(_ & _ & H)]];
      apply in_batch in H as (-> & -> & _ & _ & km & _ & Heq & _); try discriminate. eauto.
  - unfold areas_batch in H. destruct (N.eqb d a); [destruct H|].
    destruct (may_pass _ _ _); [|destruct (w_meet_areas w a d); [|destruct H]];
      apply in_batch in H as (-> & -> & _ & _ & km & _ & Heq & _); try discriminate. eauto.
Qed.
Lemma conflict_iff a b k c : joined g (L a) (L b) Conflicting k c <->
  usable w ru a /\ usable w ru b /\ c = one /\ (exists m, nth_error costs (N.to_nat k) = Some m) /\
  (b = inv a \/ (fst a <> fst b /\ w_meet w a b = true /\ ~ touch w a b /\ (snd a = false \/ snd b = false))).
Proof.
  rewrite joined_iff, in_F, <- in_ids. split.
  - intros [H|[[s H]|H]].
    + apply (st_conf_sound _ _ _ _ _ _ _ St) in H as (a' & b' & Ha & Hb & -> & Hk & Va & Vb & Hne & Hc).
      apply L_inj in Ha, Hb. subst a' b'. rewrite <- !in_V. repeat split; auto.
      destruct Hc as [[Hc _]|(H1 & H2 & H3)].
      * destruct (inv_or _ _ Hc); [contradiction|auto].
      * right. apply overlaps_iff in H2 as [H2 H4]; auto.
    + apply contrib_rel in H. destruct s, H; discriminate.
    + apply area_conflict_ends in H as [x H]. discriminate.
  - intros (Ha & Hb & -> & Hk & Hc). left. change (In (conflict one a b k) E0). destruct Hc as [->|(H1 & H2 & H3 & H4)].
    + destruct (snd a) eqn:Es.
      * rewrite <- (inv_inv a) at 1. apply (st_conf_inv _ _ _ _ _ _ _ St); auto.
        -- apply in_V. auto. -- unfold inv. simpl. rewrite Es. auto.
        -- apply both_ways_usable; auto. rewrite inv_inv. auto.
        -- apply (near_self _ _ Hsane). auto.
      * apply (st_conf_inv _ _ _ _ _ _ _ St); auto.
        -- apply in_V. auto. -- apply both_ways_usable; auto. -- apply (near_self _ _ Hsane). auto.
    + assert (Ho : overlaps w a b = true) by (apply overlaps_iff; auto).
      destruct b as [d j]. simpl in *. destruct j.
      * destruct a as [d' i]. simpl in *. destruct H4 as [->|]; [|discriminate].
        assert (Ho' : overlaps w (d, true) (d', false) = true). { rewrite overlaps_sym; auto. apply (meet_sym _ _ Hsane). }
        apply (st_conf_complete _ _ _ _ _ _ _ St); auto; try apply in_V; auto.
        apply (near_meet _ _ Hsane); auto. rewrite (meet_sym _ _ Hsane). auto.
      * apply (st_conf_complete _ _ _ _ _ _ _ St); auto; try apply in_V; auto.
        apply (near_meet _ _ Hsane); auto.
Qed.

(** * Areas *)
Lemma in_quiet t : In t (quiet_areas one w ru costs) <->
  exists a, usable_area w ru a /\
  ((exists d, In d (w_near w (EArea a)) /\ In t (area_batch one w ru costs a d)) \/
   (exists b, In b (w_near_areas w a) /\ In t (areas_batch one w ru costs a b))).
Proof.
  unfold quiet_areas. rewrite in_flat_map. setoid_rewrite in_areas. split.
  - intros (a & Ha & H). exists a. split; auto. unfold area_contrib in H. rewrite in_app_iff, !in_flat_map in H. auto.
  - intros (a & Ha & H). exists a. split; auto. unfold area_contrib. rewrite in_app_iff, !in_flat_map. auto.
Qed.
Lemma area_only x y c k : In (x, y, EInfo c k RArea) F -> In (x, y, EInfo c k RArea) (quiet_areas one w ru costs).
Proof.
  rewrite in_F. intros [H|[[s H]|H]]; auto.
  - apply (st_rel _ _ _ _ _ _ _ St) in H. simpl in H. intuition discriminate.
  - apply contrib_rel in H. destruct s, H; discriminate.
Qed.
Lemma in_Vs_drivable x : In x VS <-> drivable w ru x.
Proof.
  destruct x as [d i|a]; simpl.
  - change (ELanelet d i) with (L (d, i)). rewrite in_Vs. apply in_V.
  - rewrite in_Vs_area. apply in_areas.
Qed.
Lemma area_iff x y k c : joined g x y RArea k c <->
  drivable w ru x /\ drivable w ru y /\ ((exists a, x = EArea a) \/ (exists a, y = EArea a)) /\ x <> y /\ may_pass ru x y = true /\
  exists m, nth_error costs (N.to_nat k) = Some m /\ c = m_succeeding m x y /\ good_cost c = true.
Proof.
  rewrite joined_iff. split.
  - intros H. apply area_only in H. apply in_quiet in H as (a & Ha & [(d & Hd & H)|(b & Hb & H)]).
    + apply in_area_batch in H as [(j & Hp & H)|[(j & Hp & H)|(_ & _ & H)]];
        apply in_batch in H as (-> & -> & Vx & Vy & [k' m] & Hk & Heq & Hg); try discriminate;
        simpl in Heq; injection Heq as -> ->; apply in_Vs_drivable in Vx, Vy; apply mods_nth in Hk; simpl in Hg.
      * split; [exact Vx|]. split; [exact Vy|]. split; [eauto|]. split; [discriminate|]. split; [auto|]. exists m. auto.
      * split; [exact Vx|]. split; [exact Vy|]. split; [eauto|]. split; [discriminate|]. split; [auto|]. exists m. auto.
    + unfold areas_batch in H. destruct (N.eqb_spec b a) as [|Hne]; [destruct H|].
      destruct (may_pass ru (EArea a) (EArea b)) eqn:Hp; [|destruct (w_meet_areas w a b); [|destruct H]];
      apply in_batch in H as (-> & -> & Vx & Vy & [k' m] & Hk & Heq & Hg); try discriminate;
        simpl in Heq; injection Heq as -> ->; apply in_Vs_drivable in Vx, Vy; apply mods_nth in Hk; simpl in Hg.
      split; [exact Vx|]. split; [exact Vy|]. split; [eauto|]. split; [congruence|]. split; [auto|]. exists m. auto.
  - intros (Hx & Hy & He & Hne & Hp & m & Hm & -> & Hg). apply in_F. right. right. apply in_quiet.
    assert (Hb : In (x, y, EInfo (m_succeeding m x y) k RArea) (batch one w ru costs x y RArea)).
    { apply in_batch. rewrite !in_Vs_drivable. repeat split; auto. exists (k, m). split; [apply mods_nth; auto|]. auto. }
    destruct x as [d i|a], y as [d' i'|a']; simpl in Hx, Hy.
    + destruct He as [[? He]|[? He]]; discriminate.
    + exists a'. split; auto. left. exists d. assert (Hd : usable w ru (d, false)). { destruct Hx as (H1 & H2 & H3). repeat split; auto. }
      split. { apply (near_area_meet _ _ Hsane); auto. right. exists i. auto. }
      change (ELanelet d i) with (L (d, i)) in *. unfold area_batch. rewrite !in_app_iff.
      destruct i; rewrite Hp; auto.
    + exists a. split; auto. left. exists d'. assert (Hd : usable w ru (d', false)). { destruct Hy as (H1 & H2 & H3). repeat split; auto. }
      split. { apply (near_area_meet _ _ Hsane); auto. right. exists i'. auto. }
      change (ELanelet d' i') with (L (d', i')) in *. unfold area_batch. rewrite !in_app_iff.
      destruct i'; rewrite Hp; auto.
    + exists a. split; auto. right. exists a'. split. { apply (near_areas_meet _ _ Hsane); auto. }
      unfold areas_batch. destruct (N.eqb_spec a' a); [congruence|]. rewrite Hp. auto.
Qed.
Lemma area_conflict_iff x y k c : (exists a, x = EArea a) \/ (exists a, y = EArea a) -> joined g x y Conflicting k c <->
  c = one /\ (exists m, nth_error costs (N.to_nat k) = Some m) /\ exists a, y = EArea a /\ usable_area w ru a /\
  ((exists d, x = L (d, false) /\ usable w ru (d, false) /\ w_meet_area w a d = true /\
      forall i, may_pass ru y (L (d, i)) = false /\ may_pass ru (L (d, i)) y = false) \/
   (exists b, x = EArea b /\ usable_area w ru b /\ a <> b /\ w_meet_areas w a b = true /\ may_pass ru y x = false)).
Proof.
  intros He. rewrite joined_iff, <- in_ids. split.
  - intros H. apply in_F in H as [H|[[s H]|H]].
    + apply (st_conf_sound _ _ _ _ _ _ _ St) in H as (a' & b' & -> & -> & _). destruct He as [[? He]|[? He]]; discriminate.
    + apply contrib_rel in H. destruct s, H; discriminate.
    + apply in_quiet in H as (a & Ha & [(d & Hd & H)|(b & Hb & H)]).
      * apply in_area_batch in H as [(j & Hp & H)|[(j & Hp & H)|(Hp & Hm & H)]];
        apply in_batch in H as (-> & -> & Vx & Vy & [k' m] & Hk & Heq & Hg); try discriminate.
        simpl in Heq; injection Heq as -> ->. apply in_Vs_drivable in Vx, Vy. split; auto. split; [apply in_ids; exists m; apply mods_nth; auto|].
        exists a. split; auto. split; auto. left. exists d. auto 10.
      * unfold areas_batch in H. destruct (N.eqb_spec b a) as [|Hne]; [destruct H|].
        destruct (may_pass ru (EArea a) (EArea b)) eqn:Hp; [|destruct (w_meet_areas w a b) eqn:Hm; [|destruct H]];
        apply in_batch in H as (-> & -> & Vx & Vy & [k' m] & Hk & Heq & Hg); try discriminate.
        simpl in Heq; injection Heq as -> ->. apply in_Vs_drivable in Vx, Vy. split; auto. split; [apply in_ids; exists m; apply mods_nth; auto|].
        exists a. split; auto. split; auto. right. exists b. auto 10.
  - intros (-> & Hk & a & -> & Ha & Hc). apply in_F. right. right. apply in_quiet. exists a. split; auto.
    apply in_ids in Hk as [m Hm]. destruct Hc as [(d & -> & Hd & Hw & Hp)|(b & -> & Hb & Hne & Hw & Hp)].
    + left. exists d. split. { apply (near_area_meet _ _ Hsane); auto. }
      unfold area_batch. destruct (Hp false) as [-> ->]. destruct (Hp true) as [-> ->]. rewrite Hw. simpl.
      apply in_batch. rewrite !in_Vs_drivable. repeat split; auto; try apply Hd; try apply Ha. exists (k, m). split; [apply mods_nth; auto|]. auto.
    + right. exists b. split. { apply (near_areas_meet _ _ Hsane); auto. }
      unfold areas_batch. destruct (N.eqb_spec b a); [congruence|]. rewrite Hp, Hw.
      apply in_batch. rewrite !in_Vs_drivable. repeat split; auto; try apply Hb; try apply Ha. exists (k, m). split; [apply mods_nth; auto|]. auto.
Qed.

(** * No edge twice *)
Lemma nodup_flat {T U K} (f : U -> K) (h : T -> list U) l : NoDup l -> (forall x, In x l -> NoDup (map f (h x))) ->
  (forall x y u v, In x l -> In y l -> In u (h x) -> In v (h y) -> f u = f v -> x = y) -> NoDup (map f (flat_map h l)).
Proof.
  induction l as [|x l IH]; simpl; intros Hl Hh Hd; [constructor|]. inversion Hl as [|? ? Hx Hl']; subst. rewrite map_app.
  apply nodup_app; auto.
  - apply IH; auto. intros. eapply Hd; eauto.
  - intros z Hz Hz'. apply in_map_iff in Hz as (u & <- & Hu). apply in_map_iff in Hz' as (v & Hv & Hv').
    apply in_flat_map in Hv' as (y & Hy & Hv'). assert (x = y) by (eapply Hd; eauto). subst. contradiction.
Qed.
Lemma batch_slot x y r t : In t (batch one w ru costs x y r) -> exists k, slot t = (x, y, r, k).
Proof.
  destruct t as [[x' y'] i]. intros H. apply in_batch in H as (-> & -> & _ & _ & km & _ & -> & _). unfold slot. simpl. eauto.
Qed.
Hypothesis Hopen : forall l, usable w ru l -> open_ended w l.
Lemma followers_nodup a : In a V -> NoDup (followers w ru a).
Proof.
  intros Ha. unfold followers. destruct (end_key w a) as [k|] eqn:Ek; [|constructor].
  set (R := equal_range (flat_map (entries w) V) k). set (f := fun n => _).
  assert (H : forall n, In n (filter f R) -> filter (lref_eqb n) R = [n]).
  { intros n Hn. apply filter_In in Hn as [Hn Hf]. apply andb_true_iff in Hf as [Hf _].
    assert (HV : In n V) by (eapply in_range_V; eauto). apply (followed_once w V a n k); auto.
    - apply V_nodup. auto. - apply Hopen, in_V. auto. - apply (bt_anchored _ _ _ _ _ _ _ _ B n HV). }
  clearbody R f. clear Ek.
  assert (Hc : forall l : list lref, (forall n, In n l -> length (filter (lref_eqb n) l) <= 1) -> NoDup l).
  { induction l as [|x l IH]; intros Hl; [constructor|]. constructor.
    - intros Hx. specialize (Hl x (or_introl eq_refl)). simpl in Hl. rewrite (proj2 (lref_eqb_eq x x) eq_refl) in Hl. simpl in Hl.
      assert (Hi : In x (filter (lref_eqb x) l)) by (apply filter_In; split; auto; apply lref_eqb_eq; auto).
      destruct (filter (lref_eqb x) l); [destruct Hi|simpl in Hl; lia].
    - apply IH. intros n Hn. specialize (Hl n (or_intror Hn)). simpl in Hl. destruct (lref_eqb n x); simpl in Hl; lia. }
  apply Hc. intros n Hn. specialize (H n Hn). 
  assert (Hle : forall l, length (filter (lref_eqb n) (filter f l)) <= length (filter (lref_eqb n) l)).
  { induction l as [|x l IH]; simpl; auto. destruct (f x); simpl; destruct (lref_eqb n x); simpl; lia. }
  specialize (Hle R). rewrite H in Hle. simpl in Hle. auto.
Qed.
Lemma succ_slots : NoDup (map slot (flat_map (succ_of one w ru costs) V)).
Proof.
  apply nodup_flat; [apply V_nodup; auto| |].
  - intros a Ha. apply nodup_flat; [apply followers_nodup; auto|intros; apply batch_slots|].
    intros b b' u v _ _ Hu Hv He. apply batch_slot in Hu as [k Hu]. apply batch_slot in Hv as [k' Hv].
    rewrite Hu, Hv in He. injection He as H1 H2 _. destruct b, b'. simpl in *. congruence.
  - intros a a' u v _ _ Hu Hv He. destruct u as [[x y] i], v as [[x' y'] i'].
    apply in_succ_of in Hu as (n & -> & -> & _). apply in_succ_of in Hv as (n' & -> & -> & _).
    unfold slot in He. simpl in He. injection He as H1 H2 _. destruct a, a'. simpl in *. congruence.
Qed.
Lemma E0_slots : NoDup (map slot E0).
Proof.
  pose proof (st_slots _ _ _ _ _ _ _ St) as H1. pose proof succ_slots as H2. rewrite <- (st_succ _ _ _ _ _ _ _ St) in H2.
  revert H1 H2. generalize E0 as l. clear. induction l as [|t l IH]; simpl; intros H1 H2; [constructor|].
  assert (Hin : In (slot t) (map slot l) -> is_succ t = true /\ In (slot t) (map slot (filter is_succ l)) \/
     is_succ t = false /\ In (slot t) (map slot (filter (fun t => negb (is_succ t)) l))).
  { intros H. apply in_map_iff in H as (u & Hu & H). assert (He : is_succ u = is_succ t).
    { unfold slot in Hu. unfold is_succ. injection Hu as _ _ -> _. auto. }
    destruct (is_succ t) eqn:Et; [left|right]; split; auto; rewrite <- Hu; apply in_map; apply filter_In; rewrite He; auto. }
  destruct (is_succ t) eqn:Et; simpl in *.
  - inversion H2; subst. constructor; [|apply IH; auto]. intros H. destruct (Hin H) as [[_ H']|[H' _]]; [auto|discriminate].
  - inversion H1; subst. constructor; [|apply IH; auto]. intros H. destruct (Hin H) as [[H' _]|[_ H']]; [discriminate|auto].
Qed.
Lemma contrib_ends s seq t : In t (CON s seq) -> exists x y, In (x, y) seq /\ fst t = (L x, L y).
Proof.
  intros H. apply contrib_in in H as (x & y & rest & m & pre & -> & _ & -> & _). exists x, y. rewrite in_app_iff. simpl. auto.
Qed.
Lemma run_slots s seq : NoDup (map fst seq) -> NoDup (map slot (CON s seq)).
Proof.
  induction seq as [|[x y] rest IH]; intros H; [constructor|]. cbn [contrib]. cbn [map fst] in H. inversion H as [|? ? Hx Hn]; subst.
  rewrite map_app. apply nodup_app; [|apply IH; auto|].
  - generalize (map fst ((x, y) :: rest)) (map snd ((x, y) :: rest)). intros l1 l2. pose proof (ids_nodup costs) as Hi. unfold ids in Hi.
    revert Hi. induction mods as [|km ms IHm]; simpl; intros Hi; [constructor|]. inversion Hi as [|? ? Hk Hi']; subst. rewrite map_app.
    apply nodup_app; [|apply IHm; auto|].
    + unfold accepted. destruct (_ && _); simpl; [constructor; [auto|constructor]|constructor].
    + intros z Hz Hz'. apply in_map_iff in Hz as (u & <- & Hu). apply in_accepted in Hu as (-> & _).
      apply in_map_iff in Hz' as (v & Hv & Hv'). apply in_flat_map in Hv' as (km' & Hk' & Hv'). apply in_accepted in Hv' as (-> & _).
      unfold slot in Hv. simpl in Hv. injection Hv as Hv1 Hv2. apply Hk. replace (fst km) with (fst km'); [apply in_map; auto|].
      revert Hv2. unfold change_info. destruct (negb _), (negb _); simpl; auto.
  - intros z Hz Hz'. apply in_map_iff in Hz as (u & <- & Hu). apply in_flat_map in Hu as (km & _ & Hu). apply in_accepted in Hu as (-> & _).
    apply in_map_iff in Hz' as (v & Hv & Hv'). apply contrib_ends in Hv' as (x' & y' & Hin & He).
    unfold slot in Hv. rewrite He in Hv. simpl in Hv. injection Hv as Ha Hb _. apply Hx.
    replace x with x' by (destruct x, x'; simpl in *; congruence). apply (in_map fst) in Hin. auto.
Qed.
Lemma runs_slots s (qs : list (list (lref * lref))) : NoDup (map fst (concat qs)) -> NoDup (map slot (flat_map (CON s) qs)).
Proof.
  induction qs as [|q qs IH]; simpl; intros H; [constructor|]. rewrite map_app in H. rewrite map_app.
  apply NoDup_app_remove in H as (H1 & H2 & H3). apply nodup_app; [apply run_slots; auto|auto|].
  intros z Hz Hz'. apply in_map_iff in Hz as (u & <- & Hu). apply contrib_ends in Hu as (x & y & Hin & He).
  apply in_map_iff in Hz' as (v & Hv & Hv'). apply in_flat_map in Hv' as (q' & Hq' & Hv'). apply contrib_ends in Hv' as (x' & y' & Hin' & He').
  unfold slot in Hv. rewrite He, He' in Hv. simpl in Hv. injection Hv as Ha Hb _. assert (x' = x) by (destruct x, x'; simpl in *; congruence). subst x'.
  apply (H3 x); [apply (in_map fst) in Hin; auto|]. apply in_map_iff. exists (x, y'). split; auto. apply in_concat. eauto.
Qed.
Lemma if_slots (b : bool) X : NoDup (map slot X) -> NoDup (map slot (if b then X else [])).
Proof. destruct b; auto. intros _. constructor. Qed.
Lemma if_in (b : bool) X (t : triple) : In t (if b then X else []) -> In t X.
Proof. destruct b; simpl; tauto. Qed.
Lemma area_batch_slot a d t : In t (area_batch one w ru costs a d) -> exists i r k,
  slot t = (EArea a, L (d, i), r, k) \/ slot t = (L (d, i), EArea a, r, k).
Proof.
  intros H. apply in_area_batch in H as [(i & _ & H)|[(i & _ & H)|(_ & _ & H)]]; apply batch_slot in H as [k ->]; eauto.
Qed.
Lemma areas_batch_slot a b t : In t (areas_batch one w ru costs a b) -> exists k,
  slot t = (EArea a, EArea b, RArea, k) \/ slot t = (EArea b, EArea a, Conflicting, k).
Proof.
  unfold areas_batch. destruct (N.eqb b a); [intros []|].
  destruct (may_pass _ _ _); [|destruct (w_meet_areas w a b); [|intros []]]; intros H; apply batch_slot in H as [k ->]; eauto.
Qed.
Lemma area_batch_slots a d : NoDup (map slot (area_batch one w ru costs a d)).
Proof.
  unfold area_batch. rewrite !map_app.
  assert (Hb : forall x y r, NoDup (map slot (batch one w ru costs x y r))) by (intros; apply batch_slots).
  assert (Hin : forall (b : bool) x y r s, In s (map slot (if b then batch one w ru costs x y r else [])) -> exists k, s = (x, y, r, k)).
  { intros b x y r s H. apply in_map_iff in H as (t & <- & H). apply if_in in H. apply batch_slot in H. auto. }
  assert (Hin' : forall (b c : bool) x y r s, In s (map slot (if b then [] else if c then batch one w ru costs x y r else [])) -> exists k, s = (x, y, r, k)).
  { intros b c x y r s H. destruct b; [destruct H|]. apply Hin in H. auto. }
  repeat (apply nodup_app; [apply if_slots; auto| |]).
  - destruct (_ || _); [constructor|]. apply if_slots. auto.
  - intros s H1 H2. apply Hin in H1 as [k1 ->]. rewrite ?in_app_iff in H2.
    apply Hin' in H2 as [k2 H2]. discriminate.
  - intros s H1 H2. apply Hin in H1 as [k1 ->]. rewrite ?in_app_iff in H2.
    destruct H2 as [H2|H2]; [apply Hin in H2 as [k2 H2]|apply Hin' in H2 as [k2 H2]]; discriminate.
  - intros s H1 H2. apply Hin in H1 as [k1 ->]. rewrite ?in_app_iff in H2.
    destruct H2 as [H2|[H2|H2]]; [apply Hin in H2 as [k2 H2]|apply Hin in H2 as [k2 H2]|apply Hin' in H2 as [k2 H2]]; discriminate.
  - intros s H1 H2. apply Hin in H1 as [k1 ->]. rewrite ?in_app_iff in H2.
    destruct H2 as [H2|[H2|[H2|H2]]]; [apply Hin in H2 as [k2 H2]|apply Hin in H2 as [k2 H2]|apply Hin in H2 as [k2 H2]|apply Hin' in H2 as [k2 H2]]; discriminate.
Qed.
Lemma areas_batch_slots a b : NoDup (map slot (areas_batch one w ru costs a b)).
Proof.
  unfold areas_batch. destruct (N.eqb b a); [constructor|]. destruct (may_pass _ _ _); [apply batch_slots|].
  apply if_slots, batch_slots.
Qed.
Lemma area_slots : NoDup (map slot (quiet_areas one w ru costs)).
Proof.
  apply nodup_flat.
  - apply filter_nodup. apply (areas_once _ _ Hsane).
  - intros a _. unfold area_contrib. rewrite map_app. apply nodup_app.
    + apply nodup_flat; [apply (near_once _ _ Hsane)|intros; apply area_batch_slots|].
      intros d d' u v _ _ Hu Hv He. apply area_batch_slot in Hu as (i & r & k & Hu). apply area_batch_slot in Hv as (i' & r' & k' & Hv).
      destruct Hu as [Hu|Hu], Hv as [Hv|Hv]; rewrite Hu, Hv in He; unfold L in He; simpl in He; congruence.
    + apply nodup_flat; [apply (near_areas_once _ _ Hsane)|intros; apply areas_batch_slots|].
      intros d d' u v _ _ Hu Hv He. apply areas_batch_slot in Hu as (k & Hu). apply areas_batch_slot in Hv as (k' & Hv).
      destruct Hu as [Hu|Hu], Hv as [Hv|Hv]; rewrite Hu, Hv in He; congruence.
    + intros z Hz Hz'. apply in_map_iff in Hz as (u & <- & Hu). apply in_map_iff in Hz' as (v & Hv & Hv').
      apply in_flat_map in Hu as (d & _ & Hu). apply in_flat_map in Hv' as (d' & _ & Hv').
      apply area_batch_slot in Hu as (i & r & k & Hu). apply areas_batch_slot in Hv' as (k' & Hv').
      destruct Hu as [Hu|Hu], Hv' as [Hv'|Hv']; rewrite Hu, Hv' in Hv; discriminate.
  - intros a a' u v _ _ Hu Hv He. unfold area_contrib in Hu, Hv.
    apply in_app_iff in Hu as [Hu|Hu]; apply in_app_iff in Hv as [Hv|Hv];
      apply in_flat_map in Hu as (d & _ & Hu); apply in_flat_map in Hv as (d' & _ & Hv).
    + apply area_batch_slot in Hu as (i & r & k & Hu). apply area_batch_slot in Hv as (i' & r' & k' & Hv).
      destruct Hu as [Hu|Hu], Hv as [Hv|Hv]; rewrite Hu, Hv in He; unfold L in He; simpl in He; congruence.
    + apply area_batch_slot in Hu as (i & r & k & Hu). apply areas_batch_slot in Hv as (k' & Hv).
      destruct Hu as [Hu|Hu], Hv as [Hv|Hv]; rewrite Hu, Hv in He; discriminate.
    + apply areas_batch_slot in Hu as (k & Hu). apply area_batch_slot in Hv as (i' & r' & k' & Hv).
      destruct Hu as [Hu|Hu], Hv as [Hv|Hv]; rewrite Hu, Hv in He; discriminate.
    + apply areas_batch_slot in Hu as (k & Hu). apply areas_batch_slot in Hv as (k' & Hv).
      destruct Hu as [Hu|Hu], Hv as [Hv|Hv]; rewrite Hu, Hv in He; congruence.
Qed.
Lemma run_keys s : NoDup (map fst (concat (Q s))).
Proof.
  eapply Permutation_NoDup; [apply Permutation_map, Permutation_sym, (bt_all _ _ _ _ _ _ _ _ B s)|].
  apply (st_keys _ _ _ _ _ _ _ St).
Qed.
Lemma E0_contrib s u v : In u E0 -> In v (flat_map (CON s) (Q s)) -> slot u = slot v -> False.
Proof.
  intros Hu Hv He. pose proof (contrib_rel _ _ Hv) as Hr.
  apply contrib_sound in Hv as (a & b & pre & post & k & m & _ & _ & Hc & -> & _).
  destruct u as [[x y] [c' k' r']]. unfold slot in He. simpl in He. injection He as -> -> -> _. simpl in Hr.
  apply coll_sound in Hc as ((_ & _ & _ & Hm) & _). simpl in Hm.
  destruct Hr as [Hr|Hr]; rewrite Hr in Hu.
  - apply (st_side_sound _ _ _ _ _ _ _ St) in Hu as (a' & b' & Ha & Hb & _ & _ & _ & _ & Hm' & _).
    apply L_inj in Ha, Hb. congruence.
  - apply rel_E0_changing in Hu. auto.
Qed.
Lemma part_slots E1 : incl E1 E0 -> NoDup (map slot E1) -> NoDup (map slot
  (((E1 ++ flat_map (CON SLeft) (Q SLeft)) ++ flat_map (CON SRight) (Q SRight)) ++ quiet_areas one w ru costs)).
Proof.
  intros Hsub Hn1. rewrite !map_app. repeat apply nodup_app; try apply runs_slots; try apply run_keys.
  - exact Hn1.
  - intros z Hu Hv. apply in_map_iff in Hu as (u & <- & Hu). apply in_map_iff in Hv as (v & Hv & Hv'). eapply E0_contrib; eauto.
  - intros z Hu Hv. apply in_map_iff in Hv as (v & <- & Hv'). apply in_app_iff in Hu as [Hu|Hu]; apply in_map_iff in Hu as (u & Hu & Hu').
    + eapply E0_contrib; eauto.
    + apply contrib_rel in Hu', Hv'. unfold slot in Hu. injection Hu as _ _ Hrel _. rewrite Hrel in Hu'.
      simpl in *. destruct Hu' as [Hu'|Hu'], Hv' as [Hv'|Hv']; congruence.
  - apply area_slots.
  - intros z Hu Hv. apply in_map_iff in Hv as (v & <- & Hv). apply area_rel in Hv as [_ [a Hv]].
    assert (Hl : exists x y, fst (fst v) = L x /\ snd (fst v) = L y).
    { rewrite <- !map_app in Hu. apply in_map_iff in Hu as (u & Hu & Hu'). unfold slot in Hu. injection Hu as H1 H2 _ _.
      rewrite <- H1, <- H2. destruct u as [[x y] [c k r]]. simpl. clear H1 H2.
      rewrite !in_app_iff in Hu'. destruct Hu' as [[Hu'|Hu']|Hu'].
      - apply Hsub in Hu'. pose proof (st_rel _ _ _ _ _ _ _ St _ Hu') as Hr. simpl in Hr. destruct Hr as [<-|[<-|[<-|[<-|[]]]]].
        + apply (state_succ_in _ _ _ _ _ _ _ _ St) in Hu' as (p & _ & H); [|reflexivity].
          apply in_succ_of in H as (n & -> & -> & _). eauto.
        + apply (st_side_sound _ _ _ _ _ _ _ St SLeft) in Hu' as (p & q & -> & -> & _). eauto.
        + apply (st_side_sound _ _ _ _ _ _ _ St SRight) in Hu' as (p & q & -> & -> & _). eauto.
        + apply (st_conf_sound _ _ _ _ _ _ _ St) in Hu' as (p & q & -> & -> & _). eauto.
      - apply in_flat_map in Hu' as (q & _ & Hu'). apply contrib_ends in Hu' as (p & p' & _ & He). simpl in He. injection He as -> ->. eauto.
      - apply in_flat_map in Hu' as (q & _ & Hu'). apply contrib_ends in Hu' as (p & p' & _ & He). simpl in He. injection He as -> ->. eauto. }
    destruct Hl as (x & y & Hx & Hy). rewrite Hx, Hy in Hv. destruct Hv; discriminate.
Qed.
Lemma F_slots : NoDup (map slot F).
Proof. apply part_slots; [apply incl_refl|apply E0_slots]. Qed.
Lemma edges_once' a b r k : (r = Successor -> NoDup (map slot F)) -> length (parallel g a b r k) <= 1.
Proof.
  intros Hs. rewrite (repr_parallel VS g F a b r k Hr), map_length.
  assert (Hf : forall l (s : elem * elem * relation * N), NoDup (map slot l) -> forall f : triple -> bool,
     (forall t, f t = true -> slot t = s) -> length (filter f l) <= 1).
  { clear. intros l s Hn f Hf. induction l as [|t l IH]; simpl in *; [lia|]. inversion Hn as [|? ? Ht Hn']; subst.
    destruct (f t) eqn:Et; [|auto]. simpl. rewrite filter_none; [simpl; lia|]. intros u Hu. destruct (f u) eqn:Eu; auto.
    exfalso. apply Ht. rewrite (Hf t Et), <- (Hf u Eu). apply in_map. auto. }
  set (f := fun t : triple => _).
  assert (Hft : forall t, f t = true -> slot t = (a, b, r, k)).
  { intros [[x y] [c k' r']]. unfold f. simpl. intros H.
    apply andb_true_iff in H as [H H4]. apply andb_true_iff in H as [H H3]. apply andb_true_iff in H as [H1 H2].
    apply elem_eqb_eq in H1, H2. apply relation_eqb_eq in H3. apply N.eqb_eq in H4. unfold slot. simpl. congruence. }
  destruct (relation_eqb r Successor) eqn:Er.
  - apply relation_eqb_eq in Er. apply (Hf F (a, b, r, k)); auto.
  - set (E1 := filter (fun t => negb (is_succ t)) E0).
    assert (Heq : filter f F = filter f (((E1 ++ flat_map (CON SLeft) (Q SLeft)) ++ flat_map (CON SRight) (Q SRight)) ++ quiet_areas one w ru costs)).
    { rewrite !filter_app. do 3 f_equal. unfold E1. assert (Hn : forall t, f t = true -> is_succ t = false).
      { intros t Ht. apply Hft in Ht. unfold is_succ. unfold slot in Ht. injection Ht as _ _ -> _. exact Er. }
      clear - Hn. induction E0 as [|t l IH]; simpl; auto. specialize (Hn t). destruct (is_succ t); simpl.
      - destruct (f t); [discriminate Hn; auto|auto].
      - destruct (f t); [f_equal|]; auto. }
    rewrite Heq. apply (Hf _ (a, b, r, k)); auto. apply part_slots.
    + intros t Ht. apply filter_In in Ht. apply Ht.
    + apply (st_slots _ _ _ _ _ _ _ St).
Qed.
Lemma edges_once a b r k : length (parallel g a b r k) <= 1.
Proof. apply edges_once'. intros _. apply F_slots. Qed.
End Result.
