(** Proofs about the script that gives positive ids. *)
From Coq Require Import List Bool String ZArith Permutation Sorted Lia.
From Verif Require Import AttrModel OsmModel BoundaryModel OsmSpec OsmMapModel BoundarySpec OsmMapSpec OsmTripSpec IoModel RenumberModel RenumberSpec.
Import ListNotations.
Local Open Scope list_scope.
Local Open Scope Z_scope.

(** * One layer *)
Definition neg (k : Z) : bool := (k <? 0)%Z.
Lemma numbers_app c a b : numbers c (a + b) = numbers c a ++ numbers (c + Z.of_nat a) b.
Proof.
  revert c. induction a as [|a IH]; intros c; cbn [numbers Nat.add app].
  - f_equal. lia.
  - f_equal. rewrite IH. do 2 f_equal. lia.
Qed.
Lemma numbers_in c n i : In i (numbers c n) <-> (c <= i < c + Z.of_nat n)%Z.
Proof.
  revert c. induction n as [|n IH]; intros c; cbn [numbers In].
  - lia.
  - rewrite IH. lia.
Qed.
Lemma numbers_nodup c n : NoDup (numbers c n).
Proof. revert c. induction n as [|n IH]; intros c; cbn [numbers]; constructor; auto. rewrite numbers_in. lia. Qed.

Definition mp_step (acc : ids * Z) (k : Z) : ids * Z := let '(s, c) := acc in if (id_of s k <? 0)%Z then ((k, c) :: s, (c + 1)%Z) else acc.
Lemma mp_fold layer : forall s c s' c', fold_left mp_step layer (s, c) = (s', c') -> NoDup layer -> (forall k, In k layer -> id_of s k = k) ->
  (forall k, ~ In k (filter neg layer) -> id_of s' k = id_of s k) /\
  map (id_of s') (filter neg layer) = numbers c (List.length (filter neg layer)) /\
  c' = (c + Z.of_nat (List.length (filter neg layer)))%Z.
Proof.
  induction layer as [|k layer IH]; intros s c s' c' E ND H.
  - cbn in E. injection E as <- <-. cbn. split; [auto|split; [auto|lia]].
  - inversion ND; subst. cbn [fold_left filter] in *. assert (S : mp_step (s, c) k = if neg k then ((k, c) :: s, c + 1) else (s, c)).
    { unfold mp_step. rewrite (H k (or_introl eq_refl)). reflexivity. }
    rewrite S in E. clear S. destruct (neg k) eqn:K.
    + destruct (IH _ _ _ _ E) as (A & B & C); auto.
      { intros k' I. cbn [id_of]. destruct (Z.eqb_spec k k'); [subst; contradiction|]. apply H. right. auto. }
      assert (N : ~ In k (filter neg layer)) by (intros X; apply filter_In in X; tauto).
      split; [|split].
      * intros k' I. cbn [In] in I. rewrite A by tauto. cbn [id_of]. destruct (Z.eqb_spec k k'); [tauto|auto].
      * cbn [map List.length numbers]. rewrite B, A by auto. cbn [id_of]. rewrite Z.eqb_refl. auto.
      * cbn [List.length]. lia.
    + apply (IH _ _ _ _ E); auto. intros k' I. apply H. right. auto.
Qed.
(** Keys and their new ids in a range *)
Definition moved (s : ids) (keys : list Z) (a b : Z) : Prop :=
  (forall k, 0 <= k -> id_of s k = k)%Z /\ Permutation (map (id_of s) (filter neg keys)) (numbers a (Z.to_nat (b - a))) /\ (a <= b)%Z.
Lemma filter_perm {A} (f : A -> bool) l l' : Permutation l l' -> Permutation (filter f l) (filter f l').
Proof.
  induction 1; cbn [filter]; auto.
  - destruct (f x); auto.
  - destruct (f x), (f y); auto using perm_swap.
  - eapply perm_trans; eauto.
Qed.
Lemma make_positive_ok order keys c s c' : Permutation (order keys) keys -> NoDup keys -> make_positive (order keys) c = (s, c') -> moved s keys c c'.
Proof.
  intros P ND E.
  assert (ND' : NoDup (order keys)) by (eapply Permutation_NoDup; [apply Permutation_sym; exact P|exact ND]).
  destruct (mp_fold (order keys) [] c s c' E ND' (fun _ _ => eq_refl)) as (A & B & C).
  split; [|split; [|lia]].
  - intros k K. rewrite A; [reflexivity|]. intros I. apply filter_In in I. unfold neg in I. lia.
  - replace (Z.to_nat (c' - c)) with (List.length (filter neg (order keys))) by lia. rewrite <- B.
    apply Permutation_map, filter_perm, Permutation_sym, P.
Qed.

Section Moved.
Variables (s : ids) (keys : list Z) (a b : Z).
Hypothesis M : moved s keys a b.
Lemma moved_range k : In k keys -> (k < 0)%Z -> (a <= id_of s k < b)%Z.
Proof.
  destruct M as (_ & P & L). intros I K.
  assert (In (id_of s k) (numbers a (Z.to_nat (b - a)))) as J.
  { eapply Permutation_in; [exact P|]. apply in_map. apply filter_In. split; auto. unfold neg. lia. }
  apply numbers_in in J. lia.
Qed.
Lemma moved_cases k : In k keys -> (0 <= k /\ id_of s k = k)%Z \/ (k < 0 /\ a <= id_of s k < b)%Z.
Proof.
  intros I. destruct (Z.neg_nonneg_cases k) as [K|K]; [right|left]; split; auto.
  - apply moved_range; auto.
  - apply M. auto.
Qed.
Lemma inj_nodup {X Y} (f : X -> Y) l x y : NoDup (map f l) -> In x l -> In y l -> f x = f y -> x = y.
Proof.
  induction l as [|z l IH]; intros ND I J E; [contradiction|]. cbn in ND. inversion ND; subst.
  destruct I as [->|I], J as [->|J]; auto.
  - exfalso. apply H1. rewrite E. apply in_map. auto.
  - exfalso. apply H1. rewrite <- E. apply in_map. auto.
Qed.
Lemma moved_inj : (forall k, In k keys -> k < a)%Z -> forall k k', In k keys -> In k' keys -> id_of s k = id_of s k' -> k = k'.
Proof.
  intros B k k' I J E. destruct (moved_cases k I) as [[K K']|[K K']], (moved_cases k' J) as [[L L']|[L L']].
  - congruence.
  - specialize (B k I). lia.
  - specialize (B k' J). lia.
  - destruct M as (_ & P & _).
    apply (inj_nodup (id_of s) (filter neg keys)); auto; try (apply filter_In; split; auto; unfold neg; lia).
    eapply Permutation_NoDup; [apply Permutation_sym; exact P|apply numbers_nodup].
Qed.
Lemma moved_nodup : (forall k, In k keys -> k < a)%Z -> NoDup keys -> NoDup (map (id_of s) keys).
Proof.
  intros B. assert (I := moved_inj B). clear B. revert I. generalize keys. intros l I. induction l as [|k l IH]; intros ND; cbn; [constructor|].
  inversion ND; subst. constructor.
  - intros J. apply in_map_iff in J. destruct J as (k' & E & J). apply H1. rewrite (I k k'); cbn; auto.
  - apply IH; auto. intros. apply I; cbn; auto.
Qed.
End Moved.
Lemma nodup_app {A} (l r : list A) : NoDup (l ++ r) <-> NoDup l /\ NoDup r /\ forall x, In x l -> ~ In x r.
Proof.
  induction l as [|x l IH]; cbn.
  - split; [intros H; split; [constructor|split; [auto|tauto]]|tauto].
  - split.
    + intros H. inversion H; subst. apply IH in H3. destruct H3 as (A1 & A2 & A3). split; [|split]; auto.
      * constructor; auto. intros X. apply H2. apply in_app_iff. auto.
      * intros y [->|I]; auto. intros X. apply H2. apply in_app_iff. auto.
    + intros (A1 & A2 & A3). inversion A1; subst. constructor.
      * rewrite in_app_iff. intros [X|X]; [auto|]. apply (A3 x); auto.
      * apply IH. split; [|split]; auto.
Qed.
Lemma moved_apart s t k1 k2 a b c d : moved s k1 a b -> moved t k2 c d -> (b <= c)%Z ->
  (forall k, In k k1 -> k < a)%Z -> (forall k, In k k2 -> k < a)%Z -> (forall x, In x k1 -> ~ In x k2) ->
  forall x, In x (map (id_of s) k1) -> ~ In x (map (id_of t) k2).
Proof.
  intros M N L B1 B2 D x I J. apply in_map_iff in I. apply in_map_iff in J. destruct I as (i & <- & I), J as (j & E & J).
  destruct (moved_cases _ _ _ _ M i I) as [[K K']|[K K']], (moved_cases _ _ _ _ N j J) as [[H H']|[H H']].
  - apply (D i I). congruence.
  - specialize (B1 i I). destruct M as (_ & _ & L'). lia.
  - specialize (B2 j J). lia.
  - lia.
Qed.
Lemma moved_disjoint s t k1 k2 a b c d : moved s k1 a b -> moved t k2 c d -> (b <= c)%Z ->
  (forall k, In k k1 -> k < a)%Z -> (forall k, In k k2 -> k < a)%Z ->
  NoDup (k1 ++ k2) -> NoDup (map (id_of s) k1 ++ map (id_of t) k2).
Proof.
  intros M N L B1 B2 ND. apply nodup_app in ND. destruct ND as (N1 & N2 & D). apply nodup_app. split; [|split].
  - eapply moved_nodup; eauto.
  - eapply moved_nodup; eauto. intros k I. specialize (B2 k I). destruct M as (_ & _ & L'). lia.
  - eapply moved_apart; eauto.
Qed.

(** * Layers *)
Lemma seen_keys {X} t (f : X -> X) l : map fst (layer_seen t f l) = map (id_of t) (map fst l).
Proof. unfold layer_seen. rewrite !map_map. reflexivity. Qed.
Lemma seen_in {X} t (f : X -> X) l k x : In (k, x) (layer_seen t f l) <-> exists i y, k = id_of t i /\ x = f y /\ In (i, y) l.
Proof.
  unfold layer_seen. rewrite in_map_iff. split.
  - intros ([i y] & E & I). injection E as <- <-. eauto.
  - intros (i & y & -> & -> & I). exists (i, y). auto.
Qed.
Lemma in_seen {X} t (f : X -> X) l i y : In (i, y) l -> In (id_of t i, f y) (layer_seen t f l).
Proof. intros I. apply seen_in. eauto. Qed.
Lemma in_key {X} (l : list (Z * X)) k x : In (k, x) l -> In k (map fst l).
Proof. intros I. change k with (fst (k, x)). apply in_map. auto. Qed.
Lemma combine_map {X Y} (f : X -> Y) l : combine l (map f l) = map (fun x => (x, f x)) l.
Proof. induction l; cbn; congruence. Qed.
Lemma pairs_seen {X} t (f : X -> X) l : pairs l (layer_seen t f l) = map (fun k => (k, id_of t k)) (map fst l).
Proof. unfold pairs. rewrite seen_keys. apply combine_map. Qed.
Lemma now_seen {X} t (f : X -> X) l i : key_of l i -> In (i, id_of t i) (pairs l (layer_seen t f l)).
Proof. intros I. rewrite pairs_seen. apply in_map_iff. exists i. auto. Qed.
Lemma layer_with_seen {X} (same : X -> X -> Prop) t (f : X -> X) l :
  (forall k x, In (k, x) l -> same x (f x)) -> layer_with same l (layer_seen t f l).
Proof.
  intros H. unfold layer_with, layer_seen. induction l as [|[k x] l IH]; cbn; constructor.
  - cbn. apply (H k). left. auto.
  - apply IH. intros. eapply H. right. eauto.
Qed.
Lemma Forall2_map_r {X Y} (R : X -> Y -> Prop) (f : X -> Y) l : Forall (fun x => R x (f x)) l -> Forall2 R l (map f l).
Proof. induction 1; cbn; constructor; auto. Qed.
Lemma filter_map {X Y} (f : X -> Y) p l : filter p (map f l) = map f (filter (fun x => p (f x)) l).
Proof. induction l as [|x l IH]; cbn; auto. destruct (p (f x)); cbn; congruence. Qed.
Lemma new_seen {X} t (f : X -> X) l : map snd (filter (fun p => (fst p <? 0)%Z) (pairs l (layer_seen t f l))) = map (id_of t) (filter neg (map fst l)).
Proof. rewrite pairs_seen, filter_map, map_map. reflexivity. Qed.

Section Map.
Context {P : Type}.
Variable m : @mmap P.
Variable s : changes.

Lemma seen_same : closed m -> same_but_ids m (seen s m).
Proof.
  intros (C1 & C2 & C3 & C4 & C5). unfold same_but_ids, point_now, line_now, poly_now, lanelet_now, area_now, reg_now. cbn [m_points m_lines m_polys m_lanelets m_areas m_regs seen].
  assert (BN : forall b, bound_closed m b -> bound_now m (seen s m) b (bound_seen s b)).
  { intros [i v|i] B; [|contradiction]. exists i, (id_of (c_lines s) i), v. split; [|split]; auto. apply now_seen. auto. }
  split; [|split; [|split; [|split; [|split]]]]; apply layer_with_seen; intros k x I; auto.
  - split; [|split]; auto. apply Forall2_map_r. eapply Forall_impl; [|apply (C1 k x I)]. intros i K. apply now_seen. auto.
  - split; auto. apply Forall2_map_r. eapply Forall_impl; [|apply (C2 k x I)]. intros i K. apply now_seen. auto.
  - destruct (C3 k x I) as (L & R & C & G). split; [|split; [|split; [|split]]]; cbn; auto.
    + destruct (ll_center x) as [c|]; cbn; auto.
    + apply Forall2_map_r. eapply Forall_impl; [|exact G]. intros i K. apply now_seen. auto.
  - destruct (C4 k x I) as (O & N & G). split; [|split; [|split]]; cbn; auto.
    + apply Forall2_map_r. eapply Forall_impl; [|exact O]. intros h K. split; auto. apply now_seen. auto.
    + apply Forall2_map_r. eapply Forall_impl; [|exact N]. intros r K. apply Forall2_map_r. eapply Forall_impl; [|exact K]. intros h K'. split; auto. apply now_seen. auto.
    + apply Forall2_map_r. eapply Forall_impl; [|exact G]. intros i K. apply now_seen. auto.
  - split; auto. cbn. apply Forall2_map_r. apply Forall_forall. intros [role l] J. cbn. split; auto.
    apply Forall2_map_r. eapply Forall_impl; [|apply (C5 k x I role l J)].
    intros [i|i v|i|[i|]|[i|]] K; cbn in *; try contradiction; try split; auto; apply now_seen; auto.
Qed.

(** What the new ids are *)
Variables c c1 c2 c3 c4 c5 c6 : Z.
Hypothesis Hc : (0 < c)%Z.
Hypothesis MP : moved (c_points s) (map fst (m_points m)) c c1.
Hypothesis ML : moved (c_lines s) (map fst (m_lines m)) c1 c2.
Hypothesis MG : moved (c_polys s) (map fst (m_polys m)) c2 c3.
Hypothesis MX : moved (c_lanelets s) (map fst (m_lanelets m)) c3 c4.
Hypothesis MA : moved (c_areas s) (map fst (m_areas m)) c4 c5.
Hypothesis MR : moved (c_regs s) (map fst (m_regs m)) c5 c6.
Hypothesis BL : below m c.

Lemma steps : (c <= c1 <= c2 /\ c2 <= c3 <= c4 /\ c4 <= c5 <= c6)%Z.
Proof. destruct MP as (_ & _ & ?), ML as (_ & _ & ?), MG as (_ & _ & ?), MX as (_ & _ & ?), MA as (_ & _ & ?), MR as (_ & _ & ?). lia. Qed.
Lemma lt_points k : In k (map fst (m_points m)) -> (k < c)%Z.
Proof. intros I. apply BL. unfold key_of. auto. Qed.
Lemma lt_lines k : In k (map fst (m_lines m)) -> (k < c)%Z.
Proof. intros I. apply BL. unfold key_of. auto. Qed.
Lemma lt_polys k : In k (map fst (m_polys m)) -> (k < c)%Z.
Proof. intros I. apply BL. unfold key_of. auto. Qed.
Lemma lt_lanelets k : In k (map fst (m_lanelets m)) -> (k < c)%Z.
Proof. intros I. apply BL. unfold key_of. auto. Qed.
Lemma lt_areas k : In k (map fst (m_areas m)) -> (k < c)%Z.
Proof. intros I. apply BL. unfold key_of. auto 6. Qed.
Lemma lt_regs k : In k (map fst (m_regs m)) -> (k < c)%Z.
Proof. intros I. apply BL. unfold key_of. auto 7. Qed.

Lemma seen_new : Permutation (new_ids m (seen s m)) (numbers c (Z.to_nat (c6 - c))).
Proof.
  assert (L := steps). unfold new_ids, all_pairs. cbn [m_points m_lines m_polys m_lanelets m_areas m_regs seen].
  rewrite !filter_app, !map_app, !new_seen.
  replace (Z.to_nat (c6 - c)) with (Z.to_nat (c1 - c) + (Z.to_nat (c2 - c1) + (Z.to_nat (c3 - c2) + (Z.to_nat (c4 - c3) + (Z.to_nat (c5 - c4) + Z.to_nat (c6 - c5))))))%nat by lia.
  rewrite !numbers_app.
  replace (c + Z.of_nat (Z.to_nat (c1 - c)))%Z with c1 by lia. replace (c1 + Z.of_nat (Z.to_nat (c2 - c1)))%Z with c2 by lia.
  replace (c2 + Z.of_nat (Z.to_nat (c3 - c2)))%Z with c3 by lia. replace (c3 + Z.of_nat (Z.to_nat (c4 - c3)))%Z with c4 by lia.
  replace (c4 + Z.of_nat (Z.to_nat (c5 - c4)))%Z with c5 by lia.
  repeat apply Permutation_app; [apply MP|apply ML|apply MG|apply MX|apply MA|apply MR].
Qed.
Lemma seen_kept i j : In (i, j) (all_pairs m (seen s m)) -> (0 <= i)%Z -> j = i.
Proof.
  unfold all_pairs. cbn [m_points m_lines m_polys m_lanelets m_areas m_regs seen]. rewrite !pairs_seen, !in_app_iff, !in_map_iff.
  intros I K. destruct I as [I|[I|[I|[I|[I|I]]]]]; destruct I as (k & E & _); injection E as -> <-; [apply MP|apply ML|apply MG|apply MX|apply MA|apply MR]; auto.
Qed.
Lemma seen_below : below (seen s m) c6.
Proof.
  assert (L := steps). intros i. unfold key_of. cbn [m_points m_lines m_polys m_lanelets m_areas m_regs seen]. rewrite !seen_keys, !in_map_iff.
  intros [I|[I|[I|[I|[I|I]]]]]; destruct I as (k & <- & I).
  - assert (B := lt_points k I). destruct (moved_cases _ _ _ _ MP k I) as [[? ?]|[? ?]]; lia.
  - assert (B := lt_lines k I). destruct (moved_cases _ _ _ _ ML k I) as [[? ?]|[? ?]]; lia.
  - assert (B := lt_polys k I). destruct (moved_cases _ _ _ _ MG k I) as [[? ?]|[? ?]]; lia.
  - assert (B := lt_lanelets k I). destruct (moved_cases _ _ _ _ MX k I) as [[? ?]|[? ?]]; lia.
  - assert (B := lt_areas k I). destruct (moved_cases _ _ _ _ MA k I) as [[? ?]|[? ?]]; lia.
  - assert (B := lt_regs k I). destruct (moved_cases _ _ _ _ MR k I) as [[? ?]|[? ?]]; lia.
Qed.
Lemma seen_distinct : distinct m -> distinct (seen s m).
Proof.
  assert (L := steps). intros (D1 & D2 & D3 & D4 & D5 & D6). unfold distinct. cbn [m_points m_lines m_polys m_lanelets m_areas m_regs seen]. rewrite !seen_keys.
  split; [|split; [|split; [|split; [|split]]]].
  - eapply moved_nodup; eauto using lt_points.
  - eapply moved_nodup; eauto. intros k I. assert (B := lt_lines k I). lia.
  - eapply moved_nodup; eauto. intros k I. assert (B := lt_polys k I). lia.
  - eapply moved_nodup; eauto. intros k I. assert (B := lt_lanelets k I). lia.
  - eapply moved_nodup; eauto. intros k I. assert (B := lt_areas k I). lia.
  - eapply moved_nodup; eauto. intros k I. assert (B := lt_regs k I). lia.
Qed.

(** * The new map is well formed *)
Notation fp := (id_of (c_points s)).
Notation fl := (id_of (c_lines s)).
Lemma inj_points i j : in_layer (m_points m) i -> in_layer (m_points m) j -> fp i = fp j -> i = j.
Proof. apply (moved_inj _ _ _ _ MP). exact lt_points. Qed.
Lemma inj_lines i j : in_layer (m_lines m) i -> in_layer (m_lines m) j -> fl i = fl j -> i = j.
Proof. assert (L := steps). apply (moved_inj _ _ _ _ ML). intros k I. assert (B := lt_lines k I). lia. Qed.

Lemma positions_back pts ps : (forall i, In i pts -> in_layer (m_points m) i) -> positions (seen s m) (map fp pts) ps -> positions m pts ps.
Proof.
  unfold positions. revert ps. induction pts as [|i pts IH]; intros ps H F; cbn in F; inversion F; subst; constructor.
  - destruct H2 as (q & I & E0). cbn [m_points seen] in I. apply seen_in in I. destruct I as (j & z & E' & -> & I).
    apply inj_points in E'; [|apply H; left; auto|eapply in_key; eauto]. subst. eauto.
  - apply IH; auto. intros. apply H. right. auto.
Qed.
Definition ren (l : ls) : ls := LS (fl (l_id l)) (map fp (l_pts l)) (l_inv l).
Lemma ren_points l : points (ren l) = map fp (points l).
Proof. unfold points, ren. cbn. destruct (l_inv l); auto. symmetry. apply map_rev. Qed.
Lemma ren_walk p r q : walk p r q -> walk (fp p) (map ren r) (fp q).
Proof.
  induction 1; cbn; econstructor; eauto.
  - rewrite ren_points. destruct (points l); cbn in *; congruence.
  - rewrite ren_points, <- map_rev. destruct (rev (points l)); cbn in *; congruence.
Qed.
Lemma ren_ring r : ring r -> ring (map ren r).
Proof. intros (N & p & W). split; [destruct r; cbn; congruence|]. exists (fp p). apply ren_walk. auto. Qed.
Lemma ren_rotation r t : rotation (map ren r) t -> exists t0, t = map ren t0 /\ rotation r t0.
Proof.
  intros (a & b & E & ->). apply map_eq_app in E. destruct E as (a0 & b0 & -> & <- & <-). exists (b0 ++ a0). rewrite map_app. split; auto. exists a0, b0. auto.
Qed.
Lemma ren_reversed r t : reversed (map ren r) t -> exists t0, t = map ren t0 /\ reversed r t0.
Proof.
  revert t. induction r as [|l r IH]; intros t R; cbn in R; inversion R; subst.
  - exists []. split; [auto|constructor].
  - apply IH in H2. destruct H2 as (t0 & -> & R0). eexists. split; [|constructor; exact R0]. rewrite map_app. reflexivity.
Qed.
Lemma ren_concat r : List.concat (map points (map ren r)) = map fp (List.concat (map points r)).
Proof. induction r as [|l r IH]; cbn; auto. rewrite map_app, <- IH, ren_points. auto. Qed.
Definition of_map (r : list ls) : Prop := forall l, In l r -> forall i, In i (l_pts l) -> in_layer (m_points m) i.
Lemma of_map_points r : of_map r -> forall i, In i (List.concat (map points r)) -> in_layer (m_points m) i.
Proof.
  intros O i I. apply in_concat in I. destruct I as (x & I & J). apply in_map_iff in I. destruct I as (l & <- & I).
  apply (O l I). unfold points in J. destruct (l_inv l); auto. apply in_rev. auto.
Qed.
Lemma of_map_rotation r t : rotation r t -> of_map r -> of_map t.
Proof. intros (a & b & -> & ->) O l I. apply O. rewrite in_app_iff in *. tauto. Qed.
Lemma of_map_reversed r t : reversed r t -> of_map r -> of_map t.
Proof.
  induction 1; intros O; auto. intros x I. apply in_app_iff in I. destruct I as [I|[<-|[]]].
  - apply IHreversed; auto. intros y J. apply O. right. auto.
  - cbn. apply O. left. auto.
Qed.
Lemma ren_ring_ok ring_valid r : of_map r -> ring_ok ring_valid m r -> ring_ok ring_valid (seen s m) (map ren r).
Proof.
  intros O (R & V). split; [apply ren_ring; auto|].
  intros t u ps Rot Rev. apply ren_rotation in Rot. destruct Rot as (t0 & -> & Rot). apply ren_reversed in Rev. destruct Rev as (u0 & -> & Rev).
  destruct (V t0 u0 ps Rot Rev) as (V1 & V2). rewrite !ren_concat. assert (OT := of_map_rotation _ _ Rot O). assert (OU := of_map_reversed _ _ Rev OT).
  split; intros Po; [apply V1|apply V2]; apply positions_back; auto; apply of_map_points; auto.
Qed.
Lemma ren_junctions r : of_map r -> NoDup (junctions r) -> NoDup (junctions (map ren r)).
Proof.
  unfold junctions. rewrite map_map. induction r as [|l r IH]; intros O ND; cbn in *; [constructor|]. inversion ND; subst. constructor.
  - intros I. apply H1. apply in_map_iff in I. destruct I as (l' & E & I). apply in_map_iff. exists l'. split; auto.
    rewrite !ren_points in E.
    assert (Q : forall x, In x (l :: r) -> forall i, hd_error (points x) = Some i -> in_layer (m_points m) i).
    { intros x J i K. apply (O x J). unfold points in K. destruct (l_inv x).
      - apply in_rev. destruct (rev (l_pts x)); cbn in *; [discriminate|]. left. congruence.
      - destruct (l_pts x); cbn in *; [discriminate|]. left. congruence. }
    assert (Q1 := Q l (or_introl eq_refl)). assert (Q2 := Q l' (or_intror I)).
    destruct (points l) as [|i pl], (points l') as [|i' pl']; cbn in *; try discriminate; auto.
    f_equal. apply inj_points; auto. congruence.
  - apply IH; auto. intros x J. apply O. right. auto.
Qed.
Lemma with_points_seen h x : with_points m h x -> with_points (seen s m) (handle_seen s h) (ren x).
Proof. intros (l & I & ->). exists (line_seen s l). split; [|reflexivity]. cbn [m_lines seen]. apply (in_seen (c_lines s) (line_seen s)) in I. exact I. Qed.
Lemma Forall2_map2 {X Y X' Y'} (R : X -> Y -> Prop) (R' : X' -> Y' -> Prop) f g l r :
  (forall x y, R x y -> R' (f x) (g y)) -> Forall2 R l r -> Forall2 R' (map f l) (map g r).
Proof. intros H. induction 1; cbn; constructor; auto. Qed.
Lemma with_points_of_map l r : (forall k x, In (k, x) (m_lines m) -> line_ok m x) -> Forall2 (with_points m) l r -> of_map r.
Proof.
  intros LO F x I. induction F as [|h y l r (q & J & E) F IH]; [contradiction|]. destruct I as [->|I]; auto. subst x. cbn. apply (LO _ _ J).
Qed.
Lemma in_layer_seen {X} t (f : X -> X) l i : in_layer l i -> in_layer (layer_seen t f l) (id_of t i).
Proof. unfold in_layer. rewrite seen_keys. apply in_map. Qed.
Lemma regs_seen l : regs_ok m l -> regs_ok (seen s m) (map (id_of (c_regs s)) l).
Proof. intros R i I. apply in_map_iff in I. destruct I as (j & <- & I). cbn [m_regs seen]. apply in_layer_seen. auto. Qed.
Lemma positions_of_back i ps : (forall k x, In (k, x) (m_lines m) -> line_ok m x) -> in_layer (m_lines m) i ->
  positions_of (seen s m) (fl i) ps -> positions_of m i ps.
Proof.
  intros LO I (l & J & Po). cbn [m_lines seen] in J. apply seen_in in J. destruct J as (k & y & E & -> & J).
  apply inj_lines in E; [|auto|eapply in_key; eauto]. subst k. exists y. split; auto. apply positions_back; auto. apply (LO _ _ J).
Qed.
Lemma ways_seen : NoDup (way_ids m) -> NoDup (way_ids (seen s m)).
Proof.
  assert (L := steps). unfold way_ids. cbn [m_lines m_polys seen]. rewrite !seen_keys. apply (moved_disjoint _ _ _ _ _ _ _ _ ML MG); try lia.
  - intros k I. assert (B := lt_lines k I). lia.
  - intros k I. assert (B := lt_polys k I). lia.
Qed.
Lemma rels_seen : NoDup (rel_ids m) -> NoDup (rel_ids (seen s m)).
Proof.
  assert (L := steps). unfold rel_ids. cbn [m_lanelets m_areas m_regs seen]. rewrite !seen_keys. intros ND.
  apply nodup_app in ND. destruct ND as (N1 & N2 & D). assert (N2' := N2). apply nodup_app in N2. destruct N2 as (N2 & N3 & D2).
  apply nodup_app. split; [|split].
  - eapply moved_nodup; eauto. intros k I. assert (B := lt_regs k I). lia.
  - apply (moved_disjoint _ _ _ _ _ _ _ _ MX MA); auto; try lia.
    + intros k I. assert (B := lt_lanelets k I). lia.
    + intros k I. assert (B := lt_areas k I). lia.
  - intros x I J. apply in_app_iff in J. destruct J as [J|J]; revert J I.
    + apply (moved_apart _ _ _ _ _ _ _ _ MX MR); try lia.
      * intros k I. assert (B := lt_lanelets k I). lia.
      * intros k I. assert (B := lt_regs k I). lia.
      * intros k I K. apply (D k K). apply in_app_iff. auto.
    + apply (moved_apart _ _ _ _ _ _ _ _ MA MR); try lia.
      * intros k I. assert (B := lt_areas k I). lia.
      * intros k I. assert (B := lt_regs k I). lia.
      * intros k I K. apply (D k K). apply in_app_iff. auto.
Qed.
Lemma kind_seen p : same_kind p (param_seen s p).
Proof. destruct p as [i|i v|i|[i|]|[i|]]; cbn; auto; split; congruence. Qed.

Section Ok.
Context {D : Type}.
Variables (to_geo : P -> option (D * D * D)) (from_geo : D * D * D -> option P) (align : list P -> list P -> bool * bool) (ring_valid : list P -> bool) (create : string -> mreg -> bool).
Hypothesis OK : map_ok to_geo from_geo align ring_valid create m.
Lemma ok_closed : closed m.
Proof.
  destruct OK as (_ & _ & _ & _ & O2 & O3 & O4 & O5 & O6). split; [|split; [|split; [|split]]]; intros k x I.
  - apply Forall_forall. apply (O2 k x I).
  - apply Forall_forall. apply (O3 k x I).
  - destruct (O4 k x I) as (_ & R & (l & il & r & ir & E1 & E2 & I1 & I2 & _) & C). split; [|split; [|split]].
    + rewrite E1. exact I1.
    + rewrite E2. exact I2.
    + intros b E. destruct (C b E) as (i & -> & _ & K). exact K.
    + apply Forall_forall. exact R.
  - destruct (O5 k x I) as (_ & R & (r & F & _) & (rs & G & _)).
    assert (W : forall l q, Forall2 (with_points m) l q -> Forall (fun h => key_of (m_lines m) (fst h)) l).
    { intros l q. induction 1 as [|h y l q (z & J & _) _ IH]; constructor; auto. eapply in_key; eauto. }
    split; [|split].
    + eapply W; eauto.
    + clear - G W. induction G; constructor; eauto.
    + apply Forall_forall. exact R.
  - destruct (O6 k x I) as (_ & _ & _ & _ & Pa). intros role l J. apply Forall_forall. intros p K. specialize (Pa role l p J K).
    destruct p as [i|i v|i|o|o]; cbn in *; auto.
    + tauto.
    + destruct Pa as (i & -> & Q). exact Q.
    + destruct Pa as (i & -> & Q). exact Q.
Qed.
Lemma ok_distinct : distinct m.
Proof.
  destruct OK as ((L1 & L2 & _) & _ & R & _). unfold way_ids in L2. unfold rel_ids in R. apply nodup_app in L2. apply nodup_app in R. destruct R as (R1 & R & _). apply nodup_app in R.
  unfold distinct. tauto.
Qed.
Hypothesis BLIND : blind create.
Lemma seen_ok : map_ok to_geo from_geo align ring_valid create (seen s m).
Proof.
  assert (L := steps). destruct OK as ((L1 & L2 & L3) & (S1 & S2 & S3) & RI & O1 & O2 & O3 & O4 & O5 & O6).
  split; [|split; [|split; [|split; [|split; [|split; [|split; [|split]]]]]]].
  - split; [|split].
    + cbn [m_points seen]. rewrite seen_keys. eapply moved_nodup; eauto using lt_points.
    + apply ways_seen. auto.
    + intros k g I. cbn [m_polys seen] in I. apply seen_in in I. destruct I as (i & y & -> & -> & I). apply (L3 _ _ I).
  - split; [|split]; intros k x I; cbn [m_regs m_lanelets m_areas seen] in I; apply seen_in in I; destruct I as (i & y & -> & -> & I);
      [apply (S1 _ _ I)|apply (S2 _ _ I)|apply (S3 _ _ I)].
  - apply rels_seen. auto.
  - intros k x I. cbn [m_points seen] in I. apply seen_in in I. destruct I as (i & y & -> & -> & I). apply (O1 _ _ I).
  - intros k x I. cbn [m_lines seen] in I. apply seen_in in I. destruct I as (i & y & -> & -> & I). destruct (O2 _ _ I) as (A1 & A2 & A3 & A4).
    split; [|split; [|split]]; auto.
    + cbn. destruct (ml_pts y); cbn; congruence.
    + intros j J. cbn in J. apply in_map_iff in J. destruct J as (j' & <- & J). cbn [m_points seen]. apply in_layer_seen. auto.
  - intros k x I. cbn [m_polys seen] in I. apply seen_in in I. destruct I as (i & y & -> & -> & I). destruct (O3 _ _ I) as (A1 & A2 & A3).
    split; [|split]; auto.
    + cbn. destruct (mg_pts y); cbn; congruence.
    + intros j J. cbn in J. apply in_map_iff in J. destruct J as (j' & <- & J). cbn [m_points seen]. apply in_layer_seen. auto.
  - intros k x I. cbn [m_lanelets seen] in I. apply seen_in in I. destruct I as (i & y & -> & -> & I).
    destruct (O4 _ _ I) as (A1 & A2 & (l & il & r & ir & E1 & E2 & I1 & I2 & A3) & A4). split; [|split; [|split]]; auto.
    + apply regs_seen. auto.
    + exists (fl l), il, (fl r), ir. cbn. rewrite E1, E2. cbn. split; [|split; [|split; [|split]]]; auto.
      * apply in_layer_seen. auto.
      * apply in_layer_seen. auto.
      * intros pl pr Hl Hr. apply A3; apply positions_of_back; auto.
    + intros b E. cbn in E. destruct (ll_center y) as [b0|] eqn:E0; [|discriminate]. destruct (A4 b0 eq_refl) as (j & -> & NZ & J).
      cbn in E. injection E as <-. exists (fl j). split; [|split]; auto.
      * destruct (moved_cases _ _ _ _ ML j J) as [[? ?]|[? ?]]; lia.
      * apply in_layer_seen. auto.
  - intros k x I. cbn [m_areas seen] in I. apply seen_in in I. destruct I as (i & y & -> & -> & I).
    destruct (O5 _ _ I) as (A1 & A2 & (r & F & RO & ND) & (rs & G & RO' & ND')). split; [|split; [|split]]; auto.
    + apply regs_seen. auto.
    + exists (map ren r). cbn. assert (O := with_points_of_map _ _ O2 F). split; [|split].
      * eapply Forall2_map2; [|exact F]. apply with_points_seen.
      * apply ren_ring_ok; auto.
      * apply ren_junctions; auto.
    + exists (map (map ren) rs). cbn.
      assert (O : forall q, In q rs -> of_map q).
      { clear - G O2. induction G; intros q J; [contradiction|]. destruct J as [<-|J]; auto. eapply with_points_of_map; eauto. }
      split; [|split].
      * eapply Forall2_map2; [|exact G]. intros a b F'. eapply Forall2_map2; [|exact F']. apply with_points_seen.
      * intros q J. apply in_map_iff in J. destruct J as (q0 & <- & J). apply ren_ring_ok; auto.
      * rewrite <- concat_map. apply ren_junctions; auto. intros x J. apply in_concat in J. destruct J as (q & J & K). apply (O q J). auto.
  - intros k x I. cbn [m_regs seen] in I. apply seen_in in I. destruct I as (i & y & -> & -> & I).
    destruct (O6 _ _ I) as (A1 & (st & J & A2) & A3 & A4 & A5). split; [|split; [|split; [|split]]]; auto.
    + exists st. split; auto. intros a T. cbn. rewrite <- (A2 a T). symmetry. apply BLIND. apply Forall2_map_r. apply Forall_forall. intros [role l] _. cbn. split; auto.
      apply Forall2_map_r. apply Forall_forall. intros p _. apply kind_seen.
    + cbn. rewrite map_map. exact A3.
    + intros role l K. cbn in K. apply in_map_iff in K. destruct K as ([role0 l0] & [= <- <-] & K). specialize (A4 _ _ K). destruct l0; cbn; congruence.
    + intros role l p K Q. cbn in K. apply in_map_iff in K. destruct K as ([role0 l0] & [= <- <-] & K). apply in_map_iff in Q. destruct Q as (p0 & <- & Q).
      specialize (A5 _ _ _ K Q). destruct p0 as [j|j v|j|o|o]; cbn in A5 |- *.
      * apply in_layer_seen. auto.
      * destruct A5. split; auto. apply in_layer_seen. auto.
      * apply in_layer_seen. auto.
      * destruct A5 as (j & -> & A5). exists (id_of (c_lanelets s) j). split; auto. apply in_layer_seen. auto.
      * destruct A5 as (j & -> & A5). exists (id_of (c_areas s) j). split; auto. apply in_layer_seen. auto.
Qed.
End Ok.
End Map.
