(** Usage lookup, fresh ids and maps made from lists of elements. *)
From Coq Require Import ZArith List Bool Lia ZifyBool ZifyNat.
From Verif Require Import MapModel MapSpec MapProofs MapProofs2.
Import ListNotations.
Open Scope Z_scope.

(** * Usage lookup *)

Lemma times_nil {A} (f : A -> bool) : times f [] = 0%nat.
Proof. reflexivity. Qed.
Lemma times_cons {A} (f : A -> bool) x l : times f (x :: l) = (b2n (f x) + times f l)%nat.
Proof. reflexivity. Qed.
Lemma times_app {A} (f : A -> bool) l m : times f (l ++ m) = (times f l + times f m)%nat.
Proof. unfold times. rewrite map_app, list_sum_app; auto. Qed.
Lemma times_map {A B} (f : B -> bool) (g : A -> B) l : times f (map g l) = times (fun x => f (g x)) l.
Proof. unfold times. rewrite map_map; auto. Qed.
Lemma times_ext {A} (f g : A -> bool) l : (forall x, In x l -> f x = g x) -> times f l = times g l.
Proof. intros H. unfold times. f_equal. apply map_ext_in. intros x Hx. rewrite H; auto. Qed.
Lemma times_false {A} (f : A -> bool) l : (forall x, In x l -> f x = false) -> times f l = 0%nat.
Proof.
  induction l as [|x l IH]; intros H; auto. rewrite times_cons, H by (left; auto).
  rewrite IH; auto. intros; apply H; right; auto.
Qed.
Lemma times_rev {A} (f : A -> bool) l : times f (rev l) = times f l.
Proof.
  induction l as [|x l IH]; simpl; auto. rewrite times_app, IH, times_cons, (times_cons f x l), times_nil. lia.
Qed.
Lemma times_concat {A} (f : A -> bool) ll : times f (concat ll) = list_sum (map (times f) ll).
Proof. induction ll as [|l ll IH]; simpl; auto. rewrite times_app, IH; auto. Qed.
Lemma times_pos {A} (f : A -> bool) l : (0 < times f l)%nat <-> exists x, In x l /\ f x = true.
Proof.
  induction l as [|x l IH].
  - rewrite times_nil. split; [lia|]. intros [x [[] _]].
  - rewrite times_cons. split.
    + intros H. destruct (f x) eqn:E; [exists x; simpl; auto|].
      destruct IH as [IH _]. destruct IH as [y [H1 H2]]; [simpl in H; lia|]. exists y; simpl; auto.
    + intros [y [[->|H1] H2]]; [rewrite H2; simpl; lia|]. destruct IH as [_ IH].
      assert (Q : (0 < times f l)%nat) by (apply IH; eauto). lia.
Qed.

Lemma same_sym a b : same a b = same b a.
Proof. unfold same. rewrite Nat.eqb_sym. destruct (snd a), (snd b); auto. Qed.

Lemma same_pair p q : same (p, false) (q, false) = Nat.eqb p q.
Proof. unfold same; simpl. apply andb_true_r. Qed.

Lemma same_pair_inv p q : same (p, false) (q, true) = false.
Proof. unfold same; simpl. apply andb_false_r. Qed.

(** The keys stored for a primitive count its references. *)
Lemma keys_count hp u x : key_ok hp x ->
  times (fun key => key_eqb hp key x) (usage_keys hp u) = ref_count hp u x.
Proof.
  intros K. unfold usage_keys, ref_count, h_addr.
  destruct x as [k [y z]]. unfold key_ok in K. simpl in K.
  destruct (obj hp (fst u)) as [o|] eqn:E; [|reflexivity].
  assert (PT : forall pts, points_of hp u = pts \/ points_of hp u = rev pts ->
    times (fun key => key_eqb hp key (k, (y, z))) (map (fun p => (KPoint, (p, false))) (points_of hp u)) =
    match k, z with KPoint, false => times (Nat.eqb y) pts | _, _ => 0%nat end).
  { intros pts Hp. rewrite times_map.
    assert (Q : times (fun p => key_eqb hp (KPoint, (p, false)) (k, (y, z))) (points_of hp u) =
                times (fun p => key_eqb hp (KPoint, (p, false)) (k, (y, z))) pts).
    { destruct Hp as [->| ->]; auto. apply times_rev. }
    rewrite Q. unfold key_eqb. simpl. destruct k; simpl; try (apply times_false; auto; fail).
    destruct z.
    - apply times_false. intros p _. rewrite handle_eqb_same, same_pair_inv. auto.
    - apply times_ext. intros p _. rewrite handle_eqb_same, same_pair, andb_true_r. apply Nat.eqb_sym. }
  assert (RG : forall regs,
    times (fun key => key_eqb hp key (k, (y, z))) (map (fun r => (KReg, (r, false))) regs) =
    match k, z with KReg, false => times (Nat.eqb y) regs | _, _ => 0%nat end).
  { intros regs. rewrite times_map. unfold key_eqb. simpl.
    destruct k; simpl; try (apply times_false; auto; fail).
    destruct z.
    - apply times_false. intros p _. rewrite handle_eqb_same, same_pair_inv. auto.
    - apply times_ext. intros p _. rewrite handle_eqb_same, same_pair, andb_true_r. apply Nat.eqb_sym. }
  destruct o as [|pts|pts|l r c regs|outer inner regs|ps].
  - reflexivity.
  - etransitivity; [apply (PT pts)|destruct k, z; auto].
    unfold points_of, h_addr. rewrite E. destruct (snd u); auto.
  - etransitivity; [apply (PT pts)|destruct k, z; auto].
    unfold points_of, h_addr. rewrite E. auto.
  - rewrite !times_cons.
    match goal with |- context [times ?f (map ?g regs)] => replace (times f (map g regs)) with
      (match k, z with KReg, false => times (Nat.eqb y) regs | _, _ => 0%nat end) by (symmetry; apply RG) end.
    unfold left_of, right_of, h_addr. rewrite E.
    unfold key_eqb. simpl. destruct k; simpl; try reflexivity.
    rewrite !andb_true_r, Nat.add_0_r. destruct (snd u); reflexivity.
  - rewrite times_app.
    match goal with |- context [times ?f (map ?g regs)] => replace (times f (map g regs)) with
      (match k, z with KReg, false => times (Nat.eqb y) regs | _, _ => 0%nat end) by (symmetry; apply RG) end.
    rewrite times_map. unfold rings_of. rewrite E.
    unfold key_eqb. simpl. destruct k; simpl; try (rewrite times_false; auto; fail).
    + rewrite Nat.add_0_r, times_app, times_concat. f_equal.
      * apply times_ext. intros l _. rewrite andb_true_r, handle_eqb_same. apply same_sym.
      * f_equal. apply map_ext. intros l'. apply times_ext. intros l _.
        rewrite andb_true_r, handle_eqb_same. apply same_sym.
  - rewrite times_map. apply times_ext. intros p _. unfold key_eqb. simpl.
    destruct K as [o [Ko Kk]].
    destruct p as [p|l|p|l|b]; simpl; rewrite handle_eqb_same; destruct k; simpl; auto;
      try (rewrite andb_true_r; auto; fail).
    + destruct (same l (y, z)) eqn:Q; auto. simpl. apply same_true in Q; subst.
      unfold h_addr; simpl. apply alive_kind. eexists; eauto.
    + destruct (same (b, false) (y, z)) eqn:Q; auto. simpl. apply same_true in Q; inversion Q; subst.
      apply alive_kind. eexists; eauto.
Qed.

Lemma key_eqb_eq hp a b : key_eqb hp a b = true -> a = b.
Proof.
  unfold key_eqb. intros H. apply andb_true_iff in H as [H _]. apply andb_true_iff in H as [H1 H2].
  apply kind_eqb_true in H1. rewrite handle_eqb_same in H2. apply same_true in H2.
  destruct a, b; simpl in *; congruence.
Qed.

Lemma usages_of_entries hp s h x :
  map snd (filter (fun e => (snd (fst e) =? hash hp s x) && key_eqb hp (fst (fst e)) x)
             (usage_entries hp s h)) =
  repeat h (times (fun key => key_eqb hp key x) (usage_keys hp h)).
Proof.
  unfold usage_entries. induction (usage_keys hp h) as [|key l IH]; simpl; auto.
  rewrite times_cons. destruct (key_eqb hp key x) eqn:E; simpl.
  - assert (Q := key_eqb_eq _ _ _ E). subst. rewrite Z.eqb_refl. simpl. rewrite IH; auto.
  - rewrite andb_false_r. auto.
Qed.

Lemma find_usages_wf hp s k x : wf hp s ->
  find_usages hp k x s =
  flat_map (fun u => repeat u (times (fun key => key_eqb hp key x) (usage_keys hp u))) (members s k).
Proof.
  intros W. unfold find_usages, members. rewrite (wf_usage _ _ W k).
  induction (l_elems (m_layer s k)) as [|[i h] l IH]; simpl; auto.
  rewrite filter_app, map_app, IH, usages_of_entries. auto.
Qed.

Lemma occurrences_repeat u h n : occurrences u (repeat h n) = (b2n (same u h) * n)%nat.
Proof.
  unfold occurrences. induction n as [|n IH]; simpl; [rewrite times_nil; lia|].
  rewrite times_cons, IH. lia.
Qed.

Theorem find_usages_count hp s k x u : wf hp s -> key_ok hp x ->
  occurrences u (find_usages hp k x s) = (occurrences u (members s k) * ref_count hp u x)%nat.
Proof.
  intros W K. rewrite (find_usages_wf _ _ _ _ W).
  induction (members s k) as [|h l IH]; simpl; auto.
  unfold occurrences in *. rewrite times_app, IH. fold (occurrences u (repeat h (times (fun key => key_eqb hp key x) (usage_keys hp h)))).
  rewrite occurrences_repeat, times_cons, (keys_count hp h x K).
  destruct (same u h) eqn:Q; simpl; [|lia]. apply same_true in Q; subst. lia.
Qed.

Lemma occurrences_in u l : (0 < occurrences u l)%nat <-> In u l.
Proof.
  unfold occurrences. rewrite times_pos. split.
  - intros [x [H E]]. apply same_true in E; subst; auto.
  - intros H. exists u. split; auto. apply same_true; auto.
Qed.

Lemma occurrences_nodup u l : NoDup l -> (occurrences u l <= 1)%nat.
Proof.
  intros ND. induction ND as [|x l H ND IH]; [unfold occurrences; rewrite times_nil; lia|].
  unfold occurrences in *. rewrite times_cons. destruct (same u x) eqn:E; simpl; [|lia].
  apply same_true in E; subst. destruct (times (same x) l) eqn:Q; [lia|].
  exfalso. apply H. apply occurrences_in. unfold occurrences. lia.
Qed.

Lemma members_nodup hp s k : wf hp s -> NoDup (members s k).
Proof.
  intros W. unfold members.
  assert (ND := wf_nodup _ _ W k).
  assert (EL : forall i h, In (i, h) (l_elems (m_layer s k)) -> i = m_ids s (h_addr h)).
  { intros i h H. apply (wf_elem _ _ W k i h H). }
  revert ND EL. generalize (l_elems (m_layer s k)). induction l as [|[i h] l IH]; simpl; intros ND EL.
  - constructor.
  - inversion ND; subst. constructor; [|apply IH; auto].
    intros HI. apply in_map_iff in HI as [[j h'] [Q HI]]. simpl in Q; subst h'.
    assert (A1 := EL i h (or_introl eq_refl)). assert (A2 := EL j h (or_intror HI)).
    apply H1. apply in_map_iff. exists (j, h). split; auto. simpl; congruence.
Qed.

(** * Fresh ids *)

Lemma keys_below hp s k i : wf hp s -> In i (used_ids s k) -> i < m_next s.
Proof.
  intros W H. unfold used_ids in H. apply in_map_iff in H as [[j h] [<- H]].
  destruct (wf_elem _ _ W k j h H) as (_ & _ & X & _). auto.
Qed.

Theorem assigned_unused hp s s' a k :
  wf hp s -> grows s s' -> m_ids s a = 0 -> m_ids s' a <> 0 -> ~ In (m_ids s' a) (used_ids s k).
Proof.
  intros W G Z0 N H. apply (keys_below hp) in H; auto.
  destruct (g_ids _ _ G a) as [E|[_ E]]; [congruence|lia].
Qed.

(** The primitive passed to add is stored itself if it had no id. *)
Lemma found_insert hp k h s s1 s2 :
  wf hp s -> begin_add k (h_addr h) s = Some s1 -> grows s1 s2 -> m_layer s2 k = m_layer s1 k ->
  lookup (m_ids (layer_add hp k h s2) (h_addr h)) (l_elems (m_layer (layer_add hp k h s2) k)) = Some h.
Proof.
  intros W B G L. destruct (begin_facts hp k (h_addr h) s s1 W B) as (_ & N1 & _ & L1 & _).
  assert (I : m_ids s2 (h_addr h) = m_ids s1 (h_addr h)) by (apply grows_ids; auto).
  simpl. rewrite kind_eqb_refl. simpl.
  assert (LN : lookup (m_ids s2 (h_addr h)) (l_elems (m_layer s2 k)) = None) by (rewrite I, L; auto).
  rewrite insert_fresh by auto. rewrite lookup_app, LN. simpl. rewrite Z.eqb_refl. auto.
Qed.

Lemma begin_fresh k a s : m_ids s a = 0 -> begin_add k a s <> None.
Proof. unfold begin_add, inval. intros ->. simpl. discriminate. Qed.

Lemma point_layers hp a s k : k <> KPoint -> m_layer (add_point hp a s) k = m_layer s k.
Proof.
  intros H. unfold add_point. destruct (begin_add KPoint a s) as [s1|] eqn:B; auto.
  simpl. destruct (kind_eqb k KPoint) eqn:Q; [apply kind_eqb_true in Q; contradiction|].
  revert B. unfold begin_add. destruct (m_ids s a =? inval); [|destruct (exists_in KPoint (m_ids s a) s)];
    intros B; inversion B; auto.
Qed.
Lemma points_layers hp : forall l s k, k <> KPoint -> m_layer (add_points hp l s) k = m_layer s k.
Proof.
  unfold add_points. induction l as [|p l IH]; intros s k H; simpl; auto.
  rewrite IH, point_layers; auto.
Qed.
Lemma begin_layers k a s s1 k' : begin_add k a s = Some s1 -> m_layer s1 k' = m_layer s k'.
Proof.
  unfold begin_add. destruct (m_ids s a =? inval); [|destruct (exists_in k (m_ids s a) s)];
    intros B; inversion B; auto.
Qed.
Lemma line_layers hp h s k : k <> KPoint -> k <> KLine -> m_layer (add_line hp h s) k = m_layer s k.
Proof.
  intros H1 H2. unfold add_line. destruct (begin_add KLine (h_addr h) s) as [s1|] eqn:B; auto.
  simpl. destruct (kind_eqb k KLine) eqn:Q; [apply kind_eqb_true in Q; contradiction|].
  rewrite points_layers by auto. eapply begin_layers; eauto.
Qed.
Lemma lines_layers hp : forall l s k, k <> KPoint -> k <> KLine ->
  m_layer (add_lines hp l s) k = m_layer s k.
Proof.
  unfold add_lines. induction l as [|p l IH]; intros s k H1 H2; simpl; auto.
  rewrite IH, line_layers; auto.
Qed.
Lemma assign_layers a s k : m_layer (assign_id a s) k = m_layer s k.
Proof. unfold assign_id. destruct (m_ids s a =? inval); auto. Qed.
Lemma assigns_layers : forall l s k, m_layer (assign_ids l s) k = m_layer s k.
Proof.
  unfold assign_ids. induction l as [|p l IH]; intros s k; simpl; auto. rewrite IH, assign_layers; auto.
Qed.
Lemma assign_params_layers hp : forall l s k,
  m_layer (fold_left (fun s p => assign_param hp p s) l s) k = m_layer s k.
Proof.
  induction l as [|p l IH]; intros s k; simpl; auto. rewrite IH.
  destruct p as [a|h|a|h|a]; simpl; auto using assign_layers;
    match goal with |- context [alive ?x ?y ?z] => destruct (alive x y z) end; auto using assign_layers.
Qed.

Theorem added_found hp fuel t s s' :
  wf hp s -> m_ids s (target_addr t) = 0 -> add hp fuel t s = Some s' ->
  m_ids s' (target_addr t) <> 0 /\
  lookup (m_ids s' (target_addr t)) (l_elems (m_layer s' (target_kind t))) = Some (target_handle t).
Proof.
  intros W Z0 E. destruct fuel as [|f]; [discriminate|]. simpl in E.
  assert (FIN : forall k h s1 s2, target_kind t = k -> target_handle t = h ->
    begin_add k (h_addr h) s = Some s1 -> grows s1 s2 -> m_layer s2 k = m_layer s1 k ->
    grows (layer_add hp k h s2) s' ->
    m_ids s' (target_addr t) <> 0 /\
    lookup (m_ids s' (target_addr t)) (l_elems (m_layer s' (target_kind t))) = Some (target_handle t)).
  { intros k h s1 s2 Hk Hh B G L G'. unfold target_addr. rewrite Hk, Hh.
    assert (F := found_insert hp k h s s1 s2 W B G L).
    assert (N1 := begin_nonzero _ _ _ _ (wf_next _ _ W) B).
    assert (N2 : m_ids s2 (h_addr h) = m_ids s1 (h_addr h)) by (apply grows_ids; auto).
    assert (N3 : m_ids s' (h_addr h) = m_ids (layer_add hp k h s2) (h_addr h)).
    { apply grows_ids; auto. simpl. congruence. }
    unfold h_addr in *. split; [simpl in N3; congruence|].
    rewrite N3. apply (grows_lookup _ _ _ _ _ G' F). }
  assert (NB : forall k, begin_add k (target_addr t) s <> None) by (intros; apply begin_fresh; auto).
  destruct t as [a|h|a|h|a|a]; unfold target_addr in NB; simpl in NB.
  - inversion E; subst. unfold add_point in *.
    destruct (begin_add KPoint a s) as [s1|] eqn:B; [|exfalso; eapply NB; eauto].
    eapply FIN with (s2 := s1); eauto using grows_refl.
  - inversion E; subst. unfold add_line in *. unfold h_addr in *.
    destruct (begin_add KLine (fst h) s) as [s1|] eqn:B; [|exfalso; eapply NB; eauto].
    eapply FIN; eauto using grows_refl, grows_points. apply points_layers; discriminate.
  - inversion E; subst. unfold add_poly in *.
    destruct (begin_add KPoly a s) as [s1|] eqn:B; [|exfalso; eapply NB; eauto].
    eapply FIN; eauto using grows_refl, grows_points. apply points_layers; discriminate.
  - unfold add_lanelet in E. unfold h_addr in *.
    destruct (begin_add KLanelet (fst h) s) as [s1|] eqn:B; [|exfalso; eapply NB; eauto].
    cbv zeta in E.
    refine (FIN KLanelet h s1 _ eq_refl eq_refl B _ _
      (fold_opt_rel grows _ grows_refl grows_trans _ _ _ _ E)).
    + eapply grows_trans; [apply grows_line|]. eapply grows_trans; [apply grows_line|].
      eapply grows_trans; [apply grows_center|apply grows_assigns].
    + rewrite assigns_layers.
      match goal with |- context [custom_center hp h ?x] => destruct (custom_center hp h x) end;
        rewrite ?line_layers by discriminate; auto.
    + intros; eapply add_grows; eauto.
  - unfold add_area in E.
    destruct (begin_add KArea a s) as [s1|] eqn:B; [|exfalso; eapply NB; eauto].
    cbv zeta in E.
    refine (FIN KArea (a, false) s1 _ eq_refl eq_refl B _ _
      (fold_opt_rel grows _ grows_refl grows_trans _ _ _ _ E)).
    + eapply grows_trans; [apply grows_lines|apply grows_assigns].
    + rewrite assigns_layers. rewrite lines_layers by discriminate; auto.
    + intros; eapply add_grows; eauto.
  - unfold add_reg in E.
    destruct (begin_add KReg a s) as [s1|] eqn:B; [|exfalso; eapply NB; eauto].
    cbv zeta in E.
    refine (FIN KReg (a, false) s1 _ eq_refl eq_refl B _ _
      (fold_opt_rel grows _ grows_refl grows_trans _ _ _ _ E)).
    + apply grows_assign_params.
    + apply assign_params_layers.
    + intros x u u' _ Hx. unfold add_param in Hx.
      destruct x as [p|l|p|l|b]; try (inversion Hx; subst; auto using grows_point, grows_line, grows_poly; fail).
      * destruct (alive hp KLanelet (h_addr l)); [eapply add_grows; eauto|inversion Hx; apply grows_refl].
      * destruct (alive hp KArea b); [eapply add_grows; eauto|inversion Hx; apply grows_refl].
Qed.

(** If all preset ids are known to the counter, everything that received an id is
    stored itself. *)
Theorem all_found hp s s' P k a :
  wf hp s' -> grows s s' -> comp hp (m_ids s) s' P -> ~ P a ->
  (forall b, m_ids s b < m_next s) ->
  m_ids s a = 0 -> m_ids s' a <> 0 -> has_kind hp k a ->
  exists h, fst h = a /\ lookup (m_ids s' a) (l_elems (m_layer s' k)) = Some h.
Proof.
  intros W G [_ C] NP R Z0 N K. destruct (C k a Z0 N K) as [[_ [h L]]|X]; [|contradiction].
  exists h. split; auto. assert (L' := lookup_in _ _ _ L).
  destruct (wf_elem _ _ W _ _ _ L') as (E & _).
  destruct (Z.eq_dec (m_ids s (fst h)) 0) as [Zh|Zh].
  - symmetry. apply (g_inj _ _ G); auto.
  - assert (Q := grows_ids _ _ _ G Zh). unfold h_addr in E. specialize (R (fst h)).
    destruct (g_ids _ _ G a) as [F|[_ F]]; [congruence|]. lia.
Qed.

(** * Maps made from lists *)

Lemma to_map_facts s l : let m := to_map s l in
  NoDup (map fst m) /\
  (forall i h, In (i, h) m -> i = m_ids s (h_addr h) /\ In h l) /\
  (forall h, In h l -> exists h', lookup (m_ids s (h_addr h)) m = Some h').
Proof.
  unfold to_map.
  assert (X : forall l m0,
    NoDup (map fst m0) ->
    let m := fold_left (fun m h => insert_elem (m_ids s (h_addr h)) h m) l m0 in
    NoDup (map fst m) /\
    (forall i h, In (i, h) m -> In (i, h) m0 \/ (i = m_ids s (h_addr h) /\ In h l)) /\
    (forall i h, lookup i m0 = Some h -> lookup i m = Some h) /\
    (forall h, In h l -> exists h', lookup (m_ids s (h_addr h)) m = Some h')).
  { clear l. induction l as [|h l IH]; intros m0 ND; simpl.
    - split; auto. split; auto. split; auto. intros h [].
    - assert (ND1 : NoDup (map fst (insert_elem (m_ids s (h_addr h)) h m0))).
      { unfold insert_elem. destruct (lookup (m_ids s (h_addr h)) m0) eqn:E; auto.
        rewrite map_app. simpl. apply NoDup_snoc; auto. apply lookup_none; auto. }
      destruct (IH _ ND1) as (A1 & A2 & A3 & A4). split; auto. split; [|split].
      + intros i x Hx. apply A2 in Hx as [Hx|[Hx Hx2]]; [|right; auto].
        unfold insert_elem in Hx. destruct (lookup (m_ids s (h_addr h)) m0); auto.
        apply in_app_or in Hx as [Hx|[Hx|[]]]; auto. inversion Hx; subst. auto.
      + intros i x Hx. apply A3. unfold insert_elem.
        destruct (lookup (m_ids s (h_addr h)) m0); auto. rewrite lookup_app, Hx; auto.
      + intros x [<-|Hx]; auto.
        unfold insert_elem in *. destruct (lookup (m_ids s (h_addr h)) m0) eqn:E.
        * exists h0. apply A3. auto.
        * exists h. apply A3. rewrite lookup_app, E. simpl. rewrite Z.eqb_refl; auto. }
  destruct (X l []) as (A1 & A2 & _ & A4); [constructor|].
  cbv zeta. split; auto. split; auto. intros i h H. destruct (A2 _ _ H) as [[]|Q]; auto.
Qed.

(** The state without the registration of the ids of areas. *)
Definition put_layer (hp : heap) (k : kind) (m : list (Z * handle)) (s : mstate) : mstate :=
  MState (m_ids s) (m_next s) (fun k' => if kind_eqb k' k then
    Layer m (flat_map (fun e => usage_entries hp s (snd e)) m) (filter (in_tree hp k) (map snd m))
    else m_layer s k').

Lemma registers_facts m : forall s, let s' := fold_left (fun s (e : Z * handle) => register_id (fst e) s) m s in
  grows s s' /\ (forall k, m_layer s' k = m_layer s k) /\ m_ids s' = m_ids s.
Proof.
  induction m as [|e m IH]; intros s; simpl; [split; auto using grows_refl|].
  destruct (IH (register_id (fst e) s)) as (A & B & C). split; [|split].
  - eapply grows_trans; [apply grows_register|exact A].
  - intros k. rewrite B. auto.
  - rewrite C. auto.
Qed.

Lemma make_layer_facts hp k m s :
  grows (put_layer hp k m s) (make_layer hp k m s) /\
  (forall k', m_layer (make_layer hp k m s) k' = m_layer (put_layer hp k m s) k') /\
  m_ids (make_layer hp k m s) = m_ids s.
Proof.
  destruct k; try (split; [apply grows_refl|split; auto]; fail).
  exact (registers_facts m (put_layer hp KArea m s)).
Qed.

Lemma wf_put_layer hp k l s : wf hp s -> listed hp s k l ->
  (forall h key, In h l -> In key (usage_keys hp h) -> settled hp s key) ->
  wf hp (put_layer hp k (to_map s l) s).
Proof.
  intros W LI S. destruct (to_map_facts s l) as (ND & EL & _).
  assert (X : forall k' i h, element (put_layer hp k (to_map s l) s) k' i h ->
    (k' = k /\ In (i, h) (to_map s l)) \/ element s k' i h).
  { unfold element. simpl. intros k' i h. destruct (kind_eqb k' k) eqn:Q; auto.
    apply kind_eqb_true in Q; auto. }
  split.
  - apply (wf_next _ _ W).
  - intros k' i h E. apply X in E as [[-> E]|E].
    + destruct (EL _ _ E) as [A B]. destruct (LI _ B) as (C & D & F). subst i. auto.
    + apply (wf_elem _ _ W _ _ _ E).
  - intros k'. simpl. destruct (kind_eqb k' k); [auto|apply (wf_nodup _ _ W)].
  - intros k'. simpl. destruct (kind_eqb k' k); [reflexivity|apply (wf_usage _ _ W)].
  - intros k'. simpl. destruct (kind_eqb k' k) eqn:Q; [|apply (wf_tree _ _ W)].
    apply kind_eqb_true in Q; subst; auto.
  - intros k' i h key E Hk. apply X in E as [[-> E]|E].
    + destruct (EL _ _ E) as [A B]. apply (S h); auto.
    + apply (wf_keys _ _ W _ _ _ _ E Hk).
Qed.

Lemma wf_make_layer hp k l s : wf hp s -> listed hp s k l ->
  (forall h key, In h l -> In key (usage_keys hp h) -> settled hp s key) ->
  wf hp (make_layer hp k (to_map s l) s).
Proof.
  intros W LI S. destruct (make_layer_facts hp k (to_map s l) s) as (G & L & _).
  apply (wf_step hp (put_layer hp k (to_map s l) s)); auto. apply wf_put_layer; auto.
Qed.

Lemma to_map_ids s s' l : m_ids s' = m_ids s -> to_map s' l = to_map s l.
Proof. unfold to_map. intros ->. auto. Qed.

Lemma make_layer_elems hp k m s k' :
  l_elems (m_layer (make_layer hp k m s) k') =
  if kind_eqb k' k then m else l_elems (m_layer s k').
Proof.
  destruct (make_layer_facts hp k m s) as (_ & L & _). rewrite L. simpl.
  destruct (kind_eqb k' k); auto.
Qed.

Lemma make_layer_next hp k m s : m_next s <= m_next (make_layer hp k m s).
Proof. destruct (make_layer_facts hp k m s) as (G & _). apply (g_next _ _ G). Qed.

Lemma listed_next hp s s' k l :
  m_ids s' = m_ids s -> m_next s <= m_next s' -> listed hp s k l -> listed hp s' k l.
Proof. unfold listed. intros -> N H h Hh. destruct (H h Hh) as (A & B & C). repeat split; auto; lia. Qed.

Lemma settled_ids hp s s' key : m_ids s' = m_ids s -> settled hp s key -> settled hp s' key.
Proof. unfold settled. intros ->. auto. Qed.

Theorem create_map_spec hp fuel lls ars s0 ids next :
  heap_ok hp -> 0 < next -> s0 = empty_map ids next ->
  listed hp s0 KLanelet lls -> listed hp s0 KArea (map (fun a => (a, false)) ars) ->
  listed hp s0 KLine (all_lines hp s0 lls ars) ->
  listed hp s0 KPoint (map (fun p => (p, false)) (flat_map (points_of hp) (all_lines hp s0 lls ars))) ->
  (S (length (hp_objs hp)) <= fuel)%nat ->
  exists s', create_map hp fuel lls ars s0 = Some s' /\ wf hp s' /\ self_contained hp s' /\
    (forall h, In h lls -> good s' KLanelet (h_addr h)) /\
    (forall a, In a ars -> good s' KArea a).
Proof.
  intros HO N Es HL HA HN HP HF. unfold create_map.
  fold (all_lines hp s0 lls ars). set (ls := all_lines hp s0 lls ars) in *.
  set (pts := map (fun p => (p, false)) (flat_map (points_of hp) ls)) in *.
  set (regs := flat_map (fun h => regs_of hp (h_addr h)) lls ++ flat_map (regs_of hp) ars).
  set (ah := map (fun a => (a, false)) ars) in *.
  assert (W0 : wf hp s0) by (subst s0; apply wf_empty; auto).
  assert (E0 : forall k, l_elems (m_layer s0 k) = []) by (subst s0; auto).
  set (s1 := make_layer hp KLanelet (to_map s0 lls) s0).
  set (s2 := make_layer hp KArea (to_map s0 ah) s1).
  set (s3 := make_layer hp KLine (to_map s0 ls) s2).
  set (s4 := make_layer hp KPoint (to_map s0 pts) s3).
  assert (I1 : m_ids s1 = m_ids s0) by (apply make_layer_facts).
  assert (I2 : m_ids s2 = m_ids s0) by (rewrite <- I1; apply make_layer_facts).
  assert (I3 : m_ids s3 = m_ids s0) by (rewrite <- I2; apply make_layer_facts).
  assert (I4 : m_ids s4 = m_ids s0) by (rewrite <- I3; apply make_layer_facts).
  assert (N1 : m_next s0 <= m_next s1) by apply make_layer_next.
  assert (N2 : m_next s1 <= m_next s2) by apply make_layer_next.
  assert (N3 : m_next s2 <= m_next s3) by apply make_layer_next.
  assert (RLL : forall h ky b, In h lls -> references hp (m_ids s0) h ky b ->
     (ky = KLine /\ exists l, In l ls /\ h_addr l = b) \/ (ky = KReg /\ In b regs)).
  { intros h ky b Hh R. destruct (HL h Hh) as ([o [Eo Ko]] & _).
    destruct o as [| | |l r c rg| |]; try discriminate. unfold h_addr in Eo.
    assert (INL : forall l, In l (lines_of_lanelet hp s0 h) -> In l ls).
    { intros x Hx. unfold ls, all_lines. apply in_or_app; left. apply in_flat_map; eauto. }
    inversion R; subst ky; try congruence;
      match goal with H : obj hp (fst h) = Some _ |- _ => rewrite Eo in H; inversion H; subst; clear H end.
    - left. split; auto. destruct (snd h) eqn:SH.
      + exists (right_of hp h). split; [apply INL; simpl; auto|]. unfold right_of, h_addr. rewrite Eo, SH; auto.
      + exists (left_of hp h). split; [apply INL; simpl; auto|]. unfold left_of, h_addr. rewrite Eo, SH; auto.
    - left. split; auto. destruct (snd h) eqn:SH.
      + exists (left_of hp h). split; [apply INL; simpl; auto|]. unfold left_of, h_addr. rewrite Eo, SH; auto.
      + exists (right_of hp h). split; [apply INL; simpl; auto|]. unfold right_of, h_addr. rewrite Eo, SH; auto.
    - left. split; auto. exists (if snd h then flip c0 else c0). split.
      + apply INL. unfold lines_of_lanelet, custom_center, center_of, h_addr. rewrite Eo.
        match goal with H : m_ids ?x (fst c0) <> 0 |- _ => rename H into NZ end.
        match goal with |- context [?x =? inval] => destruct (x =? inval) eqn:Q end.
        * exfalso. apply NZ. unfold inval in Q. apply Z.eqb_eq in Q. destruct (snd h); exact Q.
        * simpl; auto.
      + destruct (snd h); auto.
    - right. split; auto. unfold regs. apply in_or_app; left. apply in_flat_map. exists h. split; auto.
      unfold regs_of, h_addr. rewrite Eo; auto. }
  assert (RAR : forall h ky b, In h ah -> references hp (m_ids s0) h ky b ->
     (ky = KLine /\ exists l, In l ls /\ h_addr l = b) \/ (ky = KReg /\ In b regs)).
  { intros h ky b Hh R. assert (Hh' := Hh). apply in_map_iff in Hh' as [a [<- Ha]].
    destruct (HA _ Hh) as ([o [Eo Ko]] & _). simpl in Eo.
    destruct o as [| | | |outer inner rg|]; try discriminate.
    assert (INL : forall l, In l (outer ++ concat inner) -> In l ls).
    { intros x Hx. unfold ls, all_lines. apply in_or_app; right. apply in_flat_map. exists a. split; auto.
      unfold rings_of. rewrite Eo; auto. }
    inversion R; subst ky; simpl in *; try congruence;
      match goal with H : obj hp a = Some _ |- _ => rewrite Eo in H; inversion H; subst; clear H end.
    - left. split; auto. exists l. split; auto. apply INL, in_or_app; auto.
    - left. split; auto. exists l. split; auto. apply INL, in_or_app; right. apply in_concat; eauto.
    - right. split; auto. unfold regs. apply in_or_app; right. apply in_flat_map. exists a. split; auto.
      unfold regs_of. rewrite Eo; auto. }
  assert (RLN : forall h ky b, In h ls -> references hp (m_ids s0) h ky b ->
     ky = KPoint /\ In (b, false) pts).
  { intros h ky b Hh R. destruct (HN h Hh) as ([o [Eo Ko]] & _).
    destruct o as [|pp| | | |]; try discriminate. unfold h_addr in Eo.
    inversion R; subst ky; try congruence.
    split; auto. unfold pts. apply in_map_iff. exists b. split; auto. apply in_flat_map.
    exists h. split; auto. eapply in_points; eauto. }
  assert (W1 : wf hp s1).
  { apply wf_make_layer; auto. intros h key Hh. apply keys_settled. intros ky b R.
    destruct (RLL h ky b Hh R) as [[-> [l [Hl <-]]]|[-> _]]; [right; apply HN; auto|auto]. }
  assert (W2 : wf hp s2).
  { unfold s2. rewrite <- (to_map_ids s0 s1) by auto. apply wf_make_layer; [auto| |].
    - exact (listed_next hp s0 s1 _ _ I1 N1 HA).
    - intros h key Hh. apply keys_settled. intros ky b R. rewrite I1 in *.
      destruct (RAR h ky b Hh R) as [[-> [l [Hl <-]]]|[-> _]]; [right; apply HN; auto|auto]. }
  assert (W3 : wf hp s3).
  { unfold s3. rewrite <- (to_map_ids s0 s2) by auto. apply wf_make_layer; [auto| |].
    - refine (listed_next hp s0 s2 _ _ I2 _ HN). lia.
    - intros h key Hh. apply keys_settled. intros ky b R. rewrite I2 in *.
      destruct (RLN h ky b Hh R) as [-> HI]. right. apply (HP _ HI). }
  assert (W4 : wf hp s4).
  { unfold s4. rewrite <- (to_map_ids s0 s3) by auto. apply wf_make_layer; [auto| |].
    - refine (listed_next hp s0 s3 _ _ I3 _ HP). lia.
    - intros h key Hh. apply keys_settled. intros ky b R.
      destruct (HP h Hh) as ([o [Eo Ko]] & _). destruct o; try discriminate. unfold h_addr in Eo.
      inversion R; subst; congruence. }
  assert (EL4 : forall k, l_elems (m_layer s4 k) =
    match k with KPoint => to_map s0 pts | KLine => to_map s0 ls | KArea => to_map s0 ah
               | KLanelet => to_map s0 lls | _ => [] end).
  { intros k. unfold s4, s3, s2, s1. rewrite !make_layer_elems. destruct k; simpl; auto. }
  assert (GP : forall p, In (p, false) pts -> good s4 KPoint p).
  { intros p Hp. destruct (to_map_facts s0 pts) as (_ & _ & A). destruct (A _ Hp) as [h' Q].
    split; [rewrite I4; apply (HP _ Hp)|]. exists h'. rewrite EL4, I4. auto. }
  assert (GN : forall l, In l ls -> good s4 KLine (h_addr l)).
  { intros p Hp. destruct (to_map_facts s0 ls) as (_ & _ & A). destruct (A _ Hp) as [h' Q].
    split; [rewrite I4; apply (HN _ Hp)|]. exists h'. rewrite EL4, I4. auto. }
  assert (C4 : comp hp ids s4 (fun b => In b regs)).
  { split.
    - intros k i h ky b E R. unfold element in E. rewrite EL4 in E. rewrite I4 in R.
      destruct k; try contradiction.
      + destruct (to_map_facts s0 pts) as (_ & A & _). destruct (A _ _ E) as [_ Hh].
        destruct (HP h Hh) as ([o [Eo Ko]] & _). destruct o; try discriminate. unfold h_addr in Eo.
        exfalso. inversion R; subst; congruence.
      + destruct (to_map_facts s0 ls) as (_ & A & _). destruct (A _ _ E) as [_ Hh].
        destruct (RLN h ky b Hh R) as [-> HI]. left; auto.
      + destruct (to_map_facts s0 lls) as (_ & A & _). destruct (A _ _ E) as [_ Hh].
        destruct (RLL h ky b Hh R) as [[-> [l [Hl <-]]]|[-> HI]]; [left; auto|auto].
      + destruct (to_map_facts s0 ah) as (_ & A & _). destruct (A _ _ E) as [_ Hh].
        destruct (RAR h ky b Hh R) as [[-> [l [Hl <-]]]|[-> HI]]; [left; auto|auto].
    - intros ky b B0 B1. exfalso. apply B1. rewrite I4. subst s0. auto. }
  assert (KRG : forall b, In b regs -> has_kind hp KReg b).
  { intros b Hb. unfold regs in Hb. apply in_app_or in Hb as [Hb|Hb]; apply in_flat_map in Hb as [x [Hx Hb]].
    - destruct (HL x Hx) as ([o [Eo _]] & _). eapply regs_kind; eauto.
    - assert (Hx' : In (x, false) ah) by (apply in_map_iff; eauto).
      destruct (HA _ Hx') as ([o [Eo _]] & _). eapply regs_kind; eauto. }
  assert (DN : exists s', fold_opt (add hp fuel) (map TReg regs) s4 = Some s').
  { apply (fold_opt_done hp _ fuel).
    - intros t u Ht Hm Hn. apply in_map_iff in Ht as [b [<- Hb]].
      destruct (add_done hp HO fuel (TReg b) u) as [u' Eu]; auto.
      { apply KRG; auto. }
      exists u'. split; auto. eapply add_grows; eauto.
    - assert (B := mu_from_bound s4 (hp_objs hp) 0). unfold mu. lia.
    - apply (wf_next _ _ W4). }
  destruct DN as [s' DN]. exists s'.
  split; auto.
  destruct (add_all_spec ids hp HO fuel (map TReg regs) s4 s' (fun b => In b regs)) as (W5 & C5 & G5); auto.
  { intros t Ht. apply in_map_iff in Ht as [b [<- Hb]]. apply KRG; auto. }
  assert (G45 : grows s4 s') by (eapply add_all_grows; eauto).
  split; auto. split.
  - apply (comp_self_contained ids). apply (comp_drop ids hp s' (fun _ => False) (fun b => In b regs)); auto.
    + eapply comp_weaken; [exact C5|auto].
    + intros ky b Hb Kb. rewrite (kind_unique _ _ _ _ Kb (KRG _ Hb)).
      apply (G5 (TReg b)). apply in_map; auto.
  - split.
    + intros h Hh. apply (grows_good s4); auto. destruct (to_map_facts s0 lls) as (_ & _ & A).
      destruct (A _ Hh) as [h' Q]. split; [rewrite I4; apply (HL _ Hh)|]. exists h'. rewrite EL4, I4. auto.
    + intros a Ha. assert (Ha' : In (a, false) ah) by (apply in_map_iff; eauto).
      apply (grows_good s4); auto. destruct (to_map_facts s0 ah) as (_ & _ & A).
      destruct (A _ Ha') as [h' Q]. split; [rewrite I4; apply (HA _ Ha')|]. exists h'. rewrite EL4, I4. auto.
Qed.

(** * findUsagesInLanelets / findUsagesInAreas *)

Lemma unique_in x l : In x (unique l) <-> In x l.
Proof.
  induction l as [|a l IH]; [simpl; tauto|].
  destruct l as [|b l]; [simpl; tauto|].
  change (unique (a :: b :: l)) with (if handle_eqb a b then unique (b :: l) else a :: unique (b :: l)).
  rewrite handle_eqb_same. destruct (same a b) eqn:E.
  - apply same_true in E; subst. rewrite IH. simpl. tauto.
  - simpl. simpl in IH. rewrite IH. tauto.
Qed.

Lemma find_usages_in_iff hp s k x u : wf hp s -> key_ok hp x ->
  In u (find_usages hp k x s) <-> In u (members s k) /\ (0 < ref_count hp u x)%nat.
Proof.
  intros W K. rewrite <- !occurrences_in, find_usages_count by auto.
  split; [|intros [A B]; nia].
  intros H. split; nia.
Qed.

Lemma ref_count_line hp u l : has_kind hp KLanelet (fst u) ->
  (0 < ref_count hp u (KLine, l))%nat <-> l = left_of hp u \/ l = right_of hp u.
Proof.
  intros [o [E K]]. destruct o as [| | |a b c regs| |]; try discriminate.
  unfold ref_count, left_of, right_of, h_addr. rewrite E. destruct l as [y z].
  assert (Q : forall a b, (0 < b2n (same a (y, z)) + b2n (same b (y, z)))%nat <->
     (y, z) = a \/ (y, z) = b).
  { intros p q. destruct (same p (y, z)) eqn:Q1, (same q (y, z)) eqn:Q2; simpl;
      try apply same_true in Q1; try apply same_true in Q2; subst;
      (split; [try lia; auto|intros [H|H]; try lia; exfalso]);
      try (rewrite H, (proj2 (same_true _ _) eq_refl) in Q1; discriminate);
      try (rewrite H, (proj2 (same_true _ _) eq_refl) in Q2; discriminate). }
  destruct (snd u); simpl; apply Q.
Qed.

Lemma ref_count_point hp l p : has_kind hp KLine (fst l) ->
  (0 < ref_count hp l (KPoint, (p, false)))%nat <-> In p (points_of hp l).
Proof.
  intros [o [E K]]. destruct o as [|pts| | | |]; try discriminate.
  unfold ref_count, points_of, h_addr. rewrite E, times_pos.
  assert (X : In p (if snd l then rev pts else pts) <-> In p pts).
  { destruct (snd l); [rewrite <- in_rev|]; tauto. }
  rewrite X. split.
  - intros [x [H Q]]. apply Nat.eqb_eq in Q; subst; auto.
  - intros H. exists p. split; auto. apply Nat.eqb_refl.
Qed.

Lemma flip_flip h : flip (flip h) = h.
Proof. destruct h as [a b]; unfold flip; simpl. rewrite negb_involutive; auto. Qed.

Lemma points_flip hp l p : In p (points_of hp (flip l)) <-> In p (points_of hp l).
Proof.
  unfold points_of, flip, h_addr. simpl. destruct (obj hp (fst l)) as [[]|]; try tauto.
  destruct (snd l); simpl; rewrite <- ?in_rev; tauto.
Qed.

Theorem usages_in_lanelets hp s p u : heap_ok hp -> wf hp s -> has_kind hp KPoint p ->
  In u (find_usages_in hp KLanelet p s) <->
  In u (members s KLanelet) /\
  exists l, (l = left_of hp u \/ l = right_of hp u) /\
    (In l (members s KLine) \/ In (flip l) (members s KLine)) /\ In p (points_of hp l).
Proof.
  intros HO W K. unfold find_usages_in. rewrite unique_in, in_app_iff, !in_flat_map.
  assert (ML : forall l, In l (members s KLine) -> has_kind hp KLine (fst l)).
  { intros l Hl. apply in_map_iff in Hl as [[i h] [<- Hl]]. apply (wf_elem _ _ W _ _ _ Hl). }
  assert (MU : forall u, In u (members s KLanelet) -> has_kind hp KLanelet (fst u)).
  { intros l Hl. apply in_map_iff in Hl as [[i h] [<- Hl]]. apply (wf_elem _ _ W _ _ _ Hl). }
  assert (A : forall l, In l (find_usages hp KLine (KPoint, (p, false)) s) <->
    In l (members s KLine) /\ In p (points_of hp l)).
  { intros l. rewrite find_usages_in_iff by auto. split; intros [X Y]; split; auto;
      apply (ref_count_point hp l p (ML l X)); auto. }
  assert (B : forall l, has_kind hp KLine (fst l) ->
    In u (find_usages hp KLanelet (KLine, l) s) <->
    In u (members s KLanelet) /\ (l = left_of hp u \/ l = right_of hp u)).
  { intros l Kl. rewrite find_usages_in_iff by auto. split; intros [X Y]; split; auto;
      apply (ref_count_line hp u l (MU u X)); auto. }
  split.
  - intros [[l [X Y]]|[l [X Y]]]; apply A in X as [X1 X2].
    + apply B in Y as [Y1 Y2]; auto. split; auto. exists l. auto.
    + apply B in Y as [Y1 Y2]; [|exact (ML l X1)]. split; auto. exists (flip l).
      split; auto. split; [rewrite flip_flip; auto|apply points_flip; auto].
  - intros [X [l [Y [[Z0|Z0] V]]]].
    + left. exists l. rewrite A, B; auto.
    + right. exists (flip l). rewrite A, flip_flip, B.
      * split; auto. split; auto. apply points_flip; auto.
      * exact (ML (flip l) Z0).
Qed.

(** * LaneletSubmap::add *)

Theorem submap_add_found hp k h s : 0 < m_next s ->
  let s' := submap_add hp k h s in
  m_ids s' (fst h) <> 0 /\ m_ids s' (fst h) < m_next s' /\
  (exists h', get k (m_ids s' (fst h)) s' = Some h') /\
  (forall k' i x, get k' i s = Some x -> get k' i s' = Some x).
Proof.
  intros P. unfold submap_add.
  set (s1 := if m_ids s (h_addr h) =? inval then assign_id (h_addr h) s else register_id (m_ids s (h_addr h)) s).
  assert (G : grows s s1).
  { unfold s1. destruct (m_ids s (h_addr h) =? inval); [apply grows_assign|apply grows_register]. }
  assert (N : m_ids s1 (h_addr h) <> 0 /\ m_ids s1 (h_addr h) < m_next s1).
  { unfold s1, inval. destruct (m_ids s (h_addr h) =? 0) eqn:E.
    - unfold assign_id, inval. rewrite E. simpl. rewrite Nat.eqb_refl. lia.
    - simpl. destruct (m_next s <? m_ids s (h_addr h) + 1) eqn:Q; lia. }
  cbv zeta. destruct N as [N1 N2]. split; auto. split; auto. split.
  - unfold get. destruct (layer_add_lookup hp k h s1) as [h' L]. exists h'.
    change (m_ids (layer_add hp k h s1) (fst h)) with (m_ids s1 (h_addr h)).
    unfold inval. destruct (m_ids s1 (h_addr h) =? 0) eqn:E; [lia|auto].
  - intros k' i x. unfold get. destruct (i =? inval); [auto|].
    apply grows_lookup. eapply grows_trans; [exact G|apply grows_layer_add].
Qed.
