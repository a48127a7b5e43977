(** Growth, termination and completeness of maps built by LaneletMap::add. *)
From Coq Require Import ZArith List Bool Lia ZifyBool ZifyNat.
From Verif Require Import MapModel MapSpec.
Import ListNotations.
Open Scope Z_scope.

Lemma kind_eqb_true a b : kind_eqb a b = true <-> a = b.
Proof. destruct a, b; simpl; split; congruence. Qed.
Lemma kind_eqb_refl a : kind_eqb a a = true.
Proof. destruct a; reflexivity. Qed.
Lemma kind_eqb_false a b : kind_eqb a b = false <-> a <> b.
Proof. destruct a, b; simpl; split; congruence. Qed.

Lemma same_true a b : same a b = true <-> a = b.
Proof.
  unfold same. destruct a as [a x], b as [b y]; simpl. rewrite andb_true_iff, Nat.eqb_eq.
  split; [intros [-> E]; apply Bool.eqb_prop in E; congruence|].
  intros E; inversion E; split; auto using Bool.eqb_reflx.
Qed.
Lemma handle_eqb_same a b : handle_eqb a b = same a b.
Proof. reflexivity. Qed.

(** * Growth *)

Record grows (s s' : mstate) : Prop := {
  g_ids : forall a, m_ids s' a = m_ids s a \/ (m_ids s a = 0 /\ m_next s <= m_ids s' a < m_next s');
  g_inj : forall a b, m_ids s a = 0 -> m_ids s b = 0 -> m_ids s' a <> 0 ->
    m_ids s' a = m_ids s' b -> a = b;
  g_next : m_next s <= m_next s';
  g_layer : forall k, exists l, l_elems (m_layer s' k) = l_elems (m_layer s k) ++ l
}.

Lemma grows_refl s : grows s s.
Proof. split; auto; [congruence|lia|]. intros k; exists []. rewrite app_nil_r; auto. Qed.

Lemma grows_trans a b c : grows a b -> grows b c -> grows a c.
Proof.
  intros [I1 J1 N1 L1] [I2 J2 N2 L2]. split.
  - intros x. destruct (I1 x) as [E1|[E1 B1]], (I2 x) as [E2|[E2 B2]].
    + left; congruence.
    + right; split; [congruence|lia].
    + right; split; [auto|]. rewrite E2; lia.
    + right; split; [auto|lia].
  - intros x y Zx Zy Nx E.
    destruct (Z.eq_dec (m_ids b x) 0) as [Bx|Bx], (Z.eq_dec (m_ids b y) 0) as [By|By].
    + apply J2; auto.
    + destruct (I2 x) as [Ex|[_ Ex]]; [congruence|]. destruct (I2 y) as [Ey|[Ey _]]; [|contradiction].
      destruct (I1 y) as [Fy|[_ Fy]]; [congruence|]. lia.
    + destruct (I2 y) as [Ey|[_ Ey]]; [congruence|]. destruct (I2 x) as [Ex|[Ex _]]; [|contradiction].
      destruct (I1 x) as [Fx|[_ Fx]]; [congruence|]. lia.
    + apply J1; auto. destruct (I2 x) as [Ex|[Ex _]]; [|contradiction].
      destruct (I2 y) as [Ey|[Ey _]]; [|contradiction]. congruence.
  - lia.
  - intros k. destruct (L1 k) as [l1 E1], (L2 k) as [l2 E2]. exists (l1 ++ l2).
    rewrite E2, E1, app_assoc; auto.
Qed.

Lemma lookup_app i l m :
  lookup i (l ++ m) = match lookup i l with Some h => Some h | None => lookup i m end.
Proof. induction l as [|[j h] l IH]; simpl; auto. destruct (j =? i); auto. Qed.

Lemma lookup_in i l h : lookup i l = Some h -> In (i, h) l.
Proof.
  induction l as [|[j x] l IH]; simpl; [discriminate|].
  destruct (j =? i) eqn:E; [|auto].
  intros H; inversion H; subst. left. f_equal. lia.
Qed.

Lemma lookup_none i l : lookup i l = None <-> ~ In i (map fst l).
Proof.
  induction l as [|[j x] l IH]; simpl; [tauto|].
  destruct (j =? i) eqn:E.
  - split; [discriminate|]. intros H; exfalso; apply H; left; lia.
  - rewrite IH. split; intros H; [intros [->|A]; [lia|auto]|auto].
Qed.

Lemma lookup_some_in i l : In i (map fst l) -> exists h, lookup i l = Some h.
Proof.
  intros H. destruct (lookup i l) eqn:E; eauto. apply lookup_none in E; contradiction.
Qed.

Lemma in_lookup i h l : NoDup (map fst l) -> In (i, h) l -> lookup i l = Some h.
Proof.
  induction l as [|[j x] l IH]; simpl; [tauto|]. intros ND [E|HI].
  - inversion E; subst. rewrite Z.eqb_refl; auto.
  - inversion ND; subst. destruct (j =? i) eqn:E; [|auto].
    exfalso. apply H1. assert (j = i) by lia. subst. apply (in_map fst) in HI; auto.
Qed.

Lemma grows_lookup s s' k i h :
  grows s s' -> lookup i (l_elems (m_layer s k)) = Some h ->
  lookup i (l_elems (m_layer s' k)) = Some h.
Proof. intros G H. destruct (g_layer _ _ G k) as [l E]. rewrite E, lookup_app, H; auto. Qed.

Lemma grows_element s s' k i h : grows s s' -> element s k i h -> element s' k i h.
Proof.
  unfold element. intros G H. destruct (g_layer _ _ G k) as [l E]. rewrite E.
  apply in_or_app; auto.
Qed.

(** The reference is resolved. *)
Definition good (s : mstate) (k : kind) (b : nat) : Prop :=
  m_ids s b <> 0 /\ exists h, lookup (m_ids s b) (l_elems (m_layer s k)) = Some h.

Lemma grows_ids s s' a : grows s s' -> m_ids s a <> 0 -> m_ids s' a = m_ids s a.
Proof. intros G H. destruct (g_ids _ _ G a) as [E|[E _]]; auto; contradiction. Qed.

Lemma grows_good s s' k b : grows s s' -> good s k b -> good s' k b.
Proof.
  intros G [H [h E]]. assert (I := grows_ids _ _ _ G H). split; [congruence|].
  rewrite I. exists h. apply (grows_lookup _ _ _ _ _ G E).
Qed.

Lemma grows_set_fresh s a :
  m_ids s a = 0 -> grows s (set_id a (m_next s) (MState (m_ids s) (m_next s + 1) (m_layer s))).
Proof.
  intros H. split; simpl.
  - intros b. destruct (Nat.eqb b a) eqn:E; auto. apply Nat.eqb_eq in E; subst. right; lia.
  - intros x y Zx Zy. destruct (Nat.eqb x a) eqn:E1, (Nat.eqb y a) eqn:E2; intros N X; try congruence.
    apply Nat.eqb_eq in E1, E2; congruence.
  - lia.
  - intros k; exists []; rewrite app_nil_r; auto.
Qed.

Lemma grows_register s i : grows s (register_id i s).
Proof.
  split; simpl; auto; [congruence| |].
  - destruct (m_next s <? i + 1) eqn:E; lia.
  - intros k; exists []; rewrite app_nil_r; auto.
Qed.

Lemma grows_begin k a s s' : begin_add k a s = Some s' -> grows s s'.
Proof.
  unfold begin_add. destruct (m_ids s a =? inval) eqn:E.
  - intros H; inversion H; subst. apply grows_set_fresh. unfold inval in E; lia.
  - destruct (exists_in k (m_ids s a) s); [discriminate|].
    intros H; inversion H; subst. apply grows_register.
Qed.

Lemma grows_assign a s : grows s (assign_id a s).
Proof.
  unfold assign_id. destruct (m_ids s a =? inval) eqn:E; [|apply grows_refl].
  apply grows_set_fresh. unfold inval in E; lia.
Qed.

Lemma insert_elem_app i h l : exists m, insert_elem i h l = l ++ m.
Proof.
  unfold insert_elem. destruct (lookup i l); [exists []; rewrite app_nil_r; auto|eauto].
Qed.

Lemma grows_layer_add hp k h s : grows s (layer_add hp k h s).
Proof.
  split; simpl; auto; [congruence|lia|]. intros k'. destruct (kind_eqb k' k) eqn:E; simpl.
  - apply kind_eqb_true in E; subst. apply insert_elem_app.
  - exists []; rewrite app_nil_r; auto.
Qed.

Lemma fold_left_rel {A} (R : mstate -> mstate -> Prop) (f : mstate -> A -> mstate) :
  (forall s, R s s) -> (forall a b c, R a b -> R b c -> R a c) ->
  forall l s, (forall s x, In x l -> R s (f s x)) -> R s (fold_left f l s).
Proof.
  intros Hr Ht. induction l as [|x l IH]; intros s H; simpl; auto.
  apply Ht with (f s x); [apply H; left; auto|]. apply IH. intros; apply H; right; auto.
Qed.

Lemma fold_opt_rel {A} (R : mstate -> mstate -> Prop) (f : A -> mstate -> option mstate) :
  (forall s, R s s) -> (forall a b c, R a b -> R b c -> R a c) ->
  forall l s s', (forall x s s', In x l -> f x s = Some s' -> R s s') ->
  fold_opt f l s = Some s' -> R s s'.
Proof.
  intros Hr Ht. induction l as [|x l IH]; intros s s' H E; simpl in E.
  - inversion E; subst; auto.
  - destruct (f x s) as [s1|] eqn:F; [|discriminate].
    apply Ht with s1; [apply (H x); [left; auto|auto]|].
    apply IH; auto. intros; apply (H x0); [right; auto|auto].
Qed.

Lemma grows_assigns l s : grows s (assign_ids l s).
Proof.
  unfold assign_ids. apply (fold_left_rel grows); auto using grows_refl, grows_assign.
  exact grows_trans.
Qed.

Lemma grows_point hp a s : grows s (add_point hp a s).
Proof.
  unfold add_point. destruct (begin_add KPoint a s) eqn:E; [|apply grows_refl].
  eapply grows_trans; [apply (grows_begin _ _ _ _ E)|apply grows_layer_add].
Qed.

Lemma grows_points hp l s : grows s (add_points hp l s).
Proof.
  unfold add_points. apply (fold_left_rel grows); auto using grows_refl, grows_point.
  exact grows_trans.
Qed.

Lemma grows_line hp h s : grows s (add_line hp h s).
Proof.
  unfold add_line. destruct (begin_add KLine (h_addr h) s) eqn:E; [|apply grows_refl].
  eapply grows_trans; [apply (grows_begin _ _ _ _ E)|].
  eapply grows_trans; [apply grows_points|apply grows_layer_add].
Qed.

Lemma grows_lines hp l s : grows s (add_lines hp l s).
Proof.
  unfold add_lines. apply (fold_left_rel grows); auto using grows_refl, grows_line.
  exact grows_trans.
Qed.

Lemma grows_poly hp a s : grows s (add_poly hp a s).
Proof.
  unfold add_poly. destruct (begin_add KPoly a s) eqn:E; [|apply grows_refl].
  eapply grows_trans; [apply (grows_begin _ _ _ _ E)|].
  eapply grows_trans; [apply grows_points|apply grows_layer_add].
Qed.

Lemma grows_assign_param hp p s : grows s (assign_param hp p s).
Proof.
  destruct p; simpl; auto using grows_assign;
    match goal with |- context [alive ?h ?k ?x] => destruct (alive h k x) end;
    auto using grows_assign, grows_refl.
Qed.

Lemma grows_assign_params hp l s : grows s (fold_left (fun s p => assign_param hp p s) l s).
Proof.
  apply (fold_left_rel grows); auto using grows_refl, grows_assign_param. exact grows_trans.
Qed.

Lemma grows_center hp h s :
  grows s (match custom_center hp h s with Some c => add_line hp c s | None => s end).
Proof. destruct (custom_center hp h s); auto using grows_line, grows_refl. Qed.

Theorem add_grows hp fuel : forall t s s', add hp fuel t s = Some s' -> grows s s'.
Proof.
  induction fuel as [|f IH]; intros t s s'; simpl; [discriminate|].
  destruct t as [a|h|a|h|a|a]; try solve [intros E; inversion E; subst;
    auto using grows_point, grows_line, grows_poly].
  - unfold add_lanelet. destruct (begin_add KLanelet (h_addr h) s) as [s1|] eqn:B.
    2:{ intros E; inversion E; apply grows_refl. }
    cbv zeta. intros E. eapply grows_trans; [apply (grows_begin _ _ _ _ B)|].
    eapply grows_trans; [apply grows_line|]. eapply grows_trans; [apply grows_line|].
    eapply grows_trans; [apply grows_center|]. eapply grows_trans; [apply grows_assigns|].
    eapply grows_trans; [apply grows_layer_add|].
    refine (fold_opt_rel grows _ grows_refl grows_trans _ _ _ _ E). intros; eapply IH; eauto.
  - unfold add_area. destruct (begin_add KArea a s) as [s1|] eqn:B.
    2:{ intros E; inversion E; apply grows_refl. }
    cbv zeta. intros E. eapply grows_trans; [apply (grows_begin _ _ _ _ B)|].
    eapply grows_trans; [apply grows_lines|]. eapply grows_trans; [apply grows_assigns|].
    eapply grows_trans; [apply grows_layer_add|].
    refine (fold_opt_rel grows _ grows_refl grows_trans _ _ _ _ E). intros; eapply IH; eauto.
  - unfold add_reg. destruct (begin_add KReg a s) as [s1|] eqn:B.
    2:{ intros E; inversion E; apply grows_refl. }
    cbv zeta. intros E. eapply grows_trans; [apply (grows_begin _ _ _ _ B)|].
    eapply grows_trans; [apply grows_assign_params|].
    eapply grows_trans; [apply grows_layer_add|].
    refine (fold_opt_rel grows _ grows_refl grows_trans _ _ _ _ E).
    intros x s2 s3 _ H. destruct x; simpl in H; try solve [inversion H; subst;
      auto using grows_point, grows_line, grows_poly].
    + destruct (alive hp KLanelet (h_addr h)); [eapply IH; eauto|inversion H; apply grows_refl].
    + destruct (alive hp KArea a0); [eapply IH; eauto|inversion H; apply grows_refl].
Qed.

Theorem add_all_grows hp fuel ts s s' : add_all hp fuel ts s = Some s' -> grows s s'.
Proof.
  apply (fold_opt_rel grows _ grows_refl grows_trans). intros; eapply add_grows; eauto.
Qed.

(** * Termination *)

(** Number of lanelets, areas and regulatory elements that are not yet found in
    their layer. *)
Definition missing (s : mstate) (a : nat) (o : object) : bool :=
  match kind_of o with
  | KLanelet | KArea | KReg => negb (exists_in (kind_of o) (m_ids s a) s)
  | _ => false
  end.
Fixpoint mu_from (s : mstate) (a : nat) (l : list object) : nat :=
  match l with
  | [] => 0
  | o :: r => b2n (missing s a o) + mu_from s (S a) r
  end%nat.
Definition mu (hp : heap) (s : mstate) : nat := mu_from s 0 (hp_objs hp).

Lemma exists_in_grows s s' k a :
  grows s s' -> exists_in k (m_ids s a) s = true -> exists_in k (m_ids s' a) s' = true.
Proof.
  unfold exists_in. intros G H. apply andb_true_iff in H as [H1 H2].
  assert (I : m_ids s' a = m_ids s a) by (apply grows_ids; auto; unfold inval in *; lia).
  rewrite I, H1. simpl. destruct (lookup (m_ids s a) (l_elems (m_layer s k))) eqn:L; [|discriminate].
  rewrite (grows_lookup _ _ _ _ _ G L); auto.
Qed.

Lemma missing_grows s s' a o : grows s s' -> missing s' a o = true -> missing s a o = true.
Proof.
  unfold missing. intros G.
  destruct (kind_of o); auto; intros H; apply negb_true_iff in H; apply negb_true_iff;
    match goal with |- ?x = false => destruct x eqn:E end; auto;
    apply (exists_in_grows _ _ _ _ G) in E; congruence.
Qed.

Lemma mu_from_le s s' l : grows s s' -> forall a, (mu_from s' a l <= mu_from s a l)%nat.
Proof.
  intros G. induction l as [|o l IH]; intros a; simpl; [lia|].
  specialize (IH (S a)). assert (M := missing_grows s s' a o G).
  destruct (missing s' a o); [rewrite M by auto; simpl; lia|].
  destruct (missing s a o); simpl; lia.
Qed.

Lemma mu_le hp s s' : grows s s' -> (mu hp s' <= mu hp s)%nat.
Proof. intros G; apply mu_from_le; auto. Qed.

Lemma mu_from_lt s s' l : grows s s' -> forall n a o,
  nth_error l n = Some o -> missing s (a + n) o = true -> missing s' (a + n) o = false ->
  (mu_from s' a l < mu_from s a l)%nat.
Proof.
  intros G. induction l as [|x l IH]; intros n a o; [destruct n; discriminate|].
  destruct n as [|n]; simpl.
  - intros E; inversion E; subst. replace (a + 0)%nat with a by lia. intros -> ->.
    assert (H := mu_from_le s s' l G (S a)). simpl; lia.
  - intros E M M'. replace (a + S n)%nat with (S a + n)%nat in * by lia.
    assert (H := IH n (S a) o E M M'). assert (Q := missing_grows s s' a x G).
    destruct (missing s' a x); [rewrite Q by auto; simpl; lia|].
    destruct (missing s a x); simpl; lia.
Qed.

Lemma mu_lt hp s s' a o : grows s s' -> obj hp a = Some o ->
  missing s a o = true -> missing s' a o = false -> (mu hp s' < mu hp s)%nat.
Proof. intros G E M M'. apply (mu_from_lt s s' (hp_objs hp) G a 0%nat o); auto. Qed.

(** The counter stays above InvalId; needed because a fresh id must not be InvalId. *)
Lemma begin_nonzero k a s s' : 0 < m_next s -> begin_add k a s = Some s' -> m_ids s' a <> 0.
Proof.
  unfold begin_add, inval. intros P. destruct (m_ids s a =? 0) eqn:E.
  - intros H; inversion H; subst. simpl. rewrite Nat.eqb_refl. lia.
  - destruct (exists_in k (m_ids s a) s); [discriminate|].
    intros H; inversion H; subst. simpl. lia.
Qed.

Lemma begin_not_exists k a s s' :
  begin_add k a s = Some s' -> exists_in k (m_ids s a) s = false.
Proof.
  unfold begin_add. destruct (m_ids s a =? inval) eqn:E.
  - intros _. unfold exists_in. rewrite E. auto.
  - destruct (exists_in k (m_ids s a) s); [discriminate|auto].
Qed.

Lemma layer_add_lookup hp k h s :
  exists h', lookup (m_ids s (h_addr h)) (l_elems (m_layer (layer_add hp k h s) k)) = Some h'.
Proof.
  simpl. rewrite kind_eqb_refl. simpl. unfold insert_elem.
  destruct (lookup (m_ids s (h_addr h)) (l_elems (m_layer s k))) eqn:E; [eauto|].
  exists h. rewrite lookup_app, E. simpl. rewrite Z.eqb_refl; auto.
Qed.

Lemma layer_add_exists hp k h s : m_ids s (h_addr h) <> 0 ->
  exists_in k (m_ids s (h_addr h)) (layer_add hp k h s) = true.
Proof.
  intros H. unfold exists_in. destruct (layer_add_lookup hp k h s) as [h' ->].
  unfold inval. destruct (m_ids s (h_addr h) =? 0) eqn:E; [lia|auto].
Qed.

(** The work done before an element is inserted lowers the measure. *)
Lemma insert_lowers hp k h o s s1 s2 :
  obj hp (h_addr h) = Some o -> kind_of o = k ->
  match k with KLanelet | KArea | KReg => True | _ => False end ->
  0 < m_next s -> begin_add k (h_addr h) s = Some s1 -> grows s1 s2 ->
  (mu hp (layer_add hp k h s2) < mu hp s)%nat.
Proof.
  intros Ho Hk Hc Hn Hb G.
  assert (G1 := grows_begin _ _ _ _ Hb).
  assert (Z1 := begin_nonzero _ _ _ _ Hn Hb).
  assert (I2 : m_ids s2 (h_addr h) = m_ids s1 (h_addr h)) by (apply grows_ids; auto).
  apply mu_lt with (a := h_addr h) (o := o); auto.
  - eapply grows_trans; [exact G1|]. eapply grows_trans; [exact G|apply grows_layer_add].
  - unfold missing. rewrite Hk. assert (N := begin_not_exists _ _ _ _ Hb).
    destruct k; try contradiction; rewrite N; auto.
  - unfold missing. rewrite Hk.
    assert (X : exists_in k (m_ids (layer_add hp k h s2) (h_addr h)) (layer_add hp k h s2) = true).
    { apply (layer_add_exists hp k h s2). congruence. }
    destruct k; try contradiction; rewrite X; auto.
Qed.

Lemma fold_opt_done {A} hp (f : A -> mstate -> option mstate) m :
  forall l s,
    (forall x s, In x l -> (mu hp s < m)%nat -> 0 < m_next s -> exists s', f x s = Some s' /\ grows s s') ->
    (mu hp s < m)%nat -> 0 < m_next s -> exists s', fold_opt f l s = Some s'.
Proof.
  induction l as [|x l IH]; intros s H M P; simpl; [eauto|].
  destruct (H x s) as [s1 [E G]]; auto; [left; auto|]. rewrite E. apply IH.
  - intros; apply H; auto; right; auto.
  - assert (Q := mu_le hp _ _ G); lia.
  - assert (Q := g_next _ _ G); lia.
Qed.

Lemma regs_kind hp a o : heap_ok hp -> obj hp a = Some o ->
  forall x, In x (regs_of hp a) -> has_kind hp KReg x.
Proof.
  intros H E x. unfold regs_of. rewrite E. specialize (H _ _ E).
  destruct o; simpl; try tauto; simpl in H; apply H.
Qed.

Lemma alive_kind hp k a : alive hp k a = true <-> has_kind hp k a.
Proof.
  unfold alive, has_kind. destruct (obj hp a) as [o|].
  - rewrite kind_eqb_true. split; [eauto|]. intros [o' [E K]]; inversion E; subst; auto.
  - split; [discriminate|]. intros [o [E _]]; discriminate.
Qed.

Theorem add_done hp : heap_ok hp ->
  forall fuel t s, target_ok hp t -> 0 < m_next s -> (mu hp s < fuel)%nat ->
  exists s', add hp fuel t s = Some s'.
Proof.
  intros HO. induction fuel as [|f IH]; intros t s T P M; [lia|].
  simpl. destruct t as [a|h|a|h|a|a]; eauto.
  - (* lanelet *)
    destruct T as [o [Eo Ko]]. unfold target_addr, target_handle, target_kind in Eo, Ko.
    unfold add_lanelet. destruct (begin_add KLanelet (h_addr h) s) as [s1|] eqn:B; [|eauto].
    cbv zeta.
    match goal with |- context [layer_add hp KLanelet h ?x] => set (s5 := x) end.
    assert (G : grows s1 s5).
    { unfold s5. eapply grows_trans; [apply grows_line|]. eapply grows_trans; [apply grows_line|].
      eapply grows_trans; [apply grows_center|apply grows_assigns]. }
    assert (L : (mu hp (layer_add hp KLanelet h s5) < mu hp s)%nat)
      by (eapply insert_lowers; eauto; exact I).
    assert (G0 := grows_begin _ _ _ _ B).
    apply (fold_opt_done hp _ f); [|lia|].
    + intros x s6 Hx Mx Px. destruct (IH (TReg x) s6) as [s' E]; auto.
      { unfold target_ok; simpl. eapply regs_kind; eauto. }
      exists s'. split; auto. eapply add_grows; eauto.
    + simpl. assert (Q1 := g_next _ _ G). assert (Q0 := g_next _ _ G0). lia.
  - (* area *)
    destruct T as [o [Eo Ko]]. unfold target_addr, target_handle, target_kind in Eo, Ko.
    unfold add_area. destruct (begin_add KArea a s) as [s1|] eqn:B; [|eauto].
    cbv zeta.
    match goal with |- context [layer_add hp KArea (a, false) ?x] => set (s5 := x) end.
    assert (G : grows s1 s5).
    { unfold s5. eapply grows_trans; [apply grows_lines|apply grows_assigns]. }
    assert (L : (mu hp (layer_add hp KArea (a, false) s5) < mu hp s)%nat)
      by (apply (insert_lowers hp KArea (a, false) o s s1 s5); auto).
    assert (G0 := grows_begin _ _ _ _ B).
    apply (fold_opt_done hp _ f); [|lia|].
    + intros x s6 Hx Mx Px. destruct (IH (TReg x) s6) as [s' E]; auto.
      { unfold target_ok; simpl. eapply regs_kind; eauto. }
      exists s'. split; auto. eapply add_grows; eauto.
    + simpl. assert (Q1 := g_next _ _ G). assert (Q0 := g_next _ _ G0). lia.
  - (* regulatory element *)
    destruct T as [o [Eo Ko]]. unfold target_addr, target_handle, target_kind in Eo, Ko.
    unfold add_reg. destruct (begin_add KReg a s) as [s1|] eqn:B; [|eauto].
    cbv zeta.
    match goal with |- context [layer_add hp KReg (a, false) ?x] => set (s5 := x) end.
    assert (G : grows s1 s5) by apply grows_assign_params.
    assert (L : (mu hp (layer_add hp KReg (a, false) s5) < mu hp s)%nat)
      by (apply (insert_lowers hp KReg (a, false) o s s1 s5); auto).
    assert (G0 := grows_begin _ _ _ _ B).
    apply (fold_opt_done hp _ f); [|lia|].
    + intros x s6 Hx Mx Px. destruct x as [p|l|p|l|b]; simpl;
        try solve [eexists; split; [reflexivity|]; auto using grows_point, grows_line, grows_poly].
      * destruct (alive hp KLanelet (h_addr l)) eqn:A; [|eauto using grows_refl].
        destruct (IH (TLanelet l) s6) as [s' E]; auto.
        { unfold target_ok; simpl. apply alive_kind; auto. }
        exists s'. split; auto. eapply add_grows; eauto.
      * destruct (alive hp KArea b) eqn:A; [|eauto using grows_refl].
        destruct (IH (TArea b) s6) as [s' E]; auto.
        { unfold target_ok; simpl. apply alive_kind; auto. }
        exists s'. split; auto. eapply add_grows; eauto.
    + simpl. assert (Q1 := g_next _ _ G). assert (Q0 := g_next _ _ G0). lia.
Qed.

Lemma mu_from_bound s l : forall a, (mu_from s a l <= length l)%nat.
Proof.
  induction l as [|o l IH]; intros a; simpl; [lia|]. specialize (IH (S a)).
  destruct (missing s a o); simpl; lia.
Qed.

Theorem add_terminates hp t s : heap_ok hp -> target_ok hp t -> 0 < m_next s ->
  exists s', add hp (S (length (hp_objs hp))) t s = Some s'.
Proof.
  intros H T P. apply add_done; auto. assert (B := mu_from_bound s (hp_objs hp) 0).
  unfold mu. lia.
Qed.

(** More fuel does not change the result. *)
Lemma fold_opt_mono {A} (f g : A -> mstate -> option mstate) :
  (forall x s s', f x s = Some s' -> g x s = Some s') ->
  forall l s s', fold_opt f l s = Some s' -> fold_opt g l s = Some s'.
Proof.
  intros H. induction l as [|x l IH]; intros s s' E; simpl in *; auto.
  destruct (f x s) eqn:F; [|discriminate]. rewrite (H _ _ _ F); auto.
Qed.

Lemma add_more_fuel hp : forall fuel t s s',
  add hp fuel t s = Some s' -> add hp (S fuel) t s = Some s'.
Proof.
  induction fuel as [|f IH]; intros t s s'; [discriminate|].
  intros E. change (add hp (S (S f)) t s) with
    (match t with
    | TPoint a => Some (add_point hp a s)
    | TLine h => Some (add_line hp h s)
    | TPoly a => Some (add_poly hp a s)
    | TLanelet h => add_lanelet hp (fun r => add hp (S f) (TReg r)) h s
    | TArea a => add_area hp (fun r => add hp (S f) (TReg r)) a s
    | TReg a => add_reg hp (fun l => add hp (S f) (TLanelet l))
                        (fun l => add hp (S f) (TArea l)) a s
    end).
  change (match t with
    | TPoint a => Some (add_point hp a s)
    | TLine h => Some (add_line hp h s)
    | TPoly a => Some (add_poly hp a s)
    | TLanelet h => add_lanelet hp (fun r => add hp f (TReg r)) h s
    | TArea a => add_area hp (fun r => add hp f (TReg r)) a s
    | TReg a => add_reg hp (fun l => add hp f (TLanelet l))
                        (fun l => add hp f (TArea l)) a s
    end = Some s') in E.
  destruct t as [a|h|a|h|a|a]; auto.
  - unfold add_lanelet in *. destruct (begin_add KLanelet (h_addr h) s); auto.
    cbv zeta in *. revert E. apply fold_opt_mono. intros; apply IH; auto.
  - unfold add_area in *. destruct (begin_add KArea a s); auto.
    cbv zeta in *. revert E. apply fold_opt_mono. intros; apply IH; auto.
  - unfold add_reg in *. destruct (begin_add KReg a s); auto.
    cbv zeta in *. revert E. apply fold_opt_mono.
    intros x s1 s2. unfold add_param. destruct x; auto.
    + destruct (alive hp KLanelet (h_addr h)); auto.
    + destruct (alive hp KArea a0); auto.
Qed.
