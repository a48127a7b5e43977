(** The counters of the route builder. *)
From Coq Require Import NArith List Bool Arith Lia Relations.
From Verif Require Import CostAlg GraphModel RouteSpec RouteBuilderModel RouteBuilderProofs.
Import ListNotations.
Local Open Scope nat_scope.

Definition cnt {T} (p : T -> bool) (l : list T) : nat := length (filter p l).
Lemma cnt_app {T} (p : T -> bool) l l' : cnt p (l ++ l') = cnt p l + cnt p l'.
Proof. unfold cnt. rewrite filter_app, app_length. auto. Qed.
Lemma cnt_cons {T} (p : T -> bool) x l : cnt p (x :: l) = (if p x then 1 else 0) + cnt p l.
Proof. unfold cnt. simpl. destruct (p x); auto. Qed.
Lemma cnt_filter {T} (p q : T -> bool) l : cnt p (filter q l) = cnt (fun x => q x && p x) l.
Proof. induction l as [|x l IH]; auto. rewrite cnt_cons. simpl. destruct (q x); simpl; auto. rewrite cnt_cons, IH. auto. Qed.
Lemma cnt_ext {T} (p q : T -> bool) l : (forall x, In x l -> p x = q x) -> cnt p l = cnt q l.
Proof.
  induction l as [|x l IH]; intros H; auto. rewrite !cnt_cons, H by (left; auto). f_equal. apply IH. intros y Hy. apply H. right; auto.
Qed.
Lemma cnt_split {T} (p q : T -> bool) l : cnt p l = cnt (fun x => p x && q x) l + cnt (fun x => p x && negb (q x)) l.
Proof. induction l as [|x l IH]; auto. rewrite !cnt_cons, IH. destruct (p x), (q x); simpl; lia. Qed.
Lemma cnt_none {T} (p : T -> bool) l : (forall x, In x l -> p x = false) -> cnt p l = 0.
Proof. induction l as [|x l IH]; intros H; auto. rewrite cnt_cons, H by (left; auto). apply IH. intros y Hy. apply H. right; auto. Qed.
Lemma cnt_pos {T} (p : T -> bool) l : 0 < cnt p l <-> exists x, In x l /\ p x = true.
Proof.
  split.
  - induction l as [|x l IH]; [unfold cnt; simpl; lia|]. rewrite cnt_cons. destruct (p x) eqn:E.
    + intros _. exists x. split; [left|]; auto.
    + intros H. destruct IH as (y & Hy & Hp); [lia|]. exists y. split; [right|]; auto.
  - intros (x & Hx & Hp). induction l as [|y l IH]; [destruct Hx|]. rewrite cnt_cons. destruct Hx as [->|Hx]; [rewrite Hp; lia|].
    specialize (IH Hx). lia.
Qed.
Lemma cnt_le {T} (p q : T -> bool) l : (forall x, p x = true -> q x = true) -> cnt p l <= cnt q l.
Proof.
  intros H. induction l as [|x l IH]; auto. rewrite !cnt_cons. specialize (H x). destruct (p x), (q x); try lia; discriminate (H eq_refl).
Qed.
Lemma NoDup_filter {T} (p : T -> bool) l : NoDup l -> NoDup (filter p l).
Proof.
  induction l as [|x l IH]; intros H; simpl; auto. apply NoDup_cons_iff in H as [H1 H2].
  destruct (p x); auto. constructor; auto. rewrite filter_In. tauto.
Qed.

Lemma relation_eqb_eq a b : relation_eqb a b = true <-> a = b.
Proof. destruct a, b; simpl; split; congruence. Qed.

Section Counters.
Context {A : CostAlg}.
Variable es : list (edge A).
Variable n : nat.
Variables on last : list nat.
Hypothesis Hes : forall e, In e es -> e_src e < n /\ e_tgt e < n.
Notation edge := (edge A).
Notation near_out := (near_out es on last).
Notation near_in := (near_in es on last).
Notation next_to_route := (next_to_route es on).
Notation remove := (remove es on last).
Definition succ_edge (e : edge) : bool := relation_eqb (ei_rel (e_info e)) Successor.
Definition change_edge (e : edge) : bool := rel m_changes e.

Lemma outs_in (v : nat) (e : edge) : In e (outs es v) <-> In e es /\ e_src e = v.
Proof. unfold outs. rewrite filter_In, Nat.eqb_eq. tauto. Qed.
Lemma ins_in (v : nat) (e : edge) : In e (ins es v) <-> In e es /\ e_tgt e = v.
Proof. unfold ins. rewrite filter_In, Nat.eqb_eq. tauto. Qed.
Lemma drivable_kind (e : edge) : rel m_drivable e = true <-> succ_edge e = true \/ change_edge e = true.
Proof. unfold succ_edge, change_edge, rel. destruct (ei_rel (e_info e)); vm_compute; intuition congruence. Qed.
Lemma kind_disjoint (e : edge) : succ_edge e = true -> change_edge e = false.
Proof. unfold succ_edge, change_edge, rel. destruct (ei_rel (e_info e)); vm_compute; congruence. Qed.
Lemma near_kind v e : In e (near_out v) -> In e es /\ e_src e = v /\ next_to_route (e_tgt e) = true /\ rel m_drivable e = true.
Proof.
  unfold RouteBuilderModel.near_out, within. rewrite filter_In, outs_in, !andb_true_iff. tauto.
Qed.
Lemma near_in_kind v e : In e (near_in v) -> In e es /\ e_tgt e = v /\ next_to_route (e_src e) = true /\ rel m_drivable e = true.
Proof.
  unfold RouteBuilderModel.near_in, within. rewrite filter_In, ins_in, !andb_true_iff. tauto.
Qed.
Lemma cnt_swap (p : edge -> bool) s u : next_to_route s = true -> next_to_route u = true ->
  cnt (fun e => Nat.eqb (e_src e) s && p e) (near_in u) = cnt (fun e => Nat.eqb (e_tgt e) u && p e) (near_out s).
Proof.
  intros Hs Hu. unfold RouteBuilderModel.near_in, RouteBuilderModel.near_out, ins, outs. rewrite !cnt_filter.
  apply cnt_ext. intros e _. destruct (Nat.eqb_spec (e_src e) s) as [->|], (Nat.eqb_spec (e_tgt e) u) as [->|]; simpl;
    rewrite ?Hs, ?Hu, ?andb_false_r; auto.
Qed.

Definition keys (m : visited) : list nat := map fst m.
Definition folls (ks : list nat) (v : nat) : nat := cnt (fun e => succ_edge e && mem (e_tgt e) ks) (near_out v).
Definition chs (v : nat) : nat := cnt (fun e => change_edge e && mem (e_tgt e) on) (near_out v).
Definition lost (ks : list nat) (v : nat) : nat := cnt (fun e => change_edge e && negb (mem (e_tgt e) ks)) (near_out v).
(** What the counters say. *)
Record counted (m : visited) : Prop := {
  ct_nodup : NoDup (keys m);
  ct_near : forall v, In v (keys m) -> next_to_route v = true;
  ct_counts : forall v c, In (v, c) m -> c = (folls (keys m) v, chs v - lost (keys m) v) }.

Lemma look_in v c (m : visited) : NoDup (keys m) -> look v m = Some c <-> In (v, c) m.
Proof.
  unfold keys. induction m as [|[w d] m IH]; simpl; [intuition congruence|]. intros H. apply NoDup_cons_iff in H as [H1 H2].
  destruct (Nat.eqb_spec w v) as [->|Hne].
  - split; [intros [= ->]; auto|]. intros [[= ->]|H]; auto. destruct H1. apply (in_map fst) in H. auto.
  - rewrite IH by auto. intuition congruence.
Qed.
Lemma keys_in v (m : visited) : In v (keys m) <-> exists c, In (v, c) m.
Proof.
  unfold keys. rewrite in_map_iff. split.
  - intros ([w c] & <- & H). eauto.
  - intros (c & H). exists (v, c). auto.
Qed.

(** * remove *)
Definition drops (s : nat) (l : list edge) (c : counter) : counter :=
  fold_left (fun c e => if rel m_drivable e && Nat.eqb (e_src e) s then drop_edge e c else c) l c.
Lemma keys_update v f m : keys (update v f m) = keys m.
Proof. unfold keys, update. rewrite map_map. apply map_ext. intros [w c]; simpl. destruct (Nat.eqb w v); auto. Qed.
Lemma fold_drops l : forall m : visited,
  keys (fold_left (fun m e => if rel m_drivable e then update (e_src e) (drop_edge e) m else m) l m) = keys m /\
  forall s c, In (s, c) (fold_left (fun m e => if rel m_drivable e then update (e_src e) (drop_edge e) m else m) l m) <->
    exists d, In (s, d) m /\ c = drops s l d.
Proof.
  induction l as [|e l IH]; intros m; simpl.
  - split; auto. intros s c. unfold drops. simpl. split; [eauto|]. intros (d & H & ->); auto.
  - destruct (IH (if rel m_drivable e then update (e_src e) (drop_edge e) m else m)) as [IH1 IH2]. split.
    + rewrite IH1. destruct (rel m_drivable e); auto. apply keys_update.
    + intros s c. rewrite IH2. unfold drops at 2. simpl. destruct (rel m_drivable e); simpl; [|tauto].
      unfold update. split.
      * intros (d & H & ->). apply in_map_iff in H as ([w x] & E & H). simpl in E.
        destruct (Nat.eqb_spec w (e_src e)) as [->|Hne]; injection E as E1 E2; subst.
        -- exists x. rewrite Nat.eqb_refl. auto.
        -- exists d. destruct (Nat.eqb_spec (e_src e) s); [congruence|]. auto.
      * intros (d & H & ->). destruct (Nat.eqb_spec (e_src e) s) as [->|Hne].
        -- exists (drop_edge e d). split; auto. apply in_map_iff. exists (s, d). simpl. rewrite Nat.eqb_refl. auto.
        -- exists d. split; auto. apply in_map_iff. exists (s, d). simpl.
           destruct (Nat.eqb_spec s (e_src e)); [congruence|]. auto.
Qed.
Lemma drop_succ (e : edge) a b : succ_edge e = true -> 0 < a -> drop_edge e (a, b) = (pred a, b).
Proof. intros H1 H2. unfold drop_edge. fold (succ_edge e). rewrite H1. simpl. destruct (Nat.ltb_spec 0 a); [auto|lia]. Qed.
Lemma drop_change (e : edge) a b : succ_edge e = false -> drop_edge e (a, b) = (a, pred b).
Proof. intros H1. unfold drop_edge. fold (succ_edge e). rewrite H1. simpl. destruct (Nat.ltb_spec 0 b); auto. f_equal. lia. Qed.
Lemma drops_counts s l : (forall e, In e l -> rel m_drivable e = true) -> forall a b,
  cnt (fun e => Nat.eqb (e_src e) s && succ_edge e) l <= a ->
  drops s l (a, b) = (a - cnt (fun e => Nat.eqb (e_src e) s && succ_edge e) l, b - cnt (fun e => Nat.eqb (e_src e) s && change_edge e) l).
Proof.
  induction l as [|e l IH]; intros Hd a b Ha; [unfold drops, cnt; simpl; f_equal; lia|].
  rewrite !cnt_cons in *. change (drops s (e :: l) (a, b)) with
    (drops s l (if rel m_drivable e && Nat.eqb (e_src e) s then drop_edge e (a, b) else (a, b))).
  rewrite (Hd e) by (left; auto). cbn [andb].
  assert (Hd' : forall e, In e l -> rel m_drivable e = true) by (intros; apply Hd; right; auto).
  destruct (Nat.eqb_spec (e_src e) s) as [Es|Hne]; cbn [andb] in *; [|apply IH; auto].
  pose proof (Hd e (or_introl eq_refl)) as Hk. apply drivable_kind in Hk.
  destruct (succ_edge e) eqn:Esu.
  - rewrite (kind_disjoint e Esu), drop_succ by (auto; lia). rewrite IH by (auto; lia). f_equal; lia.
  - destruct Hk as [?|Hk]; [congruence|]. rewrite Hk, drop_change by auto. rewrite IH by (auto; lia). f_equal; lia.
Qed.
Lemma remove_keys u m : keys (remove u m) = filter (fun v => negb (Nat.eqb v u)) (keys m).
Proof.
  unfold RouteBuilderModel.remove. rewrite (proj1 (fold_drops _ _)). unfold keys. induction m as [|[w c] m IH]; simpl; auto.
  destruct (Nat.eqb w u); simpl; auto. f_equal; auto.
Qed.
Lemma remove_keys_in u m v : In v (keys (remove u m)) <-> In v (keys m) /\ v <> u.
Proof. rewrite remove_keys, filter_In, negb_true_iff, Nat.eqb_neq. tauto. Qed.
Lemma mem_removed u m x : mem x (keys (remove u m)) = mem x (keys m) && negb (Nat.eqb x u).
Proof.
  apply eq_true_iff_eq. rewrite andb_true_iff, !mem_in, remove_keys_in, negb_true_iff, Nat.eqb_neq. tauto.
Qed.
Lemma remove_counted u m : counted m -> In u (keys m) -> counted (remove u m).
Proof.
  intros [H1 H2 H3] Hu. constructor.
  - rewrite remove_keys. apply NoDup_filter; auto.
  - intros v Hv. apply remove_keys_in in Hv as [Hv _]. auto.
  - intros s c H. unfold RouteBuilderModel.remove in H. apply (proj2 (fold_drops _ _)) in H as (d & H & ->).
    apply filter_In in H as [H Hne]. simpl in Hne. apply negb_true_iff, Nat.eqb_neq in Hne.
    assert (Hs : next_to_route s = true) by (apply H2, keys_in; eauto). pose proof (H2 u Hu) as Hun.
    apply H3 in H. subst d.
    assert (Hf : folls (keys m) s = folls (keys (remove u m)) s + cnt (fun e => Nat.eqb (e_src e) s && succ_edge e) (near_in u)).
    { rewrite (cnt_swap succ_edge s u Hs Hun). unfold folls.
      rewrite (cnt_split (fun e => succ_edge e && mem (e_tgt e) (keys m)) (fun e => negb (Nat.eqb (e_tgt e) u))). f_equal.
      - apply cnt_ext. intros e _. rewrite mem_removed. rewrite <- andb_assoc. auto.
      - apply cnt_ext. intros e _. rewrite negb_involutive. destruct (Nat.eqb_spec (e_tgt e) u) as [->|]; simpl.
        + apply mem_in in Hu. rewrite Hu, !andb_true_r. auto.
        + rewrite andb_false_r. auto. }
    assert (Hl : lost (keys (remove u m)) s = lost (keys m) s + cnt (fun e => Nat.eqb (e_src e) s && change_edge e) (near_in u)).
    { rewrite (cnt_swap change_edge s u Hs Hun). unfold lost.
      rewrite (cnt_split (fun e => change_edge e && negb (mem (e_tgt e) (keys (remove u m)))) (fun e => negb (Nat.eqb (e_tgt e) u))). f_equal.
      - apply cnt_ext. intros e _. rewrite mem_removed. destruct (Nat.eqb_spec (e_tgt e) u) as [->|]; simpl.
        + apply mem_in in Hu. rewrite Hu. simpl. rewrite !andb_false_r. auto.
        + rewrite !andb_true_r. auto.
      - apply cnt_ext. intros e _. rewrite mem_removed, negb_involutive. destruct (Nat.eqb_spec (e_tgt e) u) as [->|]; simpl.
        + rewrite andb_false_r. simpl. rewrite !andb_true_r. auto.
        + rewrite !andb_false_r. auto. }
    rewrite drops_counts; [f_equal; lia| |lia]. intros e He. apply near_in_kind in He. tauto.
Qed.

(** * The search *)
Lemma counts_eq v : counts es on last v = (cnt succ_edge (near_out v), chs v).
Proof.
  unfold counts, chs. assert (H : forall l a b, fold_left (count_edge on) l (a, b) =
      (a + cnt succ_edge l, b + cnt (fun e => change_edge e && mem (e_tgt e) on) l)).
  { induction l as [|e l IH]; intros a b; simpl; [unfold cnt; simpl; f_equal; lia|].
    rewrite !cnt_cons. unfold count_edge at 2. fold (change_edge e). fold (succ_edge e). destruct (change_edge e) eqn:Ec; simpl.
    - assert (Es : succ_edge e = false) by (destruct (succ_edge e) eqn:Es; auto; rewrite (kind_disjoint e Es) in Ec; discriminate).
      rewrite Es. destruct (mem (e_tgt e) on); simpl; rewrite IH; f_equal; lia.
    - destruct (succ_edge e); simpl; rewrite IH; f_equal; lia. }
  rewrite H. auto.
Qed.
Lemma put_in v c m : forall w d, ~ In v (keys m) -> In (w, d) (put v c m) <-> (w, d) = (v, c) \/ In (w, d) m.
Proof.
  induction m as [|[x y] m IH]; intros w d Hv; simpl; [intuition congruence|].
  simpl in Hv. destruct (Nat.ltb_spec v x); simpl; [intuition congruence|]. destruct (Nat.ltb_spec x v); simpl.
  - rewrite IH by tauto. tauto.
  - assert (x = v) by lia. tauto.
Qed.
Lemma put_keys v c m w : In w (keys (put v c m)) <-> w = v \/ In w (keys m).
Proof.
  induction m as [|[x y] m IH]; simpl; [intuition congruence|].
  destruct (Nat.ltb_spec v x); simpl; [intuition congruence|]. destruct (Nat.ltb_spec x v); simpl.
  - rewrite IH. tauto.
  - assert (x = v) by lia. subst. intuition congruence.
Qed.
Lemma put_nodup v c m : NoDup (keys m) -> ~ In v (keys m) -> NoDup (keys (put v c m)).
Proof.
  induction m as [|[x y] m IH]; simpl; intros H1 H2; [repeat constructor; auto|].
  pose proof H1 as H1'. apply NoDup_cons_iff in H1' as [H3 H4].
  destruct (Nat.ltb_spec v x); simpl; [constructor; auto; simpl; tauto|].
  destruct (Nat.ltb_spec x v); simpl.
  - constructor; [|apply IH; tauto]. rewrite put_keys. intros [->|?]; [lia|tauto].
  - exfalso. apply H2. left. lia.
Qed.
Lemma fold_put l : forall m : visited, NoDup (keys m) -> NoDup l -> (forall x, In x l -> ~ In x (keys m)) ->
  NoDup (keys (fold_left (fun m v => put v (counts es on last v) m) l m)) /\
  forall w d, In (w, d) (fold_left (fun m v => put v (counts es on last v) m) l m) <-> In w l /\ d = counts es on last w \/ In (w, d) m.
Proof.
  induction l as [|v l IH]; intros m Hm Hl Hd; simpl.
  - split; auto. intros w d. tauto.
  - apply NoDup_cons_iff in Hl as [Hv Hl].
    assert (Hvm : ~ In v (keys m)) by (apply Hd; left; auto).
    destruct (IH (put v (counts es on last v) m)) as [IH1 IH2]; auto.
    + apply put_nodup; auto.
    + intros x Hx. rewrite put_keys. intros [->|H]; auto. apply (Hd x); auto. right; auto.
    + split; auto. intros w d. rewrite IH2, put_in by auto. split.
      * intros [[H1 H2]|[[= -> ->]|H]]; auto.
      * intros [[[->|H1] ->]|H]; auto.
Qed.
Notation near_step := (fun u t => In t (map e_tgt (near_out u))).
Lemma visit_spec begin : begin < n -> In begin on -> exists m, visit es n on last begin = Some m /\ counted m /\
  (forall v, In v (keys m) <-> clos_refl_trans nat near_step begin v) /\ (forall v, In v (keys m) -> v < n) /\
  (forall v, In v (keys m) -> lost (keys m) v = 0).
Proof.
  intros Hb Hon. unfold visit.
  destruct (bfs_spec (fun v => map e_tgt (near_out v)) n) with (fuel := S n) (start := begin) as (l & E & H1 & H2 & H3 & _); auto.
  { intros u t _ Ht. apply in_map_iff in Ht as (e & <- & He). apply near_kind in He as (He & _). apply Hes; auto. }
  rewrite E. simpl option_map. eexists. split; [reflexivity|].
  destruct (fold_put (begin :: l) []) as [K1 K2]; auto; [constructor|].
  set (m := fold_left _ _ _) in *.
  assert (Hk : forall v, In v (keys m) <-> In v (begin :: l)).
  { intros v. rewrite keys_in. split.
    - intros (c & H). apply K2 in H as [[H _]|[]]; auto.
    - intros H. exists (counts es on last v). apply K2. auto. }
  assert (Hcl : forall v e, In v (keys m) -> In e (near_out v) -> mem (e_tgt e) (keys m) = true).
  { intros v e Hv He. apply mem_in, Hk, H2. apply Hk, H2 in Hv. eapply rt_trans; [exact Hv|].
    apply rt_step. apply in_map. auto. }
  assert (Hlo : forall v, In v (keys m) -> lost (keys m) v = 0).
  { intros v Hv. apply cnt_none. intros e He. rewrite (Hcl v e Hv He), andb_false_r. auto. }
  split; [|split; [|split]]; auto.
  - constructor; auto.
    + intros v Hv. apply Hk, H2 in Hv. apply clos_rt_rtn1 in Hv. destruct Hv as [|y z Hyz _].
      * unfold RouteBuilderModel.next_to_route. rewrite (proj2 (mem_in begin on) Hon). auto.
      * apply in_map_iff in Hyz as (e & <- & He). apply near_kind in He. tauto.
    + intros v c Hv. assert (Hvk : In v (keys m)) by (apply keys_in; eauto).
      apply K2 in Hv as [[_ ->]|[]]. rewrite counts_eq, Hlo, Nat.sub_0_r by auto. f_equal.
      apply cnt_ext. intros e He. rewrite (Hcl v e Hvk He), andb_true_r. auto.
  - intros v. rewrite Hk. apply H2.
  - intros v Hv. apply H3, Hk, Hv.
Qed.

(** * Pruning *)
Inductive pruned (keep : nat) : visited -> visited -> Prop :=
| pr_refl m : pruned keep m m
| pr_step m u c m' : In (u, c) m -> u <> keep -> is_leaf c = true -> pruned keep (remove u m) m' -> pruned keep m m'.
Lemma pruned_snoc keep m u c m' : pruned keep m m' -> In (u, c) m' -> u <> keep -> is_leaf c = true -> pruned keep m (remove u m').
Proof. induction 1; intros; [eapply pr_step; eauto; constructor|]. eapply pr_step; eauto. Qed.
Lemma pruned_counted keep m m' : pruned keep m m' -> counted m -> counted m' /\ incl (keys m') (keys m).
Proof.
  induction 1 as [|m u c m' Hu Hk Hl H IH]; intros Hc; [split; auto; apply incl_refl|].
  destruct IH as [IH1 IH2]; [apply remove_counted; auto; apply keys_in; eauto|]. split; auto.
  intros x Hx. apply IH2, remove_keys_in in Hx. tauto.
Qed.
Lemma keys_length m : length (keys m) = length m.
Proof. apply map_length. Qed.
Lemma filter_ne_length (u : nat) l : NoDup l -> In u l -> S (length (filter (fun v => negb (Nat.eqb v u)) l)) = length l.
Proof.
  intros H1 H2. apply in_split in H2 as (p & s & ->). rewrite filter_app. simpl. rewrite Nat.eqb_refl. simpl.
  apply NoDup_remove_2 in H1. rewrite !app_length. simpl.
  assert (H : forall l, ~ In u l -> filter (fun v => negb (Nat.eqb v u)) l = l).
  { induction l as [|x l IH]; intros Hn; simpl; auto. destruct (Nat.eqb_spec x u) as [->|]; simpl; [destruct Hn; left; auto|].
    f_equal. apply IH. intros H. apply Hn. right; auto. }
  rewrite !H; [lia| |]; intros Hx; apply H1, in_or_app; auto.
Qed.
Lemma prune_pass_spec keep m : counted m -> exists m' b, prune_pass es on last keep m = (m', b) /\ pruned keep m m' /\
  (b = false -> m' = m /\ forall u c, In (u, c) m -> u = keep \/ is_leaf c = false) /\ (b = true -> length m' < length m).
Proof.
  intros Hm. unfold prune_pass.
  assert (H : forall ks m1 b, counted m1 -> pruned keep m m1 -> (b = true -> length m1 < length m) -> (b = false -> m1 = m) ->
     exists m' b', fold_left (fun (s : visited * bool) v =>
               match look v (fst s) with
               | Some c => if Nat.eqb v keep || negb (is_leaf c) then s else (remove v (fst s), true)
               | None => s
               end) ks (m1, b) = (m', b') /\ pruned keep m m' /\ (b' = true -> length m' < length m) /\
       (b' = false -> b = false /\ m' = m /\ forall u c, In u ks -> In (u, c) m -> u = keep \/ is_leaf c = false)).
  { induction ks as [|v ks IH]; intros m1 b Hc1 Hp Hlt Hsame.
    - exists m1, b. simpl. split; [reflexivity|]. split; [auto|]. split; [auto|]. intros E. split; [auto|]. split; [auto|]. intros u c [].
    - simpl. destruct (look v m1) as [c|] eqn:El.
      + apply look_in in El; [|apply Hc1]. destruct (Nat.eqb_spec v keep) as [->|Hk]; simpl.
        * destruct (IH m1 b Hc1 Hp Hlt Hsame) as (m' & b' & E & H1 & H2 & H3). exists m', b'. split; [auto|]. split; [auto|]. split; [auto|].
          intros Eb. destruct (H3 Eb) as (H4 & H5 & H6). split; [auto|]. split; [auto|]. intros u d [<-|Hu] Hd; [left; auto|eauto].
        * destruct (is_leaf c) eqn:Elf; simpl.
          -- destruct (IH (remove v m1) true) as (m' & b' & E & H1 & H2 & H3).
             ++ apply remove_counted; auto. apply keys_in; eauto.
             ++ eapply pruned_snoc; eauto.
             ++ intros _. assert (Hlen : S (length (remove v m1)) = length m1).
                { rewrite <- !keys_length, remove_keys. apply filter_ne_length; [apply Hc1|apply keys_in; eauto]. }
                destruct b; [specialize (Hlt eq_refl); lia|]. rewrite (Hsame eq_refl) in *. lia.
             ++ discriminate.
             ++ exists m', b'. split; [auto|]. split; [auto|]. split; [auto|]. intros Eb. destruct (H3 Eb) as [? _]. discriminate.
          -- destruct (IH m1 b Hc1 Hp Hlt Hsame) as (m' & b' & E & H1 & H2 & H3). exists m', b'. split; [auto|]. split; [auto|]. split; [auto|].
             intros Eb. destruct (H3 Eb) as (H4 & H5 & H6). split; [auto|]. split; [auto|]. intros u d [<-|Hu] Hd; [|eauto].
             rewrite (Hsame H4) in El. right. apply look_in in El; [|apply Hm]. apply look_in in Hd; [|apply Hm]. congruence.
      + destruct (IH m1 b Hc1 Hp Hlt Hsame) as (m' & b' & E & H1 & H2 & H3). exists m', b'. split; [auto|]. split; [auto|]. split; [auto|].
        intros Eb. destruct (H3 Eb) as (H4 & H5 & H6). split; [auto|]. split; [auto|]. intros u d [<-|Hu] Hd; [|eauto].
        rewrite (Hsame H4) in El. apply look_in in Hd; [|apply Hm]. congruence. }
  destruct (H (map fst m) m false Hm (pr_refl _ _)) as (m' & b & E & H1 & H2 & H3); auto; [discriminate|].
  exists m', b. split; auto. split; auto. split; auto. intros Eb. destruct (H3 Eb) as (_ & H5 & H6). split; auto.
  intros u c Hu. apply H6; auto. apply (in_map fst) in Hu. auto.
Qed.
Lemma pruned_trans keep m m' m'' : pruned keep m m' -> pruned keep m' m'' -> pruned keep m m''.
Proof. induction 1; intros; auto. eapply pr_step; eauto. Qed.
Lemma prune_spec keep fuel : forall m, counted m -> length m < fuel ->
  exists m', prune es on last fuel keep m = Some m' /\ pruned keep m m' /\ forall u c, In (u, c) m' -> u = keep \/ is_leaf c = false.
Proof.
  induction fuel as [|k IH]; intros m Hm Hl; [lia|]. simpl.
  destruct (prune_pass_spec keep m Hm) as (m' & b & E & H1 & H2 & H3). rewrite E. destruct b.
  - destruct (IH m') as (m'' & E' & H4 & H5).
    + eapply pruned_counted; eauto.
    + specialize (H3 eq_refl). lia.
    + exists m''. split; auto. split; auto. eapply pruned_trans; eauto.
  - exists m'. split; auto. destruct (H2 eq_refl) as [-> H4]. auto.
Qed.

(** * Removing the lanelets that leave the route *)
Lemma removes_counted l : forall m, counted m -> NoDup l -> incl l (keys m) ->
  counted (fold_left (fun m v => remove v m) l m) /\
  forall v, In v (keys (fold_left (fun m v => remove v m) l m)) <-> In v (keys m) /\ ~ In v l.
Proof.
  induction l as [|u l IH]; intros m Hm Hl Hi; simpl; [split; auto; tauto|].
  apply NoDup_cons_iff in Hl as [Hu Hl].
  destruct (IH (remove u m)) as [H1 H2]; auto.
  - apply remove_counted; auto. apply Hi. left; auto.
  - intros x Hx. apply remove_keys_in. split; [apply Hi; right; auto|congruence].
  - split; auto. intros v. rewrite H2, remove_keys_in. intuition congruence.
Qed.
Lemma valid_in m v : counted m -> In v (valid m) <-> In v (keys m) /\ (0 < folls (keys m) v \/ lost (keys m) v < chs v).
Proof.
  intros Hm. unfold valid. rewrite in_map_iff. split.
  - intros ([w c] & <- & H). apply filter_In in H as [H Hl]. simpl in *. split; [apply keys_in; eauto|].
    rewrite (ct_counts m Hm w c H) in Hl. unfold is_leaf in Hl. simpl in Hl. apply negb_true_iff, Nat.eqb_neq in Hl. lia.
  - intros [H1 H2]. apply keys_in in H1 as [c H1]. exists (v, c). split; auto. apply filter_In. split; auto. simpl.
    rewrite (ct_counts m Hm v c H1). unfold is_leaf. simpl. apply negb_true_iff, Nat.eqb_neq. lia.
Qed.
Lemma valid_nodup m : counted m -> NoDup (valid m).
Proof.
  intros [H _ _]. unfold valid. revert H. unfold keys. induction m as [|[w c] m IH]; simpl; auto. intros H.
  apply NoDup_cons_iff in H as [H1 H2]. destruct (negb (is_leaf c)); simpl; auto. constructor; auto.
  intros Hw. apply H1. apply in_map_iff in Hw as (x & E & Hx). apply filter_In in Hx as [Hx _]. apply in_map_iff. eauto.
Qed.
End Counters.
