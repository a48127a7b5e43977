From Coq Require Import NArith ZArith List Bool Arith Lia Permutation.
From Verif Require Import CostAlg GraphModel GraphSpec GraphProofs TrafficModel BuilderModel BuilderSpec BuilderProofs.
Import ListNotations.
Local Open Scope nat_scope.

Section Steps.
Context {A : CostAlg}.
Variable one : cost A.
Variable w : world.
Variable ru : rules.
Variable costs : list (@module A).
Variable order : list (lref * lref) -> list (lref * lref).
Hypothesis one_good : good_cost one = true.

Notation triple := (elem * elem * einfo A)%type.
Notation mods := (modules costs).
Notation V := (vertices w ru).
Definition Vs : list elem := rev (map EArea (passable_areas w ru)) ++ rev (map L V).
Notation idx := (flat_map (entries w) V).
Implicit Types (E X : list triple) (g : graph A).

Lemma in_Vs l : In (L l) Vs <-> In l V.
Proof.
  unfold Vs. rewrite in_app_iff, <- !in_rev, !in_map_iff. split.
  - intros [(x & H & _)|(x & H & Hin)]; [discriminate|]. apply L_inj in H. subst. auto.
  - intros H. right. eauto.
Qed.
Lemma in_Vs_area a : In (EArea a) Vs <-> In a (passable_areas w ru).
Proof.
  unfold Vs. rewrite in_app_iff, <- !in_rev, !in_map_iff. split.
  - intros [(x & H & Hin)|(x & H & Hin)]; [injection H as ->; auto|discriminate].
  - intros H. left. eauto.
Qed.

(** * Batches of edges *)
Definition batch (a b : elem) (r : relation) : list triple :=
  flat_map (fun km => accepted Vs (a, b, EInfo (edge_cost one (snd km) a b r) (fst km) r)) mods.
Lemma assign_ok g E a b r g' : repr Vs g E -> assign_costs one costs g a b r = Ok g' ->
  repr Vs g' (E ++ batch a b r).
Proof.
  intros Hr H. unfold assign_costs in H.
  apply (puts_ok Vs (fun km : N * @module A => (a, b, EInfo (edge_cost one (snd km) a b r) (fst km) r)) mods g E g' Hr).
  exact H.
Qed.
Lemma in_accepted (t t' : triple) : In t (accepted Vs t') <->
  t = t' /\ In (fst (fst t)) Vs /\ In (snd (fst t)) Vs /\ good_cost (ei_cost (snd t)) = true.
Proof.
  unfold accepted. rewrite <- !known_in. destruct (_ && _) eqn:Eb; simpl.
  - apply andb_true_iff in Eb as [Eb Ec]. apply andb_true_iff in Eb as [Ea Eb]. split.
    + intros [<-|[]]. auto.
    + intros (-> & _). auto.
  - split; [tauto|]. intros (-> & H1 & H2 & H3). rewrite H1, H2, H3 in Eb. discriminate.
Qed.
Lemma in_batch x y i a b r : In (x, y, i) (batch a b r) <->
  x = a /\ y = b /\ In a Vs /\ In b Vs /\ exists km, In km mods /\
  i = EInfo (edge_cost one (snd km) a b r) (fst km) r /\ good_cost (ei_cost i) = true.
Proof.
  unfold batch. rewrite in_flat_map. setoid_rewrite in_accepted. simpl. split.
  - intros (km & Hk & Heq & Ha & Hb & Hg). injection Heq as -> -> ->. eauto 10.
  - intros (-> & -> & Ha & Hb & km & Hk & -> & Hg). eauto 10.
Qed.
Definition flat (r : relation) : Prop := r = AdjacentLeft \/ r = AdjacentRight \/ r = Conflicting.
Lemma flat_cost m a b r : flat r -> edge_cost one m a b r = one.
Proof. intros [->|[->| ->]]; auto. Qed.
Definition ids : list N := map fst mods.
Lemma in_flat_batch x y i a b r : flat r -> In (x, y, i) (batch a b r) <->
  x = a /\ y = b /\ In a Vs /\ In b Vs /\ exists k, In k ids /\ i = EInfo one k r.
Proof.
  intros Hf. rewrite in_batch. unfold ids. split.
  - intros (-> & -> & Ha & Hb & km & Hk & -> & _). rewrite flat_cost by auto. repeat split; auto.
    exists (fst km). split; auto. apply in_map. auto.
  - intros (-> & -> & Ha & Hb & k & Hk & ->). apply in_map_iff in Hk as (km & <- & Hk). repeat split; auto.
    exists km. rewrite flat_cost by auto. auto.
Qed.
Lemma ids_nodup : NoDup ids.
Proof.
  unfold ids, modules. assert (forall (l : list N) (m : list (@module A)), NoDup l -> NoDup (map fst (combine l m))) as H.
  { induction l as [|x l IH]; intros [|y m] Hn; simpl; try constructor; inversion Hn; subst; auto.
    intros Hin. apply in_map_iff in Hin as ([z q] & <- & Hz). apply in_combine_l in Hz. auto. }
  apply H. apply FinFun.Injective_map_NoDup; [|apply seq_NoDup]. intros x y. apply Nat2N.inj.
Qed.
(** Source, target, relation and cost module of an edge. *)
Definition slot (t : triple) : elem * elem * relation * N :=
  (fst (fst t), snd (fst t), ei_rel (snd t), ei_costid (snd t)).
Lemma batch_slots a b r : NoDup (map slot (batch a b r)).
Proof.
  unfold batch. pose proof ids_nodup as Hn. unfold ids in Hn. revert Hn.
  induction mods as [|km ms IH]; simpl; intros Hn; [constructor|]. inversion Hn as [|? ? Hin Hn']; subst.
  rewrite map_app. unfold accepted at 1. destruct (_ && _); [|apply IH; auto]. simpl. constructor; [|apply IH; auto].
  intros H. apply in_map_iff in H as (t & Ht & H). apply in_flat_map in H as (km' & Hk & H).
  apply in_accepted in H as (-> & _). unfold slot in Ht. simpl in Ht. injection Ht as Ht. apply Hin.
  rewrite <- Ht. apply in_map. auto.
Qed.
Lemma nodup_app {T} (l1 l2 : list T) : NoDup l1 -> NoDup l2 -> (forall x, In x l1 -> In x l2 -> False) -> NoDup (l1 ++ l2).
Proof.
  induction l1 as [|x l1 IH]; simpl; auto. intros H1 H2 Hd. inversion H1; subst. constructor.
  - rewrite in_app_iff. intros [H|H]; eauto.
  - apply IH; auto. eauto.
Qed.

(** * Following edges *)
Definition end_key (l : lref) : option key := key_of w (last w (lbound w l)) (last w (rbound w l)).
Definition followers (l : lref) : list lref :=
  match end_key l with
  | None => []
  | Some k => filter (fun n => follows w l n && may_pass ru (L l) (L n)) (equal_range idx k)
  end.
Definition succ_of (l : lref) : list triple := flat_map (fun n => batch (L l) (L n) Successor) (followers l).

Lemma add_following_ok g E l g' : repr Vs g E -> add_following one w ru costs idx g l = Ok g' ->
  repr Vs g' (E ++ succ_of l).
Proof.
  intros Hr H. unfold add_following in H. apply bind_ok in H as (k & Hk & H).
  unfold succ_of, followers, end_key. destruct (key_of _ _ _) as [k'|]; [|discriminate]. simpl in Hk. injection Hk as ->.
  revert g E Hr H. induction (filter _ _) as [|n ns IH]; intros g E Hr H; simpl in *.
  - injection H as <-. rewrite app_nil_r. auto.
  - apply bind_ok in H as (g1 & H1 & H). eapply assign_ok in H1; eauto. eapply IH in H1; eauto.
    rewrite <- app_assoc in H1. auto.
Qed.
Lemma in_range_V l k : In l (equal_range idx k) -> In l V.
Proof. intros H. apply in_range, in_index in H. tauto. Qed.
Lemma in_followers l n : In n (followers l) -> In n V /\ follows w l n = true /\ may_pass ru (L l) (L n) = true.
Proof.
  unfold followers. destruct (end_key l); [|simpl; tauto]. intros H. apply filter_In in H as [H Hb].
  apply andb_true_iff in Hb. split; [eapply in_range_V; eauto|tauto].
Qed.
Lemma in_succ_of x y i l : In (x, y, i) (succ_of l) -> exists n, x = L l /\ y = L n /\ In n (followers l) /\
  In (x, y, i) (batch (L l) (L n) Successor).
Proof.
  intros H. apply in_flat_map in H as (n & Hn & H). pose proof H as H'. apply in_batch in H' as (-> & -> & _). eauto.
Qed.

(** * Edges to the side *)
Definition linked E (a b : lref) : Prop := exists i, In (L a, L b, i) E.
Definition candidate (s : side) (l b : lref) : Prop := In b V /\ l <> b /\ beside w s b l = true.
Lemma linked_app E X a b : linked (E ++ X) a b <-> linked E a b \/ linked X a b.
Proof.
  unfold linked. setoid_rewrite in_app_iff. split; [intros [i [H|H]]; eauto|intros [[i H]|[i H]]; eauto].
Qed.
Lemma linked_dec E a b : linked E a b \/ ~ linked E a b.
Proof.
  destruct (existsb (fun t => elem_eqb (fst (fst t)) (L a) && elem_eqb (snd (fst t)) (L b)) E) eqn:Ex.
  - left. apply existsb_exists in Ex as ([[x y] i] & Hi & Hb). apply andb_true_iff in Hb as [H1 H2].
    apply elem_eqb_eq in H1. apply elem_eqb_eq in H2. simpl in *. subst. exists i. auto.
  - right. intros [i Hi]. assert (Ht : existsb (fun t => elem_eqb (fst (fst t)) (L a) && elem_eqb (snd (fst t)) (L b)) E = true).
    { apply existsb_exists. exists (L a, L b, i). split; auto. cbn [fst snd].
      rewrite !(proj2 (elem_eqb_eq _ _) eq_refl). auto. }
    congruence.
Qed.
Lemma has_edge_linked g E a b : repr Vs g E -> has_edge g a b = true <-> linked E a b.
Proof. apply repr_has_edge. Qed.
Lemma has_edge_not_linked g E a b : repr Vs g E -> has_edge g a b = false <-> ~ linked E a b.
Proof. intros Hr. rewrite <- (has_edge_linked g E); auto. destruct (has_edge g a b); split; congruence. Qed.

Lemma target_app c a b l : target (c ++ [(a, b)]) l =
  match target c l with Some t => Some t | None => if lref_eqb a l then Some b else None end.
Proof. induction c as [|[s t] c IH]; simpl; auto. destruct (lref_eqb s l); auto. Qed.
Lemma target_in c l t : target c l = Some t -> In (l, t) c.
Proof.
  induction c as [|[s u] c IH]; simpl; [discriminate|]. destruct (lref_eqb s l) eqn:E.
  - apply lref_eqb_eq in E as ->. intros H. injection H as ->. auto.
  - auto.
Qed.
Lemma target_none c l : target c l = None <-> ~ In l (map fst c).
Proof.
  induction c as [|[s u] c IH]; simpl; [tauto|]. destruct (lref_eqb s l) eqn:E.
  - apply lref_eqb_eq in E. split; [discriminate|tauto].
  - apply lref_eqb_neq in E. rewrite IH. tauto.
Qed.
Lemma in_target c l t : NoDup (map fst c) -> In (l, t) c -> target c l = Some t.
Proof.
  induction c as [|[s u] c IH]; simpl; [tauto|]. intros Hn Hin. inversion Hn as [|? ? Hx Hn']; subst.
  destruct Hin as [Heq|Hin].
  - injection Heq as -> ->. rewrite (proj2 (lref_eqb_eq l l) eq_refl). auto.
  - destruct (lref_eqb s l) eqn:E; auto. apply lref_eqb_eq in E. subst. exfalso. apply Hx.
    change l with (fst (l, t)). apply in_map. auto.
Qed.

(** What [add_sideway] does. *)
Record side_step (s : side) (l : lref) (E : list triple) (c : collector) (done : list lref)
    (X : list triple) (c' : collector) : Prop := {
  ss_sound : forall t, In t X -> exists b k, t = (L l, L b, EInfo one k (adjacent s)) /\ In k ids /\
     In b done /\ candidate s l b /\ may_change ru l b = false /\ ~ linked E l b;
  ss_complete : forall b, In b done -> candidate s l b -> may_change ru l b = false -> ~ linked E l b ->
     forall k, In k ids -> In (L l, L b, EInfo one k (adjacent s)) X;
  ss_slots : NoDup (map slot X);
  ss_kept : target c l <> None -> c' = c;
  ss_collect : target c l = None -> c' = c \/ exists b, c' = c ++ [(l, b)] /\ In b done /\ candidate s l b /\
     may_change ru l b = true /\ ~ linked E l b;
  ss_collected : forall b, In b done -> candidate s l b -> may_change ru l b = true -> ~ linked E l b ->
     target c' l <> None }.

Lemma adjacent_flat s : flat (adjacent s).
Proof. unfold flat. destruct s; simpl; auto. Qed.

Lemma add_sideway_ok s g E c l g' c' : repr Vs g E -> In l V ->
  add_sideway one w ru costs s idx l (g, c) = Ok (g', c') ->
  exists X k, key_of w (first w (side_bound w s l)) (last w (side_bound w s l)) = Some k /\
    repr Vs g' (E ++ X) /\ side_step s l E c (equal_range idx k) X c'.
Proof.
  intros Hr Hl H. unfold add_sideway in H. apply bind_ok in H as (k & Hk & H).
  destruct (key_of _ _ _) as [k'|]; [|discriminate]. simpl in Hk. injection Hk as ->.
  cut (exists X, repr Vs g' (E ++ X) /\ side_step s l E c (equal_range idx k) X c').
  { intros (X & H1 & H2). exists X, k. auto. }
  pose (I := fun (done : list lref) (st : graph A * collector) =>
     exists X, repr Vs (fst st) (E ++ X) /\ side_step s l E c done X (snd st)).
  change (I (equal_range idx k) (g', c')).
  revert H. apply each_inv.
  2:{ exists []. rewrite app_nil_r. split; auto. constructor; simpl; try tauto; auto. constructor. }
  intros done b [g1 c1] st (rest & Hrest) (X & Hr1 & Hs) H. simpl in Hr1, Hs.
  assert (Hb : In b V). { apply in_range_V with k. rewrite Hrest. apply in_or_app. right. left. auto. }
  destruct (negb (lref_eqb l b) && negb (has_edge g1 l b) && beside w s b l) eqn:Hc.
  - apply andb_true_iff in Hc as [Hc Hbs]. apply andb_true_iff in Hc as [Hne Hhe].
    apply negb_true_iff in Hne. apply negb_true_iff in Hhe. apply lref_eqb_neq in Hne.
    apply (has_edge_not_linked _ _ _ _ Hr1) in Hhe. rewrite linked_app in Hhe.
    assert (Hcand : candidate s l b) by (unfold candidate; auto).
    destruct (may_change ru l b) eqn:Hm.
    + injection H as <-. exists X. simpl. split; auto. destruct Hs as [S1 S2 S3 S4 S5 S6]. constructor; auto.
      * intros t Ht. destruct (S1 t Ht) as (b' & k' & H1 & H2 & H3 & H4). exists b', k'. rewrite in_app_iff. auto.
      * intros b' Hd. rewrite in_app_iff in Hd. destruct Hd as [Hd|[<-|[]]]; [auto|congruence].
      * intros Ht. rewrite (S4 Ht). unfold collect. destruct (target c l); congruence.
      * intros Ht. unfold collect. destruct (S5 Ht) as [->|(b' & -> & Hb' & Hc' & Hm' & Hn')].
        -- rewrite Ht. right. exists b. rewrite in_app_iff. simpl. intuition.
        -- right. rewrite target_app, Ht, (proj2 (lref_eqb_eq l l) eq_refl). exists b'. rewrite in_app_iff. auto.
      * intros b' _ _ _ _. unfold collect. destruct (target c1 l) eqn:Et; [congruence|].
        rewrite target_app, Et, (proj2 (lref_eqb_eq l l) eq_refl). congruence.
    + apply bind_ok in H as (g2 & Ha & H). injection H as <-.
      eapply assign_ok in Ha; eauto. rewrite <- app_assoc in Ha.
      exists (X ++ batch (L l) (L b) (adjacent s)). simpl. split; auto. destruct Hs as [S1 S2 S3 S4 S5 S6].
      constructor; auto.
      * intros t Ht. apply in_app_or in Ht as [Ht|Ht].
        -- destruct (S1 t Ht) as (b' & k' & H1 & H2 & H3 & H4). exists b', k'. rewrite in_app_iff. auto.
        -- destruct t as [[x y] i]. apply in_flat_batch in Ht; [|apply adjacent_flat].
           destruct Ht as (-> & -> & _ & _ & k' & Hk' & ->). exists b, k'. rewrite in_app_iff. simpl. intuition.
      * intros b' Hd Hc' Hm' Hn' k' Hk'. rewrite in_app_iff in *. destruct Hd as [Hd|[<-|[]]]; [left; auto|].
        right. apply in_flat_batch; [apply adjacent_flat|]. rewrite !in_Vs. repeat split; auto. eauto.
      * rewrite map_app. apply nodup_app; auto. apply batch_slots.
        intros x Hx Hy. apply in_map_iff in Hx as (t & <- & Hx). apply in_map_iff in Hy as ([[a' b'] i] & Hy & Hz).
        apply in_batch in Hz as (-> & -> & _). unfold slot in Hy. simpl in Hy.
        destruct (S1 t Hx) as (b' & k' & -> & _). simpl in Hy. injection Hy as Hy1 Hy2 Hy3.
        assert (L b = L b') as Hbb by (unfold L; congruence). apply L_inj in Hbb. subst b'.
        apply Hhe. right. exists (EInfo one k' (adjacent s)). auto.
      * intros Ht. destruct (S5 Ht) as [->|(b' & -> & Hb' & Hc' & Hm' & Hn')]; auto.
        right. exists b'. rewrite in_app_iff. auto.
      * intros b' Hd. rewrite in_app_iff in Hd. destruct Hd as [Hd|[<-|[]]]; [eauto|congruence].
  - injection H as <-. exists X. simpl. split; auto. destruct Hs as [S1 S2 S3 S4 S5 S6].
    assert (Hno : candidate s l b -> linked (E ++ X) l b).
    { intros (_ & Hne & Hbs). apply (has_edge_linked g1); auto.
      apply lref_eqb_neq in Hne. rewrite Hne, Hbs in Hc. simpl in Hc. rewrite andb_true_r in Hc.
      apply negb_false_iff in Hc. auto. }
    constructor; auto.
    + intros t Ht. destruct (S1 t Ht) as (b' & k' & H1 & H2 & H3 & H4). exists b', k'. rewrite in_app_iff. auto.
    + intros b' Hd Hc' Hm' Hn' k' Hk'. rewrite in_app_iff in *. destruct Hd as [Hd|[<-|[]]]; [auto|].
      apply Hno, linked_app in Hc' as Hlk. destruct Hlk as [Hlk|[i Hi]]; [contradiction|].
      destruct (S1 _ Hi) as (b' & k2 & Heq & Hk2 & Hd2 & Hc2 & Hm2 & Hn2). injection Heq as Hq1 Hq2 Hq3.
      assert (L b = L b') as Hbb by (unfold L; congruence). apply L_inj in Hbb. subst b'. auto.
    + intros Ht. destruct (S5 Ht) as [->|(b' & -> & Hb' & Hc' & Hm' & Hn')]; auto.
      right. exists b'. rewrite in_app_iff. auto.
    + intros b' Hd Hc' Hm' Hn'. rewrite in_app_iff in *. destruct Hd as [Hd|[<-|[]]]; [eauto|].
      apply Hno, linked_app in Hc' as Hlk. destruct Hlk as [Hlk|[i Hi]]; [contradiction|].
      destruct (S1 _ Hi) as (b' & k2 & Heq & Hk2 & Hd2 & Hc2 & Hm2 & Hn2). injection Heq as Hq1 Hq2 Hq3.
      assert (L b = L b') as Hbb by (unfold L; congruence). apply L_inj in Hbb. subst b'. congruence.
Qed.

(** * Conflicts *)
Record conf_step (l : lref) (E : list triple) (done : list N) (X : list triple) : Prop := {
  cs_sound : forall t, In t X -> exists b k, In k ids /\
     (t = (L l, L b, EInfo one k Conflicting) \/ t = (L b, L l, EInfo one k Conflicting)) /\
     In b V /\ In (fst b) done /\
     ((b = inv l /\ snd l = false /\ is_both_ways w ru l = true) \/
      (snd b = false /\ b <> l /\ overlaps w l b = true /\ ~ linked E l b));
  cs_complete : forall d, In d done -> In (d, false) V -> (d, false) <> l -> overlaps w l (d, false) = true ->
     ~ linked E l (d, false) -> forall k, In k ids ->
     In (L l, L (d, false), EInfo one k Conflicting) X /\ In (L (d, false), L l, EInfo one k Conflicting) X;
  cs_inv : is_both_ways w ru l = true -> snd l = false -> In (fst l) done -> forall k, In k ids ->
     In (L l, L (inv l), EInfo one k Conflicting) X /\ In (L (inv l), L l, EInfo one k Conflicting) X;
  cs_slots : NoDup (map slot X) }.

Lemma is_both_ways_inv l : snd l = false -> is_both_ways w ru l = true -> In (inv l) V.
Proof.
  intros Hs Hb. unfold is_both_ways in Hb. apply existsb_exists in Hb as (m & Hm & He). apply N.eqb_eq in He.
  assert (m = l) as ->.
  { unfold both_ways, passable in Hm. apply filter_In in Hm as [Hm _]. apply filter_In in Hm as [Hm _].
    apply in_map_iff in Hm as (d & <- & _). destruct l as [d' i]. simpl in *. subst. auto. }
  unfold vertices. apply in_or_app. right. apply in_map. auto.
Qed.

Lemma conf_flat : flat Conflicting.
Proof. unfold flat. auto. Qed.

Lemma add_conflicting_ok g E l g' : repr Vs g E -> In l V -> NoDup (w_near w (L l)) ->
  add_conflicting one w ru costs g l = Ok g' ->
  exists X, repr Vs g' (E ++ X) /\ conf_step l E (w_near w (L l)) X.
Proof.
  intros Hr Hl Hnd H. unfold add_conflicting in H.
  pose (I := fun (done : list N) g => exists X, repr Vs g (E ++ X) /\ conf_step l E done X).
  change (I (w_near w (L l)) g'). revert H. apply each_inv.
  2:{ exists []. rewrite app_nil_r. split; auto. constructor; simpl; try tauto. constructor. }
  intros done d g1 g2 (rest & Hrest) (X & Hr1 & Hs) H.
  assert (Hfresh : ~ In d done).
  { rewrite Hrest in Hnd. apply NoDup_remove in Hnd as [_ Hn]. rewrite in_app_iff in Hn. tauto. }
  (* adding both directions between l and b *)
  assert (Hadd : forall b, In b V -> fst b = d -> b <> l ->
     ((b = inv l /\ snd l = false /\ is_both_ways w ru l = true) \/
      (snd b = false /\ b <> l /\ overlaps w l b = true /\ ~ linked E l b)) ->
     bind (assign_costs one costs g1 (L l) (L b) Conflicting)
        (fun g' => assign_costs one costs g' (L b) (L l) Conflicting) = Ok g2 ->
     exists X', repr Vs g2 (E ++ X ++ X') /\ NoDup (map slot (X ++ X')) /\
       (forall t, In t X' <-> exists k, In k ids /\
         (t = (L l, L b, EInfo one k Conflicting) \/ t = (L b, L l, EInfo one k Conflicting)))).
  { intros b Hb Hd Hne Hwhy Ha. apply bind_ok in Ha as (g3 & Ha & Hb').
    eapply assign_ok in Ha; eauto. eapply assign_ok in Hb'; eauto. rewrite <- !app_assoc in Hb'.
    exists (batch (L l) (L b) Conflicting ++ batch (L b) (L l) Conflicting). split; [auto|].
    assert (Hin : forall t, In t (batch (L l) (L b) Conflicting ++ batch (L b) (L l) Conflicting) <->
       exists k, In k ids /\ (t = (L l, L b, EInfo one k Conflicting) \/ t = (L b, L l, EInfo one k Conflicting))).
    { intros [[x y] i]. rewrite in_app_iff, !in_flat_batch by apply conf_flat. rewrite !in_Vs. split.
      - intros [(-> & -> & _ & _ & k & Hk & ->)|(-> & -> & _ & _ & k & Hk & ->)]; eauto.
      - intros (k & Hk & [Heq|Heq]); inversion Heq; subst; eauto 10. }
    split; [|exact Hin]. rewrite map_app. apply nodup_app; [apply Hs| |].
    - rewrite map_app. apply nodup_app; try apply batch_slots. intros x Hx Hy.
      apply in_map_iff in Hx as ([[a1 b1] i1] & <- & Hx). apply in_batch in Hx as (-> & -> & _).
      apply in_map_iff in Hy as ([[a2 b2] i2] & Heq & Hy). apply in_batch in Hy as (-> & -> & _).
      apply Hne. apply L_inj. unfold slot in Heq. injection Heq. intros. unfold L. congruence.
    - intros x Hx Hy. apply in_map_iff in Hx as (t & <- & Hx). apply in_map_iff in Hy as (t' & Heq & Hy).
      apply Hin in Hy as (k & _ & Ht').
      destruct (cs_sound _ _ _ _ Hs t Hx) as (b' & k' & _ & Ht & _ & Hd' & Hw').
      assert (Hne' : b' <> l). { destruct Hw' as [(-> & _)|(_ & Hn & _)]; auto. apply inv_neq. }
      apply Hfresh. subst d. replace b with b'; auto. apply L_inj.
      destruct Ht as [-> | ->], Ht' as [-> | ->]; unfold slot in Heq; cbn [fst snd] in Heq; inversion Heq;
        try (exfalso; apply Hne'; apply L_inj; unfold L; congruence);
        try (exfalso; apply Hne; apply L_inj; unfold L; congruence); unfold L; congruence. }
  (* the result of adding a pair *)
  assert (Hpair : forall b, In b V -> fst b = d -> b <> l ->
     ((b = inv l /\ snd l = false /\ is_both_ways w ru l = true) \/
      (snd b = false /\ b <> l /\ overlaps w l b = true /\ ~ linked E l b)) ->
     (is_both_ways w ru l = true -> snd l = false -> fst l = d -> b = inv l) ->
     ((d, false) <> l -> In (d, false) V -> overlaps w l (d, false) = true -> ~ linked E l (d, false) -> b = (d, false)) ->
     bind (assign_costs one costs g1 (L l) (L b) Conflicting)
        (fun g' => assign_costs one costs g' (L b) (L l) Conflicting) = Ok g2 ->
     I (done ++ [d]) g2).
  { intros b Hb Hd Hne Hwhy Hi Hc Ha. destruct (Hadd b Hb Hd Hne Hwhy Ha) as (X' & Hr' & Hn' & Hin').
    exists (X ++ X'). split; auto. destruct Hs as [S1 S2 S3 S4]. constructor; auto.
    - intros t Ht. apply in_app_or in Ht as [Ht|Ht].
      + destruct (S1 t Ht) as (b' & k & H1 & H2 & H3 & H4 & H5). exists b', k. rewrite in_app_iff. auto 10.
      + apply Hin' in Ht as (k & Hk & Ht). exists b, k. rewrite in_app_iff. simpl. auto 10.
    - intros d' Hd' Hv Hn Ho Hlk k Hk. rewrite !in_app_iff in *. destruct Hd' as [Hd'|[<-|[]]].
      + destruct (S2 d' Hd' Hv Hn Ho Hlk k Hk). auto.
      + rewrite <- (Hc Hn Hv Ho Hlk), !Hin'. split; right; eauto.
    - intros Hbw Hsl Hd' k Hk. rewrite !in_app_iff in *. destruct Hd' as [Hd'|[Hd'|[]]].
      + destruct (S3 Hbw Hsl Hd' k Hk). auto.
      + rewrite <- (Hi Hbw Hsl (eq_sym Hd')), !Hin'. split; right; eauto. }
  destruct (is_both_ways w ru l && lref_eqb (d, false) l) eqn:Hcase.
  - apply andb_true_iff in Hcase as [Hbw Heq]. apply lref_eqb_eq in Heq. subst l.
    apply (Hpair (inv (d, false))); auto.
    + apply is_both_ways_inv; auto.
    + apply inv_neq.
    + congruence.
  - (* nothing added *)
    assert (Hnone : g2 = g1 -> ((d, false) <> l -> In (d, false) V -> overlaps w l (d, false) = true ->
        linked (E ++ X) l (d, false)) -> I (done ++ [d]) g2).
    { intros -> Hno. exists X. split; auto. destruct Hs as [S1 S2 S3 S4]. constructor; auto.
      - intros t Ht. destruct (S1 t Ht) as (b' & k & H1 & H2 & H3 & H4 & H5). exists b', k. rewrite in_app_iff. auto 10.
      - intros d' Hd' Hv Hn Ho Hlk k Hk. rewrite in_app_iff in Hd'. destruct Hd' as [Hd'|[<-|[]]]; [auto|].
        exfalso. apply Hno, linked_app in Hv; auto. destruct Hv as [Hv|[i Hi]]; [contradiction|].
        destruct (S1 _ Hi) as (b' & k' & _ & Ht & _ & Hd' & Hw').
        assert (b' = (d, false)) as ->.
        { destruct Ht as [Ht|Ht]; injection Ht; intros; [|exfalso; apply Hn]; apply L_inj; unfold L; simpl; congruence. }
        simpl in Hd'. contradiction.
      - intros Hbw Hsl Hd' k Hk. rewrite in_app_iff in Hd'. destruct Hd' as [Hd'|[Hd'|[]]]; [auto|].
        exfalso. rewrite Hbw in Hcase. simpl in Hcase. apply lref_eqb_neq in Hcase. apply Hcase.
        destruct l as [d' i]. simpl in *. subst. auto. }
    destruct (has_edge g1 l (d, false)) eqn:Hhe.
    { injection H as <-. apply Hnone; auto. intros _ _ _. apply (has_edge_linked g1); auto. }
    destruct (get_vertex g1 (L (d, false))) as [v|] eqn:Hv.
    2:{ simpl in H. injection H as <-. apply Hnone; auto. intros _ Hin _. exfalso.
        apply in_Vs in Hin. apply (repr_known _ _ _ _ Hr1) in Hin as [v Hin]. congruence. }
    assert (Hin : In (d, false) V). { apply in_Vs. apply (repr_known _ _ _ _ Hr1). eauto. }
    simpl in H. destruct (lref_eqb (d, false) l) eqn:Heq.
    { injection H as <-. apply Hnone; auto. apply lref_eqb_eq in Heq. congruence. }
    apply lref_eqb_neq in Heq.
    destruct (overlaps w l (d, false)) eqn:Ho.
    2:{ injection H as <-. apply Hnone; auto. congruence. }
    apply (has_edge_not_linked _ _ _ _ Hr1) in Hhe. rewrite linked_app in Hhe.
    apply (Hpair (d, false)); auto.
    + right. repeat split; auto.
    + intros Hbw Hsl Hfd. exfalso. apply Heq. destruct l as [d' i]. simpl in *. subst. auto.
Qed.

(** * The loop over the lanelets *)
Definition slk (a b : lref) : Prop := linked (succ_of a) a b.
Definition is_succ (t : triple) : bool := relation_eqb (ei_rel (snd t)) Successor.
Definition conflict (a b : lref) (k : N) : triple := (L a, L b, EInfo one k Conflicting).

Record state (P : list lref) (E : list triple) (cs : side -> collector) : Prop := {
  st_rel : forall t, In t E -> In (ei_rel (snd t)) [Successor; AdjacentLeft; AdjacentRight; Conflicting];
  st_succ : filter is_succ E = flat_map succ_of P;
  st_side_sound : forall s x y c k, In (x, y, EInfo c k (adjacent s)) E -> exists a b, x = L a /\ y = L b /\
      c = one /\ In k ids /\ In a P /\ candidate s a b /\ may_change ru a b = false /\ ~ slk a b;
  st_side_complete : forall s a b k, In a P -> candidate s a b -> may_change ru a b = false -> ~ slk a b ->
      (s = SRight -> ~ candidate SLeft a b) -> In k ids -> In (L a, L b, EInfo one k (adjacent s)) E;
  st_conf_sound : forall x y c k, In (x, y, EInfo c k Conflicting) E -> exists a b, x = L a /\ y = L b /\
      c = one /\ In k ids /\ In a V /\ In b V /\ a <> b /\
      ((fst a = fst b /\ exists p, In p P /\ fst p = fst a) \/
       (fst a <> fst b /\ overlaps w a b = true /\ (snd a = false \/ snd b = false)));
  st_conf_sym : forall x y c k, In (x, y, EInfo c k Conflicting) E -> forall k', In k' ids ->
      In (x, y, EInfo one k' Conflicting) E /\ In (y, x, EInfo one k' Conflicting) E;
  st_conf_complete : forall a d k, In a P -> In d (w_near w (L a)) -> In (d, false) V -> fst a <> d ->
      overlaps w a (d, false) = true -> In k ids ->
      In (conflict a (d, false) k) E /\ In (conflict (d, false) a k) E;
  st_conf_inv : forall a k, In a P -> snd a = false -> is_both_ways w ru a = true -> In (fst a) (w_near w (L a)) ->
      In k ids -> In (conflict a (inv a) k) E /\ In (conflict (inv a) a k) E;
  st_keys : forall s, NoDup (map fst (cs s));
  st_coll_sound : forall s a b, In (a, b) (cs s) -> In a P /\ candidate s a b /\ may_change ru a b = true /\ ~ slk a b;
  st_coll_complete : forall s a b, In a P -> candidate s a b -> may_change ru a b = true -> ~ slk a b ->
      target (cs s) a <> None;
  st_slots : NoDup (map slot (filter (fun t => negb (is_succ t)) E)) }.

Hypothesis meet_sym : forall a b, w_meet w a b = w_meet w b a.
Hypothesis near_once : forall l, NoDup (w_near w (L l)).
Hypothesis V_once : NoDup V.
Hypothesis V_anchored : forall l, In l V -> anchored w l.

Lemma filter_all {T} (f : T -> bool) l : (forall x, In x l -> f x = true) -> filter f l = l.
Proof.
  induction l as [|x l IH]; simpl; auto. intros H. rewrite (H x) by auto. f_equal. auto.
Qed.
Lemma filter_none {T} (f : T -> bool) l : (forall x, In x l -> f x = false) -> filter f l = [].
Proof.
  induction l as [|x l IH]; simpl; auto. intros H. rewrite (H x) by auto. auto.
Qed.
Lemma in_succ_rel t l : In t (succ_of l) -> ei_rel (snd t) = Successor.
Proof.
  destruct t as [[x y] i]. intros H. apply in_succ_of in H as (n & _ & _ & _ & H).
  apply in_batch in H as (_ & _ & _ & _ & km & _ & -> & _). auto.
Qed.
Lemma state_succ_in P E cs t : state P E cs -> In t E -> ei_rel (snd t) = Successor ->
  exists p, In p P /\ In t (succ_of p).
Proof.
  intros Hs Hin Hr. apply in_flat_map. rewrite <- (st_succ _ _ _ Hs). apply filter_In. split; auto.
  unfold is_succ. rewrite Hr. auto.
Qed.
Lemma succ_follows t p : In t (succ_of p) -> exists n, fst (fst t) = L p /\ snd (fst t) = L n /\
  follows w p n = true /\ may_pass ru (L p) (L n) = true /\ In n V.
Proof.
  destruct t as [[x y] i]. intros H. apply in_succ_of in H as (n & -> & -> & Hn & _).
  apply in_followers in Hn as (? & ? & ?). exists n. auto.
Qed.
Lemma slk_follows a b : slk a b -> follows w a b = true /\ may_pass ru (L a) (L b) = true.
Proof.
  intros [i Hi]. apply succ_follows in Hi as (n & _ & Hn & Hf & Hp & _). simpl in Hn. apply L_inj in Hn. subst. auto.
Qed.

Lemma state_init : state [] [] (fun _ => []).
Proof. constructor; simpl; try tauto; intros; try constructor; tauto. Qed.

(** Before l is treated, it has no edge to a lanelet beside it. *)
Lemma no_link_yet P E cs l s b : state P E cs -> ~ In l P -> candidate s l b -> ~ linked E l b.
Proof.
  intros Hs Hl (Hb & Hne & Hbs) [i Hi]. destruct (beside_no_overlap w s l b Hne Hbs) as (Hd & Ho & Ho').
  pose proof (st_rel _ _ _ Hs _ Hi) as Hrel. simpl in Hrel. destruct i as [c k r]. simpl in Hrel.
  destruct Hrel as [<-|[<-|[<-|[<-|[]]]]].
  - apply (state_succ_in _ _ _ _ Hs) in Hi as (p & Hp & Hi); [|reflexivity].
    apply succ_follows in Hi as (n & Hq & _). simpl in Hq. apply L_inj in Hq. subst. auto.
  - apply (st_side_sound _ _ _ Hs SLeft) in Hi as (a' & b' & Ha & _ & _ & _ & Hp & _). apply L_inj in Ha. subst. auto.
  - apply (st_side_sound _ _ _ Hs SRight) in Hi as (a' & b' & Ha & _ & _ & _ & Hp & _). apply L_inj in Ha. subst. auto.
  - apply (st_conf_sound _ _ _ Hs) in Hi as (a' & b' & Ha & Hb' & _ & _ & _ & _ & _ & Hw).
    apply L_inj in Ha. apply L_inj in Hb'. subst. destruct Hw as [(Hw & _)|(_ & Hw & _)]; congruence.
Qed.

Lemma nodup_filter_app E X : NoDup (map slot (filter (fun t => negb (is_succ t)) E)) -> NoDup (map slot X) ->
  (forall t t', In t E -> In t' X -> ei_rel (snd t) <> Successor -> slot t = slot t' -> False) ->
  NoDup (map slot (filter (fun t => negb (is_succ t)) (E ++ X))).
Proof.
  intros H1 H2 Hd. rewrite filter_app, map_app. apply nodup_app; auto.
  - clear -H2. induction X as [|t X IH]; simpl; auto. inversion H2; subst. destruct (negb (is_succ t)); simpl; auto.
    constructor; auto. intros Hin. apply H1. apply in_map_iff in Hin as (t' & <- & Hin). apply filter_In in Hin as [Hin _].
    apply in_map. auto.
  - intros x Hx Hy. apply in_map_iff in Hx as (t & <- & Hx). apply filter_In in Hx as [Hx Hn].
    apply in_map_iff in Hy as (t' & Heq & Hy). apply filter_In in Hy as [Hy _]. symmetry in Heq.
    apply (Hd t t'); auto. intros Hr. unfold is_succ in Hn. rewrite Hr in Hn. discriminate.
Qed.

Lemma state_step P E cs l E1 cl cr : state P E cs -> In l V -> ~ In l P ->
  (forall p, In p P -> snd p = true -> snd l = true) ->
  forall X1 X2 X3 k1 k2,
  side_step SLeft l (E ++ succ_of l) (cs SLeft) (equal_range idx k1) X1 cl ->
  key_of w (first w (side_bound w SLeft l)) (last w (side_bound w SLeft l)) = Some k1 ->
  side_step SRight l ((E ++ succ_of l) ++ X1) (cs SRight) (equal_range idx k2) X2 cr ->
  key_of w (first w (side_bound w SRight l)) (last w (side_bound w SRight l)) = Some k2 ->
  conf_step l (((E ++ succ_of l) ++ X1) ++ X2) (w_near w (L l)) X3 ->
  E1 = (((E ++ succ_of l) ++ X1) ++ X2) ++ X3 ->
  state (P ++ [l]) E1 (fun s => match s with SLeft => cl | SRight => cr end).
Proof.
  intros Hst Hl HlP Hord X1 X2 X3 k1 k2 HL Hk1 HR Hk2 HC ->.
  (* links of l before the steps *)
  assert (LkL : forall b, candidate SLeft l b -> linked (E ++ succ_of l) l b <-> slk l b).
  { intros b Hc. rewrite linked_app. pose proof (no_link_yet P E cs l SLeft b Hst HlP Hc). unfold slk. tauto. }
  assert (LkR : forall b, candidate SRight l b -> linked ((E ++ succ_of l) ++ X1) l b <->
      slk l b \/ linked X1 l b).
  { intros b Hc. rewrite !linked_app. pose proof (no_link_yet P E cs l SRight b Hst HlP Hc). unfold slk. tauto. }
  assert (X1L : forall b, linked X1 l b -> candidate SLeft l b /\ may_change ru l b = false).
  { intros b [i Hi]. destruct (ss_sound _ _ _ _ _ _ _ HL _ Hi) as (b' & k' & Heq & _ & _ & Hc & Hm & _).
    injection Heq as Hq1 Hq2 Hq3. assert (b' = b) as -> by (apply L_inj; unfold L; congruence). auto. }
  assert (HS1 : forall t, In t X1 -> ei_rel (snd t) = AdjacentLeft).
  { intros t Ht. destruct (ss_sound _ _ _ _ _ _ _ HL _ Ht) as (? & ? & -> & _). auto. }
  assert (HS2 : forall t, In t X2 -> ei_rel (snd t) = AdjacentRight).
  { intros t Ht. destruct (ss_sound _ _ _ _ _ _ _ HR _ Ht) as (? & ? & -> & _). auto. }
  assert (HS3 : forall t, In t X3 -> ei_rel (snd t) = Conflicting).
  { intros t Ht. destruct (cs_sound _ _ _ _ HC _ Ht) as (? & ? & _ & [-> | ->] & _); auto. }
  assert (HS0 : forall t, In t (succ_of l) -> ei_rel (snd t) = Successor) by (intros t; apply in_succ_rel).
  assert (Hcand1 : forall b, candidate SLeft l b -> In b (equal_range idx k1)).
  { intros b (Hb & Hne & Hbs). eapply beside_found; eauto. }
  assert (Hcand2 : forall b, candidate SRight l b -> In b (equal_range idx k2)).
  { intros b (Hb & Hne & Hbs). eapply beside_found; eauto. }
  assert (HinE : forall t, In t ((((E ++ succ_of l) ++ X1) ++ X2) ++ X3) <->
     In t E \/ In t (succ_of l) \/ In t X1 \/ In t X2 \/ In t X3).
  { intros t. rewrite !in_app_iff. tauto. }
  (* no old edge of l to a lanelet that is about to become a conflict of l *)
  assert (NoConf : forall b, In b V -> b <> l -> fst b <> fst l -> overlaps w l b = true ->
     linked (((E ++ succ_of l) ++ X1) ++ X2) l b -> forall k, In k ids -> In (conflict l b k) E /\ In (conflict b l k) E).
  { intros b Hb Hne Hd Ho Hlk k Hk. rewrite !linked_app in Hlk.
    assert (Hno : forall s, ~ beside w s b l = true).
    { intros s Hbs. destruct (beside_no_overlap w s l b (not_eq_sym Hne) Hbs) as (_ & Ho' & _). congruence. }
    destruct Hlk as [[[[i Hi]|[i Hi]]|[i Hi]]|[i Hi]].
    - pose proof (st_rel _ _ _ Hst _ Hi) as Hrel. destruct i as [c k' r]. simpl in Hrel.
      destruct Hrel as [<-|[<-|[<-|[<-|[]]]]].
      + apply (state_succ_in _ _ _ _ Hst) in Hi as (p & Hp & Hi); [|reflexivity].
        apply succ_follows in Hi as (n & Hq & Hq' & Hf & _). simpl in Hq, Hq'. apply L_inj in Hq. apply L_inj in Hq'.
        subst p n. apply follows_no_overlap in Hf; [|auto]. destruct Hf. congruence.
      + apply (st_side_sound _ _ _ Hst SLeft) in Hi as (a' & b' & Ha & Hb' & _ & _ & _ & (_ & _ & Hbs) & _).
        apply L_inj in Ha. apply L_inj in Hb'. subst. exfalso. eapply Hno; eauto.
      + apply (st_side_sound _ _ _ Hst SRight) in Hi as (a' & b' & Ha & Hb' & _ & _ & _ & (_ & _ & Hbs) & _).
        apply L_inj in Ha. apply L_inj in Hb'. subst. exfalso. eapply Hno; eauto.
      + eapply (st_conf_sym _ _ _ Hst); eauto.
    - apply succ_follows in Hi as (n & _ & Hq' & Hf & _). simpl in Hq'. apply L_inj in Hq'. subst n.
      apply follows_no_overlap in Hf; [|auto]. destruct Hf. congruence.
    - destruct (ss_sound _ _ _ _ _ _ _ HL _ Hi) as (b' & k' & Heq & _ & _ & (_ & _ & Hbs) & _).
      injection Heq as Hq1 Hq2 Hq3. assert (b' = b) as -> by (apply L_inj; unfold L; congruence).
      exfalso. eapply Hno; eauto.
    - destruct (ss_sound _ _ _ _ _ _ _ HR _ Hi) as (b' & k' & Heq & _ & _ & (_ & _ & Hbs) & _).
      injection Heq as Hq1 Hq2 Hq3. assert (b' = b) as -> by (apply L_inj; unfold L; congruence).
      exfalso. eapply Hno; eauto. }
  assert (InX3 : forall x y c k, In (x, y, EInfo c k Conflicting) X3 -> exists b, c = one /\ In k ids /\
     ((x = L l /\ y = L b) \/ (x = L b /\ y = L l)) /\ In b V /\ In (fst b) (w_near w (L l)) /\
     ((b = inv l /\ snd l = false /\ is_both_ways w ru l = true) \/
      (snd b = false /\ b <> l /\ overlaps w l b = true /\ ~ linked (((E ++ succ_of l) ++ X1) ++ X2) l b))).
  { intros x y c k Hi. destruct (cs_sound _ _ _ _ HC _ Hi) as (b & k' & Hk & Heq & Hb & Hn & Hw).
    exists b. destruct Heq as [Heq|Heq]; inversion Heq; subst; auto 10. }
  constructor.
  - intros t Ht. apply HinE in Ht as [Ht|[Ht|[Ht|[Ht|Ht]]]].
    + eapply st_rel; eauto.
    + rewrite (HS0 t Ht). simpl. auto.
    + rewrite (HS1 t Ht). simpl. auto.
    + rewrite (HS2 t Ht). simpl. auto.
    + rewrite (HS3 t Ht). simpl. auto.
  - rewrite flat_map_app, !filter_app, (st_succ _ _ _ Hst). simpl. rewrite app_nil_r.
    rewrite (filter_all is_succ (succ_of l)), !(filter_none is_succ), !app_nil_r; auto; unfold is_succ; intros t Ht.
    + rewrite (HS3 t Ht). auto.
    + rewrite (HS2 t Ht). auto.
    + rewrite (HS1 t Ht). auto.
    + rewrite (HS0 t Ht). auto.
  - intros s x y c k Hi. apply HinE in Hi as [Hi|[Hi|[Hi|[Hi|Hi]]]].
    + destruct (st_side_sound _ _ _ Hst _ _ _ _ _ Hi) as (a & b & ? & ? & ? & ? & ? & ?).
      exists a, b. rewrite in_app_iff. auto 10.
    + apply HS0 in Hi. destruct s; discriminate.
    + pose proof (HS1 _ Hi) as Hr. destruct s; [|discriminate].
      destruct (ss_sound _ _ _ _ _ _ _ HL _ Hi) as (b & k' & Heq & Hk & _ & Hc & Hm & Hn).
      inversion Heq; subst. exists l, b. rewrite in_app_iff. simpl. rewrite <- (LkL b Hc). auto 10.
    + pose proof (HS2 _ Hi) as Hr. destruct s; [discriminate|].
      destruct (ss_sound _ _ _ _ _ _ _ HR _ Hi) as (b & k' & Heq & Hk & _ & Hc & Hm & Hn).
      inversion Heq; subst. exists l, b. rewrite in_app_iff. simpl. rewrite (LkR b Hc) in Hn. intuition.
    + apply HS3 in Hi. destruct s; discriminate.
  - intros s a b k Ha Hc Hm Hn Hs Hk. apply HinE. apply in_app_iff in Ha as [Ha|[<-|[]]].
    + left. eapply st_side_complete; eauto.
    + destruct s.
      * right. right. left. apply (ss_complete _ _ _ _ _ _ _ HL); auto. rewrite LkL; auto.
      * right. right. right. left. apply (ss_complete _ _ _ _ _ _ _ HR); auto. rewrite LkR by auto.
        intros [H|H]; [auto|]. apply X1L in H as [H _]. apply (Hs eq_refl); auto.
  - intros x y c k Hi. apply HinE in Hi as [Hi|[Hi|[Hi|[Hi|Hi]]]].
    + destruct (st_conf_sound _ _ _ Hst _ _ _ _ Hi) as (a & b & H1 & H2 & H3 & H4 & H5 & H6 & H7 & H8).
      exists a, b. do 7 (split; [assumption|]).
      destruct H8 as [(H8 & p & Hp & Hf)|H8]; auto. left. split; auto. exists p. rewrite in_app_iff. auto.
    + apply HS0 in Hi. discriminate.
    + apply HS1 in Hi. discriminate.
    + apply HS2 in Hi. discriminate.
    + apply InX3 in Hi as (b & -> & Hk & Hxy & Hb & Hnear & Hw).
      assert (Hbl : b <> l). { destruct Hw as [(-> & _)|(_ & H & _)]; auto. apply inv_neq. }
      assert (Hwhy : fst l = fst b \/ (fst l <> fst b /\ overlaps w l b = true /\ snd b = false)).
      { destruct Hw as [(-> & _)|(Hsb & _ & Ho & _)]; [left; auto|].
        destruct (N.eq_dec (fst l) (fst b)); auto. }
      assert (Hl' : In l (P ++ [l])) by (apply in_app_iff; simpl; auto).
      destruct Hxy as [(-> & ->)|(-> & ->)]; [exists l, b|exists b, l]; do 7 (split; [auto|]).
      * destruct Hwhy as [Hf|(Hf & Ho & Hsb)]; [left; split; eauto|right; auto].
      * destruct Hwhy as [Hf|(Hf & Ho & Hsb)]; [left; split; eauto|right].
        rewrite overlaps_sym; auto.
  - intros x y c k Hi k' Hk'. rewrite !HinE. apply HinE in Hi as [Hi|[Hi|[Hi|[Hi|Hi]]]].
    + destruct (st_conf_sym _ _ _ Hst _ _ _ _ Hi k' Hk'). auto.
    + apply HS0 in Hi. discriminate.
    + apply HS1 in Hi. discriminate.
    + apply HS2 in Hi. discriminate.
    + apply InX3 in Hi as (b & -> & Hk & Hxy & Hb & Hnear & Hw).
      assert (Hboth : In (L l, L b, EInfo one k' Conflicting) X3 /\ In (L b, L l, EInfo one k' Conflicting) X3).
      { destruct Hw as [(-> & Hsl & Hbw)|(Hsb & Hne & Ho & Hn)].
        - apply (cs_inv _ _ _ _ HC); auto.
        - destruct b as [d i]. simpl in Hsb, Hnear. subst i. apply (cs_complete _ _ _ _ HC); auto. }
      destruct Hxy as [(-> & ->)|(-> & ->)]; tauto.
  - intros a d k Ha Hd Hv Hf Ho Hk. rewrite !HinE. apply in_app_iff in Ha as [Ha|[<-|[]]].
    + destruct (st_conf_complete _ _ _ Hst a d k Ha Hd Hv Hf Ho Hk). auto.
    + assert (Hne : (d, false) <> l) by (intros <-; auto).
      destruct (linked_dec (((E ++ succ_of l) ++ X1) ++ X2) l (d, false)) as [Hlk|Hlk].
      * assert (Hf' : fst (d, false) <> fst l) by auto.
        destruct (NoConf (d, false) Hv Hne Hf' Ho Hlk k Hk). auto.
      * destruct (cs_complete _ _ _ _ HC d Hd Hv Hne Ho Hlk k Hk). unfold conflict. auto 10.
  - intros a k Ha Hsa Hbw Hd Hk. rewrite !HinE. apply in_app_iff in Ha as [Ha|[<-|[]]].
    + destruct (st_conf_inv _ _ _ Hst a k Ha Hsa Hbw Hd Hk). auto.
    + destruct (cs_inv _ _ _ _ HC Hbw Hsa Hd k Hk). unfold conflict. auto 10.
  - intros s. assert (Hcoll : forall s c', (target (cs s) l <> None -> c' = cs s) ->
       (target (cs s) l = None -> c' = cs s \/ exists b, c' = cs s ++ [(l, b)]) -> NoDup (map fst c')).
    { clear s. intros s c' Hkept Hc. pose proof (st_keys _ _ _ Hst s) as Hn.
      destruct (target (cs s) l) eqn:Et.
      - rewrite Hkept; auto. congruence.
      - destruct (Hc eq_refl) as [->|(b & ->)]; auto. rewrite map_app. apply nodup_app; auto.
        + simpl. constructor; simpl; auto. constructor.
        + simpl. intros x Hx [<-|[]]. apply target_none in Et. auto. }
    destruct s.
    + apply (Hcoll SLeft). apply (ss_kept _ _ _ _ _ _ _ HL). intros Ht.
      destruct (ss_collect _ _ _ _ _ _ _ HL Ht) as [->|(b & -> & _)]; eauto.
    + apply (Hcoll SRight). apply (ss_kept _ _ _ _ _ _ _ HR). intros Ht.
      destruct (ss_collect _ _ _ _ _ _ _ HR Ht) as [->|(b & -> & _)]; eauto.
  - intros s a b Hin. assert (Hcase : In (a, b) (cs s) \/
       (a = l /\ candidate s l b /\ may_change ru l b = true /\ ~ slk l b)).
    { destruct s.
      - destruct (target (cs SLeft) l) eqn:Et.
        + rewrite (ss_kept _ _ _ _ _ _ _ HL) in Hin; auto. congruence.
        + destruct (ss_collect _ _ _ _ _ _ _ HL Et) as [->|(b' & -> & _ & Hc & Hm & Hn)]; auto.
          apply in_app_iff in Hin as [Hin|[Heq|[]]]; auto. inversion Heq; subst. right.
          rewrite (LkL b Hc) in Hn. auto.
      - destruct (target (cs SRight) l) eqn:Et.
        + rewrite (ss_kept _ _ _ _ _ _ _ HR) in Hin; auto. congruence.
        + destruct (ss_collect _ _ _ _ _ _ _ HR Et) as [->|(b' & -> & _ & Hc & Hm & Hn)]; auto.
          apply in_app_iff in Hin as [Hin|[Heq|[]]]; auto. inversion Heq; subst. right.
          rewrite (LkR b Hc) in Hn. tauto. }
    rewrite in_app_iff. destruct Hcase as [Hc|(-> & Hc & Hm & Hn)].
    + destruct (st_coll_sound _ _ _ Hst s a b Hc) as (H1 & H2 & H3 & H4). auto.
    + simpl. auto.
  - intros s a b Ha Hc Hm Hn.
    assert (Hmono : forall s c', (target (cs s) l <> None -> c' = cs s) ->
       (target (cs s) l = None -> c' = cs s \/ exists b, c' = cs s ++ [(l, b)]) ->
       target (cs s) a <> None -> target c' a <> None).
    { clear s b Ha Hc Hm Hn. intros s c' Hkept Hc Ha. destruct (target (cs s) l) eqn:Et.
      - rewrite Hkept; auto. congruence.
      - destruct (Hc eq_refl) as [->|(b & ->)]; auto. rewrite target_app. destruct (target (cs s) a); congruence. }
    apply in_app_iff in Ha as [Ha|[<-|[]]].
    + pose proof (st_coll_complete _ _ _ Hst s a b Ha Hc Hm Hn) as Ht. destruct s.
      * apply (Hmono SLeft); auto. apply (ss_kept _ _ _ _ _ _ _ HL). intros Hx.
        destruct (ss_collect _ _ _ _ _ _ _ HL Hx) as [->|(b' & -> & _)]; eauto.
      * apply (Hmono SRight); auto. apply (ss_kept _ _ _ _ _ _ _ HR). intros Hx.
        destruct (ss_collect _ _ _ _ _ _ _ HR Hx) as [->|(b' & -> & _)]; eauto.
    + destruct s.
      * apply (ss_collected _ _ _ _ _ _ _ HL b); auto. rewrite LkL; auto.
      * apply (ss_collected _ _ _ _ _ _ _ HR b); auto. rewrite LkR by auto. intros [H|H]; auto.
        apply X1L in H as [_ H]. congruence.
  - assert (SrcP : forall s x y c k, In (x, y, EInfo c k (adjacent s)) E -> x <> L l).
    { intros s x y c k Hi ->. destruct (st_side_sound _ _ _ Hst _ _ _ _ _ Hi) as (a & b & Ha & _ & _ & _ & Hp & _).
      apply L_inj in Ha. subst. auto. }
    apply nodup_filter_app; [apply nodup_filter_app; [apply nodup_filter_app|..]|..].
    + rewrite filter_app, (filter_none _ (succ_of l)), app_nil_r; [apply Hst|].
      intros t Ht. unfold is_succ. rewrite (HS0 t Ht). auto.
    + apply (ss_slots _ _ _ _ _ _ _ HL).
    + intros [[x y] [c k r]] t' Ht Ht' Hnr Heq.
      destruct (ss_sound _ _ _ _ _ _ _ HL _ Ht') as (b & k' & -> & _). unfold slot in Heq. simpl in Heq.
      injection Heq as -> -> -> ->. apply in_app_iff in Ht as [Ht|Ht].
      * apply (SrcP SLeft) in Ht. auto.
      * apply HS0 in Ht. discriminate.
    + apply (ss_slots _ _ _ _ _ _ _ HR).
    + intros [[x y] [c k r]] t' Ht Ht' Hnr Heq.
      destruct (ss_sound _ _ _ _ _ _ _ HR _ Ht') as (b & k' & -> & _). unfold slot in Heq. simpl in Heq.
      injection Heq as -> -> -> ->. rewrite !in_app_iff in Ht. destruct Ht as [[Ht|Ht]|Ht].
      * apply (SrcP SRight) in Ht. auto.
      * apply HS0 in Ht. discriminate.
      * apply HS1 in Ht. discriminate.
    + apply (cs_slots _ _ _ _ HC).
    + intros [[x y] [c k r]] t' Ht Ht' Hnr Heq. pose proof (HS3 _ Ht') as Hr3. destruct t' as [[x' y'] [c' k' r']].
      simpl in Hr3. subst r'. unfold slot in Heq. simpl in Heq. inversion Heq; subst.
      rewrite !in_app_iff in Ht. destruct Ht as [[[Ht|Ht]|Ht]|Ht];
        [|apply HS0 in Ht; discriminate|apply HS1 in Ht; discriminate|apply HS2 in Ht; discriminate].
      apply InX3 in Ht' as (b & -> & Hk & Hxy & Hb & Hnear & Hw).
      destruct Hw as [(-> & Hsl & Hbw)|(Hsb & Hne & Ho & Hn)].
      * destruct (st_conf_sound _ _ _ Hst _ _ _ _ Ht) as (a & b & H1 & H2 & _ & _ & _ & _ & Hab & Hwhy).
        assert (Hfa : fst a = fst l /\ fst b = fst l).
        { destruct Hxy as [(-> & ->)|(-> & ->)]; apply L_inj in H1; apply L_inj in H2; subst; auto. }
        destruct Hwhy as [(_ & p & Hp & Hfp)|(Hf & _)]; [|destruct Hfa; congruence].
        assert (p = l \/ p = inv l) as [->| ->].
        { destruct Hfa as [Hfa _]. rewrite Hfa in Hfp. destruct (lref_eqb p l) eqn:Ep; [left; apply lref_eqb_eq; auto|].
          right. apply lref_eqb_neq in Ep. apply fst_eq_inv; auto. }
        -- auto.
        -- specialize (Hord _ Hp). destruct l as [d i]. simpl in *. subst i. specialize (Hord eq_refl). discriminate.
      * apply Hn. rewrite !linked_app. left. left. left. destruct Hxy as [(-> & ->)|(-> & ->)].
        -- eexists; eauto.
        -- destruct (st_conf_sym _ _ _ Hst _ _ _ _ Ht _ Hk) as [_ Hsym]. eexists; eauto.
Qed.

Lemma V_order P l rest : V = P ++ l :: rest -> forall p, In p P -> snd p = true -> snd l = true.
Proof.
  intros HV p Hp Hs. unfold vertices in HV.
  assert (Hpass : forall x, In x (passable w ru) -> snd x = false).
  { intros x Hx. apply filter_In in Hx as [Hx _]. apply in_map_iff in Hx as (d & <- & _). auto. }
  assert (Hinv : forall x, In x (map inv (both_ways w ru)) -> snd x = true).
  { intros x Hx. apply in_map_iff in Hx as (y & <- & Hy). apply filter_In in Hy as [Hy _].
    apply Hpass in Hy. unfold inv. simpl. rewrite Hy. auto. }
  apply app_eq_app in HV as (m & [[E1 E2]|[E1 E2]]).
  - exfalso. assert (In p (passable w ru)) as Hq by (rewrite E1; apply in_app_iff; auto).
    apply Hpass in Hq. congruence.
  - apply Hinv. rewrite E2. apply in_app_iff. right. left. auto.
Qed.

Definition two (cl cr : collector) (s : side) : collector := match s with SLeft => cl | SRight => cr end.
Lemma state_ext P E cs cs' : (forall s, cs s = cs' s) -> state P E cs -> state P E cs'.
Proof.
  intros He [H1 H2 H3 H4 H5 H6 H7 H8 H9 H10 H11 H12]. constructor; try assumption;
  intros s; rewrite <- He; [apply H9|apply H10|apply H11].
Qed.
Lemma lanelet_loop g g' cl cr : repr Vs g [] ->
  each (fun (st : graph A * collector * collector) l =>
    let '(g, cl, cr) := st in
    bind (add_following one w ru costs idx g l) (fun g =>
    bind (add_sideway one w ru costs SLeft idx l (g, cl)) (fun gl =>
    bind (add_sideway one w ru costs SRight idx l (fst gl, cr)) (fun gr =>
    bind (add_conflicting one w ru costs (fst gr) l) (fun g => Ok (g, snd gl, snd gr)))))) (g, [], []) V = Ok (g', cl, cr) ->
  exists E, repr Vs g' E /\ state V E (two cl cr).
Proof.
  intros Hr H.
  pose (I := fun (P : list lref) (st : graph A * collector * collector) =>
     exists E, repr Vs (fst (fst st)) E /\ state P E (two (snd (fst st)) (snd st))).
  change (I V (g', cl, cr)). revert H. apply each_inv.
  2:{ exists []. simpl. split; auto. apply state_ext with (fun _ => []); [intros []; auto|apply state_init]. }
  intros P l [[g1 cl1] cr1] st (rest & HV) (E & Hr1 & Hst) H. simpl in Hr1, Hst.
  assert (HlV : In l V) by (rewrite HV; apply in_app_iff; simpl; auto).
  assert (HlP : ~ In l P).
  { pose proof V_once as Hn. rewrite HV in Hn. apply NoDup_remove in Hn as [_ Hn]. rewrite in_app_iff in Hn. tauto. }
  apply bind_ok in H as (g2 & H2 & H). eapply add_following_ok in H2; eauto.
  apply bind_ok in H as ([g3 cl3] & H3 & H).
  apply (add_sideway_ok SLeft _ _ _ _ _ _ H2 HlV) in H3 as (X1 & k1 & Hk1 & H3 & HL).
  apply bind_ok in H as ([g4 cr4] & H4 & H). cbn [fst] in H4.
  apply (add_sideway_ok SRight _ _ _ _ _ _ H3 HlV) in H4 as (X2 & k2 & Hk2 & H4 & HR).
  apply bind_ok in H as (g5 & H5 & H). cbn [fst] in H5.
  apply (add_conflicting_ok _ _ _ _ H4 HlV (near_once l)) in H5 as (X3 & H5 & HC).
  injection H as <-. exists ((((E ++ succ_of l) ++ X1) ++ X2) ++ X3). simpl. split; auto.
  eapply state_step; eauto. apply (V_order P l rest HV).
Qed.

(** * Sequences of lane changes *)
Definition contrib (s : side) := fix contrib (seq : list (lref * lref)) : list triple :=
  match seq with
  | [] => []
  | (x, y) :: rest =>
      flat_map (fun m => accepted Vs (L x, L y, change_info one m s (map fst seq) (map snd seq))) mods ++ contrib rest
  end.
Lemma assign_change_ok s seq : forall g E g', repr Vs g E -> assign_change one costs s g seq = Ok g' ->
  repr Vs g' (E ++ contrib s seq).
Proof.
  induction seq as [|[x y] rest IH]; intros g E g' Hr H.
  - simpl in H. injection H as <-. simpl. rewrite app_nil_r. auto.
  - cbn [assign_change] in H. apply bind_ok in H as (g1 & H1 & H).
    apply (puts_ok Vs (fun m => (L x, L y, change_info one m s (map fst ((x, y) :: rest)) (map snd ((x, y) :: rest)))) mods g E g1 Hr) in H1.
    apply (IH _ _ _ H1) in H. rewrite <- app_assoc in H. exact H.
Qed.

Definition succ0 E (a b : lref) : Prop := exists c, In (L a, L b, EInfo c 0%N Successor) E.
Lemma nexts_in g E a b : repr Vs g E -> In b (nexts g a) <-> succ0 E a b.
Proof.
  intros Hr. unfold nexts, succ0. split.
  - destruct (get_vertex g (L a)) as [v|] eqn:Ev; [|simpl; tauto]. intros H.
    apply in_flat_map in H as (o & Ho & H). apply in_map_iff in Ho as (e & <- & He). apply filter_In in He as [He Hb].
    apply andb_true_iff in Hb as [Hs Hv]. apply Nat.eqb_eq in Hv. unfold is_successor in Hs.
    apply andb_true_iff in Hs as [Hs Hk]. apply relation_eqb_eq in Hs. apply N.eqb_eq in Hk.
    destruct (vertex_elem g (e_tgt e)) as [[d i|]|] eqn:Et; try contradiction. destruct H as [<-|[]].
    exists (ei_cost (e_info e)). eapply repr_edge; eauto. exists e. split; auto.
    rewrite (repr_vertex _ _ _ _ _ Hr Ev), Et. destruct (e_info e). simpl in *. subst. auto.
  - intros [c Hin]. pose proof (repr_ends _ _ _ _ _ _ Hr Hin) as [Ha _].
    apply (repr_known _ _ _ _ Hr) in Ha as [v Hv]. rewrite Hv.
    eapply repr_edge in Hin as (e & He & Hs & Ht & Hi); eauto. apply in_flat_map.
    exists (vertex_elem g (e_tgt e)). split.
    + apply in_map_iff. exists e. split; auto. apply filter_In. split; auto. unfold is_successor. rewrite Hi. simpl.
      rewrite (repr_vertex _ _ _ _ _ Hr Hv) in Hs. subst. rewrite Nat.eqb_refl. auto.
    + rewrite Ht. unfold L. simpl. left. destruct b. auto.
Qed.
Lemma prevs_in g E a b : repr Vs g E -> In b (prevs g a) <-> succ0 E b a.
Proof.
  intros Hr. unfold prevs, succ0. split.
  - destruct (get_vertex g (L a)) as [v|] eqn:Ev; [|simpl; tauto]. intros H.
    apply in_flat_map in H as (o & Ho & H). apply in_map_iff in Ho as (e & <- & He). apply filter_In in He as [He Hb].
    apply andb_true_iff in Hb as [Hs Hv]. apply Nat.eqb_eq in Hv. unfold is_successor in Hs.
    apply andb_true_iff in Hs as [Hs Hk]. apply relation_eqb_eq in Hs. apply N.eqb_eq in Hk.
    destruct (vertex_elem g (e_src e)) as [[d i|]|] eqn:Et; try contradiction. destruct H as [<-|[]].
    exists (ei_cost (e_info e)). eapply repr_edge; eauto. exists e. split; auto.
    rewrite (repr_vertex _ _ _ _ _ Hr Ev), Et. destruct (e_info e). simpl in *. subst. auto.
  - intros [c Hin]. pose proof (repr_ends _ _ _ _ _ _ Hr Hin) as [_ Ha].
    apply (repr_known _ _ _ _ Hr) in Ha as [v Hv]. rewrite Hv.
    eapply repr_edge in Hin as (e & He & Hs & Ht & Hi); eauto. apply in_flat_map.
    exists (vertex_elem g (e_src e)). split.
    + apply in_map_iff. exists e. split; auto. apply filter_In. split; auto. unfold is_successor. rewrite Hi. simpl.
      rewrite (repr_vertex _ _ _ _ _ Hr Hv) in Ht. subst. rewrite Nat.eqb_refl. auto.
    + rewrite Hs. unfold L. simpl. left. destruct b. auto.
Qed.

(** Successors and predecessors read off the list of edges. *)
Definition zero_succ (t : triple) : bool :=
  relation_eqb (ei_rel (snd t)) Successor && N.eqb (ei_costid (snd t)) 0.
Definition nextsE E (a : lref) : list lref :=
  lanelets_of (map (fun t : triple => Some (snd (fst t))) (filter (fun t => zero_succ t && elem_eqb (fst (fst t)) (L a)) E)).
Definition prevsE E (a : lref) : list lref :=
  lanelets_of (map (fun t : triple => Some (fst (fst t))) (filter (fun t => zero_succ t && elem_eqb (snd (fst t)) (L a)) E)).
Lemma filter_map_rel {T U R} (f : T -> bool) (h : U -> bool) (m : T -> R) (n : U -> R) (l1 : list T) : forall (l2 : list U),
  Forall2 (fun a b => f a = h b /\ m a = n b) l1 l2 -> map m (filter f l1) = map n (filter h l2).
Proof.
  induction l1 as [|x l1 IH]; intros l2 H; inversion H as [|? y ? l2' [Hf Hm] H']; subst; simpl; auto.
  rewrite Hf. destruct (h y); simpl; rewrite (IH l2'); auto. rewrite Hm. auto.
Qed.
Lemma repr_forall2 g E : repr Vs g E -> Forall2 (fun e t => named g e = some_named t) (g_edges g) E.
Proof.
  intros (_ & _ & He). revert E He. induction (g_edges g) as [|e es IH]; intros [|t E] He; simpl in *; try discriminate; constructor.
  - injection He. intros. unfold named, some_named. congruence.
  - apply IH. injection He. auto.
Qed.
Lemma forall2_weaken {T U} (P Q : T -> U -> Prop) l1 l2 : (forall x y, In x l1 -> P x y -> Q x y) -> Forall2 P l1 l2 -> Forall2 Q l1 l2.
Proof. intros H F. induction F; constructor; [apply H; simpl; auto|apply IHF; intros; apply H; simpl; auto]. Qed.
Lemma no_vertex_no_edge g E a : repr Vs g E -> get_vertex g a = None -> forall t, In t E -> fst (fst t) <> a /\ snd (fst t) <> a.
Proof.
  intros Hr Hn [[x y] i] Hi. apply (repr_ends _ _ _ _ _ _ Hr) in Hi as [Hx Hy].
  apply (repr_known _ _ _ _ Hr) in Hx as [v Hx]. apply (repr_known _ _ _ _ Hr) in Hy as [u Hy].
  simpl. split; intros ->; congruence.
Qed.
Lemma nexts_eq g E a : repr Vs g E -> nexts g a = nextsE E a.
Proof.
  intros Hr. unfold nexts, nextsE. destruct (get_vertex g (L a)) as [v|] eqn:Ev.
  - f_equal. apply filter_map_rel. eapply forall2_weaken; [|apply (repr_forall2 _ _ Hr)]. intros e [[x y] i] He Hn.
    unfold named, some_named in Hn. simpl in Hn. injection Hn as H1 H2 H3. split; [|auto].
    unfold is_successor, zero_succ. rewrite H3. simpl. f_equal.
    destruct (Nat.eqb_spec (e_src e) v) as [Hq|Hne].
    + rewrite Hq in H1. rewrite (proj2 (repr_vertex _ _ _ _ _ Hr Ev v) eq_refl) in H1. injection H1 as ->. symmetry. apply elem_eqb_eq. auto.
    + destruct (elem_eqb x (L a)) eqn:Ex; auto. apply elem_eqb_eq in Ex. subst. exfalso. apply Hne.
      apply (repr_vertex _ _ _ _ _ Hr Ev). auto.
  - rewrite filter_none; auto. intros t Ht. destruct (no_vertex_no_edge _ _ _ Hr Ev t Ht) as [H _].
    destruct (elem_eqb (fst (fst t)) (L a)) eqn:Ex; [apply elem_eqb_eq in Ex; contradiction|]. rewrite andb_false_r. auto.
Qed.
Lemma prevs_eq g E a : repr Vs g E -> prevs g a = prevsE E a.
Proof.
  intros Hr. unfold prevs, prevsE. destruct (get_vertex g (L a)) as [v|] eqn:Ev.
  - f_equal. apply filter_map_rel. eapply forall2_weaken; [|apply (repr_forall2 _ _ Hr)]. intros e [[x y] i] He Hn.
    unfold named, some_named in Hn. simpl in Hn. injection Hn as H1 H2 H3. split; [|auto].
    unfold is_successor, zero_succ. rewrite H3. simpl. f_equal.
    destruct (Nat.eqb_spec (e_tgt e) v) as [Hq|Hne].
    + rewrite Hq in H2. rewrite (proj2 (repr_vertex _ _ _ _ _ Hr Ev v) eq_refl) in H2. injection H2 as ->. symmetry. apply elem_eqb_eq. auto.
    + destruct (elem_eqb y (L a)) eqn:Ex; auto. apply elem_eqb_eq in Ex. subst. exfalso. apply Hne.
      apply (repr_vertex _ _ _ _ _ Hr Ev). auto.
  - rewrite filter_none; auto. intros t Ht. destruct (no_vertex_no_edge _ _ _ Hr Ev t Ht) as [_ H].
    destruct (elem_eqb (snd (fst t)) (L a)) eqn:Ex; [apply elem_eqb_eq in Ex; contradiction|]. rewrite andb_false_r. auto.
Qed.
Definition quiet X : Prop := forall t, In t X -> ei_rel (snd t) <> Successor.
Lemma quiet_zero X t : quiet X -> In t X -> zero_succ t = false.
Proof.
  intros Hq Ht. unfold zero_succ. destruct (relation_eqb _ _) eqn:E; auto. apply relation_eqb_eq in E. apply Hq in Ht. contradiction.
Qed.
Lemma nexts_quiet E X a : quiet X -> nextsE (E ++ X) a = nextsE E a.
Proof.
  intros Hq. unfold nextsE. rewrite filter_app, (filter_none _ X), app_nil_r; auto.
  intros t Ht. rewrite (quiet_zero X t); auto.
Qed.
Lemma prevs_quiet E X a : quiet X -> prevsE (E ++ X) a = prevsE E a.
Proof.
  intros Hq. unfold prevsE. rewrite filter_app, (filter_none _ X), app_nil_r; auto.
  intros t Ht. rewrite (quiet_zero X t); auto.
Qed.
Lemma contrib_in s seq t : In t (contrib s seq) -> exists x y rest m pre, seq = pre ++ (x, y) :: rest /\ In m mods /\
  t = (L x, L y, change_info one m s (map fst ((x, y) :: rest)) (map snd ((x, y) :: rest))) /\
  In (L x) Vs /\ In (L y) Vs /\ good_cost (ei_cost (snd t)) = true.
Proof.
  induction seq as [|[x y] rest IH]; [simpl; tauto|]. cbn [contrib]. intros H. apply in_app_iff in H as [H|H].
  - apply in_flat_map in H as (m & Hm & H). apply in_accepted in H as (-> & Ha & Hb & Hg).
    exists x, y, rest, m, []. auto 10.
  - destruct (IH H) as (x' & y' & rest' & m & pre & -> & Hm & -> & Ha & Hb & Hg).
    exists x', y', rest', m, ((x, y) :: pre). auto 10.
Qed.
Lemma change_rel m s f t : ei_rel (change_info one m s f t) = adjacent s \/ ei_rel (change_info one m s f t) = changing s.
Proof. unfold change_info. destruct (negb _); simpl; auto. Qed.
Lemma contrib_quiet s seq : quiet (contrib s seq).
Proof.
  intros t Ht. apply contrib_in in Ht as (x & y & rest & m & pre & _ & _ & -> & _). simpl.
  destruct (change_rel m s (x :: map fst rest) (y :: map snd rest)) as [-> | ->]; destruct s; discriminate.
Qed.

(** Walks *)
Fixpoint trail (adj : lref -> list lref) (s t : lref) (l : list (lref * lref)) : Prop :=
  match l with
  | [] => True
  | (s', t') :: r => adj s = [s'] /\ adj t = [t'] /\ trail adj s' t' r
  end.
Lemma visited_in v x : visited v x = true <-> In x v.
Proof.
  unfold visited. rewrite existsb_exists. split.
  - intros (y & Hy & He). apply lref_eqb_eq in He. subst. auto.
  - intros H. exists x. split; auto. apply lref_eqb_eq. auto.
Qed.
Lemma last_default {T} (l : list T) : forall x z d d', List.last (z :: l) d = List.last (x :: z :: l) d'.
Proof.
  intros x z d d'. change (List.last (x :: z :: l) d') with (List.last (z :: l) d').
  revert z. induction l as [|q l IH]; intros z; auto. apply IH.
Qed.
Lemma trail_app adj l l' : forall s t, trail adj s t (l ++ l') <->
  trail adj s t l /\ trail adj (fst (List.last l (s, t))) (snd (List.last l (s, t))) l'.
Proof.
  induction l as [|[x y] l IH]; intros s t; [simpl; tauto|]. cbn [app trail].
  rewrite IH. destruct l as [|z l]; [simpl; tauto|].
  replace (List.last ((x, y) :: z :: l) (s, t)) with (List.last (z :: l) (x, y)); [tauto|].
  apply last_default.
Qed.

Lemma walk_ok adj c fuel : forall v s t l v', NoDup (map fst c) ->
  walk adj c fuel v s t = Ok (l, v') ->
  trail adj s t l /\ v' = rev (map fst l) ++ v /\ incl l c /\ NoDup (map fst l) /\
  (forall x, In x (map fst l) -> ~ In x v) /\
  (forall x y, adj (fst (List.last l (s, t))) = [x] -> adj (snd (List.last l (s, t))) = [y] -> In (x, y) c -> In x v').
Proof.
  induction fuel as [|fuel IH]; intros v s t l v' Hn H; [discriminate|]. cbn [walk] in H.
  assert (Hstop : forall (P : Prop), (forall x y, adj s = [x] -> adj t = [y] -> In (x, y) c -> In x v) ->
     Ok ([], v) = Ok (l, v') -> trail adj s t l /\ v' = rev (map fst l) ++ v /\ incl l c /\ NoDup (map fst l) /\
     (forall x, In x (map fst l) -> ~ In x v) /\
     (forall x y, adj (fst (List.last l (s, t))) = [x] -> adj (snd (List.last l (s, t))) = [y] -> In (x, y) c -> In x v')).
  { intros _ Hs Heq. injection Heq as <- <-. simpl. repeat split; auto; try constructor; try tauto.
    intros x []. }
  destruct (adj s) as [|s' [|]] eqn:Es; try (apply (Hstop True); [intros; congruence|exact H]).
  destruct (adj t) as [|t' [|]] eqn:Et; try (apply (Hstop True); [intros; congruence|exact H]).
  destruct (target c s') as [u|] eqn:Eu.
  2:{ apply (Hstop True); [|exact H]. intros x y Hx Hy Hi. injection Hx as <-. exfalso. apply target_none in Eu.
      apply Eu. apply (in_map fst) in Hi. auto. }
  destruct (visited v s' || negb (lref_eqb u t')) eqn:Ev.
  { apply (Hstop True); [|exact H]. intros x y Hx Hy Hi. injection Hx as <-. injection Hy as <-.
    rewrite (in_target _ _ _ Hn Hi) in Eu. injection Eu as <-.
    rewrite (proj2 (lref_eqb_eq _ _) eq_refl), orb_false_r in Ev. apply visited_in. auto. }
  apply orb_false_iff in Ev as [Ev Hu]. apply negb_false_iff in Hu. apply lref_eqb_eq in Hu. subst u.
  apply bind_ok in H as ([l1 v1] & H1 & H). injection H as <- <-. cbn [fst snd].
  destruct (IH _ _ _ _ _ Hn H1) as (T1 & T2 & T3 & T4 & T5 & T6).
  assert (Hnv : ~ In s' v). { rewrite <- visited_in. congruence. }
  split; [simpl; auto|]. split; [|split; [|split; [|split]]].
  - rewrite T2. simpl. rewrite <- app_assoc. auto.
  - intros x [<-|Hx]; [|auto]. apply target_in. auto.
  - simpl. constructor; auto. intros Hi. apply (T5 _ Hi). simpl. auto.
  - simpl. intros x [<-|Hx]; auto. intros Hv. apply (T5 x Hx). simpl. auto.
  - intros x y. destruct l1 as [|z l1]; [exact (T6 x y)|].
    replace (List.last ((s', t') :: z :: l1) (s, t)) with (List.last (z :: l1) (s', t')); [apply T6|].
    apply last_default.
Qed.
Lemma walk_total adj c fuel : forall v s t, NoDup (map fst c) ->
  length (filter (fun x => negb (visited v x)) (map fst c)) < fuel ->
  exists r, walk adj c fuel v s t = Ok r.
Proof.
  induction fuel as [|fuel IH]; intros v s t Hn Hlt; [lia|]. cbn [walk].
  destruct (adj s) as [|s' [|]]; eauto. destruct (adj t) as [|t' [|]]; eauto.
  destruct (target c s') as [u|] eqn:Eu; eauto.
  destruct (visited v s' || negb (lref_eqb u t')) eqn:Ev; eauto.
  apply orb_false_iff in Ev as [Ev _].
  destruct (IH (s' :: v) s' u Hn) as [r Hr].
  - apply target_in in Eu. apply (in_map fst) in Eu. simpl in Eu. apply in_split in Eu as (l1 & l2 & El).
    rewrite El in *. rewrite filter_app, app_length in *. cbn [filter] in *. rewrite Ev in Hlt. cbn [negb] in Hlt.
    assert (Hs : visited (s' :: v) s' = true) by (apply visited_in; simpl; auto).
    rewrite Hs. cbn [negb length] in *.
    assert (Hle : forall l, length (filter (fun x => negb (visited (s' :: v) x)) l) <= length (filter (fun x => negb (visited v x)) l)).
    { clear. induction l as [|x l IH]; [auto|]. cbn [filter].
      change (visited (s' :: v) x) with (lref_eqb x s' || visited v x).
      destruct (lref_eqb x s'), (visited v x); cbn [orb negb length]; lia. }
    pose proof (Hle l1). pose proof (Hle l2). lia.
  - rewrite Hr. simpl. eauto.
Qed.

Lemma in_nextsE E a b : In b (nextsE E a) <-> succ0 E a b.
Proof.
  unfold nextsE, succ0, lanelets_of. rewrite in_flat_map. split.
  - intros (o & Ho & H). apply in_map_iff in Ho as ([[x y] [c k r]] & <- & Ht). apply filter_In in Ht as [Ht Hb].
    apply andb_true_iff in Hb as [Hz Hx]. apply elem_eqb_eq in Hx. unfold zero_succ in Hz. simpl in *.
    apply andb_true_iff in Hz as [Hr Hk]. apply relation_eqb_eq in Hr. apply N.eqb_eq in Hk. subst.
    destruct y; [|contradiction]. destruct H as [<-|[]]. exists c. auto.
  - intros [c Hi]. exists (Some (L b)). split.
    + apply in_map_iff. exists (L a, L b, EInfo c 0%N Successor). split; auto. apply filter_In. split; auto.
      cbn [fst]. rewrite (proj2 (elem_eqb_eq _ _) eq_refl). auto.
    + simpl. left. destruct b. auto.
Qed.
Lemma in_prevsE E a b : In b (prevsE E a) <-> succ0 E b a.
Proof.
  unfold prevsE, succ0, lanelets_of. rewrite in_flat_map. split.
  - intros (o & Ho & H). apply in_map_iff in Ho as ([[x y] [c k r]] & <- & Ht). apply filter_In in Ht as [Ht Hb].
    apply andb_true_iff in Hb as [Hz Hx]. apply elem_eqb_eq in Hx. unfold zero_succ in Hz. simpl in *.
    apply andb_true_iff in Hz as [Hr Hk]. apply relation_eqb_eq in Hr. apply N.eqb_eq in Hk. subst.
    destruct x; [|contradiction]. destruct H as [<-|[]]. exists c. auto.
  - intros [c Hi]. exists (Some (L b)). split.
    + apply in_map_iff. exists (L b, L a, EInfo c 0%N Successor). split; auto. apply filter_In. split; auto.
      cbn [fst snd]. rewrite (proj2 (elem_eqb_eq _ _) eq_refl). auto.
    + simpl. left. destruct b. auto.
Qed.

Fixpoint consec {T} (R : T -> T -> Prop) (l : list T) : Prop :=
  match l with
  | p :: r => match r with q :: _ => R p q /\ consec R r | [] => True end
  | [] => True
  end.
Lemma consec_join {T} (R : T -> T -> Prop) l1 p l2 : consec R (l1 ++ [p]) -> consec R (p :: l2) -> consec R (l1 ++ p :: l2).
Proof.
  induction l1 as [|x l1 IH]; intros H1 H2; auto. destruct l1 as [|y l1]; simpl in *; tauto.
Qed.
Lemma consec_split {T} (R : T -> T -> Prop) l1 p q l2 : consec R (l1 ++ p :: q :: l2) -> R p q.
Proof.
  induction l1 as [|x l1 IH]; intros H; [simpl in H; tauto|]. apply IH. destruct l1; simpl in *; tauto.
Qed.

Lemma trail_step adj l : forall s t p, trail adj s t l -> In p ((s, t) :: l) ->
  p = List.last l (s, t) \/ exists q, In q l /\ adj (fst p) = [fst q] /\ adj (snd p) = [snd q].
Proof.
  induction l as [|[s' t'] l IH]; intros s t p Ht Hp.
  - destruct Hp as [<-|[]]. auto.
  - destruct Ht as (H1 & H2 & H3). destruct Hp as [<-|Hp].
    + right. exists (s', t'). simpl. auto.
    + destruct (IH s' t' p H3 Hp) as [->|(q & Hq & Hr)].
      * left. destruct l as [|z l]; auto. apply last_default.
      * right. exists q. simpl. tauto.
Qed.
Lemma trail_back adj l : forall s t q, trail adj s t l -> In q l ->
  exists p, In p ((s, t) :: l) /\ adj (fst p) = [fst q] /\ adj (snd p) = [snd q].
Proof.
  induction l as [|[s' t'] l IH]; intros s t q Ht Hq; [destruct Hq|].
  destruct Ht as (H1 & H2 & H3). destruct Hq as [<-|Hq].
  - exists (s, t). simpl. auto.
  - destruct (IH s' t' q H3 Hq) as (p & Hp & Hr). exists p. simpl in *. tauto.
Qed.

Section Changes.
Variable E : list triple.
Variable c : collector.
Hypothesis c_keys : NoDup (map fst c).
Notation nx := (nextsE E).
Notation pv := (prevsE E).
Definition onward (p q : lref * lref) : Prop :=
  (nx (fst p) = [fst q] /\ nx (snd p) = [snd q]) \/ (pv (fst q) = [fst p] /\ pv (snd q) = [snd p]).
Definition mutual (p q : lref * lref) : Prop :=
  nx (fst p) = [fst q] /\ nx (snd p) = [snd q] /\ pv (fst q) = [fst p] /\ pv (snd q) = [snd p].
Definition closed (seq : list (lref * lref)) : Prop :=
  forall p q, In p c -> In q c -> mutual p q -> In p seq <-> In q seq.

Lemma trail_next s t l : trail nx s t l -> consec onward ((s, t) :: l).
Proof.
  revert s t. induction l as [|[s' t'] l IH]; intros s t H; [simpl; auto|]. destruct H as (H1 & H2 & H3).
  split; [|apply IH; auto]. left. auto.
Qed.
Lemma trail_prev s t l : trail pv s t l -> consec onward (rev l ++ [(s, t)]).
Proof.
  revert s t. induction l as [|[s' t'] l IH]; intros s t H; [simpl; auto|]. destruct H as (H1 & H2 & H3).
  simpl. rewrite <- app_assoc. apply consec_join; [apply IH; auto|]. simpl. split; auto. right. auto.
Qed.
Lemma key_unique p q : In p c -> In q c -> fst p = fst q -> p = q.
Proof.
  destruct p as [s t], q as [s' t']. simpl. intros Hp Hq <-. f_equal.
  apply (in_target _ _ _ c_keys) in Hp. apply (in_target _ _ _ c_keys) in Hq. congruence.
Qed.

Lemma sequence_ok g X v s t seq v' : repr Vs g (E ++ X) -> quiet X -> In (s, t) c -> ~ In s v ->
  sequence g c v s t = Ok (seq, v') ->
  In (s, t) seq /\ consec onward seq /\ incl seq c /\ NoDup (map fst seq) /\
  (forall x, In x (map fst seq) -> ~ In x v) /\ (forall x, In x v' <-> In x v \/ In x (map fst seq)) /\
  (forall p q, In p c -> In q c -> mutual p q -> In p seq -> In (fst q) v') /\
  (forall p q, In p c -> In q c -> mutual p q -> In q seq -> In (fst p) v').
Proof.
  intros Hr Hq Hst Hsv H. unfold sequence in H.
  apply bind_ok in H as ([F vf] & HF & H). apply bind_ok in H as ([P vp] & HP & H). cbn [fst snd] in *.
  injection H as <- <-.
  apply walk_ok in HF; [|exact c_keys]. destruct HF as (F1 & F2 & F3 & F4 & F5 & F6).
  apply walk_ok in HP; [|exact c_keys]. destruct HP as (P1 & P2 & P3 & P4 & P5 & P6).
  assert (Hnx : forall a, nexts g a = nx a). { intros a. rewrite (nexts_eq _ _ _ Hr). apply nexts_quiet. auto. }
  assert (Hpv : forall a, prevs g a = pv a). { intros a. rewrite (prevs_eq _ _ _ Hr). apply prevs_quiet. auto. }
  assert (Htr : forall adj adj', (forall a, adj a = adj' a) -> forall l s t, trail adj s t l -> trail adj' s t l).
  { clear. intros adj adj' He. induction l as [|[x y] l IH]; intros s t H; auto. simpl in *. rewrite <- !He.
    destruct H as (? & ? & ?). auto. }
  apply (Htr _ _ Hnx) in F1. apply (Htr _ _ Hpv) in P1. setoid_rewrite Hnx in F6. setoid_rewrite Hpv in P6. clear Htr.
  assert (Hkeys : forall x, In x (map fst (rev P ++ (s, t) :: F)) <-> In x (map fst P) \/ s = x \/ In x (map fst F)).
  { intros x. rewrite map_app, in_app_iff, map_rev, <- in_rev. simpl. tauto. }
  assert (Hvp : forall x, In x vp <-> In x (map fst P) \/ In x (map fst F) \/ s = x \/ In x v).
  { intros x. rewrite P2, F2, !in_app_iff, <- !in_rev. simpl. tauto. }
  assert (Hin : forall p, In p (rev P ++ (s, t) :: F) <-> In p P \/ In p ((s, t) :: F)).
  { intros p. rewrite in_app_iff, <- in_rev. tauto. }
  split; [apply in_app_iff; simpl; auto|]. split; [|split; [|split; [|split; [|split; [|split]]]]].
  - apply consec_join; [apply trail_prev; auto|apply trail_next; auto].
  - intros p Hp. apply Hin in Hp as [Hp|[<-|Hp]]; auto.
  - rewrite map_app, map_rev. simpl. apply nodup_app.
    + apply NoDup_rev. auto.
    + constructor; auto. intros Hi. apply (F5 _ Hi). simpl. auto.
    + intros x Hx Hy. apply in_rev in Hx. apply (P5 x Hx). rewrite F2, in_app_iff, <- in_rev. simpl in *. tauto.
  - intros x Hx Hv. apply Hkeys in Hx as [Hx|[<-|Hx]]; [|contradiction|].
    + apply (P5 x Hx). rewrite F2, in_app_iff. simpl. auto.
    + apply (F5 x Hx). simpl. auto.
  - intros x. rewrite Hvp, Hkeys. tauto.
  - intros p q Hp Hqc (M1 & M2 & M3 & M4) Hps. apply Hvp. apply Hin in Hps as [Hps|Hps].
    + destruct (trail_back pv P s t p P1 Hps) as (r & Hr' & R1 & R2).
      assert (In (fst r) (nx (fst p))) as Hn. { apply in_nextsE, in_prevsE. rewrite R1. simpl. auto. }
      rewrite M1 in Hn. destruct Hn as [->|[]]. destruct Hr' as [<-|Hr']; simpl; auto. left. apply in_map. auto.
    + destruct (trail_step nx F s t p F1 Hps) as [->|(r & Hr' & R1 & R2)].
      * assert (In (fst q) vf) as Hv. { apply (F6 (fst q) (snd q)); auto. destruct q; auto. }
        rewrite F2, in_app_iff, <- in_rev in Hv. simpl in Hv. tauto.
      * rewrite M1 in R1. injection R1 as ->. right. left. apply in_map. auto.
  - intros p q Hp Hqc (M1 & M2 & M3 & M4) Hqs. apply Hvp.
    assert (Hcase : In q ((s, t) :: P) \/ In q F).
    { apply Hin in Hqs. simpl in *. tauto. }
    destruct Hcase as [Hc|Hc].
    + destruct (trail_step pv P s t q P1 Hc) as [->|(r & Hr' & R1 & R2)].
      * assert (In (fst p) vp) as Hv. { apply (P6 (fst p) (snd p)); auto. destruct p; auto. }
        apply Hvp. auto.
      * rewrite M3 in R1. injection R1 as ->. left. apply in_map. auto.
    + destruct (trail_back nx F s t q F1 Hc) as (r & Hr' & R1 & R2).
      assert (In (fst r) (pv (fst q))) as Hn. { apply in_prevsE, in_nextsE. rewrite R1. simpl. auto. }
      rewrite M3 in Hn. destruct Hn as [->|[]]. destruct Hr' as [<-|Hr']; simpl; auto. right. left. apply in_map. auto.
Qed.

Record sequences (s : side) (g' : graph A) (Q : list (list (lref * lref))) : Prop := {
  sq_repr : repr Vs g' (E ++ flat_map (contrib s) Q);
  sq_all : Permutation (concat Q) c;
  sq_train : Forall (consec onward) Q;
  sq_closed : Forall closed Q }.

Hypothesis order_ok : Permutation (order c) c.
Lemma change_edges_ok s g g' : repr Vs g E ->
  change_edges one costs order s g c = Ok g' -> exists Q, sequences s g' Q.
Proof.
  intros Hr H. unfold change_edges in H. apply bind_ok in H as ([g1 v] & H & Heq). cbn [fst] in Heq. injection Heq as ->.
  pose (I := fun (done : list (lref * lref)) (st : graph A * list lref) => exists Q,
     repr Vs (fst st) (E ++ flat_map (contrib s) Q) /\ (forall x, In x (snd st) <-> In x (map fst (concat Q))) /\
     incl (concat Q) c /\ NoDup (map fst (concat Q)) /\ Forall (consec onward) Q /\ Forall closed Q /\
     (forall e, In e done -> In (fst e) (snd st))).
  assert (HI : I (order c) (g', v)).
  { revert H. apply each_inv.
    2:{ exists []. simpl. rewrite app_nil_r. split; auto. split; [tauto|]. repeat split; auto; try constructor; try tauto.
        intros x []. }
    clear g' v. intros done [s0 t0] [g1 v] st (rest & Hrest) (Q & Q1 & Q2 & Q3 & Q4 & Q5 & Q6 & Q7) H.
    cbn [fst snd] in *.
    destruct (visited v s0) eqn:Ev.
    - injection H as <-. exists Q. cbn [fst snd]. repeat (split; [assumption|]).
      intros e He. apply in_app_iff in He as [He|[<-|[]]]; auto. apply visited_in. auto.
    - apply bind_ok in H as ([seq v'] & Hs & H). cbn [fst snd] in H. apply bind_ok in H as (g2 & Hg & H). injection H as <-.
      assert (Hsv : ~ In s0 v) by (rewrite <- visited_in; congruence).
      assert (Hst : In (s0, t0) c).
      { apply (Permutation_in _ order_ok). rewrite Hrest. apply in_app_iff. simpl. auto. }
      assert (Hqu : quiet (flat_map (contrib s) Q)).
      { intros t Ht. apply in_flat_map in Ht as (sq & _ & Ht). eapply contrib_quiet; eauto. }
      destruct (sequence_ok _ _ _ _ _ _ _ Q1 Hqu Hst Hsv Hs) as (S1 & S2 & S3 & S4 & S5 & S6 & S7 & S8).
      exists (Q ++ [seq]). cbn [fst snd].
      assert (Hcc : concat (Q ++ [seq]) = concat Q ++ seq). { rewrite concat_app. simpl. rewrite app_nil_r. auto. }
      rewrite Hcc, map_app. split; [|split; [|split; [|split; [|split; [|split]]]]].
      + eapply assign_change_ok in Hg; eauto. rewrite <- app_assoc in Hg. rewrite flat_map_app. simpl. rewrite app_nil_r. auto.
      + intros x. rewrite S6, Q2, in_app_iff. tauto.
      + intros x Hx. apply in_app_iff in Hx as [Hx|Hx]; auto.
      + apply nodup_app; auto. intros x Hx Hy. apply (S5 x Hy). apply Q2. auto.
      + apply Forall_app. auto.
      + apply Forall_app. split; auto. constructor; auto. intros p q Hp Hq Hm.
        (* an earlier sequence would hold both *)
        assert (Hearly : forall r, In r c -> In (fst r) v -> exists sq, In sq Q /\ In r sq).
        { intros r Hrc Hv. apply Q2, in_map_iff in Hv as (r' & Hf & Hr'). apply in_concat in Hr' as (sq & Hsq & Hr'').
          assert (r' = r) as ->. { apply key_unique; auto. apply Q3. apply in_concat. eauto. } eauto. }
        assert (Hseen : forall sq r, In sq Q -> In r sq -> In (fst r) v).
        { intros sq r Hsq Hr'. apply Q2. apply in_map. apply in_concat. eauto. }
        rewrite Forall_forall in Q6.
        split; intros Hin.
        * pose proof (S7 p q Hp Hq Hm Hin) as Hv. apply S6 in Hv as [Hv|Hv].
          -- exfalso. destruct (Hearly q Hq Hv) as (sq & Hsq & Hqs). apply (S5 (fst p)); [apply in_map; auto|].
             apply (Hseen sq); auto. apply (Q6 sq Hsq p q); auto.
          -- apply in_map_iff in Hv as (r & Hf & Hr'). replace q with r; auto. apply key_unique; auto.
        * pose proof (S8 p q Hp Hq Hm Hin) as Hv. apply S6 in Hv as [Hv|Hv].
          -- exfalso. destruct (Hearly p Hp Hv) as (sq & Hsq & Hps). apply (S5 (fst q)); [apply in_map; auto|].
             apply (Hseen sq); auto. apply (Q6 sq Hsq p q); auto.
          -- apply in_map_iff in Hv as (r & Hf & Hr'). replace p with r; auto. apply key_unique; auto.
      + intros e He. apply S6. apply in_app_iff in He as [He|[<-|[]]]; auto. right. apply in_map_iff. exists (s0, t0). auto. }
  destruct HI as (Q & Q1 & Q2 & Q3 & Q4 & Q5 & Q6 & Q7). exists Q. constructor; auto.
  assert (Hnd : forall l : list (lref * lref), NoDup (map fst l) -> NoDup l) by (intros l; apply NoDup_map_inv).
  apply NoDup_Permutation; auto. intros r. split; [apply Q3|]. intros Hr'.
  assert (In r (order c)) as Ho. { apply (Permutation_in _ (Permutation_sym order_ok)). auto. }
  apply Q7, Q2, in_map_iff in Ho as (r' & Hf & Hin). replace r with r'; auto. apply key_unique; auto.
Qed.
End Changes.

(** * Areas *)
Definition area_batch (a : N) (d : N) : list triple :=
  let x := L (d, false) in
  let y := L (d, true) in
  let r := EArea a in
  (if may_pass ru r x then batch r x RArea else []) ++ (if may_pass ru r y then batch r y RArea else []) ++
  (if may_pass ru x r then batch x r RArea else []) ++ (if may_pass ru y r then batch y r RArea else []) ++
  (if may_pass ru r x || may_pass ru r y || may_pass ru x r || may_pass ru y r then []
   else if w_meet_area w a d then batch x r Conflicting else []).
Definition areas_batch (a b : N) : list triple :=
  if N.eqb b a then []
  else if may_pass ru (EArea a) (EArea b) then batch (EArea a) (EArea b) RArea
  else if w_meet_areas w a b then batch (EArea b) (EArea a) Conflicting else [].
Definition area_contrib (a : N) : list triple :=
  flat_map (area_batch a) (w_near w (EArea a)) ++ flat_map (areas_batch a) (w_near_areas w a).

Lemma each_append {T} (f : graph A -> T -> res (graph A)) (h : T -> list triple) l :
  (forall g E x g', repr Vs g E -> f g x = Ok g' -> repr Vs g' (E ++ h x)) ->
  forall g E g', repr Vs g E -> each f g l = Ok g' -> repr Vs g' (E ++ flat_map h l).
Proof.
  intros Hf. induction l as [|x l IH]; intros g E g' Hr H; simpl in H.
  - injection H as <-. simpl. rewrite app_nil_r. auto.
  - apply bind_ok in H as (g1 & H1 & H). eapply Hf in H1; eauto. apply (IH _ _ _ H1) in H.
    simpl. rewrite app_assoc. auto.
Qed.
Lemma cond_assign_ok (b : bool) g E x y r g' : repr Vs g E ->
  (if b then assign_costs one costs g x y r else Ok g) = Ok g' ->
  repr Vs g' (E ++ (if b then batch x y r else [])).
Proof.
  intros Hr H. destruct b; [eapply assign_ok; eauto|]. injection H as <-. rewrite app_nil_r. auto.
Qed.
Lemma area_edges_ok g E g' : repr Vs g E -> area_edges one w ru costs g = Ok g' ->
  repr Vs g' (E ++ flat_map area_contrib (passable_areas w ru)).
Proof.
  apply each_append. clear g E g'. intros g E a g' Hr H. apply bind_ok in H as (g1 & H1 & H2).
  unfold area_contrib. rewrite app_assoc.
  assert (Hr1 : repr Vs g1 (E ++ flat_map (area_batch a) (w_near w (EArea a)))).
  { revert H1. apply each_append; auto. clear g E g' g1 Hr H2. intros g E d g' Hr H.
    apply bind_ok in H as (g1 & H1 & H). eapply cond_assign_ok in H1; eauto.
    apply bind_ok in H as (g2 & H2 & H). eapply cond_assign_ok in H2; eauto.
    apply bind_ok in H as (g3 & H3 & H). eapply cond_assign_ok in H3; eauto.
    apply bind_ok in H as (g4 & H4 & H). eapply cond_assign_ok in H4; eauto.
    unfold area_batch. rewrite !app_assoc. destruct (_ || _ || _ || _).
    - injection H as <-. rewrite app_nil_r. auto.
    - eapply cond_assign_ok in H; eauto. }
  revert H2. apply each_append; auto. clear. intros g E b g' Hr H. unfold areas_batch.
  destruct (N.eqb b a). { injection H as <-. rewrite app_nil_r. auto. }
  destruct (may_pass _ _ _). { eapply assign_ok; eauto. }
  eapply cond_assign_ok in H; eauto.
Qed.
End Steps.
