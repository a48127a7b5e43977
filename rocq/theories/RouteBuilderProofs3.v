(** The rounds of the route builder. *)
From Coq Require Import NArith List Bool Arith Lia Relations.
From Verif Require Import CostAlg GraphModel RouteSpec RouteBuilderModel RouteBuilderProofs RouteBuilderProofs2.
Import ListNotations.
Local Open Scope nat_scope.

Section Rounds.
Context {A : CostAlg}.
Variable es : list (edge A).
Variable n : nat.
Hypothesis Hes : forall e, In e es -> e_src e < n /\ e_tgt e < n.
Notation edge := (edge A).

(** One edge of a kind. *)
Definition along (p : edge -> bool) (u t : nat) : Prop := exists e, In e es /\ e_src e = u /\ e_tgt e = t /\ p e = true.
Notation drive := (along (rel m_drivable)).
Notation succ := (along succ_edge).
Notation change := (along change_edge).
Lemma succ_drive u t : succ u t -> drive u t.
Proof. intros (e & H1 & H2 & H3 & H4). exists e. split; [auto|]. split; [auto|]. split; [auto|]. apply drivable_kind; auto. Qed.
Lemma change_drive u t : change u t -> drive u t.
Proof. intros (e & H1 & H2 & H3 & H4). exists e. split; [auto|]. split; [auto|]. split; [auto|]. apply drivable_kind; auto. Qed.

(** * More lanelets on the route, more lanelets next to it *)
Lemma next_mono on on' v : incl on on' -> next_to_route es on v = true -> next_to_route es on' v = true.
Proof.
  intros Hi. unfold next_to_route. rewrite !orb_true_iff, !existsb_exists, !mem_in. intros [H|(e & He & H)].
  - left. auto.
  - right. exists e. split; auto. rewrite orb_true_iff, !mem_in in *. destruct H; auto.
Qed.
Lemma near_mono on on' last v e : incl on on' -> In e (near_out es on last v) -> In e (near_out es on' last v).
Proof.
  intros Hi. unfold near_out. rewrite !filter_In, !andb_true_iff. intros (H1 & H2 & H3). split; auto. split; auto.
  eapply next_mono; eauto.
Qed.

(** * The state behind a round *)
Section Round.
Variables on last : list nat.
Variables begin end_ : nat.
Hypothesis Hbn : begin < n.
Hypothesis Hbon : In begin on.
Notation counted := (counted es on last).
Notation near_out := (near_out es on last).

(** A relation on which the counters of the vertices rely: a follower, or a lane change to the route. *)
Definition supports (ks : list nat) (e : edge) : Prop :=
  In (e_tgt e) ks /\ (succ_edge e = true \/ change_edge e = true /\ In (e_tgt e) on).

Lemma nonleaf_support ks v : 0 < folls es on last ks v \/ lost es on last ks v < chs es on last v ->
  exists e, In e (near_out v) /\ supports ks e.
Proof.
  intros [H|H].
  - apply cnt_pos in H as (e & He & H). apply andb_true_iff in H as [H1 H2]. apply mem_in in H2. exists e. split; auto. split; auto.
  - unfold lost, chs in H.
    rewrite (cnt_split (fun e => change_edge e && mem (e_tgt e) on) (fun e => mem (e_tgt e) ks)) in H.
    assert (Hle : cnt (fun e => change_edge e && mem (e_tgt e) on && negb (mem (e_tgt e) ks)) (near_out v) <=
                  cnt (fun e => change_edge e && negb (mem (e_tgt e) ks)) (near_out v)).
    { clear H. induction (near_out v) as [|e l IH]; auto. rewrite !cnt_cons. destruct (change_edge e), (mem (e_tgt e) on), (mem (e_tgt e) ks); simpl; lia. }
    assert (Hpos : 0 < cnt (fun e => change_edge e && mem (e_tgt e) on && mem (e_tgt e) ks) (near_out v)) by lia.
    apply cnt_pos in Hpos as (e & He & Hp). rewrite !andb_true_iff, !mem_in in Hp. exists e. split; auto. split; tauto.
Qed.

Lemma round_spec : exists m0 m1,
  visit es n on last begin = Some m0 /\ prune es on last (S n) end_ m0 = Some m1 /\
  counted m0 /\ (forall v, In v (keys m0) <-> clos_refl_trans nat (fun u t => In t (map e_tgt (near_out u))) begin v) /\
  (forall v, In v (keys m0) -> v < n) /\
  pruned es on last end_ m0 m1 /\ counted m1 /\ incl (keys m1) (keys m0) /\
  (forall u c, In (u, c) m1 -> u = end_ \/ is_leaf c = false).
Proof.
  destruct (visit_spec es n on last Hes begin Hbn Hbon) as (m0 & E & Hc & Hk & Hn & _).
  destruct (prune_spec es on last end_ (S n) m0 Hc) as (m1 & E1 & Hp & Hl).
  { pose proof (bounded_length n (keys m0) (ct_nodup _ _ _ _ Hc) Hn). rewrite keys_length in H. lia. }
  destruct (pruned_counted es on last end_ m0 m1 Hp Hc) as [Hc1 Hi].
  exists m0, m1. auto 12.
Qed.
Lemma kept_support m1 : counted m1 -> (forall u c, In (u, c) m1 -> u = end_ \/ is_leaf c = false) ->
  forall v, In v (keys m1) -> v = end_ \/ exists e, In e (near_out v) /\ supports (keys m1) e.
Proof.
  intros Hc Hl v Hv. apply keys_in in Hv as (c & Hv). destruct (Hl v c Hv) as [->|Hnl]; auto. right.
  apply nonleaf_support. rewrite (ct_counts _ _ _ _ Hc v c Hv) in Hnl. unfold is_leaf in Hnl. simpl in Hnl.
  apply Nat.eqb_neq in Hnl. lia.
Qed.

Lemma out_sub m gone : out_of_route es n on m = Done gone ->
  forall v, In v gone -> In v (valid m) /\ conflicts_with_route es on v = true.
Proof.
  unfold out_of_route. destruct (permit_all _ _ _ _ _) as [p| | |]; try discriminate. cbn [rbind]. intros [= <-] v Hv.
  apply filter_In in Hv as [Hv _]. apply filter_In in Hv. auto.
Qed.
Lemma out_nodup m gone : counted m -> out_of_route es n on m = Done gone -> NoDup gone.
Proof.
  intros Hc. unfold out_of_route. destruct (permit_all _ _ _ _ _) as [p| | |]; try discriminate. cbn [rbind]. intros [= <-].
  apply NoDup_filter, NoDup_filter, (valid_nodup es on last); auto.
Qed.
Lemma gone_off m gone v : out_of_route es n on m = Done gone -> In v gone -> ~ In v on.
Proof.
  intros E Hv Hon. destruct (out_sub m gone E v Hv) as [_ H]. unfold conflicts_with_route in H.
  apply mem_in in Hon. rewrite Hon in H. discriminate.
Qed.
Lemma valid_keys (m : visited) : incl (valid m) (keys m).
Proof. intros v H. unfold valid in H. apply in_map_iff in H as ((w & c) & <- & H). apply filter_In in H as [H _]. apply keys_in. simpl. eauto. Qed.

(** What a round adds. *)
Lemma add_spec : exists m1, counted m1 /\
  (forall v, In v (keys m1) -> clos_refl_trans nat (fun u t => In t (map e_tgt (near_out u))) begin v /\ v < n) /\
  (forall v, In v (keys m1) -> v = end_ \/ exists e, In e (near_out v) /\ supports (keys m1) e) /\
  add_adjacent es n on last begin end_ = rbind (out_of_route es n on m1) (fun gone =>
     Done (filter (fun v => negb (mem v on)) (valid (fold_left (fun m v => remove es on last v m) gone m1)))) /\
  (forall gone, out_of_route es n on m1 = Done gone -> exists m2,
     counted m2 /\ (forall v, In v (keys m2) <-> In v (keys m1) /\ ~ In v gone) /\
     add_adjacent es n on last begin end_ = Done (filter (fun v => negb (mem v on)) (valid m2))).
Proof.
  destruct round_spec as (m0 & m1 & E0 & E1 & Hc0 & Hk0 & Hn0 & Hp & Hc1 & Hi & Hl).
  exists m1. split; auto. split; [intros v Hv; split; [apply Hk0|apply Hn0]; auto|].
  split; [apply kept_support; auto|].
  assert (Eq : add_adjacent es n on last begin end_ = rbind (out_of_route es n on m1) (fun gone =>
     Done (filter (fun v => negb (mem v on)) (valid (fold_left (fun m v => remove es on last v m) gone m1))))).
  { unfold add_adjacent. rewrite E0, E1. auto. }
  split; auto. intros gone Eg.
  destruct (removes_counted es on last gone m1 Hc1 (out_nodup m1 gone Hc1 Eg)) as [Hc2 Hk2].
  { intros v Hv. apply valid_keys. eapply out_sub; eauto. }
  eexists. split; [exact Hc2|]. split; [exact Hk2|]. rewrite Eq, Eg. auto.
Qed.
End Round.

(** * Growing *)
Section Grow.
Variable last : list nat.
Variables begin end_ : nat.
Hypothesis Hbn : begin < n.
Notation near_step on := (fun u t => In t (map e_tgt (near_out es on last u))).

Lemma new_spec on new : In begin on -> add_adjacent es n on last begin end_ = Done new ->
  NoDup new /\ forall v, In v new -> ~ In v on /\ v < n /\ clos_refl_trans nat (near_step on) begin v /\
    exists m1, (forall u, In u (keys m1) -> u < n /\ (u = end_ \/ exists e, In e (near_out es on last u) /\ supports on (keys m1) e)) /\
      In v (keys m1).
Proof.
  intros Hb H. destruct (add_spec on last begin end_ Hbn Hb) as (m1 & Hc & Hk & Hs & E & Hd).
  destruct (out_of_route es n on m1) as [gone| | |] eqn:Eg; rewrite E in H; try discriminate.
  destruct (Hd gone eq_refl) as (m2 & Hc2 & Hk2 & E2). rewrite E in E2. cbn [rbind] in *. rewrite H in E2. injection E2 as ->.
  split; [apply NoDup_filter, (valid_nodup es on last); auto|].
  intros v Hv. apply filter_In in Hv as [Hv Hn]. apply negb_true_iff, mem_out in Hn. split; auto.
  apply valid_keys, Hk2 in Hv as [Hv _]. destruct (Hk v Hv). split; auto. split; auto.
  exists m1. split; auto. intros u Hu. split; [apply Hk|apply Hs]; auto.
Qed.

(** Whatever holds for the path and is kept by a round, holds for the route; and the last round adds nothing. *)
Lemma grow_inv (P : list nat -> Prop) :
  (forall on new, In begin on -> P on -> add_adjacent es n on last begin end_ = Done new -> P (new ++ on)) ->
  forall fuel on on', In begin on -> P on -> grow es n fuel last begin end_ on = Done on' ->
  P on' /\ incl on on' /\ add_adjacent es n on' last begin end_ = Done [].
Proof.
  intros HP. induction fuel as [|k IH]; intros on on' Hb Hp H; [discriminate|]. simpl in H.
  destruct (add_adjacent es n on last begin end_) as [new| | |] eqn:E; try discriminate. cbn [rbind] in H.
  destruct new as [|v new].
  - injection H as <-. split; auto. split; [apply incl_refl|auto].
  - destruct (IH ((v :: new) ++ on) on') as (H1 & H2 & H3); auto.
    + apply in_or_app; auto.
    + split; auto. split; auto. intros x Hx. apply H2, in_or_app; auto.
Qed.
(** The rounds come to an end. *)
Definition distinct (l : list nat) : nat := length (nodup Nat.eq_dec l).
Lemma distinct_bound on : (forall v, In v on -> v < n) -> distinct on <= n.
Proof. intros H. apply bounded_length; [apply NoDup_nodup|]. intros v Hv. apply nodup_In in Hv. auto. Qed.
Lemma distinct_app new on : NoDup new -> (forall v, In v new -> ~ In v on) -> distinct (new ++ on) = length new + distinct on.
Proof.
  intros Hnd Hd. unfold distinct. induction new as [|v new IH]; auto. apply NoDup_cons_iff in Hnd as [H1 H2]. simpl.
  destruct (in_dec Nat.eq_dec v (new ++ on)) as [Hi|Hi].
  - apply in_app_or in Hi as [Hi|Hi]; [tauto|]. destruct (Hd v); [left; auto|auto].
  - simpl. f_equal. apply IH; auto. intros w Hw. apply Hd. right; auto.
Qed.
Lemma grow_ends (Q : result (list nat) -> Prop) (P : list nat -> Prop) :
  (forall on new, In begin on -> P on -> add_adjacent es n on last begin end_ = Done new -> P (new ++ on)) ->
  (forall on, P on -> Q (Done on)) ->
  (forall on o, In begin on -> P on -> (forall v, In v on -> v < n) -> add_adjacent es n on last begin end_ = o ->
     match o with Done _ => True | Undefined => Q Undefined | Thrown => Q Thrown | Endless => Q Endless end) ->
  forall fuel on, In begin on -> P on -> (forall v, In v on -> v < n) -> n < fuel + distinct on ->
  Q (grow es n fuel last begin end_ on).
Proof.
  intros HP HQ Ho. induction fuel as [|k IH]; intros on Hb Hp Hn Hf.
  - pose proof (distinct_bound on Hn). lia.
  - simpl. pose proof (Ho on _ Hb Hp Hn eq_refl) as H. destruct (add_adjacent es n on last begin end_) as [new| | |] eqn:E; auto.
    cbn [rbind]. destruct new as [|v new]; auto. destruct (new_spec on (v :: new) Hb E) as [H1 H2]. apply IH.
    + apply in_or_app; auto.
    + eapply HP; eauto.
    + intros w Hw. apply in_app_or in Hw as [Hw|Hw]; auto. apply H2; auto.
    + rewrite distinct_app; auto; [simpl; lia|]. intros w Hw. apply H2; auto.
Qed.

(** ** Lanelets of the route are reached from its begin *)
Lemma near_drive on u t : near_step on u t -> drive u t.
Proof. intros H. apply in_map_iff in H as (e & <- & H). apply near_kind in H as (H1 & H2 & _ & H3). exists e. auto. Qed.
Lemma rt_mono {T} (R S : T -> T -> Prop) : (forall x y, R x y -> S x y) -> forall x y, clos_refl_trans T R x y -> clos_refl_trans T S x y.
Proof. intros H x y K. induction K; [apply rt_step; auto|apply rt_refl|eapply rt_trans; eauto]. Qed.
Lemma grow_reached fuel on on' : In begin on -> (forall v, In v on -> clos_refl_trans nat drive begin v /\ v < n) ->
  grow es n fuel last begin end_ on = Done on' ->
  (forall v, In v on' -> clos_refl_trans nat drive begin v /\ v < n) /\ incl on on'.
Proof.
  intros Hb Hr H. destruct (grow_inv (fun on => forall v, In v on -> clos_refl_trans nat drive begin v /\ v < n)) with (3 := Hr) (4 := H)
    as (H1 & H2 & _); auto.
  intros on1 new Hb1 Hp E v Hv. apply in_app_or in Hv as [Hv|Hv]; auto.
  destruct (new_spec on1 new Hb1 E) as [_ K]. destruct (K v Hv) as (_ & K1 & K2 & _). split; auto.
  eapply rt_mono; [|exact K2]. apply near_drive.
Qed.

(** ** Lanelets of the route lead to its end *)
Definition leads (v : nat) : Prop :=
  clos_refl_trans nat drive v end_ \/ exists w, clos_refl_trans nat drive v w /\ clos_trans nat succ w w.
Lemma leads_step u v : drive u v -> leads v -> leads u.
Proof.
  intros H [K|(w & K & Kw)]; [left|right; exists w; split; auto]; (eapply rt_trans; [apply rt_step, H|auto]).
Qed.
Lemma linked_last (R : nat -> nat -> Prop) l : forall x, In x l -> linked R l -> clos_refl_trans nat R x (List.last l x).
Proof.
  induction l as [|a l IH]; intros x Hx Hl; [destruct Hx|]. destruct l as [|b l].
  - destruct Hx as [<-|[]]. apply rt_refl.
  - destruct Hl as [H1 H2].
    assert (E : forall d d', List.last (b :: l) d = List.last (b :: l) d').
    { clear. revert b. induction l as [|c l IH]; intros b d d'; auto. apply (IH c). }
    change (clos_refl_trans nat R x (List.last (b :: l) x)). destruct Hx as [<-|Hx]; [|apply IH; auto].
    eapply rt_trans; [apply rt_step, H1|]. rewrite (E a b). apply IH; auto. left; auto.
Qed.
Lemma linked_snoc (R : nat -> nat -> Prop) l x y : linked R (l ++ [x]) -> R x y -> linked R (l ++ [x; y]).
Proof.
  induction l as [|a l IH]; simpl; intros H1 H2; [auto|]. destruct l as [|b l]; simpl in *; intuition.
Qed.
Lemma kept_leads on ks : (forall u, In u ks -> u < n /\ (u = end_ \/ exists e, In e (near_out es on last u) /\ supports on ks e)) ->
  (forall u, In u on -> leads u) -> forall v, In v ks -> leads v.
Proof.
  intros Hks Hon v Hv.
  assert (H : forall k p x, NoDup (p ++ [x]) -> linked succ (p ++ [x]) -> incl (p ++ [x]) ks -> n <= k + length p -> leads x).
  { induction k as [|k IH]; intros p x Hnd Hl Hi Hlen.
    - pose proof (bounded_length n _ Hnd) as Hb. rewrite app_length in Hb. simpl in Hb.
      assert (length p + 1 <= n); [|lia]. apply Hb. intros y Hy. apply Hks, Hi, Hy.
    - assert (Hx : In x ks) by (apply Hi, in_or_app; right; left; auto).
      destruct (Hks x Hx) as [_ [->|(e & He & Ht & Hk)]]; [left; apply rt_refl|].
      apply near_kind in He as (He & Es & _ & _). destruct Hk as [Hk|[Hk Hto]].
      + assert (Hs : succ x (e_tgt e)) by (exists e; auto).
        destruct (in_dec Nat.eq_dec (e_tgt e) (p ++ [x])) as [Hin|Hin].
        * right. exists (e_tgt e). split; [apply rt_step, succ_drive; auto|]. pose proof (linked_last succ _ _ Hin Hl) as Hr.
          rewrite last_last in Hr. apply clos_rt_t with x; auto. apply t_step; auto.
        * apply leads_step with (e_tgt e); [apply succ_drive; auto|]. apply (IH (p ++ [x])).
          -- apply NoDup_app; auto; [repeat constructor; auto|]. intros y Hy [<-|[]]. auto.
          -- rewrite <- app_assoc. apply linked_snoc; auto.
          -- intros y Hy. apply in_app_or in Hy as [Hy|[<-|[]]]; auto.
          -- rewrite app_length. simpl. lia.
      + apply leads_step with (e_tgt e); [apply change_drive; exists e; auto|auto]. }
  apply (H n [] v); simpl; auto.
  - repeat constructor; auto.
  - intros x [<-|[]]; auto.
  - lia.
Qed.
Lemma grow_leads fuel on on' : In begin on -> (forall v, In v on -> clos_refl_trans nat drive v end_) ->
  grow es n fuel last begin end_ on = Done on' -> forall v, In v on' -> leads v.
Proof.
  intros Hb Hr H. destruct (grow_inv (fun on => forall v, In v on -> leads v)) with (4 := H) as (H1 & _); auto.
  - intros on1 new Hb1 Hp E v Hv. apply in_app_or in Hv as [Hv|Hv]; auto.
    destruct (new_spec on1 new Hb1 E) as [_ K]. destruct (K v Hv) as (_ & _ & _ & m1 & K1 & K2).
    eapply kept_leads; eauto.
  - intros v Hv. left. auto.
Qed.
End Grow.
End Rounds.
