From Coq Require Import NArith ZArith List Bool Arith Lia Permutation.
From Verif Require Import CostAlg GraphModel GraphSpec GraphProofs TrafficModel BuilderModel BuilderSpec BuilderProofs BuilderProofs2.
Import ListNotations.
Local Open Scope nat_scope.

Section Whole.
Context {A : CostAlg}.
Variable one : cost A.
Variable w : world.
Variable ru : rules.
Variable costs : list (@module A).
Variable order : list (lref * lref) -> list (lref * lref).
Hypothesis one_good : good_cost one = true.
Hypothesis order_perm : forall c, Permutation (order c) c.
Hypothesis Hsane : sane w ru.

Notation triple := (elem * elem * einfo A)%type.
Notation mods := (modules costs).
Notation V := (vertices w ru).
Notation VS := (Vs w ru).
Notation idx := (flat_map (entries w) V).
Implicit Types (E X : list triple) (g : graph A).

Lemma in_passable l : In l (passable w ru) <-> snd l = false /\ In (fst l) (w_layer w) /\ may_use ru l = true.
Proof.
  unfold passable. rewrite filter_In, in_map_iff. destruct l as [d i]. simpl. split.
  - intros ((x & Heq & Hx) & Hm). injection Heq as -> <-. auto.
  - intros (-> & Hd & Hm). eauto.
Qed.
Lemma in_V l : In l V <-> usable w ru l.
Proof.
  unfold vertices, usable. rewrite in_app_iff, in_passable, in_map_iff. destruct l as [d i]. simpl. split.
  - intros [(-> & Hd & Hm)|(x & Heq & Hx)]; auto.
    unfold both_ways in Hx. apply filter_In in Hx as [Hx Hm]. apply in_passable in Hx as (Hs & Hd & Hm').
    destruct x as [d' j]. unfold inv in *. simpl in *. subst j. injection Heq as -> <-. auto.
  - intros (Hd & H1 & H2). destruct i; [right|left; auto]. exists (d, false). unfold inv. simpl. split; auto.
    unfold both_ways. apply filter_In. rewrite in_passable. simpl. auto.
Qed.
Lemma in_areas a : In a (passable_areas w ru) <-> usable_area w ru a.
Proof. unfold passable_areas, usable_area. rewrite filter_In. tauto. Qed.

Lemma filter_nodup {T} (f : T -> bool) l : NoDup l -> NoDup (filter f l).
Proof.
  induction l as [|x l IH]; simpl; auto. intros H. inversion H; subst. destruct (f x); auto. constructor; auto.
  rewrite filter_In. tauto.
Qed.
Lemma V_nodup : NoDup V.
Proof.
  assert (Hp : NoDup (passable w ru)).
  { apply filter_nodup. apply FinFun.Injective_map_NoDup; [|apply (layer_once _ _ Hsane)]. intros x y H. congruence. }
  unfold vertices. apply nodup_app; auto.
  - apply FinFun.Injective_map_NoDup; [|apply filter_nodup; auto].
    intros x y H. apply (f_equal inv) in H. rewrite !inv_inv in H. auto.
  - intros x Hx Hy. apply in_passable in Hx as (Hs & _). apply in_map_iff in Hy as (y & <- & Hy).
    apply filter_In in Hy as [Hy _]. apply in_passable in Hy as (Hs' & _). unfold inv in Hs. simpl in Hs.
    rewrite Hs' in Hs. discriminate.
Qed.

Definition all_verts : list elem := map L V ++ map EArea (passable_areas w ru).
Lemma verts_nodup : NoDup all_verts.
Proof.
  unfold all_verts. apply nodup_app.
  - apply FinFun.Injective_map_NoDup; [intros x y; apply L_inj|apply V_nodup].
  - apply FinFun.Injective_map_NoDup; [intros x y H; congruence|].
    apply filter_nodup. apply (areas_once _ _ Hsane).
  - intros x Hx Hy. apply in_map_iff in Hx as (l & <- & _). apply in_map_iff in Hy as (a & H & _). discriminate.
Qed.

Lemma verts_inv (l : list elem) : forall seen g, GraphProofs.inv seen g ->
  GraphProofs.inv (rev l ++ seen) (fold_left add_vertex l g) /\
  g_verts (fold_left add_vertex l g) = g_verts g ++ l /\ g_edges (fold_left add_vertex l g) = g_edges g.
Proof.
  induction l as [|a l IH]; intros seen g Hi; simpl.
  - rewrite app_nil_r. auto.
  - destruct (inv_vertex seen g a Hi) as (Hi' & He & _). destruct (IH _ _ Hi') as (H1 & H2 & H3).
    rewrite H2, H3, He. rewrite <- app_assoc. split; auto. split; auto. simpl. rewrite <- app_assoc. auto.
Qed.

Notation start_graph := (fold_left add_vertex (map L V) (empty_graph (N.of_nat (length costs)))).
Notation full_graph := (fold_left add_vertex (map EArea (passable_areas w ru)) start_graph).
Lemma full_repr : repr VS (full_graph : graph A) [].
Proof.
  destruct (verts_inv (map L V) [] (empty_graph (N.of_nat (length costs))) (inv_empty _)) as (H1 & H2 & H3).
  destruct (verts_inv (map EArea (passable_areas w ru)) _ _ H1) as (H4 & H5 & H6).
  rewrite app_nil_r in H4. unfold repr, Vs. split; [exact H4|]. split.
  - rewrite H5, H2. simpl. apply verts_nodup.
  - rewrite H6, H3. auto.
Qed.

Notation index_loop := (fun (st : graph A * index) l =>
          bind (add_points w (snd st) l) (fun idx => Ok (add_vertex (fst st) (L l), idx))).
Lemma index_loop_ok g i : each index_loop (empty_graph (N.of_nat (length costs)), []) V = Ok (g, i) ->
  g = start_graph /\ i = idx /\ forall l, In l V -> anchored w l.
Proof.
  intros H. pose (I := fun (P : list lref) (st : graph A * index) =>
    fst st = fold_left add_vertex (map L P) (empty_graph (N.of_nat (length costs))) /\
    snd st = flat_map (entries w) P /\ forall l, In l P -> anchored w l).
  change (I V (g, i)). revert H. apply each_inv.
  2:{ repeat split; auto. intros l []. }
  intros P l [g1 i1] st _ (H1 & H2 & H3) H. cbn [fst snd] in *. apply bind_ok in H as (i2 & Hp & H). injection H as <-.
  apply add_points_ok in Hp as (-> & Ha). unfold I. cbn [fst snd]. rewrite map_app, fold_left_app, flat_map_app. simpl.
  rewrite app_nil_r. split; [congruence|]. split; [congruence|].
  intros x Hx. apply in_app_iff in Hx as [Hx|[<-|[]]]; auto.
Qed.
Lemma index_loop_total : (forall l, In l V -> anchored w l) ->
  each index_loop (empty_graph (N.of_nat (length costs)), []) V = Ok (start_graph : graph A, idx).
Proof.
  intros Ha. destruct (each_total index_loop (fun _ => True) V) with (s := (empty_graph (A := A) (N.of_nat (length costs)), [] : index))
    as ([g i] & H & _); auto.
  - intros l st Hl _. rewrite (add_points_total w (snd st) l (Ha l Hl)). simpl. eauto.
  - etransitivity; [exact H|]. apply index_loop_ok in H as (-> & -> & _). auto.
Qed.
Lemma index_loop_ub l : In l V -> ~ anchored w l ->
  each index_loop (empty_graph (N.of_nat (length costs)), []) V = UB.
Proof.
  intros Hl Ha. assert (H : forall ls (st : graph A * index), In l ls -> each index_loop st ls = UB).
  { clear Hl. induction ls as [|x ls IH]; intros st Hl; [destruct Hl|].
    cbn [each]. destruct (add_points w (snd st) x) as [i| | |] eqn:Ep; cbn [bind].
    - destruct Hl as [->|Hl]; [|apply IH; auto]. apply add_points_ok in Ep as (_ & Ep). contradiction.
    - exfalso. revert Ep. unfold add_points, bind, of_option. repeat (destruct (key_of _ _ _); try discriminate).
    - auto.
    - exfalso. revert Ep. unfold add_points, bind, of_option. repeat (destruct (key_of _ _ _); try discriminate). }
  apply (H V). auto.
Qed.

(** * The edges of the finished graph *)
Definition quiet_areas : list triple := flat_map (area_contrib one w ru costs) (passable_areas w ru).
Record built g E0 (cs : side -> collector) (Q : side -> list (list (lref * lref))) : Prop := {
  bt_repr : repr VS g (((E0 ++ flat_map (contrib one w ru costs SLeft) (Q SLeft))
                            ++ flat_map (contrib one w ru costs SRight) (Q SRight)) ++ quiet_areas);
  bt_state : state one w ru costs V E0 cs;
  bt_all : forall s, Permutation (concat (Q s)) (cs s);
  bt_train : forall s, Forall (consec (onward E0)) (Q s);
  bt_closed : forall s, Forall (closed E0 (cs s)) (Q s);
  bt_anchored : forall l, In l V -> anchored w l }.

Lemma onward_quiet E X p q : quiet X -> onward (E ++ X) p q <-> onward E p q.
Proof. intros Hq. unfold onward. rewrite !nexts_quiet, !prevs_quiet; auto. tauto. Qed.
Lemma mutual_quiet E X p q : quiet X -> mutual (E ++ X) p q <-> mutual E p q.
Proof. intros Hq. unfold mutual. rewrite !nexts_quiet, !prevs_quiet; auto. tauto. Qed.
Lemma consec_impl {T} (R S : T -> T -> Prop) l : (forall x y, R x y -> S x y) -> consec R l -> consec S l.
Proof.
  intros H. induction l as [|x l IH]; auto. destruct l as [|y l]; auto. intros [H1 H2]. split; [auto|]. apply IH. auto.
Qed.
Lemma contribs_quiet s Q : quiet (flat_map (contrib one w ru costs s) Q).
Proof. intros t Ht. apply in_flat_map in Ht as (q & _ & Ht). eapply contrib_quiet; eauto. Qed.

Lemma build_shape g : build one w ru costs order = Ok g -> exists E0 cs Q, built g E0 cs Q.
Proof.
  intros H. unfold build in H. apply bind_ok in H as ([g0 i0] & H0 & H). apply index_loop_ok in H0 as (-> & -> & Ha).
  cbn [fst snd] in H. apply bind_ok in H as (g3 & H & Har). unfold lanelet_edges in H.
  apply bind_ok in H as ([[g1 cl] cr] & H1 & H).
  destruct (lanelet_loop one w ru costs order one_good (meet_sym _ _ Hsane) (fun l => near_once _ _ Hsane (L l)) V_nodup Ha
     _ _ _ _ full_repr H1) as (E0 & Hr & Hst).
  apply bind_ok in H as (g2 & HL & HR).
  apply (change_edges_ok one w ru costs order E0 cl (st_keys _ _ _ _ _ _ _ Hst SLeft) (order_perm cl)) in HL as (QL & [L1 L2 L3 L4]); auto.
  apply (change_edges_ok one w ru costs order _ cr (st_keys _ _ _ _ _ _ _ Hst SRight) (order_perm cr)) with (1 := L1) in HR as (QR & [R1 R2 R3 R4]).
  eapply area_edges_ok in Har; [|exact R1].
  exists E0, (two cl cr), (fun s => match s with SLeft => QL | SRight => QR end). constructor; auto.
  - intros []; auto.
  - intros []; auto. eapply Forall_impl; [|exact R3]. intros q. apply consec_impl. intros x y. apply onward_quiet. apply contribs_quiet.
  - intros []; auto. eapply Forall_impl; [|exact R4]. intros q Hc a b Hx Hy Hm. apply Hc; auto.
    apply mutual_quiet; auto. apply contribs_quiet.
Qed.

(** * Totality *)
Hypothesis costs_ok : forall m, In m costs ->
  (forall a b, unsigned (m_succeeding m a b)) /\ (forall f t, unsigned (m_change m f t)).
Definition fine g : Prop := exists E, repr VS g E.
Lemma one_unsigned : unsigned one.
Proof.
  left. unfold good_cost in one_good. apply andb_true_iff in one_good as [_ H]. apply negb_true_iff in H. auto.
Qed.
Lemma mods_in km : In km mods -> In (snd km) costs.
Proof. destruct km as [k m]. unfold modules. intros H. apply in_combine_r in H. auto. Qed.
Lemma assign_total g a b r : fine g -> exists g', assign_costs one costs g a b r = Ok g' /\ fine g'.
Proof.
  intros [E Hr].
  destruct (puts_total VS (fun km : N * @module A => (a, b, EInfo (edge_cost one (snd km) a b r) (fst km) r)) mods g E Hr) as (g' & H & Hr').
  - intros km Hk. simpl. apply mods_in in Hk. apply costs_ok in Hk as [Hk _]. unfold edge_cost.
    destruct r; auto using one_unsigned.
  - exists g'. split; [exact H|]. eexists. eauto.
Qed.
Lemma bind_total {S T} (r : res S) (f : S -> res T) (P : S -> Prop) (Q : T -> Prop) :
  (exists x, r = Ok x /\ P x) -> (forall x, P x -> exists y, f x = Ok y /\ Q y) -> exists y, bind r f = Ok y /\ Q y.
Proof. intros (x & -> & Hx) H. simpl. auto. Qed.
Lemma cond_total (b : bool) g x y r : fine g ->
  exists g', (if b then assign_costs one costs g x y r else Ok g) = Ok g' /\ fine g'.
Proof. intros Hf. destruct b; [apply assign_total; auto|eauto]. Qed.

Lemma following_total l g : anchored w l -> fine g ->
  exists g', add_following one w ru costs idx g l = Ok g' /\ fine g'.
Proof.
  intros (p & q & x & y & _ & He) Hf. apply ends_iff in He as [H1 H2]. unfold add_following. rewrite H1, H2. simpl.
  apply each_total; auto. intros n g' _. apply assign_total.
Qed.
Lemma sideway_total s l g c : anchored w l -> fine g ->
  exists st, add_sideway one w ru costs s idx l (g, c) = Ok st /\ fine (fst st).
Proof.
  intros (p & q & x & y & Hs & He) Hf. apply starts_iff in Hs as [H1 H2]. apply ends_iff in He as [H3 H4]. unfold add_sideway.
  assert (Hk : exists k, key_of w (first w (side_bound w s l)) (last w (side_bound w s l)) = Some k).
  { destruct s; simpl; rewrite ?H1, ?H2, ?H3, ?H4; simpl; eauto. }
  destruct Hk as [k ->]. simpl. apply (each_total _ (fun st : graph A * collector => fine (fst st))); auto.
  intros b [g' c'] _ Hg. cbn [fst] in Hg. destruct (_ && _ && _); [|eauto].
  destruct (may_change ru l b); [simpl; eauto|].
  eapply bind_total; [apply assign_total; auto|]. intros g2 Hg2. simpl. eauto.
Qed.
Lemma conflicting_total l g : fine g -> exists g', add_conflicting one w ru costs g l = Ok g' /\ fine g'.
Proof.
  intros Hf. unfold add_conflicting. apply each_total; auto. intros d g' _ Hg.
  destruct (_ && _). { eapply bind_total; [apply assign_total; auto|]. intros; apply assign_total; auto. }
  destruct (has_edge _ _ _); eauto. destruct (_ || _); eauto. destruct (overlaps _ _ _); eauto.
  eapply bind_total; [apply assign_total; auto|]. intros; apply assign_total; auto.
Qed.
Lemma assign_change_total s seq : forall g, fine g -> exists g', assign_change one costs s g seq = Ok g' /\ fine g'.
Proof.
  induction seq as [|[x y] rest IH]; intros g [E Hr]; [exists g; unfold fine; simpl; eauto|]. cbn [assign_change].
  eapply bind_total; [|exact IH].
  destruct (puts_total VS (fun m => (L x, L y, change_info one m s (map fst ((x, y) :: rest)) (map snd ((x, y) :: rest)))) mods g E Hr) as (g' & H & Hr').
  - intros km Hk. simpl. apply mods_in in Hk. apply costs_ok in Hk as [_ Hk]. unfold change_info.
    destruct (negb _); simpl; auto using one_unsigned.
  - exists g'. split; [exact H|]. eexists. eauto.
Qed.
Lemma filter_length_le {T} (f : T -> bool) l : length (filter f l) <= length l.
Proof. induction l as [|x l IH]; simpl; auto. destruct (f x); simpl; lia. Qed.
Lemma change_total s g c : NoDup (map fst c) -> fine g ->
  exists g', change_edges one costs order s g c = Ok g' /\ fine g'.
Proof.
  intros Hn Hf. unfold change_edges. eapply (bind_total _ _ (fun st : graph A * list lref => fine (fst st))).
  - apply (each_total _ (fun st : graph A * list lref => fine (fst st))); auto.
    intros [a b] [g1 v] _ Hg. cbn [fst snd] in *. destruct (visited v a); [eauto|].
    assert (Hwalk : forall adj v a b, exists r, walk adj c (S (length c)) v a b = Ok r).
    { clear -Hn one w ru costs order one_good. intros adj v a b. apply (walk_total one one_good adj c (S (length c)) v a b Hn).
      pose proof (filter_length_le (fun x => negb (visited v x)) (map fst c)). rewrite map_length in *. lia. }
    unfold sequence. destruct (Hwalk (nexts g1) (a :: v) a b) as [[F vf] ->]. cbn [bind fst snd].
    destruct (Hwalk (prevs g1) vf a b) as [[P vp] ->]. cbn [bind fst snd].
    destruct (assign_change_total s (rev P ++ (a, b) :: F) g1 Hg) as (g2 & -> & Hg2). simpl. eauto.
  - intros [g1 v] H. simpl in *. eauto.
Qed.
Lemma areas_total g : fine g -> exists g', area_edges one w ru costs g = Ok g' /\ fine g'.
Proof.
  intros Hf. unfold area_edges. apply each_total; auto. intros a g1 _ Hg1.
  eapply (bind_total _ _ fine).
  - unfold area_lanelets. apply each_total; auto. intros d g2 _ Hg2.
    eapply bind_total; [apply cond_total; auto|]. intros g3 Hg3.
    eapply bind_total; [apply cond_total; auto|]. intros g4 Hg4.
    eapply bind_total; [apply cond_total; auto|]. intros g5 Hg5.
    eapply bind_total; [apply cond_total; auto|]. intros g6 Hg6.
    destruct (_ || _ || _ || _); [eauto|]. apply cond_total; auto.
  - intros g2 Hg2. unfold area_areas. apply each_total; auto. intros b g3 _ Hg3.
    destruct (N.eqb b a); [eauto|]. destruct (may_pass _ _ _); [apply assign_total; auto|]. apply cond_total; auto.
Qed.
Lemma build_total : (forall l, In l V -> anchored w l) -> exists g, build one w ru costs order = Ok g.
Proof.
  intros Ha. unfold build. rewrite (index_loop_total Ha). cbn [bind].
  assert (Hfin : fine (full_graph : graph A)) by (eexists; apply full_repr).
  assert (Hl : exists g', lanelet_edges one w ru costs order idx (full_graph : graph A) = Ok g' /\ fine g').
  { unfold lanelet_edges.
    destruct (each_total (fun (st : graph A * collector * collector) l =>
      let '(g, cl, cr) := st in
      bind (add_following one w ru costs idx g l) (fun g =>
      bind (add_sideway one w ru costs SLeft idx l (g, cl)) (fun gl =>
      bind (add_sideway one w ru costs SRight idx l (fst gl, cr)) (fun gr =>
      bind (add_conflicting one w ru costs (fst gr) l) (fun g => Ok (g, snd gl, snd gr))))))
      (fun st => fine (fst (fst st))) V) with (s := (full_graph : graph A, [] : collector, [] : collector))
      as ([[g1 cl] cr] & H1 & Hf1); auto.
    - intros l [[g1 cl] cr] Hl Hg. cbn [fst] in Hg.
      destruct (following_total l g1 (Ha l Hl) Hg) as (g2 & -> & Hg2). cbn [bind].
      destruct (sideway_total SLeft l g2 cl (Ha l Hl) Hg2) as ([g3 cl3] & -> & Hg3). cbn [bind fst snd] in *.
      destruct (sideway_total SRight l g3 cr (Ha l Hl) Hg3) as ([g4 cr4] & -> & Hg4). cbn [bind fst snd] in *.
      destruct (conflicting_total l g4 Hg4) as (g5 & -> & Hg5). cbn [bind]. eauto.
    - eapply (bind_total _ _ (fun st => st = (g1, cl, cr))); [exists (g1, cl, cr); split; [exact H1|reflexivity]|].
      intros st ->. cbn [fst] in Hf1.
      destruct (lanelet_loop one w ru costs order one_good (meet_sym _ _ Hsane) (fun l => near_once _ _ Hsane (L l)) V_nodup Ha
        _ _ _ _ full_repr H1) as (E0 & Hr & Hst).
      destruct (change_total SLeft g1 cl (st_keys _ _ _ _ _ _ _ Hst SLeft) Hf1) as (g2 & -> & Hf2). cbn [bind].
      apply (change_total SRight g2 cr (st_keys _ _ _ _ _ _ _ Hst SRight) Hf2). }
  destruct Hl as (g' & Hl & Hf'). cbn [fst snd]. rewrite Hl. cbn [bind].
  destruct (areas_total g' Hf') as (g2 & H & _). eauto.
Qed.
End Whole.
