(** Proof of the map round trip. *)
From Coq Require Import List Arith Bool String Ascii ZArith Sorted Permutation Lia.
From Verif Require Import AttrModel OsmModel BoundaryModel OsmSpec OsmProofs OsmRelProofs OsmMapModel BoundarySpec BoundaryProofs OsmMapSpec OsmWriteProofs OsmTripSpec.
From Verif Require OsmRoundProofs.
Import ListNotations.
Local Open Scope string_scope.
Local Open Scope list_scope.

(** Maps and their lookup. *)
Lemma is_map_get {V} (l : list (Z * V)) Q k v : is_map Z.ltb l Q -> (zget k l = Some v <-> Q k v).
Proof. intros [S H]. rewrite <- H. apply (mget_In Z.ltb zirr ztra ztot). auto. Qed.
Lemma is_map_none {V} (l : list (Z * V)) (Q : Z -> V -> Prop) k : is_map Z.ltb l Q -> (zget k l = None <-> forall v, ~ Q k v).
Proof.
  intros H. split.
  - intros E v Hv. apply (is_map_get l Q k v H) in Hv. congruence.
  - intros E. destruct (zget k l) as [v|] eqn:G; auto. apply (is_map_get l Q k v H) in G. destruct (E _ G).
Qed.
Lemma is_map_nodup {V} (l : list (Z * V)) Q : is_map Z.ltb l Q -> List.NoDup (map fst l).
Proof.
  intros [S _]. revert S. generalize (map fst l). clear. intros l. induction l as [|a l IH]; intros S; constructor; inversion S; subst; auto.
  intros Hin. rewrite List.Forall_forall in H2. specialize (H2 a Hin). rewrite Z.ltb_irrefl in H2. discriminate.
Qed.
Lemma sget_only k v a a' : tagged k v a a' -> only k v a -> sget k a' = Some v.
Proof.
  intros [S H] O. apply (mget_In String.ltb sirr stra stot); auto. apply H.
  destruct (in_dec string_dec k (map fst a)) as [I|N]; [|auto].
  left. apply in_map_iff in I. destruct I as ([k' w] & E & I). cbn in E. subst k'. rewrite <- (O w I). auto.
Qed.
Lemma sget_sorted k v (a : attributes) : sorted_attrs a -> (sget k a = Some v <-> In (k, v) a).
Proof. intros S. apply (mget_In String.ltb sirr stra stot). auto. Qed.

(** The members of a member list, by role. *)
Lemma filter_flat_map {A B} (g : B -> bool) (h : A -> list B) l : filter g (flat_map h l) = flat_map (fun x => filter g (h x)) l.
Proof. induction l as [|x l IH]; cbn; auto. rewrite filter_app, IH. auto. Qed.
Lemma flat_map_singleton {A B} (g : A -> B) l : flat_map (fun x => [g x]) l = map g l.
Proof. induction l; cbn; congruence. Qed.

Section Trip.
Context {P D : Type}.
Variable to_geo : P -> option (D * D * D).
Variable from_geo : D * D * D -> option P.
Variable origin : P.
Variable align : list P -> list P -> bool * bool.
Variable ring_valid : list P -> bool.
Variable create : string -> mreg -> bool.
Variable m : @mmap P.
Hypothesis OK : map_ok to_geo from_geo align ring_valid create m.

Lemma regs_distinct l : regs_ok m l -> forall i, In i l -> ~ In i (map fst (m_lanelets m) ++ map fst (m_areas m)).
Proof.
  intros R i Hi Hn. destruct OK as (_ & _ & N & _). unfold rel_ids in N. specialize (R i Hi). unfold in_layer in R.
  revert N R Hn. generalize (map fst (m_regs m)), (map fst (m_lanelets m) ++ map fst (m_areas m)). clear.
  intros a b. induction a as [|x a IH]; cbn; [tauto|]. intros N [->|R] Hb; inversion N; subst; auto.
  apply H1. apply in_or_app. auto.
Qed.
Lemma ok_distinct : ids_distinct m.
Proof.
  destruct OK as (_ & _ & N & _ & _ & _ & L & A & _). split; [exact N|]. split.
  - intros k l i Hk Hi. apply (regs_distinct (ll_regs l)); auto. apply (L k l Hk).
  - intros k l i Hk Hi. apply (regs_distinct (ar_regs l)); auto. apply (A k l Hk).
Qed.
Lemma in_rel_ids i : in_layer (m_regs m) i \/ in_layer (m_lanelets m) i \/ in_layer (m_areas m) i -> rel_in m i = true.
Proof.
  intros H. apply existsb_exists. exists i. rewrite Z.eqb_refl. split; auto. unfold rel_ids, in_layer in *. rewrite !in_app_iff. auto.
Qed.
Lemma params_ok k x role p : In (k, x) (m_regs m) -> In (role, p) (params x) -> param_ok m p.
Proof.
  intros Hk Hp. destruct OK as (_ & _ & _ & _ & _ & _ & _ & _ & R). destruct (R k x Hk) as (_ & _ & _ & _ & H).
  unfold params in Hp. apply in_flat_map in Hp. destruct Hp as ([r l] & H1 & H2). cbn [fst snd] in H2.
  apply in_map_iff in H2. destruct H2 as (p' & [= <- <-] & H3). eauto.
Qed.
Lemma weak_in p i : param_ok m p -> In i (weak p) -> rel_in m i = true.
Proof.
  destruct p as [j|j v|j|[j|]|[j|]]; cbn; try tauto; intros (i' & [= <-] & H) [<-|[]]; apply in_rel_ids; auto.
Qed.
Lemma ok_missing_last : missing_last m.
Proof.
  intros k r a x b i Hk E W X. exfalso. destruct x as [role p]. cbn [snd] in W.
  assert (Hp : param_ok m p) by (apply (params_ok k r role p Hk); rewrite E; apply in_or_app; cbn; auto).
  rewrite (weak_in p i Hp) in X by (rewrite W; cbn; auto). discriminate.
Qed.

Lemma known_in i : in_layer (m_points m) i -> known to_geo m i = true.
Proof.
  unfold in_layer. intros H. apply in_map_iff in H. destruct H as ([k p] & <- & H). destruct OK as (_ & _ & _ & PO & _).
  destruct (PO k p H) as (g & G & _). apply existsb_exists. exists (k, p). split; auto. cbn [fst snd]. rewrite Z.eqb_refl, G. auto.
Qed.
Lemma ok_node_errors : node_errors to_geo m = [].
Proof.
  destruct OK as (_ & _ & _ & PO & _). apply flat_map_none. intros [k p] H. cbn [fst snd]. destruct (PO k p H) as (g & -> & _). auto.
Qed.
Lemma ok_way_errors : way_errors to_geo m = [].
Proof.
  destruct OK as (_ & _ & _ & _ & LO & GO & _). unfold way_errors. rewrite !flat_map_none; auto.
  - intros [k g] H. cbn [fst snd]. destruct (GO k g H) as (_ & K & _). rewrite (proj2 (forallb_forall _ _)); auto. intros i Hi. apply known_in. auto.
  - intros [k g] H. cbn [fst snd]. destruct (LO k g H) as (_ & K & _). rewrite (proj2 (forallb_forall _ _)); auto. intros i Hi. apply known_in. auto.
Qed.

Variable f : @file D.
Hypothesis Hn : is_map Z.ltb (f_nodes f) (node_of to_geo m).
Hypothesis Hw : is_map Z.ltb (f_ways f) (way_of to_geo m).
Hypothesis Hr : is_map Z.ltb (f_rels f) (rel_of m (f_nodes f) (f_ways f)).

Lemma node_get i : in_layer (m_points m) i -> exists n, zget i (f_nodes f) = Some n /\ n_id n = i.
Proof.
  unfold in_layer. intros H. apply in_map_iff in H. destruct H as ([k p] & <- & H). destruct OK as (_ & _ & _ & PO & _). cbn [fst].
  destruct (PO k p H) as ([[lat lon] ele] & G & _). exists (Node k (p_attrs p) lat lon ele). split; auto.
  apply (is_map_get _ _ _ _ Hn). exists p, lat, lon, ele. auto.
Qed.
Lemma line_get i l : In (i, l) (m_lines m) -> zget i (f_ways f) = Some (Way i (ml_attrs l) (ml_pts l)).
Proof.
  intros H. apply (is_map_get _ _ _ _ Hw). split; auto. cbn [w_attrs w_nodes]. split; [left; eauto|].
  destruct OK as (_ & _ & _ & _ & LO & _). destruct (LO i l H) as (_ & K & _). intros j Hj. apply known_in. auto.
Qed.
Lemma poly_get i g : In (i, g) (m_polys m) -> exists a, tagged "area" "true" (mg_attrs g) a /\ zget i (f_ways f) = Some (Way i a (mg_pts g)).
Proof.
  intros H. exists (semplace "area" "true" (mg_attrs g)). destruct OK as ((_ & _ & SA) & _ & _ & _ & _ & GO & _).
  pose proof (tagged_emplace "area" "true" (mg_attrs g) (SA _ _ H)) as T. split; auto.
  apply (is_map_get _ _ _ _ Hw). split; auto. cbn [w_attrs w_nodes]. split; [right; eauto|].
  destruct (GO i g H) as (_ & K & _). intros j Hj. apply known_in. auto.
Qed.
Lemma way_get i : in_layer (m_lines m) i \/ in_layer (m_polys m) i -> exists w, zget i (f_ways f) = Some w /\ w_id w = i.
Proof.
  unfold in_layer. intros [H|H]; apply in_map_iff in H; destruct H as ([k x] & <- & H); cbn [fst].
  - exists (Way k (ml_attrs x) (ml_pts x)). split; auto. apply line_get. auto.
  - destruct (poly_get k x H) as (a & _ & E). eauto.
Qed.
Lemma has_nodes i : in_layer (m_points m) i -> has (f_nodes f) i = true.
Proof. intros H. rewrite has_zget by apply Hn. destruct (node_get i H) as (n & -> & _). auto. Qed.
Lemma has_ways i : in_layer (m_lines m) i \/ in_layer (m_polys m) i -> has (f_ways f) i = true.
Proof. intros H. rewrite has_zget by apply Hw. destruct (way_get i H) as (n & -> & _). auto. Qed.
Lemma has_regs i : in_layer (m_regs m) i -> has (m_regs m) i = true.
Proof. apply has_In. Qed.

(** The members. *)
Definition param_ref (p : param) : ref :=
  match p with
  | PPoint i => RNode i | PLine i _ | PPoly i => RWay i
  | PLanelet (Some i) | PArea (Some i) => RRel i
  | PLanelet None | PArea None => RNull
  end.
Lemma param_member_ok role p : param_ok m p -> param_member m (f_nodes f) (f_ways f) role p = [(role, param_ref p)].
Proof.
  destruct p as [i|i v|i|[i|]|[i|]]; cbn [param_ok param_member param_ref way_member]; unfold way_member.
  - intros H. rewrite has_nodes; auto.
  - intros [_ H]. rewrite has_ways; auto.
  - intros H. rewrite has_ways; auto.
  - intros (j & [= <-] & H). rewrite in_rel_ids; auto.
  - intros (j & [=] & _).
  - intros (j & [= <-] & H). rewrite in_rel_ids; auto.
  - intros (j & [=] & _).
Qed.
Lemma reg_members_ok k x : In (k, x) (m_regs m) ->
  reg_members m (f_nodes f) (f_ways f) x = map (fun rp => (fst rp, param_ref (snd rp))) (params x).
Proof.
  intros Hk. unfold reg_members. rewrite <- flat_map_singleton. apply flat_map_ext'. intros [role p] Hp. cbn [fst snd].
  apply param_member_ok. eapply params_ok; eauto.
Qed.
Lemma way_members_ok role l : (forall i, In i l -> in_layer (m_lines m) i) -> flat_map (way_member (f_ways f) role) l = map (fun i => (role, RWay i)) l.
Proof. intros H. rewrite <- flat_map_singleton. apply flat_map_ext'. intros i Hi. unfold way_member. rewrite has_ways; auto. Qed.
Lemma regs_members_ok l : regs_ok m l -> flat_map (reg_member m) l = map (fun i => ("regulatory_element", RRel i)) l.
Proof. intros H. rewrite <- flat_map_singleton. apply flat_map_ext'. intros i Hi. unfold reg_member. rewrite has_regs; auto. Qed.

Lemma lanelet_parts k x : In (k, x) (m_lanelets m) -> exists l il r ir, ll_left x = Bound l il /\ ll_right x = Bound r ir /\
  in_layer (m_lines m) l /\ in_layer (m_lines m) r /\ (forall i, In i (custom x) -> in_layer (m_lines m) i) /\
  lanelet_members m (f_ways f) x = [("left", RWay l); ("right", RWay r)] ++ map (fun i => ("centerline", RWay i)) (custom x) ++
    map (fun i => ("regulatory_element", RRel i)) (ll_regs x).
Proof.
  intros Hk. destruct OK as (_ & _ & _ & _ & _ & _ & LO & _). destruct (LO k x Hk) as (_ & Ro & (l & il & r & ir & El & Er & Il & Ir & _) & C).
  exists l, il, r, ir. do 4 (split; auto).
  assert (K : forall i, In i (custom x) -> in_layer (m_lines m) i).
  { unfold custom. intros i Hi. destruct (ll_center x) as [c|]; [|destruct Hi]. destruct (C c eq_refl) as (j & -> & Nz & Hj). cbn [bid] in Hi.
    destruct (Z.eqb_spec j 0); [congruence|]. destruct Hi as [<-|[]]. auto. }
  split; auto. unfold lanelet_members. rewrite El, Er. cbn [bid]. rewrite way_members_ok, regs_members_ok by auto.
  unfold way_member. rewrite !has_ways by auto. auto.
Qed.
Lemma with_points_in h x : with_points m h x -> in_layer (m_lines m) (fst h).
Proof. intros (l & H & _). apply (in_map fst) in H. auto. Qed.
Lemma area_outer k x i : In (k, x) (m_areas m) -> In i (map fst (ar_outer x)) -> in_layer (m_lines m) i.
Proof.
  intros Hk Hi. destruct OK as (_ & _ & _ & _ & _ & _ & _ & AO & _). destruct (AO k x Hk) as (_ & _ & (r & F & _) & _).
  induction F as [|h y l l' W F IH]; cbn in Hi; [tauto|]. destruct Hi as [<-|Hi]; auto. eapply with_points_in; eauto.
Qed.
Lemma area_inner k x i : In (k, x) (m_areas m) -> In i (inner_ids x) -> in_layer (m_lines m) i.
Proof.
  intros Hk Hi. destruct OK as (_ & _ & _ & _ & _ & _ & _ & AO & _). destruct (AO k x Hk) as (_ & _ & _ & (rs & F & _)).
  unfold inner_ids in Hi. induction F as [|h y l l' W F IH]; cbn in Hi; [tauto|]. apply in_app_or in Hi. destruct Hi as [Hi|Hi]; auto.
  clear -W Hi. induction W as [|h y l l' V F IH]; cbn in Hi; [tauto|]. destruct Hi as [<-|Hi]; auto. eapply with_points_in; eauto.
Qed.
Lemma area_parts k x : In (k, x) (m_areas m) ->
  area_members m (f_ways f) x = map (fun i => ("outer", RWay i)) (map fst (ar_outer x)) ++ map (fun i => ("inner", RWay i)) (inner_ids x) ++
    map (fun i => ("regulatory_element", RRel i)) (ar_regs x).
Proof.
  intros Hk. destruct OK as (_ & _ & _ & _ & _ & _ & _ & AO & _). destruct (AO k x Hk) as (_ & Ro & _).
  unfold area_members. rewrite !way_members_ok, regs_members_ok; eauto using area_outer, area_inner.
Qed.

Lemma ok_rel_errors : rel_errors m (f_nodes f) (f_ways f) = [].
Proof.
  assert (WE : forall k i, in_layer (m_lines m) i \/ in_layer (m_polys m) i -> way_error (f_ways f) k i = []) by
    (intros k i H; unfold way_error; rewrite has_ways; auto).
  assert (RE : forall k l, regs_ok m l -> flat_map (reg_error m k) l = []).
  { intros k l H. apply flat_map_none. intros i Hi. unfold reg_error. rewrite has_regs; auto. }
  unfold rel_errors. rewrite !flat_map_none; auto.
  - intros [k x] Hk. cbn [fst snd]. apply flat_map_none. intros [role p] Hp. cbn [snd]. unfold later_error. apply flat_map_none.
    intros i Hi. rewrite (weak_in p i); auto. eapply params_ok; eauto.
  - intros [k x] Hk. cbn [fst snd]. destruct OK as (_ & _ & _ & _ & _ & _ & _ & AO & _). destruct (AO k x Hk) as (_ & Ro & _).
    rewrite RE by auto. rewrite !flat_map_none; auto; intros i Hi; apply WE; left; eauto using area_outer, area_inner.
  - intros [k x] Hk. cbn [fst snd]. destruct OK as (_ & _ & _ & _ & _ & _ & LO & _). destruct (LO k x Hk) as (_ & Ro & _).
    destruct (lanelet_parts k x Hk) as (l & il & r & ir & El & Er & Il & Ir & C & _). rewrite El, Er, RE by auto. cbn [bid].
    rewrite !WE by auto. rewrite flat_map_none; auto.
  - intros [k x] Hk. cbn [fst snd]. apply flat_map_none. intros [role p] Hp. cbn [snd]. pose proof (params_ok k x role p Hk Hp) as PO.
    destruct p as [i|i v|i|[i|]|[i|]]; cbn [param_ok param_error] in *; auto.
    + rewrite has_nodes; auto.
    + destruct PO. apply WE; auto.
    + destruct PO as (j & [=] & _).
    + destruct PO as (j & [=] & _).
Qed.

(** ** The relations of the file *)
Lemma reg_get k x : In (k, x) (m_regs m) -> exists a, tagged "type" "regulatory_element" (re_attrs x) a /\
  zget k (f_rels f) = Some (Relation k a (map (fun rp => (fst rp, param_ref (snd rp))) (params x))).
Proof.
  intros H. destruct OK as (_ & (SA & _ & _) & _). pose proof (tagged_emplace "type" "regulatory_element" _ (SA k x H)) as T.
  eexists. split; [exact T|]. apply (is_map_get _ _ _ _ Hr). split; auto. left. exists x. cbn [r_attrs r_members]. rewrite (reg_members_ok k) by auto. auto.
Qed.
Lemma lanelet_get k x : In (k, x) (m_lanelets m) -> exists a, tagged "type" "lanelet" (ll_attrs x) a /\
  zget k (f_rels f) = Some (Relation k a (lanelet_members m (f_ways f) x)).
Proof.
  intros H. destruct OK as (_ & (_ & SA & _) & _). pose proof (tagged_emplace "type" "lanelet" _ (SA k x H)) as T.
  eexists. split; [exact T|]. apply (is_map_get _ _ _ _ Hr). split; auto. right; left. exists x. auto.
Qed.
Lemma area_get k x : In (k, x) (m_areas m) -> exists a, tagged "type" "multipolygon" (ar_attrs x) a /\
  zget k (f_rels f) = Some (Relation k a (area_members m (f_ways f) x)).
Proof.
  intros H. destruct OK as (_ & (_ & _ & SA) & _). pose proof (tagged_emplace "type" "multipolygon" _ (SA k x H)) as T.
  eexists. split; [exact T|]. apply (is_map_get _ _ _ _ Hr). split; auto. right; right. exists x. auto.
Qed.
Inductive kind (k : Z) : relation -> Prop :=
| kind_reg : forall x a, In (k, x) (m_regs m) -> tagged "type" "regulatory_element" (re_attrs x) a -> sget "type" a = Some "regulatory_element" ->
    kind k (Relation k a (map (fun rp => (fst rp, param_ref (snd rp))) (params x)))
| kind_lanelet : forall x a, In (k, x) (m_lanelets m) -> tagged "type" "lanelet" (ll_attrs x) a -> sget "type" a = Some "lanelet" ->
    kind k (Relation k a (lanelet_members m (f_ways f) x))
| kind_area : forall x a, In (k, x) (m_areas m) -> tagged "type" "multipolygon" (ar_attrs x) a -> sget "type" a = Some "multipolygon" ->
    kind k (Relation k a (area_members m (f_ways f) x)).
Lemma rel_kind k r : In (k, r) (f_rels f) -> kind k r.
Proof.
  intros H. apply Hr in H. destruct r as [i a ms]. destruct H as (E & H). cbn [r_id r_attrs r_members] in *. subst i.
  destruct OK as (_ & _ & _ & _ & _ & _ & LO & AO & RO).
  destruct H as [(x & H & T & ->)|[(x & H & T & ->)|(x & H & T & ->)]].
  - rewrite (reg_members_ok k) by auto. constructor; auto. eapply sget_only; eauto. apply (RO k x H).
  - constructor; auto. eapply sget_only; eauto. apply (LO k x H).
  - constructor; auto. eapply sget_only; eauto. apply (AO k x H).
Qed.
Lemma rel_id k r : In (k, r) (f_rels f) -> r_id r = k.
Proof. intros H. apply rel_kind in H. destruct H; auto. Qed.

(** ** Pointers *)
Lemma target_way i : in_layer (m_lines m) i \/ in_layer (m_polys m) i -> deref f (RWay i) = Some ("way", i).
Proof. intros H. cbn. destruct (way_get i H) as (w & -> & ->). auto. Qed.
Lemma target_node i : in_layer (m_points m) i -> deref f (RNode i) = Some ("node", i).
Proof. intros H. cbn. destruct (node_get i H) as (w & -> & ->). auto. Qed.
Lemma target_rel i : in_layer (m_regs m) i \/ in_layer (m_lanelets m) i \/ in_layer (m_areas m) i -> deref f (RRel i) = Some ("relation", i).
Proof.
  unfold in_layer. intros [H|[H|H]]; apply in_map_iff in H; destruct H as ([k x] & <- & H); cbn [fst deref].
  - destruct (reg_get k x H) as (a & _ & ->). auto.
  - destruct (lanelet_get k x H) as (a & _ & ->). auto.
  - destruct (area_get k x H) as (a & _ & ->). auto.
Qed.
Lemma param_deref p : param_ok m p -> exists t, deref f (param_ref p) = Some t.
Proof.
  destruct p as [i|i v|i|[i|]|[i|]]; cbn [param_ok param_ref].
  - intros H. eexists. apply target_node; auto.
  - intros [_ H]. eexists. apply target_way; auto.
  - intros H. eexists. apply target_way; auto.
  - intros (j & [= <-] & H). eexists. apply target_rel; auto.
  - intros (j & [=] & _).
  - intros (j & [= <-] & H). eexists. apply target_rel; auto.
  - intros (j & [=] & _).
Qed.
Lemma member_deref k r x : In (k, r) (f_rels f) -> In x (r_members r) -> exists t, deref f (snd x) = Some t.
Proof.
  intros H. apply rel_kind in H. destruct OK as (_ & _ & _ & _ & _ & _ & LO & AO & RO).
  destruct H as [y a H T Ty|y a H T Ty|y a H T Ty]; cbn [r_members].
  - intros Hx. apply in_map_iff in Hx. destruct Hx as ([role p] & <- & Hp). cbn [fst snd]. apply param_deref. eapply params_ok; eauto.
  - destruct (lanelet_parts k y H) as (l & il & r & ir & _ & _ & Il & Ir & C & ->). destruct (LO k y H) as (_ & Ro & _).
    cbn [app In]. rewrite in_app_iff, !in_map_iff. intros [<-|[<-|[(i & <- & Hi)|(i & <- & Hi)]]]; eexists; cbn [snd];
      [apply target_way|apply target_way|apply target_way|apply target_rel]; auto; try (left; apply Ro; auto).
  - rewrite (area_parts k y H). destruct (AO k y H) as (_ & Ro & _).
    rewrite !in_app_iff, !(in_map_iff (fun i => (_, _ i))). intros [(i & <- & Hi)|[(i & <- & Hi)|(i & <- & Hi)]]; eexists; cbn [snd];
      [apply target_way|apply target_way|apply target_rel]; eauto using area_outer, area_inner.
Qed.
Lemma way_nodes k w i : In (k, w) (f_ways f) -> In i (w_nodes w) -> in_layer (m_points m) i.
Proof.
  intros H Hi. apply Hw in H. destruct H as (_ & _ & H). specialize (H i Hi). apply existsb_exists in H. destruct H as ([j p] & H1 & H2).
  apply andb_prop in H2. destruct H2 as [H2 _]. apply Z.eqb_eq in H2. cbn in H2. subst j. apply (in_map fst) in H1. exact H1.
Qed.
Lemma ok_pointers : pointers_ok f = true.
Proof.
  unfold pointers_ok. apply andb_true_intro. split; apply forallb_forall.
  - intros [k w] H. cbn [snd]. apply forallb_forall. intros i Hi. destruct (node_get i (way_nodes k w i H Hi)) as (n & -> & _). auto.
  - intros [k r] H. cbn [snd]. apply forallb_forall. intros x Hx. destruct (member_deref k r x H Hx) as (t & ->). auto.
Qed.

(** ** Points and ways *)
Lemma keys_nodup {V} (l : list (Z * V)) (id : V -> Z) : List.NoDup (map fst l) -> (forall k v, In (k, v) l -> id v = k) -> List.NoDup (map (fun e => id (snd e)) l).
Proof.
  intros N H. replace (map (fun e => id (snd e)) l) with (map fst l); auto. apply map_ext_in. intros [k v] Hin. symmetry. apply (H k v Hin).
Qed.
Lemma loaded_points : exists pts, load_nodes from_geo f = (pts, []) /\ is_map Z.ltb pts (fun k x => In (k, x) (m_points m)).
Proof.
  set (val := fun e : Z * @node D => match from_geo (n_lat (snd e), n_lon (snd e), n_ele (snd e)) with Some p => Some (MPoint (n_attrs (snd e)) p) | None => None end).
  destruct OK as (_ & _ & _ & PO & _).
  assert (V : forall k n, In (k, n) (f_nodes f) -> exists x, In (k, x) (m_points m) /\ val (k, n) = Some x /\ n_id n = k).
  { intros k n H. apply Hn in H. destruct H as (p & lat & lon & ele & H1 & H2 & ->). exists p. split; auto. unfold val. cbn [snd n_lat n_lon n_ele n_attrs].
    destruct (PO k p H1) as (g & G1 & G2). rewrite H2 in G1. injection G1 as <-. rewrite G2. destruct p; auto. }
  exists (collect (fun e => n_id (snd e)) val (f_nodes f) []). split.
  - transitivity (collect (fun e => n_id (snd e)) val (f_nodes f) [], [] ++ flat_map (fun _ => @nil lerror) (f_nodes f)).
    + rewrite <- fold_collect. unfold load_nodes. apply fold_left_ext. intros [m0 errs] [k n] H. cbn [snd].
      destruct (V k n H) as (x & _ & Ex & _). unfold val in *. cbn [snd] in *. destruct (from_geo _); [|discriminate]. rewrite app_nil_r. auto.
    + f_equal. cbn. apply flat_map_none. auto.
  - destruct (collect_is (fun e => n_id (snd e)) val (f_nodes f)) as [S H].
    { apply keys_nodup; [apply (is_map_nodup _ _ Hn)|]. intros k n Hk. destruct (V k n Hk) as (_ & _ & _ & E). auto. }
    split; [exact S|]. intros k x. rewrite H. split.
    + intros ([k' n] & H1 & H2 & H3). cbn [snd] in H2. destruct (V k' n H1) as (y & Hy & Ey & Ek). congruence.
    + intros Hx. destruct (PO k x Hx) as ([[lat lon] ele] & G1 & G2). exists (k, Node k (p_attrs x) lat lon ele). cbn [snd n_id].
      split; [|split; auto].
      * apply Hn. exists x, lat, lon, ele. auto.
      * unfold val. cbn [snd n_lat n_lon n_ele n_attrs]. rewrite G2. destruct x; auto.
Qed.

Lemma area_true_tag g a : poly_ok m g -> tagged "area" "true" (mg_attrs g) a -> is_area a = true.
Proof.
  intros (_ & _ & Av) [S H]. unfold is_area.
  destruct (sget "area" a) as [v|] eqn:E.
  - apply (mget_In String.ltb sirr stra stot) in E; auto. apply H in E. destruct E as [E|(_ & -> & _)]; [rewrite (Av v E)|]; auto.
  - apply (mget_none String.ltb sirr stra stot) in E; auto. exfalso. apply E.
    destruct (in_dec string_dec "area" (map fst (mg_attrs g))) as [I|I].
    + apply in_map_iff in I. destruct I as ([k v] & Ek & I). cbn in Ek. subst k. apply (in_map fst) with (x := ("area", v)). apply H. auto.
    + apply (in_map fst) with (x := ("area", "true")). apply H. auto.
Qed.
Lemma area_false_tag l : line_ok m l -> is_area (ml_attrs l) = false.
Proof.
  intros (_ & _ & S & Av). unfold is_area. destruct (sget "area" (ml_attrs l)) as [v|] eqn:E; auto.
  apply sget_sorted in E; auto. specialize (Av v E). destruct (conv_bool v) as [[|]|]; congruence || auto.
Qed.
Lemma node_ids l : (forall i, In i l -> in_layer (m_points m) i) -> map (node_id f) l = l.
Proof.
  intros H. rewrite <- (map_id l) at 2. apply map_ext_in. intros i Hi. unfold node_id. destruct (node_get i (H i Hi)) as (n & -> & E). auto.
Qed.
Lemma layer_get {V W} (l : list (Z * V)) (l' : list (Z * W)) (Q : Z -> V -> W -> Prop) i :
  is_map Z.ltb l' (fun k y => exists x, In (k, x) l /\ Q k x y) -> (forall k x, In (k, x) l -> exists y, Q k x y) ->
  in_layer l i -> exists y, zget i l' = Some y.
Proof.
  intros H E I. apply in_map_iff in I. destruct I as ([k x] & <- & I). destruct (E k x I) as (y & Hy). exists y.
  apply (is_map_get _ _ _ _ H). eauto.
Qed.

Lemma loaded_ways pts : is_map Z.ltb pts (fun k x => In (k, x) (m_points m)) ->
  exists lines polys, load_ways f pts = (lines, polys, []) /\
    is_map Z.ltb lines (fun k y => exists x, In (k, x) (m_lines m) /\ same_line x y) /\
    is_map Z.ltb polys (fun k y => exists x, In (k, x) (m_polys m) /\ same_poly x y).
Proof.
  intros Hp. destruct OK as ((_ & _ & SA) & _ & _ & _ & LO & GO & _).
  set (vl := fun e : Z * way => if is_area (w_attrs (snd e)) then None else Some (MLine (w_attrs (snd e)) (w_nodes (snd e)) false)).
  set (vp := fun e : Z * way => if is_area (w_attrs (snd e)) then Some (MPoly (w_attrs (snd e)) (w_nodes (snd e))) else None).
  exists (collect (fun e => w_id (snd e)) vl (f_ways f) []), (collect (fun e => w_id (snd e)) vp (f_ways f) []).
  assert (N : List.NoDup (map (fun e => w_id (snd e)) (f_ways f))).
  { apply keys_nodup; [apply (is_map_nodup _ _ Hw)|]. intros k w Hk. apply Hw in Hk. apply Hk. }
  split.
  - assert (G : forall l a b, (forall e, In e l -> In e (f_ways f)) ->
      fold_left (fun acc e => let '(ls, ps, errs) := acc in let w := snd e in
        let ids := map (node_id f) (w_nodes w) in
        let errs' := errs ++ List.concat (map (or_dummy pts (w_id w)) ids) in
        match ids with
        | [] => (ls, ps, errs' ++ [LEmpty (w_id w)])
        | _ => if is_area (w_attrs w)
               then (ls, zemplace (w_id w) (MPoly (w_attrs w) ids) ps, errs')
               else (zemplace (w_id w) (MLine (w_attrs w) ids false) ls, ps, errs')
        end) l (a, b, []) = (collect (fun e => w_id (snd e)) vl l a, collect (fun e => w_id (snd e)) vp l b, [])).
    { induction l as [|[k w] l IH]; intros a b Hl; cbn [fold_left]; auto.
      assert (Hin : In (k, w) (f_ways f)) by (apply Hl; cbn; auto). cbn [snd]. cbv zeta.
      rewrite (node_ids (w_nodes w)) by (intros i Hi; eapply way_nodes; eauto).
      assert (E : List.concat (map (or_dummy pts (w_id w)) (w_nodes w)) = []).
      { rewrite <- flat_map_concat_map. apply flat_map_none. intros i Hi. unfold or_dummy. pose proof (way_nodes k w i Hin Hi) as I.
        apply in_map_iff in I. destruct I as ([j p] & <- & I). apply (is_map_get _ _ _ _ Hp) in I. cbn [fst]. rewrite I. auto. }
      rewrite E. cbn [app].
      assert (Ne : w_nodes w <> []).
      { apply Hw in Hin. destruct Hin as (_ & [(x & Hx & _ & ->)|(x & Hx & _ & ->)] & _); [apply (LO _ _ Hx)|apply (GO _ _ Hx)]. }
      assert (Q : forall {A} (u v : A), match w_nodes w with [] => u | _ => v end = v) by (intros; destruct (w_nodes w); congruence).
      rewrite Q. unfold collect at 1 2. cbn [fold_left]. unfold vl at 2, vp at 2. cbn [snd].
      destruct (is_area (w_attrs w)); rewrite IH by (intros; apply Hl; cbn; auto); reflexivity. }
    unfold load_ways. apply G. auto.
  - split.
    + destruct (collect_is (fun e => w_id (snd e)) vl (f_ways f) N) as [S H]. split; [exact S|]. intros k y. rewrite H. split.
      * intros ([k' w] & H1 & H2 & H3). cbn [snd] in H2. unfold vl in H3. cbn [snd] in H3. pose proof H1 as H1'. apply Hw in H1.
        destruct H1 as (E1 & [(x & Hx & Ea & En)|(x & Hx & T & En)] & _).
        -- exists x. rewrite Ea in H3. rewrite (area_false_tag x (LO _ _ Hx)) in H3. injection H3 as <-. unfold same_line.
           split; [congruence|]. rewrite En. auto.
        -- rewrite (area_true_tag x _ (GO _ _ Hx) T) in H3. discriminate.
      * intros (x & Hx & ->). exists (k, Way k (ml_attrs x) (ml_pts x)). unfold vl. cbn [snd w_id w_attrs w_nodes].
        rewrite (area_false_tag x (LO _ _ Hx)). split; auto. apply (mget_In Z.ltb zirr ztra ztot); [apply Hw|]. apply line_get. auto.
    + destruct (collect_is (fun e => w_id (snd e)) vp (f_ways f) N) as [S H]. split; [exact S|]. intros k y. rewrite H. split.
      * intros ([k' w] & H1 & H2 & H3). cbn [snd] in H2. unfold vp in H3. cbn [snd] in H3. apply Hw in H1.
        destruct H1 as (E1 & [(x & Hx & Ea & En)|(x & Hx & T & En)] & _).
        -- rewrite Ea, (area_false_tag x (LO _ _ Hx)) in H3. discriminate.
        -- exists x. rewrite (area_true_tag x _ (GO _ _ Hx) T) in H3. injection H3 as <-. unfold same_poly. cbn. split; [congruence|auto].
      * intros (x & Hx & T & En). destruct (poly_get k x Hx) as (a & T' & E). exists (k, Way k a (mg_pts x)). unfold vp.
        cbn [snd w_id w_attrs w_nodes]. rewrite (area_true_tag x _ (GO _ _ Hx) T').
        split; [apply (mget_In Z.ltb zirr ztra ztot); [apply Hw|auto]|]. split; auto. destruct y as [ya yp]. cbn in *.
        rewrite (tagged_unique _ _ _ _ _ T' T), En. auto.
Qed.

(** ** Lanelets *)
Lemma role_map (role role' : string) (g : Z -> ref) l :
  filter (fun x : string * ref => String.eqb (fst x) role) (map (fun i => (role', g i)) l) = if String.eqb role' role then map (fun i => (role', g i)) l else [].
Proof. induction l as [|i l IH]; cbn; [destruct (String.eqb role' role); auto|]. rewrite IH. destruct (String.eqb role' role); auto. Qed.
Lemma targets_ways role l : (forall i, In i l -> in_layer (m_lines m) i) ->
  map (fun x : string * ref => target f (snd x)) (map (fun i => (role, RWay i)) l) = map (pair "way") l.
Proof. intros H. rewrite map_map. apply map_ext_in. intros i Hi. cbn [snd]. unfold target. rewrite target_way; auto. Qed.
Lemma targets_rels role l : regs_ok m l ->
  map (fun x : string * ref => target f (snd x)) (map (fun i => (role, RRel i)) l) = map (pair "relation") l.
Proof. intros H. rewrite map_map. apply map_ext_in. intros i Hi. cbn [snd]. unfold target. rewrite target_rel; auto. Qed.

Section Loaded.
Variable pts : list (Z * @mpoint P).
Variable lines : list (Z * mline).
Variable polys : list (Z * mpoly).
Hypothesis Hp : is_map Z.ltb pts (fun k x => In (k, x) (m_points m)).
Hypothesis Hl : is_map Z.ltb lines (fun k y => exists x, In (k, x) (m_lines m) /\ same_line x y).
Hypothesis Hg : is_map Z.ltb polys (fun k y => exists x, In (k, x) (m_polys m) /\ same_poly x y).

Lemma point_in i : in_layer (m_points m) i -> exists p, zget i pts = Some p.
Proof. intros H. apply in_map_iff in H. destruct H as ([k p] & <- & H). exists p. apply (is_map_get _ _ _ _ Hp). auto. Qed.
Lemma line_in i : in_layer (m_lines m) i -> exists x, In (i, x) (m_lines m) /\ zget i lines = Some (MLine (ml_attrs x) (ml_pts x) false).
Proof.
  intros H. apply in_map_iff in H. destruct H as ([k x] & <- & H). exists x. split; auto. apply (is_map_get _ _ _ _ Hl). exists x. split; auto. reflexivity.
Qed.
Lemma positions_pos l : (forall i, In i l -> in_layer (m_points m) i) -> positions m l (map (pos origin pts) l).
Proof.
  induction l as [|i l IH]; intros H; cbn; constructor; [|apply IH; intros; apply H; cbn; auto].
  destruct (point_in i) as (p & E); [apply H; cbn; auto|]. exists p. unfold pos. rewrite E. split; auto. apply (is_map_get _ _ _ _ Hp) in E. auto.
Qed.
Lemma line_positions i : in_layer (m_lines m) i -> positions_of m i (bound_pos origin pts lines (Bound i false)).
Proof.
  intros H. destruct (line_in i H) as (x & Hx & E). exists x. split; auto. cbn [bound_pos]. rewrite E. cbn [ml_pts]. apply positions_pos.
  destruct OK as (_ & _ & _ & _ & LO & _). apply (LO i x Hx).
Qed.

Lemma with_role_lanelet k x a : In (k, x) (m_lanelets m) -> forall l il r ir, ll_left x = Bound l il -> ll_right x = Bound r ir ->
  let rl := Relation k a (lanelet_members m (f_ways f) x) in
  with_role f "left" rl = [("way", l)] /\ with_role f "right" rl = [("way", r)] /\
  with_role f "centerline" rl = map (pair "way") (custom x) /\ with_role f "regulatory_element" rl = map (pair "relation") (ll_regs x).
Proof.
  intros Hk l il r ir El Er rl. destruct (lanelet_parts k x Hk) as (l' & il' & r' & ir' & El' & Er' & Il & Ir & C & E).
  rewrite El in El'. injection El' as <- <-. rewrite Er in Er'. injection Er' as <- <-.
  destruct OK as (_ & _ & _ & _ & _ & _ & LO & _). destruct (LO k x Hk) as (_ & Ro & _).
  unfold with_role, rl. cbn [r_members]. rewrite E. cbn [app filter fst]. rewrite !filter_app, !role_map.
  cbn [String.eqb Ascii.eqb Bool.eqb app map]. rewrite app_nil_r, targets_ways, targets_rels by auto. cbn [snd].
  unfold target. rewrite !target_way by auto. auto.
Qed.

Lemma border_ok r role i : with_role f role r = [("way", i)] -> in_layer (m_lines m) i -> border f lines r role = (Bound i false, []).
Proof. intros E H. unfold border. rewrite E. cbn [String.eqb Ascii.eqb Bool.eqb]. destruct (line_in i H) as (x & _ & ->). auto. Qed.

Definition bare (x : mlanelet) (a : attributes) : mlanelet := MLanelet a (ll_left x) (ll_right x) (ll_center x) [].
Lemma load_lanelet_ok k x a : In (k, x) (m_lanelets m) ->
  load_lanelet origin align f pts lines (Relation k a (lanelet_members m (f_ways f) x)) = (bare x a, []).
Proof.
  intros Hk. destruct (lanelet_parts k x Hk) as (l & il & r & ir & El & Er & Il & Ir & C & _).
  destruct (with_role_lanelet k x a Hk l il r ir El Er) as (Wl & Wr & Wc & _).
  destruct OK as (_ & _ & _ & _ & _ & _ & LO & _). destruct (LO k x Hk) as (_ & _ & (l' & il' & r' & ir' & El' & Er' & _ & _ & Al) & Cn).
  rewrite El in El'. injection El' as <- <-. rewrite Er in Er'. injection Er' as <- <-.
  unfold load_lanelet. rewrite (border_ok _ _ l Wl Il), (border_ok _ _ r Wr Ir).
  rewrite (Al _ _ (line_positions l Il) (line_positions r Ir)). unfold bare. rewrite El, Er.
  unfold custom in *. destruct (ll_center x) as [c|] eqn:Ec.
  - destruct (Cn c eq_refl) as (i & -> & Nz & Hi). cbn [bid] in *. destruct (Z.eqb_spec i 0); [congruence|]. rewrite Wc. cbn [map].
    rewrite (border_ok _ _ i Wc Hi). destruct il, ir; reflexivity.
  - rewrite Wc. destruct il, ir; reflexivity.
Qed.

Lemma is_type_kind k r t : kind k r -> is_type t r = true -> sget "type" (r_attrs r) = Some t.
Proof. unfold is_type. intros _. destruct (sget "type" (r_attrs r)); [|discriminate]. intros E. apply String.eqb_eq in E. congruence. Qed.

Lemma rels_nodup : List.NoDup (map (fun e => r_id (snd e)) (f_rels f)).
Proof. apply keys_nodup; [apply (is_map_nodup _ _ Hr)|]. intros k r. apply rel_id. Qed.

Lemma loaded_lanelets : exists lls, load_lanelets origin align f pts lines = (lls, []) /\
  is_map Z.ltb lls (fun k y => exists x a, In (k, x) (m_lanelets m) /\ tagged "type" "lanelet" (ll_attrs x) a /\ y = bare x a).
Proof.
  set (val := fun e : Z * relation => if is_type "lanelet" (snd e) then Some (fst (load_lanelet origin align f pts lines (snd e))) else None).
  exists (collect (fun e => r_id (snd e)) val (f_rels f) []). split.
  - transitivity (collect (fun e => r_id (snd e)) val (f_rels f) [], [] ++ flat_map (fun _ => @nil lerror) (f_rels f)).
    + rewrite <- fold_collect. unfold load_lanelets. apply fold_left_ext. intros [m0 errs] [k r] H. cbn [snd]. unfold val. cbn [snd].
      destruct (is_type "lanelet" r) eqn:T; [|rewrite app_nil_r; auto]. apply rel_kind in H. pose proof (is_type_kind k r _ H T) as Ty.
      destruct H as [x a H1 H2 H3|x a H1 H2 H3|x a H1 H2 H3]; cbn [r_attrs] in Ty; try congruence. rewrite (load_lanelet_ok k x a H1). auto.
    + f_equal. cbn. apply flat_map_none. auto.
  - destruct (collect_is (fun e => r_id (snd e)) val (f_rels f) rels_nodup) as [S H]. split; [exact S|]. intros k y. rewrite H. split.
    + intros ([k' r] & H1 & H2 & H3). cbn [snd] in H2. unfold val in H3. cbn [snd] in H3. destruct (is_type "lanelet" r) eqn:T; [|discriminate].
      pose proof (rel_id k' r H1) as Ei. apply rel_kind in H1. pose proof (is_type_kind k' r _ H1 T) as Ty.
      destruct H1 as [x a G1 G2 G3|x a G1 G2 G3|x a G1 G2 G3]; cbn [r_attrs r_id] in *; try congruence. rewrite (load_lanelet_ok k' x a G1) in H3.
      injection H3 as <-. subst k'. exists x, a. auto.
    + intros (x & a & H1 & H2 & ->). destruct (lanelet_get k x H1) as (a' & T' & E). rewrite (tagged_unique _ _ _ _ _ H2 T').
      eexists. split; [apply (mget_In Z.ltb zirr ztra ztot); [apply Hr|exact E]|]. cbn [snd r_id]. split; auto.
      unfold val. cbn [snd]. unfold is_type. cbn [r_attrs]. destruct OK as (_ & _ & _ & _ & _ & _ & LO & _).
      rewrite (sget_only _ _ _ _ T' (proj1 (LO k x H1))). cbn [String.eqb Ascii.eqb Bool.eqb]. rewrite (load_lanelet_ok k x a' H1). auto.
Qed.

(** ** Areas *)
Lemma in_reversed s t y : reversed s t -> In y t -> exists z, In z s /\ key z = key y.
Proof.
  induction 1 as [|l r s' Hrev IH]; cbn; [tauto|]. rewrite in_app_iff. intros [Hy|[<-|[]]].
  - destruct (IH Hy) as (z & Hz & E). eauto.
  - exists l. auto.
Qed.
Lemma ring_points r s : Forall (fun y => exists h, with_points m h y) r -> (forall y, In y s -> exists z, In z r /\ key z = key y) ->
  forall i, In i (List.concat (map points s)) -> in_layer (m_points m) i.
Proof.
  intros F K i Hi. apply in_concat in Hi. destruct Hi as (l & H1 & H2). apply in_map_iff in H1. destruct H1 as (y & <- & Hy).
  destruct (K y Hy) as (z & Hz & Ek). rewrite List.Forall_forall in F. destruct (F z Hz) as (h & x & Hx & ->). unfold key in Ek. cbn in Ek. injection Ek as Ei Ep.
  destruct OK as (_ & _ & _ & _ & LO & _). destruct (LO _ _ Hx) as (_ & Q & _). apply Q. rewrite Ep. unfold points in H2. destruct (l_inv y); auto. apply in_rev. auto.
Qed.
Lemma valid_both r s t : Forall (fun y => exists h, with_points m h y) r -> ring_ok ring_valid m r -> rotation r s -> reversed s t ->
  valid_ring origin ring_valid pts s = true /\ valid_ring origin ring_valid pts t = false.
Proof.
  intros F (_ & V) Rot Rev. destruct (V s t (map (pos origin pts) (List.concat (map points s))) Rot Rev) as [V1 _].
  destruct (V s t (map (pos origin pts) (List.concat (map points t))) Rot Rev) as [_ V2].
  assert (Ks : forall y, In y s -> exists z, In z r /\ key z = key y).
  { destruct Rot as (a & b & -> & ->). intros y Hy. exists y. split; auto. rewrite in_app_iff in *. tauto. }
  split.
  - apply V1. apply positions_pos. eapply ring_points; eauto.
  - apply V2. apply positions_pos. apply (ring_points r); auto. intros y Hy. destruct (in_reversed s t y Rev Hy) as (z & Hz & E).
    destruct (Ks z Hz) as (z' & Hz' & E'). exists z'. split; congruence.
Qed.
Lemma ring_lines_ok rl role hs r : with_role f role rl = map (pair "way") (map fst hs) -> Forall2 (with_points m) hs r ->
  exists l, ring_lines f lines rl role = (l, []) /\ map key l = map key r.
Proof.
  intros E F. unfold ring_lines. rewrite E. clear E.
  assert (G : forall l0, exists l, fold_left (fun acc t => let '(l, errs) := acc in
     if String.eqb (fst t) "way" then match zget (snd t) lines with Some x => (l ++ [LS (snd t) (ml_pts x) false], errs) | None => (l, errs ++ [LMissing (r_id rl) (snd t)]) end
     else (l, errs ++ [LNotWay (r_id rl) (snd t)])) (map (pair "way") (map fst hs)) (l0, []) = (l, []) /\ map key l = map key l0 ++ map key r).
  { induction F as [|[i v] y hs r (x & Hx & ->) F IH]; intros l0; cbn [map fold_left fst snd].
    - exists l0. rewrite app_nil_r. auto.
    - cbn [String.eqb Ascii.eqb Bool.eqb fst] in *.
      assert (Ei : zget i lines = Some (MLine (ml_attrs x) (ml_pts x) false)) by (apply (is_map_get _ _ _ _ Hl); exists x; split; auto; reflexivity).
      rewrite Ei. destruct (IH (l0 ++ [LS i (ml_pts x) false])) as (l & El & Ek). exists l. split; [exact El|].
      rewrite Ek, map_app, <- app_assoc. reflexivity. }
  destruct (G []) as (l & H1 & H2). exists l. split; auto.
Qed.
Lemma handles hs r : Forall2 (with_points m) hs r -> map handle r = hs.
Proof. induction 1 as [|[i v] y hs r (x & Hx & ->) F IH]; cbn; auto. rewrite IH. auto. Qed.
Lemma with_points_all hs r : Forall2 (with_points m) hs r -> Forall (fun y => exists h, with_points m h y) r.
Proof. induction 1; constructor; eauto. Qed.
Lemma turned_map r s : rotation r s -> turned (map handle r) (map handle s).
Proof. intros (a & b & -> & ->). exists (map handle a), (map handle b). rewrite !map_app. auto. Qed.
Lemma forall2_concat hs rs : Forall2 (Forall2 (with_points m)) hs rs -> Forall2 (with_points m) (List.concat hs) (List.concat rs).
Proof. induction 1; cbn; auto. apply Forall2_app; auto. Qed.

Lemma with_role_area k x a : In (k, x) (m_areas m) -> let rl := Relation k a (area_members m (f_ways f) x) in
  with_role f "outer" rl = map (pair "way") (map fst (ar_outer x)) /\ with_role f "inner" rl = map (pair "way") (inner_ids x) /\
  with_role f "regulatory_element" rl = map (pair "relation") (ar_regs x).
Proof.
  intros Hk rl. destruct OK as (_ & _ & _ & _ & _ & _ & _ & AO & _). destruct (AO k x Hk) as (_ & Ro & _).
  unfold with_role, rl. cbn [r_members]. rewrite (area_parts k x Hk). rewrite !filter_app, !role_map.
  cbn [String.eqb Ascii.eqb Bool.eqb app map]. rewrite !app_nil_r, !targets_ways, targets_rels; eauto using area_outer, area_inner.
Qed.
Definition bare_area (x : marea) (y : marea) : Prop :=
  turned (ar_outer x) (ar_outer y) /\ (exists l, Permutation (ar_inner x) l /\ Forall2 turned l (ar_inner y)) /\ ar_regs y = [].
Lemma load_area_ok k x a : In (k, x) (m_areas m) -> exists y,
  load_area origin ring_valid f pts lines (Relation k a (area_members m (f_ways f) x)) = Done (Some y, []) /\ ar_attrs y = a /\ bare_area x y.
Proof.
  intros Hk. destruct (with_role_area k x a Hk) as (Wo & Wi & _). set (rl := Relation k a _) in *.
  destruct OK as (_ & _ & _ & _ & _ & _ & _ & AO & _). destruct (AO k x Hk) as (_ & _ & (r & Fr & Rr & Nr) & (rs & Fi & Ri & Ni)).
  destruct (ring_lines_ok rl "outer" (ar_outer x) r Wo Fr) as (lo & Elo & Klo).
  unfold inner_ids in Wi. rewrite flat_map_concat_map, <- concat_map in Wi.
  destruct (ring_lines_ok rl "inner" (List.concat (ar_inner x)) (List.concat rs) Wi (forall2_concat _ _ Fi)) as (li & Eli & Kli).
  destruct (assemble_complete (valid_ring origin ring_valid pts) [r] lo) as (rs1 & out & Ea & Pa & Fa).
  { constructor; [apply Rr|constructor]. }
  { cbn. rewrite app_nil_r. exact Nr. }
  { constructor; [|constructor]. intros s Hs. apply (valid_both r s (reverse s)); eauto using with_points_all, reversed_reverse. }
  { cbn. rewrite app_nil_r, Klo. auto. }
  apply Permutation_length_1_inv in Pa. subst rs1. inversion Fa as [|? so ? o2 Rot F']; subst. inversion F'; subst. clear Fa F'.
  destruct (assemble_complete (valid_ring origin ring_valid pts) rs li) as (rs2 & ino & Ei & Pi & Fi2).
  { apply List.Forall_forall. intros r0 H0. apply (Ri r0 H0). }
  { exact Ni. }
  { apply List.Forall_forall. intros r0 H0 s Hs. assert (exists hs, Forall2 (with_points m) hs r0) as (hs & Fh).
    { clear -Fi H0. induction Fi; [destruct H0|]. destruct H0 as [<-|H0]; eauto. }
    apply (valid_both r0 s (reverse s)); eauto using with_points_all, reversed_reverse. }
  { rewrite Kli. auto. }
  assert (Nlo : lo <> []).
  { intros ->. destruct Rr as ((Nr0 & _) & _). destruct r; [congruence|discriminate]. }
  assert (Nso : so <> []).
  { intros ->. destruct Rot as (ra & rb & -> & E). destruct rb; [|discriminate]. cbn in E. subst ra. destruct Rr as ((Nr0 & _) & _). apply Nr0; reflexivity. }
  exists (MArea a (map handle so) (map (map handle) ino) []). split.
  - unfold load_area. rewrite Elo. unfold outer_ring. destruct lo as [|l0 lo]; [congruence|]. rewrite Ea. cbn [map].
    destruct so as [|s0 so]; [congruence|]. rewrite Eli, Ei. reflexivity.
  - split; auto. split; [|split; auto]; cbn [ar_outer ar_inner].
    + rewrite <- (handles _ _ Fr). apply turned_map. auto.
    + exists (map (map handle) rs2). split.
      * replace (ar_inner x) with (map (map handle) rs); [apply Permutation_map; auto|].
        clear -Fi. induction Fi as [|h r hs rs Fh F IH]; cbn; auto. rewrite IH, (handles _ _ Fh). auto.
      * clear -Fi2. induction Fi2; cbn; constructor; auto using turned_map.
Qed.

Lemma area_value k x : In (k, x) (m_areas m) -> forall r, zget k (f_rels f) = Some r -> exists a, tagged "type" "multipolygon" (ar_attrs x) a /\
  r = Relation k a (area_members m (f_ways f) x).
Proof. intros H r E. destruct (area_get k x H) as (a & T & E'). rewrite E in E'. injection E' as ->. eauto. Qed.

Lemma loaded_areas : exists areas, load_areas origin ring_valid f pts lines = Done (areas, []) /\
  zsorted (map fst areas) /\
  (forall k y, zget k areas = Some y -> exists x, In (k, x) (m_areas m) /\ tagged "type" "multipolygon" (ar_attrs x) (ar_attrs y) /\ bare_area x y) /\
  (forall k x, In (k, x) (m_areas m) -> zget k areas <> None).
Proof.
  set (val := fun e : Z * relation => if is_type "multipolygon" (snd e) then match load_area origin ring_valid f pts lines (snd e) with Done (o, _) => o | _ => None end else None).
  exists (collect (fun e => r_id (snd e)) val (f_rels f) []).
  assert (Kd : forall k r, In (k, r) (f_rels f) -> is_type "multipolygon" r = true -> exists x a y, r = Relation k a (area_members m (f_ways f) x) /\
    In (k, x) (m_areas m) /\ tagged "type" "multipolygon" (ar_attrs x) a /\ load_area origin ring_valid f pts lines r = Done (Some y, []) /\ ar_attrs y = a /\ bare_area x y).
  { intros k r H T. apply rel_kind in H. pose proof (is_type_kind k r _ H T) as Ty.
    destruct H as [x a G1 G2 G3|x a G1 G2 G3|x a G1 G2 G3]; cbn [r_attrs] in *; try congruence.
    destruct (load_area_ok k x a G1) as (y & Ey & Ay & By). exists x, a, y. auto 10. }
  split.
  - assert (G : forall l a, (forall e, In e l -> In e (f_rels f)) -> fold_left (fun acc e =>
      match acc with
      | Done (m, errs) => if is_type "multipolygon" (snd e) then match load_area origin ring_valid f pts lines (snd e) with
           | Done (Some a, es) => Done (zemplace (r_id (snd e)) a m, errs ++ es) | Done (None, es) => Done (m, errs ++ es) | UB => UB | OutOfFuel => OutOfFuel end else acc
      | o => o end) l (Done (a, [])) = Done (collect (fun e => r_id (snd e)) val l a, [])).
    { induction l as [|[k r] l IH]; intros a Hin; cbn [fold_left]; auto. unfold collect. cbn [fold_left]. unfold val at 2. cbn [snd].
      destruct (is_type "multipolygon" r) eqn:T; [|apply IH; intros; apply Hin; cbn; auto].
      destruct (Kd k r) as (x & a0 & y & _ & _ & _ & Ey & _); [apply Hin; cbn; auto|auto|]. rewrite Ey. cbn [app]. apply IH. intros; apply Hin; cbn; auto. }
    apply G. auto.
  - destruct (collect_is (fun e => r_id (snd e)) val (f_rels f) rels_nodup) as [S H]. split; [exact S|]. split.
    + intros k y Ey. apply (mget_In Z.ltb zirr ztra ztot) in Ey; [|exact S]. apply H in Ey. destruct Ey as ([k' r] & H1 & H2 & H3). cbn [snd] in H2.
      unfold val in H3. cbn [snd] in H3. destruct (is_type "multipolygon" r) eqn:T; [|discriminate].
      destruct (Kd k' r H1 T) as (x & a & y' & Er & Hx & Ta & Ey & Ay & By). rewrite Ey in H3. injection H3 as ->.
      subst r. cbn [r_id] in H2. subst k'. exists x. rewrite Ay. auto.
    + intros k x Hx. destruct (area_get k x Hx) as (a & T & E). destruct (load_area_ok k x a Hx) as (y & Ey & Ay & By).
      assert (Hy : In (k, y) (collect (fun e => r_id (snd e)) val (f_rels f) [])).
      { apply H. eexists. split; [apply (mget_In Z.ltb zirr ztra ztot); [apply Hr|exact E]|]. cbn [snd r_id]. split; auto.
        unfold val. cbn [snd]. unfold is_type. cbn [r_attrs]. destruct OK as (_ & _ & _ & _ & _ & _ & _ & AO & _).
        rewrite (sget_only _ _ _ _ T (proj1 (AO k x Hx))). cbn [String.eqb Ascii.eqb Bool.eqb]. rewrite Ey. auto. }
      apply (mget_In Z.ltb zirr ztra ztot) in Hy; [|exact S]. unfold zget. rewrite Hy. discriminate.
Qed.

(** ** Regulatory elements *)
Lemma mset_end {V} (v : V) role pre : Forall (fun k => String.ltb k role = true) (map fst pre) ->
  sget role pre = None /\ sset role v pre = pre ++ [(role, v)].
Proof.
  induction pre as [|[k w] pre IH]; cbn; intros F; auto. inversion F as [|? ? F1 F2]; subst. destruct (IH F2) as [E1 E2].
  unfold sget, sset in *. cbn. assert (String.ltb role k = false) as E.
  { destruct (String.ltb role k) eqn:E; auto. rewrite <- (sirr role). symmetry. eapply stra; eauto. }
  rewrite E, F1. rewrite E1, E2. auto.
Qed.
Lemma mset_last {V} (v w : V) role pre : Forall (fun k => String.ltb k role = true) (map fst pre) ->
  sget role (pre ++ [(role, w)]) = Some w /\ sset role v (pre ++ [(role, w)]) = pre ++ [(role, v)].
Proof.
  induction pre as [|[k u] pre IH]; cbn; intros F.
  - unfold sget, sset. cbn. rewrite (sirr role). auto.
  - inversion F as [|? ? F1 F2]; subst. destruct (IH F2) as [E1 E2].
    unfold sget, sset in *. cbn. assert (String.ltb role k = false) as E.
    { destruct (String.ltb role k) eqn:E; auto. rewrite <- (sirr role). symmetry. eapply stra; eauto. }
    rewrite E, F1. rewrite E1, E2. auto.
Qed.
Definition addp (rules : list (string * list param)) (rp : string * param) := add_param (fst rp) (snd rp) rules.
Lemma add_group role l : forall pre w, Forall (fun k => String.ltb k role = true) (map fst pre) ->
  fold_left addp (map (pair role) l) (pre ++ [(role, w)]) = pre ++ [(role, w ++ l)].
Proof.
  induction l as [|p l IH]; intros pre w F; cbn [map fold_left]; [rewrite app_nil_r; auto|].
  unfold addp at 2. cbn [fst snd]. unfold add_param. destruct (mset_last (w ++ [p]) w role pre F) as [-> ->].
  rewrite IH by auto. rewrite <- app_assoc. auto.
Qed.
Lemma add_groups l : forall pre, StronglySorted (fun a b => String.ltb a b = true) (map fst (pre ++ l)) -> (forall role ps, In (role, ps) l -> ps <> []) ->
  fold_left addp (flat_map (fun rp => map (pair (fst rp)) (snd rp)) l) pre = pre ++ l.
Proof.
  induction l as [|[role ps] l IH]; intros pre S N; cbn [flat_map fold_left fst snd]; [rewrite app_nil_r; auto|].
  rewrite fold_left_app. destruct ps as [|p ps]; [exfalso; eapply N; cbn; eauto|].
  assert (F : Forall (fun k => String.ltb k role = true) (map fst pre)).
  { rewrite map_app in S. cbn in S. clear -S. induction (map fst pre) as [|k ks IH]; constructor; cbn in S; inversion S; subst; auto.
    rewrite List.Forall_forall in H2. apply H2. apply in_or_app. cbn. auto. }
  cbn [map fold_left]. unfold addp at 3. cbn [fst snd]. unfold add_param. destruct (mset_end ([] ++ [p]) role pre F) as [E1 E2].
  rewrite E1, E2, add_group by auto. cbn [app]. rewrite IH.
  - rewrite <- app_assoc. auto.
  - rewrite <- app_assoc. exact S.
  - intros. eapply N. cbn. eauto.
Qed.

Variable lls : list (Z * mlanelet).
Variable areas : list (Z * marea).
Hypothesis Hlls : forall i, in_layer (m_lanelets m) i -> zget i lls <> None.
Hypothesis Hareas : forall i, in_layer (m_areas m) i -> zget i areas <> None.

Lemma not_poly i : in_layer (m_lines m) i -> zget i polys = None.
Proof.
  intros H. apply (is_map_none _ _ _ Hg). intros y (x & Hx & _). destruct OK as ((_ & N & _) & _). unfold way_ids in N.
  apply (in_map fst) in Hx. cbn [fst] in Hx. unfold in_layer in H. revert N H Hx. generalize (map fst (m_lines m)), (map fst (m_polys m)). clear.
  intros a b. induction a as [|j a IH]; cbn; [tauto|]. intros N [->|H] Hb; inversion N; subst; auto. apply H1. apply in_or_app. auto.
Qed.
Lemma poly_in i : in_layer (m_polys m) i -> exists y, zget i polys = Some y.
Proof.
  intros H. apply in_map_iff in H. destruct H as ([k x] & <- & H). exists (MPoly (semplace "area" "true" (mg_attrs x)) (mg_pts x)).
  apply (is_map_get _ _ _ _ Hg). exists x. split; auto. split; auto. destruct OK as ((_ & _ & SA) & _). apply tagged_emplace. exact (SA _ _ H).
Qed.
Lemma type_lanelet i : in_layer (m_lanelets m) i -> type_of_rel f (RRel i) = Some "lanelet".
Proof.
  intros H. apply in_map_iff in H. destruct H as ([k x] & <- & H). cbn [fst type_of_rel]. destruct (lanelet_get k x H) as (a & T & ->). cbn [r_attrs].
  destruct OK as (_ & _ & _ & _ & _ & _ & LO & _). eapply sget_only; eauto. apply (LO k x H).
Qed.
Lemma type_area i : in_layer (m_areas m) i -> type_of_rel f (RRel i) = Some "multipolygon".
Proof.
  intros H. apply in_map_iff in H. destruct H as ([k x] & <- & H). cbn [fst type_of_rel]. destruct (area_get k x H) as (a & T & ->). cbn [r_attrs].
  destruct OK as (_ & _ & _ & _ & _ & _ & _ & AO & _). eapply sget_only; eauto. apply (AO k x H).
Qed.
Lemma load_param_ok id p : param_ok m p -> load_param f pts lines polys lls areas id (param_ref p) = (Some p, []).
Proof.
  destruct p as [i|i v|i|[i|]|[i|]]; cbn [param_ok param_ref]; unfold load_param, target.
  - intros H. rewrite target_node by auto. cbn [String.eqb Ascii.eqb Bool.eqb]. unfold or_dummy. destruct (point_in i H) as (x & ->). auto.
  - intros [-> H]. rewrite target_way by auto. cbn [String.eqb Ascii.eqb Bool.eqb]. rewrite (not_poly i H). unfold or_dummy.
    destruct (line_in i H) as (x & _ & ->). auto.
  - intros H. rewrite target_way by auto. cbn [String.eqb Ascii.eqb Bool.eqb]. destruct (poly_in i H) as (y & ->). auto.
  - intros (j & [= <-] & H). rewrite target_rel by auto. cbn [String.eqb Ascii.eqb Bool.eqb]. rewrite (type_lanelet i H).
    cbn [String.eqb Ascii.eqb Bool.eqb]. unfold or_dummy. specialize (Hlls i H). destruct (zget i lls); congruence.
  - intros (j & [=] & _).
  - intros (j & [= <-] & H). rewrite target_rel by auto. cbn [String.eqb Ascii.eqb Bool.eqb]. rewrite (type_area i H).
    cbn [String.eqb Ascii.eqb Bool.eqb]. unfold or_dummy. specialize (Hareas i H). destruct (zget i areas); congruence.
  - intros (j & [=] & _).
Qed.
Lemma load_params_ok k x : In (k, x) (m_regs m) ->
  load_params f pts lines polys lls areas k (map (fun rp => (fst rp, param_ref (snd rp))) (params x)) = (re_params x, []).
Proof.
  intros Hk. unfold load_params. rewrite fold_map.
  assert (G : forall l rules, (forall rp, In rp l -> param_ok m (snd rp)) ->
    fold_left (fun acc rp => let '(rules, errs) := acc in let '(o, es) := load_param f pts lines polys lls areas k (snd (fst rp, param_ref (snd rp))) in
      (match o with Some p => add_param (fst (fst rp, param_ref (snd rp))) p rules | None => rules end, errs ++ es)) l (rules, []) = (fold_left addp l rules, [])).
  { induction l as [|[role p] l IH]; intros rules H; cbn [fold_left fst snd]; auto. rewrite load_param_ok by (apply (H (role, p)); cbn; auto).
    cbn [app]. rewrite IH by (intros; apply H; cbn; auto). auto. }
  etransitivity; [apply G|].
  - intros [role p] Hp0. eapply params_ok; eauto.
  - unfold params. destruct OK as (_ & _ & _ & _ & _ & _ & _ & _ & RO). destruct (RO k x Hk) as (_ & _ & S & N & _).
    rewrite (add_groups (re_params x) []); auto.
Qed.

Lemma reg_subtype k x a : In (k, x) (m_regs m) -> tagged "type" "regulatory_element" (re_attrs x) a ->
  exists st, sget "subtype" a = Some st /\ create st (MReg a (re_params x)) = true.
Proof.
  intros Hk T. destruct OK as (_ & _ & _ & _ & _ & _ & _ & _ & RO). destruct (RO k x Hk) as (_ & (st & H1 & H2) & _).
  exists st. split; auto. destruct T as [S H]. apply (mget_In String.ltb sirr stra stot); auto. apply H. auto.
Qed.
Lemma loaded_regs : exists regs, load_regs create f pts lines polys lls areas = (regs, []) /\
  is_map Z.ltb regs (fun k y => exists x, In (k, x) (m_regs m) /\ same_reg x y).
Proof.
  set (val := fun e : Z * relation => if is_type "regulatory_element" (snd e)
    then Some (MReg (r_attrs (snd e)) (fst (load_params f pts lines polys lls areas (r_id (snd e)) (r_members (snd e))))) else None).
  exists (collect (fun e => r_id (snd e)) val (f_rels f) []). split.
  - transitivity (collect (fun e => r_id (snd e)) val (f_rels f) [], [] ++ flat_map (fun _ => @nil lerror) (f_rels f)).
    + rewrite <- fold_collect. unfold load_regs. apply fold_left_ext. intros [m0 errs] [k r] H. cbn [snd]. unfold val. cbn [snd].
      destruct (is_type "regulatory_element" r) eqn:T; [|rewrite app_nil_r; auto]. apply rel_kind in H. pose proof (is_type_kind k r _ H T) as Ty.
      destruct H as [x a H1 H2 H3|x a H1 H2 H3|x a H1 H2 H3]; cbn [r_attrs] in Ty; try congruence. cbn [r_id r_attrs r_members].
      destruct (reg_subtype k x a H1 H2) as (st & -> & C). rewrite (load_params_ok k x H1). cbn [fst]. rewrite C. auto.
    + f_equal. cbn. apply flat_map_none. auto.
  - destruct (collect_is (fun e => r_id (snd e)) val (f_rels f) rels_nodup) as [S H]. split; [exact S|]. intros k y. rewrite H. split.
    + intros ([k' r] & H1 & H2 & H3). cbn [snd] in H2. unfold val in H3. cbn [snd] in H3. destruct (is_type "regulatory_element" r) eqn:T; [|discriminate].
      pose proof (rel_id k' r H1) as Ei. apply rel_kind in H1. pose proof (is_type_kind k' r _ H1 T) as Ty.
      destruct H1 as [x a G1 G2 G3|x a G1 G2 G3|x a G1 G2 G3]; cbn [r_attrs r_id r_members] in *; try congruence. rewrite (load_params_ok k' x G1) in H3.
      injection H3 as <-. subst k'. exists x. split; auto. split; auto.
    + intros (x & H1 & H2 & H3). destruct (reg_get k x H1) as (a' & T' & E).
      eexists. split; [apply (mget_In Z.ltb zirr ztra ztot); [apply Hr|exact E]|]. cbn [snd r_id]. split; auto.
      unfold val. cbn [snd]. unfold is_type. cbn [r_attrs r_id r_members]. destruct OK as (_ & _ & _ & _ & _ & _ & _ & _ & RO).
      rewrite (sget_only _ _ _ _ T' (proj1 (RO k x H1))). cbn [String.eqb Ascii.eqb Bool.eqb]. rewrite (load_params_ok k x H1). cbn [fst].
      destruct y as [ya yp]. cbn in *. rewrite (tagged_unique _ _ _ _ _ T' H2), H3. auto.
Qed.

(** ** Regulatory elements of lanelets and areas *)
Lemma add_regs_ok {V} (t : string) (l0 : list (Z * V)) (regs : list (Z * mreg)) (add : V -> list Z -> V) :
  is_map Z.ltb regs (fun k y => exists x, In (k, x) (m_regs m) /\ same_reg x y) ->
  (forall k r, In (k, r) (f_rels f) -> is_type t r = true -> regs_ok m (reg_ids f r)) ->
  exists l', add_regs f t l0 regs add = (l', []) /\ map fst l' = map fst l0 /\
    forall k, zget k l' = match zget k l0 with None => None
                          | Some v => match zget k (f_rels f) with Some r => if is_type t r then Some (add v (reg_ids f r)) else Some v | None => Some v end end.
Proof.
  intros Hregs Hok.
  assert (G : forall l l1, (forall e, In e l -> In e (f_rels f)) -> List.NoDup (map fst l) -> exists l',
    fold_left (fun acc e => let '(m, errs) := acc in match is_type t (snd e), zget (r_id (snd e)) m with
      | true, Some _ => (mupdate (r_id (snd e)) (fun v => add v (reg_ids f (snd e))) m, errs ++ List.concat (map (or_dummy regs (r_id (snd e))) (reg_ids f (snd e))))
      | _, _ => acc end) l (l1, []) = (l', []) /\ map fst l' = map fst l1 /\
    forall k, zget k l' = match zget k l1 with None => None | Some v => match aget k l with Some r => if is_type t r then Some (add v (reg_ids f r)) else Some v | None => Some v end end).
  { induction l as [|[k r] l IH]; intros l1 Hin N; cbn [fold_left aget snd].
    - exists l1. split; auto. split; auto. intros k. destruct (zget k l1); auto.
    - inversion N as [|? ? N1 N2]; subst. assert (Hk : In (k, r) (f_rels f)) by (apply Hin; cbn; auto).
      rewrite (rel_id k r Hk). assert (Hin' : forall e, In e l -> In e (f_rels f)) by (intros; apply Hin; cbn; auto).
      assert (Nk : aget k l = None) by (apply aget_none; auto).
      destruct (is_type t r) eqn:T.
      + assert (E : List.concat (map (or_dummy regs k) (reg_ids f r)) = []).
        { rewrite <- flat_map_concat_map. apply flat_map_none. intros i Hi. specialize (Hok k r Hk T i Hi). unfold or_dummy.
          apply in_map_iff in Hok. destruct Hok as ([j x] & <- & Hx). cbn [fst]. 
          destruct (zget j regs) eqn:G; auto. exfalso. apply (is_map_none _ _ _ Hregs) with (v := MReg (semplace "type" "regulatory_element" (re_attrs x)) (re_params x)) in G.
          apply G. exists x. split; auto. split; auto. destruct OK as (_ & (SA & _) & _). apply tagged_emplace. exact (SA _ _ Hx). }
        destruct (zget k l1) as [v|] eqn:Z1.
        * rewrite E. cbn [app]. destruct (IH (mupdate k (fun v => add v (reg_ids f r)) l1) Hin' N2) as (l' & E1 & E2 & E3). exists l'. split; [exact E1|].
          rewrite E2, mupdate_keys. split; auto. intros k'. rewrite E3, zget_mupdate, (Z.eqb_sym k k'). destruct (Z.eqb_spec k' k) as [->|Ne].
          -- rewrite Z1, Nk, T. reflexivity.
          -- destruct (zget k' l1); auto.
        * destruct (IH l1 Hin' N2) as (l' & E1 & E2 & E3). exists l'. split; auto. split; auto. intros k'. rewrite E3, (Z.eqb_sym k k').
          destruct (Z.eqb_spec k' k) as [->|Ne]; auto. rewrite Z1. auto.
      + destruct (IH l1 Hin' N2) as (l' & E1 & E2 & E3). exists l'. split; auto. split; auto. intros k'. rewrite E3, (Z.eqb_sym k k').
        destruct (Z.eqb_spec k' k) as [->|Ne]; auto. destruct (zget k l1); auto. rewrite Nk, T. auto. }
  destruct (G (f_rels f) l0) as (l' & E1 & E2 & E3); auto. { apply (is_map_nodup _ _ Hr). }
  exists l'. split; auto. split; auto. intros k. rewrite E3. destruct (zget k l0); auto.
  assert (Q : aget k (f_rels f) = zget k (f_rels f)); [|rewrite Q; auto].
  destruct (zget k (f_rels f)) as [r|] eqn:Z1.
  - apply aget_In; [apply (is_map_nodup _ _ Hr)|]. apply (mget_In Z.ltb zirr ztra ztot); [apply Hr|auto].
  - apply aget_none. apply (mget_none Z.ltb zirr ztra ztot) in Z1; [auto|apply Hr].
Qed.
End Loaded.

Lemma same_layer_intro {X} (same : X -> X -> Prop) (l l' : list (Z * X)) : List.NoDup (map fst l) -> zsorted (map fst l') ->
  (forall k y, zget k l' = Some y -> exists x, In (k, x) l /\ same x y) -> (forall k x, In (k, x) l -> zget k l' <> None) -> same_layer same l l'.
Proof.
  intros N S H1 H2. split.
  - apply NoDup_Permutation; auto.
    + apply (is_map_nodup l' (fun k y => In (k, y) l')). split; auto. tauto.
    + intros k. split.
      * intros Hk. apply in_map_iff in Hk. destruct Hk as ([j x] & <- & Hk). specialize (H2 j x Hk). cbn [fst].
        destruct (zget j l') as [y|] eqn:E; [|congruence]. apply (mget_In Z.ltb zirr ztra ztot) in E; auto. apply (in_map fst) in E. auto.
      * intros Hk. apply in_map_iff in Hk. destruct Hk as ([j y] & <- & Hk). apply (mget_In Z.ltb zirr ztra ztot) in Hk; auto.
        destruct (H1 j y Hk) as (x & Hx & _). apply (in_map fst) in Hx. auto.
  - intros k x y Hx Hy. apply (mget_In Z.ltb zirr ztra ztot) in Hy; auto. destruct (H1 k y Hy) as (x' & Hx' & Sxy).
    pose proof (nodup_key_inj fst l (k, x) (k, x') N Hx Hx' eq_refl) as [= <-]. auto.
Qed.
Lemma nodup_parts {A} (a b : list A) : List.NoDup (a ++ b) -> List.NoDup a /\ List.NoDup b.
Proof.
  induction a as [|x a IH]; cbn; intros N; [split; [constructor|auto]|]. inversion N; subst. destruct (IH H2). split; auto. constructor; auto.
  intros Hi. apply H1. apply in_or_app. auto.
Qed.

Theorem load_ok : exists m', load_map from_geo origin align ring_valid create f = Done (m', []) /\ same_map m m'.
Proof.
  unfold load_map. rewrite ok_pointers. cbn [negb].
  destruct loaded_points as (pts & -> & Hp).
  destruct (loaded_ways pts Hp) as (lines & polys & -> & Hl & Hg).
  destruct (loaded_lanelets pts lines Hp Hl) as (lls & -> & Hlls).
  destruct (loaded_areas pts lines Hp Hl) as (areas & -> & Sar & Har & Har').
  assert (Hlls' : forall k x, In (k, x) (m_lanelets m) -> exists a, zget k lls = Some (bare x a) /\ zget k (f_rels f) = Some (Relation k a (lanelet_members m (f_ways f) x)) /\
    tagged "type" "lanelet" (ll_attrs x) a).
  { intros k x Hx. destruct (lanelet_get k x Hx) as (a & T & E). exists a. split; auto. apply (is_map_get _ _ _ _ Hlls). exists x, a. auto. }
  assert (L1 : forall i, in_layer (m_lanelets m) i -> zget i lls <> None).
  { intros i Hi. apply in_map_iff in Hi. destruct Hi as ([k x] & <- & Hx). destruct (Hlls' k x Hx) as (a & E & _). cbn [fst]. congruence. }
  assert (L2 : forall i, in_layer (m_areas m) i -> zget i areas <> None).
  { intros i Hi. apply in_map_iff in Hi. destruct Hi as ([k x] & <- & Hx). apply (Har' k x Hx). }
  destruct (loaded_regs pts lines polys Hp Hl Hg lls areas L1 L2) as (regs & -> & Hregs).
  assert (Rl : forall x a k, In (k, x) (m_lanelets m) -> reg_ids f (Relation k a (lanelet_members m (f_ways f) x)) = ll_regs x).
  { intros x a k Hx. destruct (lanelet_parts k x Hx) as (l & il & r & ir & El & Er & _).
    destruct (with_role_lanelet k x a Hx l il r ir El Er) as (_ & _ & _ & W). unfold reg_ids. rewrite W, map_map. apply map_id. }
  assert (Ra : forall x a k, In (k, x) (m_areas m) -> reg_ids f (Relation k a (area_members m (f_ways f) x)) = ar_regs x).
  { intros x a k Hx. destruct (with_role_area k x a Hx) as (_ & _ & W). unfold reg_ids. rewrite W, map_map. apply map_id. }
  pose proof OK as ((N1 & N2 & _) & _ & N3 & _ & _ & _ & LO & AO & _).
  destruct (add_regs_ok "lanelet" lls regs (fun l r => MLanelet (ll_attrs l) (ll_left l) (ll_right l) (ll_center l) (ll_regs l ++ r)) Hregs) as (lls2 & -> & Kl & Gl).
  { intros k r H T. apply rel_kind in H. pose proof (is_type_kind k r _ H T) as Ty.
    destruct H as [x a G1 G2 G3|x a G1 G2 G3|x a G1 G2 G3]; cbn [r_attrs] in *; try congruence. rewrite Rl by auto. apply (LO k x G1). }
  destruct (add_regs_ok "multipolygon" areas regs (fun l r => MArea (ar_attrs l) (ar_outer l) (ar_inner l) (ar_regs l ++ r)) Hregs) as (areas2 & -> & Ka & Ga).
  { intros k r H T. apply rel_kind in H. pose proof (is_type_kind k r _ H T) as Ty.
    destruct H as [x a G1 G2 G3|x a G1 G2 G3|x a G1 G2 G3]; cbn [r_attrs] in *; try congruence. rewrite Ra by auto. apply (AO k x G1). }
  eexists. split; [reflexivity|].
  unfold way_ids in N2. destruct (nodup_parts _ _ N2) as [N2a N2b].
  unfold rel_ids in N3. destruct (nodup_parts _ _ N3) as [N3a N3b]. destruct (nodup_parts _ _ N3b) as [N3c N3d].
  unfold same_map. cbn [m_points m_lines m_polys m_lanelets m_areas m_regs]. split; [|split; [|split; [|split; [|split]]]].
  - apply same_layer_intro; auto; [apply Hp| |].
    + intros k y E. exists y. split; auto. apply (is_map_get _ _ _ _ Hp) in E. auto.
    + intros k x Hx. apply (is_map_get _ _ _ _ Hp) in Hx. congruence.
  - apply same_layer_intro; auto; [apply Hl| |].
    + intros k y E. apply (is_map_get _ _ _ _ Hl) in E. auto.
    + intros k x Hx E. apply (is_map_none _ _ _ Hl) with (v := MLine (ml_attrs x) (ml_pts x) false) in E. apply E. exists x. split; auto. reflexivity.
  - apply same_layer_intro; auto; [apply Hg| |].
    + intros k y E. apply (is_map_get _ _ _ _ Hg) in E. auto.
    + intros k x Hx E. destruct (poly_in polys Hg k) as (y & Ey); [apply (in_map fst) in Hx; exact Hx|]. congruence.
  - apply same_layer_intro; auto; [rewrite Kl; apply Hlls| |].
    + intros k y E. rewrite Gl in E. destruct (zget k lls) as [v|] eqn:Ev; [|discriminate]. apply (is_map_get _ _ _ _ Hlls) in Ev.
      destruct Ev as (x & a & Hx & T & ->). destruct (Hlls' k x Hx) as (a' & _ & Er & T'). rewrite (tagged_unique _ _ _ _ _ T' T) in Er. rewrite Er in E.
      unfold is_type in E. cbn [r_attrs] in E. rewrite (sget_only _ _ _ _ T (proj1 (LO k x Hx))) in E. cbn [String.eqb Ascii.eqb Bool.eqb] in E.
      rewrite Rl in E by auto. injection E as <-. exists x. split; auto. unfold same_lanelet, bare. cbn. auto.
    + intros k x Hx E. rewrite Gl in E. destruct (Hlls' k x Hx) as (a & E1 & E2 & _). rewrite E1, E2 in E. destruct (is_type _ _) in E; discriminate.
  - apply same_layer_intro; auto; [rewrite Ka; auto| |].
    + intros k y E. rewrite Ga in E. destruct (zget k areas) as [v|] eqn:Ev; [|discriminate]. destruct (Har k v Ev) as (x & Hx & T & B1 & B2 & B3).
      destruct (area_get k x Hx) as (a' & T' & Er). rewrite (tagged_unique _ _ _ _ _ T' T) in Er. rewrite Er in E.
      unfold is_type in E. cbn [r_attrs] in E. rewrite (sget_only _ _ _ _ T (proj1 (AO k x Hx))) in E. cbn [String.eqb Ascii.eqb Bool.eqb] in E.
      rewrite Ra in E by auto. injection E as <-. exists x. split; auto. unfold same_area. cbn. rewrite B3. auto.
    + intros k x Hx E. rewrite Ga in E. specialize (Har' k x Hx). destruct (zget k areas) as [v|]; [|congruence].
      destruct (zget k (f_rels f)); [|discriminate]. destruct (is_type _ _) in E; discriminate.
  - apply same_layer_intro; auto; [apply Hregs| |].
    + intros k y E. apply (is_map_get _ _ _ _ Hregs) in E. auto.
    + intros k x Hx E. destruct (reg_get k x Hx) as (a & T & _).
      apply (is_map_none _ _ _ Hregs) with (v := MReg a (re_params x)) in E. apply E. exists x. split; auto. split; auto.
Qed.
End Trip.

(** * With the text in between *)
Section File.
Context {P D : Type}.
Variable to_geo : P -> option (D * D * D).
Variable rnd : D * D * D -> D * D * D.
Let to_geo' (p : P) : option (D * D * D) := option_map rnd (to_geo p).
Variable m : @mmap P.
Lemma known_rnd i : known to_geo' m i = known to_geo m i.
Proof.
  unfold known, to_geo'. induction (m_points m) as [|e l IH]; cbn; auto. rewrite IH. f_equal. destruct (to_geo (p_xyz (snd e))); auto.
Qed.
Lemma forallb_known l : forallb (known to_geo' m) l = forallb (known to_geo m) l.
Proof. induction l as [|i l IH]; cbn; auto. rewrite IH, known_rnd. auto. Qed.
Lemma node_errors_rnd : node_errors to_geo' m = node_errors to_geo m.
Proof. unfold node_errors, to_geo'. apply flat_map_ext'. intros e _. destruct (to_geo (p_xyz (snd e))); auto. Qed.
Lemma way_errors_rnd : way_errors to_geo' m = way_errors to_geo m.
Proof. unfold way_errors. f_equal; apply flat_map_ext'; intros e _; rewrite forallb_known; auto. Qed.
Lemma way_of_rnd k w : way_of to_geo' m k w <-> way_of to_geo m k w.
Proof. unfold way_of. split; intros (H1 & H2 & H3); (split; [auto|split; [auto|]]); intros i Hi; [rewrite <- known_rnd|rewrite known_rnd]; auto. Qed.

Section Keys.
Context {N N' W : Type}.
Variable nodes : list (Z * N).
Variable nodes' : list (Z * N').
Variable ways : list (Z * W).
Hypothesis E : map fst nodes' = map fst nodes.
Lemma has_keys i : has nodes' i = has nodes i.
Proof. unfold has. rewrite E. auto. Qed.
Lemma reg_members_keys x : reg_members m nodes' ways x = reg_members m nodes ways x.
Proof. unfold reg_members. apply flat_map_ext'. intros [role p] _. cbn. destruct p as [i|i v|i|[i|]|[i|]]; cbn; auto. rewrite has_keys. auto. Qed.
Lemma rel_of_keys k r : rel_of m nodes' ways k r <-> rel_of m nodes ways k r.
Proof.
  unfold rel_of. split; intros (H1 & [(x & A & B & C)|H2]); (split; [auto|]); auto; left; exists x; [rewrite <- reg_members_keys|rewrite reg_members_keys]; auto.
Qed.
Lemma rel_errors_keys : rel_errors m nodes' ways = rel_errors m nodes ways.
Proof.
  unfold rel_errors. f_equal. apply flat_map_ext'. intros e _. apply flat_map_ext'. intros [role p] _.
  destruct p as [i|i v|i|[i|]|[i|]]; cbn; auto. rewrite has_keys. auto.
Qed.
End Keys.
End File.

Lemma is_map_ext {K V} lt (l : list (K * V)) (Q R : K -> V -> Prop) : (forall k v, Q k v <-> R k v) -> is_map lt l Q -> is_map lt l R.
Proof. intros E [S H]. split; auto. intros k v. rewrite H. auto. Qed.
Lemma attrs_ok_tagged k v a a' : attrs_ok a -> tagged k v a a' -> k <> "ele" -> no_nul k -> no_nul v -> attrs_ok a'.
Proof.
  intros [S H] [S' T] E Nk Nv. split; auto. intros k' v' Hin. apply T in Hin. destruct Hin as [Hin|(-> & -> & _)]; auto.
Qed.

Section FileTrip.
Context {P D : Type}.
Variable zero_d : D.
Variable is_zero : D -> bool.
Variable print_id : Z -> string.
Variable parse_id : string -> Z.
Variable fmt : bool -> D -> string.
Variable parse_d : string -> D.
Variable to_geo : P -> option (D * D * D).
Variable from_geo : D * D * D -> option P.
Variable origin : P.
Variable align : list P -> list P -> bool * bool.
Variable ring_valid : list P -> bool.
Variable create : string -> mreg -> bool.
Variable reloc : list nat -> nat -> list nat.
Variables upload josm : bool.
Variable m : @mmap P.
Hypothesis rok : reloc_ok reloc.
Definition text_geo (p : P) : option (D * D * D) := option_map (as_text zero_d is_zero fmt parse_d josm) (to_geo p).
Hypothesis OK : map_ok text_geo from_geo align ring_valid create m.
Hypothesis TO : texts_ok print_id parse_id m.

Theorem file_trip : exists f doc f' m',
  write_map false to_geo reloc m = Some (f, []) /\
  write is_zero print_id fmt upload josm f = Some doc /\
  read zero_d parse_id parse_d true reloc doc = Some (f', []) /\
  load_map from_geo origin align ring_valid create f' = Done (m', []) /\ same_map m m'.
Proof.
  destruct (write_map_spec to_geo reloc m false rok) as (f & E & Hn & Hw & Hr); try apply OK.
  { eapply ok_distinct; eauto. } { right. eapply ok_missing_last; eauto. }
  set (f' := rounded zero_d is_zero fmt parse_d josm f).
  assert (Kn : map fst (f_nodes f') = map fst (f_nodes f)) by (cbn; rewrite map_map; reflexivity).
  assert (Hn' : is_map Z.ltb (f_nodes f') (node_of text_geo m)).
  { destruct Hn as [S H]. split; [rewrite Kn; exact S|]. intros k n. unfold f', rounded. cbn [f_nodes]. rewrite in_map_iff. unfold text_geo. split.
    - intros ([k0 n0] & [= -> <-] & H0). apply H in H0. destruct H0 as (p & lat & lon & ele & H1 & H2 & ->).
      exists p. unfold node_of. rewrite H2. cbn. eauto 10.
    - intros (p & lat & lon & ele & H1 & H2 & ->). destruct (to_geo (p_xyz p)) as [[[lat0 lon0] ele0]|] eqn:G; [|discriminate].
      cbn in H2. injection H2 as <- <- <-. exists (k, Node k (p_attrs p) lat0 lon0 ele0). split; [reflexivity|]. apply H. exists p, lat0, lon0, ele0. auto. }
  assert (Hw' : is_map Z.ltb (f_ways f') (way_of text_geo m)).
  { eapply is_map_ext; [|exact Hw]. intros k v. symmetry. apply way_of_rnd. }
  assert (Hr' : is_map Z.ltb (f_rels f') (rel_of m (f_nodes f') (f_ways f'))).
  { eapply is_map_ext; [|exact Hr]. intros k v. symmetry. apply rel_of_keys. exact Kn. }
  destruct (load_ok text_geo from_geo origin align ring_valid create m OK f' Hn' Hw' Hr') as (m' & E' & S').
  assert (F : file_ok print_id parse_id f).
  { destruct TO as (T1 & T2 & T3 & T4 & T5 & T6).
    assert (Tn : forall k n, In (k, n) (f_nodes f) -> n_id n = k /\ text_ok print_id parse_id k (n_attrs n)).
    { intros k n H. apply Hn in H. destruct H as (p & lat & lon & ele & H1 & _ & ->). split; auto. apply (T1 k p H1). }
    assert (Tw : forall k w, In (k, w) (f_ways f) -> w_id w = k /\ text_ok print_id parse_id k (w_attrs w)).
    { intros k w H. apply Hw in H. destruct H as (H0 & [(x & Hx & -> & _)|(x & Hx & T & _)] & _); (split; [exact H0|]).
      - apply (T2 k x Hx).
      - destruct (T3 k x Hx) as [I A]. split; auto. eapply attrs_ok_tagged; eauto; try reflexivity. discriminate. }
    assert (Tr : forall k r, In (k, r) (f_rels f) -> r_id r = k /\ text_ok print_id parse_id k (r_attrs r)).
    { intros k r H. apply Hr in H. destruct H as (H0 & [(x & Hx & T & _)|[(x & Hx & T & _)|(x & Hx & T & _)]]); (split; [exact H0|]).
      - destruct (T6 k x Hx) as [[I A] _]. split; auto. eapply attrs_ok_tagged; eauto; try reflexivity. discriminate.
      - destruct (T4 k x Hx) as [I A]. split; auto. eapply attrs_ok_tagged; eauto; try reflexivity. discriminate.
      - destruct (T5 k x Hx) as [I A]. split; auto. eapply attrs_ok_tagged; eauto; try reflexivity. discriminate. }
    unfold file_ok. split; [|split; [|split; [|split; [|split]]]].
    - split; [apply Hn|]. intros k n H. destruct (Tn k n H) as (A & B & _). auto.
    - split; [apply Hw|]. intros k n H. destruct (Tw k n H) as (A & B & _). auto.
    - split; [apply Hr|]. intros k n H. destruct (Tr k n H) as (A & B & _). auto.
    - intros k n H. apply (Tn k n H).
    - intros k w H. split; [apply (Tw k w H)|]. intros i Hi. rewrite <- Kn.
      assert (in_layer (m_points m) i) as L by (apply (way_nodes text_geo m f' Hw' k w i); auto).
      destruct (node_get text_geo from_geo align ring_valid create m OK f' Hn' i L) as (n & En & _).
      apply (mget_In Z.ltb zirr ztra ztot) in En; [|apply Hn']. apply (in_map fst) in En. exact En.
    - intros k r H. split; [apply (Tr k r H)|]. intros role t Ht. split.
      + pose proof (rel_kind text_geo from_geo align ring_valid create m OK f' Hn' Hw' Hr' k r H) as K.
        destruct K as [x a G1 G2 G3|x a G1 G2 G3|x a G1 G2 G3]; cbn [r_members] in Ht.
        * apply in_map_iff in Ht. destruct Ht as ([role0 p] & [= -> <-] & Hp). unfold params in Hp. apply in_flat_map in Hp.
          destruct Hp as ([role1 l] & H1 & H2). cbn [fst snd] in H2. apply in_map_iff in H2. destruct H2 as (p' & [= -> _] & _). apply (proj2 (T6 k x G1) role l H1).
        * destruct (lanelet_parts text_geo from_geo align ring_valid create m OK f' Hw' k x G1) as (l & il & r & ir & _ & _ & _ & _ & _ & Em).
          rewrite Em in Ht. cbn [app In] in Ht. rewrite in_app_iff, !in_map_iff in Ht.
          destruct Ht as [[= <- _]|[[= <- _]|[(i & [= <- _] & _)|(i & [= <- _] & _)]]]; reflexivity.
        * rewrite (area_parts text_geo from_geo align ring_valid create m OK f' Hw' k x G1) in Ht.
          rewrite !in_app_iff in Ht. destruct Ht as [Ht|[Ht|Ht]]; apply in_map_iff in Ht; destruct Ht as (i & [= <- _] & _); reflexivity.
      + destruct (member_deref text_geo from_geo align ring_valid create m OK f' Hn' Hw' Hr' k r (role, t) H Ht) as (d & Ed). cbn [snd] in Ed.
        destruct t as [i|i|i|]; cbn in Ed; [| | |discriminate]; cbn [target_ok].
        * rewrite <- Kn. destruct (zget i (f_nodes f')) as [n|] eqn:G; [|change (f_nodes f') with (f_nodes f') in *; unfold f' in G; cbn in G; rewrite G in Ed; discriminate].
          apply (mget_In Z.ltb zirr ztra ztot) in G; [|apply Hn']. apply (in_map fst) in G. exact G.
        * destruct (zget i (f_ways f)) as [n|] eqn:G; [|discriminate]. apply (mget_In Z.ltb zirr ztra ztot) in G; [|apply Hw]. apply (in_map fst) in G. exact G.
        * destruct (zget i (f_rels f)) as [n|] eqn:G; [|discriminate]. apply (mget_In Z.ltb zirr ztra ztot) in G; [|apply Hr]. apply (in_map fst) in G. exact G. }
  destruct (OsmRoundProofs.round_trip zero_d is_zero print_id parse_id fmt parse_d reloc rok upload josm f F) as (doc & Ed & Er).
  exists f, doc, f', m'. split; [|auto]. rewrite E. f_equal. f_equal.
  rewrite <- (node_errors_rnd to_geo (as_text zero_d is_zero fmt parse_d josm)), <- (way_errors_rnd to_geo (as_text zero_d is_zero fmt parse_d josm)).
  rewrite <- (rel_errors_keys m (f_nodes f) (f_nodes f') (f_ways f) Kn). fold text_geo. change (f_ways f) with (f_ways f').
  rewrite (ok_rel_errors text_geo from_geo align ring_valid create m OK f' Hn' Hw').
  erewrite (ok_node_errors text_geo), (ok_way_errors text_geo); eauto.
Qed.
End FileTrip.

Theorem trip_ok {P D} (to_geo : P -> option (D * D * D)) from_geo origin align ring_valid create reloc (m : @mmap P) :
  reloc_ok reloc -> map_ok to_geo from_geo align ring_valid create m ->
  exists f m', write_map false to_geo reloc m = Some (f, []) /\
    load_map from_geo origin align ring_valid create f = Done (m', []) /\ same_map m m'.
Proof.
  intros rok OK. destruct (write_map_spec to_geo reloc m false rok) as (f & E & Hn & Hw & Hr); try apply OK.
  - eapply ok_distinct; eauto.
  - right. eapply ok_missing_last; eauto.
  - destruct (load_ok to_geo from_geo origin align ring_valid create m OK f Hn Hw Hr) as (m' & E' & S).
    exists f, m'. split; auto. rewrite E. f_equal. f_equal.
    erewrite ok_node_errors, ok_way_errors, ok_rel_errors; eauto.
Qed.
