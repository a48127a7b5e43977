From Coq Require Import NArith ZArith List Bool Arith Lia Relations Permutation.
From Verif Require Import CostAlg GraphModel GraphSpec GraphProofs GraphProofs2 DijkstraModel RoutingSpec RoutingProps TrafficModel BuilderModel BuilderSpec BuilderProofs BuilderProofs2
  BuilderProofs3 BuilderProofs4 BuilderProps ValidityProps RouteSpec RouteBuilderModel RouteBuilderSpec RouteBuilderProofs7 RouteBuilderProofs11 RouteBuilderProps RouteQueryModel
  JourneySpec JourneyProofs TripSpec.
Import ListNotations.
Local Open Scope nat_scope.

(** * Edges and steps *)
Section Generic.
Context (A : CostAlg) (w : world) (ru : rules) (g : graph A) (Gok : graph_ok g).
Hypothesis Huse : forall a, usable w ru a <-> exists v, get_vertex g (L a) = Some v.
Variables (P : edge A -> Prop) (St : @stepping A).
Hypothesis P_step : forall e, P e -> exists a b, get_vertex g (L a) = Some (e_src e) /\ get_vertex g (L b) = Some (e_tgt e) /\ St a b (ei_cost (e_info e)).
Hypothesis step_P : forall a b c, St a b c -> exists e, P e /\ get_vertex g (L a) = Some (e_src e) /\ get_vertex g (L b) = Some (e_tgt e) /\ ei_cost (e_info e) = c.

Lemma vertex_inj a b v : get_vertex g (L a) = Some v -> get_vertex g (L b) = Some v -> a = b.
Proof. intros Ha Hb. destruct (go_lookup _ Gok _ _ Ha) as [E1 _]. destruct (go_lookup _ Gok _ _ Hb) as [E2 _]. apply L_inj'. congruence. Qed.
Lemma walk_trip a s es v : get_vertex g (L a) = Some s -> RoutingSpec.walk P s es v ->
  exists ls b, get_vertex g (L b) = Some v /\ trip w ru St a ls b (wcost es) /\ Forall2 (fun u x => get_vertex g (L x) = Some u) (wverts s es) ls.
Proof.
  intros Hs H. induction H as [|es e H IH He].
  - exists [a], a. split; auto. split; [constructor; apply Huse; eauto|]. repeat constructor. exact Hs.
  - destruct IH as (ls & b & Eb & W & El). destruct (P_step e He) as (b' & d & E1 & E2 & Sd). pose proof (vertex_inj _ _ _ Eb E1) as <-.
    exists (ls ++ [d]), d. split; auto. split; [rewrite wcost_snoc; econstructor; eauto|]. rewrite wverts_snoc. apply Forall2_app; auto.
Qed.
Lemma trip_walk a s ls b c : get_vertex g (L a) = Some s -> trip w ru St a ls b c ->
  exists es v, RoutingSpec.walk P s es v /\ get_vertex g (L b) = Some v /\ wcost es = c.
Proof.
  intros Hs H. induction H as [U|ls b c d e W IH Sd].
  - exists [], s. split; [constructor|]. auto.
  - destruct IH as (es & v & Hw & Hv & Hc). destruct (step_P b d e Sd) as (x & Hx & E1 & E2 & Ec). rewrite Hv in E1. injection E1 as ->.
    exists (es ++ [x]), (e_tgt x). split; [constructor; auto|]. split; auto. rewrite wcost_snoc, Ec, Hc. reflexivity.
Qed.
Lemma trip_usable a ls b c : trip w ru St a ls b c -> usable w ru a.
Proof. induction 1; auto. Qed.
Lemma verts_elements vs ls : Forall2 (fun u x => get_vertex g (L x) = Some u) vs ls -> elements g vs (map L ls).
Proof. induction 1 as [|u x vs ls H _ IH]; constructor; auto. apply (go_lookup _ Gok _ _ H). Qed.
Lemma elements_same vs p q : elements g vs p -> elements g vs q -> p = q.
Proof. intros H. revert q. induction H as [|v x vs p H1 H2 IH]; intros q Hq; inversion Hq; subst; auto. f_equal; [congruence|auto]. Qed.
Lemma verts_nodup vs ls : Forall2 (fun u x => get_vertex g (L x) = Some u) vs ls -> NoDup vs -> NoDup ls.
Proof.
  induction 1 as [|u x vs ls H F IH]; intros Nd; [constructor|]. inversion Nd as [|? ? N1 N2]; subst. constructor; auto. intros Hx. apply N1.
  clear -F H Hx. induction F as [|t y vs ls G _ IH]; [destruct Hx|]. destruct Hx as [->|Hx]; [left; congruence|right; auto].
Qed.
Lemma path_trip a b p : path_between g P (L a) (L b) p -> exists ls, p = map L ls /\ cheapest_trip w ru St a b ls.
Proof.
  intros (s & t & es & Hs & Ht & (Hw & Hopt) & Hf & Nd & El).
  destruct (walk_trip a s es t Hs Hw) as (ls & b' & Eb & W & El'). pose proof (vertex_inj _ _ _ Eb Ht) as ->.
  exists ls. split; [exact (elements_same _ _ _ El (verts_elements _ _ El'))|]. exists (wcost es). split; auto. split; auto. split; [exact (verts_nodup _ _ El' Nd)|].
  intros ls' c' W'. destruct (trip_walk a s ls' b c' Hs W') as (es' & v & Hw' & Hv & <-). rewrite Ht in Hv. injection Hv as <-. apply Hopt. auto.
Qed.
Lemma no_path_trip a b : no_path g P (L a) (L b) -> no_trip w ru St a b.
Proof.
  intros H ls c W. pose proof (trip_usable _ _ _ _ W) as Ua. apply Huse in Ua as [s Hs].
  destruct (trip_walk a s ls b c Hs W) as (es & v & Hw & Hv & <-). exact (H s v Hs Hv es Hw).
Qed.
Lemma walk_lanelets a es v u d s : get_vertex g (L a) = Some s -> RoutingSpec.walk P s es v -> In u (wverts s es) -> vertex_elem g u <> Some (EArea d).
Proof.
  intros Hs Hw Hu K. destruct (walk_trip a s es v Hs Hw) as (ls & b & _ & _ & El). clear -El Hu K Gok.
  induction El as [|t y vs q H1 H2 IH]; [destruct Hu|]. destruct Hu as [->|Hu]; [|auto]. destruct (go_lookup _ Gok _ _ H1) as [E _]. rewrite K in E. discriminate.
Qed.
Lemma walk_last s es v : RoutingSpec.walk P s es v -> In v (wverts s es).
Proof. intros Hw. destruct Hw; [left; auto|]. rewrite wverts_snoc. apply in_or_app. right. left. auto. Qed.
Lemma reached_trips a s (budget : cost A) l vs : get_vertex g (L a) = Some s -> NoDup vs -> elements g vs l ->
  (forall v, In v vs <-> exists es, RoutingSpec.walk P s es v /\ below_inf (wcost es) /\ cle A (wcost es) budget) ->
  NoDup l /\ forall x, In x l <-> exists b, x = L b /\ within w ru St a budget b.
Proof.
  intros Hs Nd El Hin.
  assert (K : exists ls, l = map L ls /\ Forall2 (fun u x => get_vertex g (L x) = Some u) vs ls).
  { assert (Kv : forall v, In v vs -> exists b, get_vertex g (L b) = Some v).
    { intros v Hv. apply Hin in Hv as (es & Hw & _). destruct (walk_trip a s es v Hs Hw) as (_ & b & Eb & _). eauto. }
    clear -El Kv Gok. induction El as [|v x vs l H1 H2 IH]; [exists []; auto|]. destruct IH as (ls & -> & F); [intros; apply Kv; right; auto|].
    destruct (Kv v (or_introl eq_refl)) as [b Hb]. exists (b :: ls). split; [|constructor; auto]. cbn [map]. f_equal. destruct (go_lookup _ Gok _ _ Hb) as [E _]. congruence. }
  destruct K as (ls & -> & F). split.
  - pose proof (verts_nodup _ _ F Nd) as N. clear -N. induction N as [|x ls N1 N2 IH]; cbn [map]; constructor; auto. intros K. apply in_map_iff in K as (y & E & Hy).
    apply L_inj' in E as ->. auto.
  - intros x. split.
    + intros Hx. apply in_map_iff in Hx as (b & <- & Hb). exists b. split; auto.
      assert (exists v, In v vs /\ get_vertex g (L b) = Some v) as (v & Hv & Ev).
      { clear -F Hb. induction F as [|t y vs ls G _ IH]; [destruct Hb|]. destruct Hb as [->|Hb]; [exists t; cbn; auto|]. destruct (IH Hb) as (v & ? & ?). exists v. cbn. auto. }
      apply Hin in Hv as (es & Hw & Hf & Hle). destruct (walk_trip a s es v Hs Hw) as (q & b' & Eb & W & _). pose proof (vertex_inj _ _ _ Eb Ev) as ->. exists q, (wcost es). auto.
    + intros (b & -> & q & c & W & Hf & Hle). destruct (trip_walk a s q b c Hs W) as (es & v & Hw & Hv & <-). apply in_map.
      assert (Hvs : In v vs) by (apply Hin; eauto).
      clear -F Hvs Hv Gok. induction F as [|t y vs ls G _ IH]; [destruct Hvs|]. destruct Hvs as [->|Hvs]; [left|right; auto].
      destruct (go_lookup _ Gok _ _ G) as [E1 _]. destruct (go_lookup _ Gok _ _ Hv) as [E2 _]. apply L_inj'. congruence.
Qed.
End Generic.

Section Trips.
Context (A : CostAlg) (one : cost A) (w : world) (ru : rules) (costs : list (@module A))
        (order : list (lref * lref) -> list (lref * lref)) (Hset : setting w ru one order).
Variables (g : graph A) (Hb : build one w ru costs order = Ok g).
Variables (k : N) (m : @module A) (Hk : nth_error costs (N.to_nat k) = Some m).
Let Gok := g_ok A one w ru costs order Hset g Hb.
Let Huse := vertex_usable A one w ru costs order Hset g Hb.

(** The steps that the edges of the graph stand for. *)
Definition steps_of (St : @stepping A) (P : edge A -> Prop) : Prop :=
  (forall e, P e -> exists a b, get_vertex g (L a) = Some (e_src e) /\ get_vertex g (L b) = Some (e_tgt e) /\ St a b (ei_cost (e_info e))) /\
  (forall a b c, St a b c -> exists e, P e /\ get_vertex g (L a) = Some (e_src e) /\ get_vertex g (L b) = Some (e_tgt e) /\ ei_cost (e_info e) = c).

Lemma steps_on : steps_of (drives_on w ru m) (RoutingSpec.drivable g k false false).
Proof.
  split.
  - intros e He. destruct (edge_leads A one w ru costs order Hset g Hb k m Hk e He) as (a & b & E1 & E2 & Ld & Ec & F & N). exists a, b.
    split; [eapply src_known; eauto; apply He|]. split; [eapply tgt_known; eauto; apply He|]. rewrite Ec. repeat (split; auto); apply Ld.
  - intros a b c (Ld & -> & F & N). destruct (leads_edge A one w ru costs order Hset g Hb k m Hk a b Ld F N) as (e & He & E1 & E2 & Ec). exists e. split; auto.
    split; [eapply src_known; eauto; apply He|]. split; [eapply tgt_known; eauto; apply He|auto].
Qed.
Lemma steps_changes p : (forall s, BuilderSpec.regular w ru s) -> fixed_price m p -> steps_of (drives_or_changes w ru m p) (RoutingSpec.drivable g k true false).
Proof.
  intros Hreg Hp. split.
  - intros e (He & Hc & Hr).
    assert (Es : ei_rel (e_info e) = Successor \/ exists s, ei_rel (e_info e) = BuilderModel.changing s).
    { destruct Hr as [Hr|[[_ [Hr|Hr]]|[Hr _]]]; [auto|right; exists SLeft; auto|right; exists SRight; auto|discriminate]. }
    destruct Es as [Es|[s Es]].
    + destruct (proj1 steps_on e) as (a & b & E1 & E2 & Sab); [repeat split; auto; left; auto|]. exists a, b. split; auto. split; auto. left. auto.
    + destruct (edge_joined A one w ru costs order Hset g Hb e He) as (x & y & Hx & Hy & J). rewrite Es in J.
      apply (C59_change_sound A one w ru costs order Hset g s Hb (Hreg s)) in J as (a & b & pre & post & m' & -> & -> & Str & Em & Ec & G).
      rewrite Hc, Hk in Em. injection Em as <-. rewrite Hp in Ec. exists a, b.
      split; [eapply src_known; eauto|]. split; [eapply tgt_known; eauto|]. right. split; [exists s; apply (str_change _ _ _ _ _ Str); apply in_or_app; right; left; auto|].
      split; auto. apply good_iff. auto.
  - intros a b c [Sab|([s Hch] & -> & F & N)].
    + destruct (proj2 steps_on a b c Sab) as (e & (He & Hc & Hr) & E1 & E2 & Ec). exists e. split; auto. split; auto. split; auto.
      destruct Hr as [Hr|[[Hr _]|[Hr _]]]; try discriminate. left; auto.
    + destruct (C59_change_complete A one w ru costs order Hset g s Hb (Hreg s) a b Hch) as (pre & post & _ & K). destruct (K k m Hk) as [K1 _]. cbv zeta in K1. rewrite Hp in K1.
      destruct K1 as (e & He & Hs & Ht & Ei); [apply good_iff; auto|].
      exists e. split; [split; [auto|]; rewrite Ei; cbn; split; auto; right; left; split; auto; destruct s; auto|].
      split; [eapply src_known; eauto|]. split; [eapply tgt_known; eauto|]. rewrite Ei. reflexivity.
Qed.
Lemma steps_back St P : steps_of St P -> steps_of (backwards St) (RoutingSpec.reversed P).
Proof.
  intros [H1 H2]. split.
  - intros e (e' & He & E1 & E2 & E3). destruct (H1 e' He) as (a & b & Ha & Hb' & Sab). exists b, a. rewrite E1, E2, E3. auto.
  - intros a b c Sab. destruct (H2 b a c Sab) as (e & He & Ha & Hb' & Ec).
    exists {| e_src := e_tgt e; e_tgt := e_src e; e_info := e_info e |}. split; [exists e; auto|]. auto.
Qed.

Theorem trips_path cok wok (LW : CostLaws A cok wok) tie lc St a b : steps_of St (RoutingSpec.drivable g k lc false) ->
  match shortest_path tie g (L a) (L b) k lc false with
  | QRet (Some p) => exists ls, p = map L ls /\ cheapest_trip w ru St a b ls
  | QRet None => no_trip w ru St a b
  | QThrow | QBroken => False
  end.
Proof.
  intros [S1 S2]. pose proof (known_module A one w ru costs order Hset g Hb k m Hk) as Kn. destruct (history A one w ru costs order Hset g Hb) as [ops E].
  pose proof (C11_shortest_path_optimal A cok wok LW (N.of_nat (length costs)) ops tie (L a) (L b) k lc false) as H. cbv zeta in H. rewrite <- E in H.
  destruct (shortest_path tie g (L a) (L b) k lc false) as [[p|]| |].
  - eapply path_trip; [exact Gok|exact Huse|exact S1|exact S2|apply H].
  - eapply no_path_trip; [exact Huse|exact S2|apply H].
  - destruct H as [_ [H|[_ (s & t & es & v & d & Hs & Ht & (Hw & _) & Hv & Hd)]]]; [clear -H Kn; lia|].
    exact (walk_lanelets A w ru g Gok Huse _ _ S1 a es t v d s Hs Hw Hv Hd).
  - exact H.
Qed.
Lemma via_stages St points p lc :
  steps_of St (RoutingSpec.drivable g k lc false) -> via_path (path_between g (RoutingSpec.drivable g k lc false)) (map L points) p -> exists ls, p = map L ls /\ stages w ru St points ls.
Proof.
  intros [S1 S2] H. remember (map L points) as q eqn:Eq. revert points Eq. induction H as [a b p H|a b rest p q H Hv IH]; intros points Eq.
  - destruct points as [|x [|y [|z r]]]; try discriminate. injection Eq as -> ->.
    destruct (path_trip A w ru g Gok Huse _ _ S1 S2 x y p H) as (ls & -> & C). exists ls. split; auto. constructor. auto.
  - destruct points as [|x [|y r]]; try discriminate. injection Eq as -> -> ->.
    destruct (path_trip A w ru g Gok Huse _ _ S1 S2 x y p H) as (ls & -> & C). destruct (IH (y :: r) eq_refl) as (l' & E & Hst).
    destruct l' as [|y' l']; [discriminate|]. injection E as E1 E2 ->. assert (y = y') as <- by (destruct y, y'; cbn in *; congruence).
    exists (ls ++ l'). split; [rewrite map_app; auto|]. constructor; auto.
Qed.
Theorem trips_via cok wok (LW : CostLaws A cok wok) tie lc St a via b : steps_of St (RoutingSpec.drivable g k lc false) ->
  match shortest_path_via tie g (L a) (map L via) (L b) k lc false with
  | QRet (Some p) => exists ls, p = map L ls /\ stages w ru St (a :: via ++ [b]) ls
  | QRet None => exists l x y r, a :: via ++ [b] = l ++ x :: y :: r /\ no_trip w ru St x y
  | QThrow | QBroken => False
  end.
Proof.
  intros Hst. pose proof Hst as [S1 S2]. pose proof (known_module A one w ru costs order Hset g Hb k m Hk) as Kn. destruct (history A one w ru costs order Hset g Hb) as [ops E].
  pose proof (C15_shortest_path_via A cok wok LW (N.of_nat (length costs)) ops tie (L a) (map L via) (L b) k lc false) as H. cbv zeta in H. rewrite <- E in H.
  assert (Ep : L a :: map L via ++ [L b] = map L (a :: via ++ [b])) by (cbn [map]; rewrite map_app; reflexivity). rewrite Ep in H.
  assert (Hc : forall x y, consecutive (map L (a :: via ++ [b])) x y -> exists l u v r, x = L u /\ y = L v /\ a :: via ++ [b] = l ++ u :: v :: r).
  { intros x y (l & r & K). clear -K. apply map_eq_app in K as (l1 & l2 & E1 & <- & E2). destruct l2 as [|u [|v l2]]; try discriminate.
    injection E2 as <- <- <-. exists l1, u, v, l2. auto. }
  destruct (shortest_path_via tie g (L a) (map L via) (L b) k lc false) as [[p|]| |].
  - eapply via_stages; [exact Hst|exact H].
  - destruct H as (x & y & Cx & Np). apply Hc in Cx as (l & u & v & r & -> & -> & Eq). exists l, u, v, r. split; auto.
    eapply no_path_trip; [exact Huse|exact S2|exact Np].
  - destruct H as [H|(_ & x & y & Cx & Ar)]; [clear -H Kn; lia|]. apply Hc in Cx as (l & u & v & r & -> & -> & Eq).
    destruct Ar as (s & t & es & z & d & Hs & Ht & (Hw & _) & Hv & Hd). exact (walk_lanelets A w ru g Gok Huse _ _ S1 u es t z d s Hs Hw Hv Hd).
  - exact H.
Qed.
Theorem trips_reach cok wok (LW : CostLaws A cok wok) tie backw lc St a budget : steps_of St (directed backw (RoutingSpec.drivable g k lc false)) -> comparable cok budget ->
  exists l, reachable_set backw false tie g (L a) budget k lc = QRet l /\ NoDup l /\ forall x, In x l <-> exists b, x = L b /\ within w ru St a budget b.
Proof.
  intros [S1 S2] Hc. pose proof (known_module A one w ru costs order Hset g Hb k m Hk) as Kn. destruct (history A one w ru costs order Hset g Hb) as [ops E].
  pose proof (C12_reachable_set_exact A cok wok LW (N.of_nat (length costs)) ops backw false tie (L a) budget k lc Hc) as H. cbv zeta in H. rewrite <- E in H.
  destruct (reachable_set backw false tie g (L a) budget k lc) as [l| |].
  - exists l. split; auto. destruct (get_vertex g (L a)) as [s|] eqn:Hs.
    + destruct H as (vs & Nd & El & Hin). eapply reached_trips; [exact Gok|exact Huse|exact S1|exact S2|exact Hs|exact Nd|exact El|exact Hin].
    + subst l. split; [constructor|]. intros x. split; [intros []|]. intros (b & _ & ls & c & W & _). apply trip_usable, Huse in W as [s Es]. congruence.
  - exfalso. destruct H as (s & Hs & [H|(_ & v & d & (es & Hw & _) & Hd)]); [clear -H Kn; lia|].
    exact (walk_lanelets A w ru g Gok Huse _ _ S1 a es v v d s Hs Hw (walk_last A _ s es v Hw) Hd).
  - destruct H.
Qed.
Lemma joined_changes s x y : (forall s, BuilderSpec.regular w ru s) -> RouteBuilderSpec.joined g k true (match s with SLeft => to_left | SRight => to_right end) x y ->
  exists a b, x = L a /\ y = L b /\ changeable w ru s (a, b).
Proof.
  intros Hreg (e & He & Ex & Ey & _ & Hd). destruct (edge_joined A one w ru costs order Hset g Hb e He) as (x' & y' & Ex' & Ey' & J).
  rewrite Ex in Ex'. injection Ex' as <-. rewrite Ey in Ey'. injection Ey' as <-.
  assert (Es : ei_rel (e_info e) = BuilderModel.changing s) by (destruct s; destruct (ei_rel (e_info e)); try discriminate; reflexivity).
  rewrite Es in J. apply (C59_change_sound A one w ru costs order Hset g s Hb (Hreg s)) in J as (a & b & pre & post & m' & -> & -> & Str & _).
  exists a, b. split; auto. split; auto. apply (str_change _ _ _ _ _ Str). apply in_or_app. right. left. auto.
Qed.
Lemma rings_unwind : (forall s, BuilderSpec.regular w ru s) -> no_rings w ru -> lanes_unwind g k true.
Proof.
  intros Hreg Hn. assert (K : forall s x y, clos_trans elem (RouteBuilderSpec.joined g k true (match s with SLeft => to_left | SRight => to_right end)) x y ->
    exists a b, x = L a /\ y = L b /\ clos_trans lref (fun u v => changeable w ru s (u, v)) a b).
  { intros s x y H. induction H as [x y J|x y z _ (a & b & -> & -> & H1) _ (b' & c & E & -> & H2)].
    - destruct (joined_changes s x y Hreg J) as (a & b & -> & -> & C). exists a, b. split; auto. split; auto. apply t_step. auto.
    - apply L_inj' in E as <-. exists a, c. split; auto. split; auto. eapply t_trans; eauto. }
  split; intros x H.
  - destruct (K SLeft x x H) as (a & b & Ea & Eb & C). rewrite Ea in Eb. apply L_inj' in Eb as <-. exact (Hn _ _ C).
  - destruct (K SRight x x H) as (a & b & Ea & Eb & C). rewrite Ea in Eb. apply L_inj' in Eb as <-. exact (Hn _ _ C).
Qed.
Theorem trips_route cok wok (LW : CostLaws A cok wok) tie St a b : (forall s, BuilderSpec.regular w ru s) -> no_rings w ru -> steps_of St (RoutingSpec.drivable g k true false) ->
  match get_route tie g (L a) (L b) k true with
  | Done (Some r) =>
      (exists ls, cheapest_trip w ru St a b ls /\ forall c, In c ls -> contains r (L c) = true) /\
      forall x, contains r x = true -> exists d, x = L d /\ clos_refl_trans lref (moves_to w ru) a d
  | Done None => no_trip w ru St a b
  | Undefined => exists ls, cheapest_trip w ru St a b ls
  | Thrown | Endless => False
  end.
Proof.
  intros Hreg Hn Hst. pose proof (trips_path cok wok LW tie true St a b Hst) as T. unfold get_route.
  pose proof (known_module A one w ru costs order Hset g Hb k m Hk) as Kn. destruct (history A one w ru costs order Hset g Hb) as [ops E].
  pose proof (C11_shortest_path_optimal A cok wok LW (N.of_nat (length costs)) ops tie (L a) (L b) k true false) as H. cbv zeta in H. rewrite <- E in H.
  destruct (shortest_path tie g (L a) (L b) k true false) as [[p|]| |]; cbn [route_for]; [|exact T|exact T|destruct T].
  destruct T as (ls & -> & Ch). destruct H as [H _].
  assert (Hl : RouteBuilderSpec.lanes_only (gbuild (N.of_nat (length costs)) ops) k true) by (rewrite <- E; eapply travel_lanes; eauto).
  assert (Hu : lanes_unwind (gbuild (N.of_nat (length costs)) ops) k true) by (rewrite <- E; apply rings_unwind; auto).
  rewrite E in H. destruct (path_route _ ops k true (L a) (L b) (map L ls) eq_refl Hl H) as (H1 & H2 & H3 & _). clear H.
  destruct (C65_build_ends A _ ops (map L ls) k true H1 Hl Hu) as [Er|[r Er]].
  { rewrite <- E in Er. rewrite Er. eauto. }
  destruct (C66_route_lanelets A _ ops (map L ls) k true r H1 Hl Er) as (_ & _ & _ & Hp & _ & Hall). rewrite <- E in *. rewrite Er. split.
  - exists ls. split; auto. intros c Hc. apply Hp. apply in_map. auto.
  - intros x Hx. destruct (Hall x Hx) as (_ & Hr & _). assert (hd (EArea 0) (map L ls) = L a) as Eh by (destruct (map L ls); [discriminate|cbn in *; congruence]).
    rewrite Eh in Hr. clear -Hr Hset Hb Hreg. apply clos_rt_rtn1 in Hr. induction Hr as [|y z J _ IH].
    + exists a. split; auto. apply rt_refl.
    + destruct IH as (d & -> & Hd). pose proof J as (e & He & Ex & Ey & Hu & Hdr).
      destruct (edge_joined A one w ru costs order Hset g Hb e He) as (x' & y' & Ex' & Ey' & Je). rewrite Ex in Ex'. injection Ex' as <-. rewrite Ey in Ey'. injection Ey' as <-.
      assert (Hr' : ei_rel (e_info e) = Successor \/ exists s, ei_rel (e_info e) = BuilderModel.changing s).
      { destruct (ei_rel (e_info e)); try discriminate; [left; auto|right; exists SLeft; auto|right; exists SRight; auto]. }
      destruct Hr' as [Hr'|[s Hr']].
      * rewrite Hr' in Je. apply (C57_successors A one w ru costs order Hset g Hb) in Je as (u & v & m' & Eu & -> & U1 & U2 & Cc & Pp & _).
        apply L_inj' in Eu as <-. exists v. split; auto. eapply rt_trans; [exact Hd|]. apply rt_step. left. exact (conj U1 (conj U2 (conj Cc Pp))).
      * destruct (joined_changes s (L d) z Hreg) as (u & v & Eu & -> & C).
        { exists e. split; auto. split; auto. split; auto. split; auto. rewrite Hr'. destruct s; reflexivity. }
        apply L_inj' in Eu as <-. exists v. split; auto. eapply rt_trans; [exact Hd|]. apply rt_step. right. exists s. exact C.
Qed.
End Trips.
