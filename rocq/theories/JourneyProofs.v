From Coq Require Import NArith ZArith List Bool Arith Lia Relations Permutation.
From Verif Require Import CostAlg GraphModel GraphSpec GraphProofs GraphProofs2 DijkstraModel RoutingSpec RoutingProps TrafficModel BuilderModel BuilderSpec BuilderProofs BuilderProofs2
  BuilderProofs3 BuilderProofs4 BuilderProps ValidityProps RouteSpec RouteBuilderModel RouteBuilderSpec RouteBuilderProofs7 RouteBuilderProofs11 RouteBuilderProps RouteQueryModel JourneySpec.
From Verif Require ValiditySpec.
Import ListNotations.
Local Open Scope nat_scope.

Lemma L_inj' a b : L a = L b -> a = b.
Proof. destruct a, b. unfold L. cbn. intros [= -> ->]. reflexivity. Qed.
Lemma good_iff {A : CostAlg} (c : cost A) : good_cost c = true <-> cfinite A c = true /\ cltb A c (czero A) = false.
Proof. unfold good_cost. rewrite andb_true_iff, negb_true_iff. tauto. Qed.

Section Travel.
Context (A : CostAlg) (one : cost A) (w : world) (ru : rules) (costs : list (@module A))
        (order : list (lref * lref) -> list (lref * lref)) (Hset : setting w ru one order).
Variables (g : graph A) (Hb : build one w ru costs order = Ok g).
Variables (k : N) (m : @module A) (Hk : nth_error costs (N.to_nat k) = Some m).

Lemma history : exists ops, g = gbuild (N.of_nat (length costs)) ops.
Proof. destruct (C64_history A one w ru costs order Hset g Hb) as (ops & E & _). eauto. Qed.
Lemma known_module : (k < g_numcosts g)%N.
Proof.
  destruct history as [ops ->]. rewrite gbuild_costs. assert (N.to_nat k < length costs) by (apply nth_error_Some; congruence). lia.
Qed.
Lemma g_ok : graph_ok g.
Proof. destruct history as [ops ->]. apply gbuild_ok. Qed.
Lemma g_canon : canonical g.
Proof. destruct history as [ops ->]. apply gbuild_canonical. Qed.

Lemma vertex_usable a : usable w ru a <-> exists v, get_vertex g (L a) = Some v.
Proof. rewrite (C56_vertices A one w ru costs order Hset g Hb (L a)). destruct a. reflexivity. Qed.
Lemma src_known e x : In e (g_edges g) -> vertex_elem g (e_src e) = Some x -> get_vertex g x = Some (e_src e).
Proof. apply src_vertex; [apply g_ok|apply g_canon]. Qed.
Lemma tgt_known e x : In e (g_edges g) -> vertex_elem g (e_tgt e) = Some x -> get_vertex g x = Some (e_tgt e).
Proof. apply tgt_vertex; [apply g_ok|apply g_canon]. Qed.
Lemma edge_joined e : In e (g_edges g) -> exists x y, vertex_elem g (e_src e) = Some x /\ vertex_elem g (e_tgt e) = Some y /\
  BuilderSpec.joined g x y (ei_rel (e_info e)) (ei_costid (e_info e)) (ei_cost (e_info e)).
Proof.
  intros He. destruct (go_edges _ g_ok _ He) as (Hs & Ht & _).
  destruct (vertex_elem g (e_src e)) as [x|] eqn:Ex; [|apply nth_error_None in Ex; lia].
  destruct (vertex_elem g (e_tgt e)) as [y|] eqn:Ey; [|apply nth_error_None in Ey; lia].
  exists x, y. split; auto. split; auto. exists e. split; auto. split; auto. split; auto. destruct (e_info e); auto.
Qed.

(** * Without lane changes *)
Notation P0 := (RoutingSpec.drivable g k false false).
Lemma edge_leads e : P0 e -> exists a b, vertex_elem g (e_src e) = Some (L a) /\ vertex_elem g (e_tgt e) = Some (L b) /\ leads_to w ru a b /\
  ei_cost (e_info e) = m_succeeding m (L a) (L b) /\ cfinite A (m_succeeding m (L a) (L b)) = true /\ cltb A (m_succeeding m (L a) (L b)) (czero A) = false.
Proof.
  intros (He & Hc & Hr). destruct (edge_joined e He) as (x & y & Hx & Hy & J).
  assert (ei_rel (e_info e) = Successor) as Es by (destruct Hr as [Hr|[[Hr _]|[Hr _]]]; [auto|discriminate|discriminate]).
  rewrite Es, Hc in J. apply (C57_successors A one w ru costs order Hset g Hb) in J as (a & b & m' & -> & -> & Ua & Ub & Cab & Pab & Em & Ec & G).
  rewrite Hk in Em. injection Em as <-. rewrite Ec in *. apply good_iff in G. exists a, b. split; auto. split; auto. split; [exact (conj Ua (conj Ub (conj Cab Pab)))|]. tauto.
Qed.
Lemma leads_edge a b : leads_to w ru a b -> cfinite A (m_succeeding m (L a) (L b)) = true -> cltb A (m_succeeding m (L a) (L b)) (czero A) = false ->
  exists e, P0 e /\ vertex_elem g (e_src e) = Some (L a) /\ vertex_elem g (e_tgt e) = Some (L b) /\ ei_cost (e_info e) = m_succeeding m (L a) (L b).
Proof.
  intros (Ua & Ub & Cab & Pab) F N.
  assert (J : BuilderSpec.joined g (L a) (L b) Successor k (m_succeeding m (L a) (L b))).
  { apply (C57_successors A one w ru costs order Hset g Hb). exists a, b, m. repeat (split; auto). apply good_iff. auto. }
  destruct J as (e & He & Hs & Ht & Ei). exists e. rewrite Ei. cbn. repeat split; auto; rewrite Ei; cbn; auto. left. reflexivity.
Qed.
Lemma wcost_snoc es (e : edge A) : wcost (es ++ [e]) = cplus A (wcost es) (ei_cost (e_info e)).
Proof. unfold wcost. rewrite fold_left_app. reflexivity. Qed.
Lemma wverts_snoc s es (e : edge A) : wverts s (es ++ [e]) = wverts s es ++ [e_tgt e].
Proof. unfold wverts. rewrite map_app. reflexivity. Qed.

Lemma walk_way a s es v : get_vertex g (L a) = Some s -> RoutingSpec.walk P0 s es v ->
  exists ls b, vertex_elem g v = Some (L b) /\ way w ru m a ls b (wcost es) /\ elements g (wverts s es) (map L ls).
Proof.
  intros Hs H. induction H as [|es e H IH He].
  - exists [a], a. destruct (go_lookup _ g_ok _ _ Hs) as [E _]. split; auto. split; [constructor; apply vertex_usable; eauto|]. repeat constructor. exact E.
  - destruct IH as (ls & b & Eb & W & El). destruct (edge_leads e He) as (b' & d & E1 & E2 & Ld & Ec & F & N). rewrite Eb in E1. injection E1 as E1.
    assert (b = b') as <- by (destruct b, b'; cbn in *; congruence). exists (ls ++ [d]), d. split; auto. split.
    + rewrite wcost_snoc, Ec. constructor; auto.
    + rewrite wverts_snoc, map_app. apply Forall2_app; auto. repeat constructor. exact E2.
Qed.
Lemma way_walk a s ls b c : get_vertex g (L a) = Some s -> way w ru m a ls b c ->
  exists es v, RoutingSpec.walk P0 s es v /\ get_vertex g (L b) = Some v /\ wcost es = c.
Proof.
  intros Hs H. induction H as [U|ls b c d W IH Ld F N].
  - exists [], s. split; [constructor|]. auto.
  - destruct IH as (es & v & Hw & Hv & Hc). destruct (leads_edge b d Ld F N) as (e & He & E1 & E2 & Ec).
    pose proof (src_known e _ (proj1 He) E1) as K1. rewrite Hv in K1. injection K1 as ->.
    exists (es ++ [e]), (e_tgt e). split; [constructor; auto|]. split; [apply tgt_known; [apply He|auto]|]. rewrite wcost_snoc, Ec, Hc. reflexivity.
Qed.
Lemma elements_nodup vs p : elements g vs (map L p) -> NoDup vs -> (forall v, In v vs -> exists x, get_vertex g x = Some v) -> NoDup p.
Proof.
  revert vs. induction p as [|a p IH]; intros vs El Nd K; [constructor|]. inversion El as [|v x vs' p' Hv Hr]; subst. inversion Nd as [|? ? N1 N2]; subst.
  constructor; [|eapply IH; eauto; intros; apply K; cbn; auto]. intros Hin. apply N1.
  assert (exists u, In u vs' /\ vertex_elem g u = Some (L a)) as (u & Hu & Eu).
  { clear -Hr Hin. unfold elements in Hr. remember (map L p) as q eqn:Eq. revert p Eq Hin. induction Hr as [|u y vs q H1 H2 IH2]; intros p Eq Hin.
    - destruct p; [destruct Hin|discriminate].
    - destruct p as [|c p]; [discriminate|]. injection Eq as -> ->. destruct Hin as [->|Hin]; [exists u; split; [left; auto|auto]|].
      destruct (IH2 p eq_refl Hin) as (t & Ht & Et). exists t. split; [right; auto|auto]. }
  destruct (K v (or_introl eq_refl)) as [x Hx]. destruct (K u (or_intror Hu)) as [y Hy].
  destruct (go_lookup _ g_ok _ _ Hx) as [Ex _]. destruct (go_lookup _ g_ok _ _ Hy) as [Ey _].
  rewrite Hv in Ex. injection Ex as <-. rewrite Eu in Ey. injection Ey as <-. rewrite Hx in Hy. injection Hy as ->. exact Hu.
Qed.
Lemma walk_known (P : edge A -> Prop) s es v : (forall e, P e -> In e (g_edges g)) -> (exists x, get_vertex g x = Some s) -> RoutingSpec.walk P s es v ->
  forall u, In u (wverts s es) -> exists x, get_vertex g x = Some u.
Proof.
  intros HP Hs H. induction H as [|es e H IH He]; intros u Hu; [destruct Hu as [<-|[]]; auto|]. rewrite wverts_snoc in Hu.
  apply in_app_or in Hu as [Hu|[<-|[]]]; auto. destruct (g_canon e (HP _ He)) as [_ K]. exact K.
Qed.
Lemma vertex_fun v x y : vertex_elem g v = Some (L x) -> vertex_elem g v = Some (L y) -> x = y.
Proof. intros H1 H2. rewrite H1 in H2. injection H2 as E1 E2. destruct x, y. cbn in *. congruence. Qed.
Lemma path_cheapest a b p : path_between g P0 (L a) (L b) p -> exists ls, p = map L ls /\ cheapest w ru m a b ls.
Proof.
  intros (s & t & es & Hs & Ht & (Hw & Hopt) & Hf & Nd & El).
  destruct (walk_way a s es t Hs Hw) as (ls & b' & Eb & W & El').
  destruct (go_lookup _ g_ok _ _ Ht) as [Et _]. pose proof (vertex_fun _ _ _ Eb Et) as ->.
  assert (p = map L ls) as ->.
  { clear -El El'. unfold elements in *. revert El' El. generalize (map L ls). intros q H. revert p. induction H as [|v x vs q H1 H2 IH]; intros p Hp; inversion Hp; subst; auto.
    f_equal; [congruence|auto]. }
  exists ls. split; auto. exists (wcost es). split; auto. split; auto. split.
  - eapply elements_nodup; eauto. eapply walk_known; [|eauto|exact Hw]. intros e He. apply He.
  - intros ls' c' W'. destruct (way_walk a s ls' b c' Hs W') as (es' & v & Hw' & Hv & <-). rewrite Ht in Hv. injection Hv as <-. apply Hopt. auto.
Qed.
Lemma no_path_way a b : no_path g P0 (L a) (L b) -> no_way w ru m a b.
Proof.
  intros H ls c W. assert (Ua : usable w ru a) by (clear -W; induction W; auto).
  apply vertex_usable in Ua as [s Hs]. destruct (way_walk a s ls b c Hs W) as (es & v & Hw & Hv & <-). exact (H s v Hs Hv es Hw).
Qed.
Lemma no_area a es v u d s : get_vertex g (L a) = Some s -> RoutingSpec.walk P0 s es v -> In u (wverts s es) -> vertex_elem g u <> Some (EArea d).
Proof.
  intros Hs Hw Hu K. destruct (walk_way a s es v Hs Hw) as (ls & b & _ & _ & El). clear -El Hu K. unfold elements in El. revert Hu El.
  generalize (wverts s es). intros vs Hu El. remember (map L ls) as q eqn:Eq. revert ls Eq. induction El as [|t y vs q H1 H2 IH]; intros ls Eq; [destruct Hu|].
  destruct ls as [|c ls]; [discriminate|]. injection Eq as -> ->. destruct Hu as [->|Hu]; [rewrite K in H1; discriminate|eauto].
Qed.

Theorem travel_path cok wok (LW : CostLaws A cok wok) tie a b :
  match shortest_path tie g (L a) (L b) k false false with
  | QRet (Some p) => exists ls, p = map L ls /\ cheapest w ru m a b ls
  | QRet None => no_way w ru m a b
  | QThrow | QBroken => False
  end.
Proof.
  pose proof known_module as Kn. destruct history as [ops E].
  pose proof (C11_shortest_path_optimal A cok wok LW (N.of_nat (length costs)) ops tie (L a) (L b) k false false) as H. cbv zeta in H. rewrite <- E in H.
  destruct (shortest_path tie g (L a) (L b) k false false) as [[p|]| |].
  - apply path_cheapest, H.
  - apply no_path_way, H.
  - destruct H as [_ [H|[_ (s & t & es & v & d & Hs & Ht & (Hw & _) & Hv & Hd)]]]; [clear -H Kn; lia|]. exact (no_area a es t v d s Hs Hw Hv Hd).
  - exact H.
Qed.

Theorem travel_reach cok wok (LW : CostLaws A cok wok) tie a budget : comparable cok budget ->
  exists l, reachable_set false false tie g (L a) budget k false = QRet l /\ NoDup l /\
    forall x, In x l <-> exists b ls c, x = L b /\ way w ru m a ls b c /\ payable c /\ cle A c budget.
Proof.
  intros Hc. pose proof known_module as Kn. destruct history as [ops E].
  pose proof (C12_reachable_set_exact A cok wok LW (N.of_nat (length costs)) ops false false tie (L a) budget k false Hc) as H. cbv zeta in H. rewrite <- E in H.
  cbn [directed] in H.
  destruct (reachable_set false false tie g (L a) budget k false) as [l| |].
  - exists l. split; auto. destruct (get_vertex g (L a)) as [s|] eqn:Hs.
    + destruct H as (vs & Nd & El & Hin).
      assert (Kv : forall v, In v vs -> exists x, get_vertex g x = Some v).
      { intros v Hv. apply Hin in Hv as (es & Hw & _). eapply (walk_known P0 s es v); [intros e He; apply He|eauto|exact Hw|].
        clear -Hw. destruct Hw; [left; auto|]. rewrite wverts_snoc. apply in_or_app. right. left. auto. }
      assert (Kl : forall x, In x l <-> exists v, In v vs /\ vertex_elem g v = Some x).
      { clear -El. unfold elements in El. induction El as [|v x vs l H1 H2 IH]; intros y; [split; [intros []|intros (v & [] & _)]|]. cbn. rewrite IH. split.
        - intros [<-|(u & Hu & Eu)]; eauto.
        - intros (u & [<-|Hu] & Eu); [left; congruence|right; eauto]. }
      split.
      { clear -El Nd Kv Hset Hb. revert l El. induction Nd as [|v vs N1 N2 IH]; intros l El; inversion El as [|? x ? l' H1 H2]; subst; constructor.
        - intros Hx. assert (exists u, In u vs /\ vertex_elem g u = Some x) as (u & Hu & Eu).
          { clear -H2 Hx. unfold elements in H2. induction H2 as [|t y vs q G1 G2 IH2]; [destruct Hx|]. destruct Hx as [->|Hx]; [exists t; cbn; auto|].
            destruct (IH2 Hx) as (u & ? & ?). exists u. cbn. auto. }
          destruct (Kv v (or_introl eq_refl)) as [y Hy]. destruct (Kv u (or_intror Hu)) as [z Hz].
          destruct (go_lookup _ g_ok _ _ Hy) as [Ey _]. destruct (go_lookup _ g_ok _ _ Hz) as [Ez _]. apply N1. congruence.
        - apply IH; auto. intros u Hu. apply Kv. right. auto. }
      intros x. rewrite Kl. split.
      * intros (v & Hv & Ex). apply Hin in Hv as (es & Hw & Hf & Hle). destruct (walk_way a s es v Hs Hw) as (ls & b & Eb & W & _).
        exists b, ls, (wcost es). rewrite Ex in Eb. injection Eb as ->. auto.
      * intros (b & ls & c & -> & W & Hf & Hle). destruct (way_walk a s ls b c Hs W) as (es & v & Hw & Hv & <-). exists v. split; [apply Hin; eauto|].
        apply (go_lookup _ g_ok _ _ Hv).
    + subst l. split; [constructor|]. intros x. split; [intros []|]. intros (b & ls & c & _ & W & _). assert (Ua : usable w ru a) by (clear -W; induction W; auto).
      apply vertex_usable in Ua as [s Es]. congruence.
  - exfalso. destruct H as (s & Hs & [H|(_ & v & d & (es & Hw & _) & Hd)]); [lia|]. apply (no_area a es v v d s Hs Hw); auto.
    destruct Hw; [left; auto|]. rewrite wverts_snoc. apply in_or_app. right. left. auto.
  - destruct H.
Qed.

(** * Routes *)
Lemma travel_lanes lc : RouteBuilderSpec.lanes_only g k lc.
Proof.
  intros x y Hx (e & He & Ex & Ey & Hu & Hd). destruct (C64_history A one w ru costs order Hset g Hb) as (ops & _ & Hl).
  assert (Hr : ei_rel (e_info e) = Successor \/ exists s, ei_rel (e_info e) = BuilderModel.changing s).
  { destruct (ei_rel (e_info e)); try discriminate; [left; auto|right; exists SLeft; auto|right; exists SRight; auto]. }
  destruct Hr as [Hr|[s Hr]].
  - destruct (edge_joined e He) as (x' & y' & Ex' & Ey' & J). rewrite Hr in J.
    apply (C57_successors A one w ru costs order Hset g Hb) in J as (a & b & m' & -> & -> & _). rewrite Ey in Ey'. injection Ey' as ->. reflexivity.
  - destruct (Hl e He) as [_ H]; [exists s; left; auto|]. apply H; auto.
Qed.
Theorem travel_route cok wok (LW : CostLaws A cok wok) tie a b :
  match get_route tie g (L a) (L b) k false with
  | Done (Some r) =>
      (exists ls, cheapest w ru m a b ls /\ forall c, In c ls -> contains r (L c) = true) /\
      forall x, contains r x = true -> exists d, x = L d /\ clos_refl_trans lref (leads_to w ru) a d
  | Done None => no_way w ru m a b
  | Thrown | Undefined | Endless => False
  end.
Proof.
  pose proof (travel_path cok wok LW tie a b) as T. unfold get_route.
  pose proof known_module as Kn. destruct history as [ops E].
  pose proof (C11_shortest_path_optimal A cok wok LW (N.of_nat (length costs)) ops tie (L a) (L b) k false false) as H. cbv zeta in H. rewrite <- E in H.
  destruct (shortest_path tie g (L a) (L b) k false false) as [[p|]| |]; cbn [route_for]; [|exact T|exact T|exact T].
  destruct T as (ls & -> & Ch). destruct H as [H _].
  assert (Hl : RouteBuilderSpec.lanes_only (gbuild (N.of_nat (length costs)) ops) k false) by (rewrite <- E; apply travel_lanes).
  rewrite E in H. destruct (path_route _ ops k false (L a) (L b) (map L ls) eq_refl Hl H) as (H1 & H2 & H3 & _).
  destruct (C65_without_lane_changes A _ ops (map L ls) k H1 Hl) as (r & Er); [apply simple_ends; [auto|discriminate]|].
  destruct (C66_route_lanelets A _ ops (map L ls) k false r H1 Hl Er) as (_ & _ & _ & Hp & _ & Hall). rewrite <- E in *. rewrite Er. split.
  - exists ls. split; auto. intros c Hc. apply Hp. apply in_map. auto.
  - intros x Hx. destruct (Hall x Hx) as (_ & Hr & _). assert (hd (EArea 0) (map L ls) = L a) as Eh by (destruct (map L ls); [discriminate|cbn in *; congruence]).
    rewrite Eh in Hr. clear -Hr Hset Hb. apply clos_rt_rtn1 in Hr. induction Hr as [|y z J _ IH].
    + exists a. split; auto. apply rt_refl.
    + destruct IH as (d & -> & Hd). destruct J as (e & He & Ex & Ey & Hu & Hdr). destruct (edge_joined e He) as (x' & y' & Ex' & Ey' & J).
      assert (Hr' : ei_rel (e_info e) = Successor).
      { unfold used in Hu. apply andb_true_iff in Hu as [_ Hu]. destruct (ei_rel (e_info e)); try discriminate; auto. }
      rewrite Hr' in J. apply (C57_successors A one w ru costs order Hset g Hb) in J as (u & v & m' & -> & -> & U1 & U2 & Cc & Pp & _).
      rewrite Ey in Ey'. injection Ey' as ->. rewrite Ex in Ex'. assert (d = u) as -> by (injection Ex' as E1 E2; destruct d, u; cbn in *; congruence).
      exists v. split; auto. eapply rt_trans; [exact Hd|]. apply rt_step. exact (conj U1 (conj U2 (conj Cc Pp))).
Qed.

(** * With lane changes *)
Notation P1 := (RoutingSpec.drivable g k true false).
Hypothesis Hreg : forall s, BuilderSpec.regular w ru s.
Lemma edge_moves e : P1 e -> exists a b, vertex_elem g (e_src e) = Some (L a) /\ vertex_elem g (e_tgt e) = Some (L b) /\ moves_to w ru a b.
Proof.
  intros (He & Hc & Hr). destruct (edge_joined e He) as (x & y & Hx & Hy & J).
  assert (Es : ei_rel (e_info e) = Successor \/ exists s, ei_rel (e_info e) = BuilderModel.changing s).
  { destruct Hr as [Hr|[[_ [Hr|Hr]]|[Hr _]]]; [auto|right; exists SLeft; auto|right; exists SRight; auto|discriminate]. }
  destruct Es as [Es|[s Es]]; rewrite Es in J.
  - apply (C57_successors A one w ru costs order Hset g Hb) in J as (a & b & m' & -> & -> & Ua & Ub & Cab & Pab & _).
    exists a, b. split; auto. split; auto. left. exact (conj Ua (conj Ub (conj Cab Pab))).
  - apply (C59_change_sound A one w ru costs order Hset g s Hb (Hreg s)) in J as (a & b & pre & post & m' & -> & -> & St & _).
    exists a, b. split; auto. split; auto. right. exists s. apply (str_change _ _ _ _ _ St). apply in_or_app. right. left. auto.
Qed.
Lemma moves_edge a b : generous m -> moves_to w ru a b -> exists e, P1 e /\ vertex_elem g (e_src e) = Some (L a) /\ vertex_elem g (e_tgt e) = Some (L b) /\
  cfinite A (ei_cost (e_info e)) = true /\ cltb A (ei_cost (e_info e)) (czero A) = false.
Proof.
  intros G [Ld|[s Hch]].
  - destruct (gen_on _ G (L a) (L b)) as [F N]. destruct (leads_edge a b Ld F N) as (e & (He & Hc & Hr) & E1 & E2 & Ec). exists e. rewrite Ec. repeat split; auto.
    destruct Hr as [Hr|[[Hr _]|[Hr _]]]; try discriminate. left; auto.
  - destruct (C59_change_complete A one w ru costs order Hset g s Hb (Hreg s) a b Hch) as (pre & post & _ & K). destruct (K k m Hk) as [K1 _]. cbv zeta in K1.
    destruct (gen_change _ G (a :: map fst post) (b :: map snd post)) as [F N]. destruct K1 as (e & He & Hs & Ht & Ei); [apply good_iff; auto|].
    exists e. rewrite Ei. cbn [ei_cost]. split; [|auto]. split; [auto|]. rewrite Ei. cbn. split; auto. right. left. split; auto. destruct s; auto.
Qed.
Lemma walk_moves a s es v : get_vertex g (L a) = Some s -> RoutingSpec.walk P1 s es v ->
  exists ls b, vertex_elem g v = Some (L b) /\ each_moves w ru a ls /\ List.last (a :: ls) a = b /\ elements g (wverts s es) (map L (a :: ls)).
Proof.
  intros Hs H. induction H as [|es e H IH He].
  - exists [], a. destruct (go_lookup _ g_ok _ _ Hs) as [E _]. split; auto. split; [exact I|]. split; auto. repeat constructor. exact E.
  - destruct IH as (ls & b & Eb & W & La & El). destruct (edge_moves e He) as (b' & d & E1 & E2 & Mv). rewrite Eb in E1. injection E1 as E1.
    assert (b = b') as <- by (destruct b, b'; cbn in *; congruence). exists (ls ++ [d]), d. split; auto. split.
    + clear -W La Mv. revert a W La. induction ls as [|c ls IH]; intros a W La; cbn in *; [subst; auto|]. destruct W as [W1 W2]. split; auto. apply IH; auto.
      rewrite <- La. clear. revert c. induction ls as [|x ls IH]; intros c; [reflexivity|]. cbn in *. destruct ls; auto.
    + split; [rewrite app_comm_cons; apply last_last|]. rewrite wverts_snoc, app_comm_cons, map_app. apply Forall2_app; auto. repeat constructor. exact E2.
Qed.
Theorem travel_changes cok wok (LW : CostLaws A cok wok) tie a b : generous m ->
  match shortest_path tie g (L a) (L b) k true false with
  | QRet (Some p) => exists ls, p = map L (a :: ls) /\ each_moves w ru a ls /\ List.last (a :: ls) a = b /\ NoDup (a :: ls)
  | QRet None => usable w ru a -> usable w ru b -> ~ clos_refl_trans lref (moves_to w ru) a b
  | QThrow | QBroken => False
  end.
Proof.
  intros G. pose proof known_module as Kn. destruct history as [ops E].
  pose proof (C11_shortest_path_optimal A cok wok LW (N.of_nat (length costs)) ops tie (L a) (L b) k true false) as H. cbv zeta in H. rewrite <- E in H.
  destruct (shortest_path tie g (L a) (L b) k true false) as [[p|]| |].
  - destruct H as [(s & t & es & Hs & Ht & (Hw & _) & _ & Nd & El) _]. destruct (walk_moves a s es t Hs Hw) as (ls & b' & Eb & W & La & El').
    destruct (go_lookup _ g_ok _ _ Ht) as [Et _]. pose proof (vertex_fun _ _ _ Eb Et) as ->. exists ls. split; [|split; auto; split; auto].
    + clear -El El'. unfold elements in *. revert El' El. generalize (map L (a :: ls)). intros q H. revert p. induction H as [|v x vs q H1 H2 IH]; intros p Hp; inversion Hp; subst; auto.
      f_equal; [congruence|auto].
    + eapply elements_nodup; eauto. eapply walk_known; [|eauto|exact Hw]. intros e He. apply He.
  - intros Ua Ub K. apply vertex_usable in Ua as [s Hs]. apply vertex_usable in Ub as [t Ht]. specialize (H s t Hs Ht).
    apply clos_rt_rtn1 in K.
    assert (exists es v, RoutingSpec.walk P1 s es v /\ get_vertex g (L b) = Some v /\ payable (A := A) (wcost es)) as (es & v & Hw & Hv & Hp).
    { clear H Ht t. induction K as [|y z Mv _ IH].
      - exists [], s. split; [constructor|]. split; auto. exact (zero_finite _ _ _ LW).
      - destruct IH as (es & v & Hw & Hv & Hp). destruct (moves_edge y z G Mv) as (e & He & E1 & E2 & F & N).
        pose proof (src_known e _ (proj1 He) E1) as K1. rewrite Hv in K1. injection K1 as ->.
        exists (es ++ [e]), (e_tgt e). split; [constructor; auto|]. split; [apply tgt_known; [apply He|auto]|]. rewrite wcost_snoc. apply (gen_sum _ G); auto. }
    rewrite Ht in Hv. injection Hv as <-. exact (H es Hw Hp).
  - destruct H as [_ [H|[_ (s & t & es & v & d & Hs & Ht & (Hw & _) & Hv & Hd)]]]; [lia|].
    destruct (walk_moves a s es t Hs Hw) as (ls & b' & _ & _ & _ & El). clear -El Hv Hd. unfold elements in El. revert Hv El.
    generalize (wverts s es) (a :: ls). intros vs q0 Hu El. remember (map L q0) as q eqn:Eq. revert q0 Eq. induction El as [|t' y vs q H1 H2 IH]; intros q0 Eq; [destruct Hu|].
    destruct q0 as [|c q0]; [discriminate|]. injection Eq as -> ->. destruct Hu as [->|Hu]; [rewrite Hd in H1; discriminate|eauto].
  - exact H.
Qed.
End Travel.
