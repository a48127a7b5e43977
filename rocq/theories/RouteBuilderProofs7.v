(** The construction of the route object. *)
From Coq Require Import NArith List Bool Arith Lia Relations.
From Verif Require Import CostAlg GraphModel GraphSpec GraphProofs GraphProofs2 RouteSpec RouteBuilderModel RouteBuilderProofs
  RouteBuilderProofs2 RouteBuilderProofs3.
Import ListNotations.
Local Open Scope nat_scope.

(** * Equivalence closures *)
Section Closure.
Context {T : Type}.
Lemma rst_mono (R S : T -> T -> Prop) : (forall x y, R x y -> S x y) -> forall x y, clos_refl_sym_trans T R x y -> clos_refl_sym_trans T S x y.
Proof. intros H x y K. induction K; [apply rst_step; auto|apply rst_refl|apply rst_sym; auto|eapply rst_trans; eauto]. Qed.
Lemma rst_union (R S : T -> T -> Prop) a b : (forall x y, S x y <-> R x y \/ x = a /\ y = b) -> forall x y,
  clos_refl_sym_trans T S x y <-> clos_refl_sym_trans T R x y \/
    clos_refl_sym_trans T R x a /\ clos_refl_sym_trans T R b y \/ clos_refl_sym_trans T R x b /\ clos_refl_sym_trans T R a y.
Proof.
  intros HS x y.
  assert (Hab : clos_refl_sym_trans T S a b) by (apply rst_step, HS; auto).
  assert (Hm : forall x y, clos_refl_sym_trans T R x y -> clos_refl_sym_trans T S x y) by (apply rst_mono; intros; apply HS; auto).
  split.
  - intros H. induction H as [x y H|x|x y H IH|x y z H1 IH1 H2 IH2].
    + apply HS in H as [H|[-> ->]]; [left; apply rst_step; auto|]. right. left. split; apply rst_refl.
    + left. apply rst_refl.
    + destruct IH as [IH|[[K1 K2]|[K1 K2]]]; [left|right; right|right; left]; try split; apply rst_sym; auto.
    + destruct IH1 as [IH1|[[K1 K2]|[K1 K2]]], IH2 as [IH2|[[L1 L2]|[L1 L2]]].
      * left. eapply rst_trans; eauto.
      * right. left. split; auto. eapply rst_trans; eauto.
      * right. right. split; auto. eapply rst_trans; eauto.
      * right. left. split; auto. eapply rst_trans; eauto.
      * right. left. auto.
      * left. eapply rst_trans; [exact K1|]. auto.
      * right. right. split; auto. eapply rst_trans; eauto.
      * left. eapply rst_trans; [exact K1|]. auto.
      * right. right. auto.
  - intros [H|[[H1 H2]|[H1 H2]]]; auto.
    + eapply rst_trans; [apply Hm; exact H1|]. eapply rst_trans; [exact Hab|]. auto.
    + eapply rst_trans; [apply Hm; exact H1|]. eapply rst_trans; [apply rst_sym; exact Hab|]. auto.
Qed.
Lemma rst_fresh (R : T -> T -> Prop) t : (forall x y, R x y -> x <> t /\ y <> t) -> forall x y, clos_refl_sym_trans T R x y -> (x = t <-> y = t).
Proof.
  intros H x y K. induction K as [x y K|x|x y K IH|x y z K1 IH1 K2 IH2]; try tauto.
  apply H in K. tauto.
Qed.
End Closure.

Definition lane_id (k : nat) : N := ((1000 + N.of_nat k) mod 65536)%N.
Lemma lane_id_inj i j : i < N.to_nat 65536 -> j < N.to_nat 65536 -> lane_id i = lane_id j -> i = j.
Proof.
  unfold lane_id. intros Hi Hj H.
  assert (Hi' : (N.of_nat i < 65536)%N) by lia. assert (Hj' : (N.of_nat j < 65536)%N) by lia.
  apply Nat2N.inj. revert H Hi' Hj'. generalize (N.of_nat i), (N.of_nat j). clear. intros a b H Ha Hb.
  pose proof (N.div_mod (1000 + a) 65536 ltac:(lia)) as Da. pose proof (N.div_mod (1000 + b) 65536 ltac:(lia)) as Db.
  pose proof (N.mod_lt (1000 + a) 65536 ltac:(lia)). pose proof (N.mod_lt (1000 + b) 65536 ltac:(lia)).
  rewrite <- H in Db. set (qa := ((1000 + a) / 65536)%N) in *. set (qb := ((1000 + b) / 65536)%N) in *. 
  assert (qa = qb \/ qa < qb \/ qb < qa)%N by lia. lia.
Qed.
Lemma next_lane_id k : next_lane (lane_id k) = lane_id (S k).
Proof.
  unfold next_lane, lane_id. rewrite N.add_mod_idemp_l by lia. f_equal. lia.
Qed.

Lemma nth_snoc {T} (l : list T) x i y : nth_error (l ++ [x]) i = Some y <-> nth_error l i = Some y \/ i = length l /\ y = x.
Proof.
  destruct (Nat.lt_ge_cases i (length l)) as [H|H].
  - rewrite nth_error_app1 by auto. split; auto. intros [?|[-> _]]; auto. lia.
  - rewrite nth_error_app2 by auto. rewrite (proj2 (nth_error_None l i)) by auto. destruct (i - length l) as [|k] eqn:E; simpl.
    + split; [intros [= ->]; right; split; auto; lia|]. intros [?|[_ ->]]; [discriminate|auto].
    + split; [destruct k; discriminate|]. intros [?|[-> _]]; [discriminate|lia].
Qed.
Lemma nth_lt {T} (l : list T) i y : nth_error l i = Some y -> i < length l.
Proof. intros H. apply nth_error_Some. congruence. Qed.
Lemma Forall2_mono {S T} (P Q : S -> T -> Prop) l l' : (forall x y, P x y -> Q x y) -> Forall2 P l l' -> Forall2 Q l l'.
Proof. intros H K. induction K; constructor; auto. Qed.
Lemma nodup_index {T} (l : list T) i j x : NoDup l -> nth_error l i = Some x -> nth_error l j = Some x -> i = j.
Proof. intros H H1 H2. rewrite NoDup_nth_error in H. apply H; [eapply nth_lt; eauto|congruence]. Qed.
Lemma set_nth_nth {T} (f : T -> T) (l : list T) : forall i j, nth_error (set_nth i f l) j = if Nat.eqb i j then option_map f (nth_error l j) else nth_error l j.
Proof.
  induction l as [|x l IH]; intros i j; simpl.
  - destruct i, j; simpl; try destruct (Nat.eqb i j); auto.
  - destruct i, j; simpl; auto.
Qed.
Lemma set_nth_length {T} (f : T -> T) (l : list T) : forall i, length (set_nth i f l) = length l.
Proof. induction l as [|x l IH]; intros [|i]; simpl; auto. Qed.

Section Construct.
Context {A : CostAlg}.
Variable g : graph A.
Variable es : list (edge A).
Variables on : list nat.
Notation edge := (edge A).
Notation route := (route A).
Hypothesis Hg : graph_ok g.
Hypothesis Hsub : incl es (g_edges g).
(** The lanelets of the route, with the vertex the lookup yields. *)
Hypothesis Hon : forall v, In v on -> is_lanelet (nth v (g_verts g) (EArea 0)) = true /\ v < length (g_verts g) /\
  get_vertex g (nth v (g_verts g) (EArea 0)) = Some v.
Definition el (v : nat) : elem := nth v (g_verts g) (EArea 0).
Lemma el_at v : In v on -> vertex_elem g v = Some (el v).
Proof. intros H. apply Hon in H as (_ & H & _). unfold vertex_elem, el. apply nth_error_nth'. auto. Qed.
Lemma el_inj u v : In u on -> In v on -> el u = el v -> u = v.
Proof. intros Hu Hv H. apply Hon in Hu as (_ & _ & Hu). apply Hon in Hv as (_ & _ & Hv). unfold el in H. congruence. Qed.
Lemma lanelet_at_on v : In v on -> lanelet_at g v = Done (el v).
Proof.
  intros H. unfold lanelet_at. rewrite (el_at v H). apply Hon in H as (H & _). fold (el v) in H. destruct (el v); [auto|discriminate].
Qed.

Notation different := (different_lane es on).
Definition same (dn : list edge) (u t : nat) : Prop := exists e, In e dn /\ e_src e = u /\ e_tgt e = t /\ different e = false.
Definition confl (v : nat) : list elem := map (fun e => el (e_tgt e)) (filter (rel (bits Conflicting)) (outs es v)).
Definition as_route (i : einfo A) : einfo A := EInfo (ei_cost i) 0 (ei_rel i).

(** The route graph: the lanelets in the order of discovery and the edges in the order of examination. *)
Definition graph_part (r : route) (disc : list nat) (dn : list edge) : Prop :=
  (exists ops, r_graph r = gbuild 1 ops) /\ NoDup disc /\ incl disc on /\ g_verts (r_graph r) = map el disc /\
  (forall v i, In v on -> get_vertex (r_graph r) (el v) = Some i <-> nth_error disc i = Some v) /\
  Forall2 (fun e f => nth_error disc (e_src f) = Some (e_src e) /\ nth_error disc (e_tgt f) = Some (e_tgt e) /\
                                e_info f = as_route (e_info e)) dn (g_edges (r_graph r)).
Lemma add_graph r disc dn t lane next : graph_part r disc dn -> In t on -> ~ In t disc ->
  graph_part (add_lanelet r (el t) lane next) (disc ++ [t]) dn.
Proof.
  intros ((ops & H1) & H2 & H3 & H4 & H5 & H6) Ht Hn. unfold graph_part, add_lanelet. simpl.
  assert (Hnone : get_vertex (r_graph r) (el t) = None).
  { destruct (get_vertex (r_graph r) (el t)) as [i|] eqn:E; auto. apply H5 in E; auto. apply nth_error_In in E. tauto. }
  split; [exists (ops ++ [OpVertex (el t)]); unfold gbuild; rewrite fold_left_app; unfold gbuild in H1; rewrite <- H1; auto|].
  split; [apply NoDup_app; auto; [repeat constructor; auto|intros x Hx [<-|[]]; auto]|].
  split; [intros x Hx; apply in_app_or in Hx as [Hx|[<-|[]]]; auto|].
  split; [rewrite map_app, H4; auto|]. split.
  - intros v i Hv. unfold get_vertex in *. simpl. rewrite Hnone. rewrite assoc_app. rewrite nth_snoc.
    destruct (assoc (el v) (g_lookup (r_graph r))) as [j|] eqn:E.
    + pose proof (proj1 (H5 v j Hv) E) as Hj. split.
      * intros [= <-]. auto.
      * intros [Hi|[-> ->]]; [rewrite <- E; apply H5; auto|]. apply nth_error_In in Hj. tauto.
    + destruct (elem_eqb (el v) (el t)) eqn:Ee.
      * apply elem_eqb_eq in Ee. apply el_inj in Ee; auto. subst v. rewrite H4, map_length. split.
        -- intros [= <-]. auto.
        -- intros [Hi|[-> _]]; auto. apply nth_error_In in Hi. tauto.
      * split; [discriminate|]. intros [Hi|[-> ->]].
        -- apply H5 in Hi; auto. congruence.
        -- rewrite (proj2 (elem_eqb_eq (el t) (el t)) eq_refl) in Ee. discriminate.
  - eapply Forall2_mono; [|exact H6]. intros e f (K1 & K2 & K3). rewrite !nth_snoc. auto.
Qed.
Lemma edge_graph r disc dn e s u : graph_part r disc dn -> In e es -> nth_error disc s = Some (e_src e) -> nth_error disc u = Some (e_tgt e) ->
  exists h, add_edge_v (r_graph r) s u (as_route (e_info e)) = (h, Added) /\
    forall lanes conf next src, graph_part (Route h lanes conf next src) disc (dn ++ [e]).
Proof.
  intros ((ops & H1) & H2 & H3 & H4 & H5 & H6) He Hs Hu.
  destruct (go_edges _ Hg e (Hsub e He)) as (_ & _ & Hf & Hz).
  unfold add_edge_v. simpl. rewrite Hf, Hz. simpl. eexists. split; [reflexivity|]. intros lanes conf next src.
  unfold graph_part. simpl. split.
  - exists (ops ++ [OpEdge (el (e_src e)) (el (e_tgt e)) (as_route (e_info e))]). unfold gbuild. rewrite fold_left_app. simpl.
    fold (gbuild 1 ops). rewrite <- H1. unfold add_edge.
    rewrite (proj2 (H5 (e_src e) s (H3 _ (nth_error_In _ _ Hs))) Hs), (proj2 (H5 (e_tgt e) u (H3 _ (nth_error_In _ _ Hu))) Hu).
    unfold add_edge_v. simpl. rewrite Hf, Hz. auto.
  - split; [auto|]. split; [auto|]. split; [auto|]. split; [auto|]. apply Forall2_app; auto.
Qed.
Definition lane_part (lanes : list N) (next : N) (disc : list nat) (R : nat -> nat -> Prop) : Prop :=
  length lanes = length disc /\
  (exists c, next = lane_id c /\ (disc = [] /\ c = 0 \/ c < length disc) /\ forall l, In l lanes -> exists k, k <= c /\ l = lane_id k) /\
  (length disc <= N.to_nat 65536 -> forall i j u v l l', nth_error disc i = Some u -> nth_error disc j = Some v ->
              nth_error lanes i = Some l -> nth_error lanes j = Some l' -> (l = l' <-> clos_refl_sym_trans nat R u v)).
Lemma lane_ext lanes next disc R S : (forall x y, R x y <-> S x y) -> lane_part lanes next disc R -> lane_part lanes next disc S.
Proof.
  intros H (H1 & H2 & H3). split; [auto|]. split; [auto|]. intros Hl i j u v l l' K1 K2 K3 K4. rewrite (H3 Hl i j u v l l') by auto.
  split; apply rst_mono; intros; apply H; auto.
Qed.
Definition inside (R : nat -> nat -> Prop) (disc : list nat) : Prop := forall x y, R x y -> In x disc /\ In y disc.
(** A new lanelet in the lane of a lanelet that is known. *)
Lemma lane_same lanes next disc R S a t s own : lane_part lanes next disc R -> inside R disc -> ~ In t disc ->
  nth_error disc s = Some a -> nth_error lanes s = Some own -> (forall x y, S x y <-> R x y \/ x = a /\ y = t) ->
  lane_part (lanes ++ [own]) next (disc ++ [t]) S.
Proof.
  intros (H1 & (c & H2 & H2' & H2'') & H3) Hin Ht Hs Hw HS. split; [rewrite !app_length; simpl; lia|]. split.
  - exists c. split; [auto|]. split.
    + right. rewrite app_length. simpl. destruct H2' as [[-> ->]|?]; [destruct s; discriminate|lia].
    + intros l Hl. apply in_app_or in Hl as [Hl|[<-|[]]]; auto. apply H2''. eapply nth_error_In; eauto.
  - rewrite app_length. simpl. intros Hl. assert (Hl' : length disc <= N.to_nat 65536) by lia. specialize (H3 Hl').
    assert (Hf : forall x, In x disc -> ~ clos_refl_sym_trans nat R x t).
    { intros x Hx K. assert (x = t); [|congruence]. apply (proj2 (rst_fresh R t (fun x y Hxy => conj
        (fun E => Ht (eq_ind _ (fun z => In z disc) (proj1 (Hin x y Hxy)) _ E))
        (fun E => Ht (eq_ind _ (fun z => In z disc) (proj2 (Hin x y Hxy)) _ E))) x t K)). auto. }
    intros i j u v l l' K1 K2 K3 K4. rewrite (rst_union R S a t HS).
    apply nth_snoc in K1, K2, K3, K4. rewrite H1 in K3, K4.
    destruct K1 as [K1|[-> ->]], K3 as [K3|[E3 K3]].
    + destruct K2 as [K2|[-> ->]], K4 as [K4|[E4 K4]].
      * rewrite (H3 i j u v l l') by auto. split; auto. intros [?|[[_ K]|[K _]]]; auto; exfalso.
        -- apply (Hf v); [eapply nth_error_In; eauto|apply rst_sym; auto].
        -- apply (Hf u); [eapply nth_error_In; eauto|auto].
      * subst j. apply nth_lt in K2. lia.
      * exfalso. apply nth_lt in K4. lia.
      * subst l'. rewrite (H3 i s u a l own) by auto. split.
        -- intros K. right. left. split; auto. apply rst_refl.
        -- intros [K|[[K _]|[K _]]]; auto; exfalso; apply (Hf u); auto; eapply nth_error_In; eauto.
    + exfalso. subst i. apply nth_lt in K1. lia.
    + exfalso. apply nth_lt in K3. lia.
    + subst l. destruct K2 as [K2|[-> ->]], K4 as [K4|[E4 K4]].
      * split.
        -- intros E. right. right. split; [apply rst_refl|]. apply (H3 s j a v own l'); auto.
        -- intros [K|[[_ K]|[_ K]]].
           ++ exfalso. apply (Hf v); [eapply nth_error_In; eauto|apply rst_sym; auto].
           ++ exfalso. apply (Hf v); [eapply nth_error_In; eauto|apply rst_sym; auto].
           ++ apply (H3 s j a v own l'); auto.
      * subst j. apply nth_lt in K2. lia.
      * exfalso. apply nth_lt in K4. lia.
      * subst. split; auto. intros _. left. apply rst_refl.
Qed.
(** A new lanelet in a new lane. *)
Lemma lane_new lanes next disc R t : lane_part lanes next disc R -> inside R disc -> ~ In t disc -> disc <> [] ->
  lane_part (lanes ++ [next_lane next]) (next_lane next) (disc ++ [t]) R.
Proof.
  intros (H1 & (c & H2 & H2' & H2'') & H3) Hin Ht Hne. split; [rewrite !app_length; simpl; lia|].
  destruct H2' as [[? _]|Hc]; [congruence|]. rewrite H2, next_lane_id. split.
  - exists (S c). split; [auto|]. split; [right; rewrite app_length; simpl; lia|].
    intros l Hl. apply in_app_or in Hl as [Hl|[<-|[]]]; [|eauto]. destruct (H2'' l Hl) as (k & Hk & ->). exists k. split; auto.
  - rewrite app_length. simpl. intros Hl. assert (Hl' : length disc <= N.to_nat 65536) by lia. specialize (H3 Hl').
    assert (Hf : forall x, In x disc -> ~ clos_refl_sym_trans nat R x t).
    { intros x Hx K. assert (x = t); [|congruence]. apply (proj2 (rst_fresh R t (fun x y Hxy => conj
        (fun E => Ht (eq_ind _ (fun z => In z disc) (proj1 (Hin x y Hxy)) _ E))
        (fun E => Ht (eq_ind _ (fun z => In z disc) (proj2 (Hin x y Hxy)) _ E))) x t K)). auto. }
    assert (Hid : forall l, In l lanes -> l <> lane_id (S c)).
    { intros l Hl1 ->. destruct (H2'' _ Hl1) as (k & Hk & E). apply lane_id_inj in E; lia. }
    intros i j u v l l' K1 K2 K3 K4. apply nth_snoc in K1, K2, K3, K4. rewrite H1 in K3, K4.
    destruct K1 as [K1|[-> ->]], K3 as [K3|[E3 K3]].
    + destruct K2 as [K2|[-> ->]], K4 as [K4|[E4 K4]].
      * apply (H3 i j u v l l'); auto.
      * subst j. apply nth_lt in K2. lia.
      * exfalso. apply nth_lt in K4. lia.
      * subst l'. split; intros K; exfalso.
        -- eapply Hid; eauto. eapply nth_error_In; eauto.
        -- eapply Hf; eauto. eapply nth_error_In; eauto.
    + exfalso. subst i. apply nth_lt in K1. lia.
    + exfalso. apply nth_lt in K3. lia.
    + subst l. destruct K2 as [K2|[-> ->]], K4 as [K4|[E4 K4]].
      * split; intros K; exfalso.
        -- eapply (Hid l'); eauto. eapply nth_error_In; eauto.
        -- apply (Hf v); [eapply nth_error_In; eauto|apply rst_sym; auto].
      * subst j. apply nth_lt in K2. lia.
      * exfalso. apply nth_lt in K4. lia.
      * subst. split; auto. intros _. apply rst_refl.
Qed.
(** Two lanes become one. *)
Lemma lane_merge lanes next disc R S a b s u own other : lane_part lanes next disc R ->
  nth_error disc s = Some a -> nth_error lanes s = Some own -> nth_error disc u = Some b -> nth_error lanes u = Some other ->
  (forall x y, S x y <-> R x y \/ x = a /\ y = b) -> lane_part (set_lane other own lanes) next disc S.
Proof.
  intros (H1 & (c & H2 & H2' & H2'') & H3) Ha Hw Hb Ho HS. split; [unfold set_lane; rewrite map_length; auto|]. split.
  - exists c. split; [auto|]. split; [auto|]. intros l Hl. unfold set_lane in Hl. apply in_map_iff in Hl as (x & <- & Hx).
    destruct (N.eqb x other); auto. apply H2''. eapply nth_error_In; eauto.
  - intros Hl. specialize (H3 Hl). intros i j x y l l' K1 K2 K3 K4. rewrite (rst_union R S a b HS).
    unfold set_lane in K3, K4. rewrite nth_error_map in K3, K4.
    destruct (nth_error lanes i) as [p|] eqn:Ei; [|discriminate]. destruct (nth_error lanes j) as [q|] eqn:Ej; [|discriminate].
    injection K3 as <-. injection K4 as <-.
    rewrite <- (H3 i j x y p q), <- (H3 i s x a p own), <- (H3 u j b y other q), <- (H3 i u x b p other), <- (H3 s j a y own q) by auto.
    destruct (N.eqb_spec p other), (N.eqb_spec q other); subst; intuition congruence.
Qed.
Lemma lane_keep lanes next disc R S a b s u own : lane_part lanes next disc R ->
  nth_error disc s = Some a -> nth_error lanes s = Some own -> nth_error disc u = Some b -> nth_error lanes u = Some own ->
  (forall x y, S x y <-> R x y \/ x = a /\ y = b) -> lane_part lanes next disc S.
Proof.
  intros H Ha Hw Hb Ho HS. pose proof (lane_merge lanes next disc R S a b s u own own H Ha Hw Hb Ho HS) as K.
  unfold set_lane in K. rewrite (map_ext _ (fun i => i)) in K; [rewrite map_id in K; auto|].
  intros x. destruct (N.eqb_spec x own); auto.
Qed.
Definition conf_part (conf : list (list elem)) (disc fin : list nat) : Prop :=
  length conf = length disc /\
  forall i v, nth_error disc i = Some v -> nth_error conf i = Some (if mem v fin then confl v else []).
Definition built (r : route) (disc : list nat) (dn : list edge) (fin : list nat) : Prop :=
  graph_part r disc dn /\ lane_part (r_lanes r) (r_next r) disc (same dn) /\ conf_part (r_conflicts r) disc fin.
Lemma dn_in r disc dn e : graph_part r disc dn -> In e dn -> In (e_src e) disc /\ In (e_tgt e) disc.
Proof.
  intros (_ & _ & _ & _ & _ & H) He. induction H as [|e' f dn' fs (H1 & H2 & _) _ IH]; [destruct He|].
  destruct He as [<-|He]; [|auto]. split; eapply nth_error_In; eauto.
Qed.
Lemma same_inside r disc dn : graph_part r disc dn -> inside (same dn) disc.
Proof. intros H x y (e & He & <- & <- & _). eapply dn_in; eauto. Qed.
Lemma same_snoc dn e x y : different e = false -> same (dn ++ [e]) x y <-> same dn x y \/ x = e_src e /\ y = e_tgt e.
Proof.
  intros Hd. split.
  - intros (f & Hf & <- & <- & Hf'). apply in_app_or in Hf as [Hf|[<-|[]]]; [left; exists f; auto|auto].
  - intros [(f & Hf & K)|[-> ->]]; [exists f; split; [apply in_or_app; auto|auto]|]. exists e. split; [apply in_or_app; simpl; auto|auto].
Qed.
Lemma same_diff dn e x y : different e = true -> same dn x y <-> same (dn ++ [e]) x y.
Proof.
  intros Hd. split.
  - intros (f & Hf & K). exists f. split; [apply in_or_app; auto|auto].
  - intros (f & Hf & K1 & K2 & K3). apply in_app_or in Hf as [Hf|[<-|[]]]; [exists f; auto|congruence].
Qed.
Lemma conf_snoc conf disc fin t : conf_part conf disc fin -> ~ In t fin -> conf_part (conf ++ [[]]) (disc ++ [t]) fin.
Proof.
  intros (H1 & H2) Ht. split; [rewrite !app_length; simpl; lia|]. intros i v Hv. apply nth_snoc in Hv. apply nth_snoc.
  destruct Hv as [Hv|[-> ->]]; [left; auto|]. right. split; auto. rewrite (proj2 (mem_out t fin)); auto.
Qed.
Lemma diff_false e : different e = false -> ei_rel (e_info e) = Successor.
Proof.
  unfold different_lane. destruct (relation_eqb (ei_rel (e_info e)) Successor) eqn:E; [|discriminate]. intros _. apply relation_eqb_eq; auto.
Qed.

(** Examining an edge. *)
Lemma examine_edge_built r disc dn fin e : built r disc dn fin -> In e es -> In (e_tgt e) on -> incl fin disc ->
  nth_error disc (r_source r) = Some (e_src e) ->
  exists r' disc', examine_edge g es on r e = Done r' /\ built r' disc' (dn ++ [e]) fin /\ r_source r' = r_source r /\
    ((disc' = disc /\ In (e_tgt e) disc) \/ (disc' = disc ++ [e_tgt e] /\ ~ In (e_tgt e) disc)).
Proof.
  intros (HG & HL & HC) He Ht Hfin Hs. unfold examine_edge. rewrite (lanelet_at_on _ Ht). cbn [rbind].
  destruct (nth_error (r_lanes r) (r_source r)) as [own|] eqn:Eo.
  2: { apply nth_error_None in Eo. destruct HL as (HL & _). apply nth_lt in Hs. lia. }
  unfold lane_at at 1. rewrite Eo. cbn [rbind].
  pose proof HG as (_ & Hnd & Hdon & Hv & Hlook & _).
  destruct (get_vertex (r_graph r) (el (e_tgt e))) as [u|] eqn:Eg.
  - apply Hlook in Eg; auto. destruct (nth_error (r_lanes r) u) as [other|] eqn:Eu.
    2: { apply nth_error_None in Eu. destruct HL as (HL & _). apply nth_lt in Eg. lia. }
    unfold lane_at. rewrite Eu. cbn [rbind].
    destruct (edge_graph r disc dn e (r_source r) u HG He Hs Eg) as (h & Hh & HG').
    destruct (negb (different e) && relation_eqb (ei_rel (e_info e)) Successor && negb (N.eqb own other)) eqn:Ec.
    + cbn [rbind r_graph r_source]. fold (as_route (e_info e)). rewrite Hh. eexists. exists disc. split; [reflexivity|].
      split; [|split; [reflexivity|left; split; auto; eapply nth_error_In; eauto]].
      split; [apply HG'|]. cbn [r_lanes r_next r_conflicts]. split; [|auto].
      apply andb_true_iff in Ec as [Ec Ec3]. apply andb_true_iff in Ec as [Ec1 Ec2]. apply negb_true_iff in Ec1.
      apply (lane_merge (r_lanes r) (r_next r) disc (same dn) _ _ _ _ _ own other HL Hs Eo Eg Eu). intros x y. apply same_snoc; auto.
    + cbn [rbind r_graph r_source]. fold (as_route (e_info e)). rewrite Hh. eexists. exists disc. split; [reflexivity|].
      split; [|split; [reflexivity|left; split; auto; eapply nth_error_In; eauto]].
      split; [apply HG'|]. cbn [r_lanes r_next r_conflicts]. split; [|auto].
      destruct (different e) eqn:Ed; [eapply lane_ext; [|exact HL]; intros; apply same_diff; auto|].
      assert (own = other) as <-.
      { destruct (N.eqb_spec own other); auto. rewrite (diff_false e Ed) in Ec. simpl in Ec. discriminate. }
      apply (lane_keep (r_lanes r) (r_next r) disc (same dn) _ _ _ _ _ own HL Hs Eo Eg Eu). intros x y. apply same_snoc; auto.
  - assert (Hn : ~ In (e_tgt e) disc).
    { intros Hi. apply In_nth_error in Hi as (i & Hi). apply Hlook in Hi; auto. congruence. }
    assert (Hnf : ~ In (e_tgt e) fin) by auto.
    assert (Hlen : length (g_verts (r_graph r)) = length disc) by (rewrite Hv, map_length; auto).
    cbn [rbind]. rewrite Hlen.
    assert (Hs' : nth_error (disc ++ [e_tgt e]) (r_source r) = Some (e_src e)) by (apply nth_snoc; auto).
    assert (Ht' : nth_error (disc ++ [e_tgt e]) (length disc) = Some (e_tgt e)) by (apply nth_snoc; auto).
    destruct (different e) eqn:Ed.
    + set (r1 := add_lanelet r (el (e_tgt e)) (next_lane (r_next r)) (next_lane (r_next r))).
      pose proof (add_graph r disc dn (e_tgt e) (next_lane (r_next r)) (next_lane (r_next r)) HG Ht Hn) as HG1. fold r1 in HG1.
      destruct (edge_graph r1 _ dn e (r_source r) (length disc) HG1 He Hs' Ht') as (h & Hh & HG').
      replace (r_source r1) with (r_source r) by reflexivity. fold (as_route (e_info e)). rewrite Hh.
      eexists. exists (disc ++ [e_tgt e]). split; [reflexivity|]. split; [|split; [reflexivity|auto]].
      split; [apply HG'|]. split; [|apply conf_snoc; auto]. cbn [r_lanes r_next r_conflicts r1 add_lanelet].
      eapply lane_ext; [intros x y; apply same_diff; exact Ed|]. apply lane_new; auto; [eapply same_inside; eauto|].
      intros ->. destruct (r_source r); discriminate.
    + set (r1 := add_lanelet r (el (e_tgt e)) own (r_next r)).
      pose proof (add_graph r disc dn (e_tgt e) own (r_next r) HG Ht Hn) as HG1. fold r1 in HG1.
      destruct (edge_graph r1 _ dn e (r_source r) (length disc) HG1 He Hs' Ht') as (h & Hh & HG').
      replace (r_source r1) with (r_source r) by reflexivity. fold (as_route (e_info e)). rewrite Hh.
      eexists. exists (disc ++ [e_tgt e]). split; [reflexivity|]. split; [|split; [reflexivity|auto]].
      split; [apply HG'|]. split; [|apply conf_snoc; auto]. cbn [r_lanes r_next r_conflicts r1 add_lanelet].
      apply (lane_same (r_lanes r) (r_next r) disc (same dn) _ _ _ _ own HL (same_inside _ _ _ HG) Hn Hs Eo). intros x y. apply same_snoc; auto.
Qed.
Lemma examine_edges_built l : forall r disc dn fin v, built r disc dn fin -> (forall e, In e l -> In e es /\ In (e_tgt e) on /\ e_src e = v) ->
  incl fin disc -> nth_error disc (r_source r) = Some v ->
  exists r' disc', examine_edges g es on r l = Done r' /\ built r' disc' (dn ++ l) fin /\ r_source r' = r_source r /\
    incl disc disc' /\ nth_error disc' (r_source r) = Some v /\
    (forall x, In x disc' <-> In x disc \/ In x (map e_tgt l)) /\ (forall x, hd_error disc = Some x -> hd_error disc' = Some x).
Proof.
  induction l as [|e l IH]; intros r disc dn fin v Hb Hl Hfin Hs.
  - exists r, disc. rewrite app_nil_r. simpl. split; [auto|]. split; [auto|]. split; [auto|]. split; [apply incl_refl|]. split; [auto|].
    split; [tauto|auto].
  - destruct (Hl e (or_introl eq_refl)) as (He & Ht & Hv).
    destruct (examine_edge_built r disc dn fin e Hb He Ht Hfin) as (r1 & disc1 & E1 & Hb1 & Hs1 & Hd1); [congruence|].
    assert (Hi1 : incl disc disc1) by (destruct Hd1 as [[-> _]|[-> _]]; [apply incl_refl|apply incl_appl, incl_refl]).
    destruct (IH r1 disc1 (dn ++ [e]) fin v Hb1) as (r2 & disc2 & E2 & Hb2 & Hs2 & Hi2 & Hv2 & Hm2 & Hh2).
    + intros f Hf. apply Hl. right. auto.
    + eapply incl_tran; eauto.
    + rewrite Hs1. destruct Hd1 as [[-> _]|[-> _]]; auto. apply nth_snoc. auto.
    + exists r2, disc2. simpl. rewrite E1. cbn [rbind]. rewrite E2. rewrite <- app_assoc in Hb2. simpl in Hb2. rewrite Hs1 in *.
      split; [auto|]. split; [auto|]. split; [auto|]. split; [eapply incl_tran; eauto|]. split; [auto|]. split.
      * intros x. rewrite Hm2. simpl. destruct Hd1 as [[-> Hd]|[-> _]].
        -- split; [tauto|]. intros [?|[<-|?]]; auto.
        -- rewrite in_app_iff. simpl. tauto.
      * intros x Hx. apply Hh2. destruct Hd1 as [[-> _]|[-> _]]; auto. destruct disc; [discriminate|auto].
Qed.
Lemma elems_at_all l : (forall v, In v l -> v < length (g_verts g)) -> elems_at g l = Done (map el l).
Proof.
  induction l as [|v l IH]; intros H; simpl; [auto|]. unfold vertex_elem. rewrite (nth_error_nth' _ (EArea 0)) by (apply H; simpl; auto).
  rewrite IH by (intros; apply H; simpl; auto). auto.
Qed.
Lemma finish_built r disc dn fin v : built r disc dn fin -> nth_error disc (r_source r) = Some v -> ~ In v fin ->
  exists r', finish_vertex g es r v = Done r' /\ built r' disc dn (v :: fin) /\ r_source r' = r_source r.
Proof.
  intros (HG & HL & HC) Hs Hv. unfold finish_vertex. rewrite elems_at_all.
  2: { intros x Hx. apply in_map_iff in Hx as (e & <- & He). apply filter_In in He as [He _]. apply filter_In in He as [He _].
       apply (go_edges _ Hg e). auto. }
  rewrite map_map. cbn [rbind]. eexists. split; [reflexivity|]. split; [|auto]. split; [exact HG|]. split; [exact HL|].
  cbn [r_conflicts]. destruct HC as (H1 & H2). split; [rewrite set_nth_length; auto|]. intros i x Hx. rewrite set_nth_nth.
  destruct HG as (_ & Hnd & _). rewrite (H2 i x Hx). destruct (Nat.eqb_spec (r_source r) i) as [Ei|Ei].
  - subst i. rewrite Hs in Hx. injection Hx as <-. rewrite (proj2 (mem_out v fin)) by auto. simpl. rewrite Nat.eqb_refl. auto.
  - simpl. destruct (Nat.eqb_spec x v) as [->|Hxv]; [|auto]. exfalso. apply Ei. eapply nodup_index; eauto.
Qed.
Lemma empty_built : built empty_route [] [] [].
Proof.
  split; [|split].
  - split; [exists []; auto|]. split; [constructor|]. split; [intros x []|]. split; [auto|]. split; [|constructor].
    intros v i _. split; [discriminate|destruct i; discriminate].
  - split; [auto|]. split; [exists 0; split; [auto|]; split; [auto|intros l []]|]. intros _ i j u v l l' H. destruct i; discriminate.
  - split; [auto|]. intros i v H. destruct i; discriminate.
Qed.
Lemma examine_built r disc dn fin v : built r disc dn fin -> In v on -> In v disc ->
  exists r', examine_vertex g r v = Done r' /\ built r' disc dn fin /\ nth_error disc (r_source r') = Some v.
Proof.
  intros Hb Hv Hd. unfold examine_vertex. rewrite (lanelet_at_on v Hv). cbn [rbind].
  pose proof Hb as ((_ & _ & _ & _ & Hlook & _) & _). apply In_nth_error in Hd as (i & Hi).
  pose proof (proj2 (Hlook v i Hv) Hi) as Hi'. rewrite Hi'. unfold get_vertex in Hi'.
  destruct (g_lookup (r_graph r)) as [|p l] eqn:E; [discriminate|]. eexists. split; [reflexivity|]. split; [|auto]. exact Hb.
Qed.
Lemma examine_first v : In v on -> exists r', examine_vertex g empty_route v = Done r' /\ built r' [v] [] [] /\ nth_error [v] (r_source r') = Some v.
Proof.
  intros Hv. unfold examine_vertex. rewrite (lanelet_at_on v Hv). cbn [rbind]. simpl (g_lookup _). cbn iota.
  eexists. split; [reflexivity|]. split; [|auto]. destruct empty_built as (HG & HL & HC). split; [|split].
  - exact (add_graph empty_route [] [] v (r_next empty_route) (r_next empty_route) HG Hv (fun H => H)).
  - simpl. split; [auto|]. split; [exists 0; split; [auto|]; split; [right; simpl; lia|]; intros l [<-|[]]; exists 0; auto|].
    intros _ i j u w l l' K1 K2 K3 K4. destruct i as [|[|i]], j as [|[|j]]; simpl in *; try discriminate.
    injection K1 as <-. injection K2 as <-. injection K3 as <-. injection K4 as <-. split; auto. intros _. apply rst_refl.
  - apply (conf_snoc [] [] [] v HC). intros [].
Qed.
(** The vertices are visited in an order in which each one but the first is the target of an edge of an earlier one. *)
Lemma construct_built : forall order r disc dn fin, built r disc dn fin -> incl fin disc -> NoDup (fin ++ order) -> incl order on ->
  (forall p v q, order = p ++ v :: q -> In v disc \/ exists u, In u p /\ In v (map e_tgt (route_out es on u))) ->
  exists r' disc', construct g es on r order = Done r' /\
    built r' disc' (dn ++ concat (map (route_out es on) order)) (rev order ++ fin) /\
    (forall x, In x disc' <-> In x disc \/ exists u, In u order /\ In x (map e_tgt (route_out es on u))) /\
    (forall x, hd_error disc = Some x -> hd_error disc' = Some x).
Proof.
  induction order as [|v order IH]; intros r disc dn fin Hb Hfin Hnd Hord Hdisc.
  - exists r, disc. simpl. rewrite app_nil_r. split; [auto|]. split; [auto|]. split; [|auto]. intros x. split; auto. intros [?|(u & [] & _)]; auto.
  - assert (Hv : In v disc) by (destruct (Hdisc [] v order eq_refl) as [?|(u & [] & _)]; auto).
    destruct (examine_built r disc dn fin v Hb) as (r1 & E1 & Hb1 & Hs1); [apply Hord; simpl; auto|auto|].
    destruct (examine_edges_built (route_out es on v) r1 disc dn fin v Hb1) as (r2 & disc2 & E2 & Hb2 & Hs2 & Hi2 & Hv2 & Hm2 & Hh2); auto.
    { intros e He. unfold route_out in He. apply filter_In in He as [He Ht]. apply filter_In in He as [He Hsrc]. apply Nat.eqb_eq in Hsrc.
      apply mem_in in Ht. auto. }
    destruct (finish_built r2 disc2 _ fin v Hb2) as (r3 & E3 & Hb3 & Hs3); [congruence| |].
    { intros Hf. apply NoDup_remove_2 in Hnd. apply Hnd. apply in_or_app. auto. }
    destruct (IH r3 disc2 (dn ++ route_out es on v) (v :: fin) Hb3) as (r4 & disc4 & E4 & Hb4 & Hm4 & Hh4).
    + intros x [<-|Hx]; auto.
    + simpl. pose proof (NoDup_remove _ _ _ Hnd) as [K1 K2]. constructor; auto.
    + intros x Hx. apply Hord. simpl. auto.
    + intros p x q Hx. destruct (Hdisc (v :: p) x q) as [K|(u & [<-|Hu] & K)]; [rewrite Hx; auto| | |].
      * left. auto.
      * left. apply Hm2. auto.
      * right. exists u. auto.
    + exists r4, disc4. simpl. rewrite E1. cbn [rbind]. rewrite E2. cbn [rbind]. rewrite E3. cbn [rbind]. rewrite E4.
      rewrite <- app_assoc in Hb4. rewrite <- app_assoc. split; [auto|]. split; [auto|]. split; [|auto].
      intros x. rewrite Hm4, Hm2. split.
      * intros [[?|?]|(u & Hu & K)]; eauto.
      * intros [?|(u & [<-|Hu] & K)]; eauto.
Qed.
Notation route_step := (fun u t => In t (map e_tgt (route_out es on u))).
Lemma step_on u t : route_step u t -> In t on.
Proof.
  intros H. apply in_map_iff in H as (e & <- & He). apply filter_In in He as [_ He]. apply mem_in in He. auto.
Qed.
Lemma construct_from v l : In v on -> NoDup (v :: l) -> incl (v :: l) on ->
  (forall p x s, l = p ++ x :: s -> exists u, In u (v :: p) /\ route_step u x) ->
  exists r disc, construct g es on empty_route (v :: l) = Done r /\
    built r disc (concat (map (route_out es on) (v :: l))) (rev (v :: l)) /\
    (forall x, In x disc <-> x = v \/ exists u, In u (v :: l) /\ route_step u x) /\ hd_error disc = Some v.
Proof.
  intros Hv Hnd Hi Ho. destruct (examine_first v Hv) as (r1 & E1 & Hb1 & Hs1).
  assert (E2 : examine_vertex g r1 v = Done r1).
  { unfold examine_vertex in *. rewrite (lanelet_at_on v Hv) in *. cbn [rbind] in *. simpl (g_lookup (r_graph empty_route)) in E1. cbn iota in E1.
    assert (Hg1 : get_vertex (r_graph r1) (el v) = Some 0) by (destruct Hb1 as ((_ & _ & _ & _ & K & _) & _); apply K; auto).
    rewrite Hg1. unfold get_vertex in Hg1. destruct (g_lookup (r_graph r1)); [discriminate|]. injection E1 as <-. auto. }
  destruct (construct_built (v :: l) r1 [v] [] [] Hb1) as (r2 & disc2 & E3 & Hb2 & Hm & Hh).
  - intros x [].
  - auto.
  - auto.
  - intros p x s Hx. destruct p as [|y p]; injection Hx as <- Hx; [left; simpl; auto|].
    right. destruct (Ho p x s Hx) as (u & Hu & K). exists u. auto.
  - exists r2, disc2. split; [rewrite <- E3; simpl; rewrite E1, E2; auto|]. rewrite app_nil_r in Hb2. split; [auto|]. split; [|auto].
    intros x. rewrite Hm. simpl. intuition.
Qed.
(** The route consists of the lanelets that are reached on the route. *)
Lemma finalize_built begin goal : In begin on -> exists r order disc,
  finalize g es on begin goal = Done (if match get_vertex (r_graph r) goal with Some _ => true | None => false end then Some r else None) /\
  built r disc (concat (map (route_out es on) order)) (rev order) /\ NoDup order /\ hd_error order = Some begin /\ hd_error disc = Some begin /\
  (forall x, In x order <-> clos_refl_trans nat route_step begin x) /\ (forall x, In x disc <-> In x order) /\ incl order on.
Proof.
  intros Hb.
  destruct (bfs_spec (fun v => map e_tgt (route_out es on v)) (length (g_verts g))) with (fuel := S (length (g_verts g))) (start := begin)
    as (l & E & Hnd & Hr & _ & Ho); [|apply Hon; auto|lia|].
  { intros u t Hu Ht. apply in_map_iff in Ht as (e & <- & He). apply filter_In in He as [He _]. apply filter_In in He as [He _].
    apply (go_edges _ Hg e); auto. }
  assert (Hi : incl (begin :: l) on).
  { intros x Hx. apply Hr in Hx. apply clos_rt_rtn1 in Hx. destruct Hx as [|y z Hyz _]; auto. eapply step_on; eauto. }
  destruct (construct_from begin l Hb Hnd Hi Ho) as (r & disc & Ec & Hbu & Hd & Hh).
  exists r, (begin :: l), disc. unfold finalize. rewrite E, Ec. cbn [rbind].
  split; [destruct (get_vertex (r_graph r) goal); auto|]. split; [auto|]. split; [auto|]. split; [auto|]. split; [auto|]. split; [auto|]. split; [|auto].
  intros x. rewrite Hd, Hr. split.
  - intros [->|(u & Hu & K)]; [apply rt_refl|]. apply Hr in Hu. eapply rt_trans; [exact Hu|apply rt_step; auto].
  - intros H. apply clos_rt_rtn1 in H. destruct H as [|y z Hyz H]; auto. right. exists y. split; auto. apply Hr. apply clos_rtn1_rt. auto.
Qed.
End Construct.
