(** C104, C105: debug maps of routing graphs and of routes. *)
From Coq Require Import ZArith NArith List Bool Lia Permutation.
From Verif Require Import CostAlg GraphModel GraphProofs RouteBuilderModel DebugModel DebugSpec DebugProofs DebugProofs2.
Import ListNotations.
Open Scope Z_scope.

(** * Routing graphs *)
Section Graph.
Context {A : CostAlg}.
Variable idof : elem -> Z.
Variables (n : N) (ops : list (gop A)) (costid : N) (adjacent conflict : bool) (order : list (elem * nat)) (next : Z).
Let g := gbuild n ops.
Notation pt := (create_point idof).

(** An unknown cost id is refused. *)
Theorem C104_cost_id : graph_debug_map idof g costid adjacent conflict order next = Throws <-> (g_numcosts g <= costid)%N.
Proof. unfold graph_debug_map. destruct (N.leb_spec (g_numcosts g) costid); split; intros; try easy; lia. Qed.

Hypothesis cost_ok : (costid < g_numcosts g)%N.
Hypothesis ids : distinct_ids idof g.
Hypothesis one : single g costid adjacent conflict.
Hypothesis ord : Permutation order (g_lookup g).

Lemma debug_run : exists m, graph_debug_map idof g costid adjacent conflict order next = Ret (Some m) /\
    NoDup (map fst (d_points m)) /\ (forall i p, In (i, p) (d_points m) <-> exists a, vertex g a /\ i = idof a /\ p = pt a) /\
    NoDup (map fst (d_lines m)) /\ (forall i l, In (i, l) (d_lines m) -> i = gl_id l) /\
    (forall i l, In (i, l) (d_lines m) -> exists a b, gl_from l = pt a /\ gl_to l = pt b /\ vertex g a /\ vertex g b /\
      linked g costid adjacent conflict a b (gl_rel l) (gl_cost l) /\
      (forall r c, gl_back l = Some (r, c) <-> a <> b /\ linked g costid adjacent conflict b a r c)) /\
    (forall a b r c, linked g costid adjacent conflict a b r c -> exists i l, In (i, l) (d_lines m) /\
      ((gl_from l = pt a /\ gl_to l = pt b) \/ (gl_from l = pt b /\ gl_to l = pt a))) /\
    (forall i j l k, In (i, l) (d_lines m) -> In (j, k) (d_lines m) ->
      (gl_from l = gl_from k /\ gl_to l = gl_to k) \/ (gl_from l = gl_to k /\ gl_to l = gl_from k) -> i = j).
Proof.
  destruct (gbuild_looked n ops) as (ND & L & E). fold g in ND, L, E.
  assert (VO : forall a, vertex g a <-> In a (map fst order)).
  { intros a. split.
    - intros (v & V). destruct (go_known _ (gbuild_ok n ops) v a V) as (u & U). unfold get_vertex in U. apply assoc_in in U.
      apply in_map_iff. exists (a, u). split; [reflexivity|]. eapply Permutation_in; [symmetry; exact ord|exact U].
    - intros J. apply in_map_iff in J as ([a' u] & <- & J). cbn [fst]. exists u. apply L. apply in_assoc; [exact ND|]. eapply Permutation_in; eauto. }
  destruct (run_ok idof (vertex g) (GView g costid (debug_mask adjacent conflict)) order next ids VO) as (m & Em & H1 & H2 & H3 & H4 & H5 & H6 & H7).
  { intros u e J. unfold out_edges in J. apply filter_In in J as [J _]. cbn [v_graph] in *. destruct (E e J) as (_ & b & Hb). apply L in Hb.
    exists b. split; [exact Hb|]. exists (e_tgt e). exact Hb. }
  { apply tris_nodup; assumption. }
  exists m. split.
  { unfold graph_debug_map. destruct (N.leb_spec (g_numcosts g) costid); [lia|]. rewrite Em. reflexivity. }
  assert (TL := fun a b r c => tris_linked n ops costid adjacent conflict order a b r c ord). cbn zeta in TL. fold g in TL.
  split; [exact H1|]. split; [exact H2|]. split; [exact H3|]. split; [exact H4|]. split; [|split; [|exact H7]].
  - intros i l J. destruct (H5 i l J) as (a & b & F & T & Va & Vb & I & B). exists a, b. split; [exact F|]. split; [exact T|].
    split; [exact Va|]. split; [exact Vb|]. split; [apply TL; exact I|]. intros r c. rewrite B, TL. reflexivity.
  - intros a b r c Lk. apply TL in Lk. eapply H6. exact Lk.
Qed.

(** There is exactly one point for each lanelet and area; it has the id of the lanelet or area. *)
Theorem C104_points : exists m, graph_debug_map idof g costid adjacent conflict order next = Ret (Some m) /\
  NoDup (map fst (d_points m)) /\ forall i p, In (i, p) (d_points m) <-> exists a, vertex g a /\ i = idof a /\ gp_id p = i /\ gp_of p = a.
Proof.
  destruct debug_run as (m & E & H1 & H2 & _). exists m. split; [exact E|]. split; [exact H1|]. intros i p. rewrite H2. split.
  - intros (a & V & -> & ->). exists a. auto.
  - intros (a & V & -> & G & <-). exists (gp_of p). split; [exact V|]. split; [reflexivity|]. destruct p as [x y]. cbn in *. subst x. reflexivity.
Qed.
(** There is exactly one line string for each two of them with a shown relation; its attributes say what the relations and costs are,
    in the direction of the line string and against it. *)
Theorem C104_lines : exists m, graph_debug_map idof g costid adjacent conflict order next = Ret (Some m) /\ NoDup (map fst (d_lines m)) /\
  (forall i l, In (i, l) (d_lines m) -> exists a b, gl_from l = pt a /\ gl_to l = pt b /\
     linked g costid adjacent conflict a b (gl_rel l) (gl_cost l) /\
     (forall r c, gl_back l = Some (r, c) <-> a <> b /\ linked g costid adjacent conflict b a r c)) /\
  (forall a b r c, linked g costid adjacent conflict a b r c -> exists i l, In (i, l) (d_lines m) /\
     ((gl_from l = pt a /\ gl_to l = pt b /\ gl_rel l = r /\ gl_cost l = c) \/
      (gl_from l = pt b /\ gl_to l = pt a /\ gl_back l = Some (r, c)))) /\
  (forall i j l k, In (i, l) (d_lines m) -> In (j, k) (d_lines m) ->
     (gl_from l = gl_from k /\ gl_to l = gl_to k) \/ (gl_from l = gl_to k /\ gl_to l = gl_from k) -> i = j /\ l = k).
Proof.
  destruct debug_run as (m & E & _ & _ & H3 & H4 & H5 & H6 & H7). exists m. split; [exact E|]. split; [exact H3|].
  assert (PI : forall x y, pt x = pt y -> x = y) by (intros x y Q; unfold create_point in Q; congruence).
  split; [|split].
  - intros i l J. destruct (H5 i l J) as (a & b & F & T & _ & _ & I & B). exists a, b. auto.
  - intros a b r c Lk. destruct (H6 a b r c Lk) as (i & l & J & D). exists i, l. split; [exact J|].
    destruct (H5 i l J) as (a' & b' & F & T & _ & _ & I & B). rewrite F, T in *.
    assert (UN : forall x y r1 c1 r2 c2, linked g costid adjacent conflict x y r1 c1 -> linked g costid adjacent conflict x y r2 c2 -> r1 = r2 /\ c1 = c2).
    { destruct (gbuild_looked n ops) as (ND & L & EE). fold g in ND, L, EE.
      intros x y r1 c1 r2 c2 (e & Je & Se & Xe & Ye & <- & <-) (f & Jf & Sf & Xf & Yf & <- & <-).
      destruct (EE e Je) as ((xe & He) & ye & He'). destruct (EE f Jf) as ((xf & Hf) & yf & Hf').
      assert (e_src e = e_src f) by (apply L in He as Q1; apply L in Hf as Q2; congruence).
      assert (e_tgt e = e_tgt f) by (apply L in He' as Q1; apply L in Hf' as Q2; congruence).
      apply In_nth_error in Je as (ie & Ie). apply In_nth_error in Jf as (jf & If).
      assert (ie = jf) by (eapply one; eauto). subst jf. rewrite Ie in If. injection If as <-. auto. }
    destruct D as [[D1 D2]|[D1 D2]]; apply PI in D1; apply PI in D2; subst a' b'.
    + left. split; [reflexivity|]. split; [reflexivity|]. eapply UN; eauto.
    + destruct (elem_eqb a b) eqn:Eab.
      * apply elem_eqb_eq in Eab. subst b. left. split; [reflexivity|]. split; [reflexivity|]. eapply UN; eauto.
      * right. split; [reflexivity|]. split; [reflexivity|]. apply B. split; [|exact Lk]. intros ->. rewrite eqb_refl in Eab. discriminate.
  - intros i j l k J K D. assert (Eij := H7 i j l k J K D). subst j. split; [reflexivity|]. eapply nodup_key; [exact H3|exact J|exact K].
Qed.
End Graph.
Print Assumptions C104_cost_id. Print Assumptions C104_points. Print Assumptions C104_lines.

Definition lane (d : N) : elem := ELanelet d false.
Definition data_id (e : elem) : Z := match e with ELanelet d _ => Z.of_N d | EArea d => Z.of_N d end.
Definition zinfo (c : Z) (r : relation) : einfo ZCost := EInfo (A := ZCost) (Some c) 0 r.
(** Two lanelets beside each other, a successor, an area and a lanelet without relations *)
Definition dbg_ops : list (gop ZCost) :=
  [OpVertex (lane 1); OpVertex (lane 2); OpVertex (lane 3); OpVertex (EArea 9); OpVertex (lane 4);
   OpEdge (lane 2) (lane 1) (zinfo 2 RLeft); OpEdge (lane 1) (lane 2) (zinfo 3 AdjacentRight); OpEdge (lane 1) (lane 3) (zinfo 5 Successor);
   OpEdge (lane 3) (EArea 9) (zinfo 1 RArea); OpEdge (lane 2) (lane 3) (zinfo 0 Conflicting); OpEdge (lane 3) (lane 2) (zinfo 0 Conflicting)].
Definition dbg_graph := gbuild 1 dbg_ops.
Definition dbg_order := [(lane 3, 2%nat); (lane 1, 0%nat); (EArea 9, 3%nat); (lane 2, 1%nat); (lane 4, 4%nat)].
Definition drawn_lines {L} (f : L -> Z * Z * (relation * cost ZCost) * option (relation * cost ZCost)) (m : option (dmap gpoint L)) :=
  match m with Some m => map (fun x => f (snd x)) (d_lines m) | None => [] end.
Definition line_of (l : gline (A := ZCost)) := (gp_id (gl_from l), gp_id (gl_to l), (gl_rel l, gl_cost l), gl_back l).
Lemma dbg_ids : distinct_ids data_id dbg_graph.
Proof.
  assert (V : forall a, vertex dbg_graph a -> In a [lane 1; lane 2; lane 3; EArea 9; lane 4]).
  { intros a (v & H). apply nth_error_In in H. exact H. }
  split.
  - intros a H. apply V in H. cbn in H. decompose [or] H; subst; try contradiction; discriminate.
  - intros a b Ha Hb E. apply V in Ha, Hb. cbn in Ha, Hb. decompose [or] Ha; decompose [or] Hb; subst; try contradiction; try reflexivity; discriminate.
Qed.
Lemma dbg_single : single dbg_graph 0 true true.
Proof.
  intros i j e f Ei Ej _ _ S T.
  assert (U : forall k x, nth_error (g_edges dbg_graph) k = Some x -> (k = 0 /\ e_src x = 1 /\ e_tgt x = 0 \/ k = 1 /\ e_src x = 0 /\ e_tgt x = 1 \/
     k = 2 /\ e_src x = 0 /\ e_tgt x = 2 \/ k = 3 /\ e_src x = 2 /\ e_tgt x = 3 \/ k = 4 /\ e_src x = 1 /\ e_tgt x = 2 \/ k = 5 /\ e_src x = 2 /\ e_tgt x = 1)%nat).
  { intros k x H. assert (L : (k < 6)%nat) by (apply (proj1 (nth_error_Some (g_edges dbg_graph) k)); congruence).
    do 6 (destruct k as [|k]; [cbn in H; injection H as <-; cbn; lia|]). lia. }
  specialize (U _ _ Ei) as U1. specialize (U _ _ Ej) as U2. lia.
Qed.
Example C104_nonvacuous : (0 < g_numcosts dbg_graph)%N /\ distinct_ids data_id dbg_graph /\ single dbg_graph 0 true true /\ Permutation dbg_order (g_lookup dbg_graph) /\
  exists m, graph_debug_map data_id dbg_graph 0 true true dbg_order 100 = Ret (Some m) /\
    map fst (d_points m) = [3; 9; 2; 1; 4] /\ map fst (d_lines m) = [100; 101; 102; 103] /\
    map (fun x => line_of (snd x)) (d_lines m) =
      [(3, 9, (RArea, Some 1), None); (3, 2, (Conflicting, Some 0), Some (Conflicting, Some 0));
       (1, 2, (AdjacentRight, Some 3), Some (RLeft, Some 2)); (1, 3, (Successor, Some 5), None)] /\
    match graph_debug_map data_id dbg_graph 0 false false dbg_order 100 with
    | Ret m => drawn_lines line_of m = [(3, 9, (RArea, Some 1), None); (1, 3, (Successor, Some 5), None); (2, 1, (RLeft, Some 2), None)]
    | Throws => False
    end.
Proof.
  split; [reflexivity|]. split; [apply dbg_ids|]. split; [apply dbg_single|]. split.
  - apply NoDup_Permutation.
    + repeat (constructor; [cbn; intuition discriminate|]). constructor.
    + repeat (constructor; [vm_compute; intuition discriminate|]). constructor.
    + intros x. vm_compute. intuition.
  - eexists. split; [reflexivity|]. vm_compute. auto.
Qed.

(** Finding: a lanelet that can be used in both directions is two vertices with the same id. Both points are made, but the map keeps one
    of them. The pair is not ordered, so the two directions of the relation between the vertices get a line string each, which ends
    where it begins and has no reverse relation. *)
Definition both_ways : list (gop ZCost) :=
  [OpVertex (lane 7); OpVertex (ELanelet 7 true);
   OpEdge (lane 7) (ELanelet 7 true) (zinfo 0 Conflicting); OpEdge (ELanelet 7 true) (lane 7) (zinfo 0 Conflicting)].
Theorem C104_both_ways_refuted : exists m, graph_debug_map data_id (gbuild 1 both_ways) 0 true true (g_lookup (gbuild 1 both_ways)) 100 = Ret (Some m) /\
  vertex (gbuild 1 both_ways) (lane 7) /\ vertex (gbuild 1 both_ways) (ELanelet 7 true) /\
  (forall i p, In (i, p) (d_points m) -> gp_of p = lane 7) /\ length (d_points m) = 1%nat /\
  map (fun x => line_of (snd x)) (d_lines m) = [(7, 7, (Conflicting, Some 0), None); (7, 7, (Conflicting, Some 0), None)].
Proof.
  eexists. split; [reflexivity|]. split; [exists 0%nat; reflexivity|]. split; [exists 1%nat; reflexivity|]. vm_compute. split; [|auto].
  intros i p [E|[]]. injection E as <- <-. reflexivity.
Qed.
Print Assumptions C104_both_ways_refuted.
(** Finding: with more than one edge from a lanelet to another the attributes of the reverse relation are those of an edge in the same direction. *)
Theorem C104_parallel_refuted : exists ops m l, graph_debug_map (A := ZCost) data_id (gbuild 1 ops) 0 true true (g_lookup (gbuild 1 ops)) 100 = Ret (Some m) /\
  distinct_ids data_id (gbuild 1 ops) /\ d_lines m = [(100, l)] /\ gl_from l = create_point data_id (lane 1) /\ gl_to l = create_point data_id (lane 2) /\
  gl_back l <> None /\ forall r c, ~ linked (gbuild 1 ops) 0 true true (lane 2) (lane 1) r c.
Proof.
  exists [OpVertex (lane 1); OpVertex (lane 2); OpEdge (lane 1) (lane 2) (zinfo 1 Successor); OpEdge (lane 1) (lane 2) (zinfo 2 RLeft)].
  eexists. eexists. split; [reflexivity|]. split; [|split; [reflexivity|split; [reflexivity|split; [reflexivity|split; [discriminate|]]]]].
  - set (g := gbuild _ _). assert (V : forall a, vertex g a -> In a [lane 1; lane 2]) by (intros a (v & H); apply nth_error_In in H; exact H). split.
    + intros a H. apply V in H. cbn in H. decompose [or] H; subst; try contradiction; discriminate.
    + intros a b Ha Hb E. apply V in Ha, Hb. cbn in Ha, Hb. decompose [or] Ha; decompose [or] Hb; subst; try contradiction; try reflexivity; discriminate.
  - intros r c (e & J & _ & S & _). cbn in J. decompose [or] J; subst; try contradiction; discriminate.
Qed.
Print Assumptions C104_parallel_refuted.

(** * Routes *)
Section Route.
Context {A : CostAlg}.
Variable idof : elem -> Z.
Variables (r : route A) (path : list elem) (next : Z).
Hypothesis ok : route_ok r.
Hypothesis ids : own_ids idof r.
Hypothesis path_ok : forall e, In e path -> exists lane, on_edge idof r (idof e) lane.

Lemma route_run : exists m em, route_debug_map idof r path next = Some m /\ drawn_route idof r (route_edges r) (seen idof r (route_edges r), em) /\
  NoDup (map fst (d_points m)) /\ (forall x, In x (d_points m) <-> In x (map (marked idof path) (seen idof r (route_edges r)))) /\
  d_lines m = keep_first (map (fun l => (0, l)) (map snd em)).
Proof.
  destruct (add_relations_ok idof r (route_edges r)) with (P := @nil (edge A)) (st := (@nil (Z * rpoint), @nil ((Z * Z) * rline))) as ([vm em] & E & H).
  { intros e J. apply route_edges_in in J; [|exact ok]. apply edge_ends; assumption. }
  { constructor; cbn; try constructor; intros; contradiction. }
  cbn [app] in H. assert (EV := dr_points _ _ _ _ H). cbn [fst] in EV. subst vm. unfold route_debug_map. rewrite E. eexists. exists em. split; [reflexivity|].
  split; [exact H|]. set (vm := seen idof r (route_edges r)) in *.
  rewrite mark_all.
  2:{ intros e J. destruct (path_ok e J) as (lane & O). apply in_map_iff. exists (idof e, RPoint (idof e) (Some lane) false). split; [reflexivity|].
      unfold vm. apply seen_exact; eauto. }
  set (vm' := map (marked idof path) vm).
  assert (MI : forall i p, In (i, p) vm' -> rp_id p = i /\ i <> 0).
  { intros i p J. unfold vm' in J. apply in_map_iff in J as ([j q] & Ej & J). unfold marked in Ej. cbn in Ej. injection Ej as <- <-. cbn.
    unfold vm in J. pose proof J as J'. apply seen_ids in J. split; [exact J|]. apply seen_exact in J' as (lane & (e & v & x & _ & _ & X & <-) & _); auto.
    destruct ids as (Z0 & _). apply (Z0 v _ X). }
  assert (ID : map (fun x : Z * rpoint => (rp_id (snd x), snd x)) vm' = vm').
  { rewrite <- (map_id vm') at 2. apply map_ext_in. intros [i p] J. apply MI in J as [J _]. cbn [snd]. rewrite J. reflexivity. }
  rewrite ID. set (lines := map snd em).
  destruct (add_map_points vm' (create_map_lines (flat_map (fun l => shared_point vm' (rl_front l) ++ shared_point vm' (rl_back l)) lines) (map (fun l => (0, l)) lines) next)) as (EP & EL).
  { intros [i p] J. apply MI in J. tauto. }
  rewrite EP, EL. unfold create_map_lines. cbn [d_points d_lines].
  set (sh := flat_map _ lines). destruct (keep_first_facts sh) as (N1 & S1 & _). destruct (puts_facts vm' _ N1) as (N2 & _ & S2 & K2).
  assert (NV : NoDup (map fst vm')).
  { unfold vm'. rewrite map_map. cbn. unfold vm, seen. apply keep_first_facts. }
  split; [exact N2|]. split; [|reflexivity].
  apply keyed; [|  |exact K2].
  - intros [i p] [j q] J1 J2 Ei. cbn in Ei. subst j. f_equal. eapply nodup_key; eauto.
  - intros x J. apply S2 in J as [J|J]; [|exact J]. apply S1 in J. unfold sh in J. apply in_flat_map in J as (l & _ & J).
    assert (SP : forall i, In x (shared_point vm' i) -> In x vm').
    { intros i Q. unfold shared_point in Q. destruct (find_key i vm') as [p|] eqn:F; [|contradiction]. apply find_key_some in F. destruct Q as [<-|[]]. exact F. }
    apply in_app_or in J as [J|J]; eauto.
Qed.
(** There is exactly one point for each lanelet of the route that has a relation; it has the id and the lane of the lanelet and is marked if
    the lanelet is on the shortest path. *)
Theorem C105_points : exists m, route_debug_map idof r path next = Some m /\ NoDup (map fst (d_points m)) /\
  forall i p, In (i, p) (d_points m) <-> exists lane, on_edge idof r i lane /\ rp_id p = i /\ rp_lane p = Some lane /\
    (rp_short p = true <-> exists e, In e path /\ idof e = i).
Proof.
  destruct route_run as (m & em & E & _ & N & I & _). exists m. split; [exact E|]. split; [exact N|]. intros i p. rewrite I, in_map_iff.
  assert (X : forall j, existsb (fun e => j =? idof e) path = true <-> exists e, In e path /\ idof e = j).
  { intros j. rewrite existsb_exists. split; intros (e & J & Q); exists e; split; auto; [apply Z.eqb_eq in Q; auto|apply Z.eqb_eq; auto]. }
  split.
  - intros ([j q] & Q & J). apply seen_exact in J as (lane & O & ->); auto. unfold marked in Q. cbn in Q. injection Q as <- <-. exists lane. cbn. rewrite X. tauto.
  - intros (lane & O & P1 & P2 & P3). exists (i, RPoint i (Some lane) false). split; [|apply seen_exact; eauto]. unfold marked. cbn. f_equal.
    destruct p as [a b c]. cbn in *. subst a b. f_equal. rewrite <- X in P3. destruct c, (existsb (fun e => i =? idof e) path); tauto || intuition congruence.
Qed.
(** A line string of the map shows all relations between its lanelets: in its direction as relation_1, relation_2, ... and against it as
    relation_reverse_1, ..., in the order of the edges. *)
Theorem C105_line_partial : exists m, route_debug_map idof r path next = Some m /\
  forall i l, In (i, l) (d_lines m) -> (exists lane, on_edge idof r (rl_front l) lane) /\ (exists lane, on_edge idof r (rl_back l) lane) /\
    attributes false l = relations_between idof r (rl_front l) (rl_back l) /\
    attributes true l = (if rl_front l =? rl_back l then [] else relations_between idof r (rl_back l) (rl_front l)) /\ numbered false l /\ numbered true l.
Proof.
  destruct route_run as (m & em & E & H & _ & _ & L). exists m. split; [exact E|]. intros i l J. rewrite L in J.
  destruct (keep_first_facts (map (fun l => (0, l)) (map snd em))) as (_ & S & _). apply S in J. rewrite map_map in J. apply in_map_iff in J as ([k l'] & Q & J).
  injection Q as <- <-. destruct (dr_lines _ _ _ _ H _ _ J) as ((_ & A1 & A2 & N1 & N2) & F & B). rewrite !route_rels in A1, A2 by assumption.
  assert (X : forall j, In j (map fst (seen idof r (route_edges r))) -> exists lane, on_edge idof r j lane).
  { intros j Q. apply in_map_iff in Q as ([j' q] & <- & Q). apply seen_exact in Q as (lane & O & _); eauto. }
  auto 10.
Qed.
(** Finding: the line strings of the map have no id, so the map keeps one of them, however many relations the route has. *)
Theorem C105_lines_refuted : exists m, route_debug_map idof r path next = Some m /\
  (g_edges (r_graph r) <> [] -> exists l, d_lines m = [(0, l)]) /\ (g_edges (r_graph r) = [] -> d_lines m = []).
Proof.
  destruct route_run as (m & em & E & H & _ & _ & L). exists m. split; [exact E|]. rewrite L. clear L.
  assert (G : forall (ls : list rline) l, keep_first (map (fun l => (0, l)) (l :: ls)) = [(0, l)]).
  { intros ls l. unfold keep_first. cbn [map fold_left]. unfold put at 2. cbn. induction ls as [|l' ls IH]; [reflexivity|]. cbn [map fold_left]. exact IH. }
  split.
  - intros NE. destruct (g_edges (r_graph r)) as [|e es] eqn:Eg; [contradiction|].
    assert (Je : In e (g_edges (r_graph r))) by (rewrite Eg; left; reflexivity). destruct (edge_ends r ok e Je) as (x & y & X & Y).
    assert (K := dr_all _ _ _ _ H e x y (proj2 (route_edges_in r ok e) Je) X Y). cbn [snd] in K. destruct em as [|[k l] em]; [contradiction|]. exists l. apply G.
  - intros E0. destruct em as [|[k l] em]; [reflexivity|]. exfalso. destruct (dr_lines _ _ _ _ H k l (or_introl eq_refl)) as (_ & F & _).
    unfold seen, route_edges in F. rewrite E0 in F. apply in_map_iff in F as (z & _ & F). apply (proj1 (proj2 (keep_first_facts _))) in F. apply in_flat_map in F as (e & F & _).
    apply in_flat_map in F as (v & _ & []).
Qed.
End Route.
Print Assumptions C105_points. Print Assumptions C105_line_partial. Print Assumptions C105_lines_refuted.

(** A route 1 - 2 - 3 with a lane change between 2 and 5 *)
Definition route_ops : list (gop ZCost) :=
  [OpVertex (lane 1); OpVertex (lane 2); OpVertex (lane 3); OpVertex (lane 5);
   OpEdge (lane 1) (lane 2) (zinfo 5 Successor); OpEdge (lane 2) (lane 3) (zinfo 5 Successor); OpEdge (lane 5) (lane 2) (zinfo 2 RLeft);
   OpEdge (lane 2) (lane 5) (zinfo 2 RRight)].
Definition ex_route : route ZCost := Route (gbuild 1 route_ops) [0%N; 0%N; 0%N; 1%N] [[]; []; []; []] 2 0.
Example C105_nonvacuous : route_ok ex_route /\ own_ids data_id ex_route /\ (forall e, In e [lane 1; lane 2; lane 3] -> exists l, on_edge data_id ex_route (data_id e) l) /\
  exists m, route_debug_map data_id ex_route [lane 1; lane 2; lane 3] 100 = Some m /\
    d_points m = [(1, RPoint 1 (Some 0%N) true); (2, RPoint 2 (Some 0%N) true); (3, RPoint 3 (Some 0%N) true); (5, RPoint 5 (Some 1%N) false)] /\
    length (d_lines m) = 1%nat.
Proof.
  assert (V : forall v x, vertex_at ex_route v = Some x -> (v = 0%nat /\ x = (lane 1, 0%N)) \/ (v = 1%nat /\ x = (lane 2, 0%N)) \/ (v = 2%nat /\ x = (lane 3, 0%N)) \/ (v = 3%nat /\ x = (lane 5, 1%N))).
  { intros v x H. do 4 (destruct v as [|v]; [vm_compute in H; injection H as <-; vm_compute; auto 10|]). destruct v; discriminate. }
  split; [|split; [|split]].
  - split; [reflexivity|]. intros e J. vm_compute in J. decompose [or] J; subst; try contradiction; cbn; lia.
  - split.
    + intros v x H. apply V in H. decompose [or and] H; subst; discriminate.
    + intros v w x y Hv Hw E. apply V in Hv, Hw. decompose [or and] Hv; decompose [or and] Hw; subst; try reflexivity; discriminate.
  - intros e [<-|[<-|[<-|[]]]]; exists 0%N.
    + exists (Edge 0 1 (zinfo 5 Successor)), 0%nat, (lane 1). vm_compute. auto 10.
    + exists (Edge 0 1 (zinfo 5 Successor)), 1%nat, (lane 2). vm_compute. auto 10.
    + exists (Edge 1 2 (zinfo 5 Successor)), 2%nat, (lane 3). vm_compute. auto 10.
  - eexists. split; [reflexivity|]. vm_compute. auto.
Qed.
(** Finding: a lanelet of the path without relations, as in a route of one lanelet, is represented by a new point without lane id. *)
Theorem C105_single_refuted {A : CostAlg} (idof : elem -> Z) (r : route A) e next : g_edges (r_graph r) = [] -> idof e < next ->
  exists m, route_debug_map idof r [e] next = Some m /\ d_points m = [(next, RPoint 0 None true)] /\ ~ In (idof e) (map fst (d_points m)).
Proof.
  intros E L. unfold route_debug_map, route_edges. rewrite E.
  assert (F : flat_map (fun v => filter (fun e0 : edge A => Nat.eqb (e_src e0) v) []) (seq 0 (length (g_verts (r_graph r)))) = []).
  { generalize 0%nat as s. induction (length (g_verts (r_graph r))) as [|k IH]; intros s; [reflexivity|]. cbn. apply IH. }
  rewrite F. cbn [add_relations]. eexists. split; [reflexivity|]. cbn [fold_left map flat_map]. unfold mark, put. cbn. rewrite Z.eqb_refl. cbn.
  split; [reflexivity|]. intros [J|[]]. lia.
Qed.
Print Assumptions C105_single_refuted.
Example C105_single_nonvacuous : exists m, route_debug_map data_id (Route (gbuild (A := ZCost) 1 [OpVertex (lane 1)]) [0%N] [[]] 1 0) [lane 1] 100 = Some m /\
  d_points m = [(100, RPoint 0 None true)].
Proof. eexists. split; reflexivity. Qed.
