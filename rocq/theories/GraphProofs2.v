(** More facts about the graph container: direct neighbours and chains of neighbours. *)
From Coq Require Import NArith List Bool Arith Lia ZifyBool ZifyNat.
From Verif Require Import CostAlg GraphModel GraphSpec GraphProofs.
Import ListNotations.

Section Proofs.
Context {A : CostAlg}.

(** * Edges end at vertices found by the lookup *)
Definition canonical (g : graph A) : Prop := forall e, In e (g_edges g) ->
  (exists a, get_vertex g a = Some (e_src e)) /\ (exists b, get_vertex g b = Some (e_tgt e)).

Lemma get_vertex_mono (g : graph A) a x v : get_vertex g x = Some v -> get_vertex (add_vertex g a) x = Some v.
Proof.
  unfold get_vertex, add_vertex. simpl. destruct (assoc a (g_lookup g)); auto.
  intros H. rewrite assoc_app, H. auto.
Qed.

Lemma gstep_canonical g o : canonical g -> canonical (gstep g o).
Proof.
  intros H. destruct o as [a|a b i]; simpl.
  - intros e He. simpl in He. destruct (H e He) as [[x Hx] [y Hy]].
    split; eexists; eapply get_vertex_mono; eauto.
  - unfold add_edge. destruct (get_vertex g a) as [u|] eqn:Ea; [|auto].
    destruct (get_vertex g b) as [v|] eqn:Eb; [|auto]. unfold add_edge_v.
    destruct (negb _); [auto|]. destruct (cltb _ _ _); [auto|]. simpl.
    intros e He. simpl in He. unfold get_vertex. simpl. apply in_app_or in He as [He|[<-|[]]].
    + apply H; auto.
    + simpl. eauto.
Qed.

Lemma gbuild_canonical n ops : canonical (gbuild n ops).
Proof.
  unfold gbuild. assert (H : canonical (empty_graph (A := A) n)) by (intros e []).
  revert H. generalize (empty_graph (A := A) n).
  induction ops as [|o ops IH]; intros g H; simpl; auto. apply IH, gstep_canonical, H.
Qed.

(** * following and previous *)
Section Graph.
Variable g : graph A.
Hypothesis Hg : graph_ok g.
Hypothesis Hc : canonical g.

Lemma src_vertex e a : In e (g_edges g) -> vertex_elem g (e_src e) = Some a -> get_vertex g a = Some (e_src e).
Proof.
  intros He Ha. destruct (Hc e He) as [[x Hx] _]. destruct (go_lookup _ Hg _ _ Hx) as [H _]. congruence.
Qed.
Lemma tgt_vertex e a : In e (g_edges g) -> vertex_elem g (e_tgt e) = Some a -> get_vertex g a = Some (e_tgt e).
Proof.
  intros He Ha. destruct (Hc e He) as [_ [x Hx]]. destruct (go_lookup _ Hg _ _ Hx) as [H _]. congruence.
Qed.
Lemma keep_lanelets_in l x : In x (keep_lanelets l) <-> In (Some x) l /\ is_lanelet x = true.
Proof.
  induction l as [|o l IH]; simpl; [tauto|].
  destruct o as [[d i|d]|]; simpl; rewrite IH; split.
  - intros [<-|[H1 H2]]; auto.
  - intros [[H|H] H2]; [left; congruence|auto].
  - intros [H1 H2]; auto.
  - intros [[H|H] H2]; [injection H as <-; discriminate|auto].
  - intros [H1 H2]; auto.
  - intros [[H|H] H2]; [discriminate|auto].
Qed.

Lemma out_edges_in (w : gview A) u e : In e (out_edges w u) <->
  In e (g_edges (v_graph w)) /\ e_src e = u /\ edge_passes (v_costid w) (v_mask w) (e_info e) = true.
Proof. unfold out_edges. rewrite filter_In, andb_true_iff, Nat.eqb_eq. tauto. Qed.
Lemma in_edges_in (w : gview A) u e : In e (in_edges w u) <->
  In e (g_edges (v_graph w)) /\ e_tgt e = u /\ edge_passes (v_costid w) (v_mask w) (e_info e) = true.
Proof. unfold in_edges. rewrite filter_In, andb_true_iff, Nat.eqb_eq. tauto. Qed.

Lemma all_edges_out (w : gview A) a x : v_graph w = g -> In (Some x) (all_edges_from g w a true) <->
  exists e, In e (g_edges g) /\ vertex_elem g (e_src e) = Some a /\ vertex_elem g (e_tgt e) = Some x /\
    edge_passes (v_costid w) (v_mask w) (e_info e) = true.
Proof.
  intros Hw. unfold all_edges_from. split.
  - destruct (get_vertex g a) as [v|] eqn:Ea; [|intros []]. rewrite in_map_iff.
    intros (e & He & Hin). apply out_edges_in in Hin as (H1 & <- & H3). rewrite Hw in H1.
    exists e. destruct (go_lookup _ Hg _ _ Ea) as [H _]. auto.
  - intros (e & H1 & H2 & H3 & H4). rewrite (src_vertex _ _ H1 H2). apply in_map_iff. exists e. split; auto.
    apply out_edges_in. rewrite Hw. auto.
Qed.
Lemma all_edges_in (w : gview A) a x : v_graph w = g -> In (Some x) (all_edges_from g w a false) <->
  exists e, In e (g_edges g) /\ vertex_elem g (e_src e) = Some x /\ vertex_elem g (e_tgt e) = Some a /\
    edge_passes (v_costid w) (v_mask w) (e_info e) = true.
Proof.
  intros Hw. unfold all_edges_from. split.
  - destruct (get_vertex g a) as [v|] eqn:Ea; [|intros []]. rewrite in_map_iff.
    intros (e & He & Hin). apply in_edges_in in Hin as (H1 & <- & H3). rewrite Hw in H1.
    exists e. destruct (go_lookup _ Hg _ _ Ea) as [H _]. auto.
  - intros (e & H1 & H2 & H3 & H4). rewrite (tgt_vertex _ _ H1 H3). apply in_map_iff. exists e. split; auto.
    apply in_edges_in. rewrite Hw. auto.
Qed.

Lemma get_filtered_some n costid w : get_filtered g n costid = Some w ->
  w = GView g costid (view_mask n) /\ (costid < g_numcosts g)%N.
Proof. unfold get_filtered. destruct (N.leb_spec (g_numcosts g) costid); [discriminate|]. intros [= <-]. auto. Qed.

Lemma view_edges n costid w u e : get_filtered g n costid = Some w -> n <> WithoutConflicting ->
  (In e (out_edges w u) <-> In e (g_edges g) /\ e_src e = u /\ ei_costid (e_info e) = costid /\
                           In (ei_rel (e_info e)) (advertised n)) /\
  (In e (in_edges w u) <-> In e (g_edges g) /\ e_tgt e = u /\ ei_costid (e_info e) = costid /\
                          In (ei_rel (e_info e)) (advertised n)).
Proof.
  intros Hf Hn. apply get_filtered_some in Hf as [-> _]. rewrite out_edges_in, in_edges_in. simpl.
  rewrite view_exact by auto. tauto.
Qed.

Lemma following_spec a lc : (0 < g_numcosts g)%N -> exists l l', following g a lc = Ret l /\ previous g a lc = Ret l' /\
  (forall x, In x l <-> is_lanelet x = true /\ next_lanelet g lc a x) /\
  (forall x, In x l' <-> is_lanelet x = true /\ next_lanelet g lc x a).
Proof.
  intros Hn. unfold following, previous.
  set (n := if lc then WithLaneChanges else WithoutLaneChanges).
  assert (Hnn : n <> WithoutConflicting) by (unfold n; destruct lc; discriminate).
  unfold get_filtered. destruct (N.leb_spec (g_numcosts g) 0); [lia|].
  eexists; eexists. split; [reflexivity|split; [reflexivity|]].
  assert (Hadv : forall r, In r (advertised n) <-> r = Successor \/ (lc = true /\ (r = RLeft \/ r = RRight))).
  { intros r. unfold n. destruct lc; simpl; intuition congruence. }
  split; intros x; rewrite keep_lanelets_in; unfold next_lanelet.
  - rewrite all_edges_out by reflexivity. simpl.
    split; [intros [(e & H1 & H2 & H3 & H4) H5]|intros [H5 (e & H1 & H2 & H3 & H4 & H6)]].
    + rewrite view_exact, Hadv in H4 by auto. split; auto. exists e. tauto.
    + split; auto. exists e. rewrite view_exact, Hadv by auto. tauto.
  - rewrite all_edges_in by reflexivity. simpl.
    split; [intros [(e & H1 & H2 & H3 & H4) H5]|intros [H5 (e & H1 & H2 & H3 & H4 & H6)]].
    + rewrite view_exact, Hadv in H4 by auto. split; auto. exists e. tauto.
    + split; auto. exists e. rewrite view_exact, Hadv by auto. tauto.
Qed.
End Graph.

(** * getUntilEnd *)
Section UntilEnd.
Context {T : Type} (next : T -> option T).

Local Notation steps := (neighbour_chain next).
Local Notation reach1 := (neighbour_reach next).

Lemma until_end_steps fuel : forall a l, until_end next fuel a = Some l <-> steps a l /\ length l < fuel.
Proof.
  induction fuel as [|k IH]; intros a l; simpl.
  - split; [discriminate|lia].
  - destruct (next a) as [b|] eqn:E.
    + destruct (until_end next k b) as [l'|] eqn:E'; simpl.
      * apply IH in E' as [H1 H2]. split.
        -- intros [= <-]. split; [econstructor; eauto|simpl; lia].
        -- intros [H _]. inversion H; subst; [congruence|]. rewrite E in H0. injection H0 as <-.
           f_equal. f_equal. clear - H1 H3. revert l0 H3. induction H1; intros l0 H3; inversion H3; subst; try congruence.
           rewrite H in H0. injection H0 as <-. f_equal; auto.
      * split; [discriminate|]. intros [H H']. inversion H; subst; [congruence|]. rewrite E in H0. injection H0 as <-.
        simpl in H'. assert (until_end next k b = Some l0) by (apply IH; split; [auto|lia]). congruence.
    + split.
      * intros [= <-]. split; [constructor; auto|simpl; lia].
      * intros [H _]. inversion H; subst; congruence.
Qed.

Lemma steps_det a l : steps a l -> forall l', steps a l' -> l = l'.
Proof.
  induction 1; intros l' H'; inversion H'; subst; try congruence.
  rewrite H in H1. injection H1 as <-. f_equal; auto.
Qed.

(** A chain that ends has no repetition: the end of the chain is determined by each of its members. *)
Lemma steps_suffix a l x : steps a l -> In x (a :: l) -> exists l', steps x l' /\ length l' <= length l /\ (x <> a \/ l' = l) /\ (In x l -> length l' < length l).
Proof.
  induction 1 as [a H|a b l H Hs IH]; intros Hx.
  - destruct Hx as [<-|[]]. exists []. split; [constructor; auto|split; [auto|split; [auto|intros []]]].
  - destruct Hx as [<-|Hx].
    + exists (b :: l). split; [econstructor; eauto|split; [auto|split; [auto|]]].
      intros Hin. exfalso. destruct (IH Hin) as (l' & H1 & H2 & _).
      assert (steps a (b :: l)) as H3 by (econstructor; eauto).
      rewrite (steps_det _ _ H1 _ H3) in H2. simpl in H2. lia.
    + destruct (IH Hx) as (l' & H1 & H2 & _). exists l'. split; [auto|]. simpl. split; [lia|split; [|intros; lia]].
      left. intros ->. assert (steps a (b :: l)) as H3 by (econstructor; eauto).
      rewrite (steps_det _ _ H1 _ H3) in H2. simpl in H2. lia.
Qed.

Lemma steps_nodup a l : steps a l -> NoDup (a :: l).
Proof.
  induction 1 as [a H|a b l H Hs IH]; [constructor; [intros []|constructor]|].
  constructor; auto. intros Hin.
  assert (steps a (b :: l)) as H3 by (econstructor; eauto).
  destruct (steps_suffix _ _ a H3 (or_introl eq_refl)) as (l' & H1 & _ & _ & H4).
  rewrite (steps_det _ _ H1 _ H3) in H4. specialize (H4 Hin). lia.
Qed.

(** If the chain never meets an element twice, it ends within the number of elements. *)
Lemma reach1_snoc a b c : reach1 a b -> next b = Some c -> reach1 a c.
Proof.
  induction 1 as [a b H|a b x H Hr IH]; intros Hc.
  - eapply nr_more; [eauto|apply nr_one; auto].
  - eapply nr_more; eauto.
Qed.

Lemma acyclic_terminates (univ : list T) :
  (forall a b, next a = Some b -> In b univ) -> (forall a, ~ reach1 a a) ->
  forall a, exists l, steps a l /\ length l <= length univ.
Proof.
  intros Hu Hac.
  (* follow at most k steps; the visited elements are different members of univ *)
  assert (H : forall k vis a, length univ < k + length vis -> NoDup vis -> incl vis univ ->
            (forall x, In x vis -> x = a \/ reach1 x a) ->
            exists l, steps a l /\ length l + length vis <= length univ).
  { induction k as [|k IH]; intros vis a Hlen Hnd Hin Hr.
    - pose proof (NoDup_incl_length Hnd Hin). lia.
    - destruct (next a) as [b|] eqn:E.
      + assert (Hnb : ~ In b vis).
        { intros Hb. destruct (Hr b Hb) as [->|Hb'].
          - apply (Hac a). constructor; auto.
          - apply (Hac b). eapply reach1_snoc; eauto. }
        destruct (IH (b :: vis) b) as (l & Hl & Hlen').
        * simpl. lia.
        * constructor; auto.
        * intros x [<-|Hx]; eauto.
        * intros x [<-|Hx]; auto. right. destruct (Hr x Hx) as [->|Hx']; [constructor; auto|].
          eapply reach1_snoc; eauto.
        * exists (b :: l). split; [econstructor; eauto|]. simpl in *. lia.
      + exists []. split; [constructor; auto|]. pose proof (NoDup_incl_length Hnd Hin). simpl. lia. }
  intros a. destruct (H (S (length univ)) [] a) as (l & Hl & Hlen).
  - simpl. lia.
  - constructor.
  - intros x [].
  - intros x [].
  - exists l. split; auto. simpl in Hlen. lia.
Qed.

Lemma cyclic_diverges a : reach1 a a -> forall fuel, until_end next fuel a = None.
Proof.
  intros Hr fuel. destruct (until_end next fuel a) as [l|] eqn:E; auto. exfalso.
  apply until_end_steps in E as [Hs _].
  assert (H : forall b, reach1 a b -> In b l).
  { intros b Hb. clear Hr. revert l Hs. induction Hb as [a b E|a b c E Hb IH]; intros l Hs.
    - inversion Hs; subst; [congruence|]. left. congruence.
    - inversion Hs; subst; [congruence|]. rewrite E in H. injection H as <-. right. auto. }
  apply steps_nodup in Hs. inversion Hs; subst. auto.
Qed.
End UntilEnd.

(** * left, right, lefts, rights *)
Section Neighbours.
Variable g : graph A.
Hypothesis Hg : graph_ok g.
Hypothesis Hc : canonical g.

(** The public query as a function: what it returns, nothing if it throws. *)
Definition nb (n : view_name) (costid : N) (x : elem) : option elem :=
  match neighbour_query n g x costid with Ret o => o | Throws => None end.

Lemma neighbour_query_some n costid a b : n <> WithoutConflicting ->
  neighbour_query n g a costid = Ret (Some b) ->
  is_lanelet b = true /\ exists e, In e (g_edges g) /\ vertex_elem g (e_src e) = Some a /\
     vertex_elem g (e_tgt e) = Some b /\ ei_costid (e_info e) = costid /\ In (ei_rel (e_info e)) (advertised n).
Proof.
  intros Hn. unfold neighbour_query. destruct (get_vertex g a) as [v|] eqn:Ea; [|discriminate].
  destruct (get_filtered g n costid) as [w|] eqn:Ew; [|discriminate].
  apply get_filtered_some in Ew as [-> Hid].
  unfold neighbouring_lanelet, neighbouring. cbn [v_graph].
  destruct (out_edges (GView g costid (view_mask n)) v) as [|e l] eqn:Eo; [discriminate|].
  assert (He : In e (out_edges (GView g costid (view_mask n)) v)) by (rewrite Eo; left; auto).
  apply out_edges_in in He as (H1 & H2 & H3). cbn [v_graph v_costid v_mask] in *.
  destruct (vertex_elem g (e_tgt e)) as [[d i|d]|] eqn:Et; try discriminate.
  intros [= <-]. split; auto. exists e. apply view_exact in H3; auto.
  destruct (go_lookup _ Hg _ _ Ea) as [Hv _]. subst v. tauto.
Qed.

Lemma neighbour_query_none n costid a : n <> WithoutConflicting -> (costid < g_numcosts g)%N ->
  neighbour_query n g a costid = Ret None ->
  (forall e b, In e (g_edges g) -> vertex_elem g (e_src e) = Some a -> vertex_elem g (e_tgt e) = Some b ->
     ei_costid (e_info e) = costid -> In (ei_rel (e_info e)) (advertised n) -> is_lanelet b = true) ->
  ~ exists e, In e (g_edges g) /\ vertex_elem g (e_src e) = Some a /\ ei_costid (e_info e) = costid /\
     In (ei_rel (e_info e)) (advertised n).
Proof.
  intros Hn Hid Hq Hll (e & H1 & H2 & H3 & H4). unfold neighbour_query in Hq.
  rewrite (src_vertex g Hg Hc _ _ H1 H2) in Hq.
  unfold get_filtered in Hq. destruct (N.leb_spec (g_numcosts g) costid); [lia|].
  injection Hq as Hq. unfold neighbouring_lanelet, neighbouring in Hq. cbn [v_graph] in Hq.
  destruct (out_edges (GView g costid (view_mask n)) (e_src e)) as [|e' l] eqn:Eo.
  - assert (He : In e (out_edges (GView g costid (view_mask n)) (e_src e))).
    { apply out_edges_in. cbn [v_graph v_costid v_mask]. rewrite view_exact by auto. auto. }
    rewrite Eo in He. destruct He.
  - assert (He : In e' (out_edges (GView g costid (view_mask n)) (e_src e))) by (rewrite Eo; left; auto).
    apply out_edges_in in He as (G1 & G2 & G3). cbn [v_graph v_costid v_mask] in *.
    apply view_exact in G3 as [G3 G4]; auto.
    destruct (vertex_elem g (e_tgt e')) as [[d i|d]|] eqn:Et; try discriminate.
    + assert (is_lanelet (EArea d) = true) by (eapply (Hll e'); eauto; congruence). discriminate.
    + apply nth_error_None in Et. destruct (go_edges _ Hg _ G1) as (_ & Ht & _). lia.
Qed.

Lemma nue_eq n costid a fuel : (costid < g_numcosts g)%N ->
  neighbours_until_end n g a costid fuel = Ret (until_end (nb n costid) fuel a).
Proof.
  intros Hid. unfold neighbours_until_end.
  assert (Hf : get_filtered g n costid = Some (GView g costid (view_mask n))).
  { unfold get_filtered. destruct (N.leb_spec (g_numcosts g) costid); [lia|auto]. }
  assert (Hnb : forall x, nb n costid x = match get_vertex g x with None => None
             | Some v => neighbouring_lanelet (GView g costid (view_mask n)) v end).
  { intros x. unfold nb, neighbour_query. destruct (get_vertex g x); auto. rewrite Hf. auto. }
  destruct (get_vertex g a) as [v|] eqn:Ea.
  - rewrite Hf. f_equal. revert a v Ea. clear - Hnb.
    induction fuel as [|k IH]; intros a v Ea; simpl; auto. rewrite Hnb, Ea.
    destruct (neighbouring_lanelet _ v) as [x|]; auto.
    destruct (get_vertex g x) as [v'|] eqn:Ex; [rewrite (IH _ _ Ex); auto|].
    destruct k; simpl; auto. rewrite Ex, Hnb, Ex. auto.
  - destruct fuel; simpl; auto. rewrite Hnb, Ea. auto.
Qed.

Lemma nb_known n costid a b : nb n costid a = Some b -> In b (g_verts g).
Proof.
  unfold nb, neighbour_query. destruct (get_vertex g a) as [v|]; [|discriminate].
  destruct (get_filtered g n costid) as [w|] eqn:Ew; [|discriminate].
  apply get_filtered_some in Ew as [-> Hid].
  unfold neighbouring_lanelet, neighbouring. cbn [v_graph].
  destruct (out_edges _ v) as [|e l]; [discriminate|].
  destruct (vertex_elem g (e_tgt e)) as [[d i|d]|] eqn:Et; try discriminate.
  intros [= <-]. eapply nth_error_In; eauto.
Qed.

Lemma neighbours_spec n costid a fuel l : (costid < g_numcosts g)%N ->
  neighbours_until_end n g a costid fuel = Ret (Some l) -> neighbour_chain (nb n costid) a l /\ NoDup (a :: l).
Proof.
  intros Hid. rewrite nue_eq by auto. intros [= H]. apply until_end_steps in H as [H _].
  split; [auto|eapply steps_nodup; eauto].
Qed.

Lemma neighbours_terminate n costid a : (costid < g_numcosts g)%N ->
  (forall x, ~ neighbour_reach (nb n costid) x x) ->
  exists l, neighbours_until_end n g a costid (S (length (g_verts g))) = Ret (Some l) /\
            neighbour_chain (nb n costid) a l.
Proof.
  intros Hid Hac. destruct (acyclic_terminates (nb n costid) (g_verts g) (nb_known n costid) Hac a) as (l & Hl & Hlen).
  exists l. split; auto. rewrite nue_eq by auto. f_equal. apply until_end_steps. split; [auto|lia].
Qed.

Lemma neighbours_diverge n costid a : (costid < g_numcosts g)%N -> neighbour_reach (nb n costid) a a ->
  forall fuel, neighbours_until_end n g a costid fuel = Ret None.
Proof.
  intros Hid Hr fuel. rewrite nue_eq by auto. rewrite cyclic_diverges; auto.
Qed.

Lemma besides_spec costid a fuel r : (costid < g_numcosts g)%N ->
  besides g a costid fuel = Ret (Some r) ->
  exists ls rs, r = rev ls ++ a :: rs /\ neighbour_chain (nb VLeft costid) a ls /\ neighbour_chain (nb VRight costid) a rs.
Proof.
  intros Hid. unfold besides. rewrite !nue_eq by auto.
  destruct (until_end (nb VLeft costid) fuel a) as [ls|] eqn:E1; [|discriminate].
  destruct (until_end (nb VRight costid) fuel a) as [rs|] eqn:E2; [|discriminate].
  intros [= <-]. exists ls, rs. apply until_end_steps in E1 as [E1 _]. apply until_end_steps in E2 as [E2 _]. auto.
Qed.
End Neighbours.
End Proofs.
