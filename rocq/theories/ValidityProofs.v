From Coq Require Import NArith List Bool Arith Lia Relations.
From Verif Require Import CostAlg GraphModel GraphSpec GraphProofs GraphProofs2 TrafficModel BuilderModel BuilderSpec BuilderProofs ValidityModel ValiditySpec.
Import ListNotations.
Local Open Scope nat_scope.

Lemma relation_eqb_iff r r' : relation_eqb r r' = true <-> r = r'.
Proof. destruct r, r'; simpl; split; intros; try discriminate; auto. Qed.

Section Graph.
Context {A : CostAlg}.
Variable g : graph A.
Hypothesis Hg : graph_ok g.
Hypothesis Hc : canonical g.
Hypothesis Hl : lanes_only g.
Variable k : N.
Hypothesis Hk : (k < g_numcosts g)%N.

Definition kind (s : side) (n : view_name) (r : relation) : Prop :=
  (n = change_view s /\ r = changing s) \/ (n = adjacent_view s /\ r = adjacent s).
Definition kind_edges (r : relation) (a : elem) : list (edge A) :=
  filter (fun e => is_elem (vertex_elem g (e_src e)) a && N.eqb (ei_costid (e_info e)) k &&
                   relation_eqb (ei_rel (e_info e)) r) (g_edges g).
Lemma is_elem_iff o a : is_elem o a = true <-> o = Some a.
Proof.
  destruct o as [b|]; simpl; [|split; discriminate]. rewrite elem_eqb_eq. split; congruence.
Qed.
Lemma in_kind r a e : In e (kind_edges r a) <-> In e (g_edges g) /\ vertex_elem g (e_src e) = Some a /\
  ei_costid (e_info e) = k /\ ei_rel (e_info e) = r.
Proof. unfold kind_edges. rewrite filter_In, !andb_true_iff, is_elem_iff, N.eqb_eq, relation_eqb_iff. tauto. Qed.
Lemma in_side s a e : In e (side_edges g s k a) <-> In e (kind_edges (changing s) a) \/ In e (kind_edges (adjacent s) a).
Proof.
  rewrite !in_kind. unfold side_edges. rewrite filter_In, !andb_true_iff, orb_true_iff, is_elem_iff, N.eqb_eq, !relation_eqb_iff. tauto.
Qed.
Lemma side_length s a : length (side_edges g s k a) = length (kind_edges (changing s) a) + length (kind_edges (adjacent s) a).
Proof.
  unfold side_edges, kind_edges. induction (g_edges g) as [|e l IH]; simpl; auto.
  destruct (is_elem _ _), (N.eqb _ _); simpl; auto.
  destruct (relation_eqb (ei_rel (e_info e)) (changing s)) eqn:E1, (relation_eqb (ei_rel (e_info e)) (adjacent s)) eqn:E2; simpl; try (clear - IH; lia).
  apply relation_eqb_iff in E1, E2. rewrite E1 in E2. destruct s; discriminate.
Qed.
Lemma kind_view s n r (i : einfo A) : kind s n r -> edge_passes k (view_mask n) i = true <-> ei_costid i = k /\ ei_rel i = r.
Proof.
  intros Hkind. rewrite view_exact.
  - destruct Hkind as [[-> ->]|[-> ->]]; destruct s; simpl; intuition.
  - destruct Hkind as [[-> ->]|[-> ->]]; destruct s; discriminate.
Qed.
Lemma kind_out s n r a v : kind s n r -> get_vertex g a = Some v ->
  out_edges (GView g k (view_mask n)) v = kind_edges r a.
Proof.
  intros Hkind Hv. unfold out_edges, kind_edges. cbn [v_graph v_costid v_mask]. apply filter_ext_in. intros e He.
  apply eq_true_iff_eq. rewrite !andb_true_iff, (kind_view s n r _ Hkind), Nat.eqb_eq, is_elem_iff, N.eqb_eq, relation_eqb_iff.
  destruct (go_lookup _ Hg _ _ Hv) as [Hve _]. split.
  - intros [-> [H1 H2]]. auto.
  - intros [[Hs H1] H2]. apply (src_vertex g Hg Hc) in Hs; auto. split; [congruence|auto].
Qed.
Lemma kind_nil r a : get_vertex g a = None -> kind_edges r a = [].
Proof.
  intros Hv. destruct (kind_edges r a) as [|e l] eqn:E; auto.
  assert (He : In e (kind_edges r a)) by (rewrite E; simpl; auto). apply in_kind in He as (H1 & H2 & _).
  apply (src_vertex g Hg Hc) in H2; auto. congruence.
Qed.
Lemma kind_rel s n r a e : kind s n r -> In e (kind_edges r a) -> In e (side_edges g s k a).
Proof. intros [[_ ->]|[_ ->]] H; apply in_side; auto. Qed.
Lemma kind_tgt s n r a e : kind s n r -> In e (kind_edges r a) -> exists d i, vertex_elem g (e_tgt e) = Some (ELanelet d i).
Proof.
  intros Hkind He. apply in_kind in He as (H1 & _ & _ & H2).
  destruct (go_edges _ Hg _ H1) as (_ & Ht & _). destruct (vertex_elem g (e_tgt e)) as [b|] eqn:Eb.
  - assert (Hb : is_lanelet b = true).
    { apply (Hl e H1) in Eb; auto. exists s. destruct Hkind as [[_ ->]|[_ ->]]; auto. }
    destruct b; [eauto|discriminate].
  - apply nth_error_None in Eb. clear - Eb Ht. lia.
Qed.
Lemma nb_kind s n r a : kind s n r -> nb g n k a = match kind_edges r a with [] => None | e :: _ => vertex_elem g (e_tgt e) end.
Proof.
  intros Hkind. unfold nb, neighbour_query. destruct (get_vertex g a) as [v|] eqn:Ev; [|rewrite kind_nil; auto].
  unfold get_filtered. destruct (N.leb_spec (g_numcosts g) k); [lia|]. unfold neighbouring_lanelet, neighbouring.
  rewrite (kind_out s n r a v Hkind Ev). cbn [v_graph].
  destruct (kind_edges r a) as [|e l] eqn:E; auto.
  destruct (kind_tgt s n r a e Hkind) as (d & i & ->); [rewrite E; simpl; auto|auto].
Qed.
Lemma nb_some s n r a b : kind s n r -> nb g n k a = Some b -> exists e, In e (kind_edges r a) /\ leads g e b.
Proof.
  intros Hkind. rewrite (nb_kind s n r a Hkind). destruct (kind_edges r a) as [|e l] eqn:E; [discriminate|].
  intros H. exists e. split; simpl; auto.
Qed.
Lemma nb_none s n r a : kind s n r -> nb g n k a = None -> kind_edges r a = [].
Proof.
  intros Hkind. rewrite (nb_kind s n r a Hkind). destruct (kind_edges r a) as [|e l] eqn:E; auto.
  destruct (kind_tgt s n r a e Hkind) as (d & i & ->); [rewrite E; simpl; auto|discriminate].
Qed.
Lemma change_kind s : kind s (change_view s) (changing s).
Proof. left. auto. Qed.
Lemma adjacent_kind s : kind s (adjacent_view s) (adjacent s).
Proof. right. auto. Qed.
Lemma kinds_nil s a : kind_edges (changing s) a = [] -> kind_edges (adjacent s) a = [] -> side_edges g s k a = [].
Proof.
  intros H1 H2. pose proof (side_length s a) as H. rewrite H1, H2 in H. destruct (side_edges g s k a); [auto|discriminate].
Qed.
Lemma nb_step s n r a b : kind s n r -> nb g n k a = Some b -> step_aside g s k a b.
Proof.
  intros Hkind H. apply (nb_some s n r) in H as (e & He & Hb); auto. exists e. split; auto. eapply kind_rel; eauto.
Qed.

(** * Walking to the side *)
Lemma last_cons {T} (x : T) l d : List.last (x :: l) d = List.last l x.
Proof. revert x d. induction l as [|y l IH]; intros x d; [auto|]. change (List.last (y :: l) d = List.last (y :: l) x). rewrite !IH. auto. Qed.
Lemma walk_chain s n r : kind s n r -> forall a l, neighbour_chain (nb g n k) a l -> forall rest,
  lane_walk g s k (List.last l a) rest -> lane_walk g s k a (map (fun x => (x, r)) l ++ rest).
Proof.
  intros Hkind a l Hch. induction Hch as [a H|a b l H Hch IH]; intros rest Hw; [exact Hw|].
  rewrite last_cons in Hw. apply IH in Hw. apply (nb_some s n r) in H as (e & He & Hb); auto.
  simpl. assert (Hr : ei_rel (e_info e) = r) by (apply in_kind in He; apply He). rewrite <- Hr at 1.
  eapply lw_more; eauto. eapply kind_rel; eauto.
Qed.
Lemma relations_sound s inner fuel : forall a l, relations_from g s k inner fuel a = Ret (Some l) -> lane_walk g s k a l.
Proof.
  induction fuel as [|f IH]; intros a l H; [discriminate|]. cbn [relations_from] in H.
  rewrite !(nue_eq g) in H by auto.
  destruct (until_end (nb g (change_view s) k) inner a) as [l1|] eqn:E1; [|discriminate]. rewrite (nue_eq g) in H by auto.
  destruct (until_end (nb g (adjacent_view s) k) inner (List.last l1 a)) as [l2|] eqn:E2; [|discriminate].
  apply until_end_steps in E1 as [E1 _]. apply until_end_steps in E2 as [E2 _].
  assert (Hend : l1 = [] -> l2 = [] -> side_edges g s k a = []).
  { intros -> ->. simpl in E2. inversion E1 as [? N1|]; subst. inversion E2 as [? N2|]; subst.
    apply kinds_nil; eapply nb_none; eauto using change_kind, adjacent_kind. }
  assert (Hgo : match relations_from g s k inner f (List.last l2 (List.last l1 a)) with
                | Ret (Some rest) => Ret (Some (map (fun x => (x, changing s)) l1 ++ map (fun x => (x, adjacent s)) l2 ++ rest))
                | Ret None => Ret None
                | Throws => Throws end = Ret (Some l) -> lane_walk g s k a l).
  { destruct (relations_from g s k inner f (List.last l2 (List.last l1 a))) as [[rest|]|] eqn:Er; try discriminate.
    intros X. injection X as <-. apply IH in Er.
    apply (walk_chain s _ _ (change_kind s)); auto. apply (walk_chain s _ _ (adjacent_kind s)); auto. }
  destruct l1, l2; auto. injection H as <-. apply lw_end. auto.
Qed.
(** The chain of one kind is the beginning of the walk. *)
Lemma walk_split s n r : kind s n r -> single_sided g s k -> forall a l, lane_walk g s k a l ->
  exists l1 l2, neighbour_chain (nb g n k) a l1 /\ l = map (fun x => (x, r)) l1 ++ l2 /\ lane_walk g s k (List.last l1 a) l2.
Proof.
  intros Hkind Hs a l Hw. induction Hw as [a H|a b e l He Hb Hw IH].
  - exists [], []. split; [|split; [auto|constructor; auto]]. constructor. rewrite (nb_kind s n r a Hkind).
    destruct (kind_edges r a) as [|e0 l0] eqn:E; auto. exfalso.
    assert (Hin : In e0 (side_edges g s k a)) by (eapply kind_rel; [eauto|rewrite E; simpl; auto]). rewrite H in Hin. destruct Hin.
  - assert (Hone : side_edges g s k a = [e]).
    { specialize (Hs a). destruct (side_edges g s k a) as [|x [|y l']]; [destruct He|destruct He as [->|[]]; auto|simpl in Hs; lia]. }
    destruct (nb g n k a) as [b'|] eqn:En.
    + apply (nb_some s n r) in En as Hnb; auto. destruct Hnb as (e' & He' & Hb').
      assert (e' = e). { eapply kind_rel in He' as H1; eauto. rewrite Hone in H1. destruct H1 as [H1|[]]. auto. } subst e'.
      assert (b' = b) by (unfold leads in *; congruence). subst b'.
      destruct IH as (l1 & l2 & H1 & -> & H3). exists (b :: l1), l2. split; [econstructor; eauto|]. split.
      * simpl. do 2 f_equal. apply in_kind in He'. apply He'.
      * rewrite last_cons. auto.
    + exists [], ((b, ei_rel (e_info e)) :: l). split; [constructor; auto|]. split; auto. simpl. econstructor; eauto.
Qed.
Lemma walk_nil s a l : lane_walk g s k a l -> side_edges g s k a = [] -> l = [].
Proof. intros H He. inversion H as [|? ? e ? Hin]; subst; auto. rewrite He in Hin. destruct Hin. Qed.
Lemma relations_complete s : single_sided g s k -> forall inner fuel a l, lane_walk g s k a l -> length l < inner -> length l < fuel ->
  relations_from g s k inner fuel a = Ret (Some l).
Proof.
  intros Hs inner. induction fuel as [|f IH]; intros a l Hw Hi Hf; [lia|]. cbn [relations_from].
  rewrite !(nue_eq g) by auto.
  destruct (walk_split s _ _ (change_kind s) Hs a l Hw) as (l1 & m & C1 & -> & Hw1). rewrite app_length, map_length in *.
  rewrite (proj2 (until_end_steps (nb g (change_view s) k) inner a l1)) by (split; [auto|lia]).
  rewrite (nue_eq g) by auto.
  destruct (walk_split s _ _ (adjacent_kind s) Hs _ _ Hw1) as (l2 & m' & C2 & -> & Hw2). rewrite app_length, map_length in *.
  rewrite (proj2 (until_end_steps (nb g (adjacent_view s) k) inner (List.last l1 a) l2)) by (split; [auto|lia]).
  assert (Hend : l1 = [] -> l2 = [] -> m' = []).
  { intros -> ->. simpl in *. inversion C1 as [? N1|]; subst. inversion C2 as [? N2|]; subst.
    apply (walk_nil s a); auto. apply kinds_nil; eapply nb_none; eauto using change_kind, adjacent_kind. }
  destruct l1 as [|x l1].
  - destruct l2 as [|y l2]; [rewrite Hend by auto; auto|]. rewrite (IH _ m'); auto; simpl in *; lia.
  - rewrite (IH _ m'); auto; simpl in *; lia.
Qed.

(** * Rings *)
Notation ct s := (clos_trans elem (step_aside g s k)).
Lemma reach_ct s n r a b : kind s n r -> neighbour_reach (nb g n k) a b -> ct s a b.
Proof.
  intros Hkind H. induction H as [a b H|a b c H _ IH].
  - apply t_step. eapply nb_step; eauto.
  - eapply t_trans; [|exact IH]. apply t_step. eapply nb_step; eauto.
Qed.
Lemma chain_last s n r a l : kind s n r -> neighbour_chain (nb g n k) a l -> l <> [] -> ct s a (List.last l a).
Proof.
  intros Hkind Hch. induction Hch as [a H|a b l H Hch IH]; intros Hne; [congruence|]. rewrite last_cons.
  assert (Hs : ct s a b) by (apply t_step; eapply nb_step; eauto).
  destruct l as [|c l]; [exact Hs|]. eapply t_trans; [exact Hs|]. apply IH. discriminate.
Qed.
Lemma ct_known s a b : ct s a b -> In b (g_verts g).
Proof.
  intros H. induction H as [a b (e & _ & H)|a b c _ _ _ IH]; auto. eapply nth_error_In; eauto.
Qed.
Lemma chain_total s n r a : kind s n r -> no_ring g s k -> exists l, neighbour_chain (nb g n k) a l /\ length l <= length (g_verts g).
Proof.
  intros Hkind Hr. apply acyclic_terminates; [apply nb_known|]. intros x H. eapply reach_ct in H; eauto. eapply Hr; eauto.
Qed.
Lemma relations_total_from s inner : no_ring g s k -> length (g_verts g) < inner -> forall fuel vis a,
  length (g_verts g) < fuel + length vis -> NoDup vis -> incl vis (g_verts g) -> (forall x, In x vis -> x = a \/ ct s x a) ->
  exists l, relations_from g s k inner fuel a = Ret (Some l).
Proof.
  intros Hr Hi. induction fuel as [|f IH]; intros vis a Hlen Hnd Hin Hvis.
  - pose proof (NoDup_incl_length Hnd Hin). lia.
  - cbn [relations_from]. rewrite !(nue_eq g) by auto.
    destruct (chain_total s _ _ a (change_kind s) Hr) as (l1 & C1 & Hl1).
    rewrite (proj2 (until_end_steps (nb g (change_view s) k) inner a l1)) by (split; [auto|lia]). rewrite (nue_eq g) by auto.
    destruct (chain_total s _ _ (List.last l1 a) (adjacent_kind s) Hr) as (l2 & C2 & Hl2).
    rewrite (proj2 (until_end_steps (nb g (adjacent_view s) k) inner (List.last l1 a) l2)) by (split; [auto|lia]).
    set (b := List.last l2 (List.last l1 a)).
    assert (Hb : l1 <> [] \/ l2 <> [] -> ct s a b).
    { unfold b. intros Hne. destruct l1 as [|x l1].
      - destruct Hne as [Hne|Hne]; [congruence|]. simpl in *. eapply chain_last; eauto using adjacent_kind.
      - assert (H1 : ct s a (List.last (x :: l1) a)) by (eapply chain_last; eauto using change_kind; discriminate).
        destruct l2 as [|y l2]; [exact H1|]. eapply t_trans; [exact H1|].
        eapply chain_last; eauto using adjacent_kind. discriminate. }
    assert (Hgo : l1 <> [] \/ l2 <> [] -> exists l, relations_from g s k inner f b = Ret (Some l)).
    { intros Hne. specialize (Hb Hne). assert (Hnb : ~ In b vis).
      { intros Hbv. destruct (Hvis b Hbv) as [Heq|Hc']; [rewrite Heq in Hb; apply (Hr a Hb)|]. apply (Hr a). eapply t_trans; eauto. }
      apply (IH (b :: vis)).
      - simpl. lia.
      - constructor; auto.
      - intros x [<-|Hx]; [eapply ct_known; eauto|auto].
      - intros x [<-|Hx]; auto. right. destruct (Hvis x Hx) as [->|Hx']; [auto|eapply t_trans; eauto]. }
    destruct l1 as [|x l1].
    + destruct l2 as [|y l2]; [eauto|]. destruct Hgo as [l ->]; [right; discriminate|]. eauto.
    + destruct Hgo as [l ->]; [left; discriminate|]. eauto.
Qed.
Lemma relations_total s a fuel : no_ring g s k -> length (g_verts g) < fuel -> exists l, relations g s a k fuel = Ret (Some l).
Proof.
  intros Hr Hf. unfold relations. apply (relations_total_from s fuel Hr Hf fuel [] a); [simpl; lia|constructor|intros x []|intros x []].
Qed.
Lemma walk_reach s a l : lane_walk g s k a l -> forall b, In b (map fst l) -> ct s a b.
Proof.
  intros Hw. induction Hw as [a H|a b e l He Hb Hw IH]; intros c Hc'; [destruct Hc'|].
  assert (Hs : ct s a b) by (apply t_step; exists e; auto). destruct Hc' as [<-|Hc']; [auto|]. eapply t_trans; eauto.
Qed.
Lemma walk_nodup s a l : no_ring g s k -> lane_walk g s k a l -> NoDup (a :: map fst l).
Proof.
  intros Hr Hw. induction Hw as [a H|a b e l He Hb Hw IH]; [constructor; [intros []|constructor]|].
  constructor; [|exact IH]. intros Hin. apply (Hr a). eapply walk_reach; [|exact Hin]. econstructor; eauto.
Qed.
(** The first lanelet of the walk. *)
Lemma relations_head s inner fuel a l : relations_from g s k inner fuel a = Ret (Some l) ->
  hd_error (map fst l) = match kind_edges (changing s) a with e :: _ => vertex_elem g (e_tgt e)
      | [] => match kind_edges (adjacent s) a with e :: _ => vertex_elem g (e_tgt e) | [] => None end end.
Proof.
  destruct fuel as [|f]; [discriminate|]. cbn [relations_from]. intros H. rewrite !(nue_eq g) in H by auto.
  destruct (until_end (nb g (change_view s) k) inner a) as [l1|] eqn:E1; [|discriminate]. rewrite (nue_eq g) in H by auto.
  destruct (until_end (nb g (adjacent_view s) k) inner (List.last l1 a)) as [l2|] eqn:E2; [|discriminate].
  apply until_end_steps in E1 as [E1 _]. apply until_end_steps in E2 as [E2 _].
  pose proof (nb_kind s _ _ a (change_kind s)) as N1. pose proof (nb_kind s _ _ a (adjacent_kind s)) as N2.
  inversion E1 as [? H1|? x ? H1 H1']; subst.
  - apply (nb_none s _ _ _ (change_kind s)) in H1. rewrite H1. simpl in *.
    inversion E2 as [? H2|? y ? H2 H2']; subst.
    + apply (nb_none s _ _ _ (adjacent_kind s)) in H2. rewrite H2. injection H as <-. auto.
    + rewrite H2 in N2. destruct (kind_edges (adjacent s) a); [discriminate|]. rewrite <- N2.
      destruct (relations_from _ _ _ _ _ _) as [[rest|]|]; try discriminate. injection H as <-. auto.
  - rewrite H1 in N1. destruct (kind_edges (changing s) a); [discriminate|]. rewrite <- N1.
    destruct (relations_from _ _ _ _ _ _) as [[rest|]|]; try discriminate. injection H as <-. auto.
Qed.
End Graph.
