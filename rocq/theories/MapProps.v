(** Properties C03 to C08 and C42 to C45 of lanelet maps. *)
From Coq Require Import ZArith List Bool Lia.
From Verif Require Import MapModel MapSpec MapProofs MapProofs2 MapProofs3.
Import ListNotations.
Open Scope Z_scope.

(** Two lanelets and an area that share a regulatory element, which in turn refers
    to them, to a line string of its own, to a point and to an expired lanelet. *)
Definition ex_heap : heap :=
  Heap [OPoint; OPoint; OPoint; OPoint;                             (* 0-3 *)
        OLine [0; 1]; OLine [2; 3];                                 (* 4, 5 *)
        OLanelet (4, false) (5, true) None [7];                     (* 6 *)
        OReg [ParLanelet (6, false); ParLanelet (8, true); ParPoint 0;
              ParLine (9, false); ParArea 10; ParPoly 11; ParLanelet (99, false)]; (* 7 *)
        OLanelet (5, true) (9, false) (Some (4, true)) [7];         (* 8 *)
        OLine [1; 2];                                               (* 9 *)
        OArea [(4, false); (9, false)] [[(5, true)]] [7];           (* 10 *)
        OPoly [0; 1; 2]]%nat (fun _ => false).

(** Checks a concrete heap. *)
Ltac check_heap :=
  let a := fresh "a" in let o := fresh "o" in
  unfold heap_ok, obj; intros a o;
  repeat first [solve [destruct a; discriminate] | destruct a as [|a];
    [solve [simpl; intros E; inversion E; subst; simpl; repeat split; intros; simpl in *;
     repeat match goal with
       | H : _ \/ _ |- _ => destruct H
       | H : False |- _ => destruct H
       | H : _ = _ |- _ => first [discriminate H | inversion H; subst; clear H]
       | H : In _ (_ :: _) |- _ => simpl in H
       | H : In _ [] |- _ => simpl in H
       | |- has_kind _ _ _ => eexists; split; reflexivity
       end]|]].

Lemma ex_heap_ok : heap_ok ex_heap.
Proof. check_heap. Qed.

(** Ids: the first lanelet, a point and a line string have preset ones. *)
Definition ex_ids (a : nat) : Z :=
  match a with 6%nat => 7 | 0%nat => 2000 | 4%nat => 2000 | _ => 0 end.

Definition ex_start : mstate := empty_map ex_ids 1000.

(** * C03 *)
Theorem C03_self_contained hp fuel ts ids next s :
  heap_ok hp -> (forall t, In t ts -> target_ok hp t) -> 0 < next ->
  add_all hp fuel ts (empty_map ids next) = Some s ->
  self_contained hp s /\
  (forall t, In t ts -> exists h, get (target_kind t) (m_ids s (target_addr t)) s = Some h).
Proof.
  intros HO HT P E.
  destruct (add_all_spec ids hp HO fuel ts _ s (fun _ => False) HT (wf_empty hp ids next P)
              (comp_empty hp ids next _) E) as (W & C & G).
  split; [apply (comp_self_contained ids); auto|].
  intros t Ht. destruct (G t Ht) as [N [h L]]. exists h. unfold get, inval.
  destruct (m_ids s (target_addr t) =? 0) eqn:Q; [apply Z.eqb_eq in Q; contradiction|auto].
Qed.
Print Assumptions C03_self_contained.

Definition ex_run : option mstate := add_all ex_heap 13 [TLanelet (6, true)]%nat ex_start.

Example C03_nonvacuous :
  exists s, ex_run = Some s /\
    used_ids s KLanelet = [7; 2003] /\ used_ids s KReg = [2002] /\
    used_ids s KLine = [1000; 2000; 2004] /\ used_ids s KPoint = [1001; 1002; 2001; 2000] /\
    used_ids s KArea = [2005] /\ used_ids s KPoly = [2006].
Proof. eexists. split; [vm_compute; reflexivity|]. vm_compute. auto 8. Qed.

(** * C04 *)
(** The depth of the recursion is bounded by the number of objects, in every state
    of the map (also one with colliding ids). *)
Theorem C04_add_terminates hp t s :
  heap_ok hp -> target_ok hp t -> 0 < m_next s ->
  exists s', forall fuel, (length (hp_objs hp) < fuel)%nat -> add hp fuel t s = Some s'.
Proof.
  intros HO T P. destruct (add_terminates hp t s HO T P) as [s' E]. exists s'.
  intros fuel L. replace fuel with ((fuel - S (length (hp_objs hp))) + S (length (hp_objs hp)))%nat by lia.
  induction (fuel - S (length (hp_objs hp)))%nat; simpl Nat.add; auto. apply add_more_fuel; auto.
Qed.
Print Assumptions C04_add_terminates.

Example C04_nonvacuous :
  target_ok ex_heap (TReg 7) /\ exists s, add ex_heap 13 (TReg 7) ex_start = Some s.
Proof. split; [eexists; split; reflexivity|]. eexists. vm_compute. reflexivity. Qed.

(** * C05 *)
Theorem C05_add_keeps hp fuel t s s' :
  add hp fuel t s = Some s' ->
  (forall k i h, get k i s = Some h -> get k i s' = Some h) /\
  (forall a, m_ids s a <> 0 -> m_ids s' a = m_ids s a).
Proof.
  intros E. assert (G := add_grows hp fuel t s s' E). split.
  - intros k i h. unfold get. destruct (i =? inval); auto. apply grows_lookup; auto.
  - intros a. apply grows_ids; auto.
Qed.
Print Assumptions C05_add_keeps.

Theorem C05_add_existing hp fuel t s h :
  get (target_kind t) (m_ids s (target_addr t)) s = Some h ->
  add hp (S fuel) t s = Some s.
Proof.
  unfold get. destruct (m_ids s (target_addr t) =? inval) eqn:Z0; [discriminate|]. intros L.
  assert (X : exists_in (target_kind t) (m_ids s (target_addr t)) s = true).
  { unfold exists_in. rewrite Z0, L. auto. }
  assert (B : begin_add (target_kind t) (target_addr t) s = None).
  { unfold begin_add. rewrite Z0, X. auto. }
  destruct t; unfold target_addr in B; simpl in B |- *;
    unfold add_point, add_line, add_poly, add_lanelet, add_area, add_reg, h_addr; rewrite B; auto.
Qed.
Print Assumptions C05_add_existing.

Example C05_nonvacuous :
  exists s, ex_run = Some s /\ get KLanelet 2003 s = Some (8, true)%nat /\
    add ex_heap 1 (TLanelet (8, false))%nat s = Some s /\
    add ex_heap 13 (TPoint 2)%nat ex_start <> Some ex_start.
Proof.
  eexists. split; [vm_compute; reflexivity|]. split; [reflexivity|]. split; [reflexivity|].
  intros H. apply (f_equal (fun o => match o with Some s => m_next s | None => 0 end)) in H.
  vm_compute in H. discriminate.
Qed.

(** * C06 *)
(** [s] is a map built by any sequence of calls. *)
Theorem C06_assigned_id_unused hp fuel ts ids next s fuel' t s' a b k :
  heap_ok hp -> (forall t, In t ts -> target_ok hp t) -> 0 < next ->
  add_all hp fuel ts (empty_map ids next) = Some s -> add hp fuel' t s = Some s' ->
  m_ids s a = 0 -> m_ids s' a <> 0 ->
  ~ In (m_ids s' a) (used_ids s k) /\
  (m_ids s b = 0 -> m_ids s' b = m_ids s' a -> b = a).
Proof.
  intros HO HT P E E' Z0 N.
  destruct (add_all_spec ids hp HO fuel ts _ s (fun _ => False) HT (wf_empty hp ids next P)
              (comp_empty hp ids next _) E) as (W & _).
  assert (G := add_grows _ _ _ _ _ E'). split.
  - apply (assigned_unused hp s s'); auto.
  - intros Zb Eb. symmetry. apply (g_inj _ _ G); auto.
Qed.
Print Assumptions C06_assigned_id_unused.

Theorem C06_added_found hp fuel ts ids next s fuel' t s' :
  heap_ok hp -> (forall t, In t ts -> target_ok hp t) -> 0 < next ->
  add_all hp fuel ts (empty_map ids next) = Some s -> add hp fuel' t s = Some s' ->
  m_ids s (target_addr t) = 0 ->
  get (target_kind t) (m_ids s' (target_addr t)) s' = Some (target_handle t).
Proof.
  intros HO HT P E E' Z0.
  destruct (add_all_spec ids hp HO fuel ts _ s (fun _ => False) HT (wf_empty hp ids next P)
              (comp_empty hp ids next _) E) as (W & _).
  destruct (added_found hp fuel' t s s' W Z0 E') as [N L]. unfold get, inval.
  destruct (m_ids s' (target_addr t) =? 0) eqn:Q; [apply Z.eqb_eq in Q; contradiction|auto].
Qed.
Print Assumptions C06_added_found.

(** Everything that gets an id on the way is stored itself, provided the ids the
    user set are known to the counter. Without that see the refutation. *)
Theorem C06_all_found_partial hp fuel ts ids next s k a :
  heap_ok hp -> (forall t, In t ts -> target_ok hp t) -> 0 < next ->
  (forall b, ids b < next) ->
  add_all hp fuel ts (empty_map ids next) = Some s ->
  has_kind hp k a -> ids a = 0 -> m_ids s a <> 0 ->
  exists h, fst h = a /\ get k (m_ids s a) s = Some h.
Proof.
  intros HO HT P R E K Z0 N.
  destruct (add_all_spec ids hp HO fuel ts _ s (fun _ => False) HT (wf_empty hp ids next P)
              (comp_empty hp ids next _) E) as (W & C & _).
  assert (G := add_all_grows _ _ _ _ _ E).
  destruct (all_found hp (empty_map ids next) s (fun _ => False) k a) as [h [H1 H2]]; auto.
  exists h. split; auto. unfold get, inval.
  destruct (m_ids s a =? 0) eqn:Q; [apply Z.eqb_eq in Q; contradiction|auto].
Qed.
Print Assumptions C06_all_found_partial.

Example C06_nonvacuous :
  exists s, add_all ex_heap 13 [TLanelet (6, false)]%nat (empty_map ex_ids 2001) = Some s /\
    ex_ids 9 = 0 /\ get KLine (m_ids s 9) s = Some (9, true)%nat.
Proof. eexists. split; [vm_compute; reflexivity|]. split; reflexivity. Qed.

(** A regulatory element refers to two points: the first with the preset id 1001,
    the second without an id. The second one is promised the id 1001 before the first
    one is added, and is then taken for already present: it never enters the map. *)
Definition lost_heap : heap := Heap [OPoint; OPoint; OReg [ParPoint 0; ParPoint 1]]%nat (fun _ => false).
Definition lost_ids (a : nat) : Z := match a with 0%nat => 1001 | _ => 0 end.

Theorem C06_all_found_refuted :
  exists hp t ids next s a,
    heap_ok hp /\ target_ok hp t /\ 0 < next /\
    add hp 10 t (empty_map ids next) = Some s /\ has_kind hp KPoint a /\
    ids a = 0 /\ m_ids s a <> 0 /\
    get KPoint (m_ids s a) s = Some (0, false)%nat /\ a <> 0%nat.
Proof.
  exists lost_heap, (TReg 2)%nat, lost_ids, 1000.
  eexists. exists 1%nat. split.
  - check_heap.
  - split; [eexists; split; reflexivity|]. split; [lia|]. split; [vm_compute; reflexivity|].
    split; [eexists; split; reflexivity|]. vm_compute. repeat split; intros; discriminate.
Qed.
Print Assumptions C06_all_found_refuted.

(** * C07 *)
Theorem C07_unique_id_partial hp fuel ts ids next s k :
  heap_ok hp -> (forall t, In t ts -> target_ok hp t) -> 0 < next ->
  add_all hp fuel ts (empty_map ids next) = Some s ->
  ~ In (fst (get_id s)) (used_ids s k) /\ fst (get_id s) <> 0.
Proof.
  intros HO HT P E.
  destruct (add_all_spec ids hp HO fuel ts _ s (fun _ => False) HT (wf_empty hp ids next P)
              (comp_empty hp ids next _) E) as (W & _).
  simpl. split; [|assert (Q := wf_next _ _ W); lia].
  intros H. apply (keys_below hp s k) in H; auto. lia.
Qed.
Print Assumptions C07_unique_id_partial.

Example C07_nonvacuous : exists s, ex_run = Some s /\ fst (get_id s) = 2007.
Proof. eexists. split; vm_compute; reflexivity. Qed.

(** createMap does not register the ids of its elements (except those of areas):
    here a line string whose id is the next one to be given out. *)
Theorem C07_create_map_refuted :
  exists hp ls ids next,
    next = 1000 /\ In (fst (get_id (create_lines hp ls (empty_map ids next))))
                      (used_ids (create_lines hp ls (empty_map ids next)) KLine).
Proof.
  exists (Heap [OLine []] (fun _ => false)), [(0%nat, false)], (fun _ => 1000), 1000.
  vm_compute. auto.
Qed.
Print Assumptions C07_create_map_refuted.

(** * C08 *)
Theorem C08_usages_after_add hp fuel ts ids next s k x :
  heap_ok hp -> (forall t, In t ts -> target_ok hp t) -> 0 < next ->
  add_all hp fuel ts (empty_map ids next) = Some s -> key_ok hp x ->
  forall u,
    (In u (members s k) -> occurrences u (find_usages hp k x s) = ref_count hp u x) /\
    (~ In u (members s k) -> occurrences u (find_usages hp k x s) = 0%nat).
Proof.
  intros HO HT P E K u.
  destruct (add_all_spec ids hp HO fuel ts _ s (fun _ => False) HT (wf_empty hp ids next P)
              (comp_empty hp ids next _) E) as (W & _).
  rewrite (find_usages_count hp s k x u W K).
  assert (B := occurrences_nodup u _ (members_nodup hp s k W)).
  rewrite <- occurrences_in. split; intros H; [|nia].
  replace (occurrences u (members s k)) with 1%nat by lia. lia.
Qed.
Print Assumptions C08_usages_after_add.

Example C08_nonvacuous :
  exists s, ex_run = Some s /\
    find_usages ex_heap KLanelet (KLine, (5, false)%nat) s = [(6, true)%nat; (8, true)%nat] /\
    find_usages ex_heap KLanelet (KReg, (7, false)%nat) s = [(6, true)%nat; (8, true)%nat] /\
    find_usages ex_heap KReg (KLanelet, (8, true)%nat) s = [(7, false)%nat] /\
    find_usages ex_heap KLine (KPoint, (1, false)%nat) s = [(4, true)%nat; (9, true)%nat].
Proof. eexists. split; [vm_compute; reflexivity|]. vm_compute. auto. Qed.

(** Maps made from lists; the ids of the elements have to be valid and known to the
    counter, see the refutation. *)
Theorem C08_usages_create_map_partial hp fuel lls ars ids next s k x :
  heap_ok hp -> 0 < next ->
  let s0 := empty_map ids next in
  listed hp s0 KLanelet lls -> listed hp s0 KArea (map (fun a => (a, false)) ars) ->
  listed hp s0 KLine (all_lines hp s0 lls ars) ->
  listed hp s0 KPoint (map (fun p => (p, false)) (flat_map (points_of hp) (all_lines hp s0 lls ars))) ->
  (S (length (hp_objs hp)) <= fuel)%nat ->
  create_map hp fuel lls ars s0 = Some s -> key_ok hp x ->
  forall u,
    (In u (members s k) -> occurrences u (find_usages hp k x s) = ref_count hp u x) /\
    (~ In u (members s k) -> occurrences u (find_usages hp k x s) = 0%nat).
Proof.
  intros HO P s0 A1 A2 A3 A4 F E K u.
  destruct (create_map_spec hp fuel lls ars s0 ids next HO P eq_refl A1 A2 A3 A4 F) as (s' & E' & W & _).
  rewrite E in E'. inversion E'; subst s'.
  rewrite (find_usages_count hp s k x u W K).
  assert (B := occurrences_nodup u _ (members_nodup hp s k W)).
  rewrite <- occurrences_in. split; intros H; [|nia].
  replace (occurrences u (members s k)) with 1%nat by lia. lia.
Qed.
Print Assumptions C08_usages_create_map_partial.

(** A map of one line string with id 1000 to which a second line string without an
    id is added: the second one gets the id 1000 too, is not stored, but is reported
    as the user of its point. *)
Theorem C08_usages_create_map_refuted :
  exists hp s u,
    heap_ok hp /\
    add hp 3 (TLine (1, false))%nat
      (create_lines hp [(0, false)]%nat (empty_map (fun a => match a with O => 1000 | _ => 0 end) 1000)) = Some s /\
    find_usages hp KLine (KPoint, (2, false)%nat) s = [u] /\ ~ In u (members s KLine).
Proof.
  exists (Heap [OLine []; OLine [2%nat]; OPoint] (fun _ => false)). eexists. eexists.
  split.
  - check_heap.
  - split; [vm_compute; reflexivity|]. split; [vm_compute; reflexivity|].
    vm_compute. intros [H|[]]. discriminate.
Qed.
Print Assumptions C08_usages_create_map_refuted.

(** * C42 findUsagesInLanelets *)
Theorem C42_usages_in_lanelets hp fuel ts ids next s p u :
  heap_ok hp -> (forall t, In t ts -> target_ok hp t) -> 0 < next ->
  add_all hp fuel ts (empty_map ids next) = Some s -> has_kind hp KPoint p ->
  In u (find_usages_in hp KLanelet p s) <->
  In u (members s KLanelet) /\
  exists l, (l = left_of hp u \/ l = right_of hp u) /\
    (In l (members s KLine) \/ In (flip l) (members s KLine)) /\ In p (points_of hp l).
Proof.
  intros HO HT P E K.
  destruct (add_all_spec ids hp HO fuel ts _ s (fun _ => False) HT (wf_empty hp ids next P)
              (comp_empty hp ids next _) E) as (W & _).
  apply usages_in_lanelets; auto.
Qed.
Print Assumptions C42_usages_in_lanelets.

(** Both bounds of lanelet 5 meet in point 0, lanelet 6 shares its left bound:
    std::unique does not remove the second mention of lanelet 5. *)
Definition merge_heap : heap :=
  Heap [OPoint; OPoint; OPoint; OLine [0; 1]; OLine [0; 2];
        OLanelet (3, false) (4, false) None []; OLanelet (7, false) (3, false) None [];
        OLine [1; 2]]%nat (fun _ => false).

Theorem C42_usages_in_lanelets_once_refuted :
  exists hp s p, heap_ok hp /\
    add_all hp 9 [TLanelet (5, false); TLanelet (6, false)]%nat (empty_map (fun _ => 0) 1000) = Some s /\
    has_kind hp KPoint p /\ ~ NoDup (find_usages_in hp KLanelet p s).
Proof.
  exists merge_heap. eexists. exists 0%nat. split.
  - check_heap.
  - split; [vm_compute; reflexivity|]. split; [eexists; split; reflexivity|].
    vm_compute. intros H. inversion H as [|x l N _]; subst. apply N. simpl; auto.
Qed.
Print Assumptions C42_usages_in_lanelets_once_refuted.

Example C42_nonvacuous :
  exists s, add_all merge_heap 9 [TLanelet (5, false); TLanelet (6, false)]%nat (empty_map (fun _ => 0) 1000) = Some s /\
    find_usages_in merge_heap KLanelet 2 s = [(5, false); (6, false)]%nat.
Proof. eexists. split; vm_compute; reflexivity. Qed.

(** * C43 The spatial index holds exactly the elements *)
Theorem C43_index_exact hp fuel ts ids next s k :
  heap_ok hp -> (forall t, In t ts -> target_ok hp t) -> 0 < next ->
  add_all hp fuel ts (empty_map ids next) = Some s ->
  NoDup (l_tree (m_layer s k)) /\
  forall h, In h (l_tree (m_layer s k)) <->
    In h (members s k) /\ (k = KPoint \/ hp_boxless hp (fst h) = false).
Proof.
  intros HO HT P E.
  destruct (add_all_spec ids hp HO fuel ts _ s (fun _ => False) HT (wf_empty hp ids next P)
              (comp_empty hp ids next _) E) as (W & _).
  rewrite (wf_tree _ _ W k). fold (members s k). split.
  - apply NoDup_filter. apply (members_nodup hp); auto.
  - intros h. rewrite filter_In. unfold in_tree, h_addr.
    destruct k; rewrite ?negb_true_iff; intuition congruence.
Qed.
Print Assumptions C43_index_exact.

Example C43_nonvacuous :
  exists s, add_all (Heap (hp_objs ex_heap) (fun a => Nat.eqb a 7)) 13 [TLanelet (6, false)]%nat ex_start = Some s /\
    l_tree (m_layer s KLanelet) = [(6, false); (8, true)]%nat /\
    members s KReg = [(7, false)]%nat /\ l_tree (m_layer s KReg) = [].
Proof. eexists. split; [vm_compute; reflexivity|]. vm_compute. auto. Qed.

(** * C44 Maps made from lists of lanelets and areas are self contained *)
Theorem C44_create_map_self_contained hp fuel lls ars ids next :
  heap_ok hp -> 0 < next ->
  let s0 := empty_map ids next in
  listed hp s0 KLanelet lls -> listed hp s0 KArea (map (fun a => (a, false)) ars) ->
  listed hp s0 KLine (all_lines hp s0 lls ars) ->
  listed hp s0 KPoint (map (fun p => (p, false)) (flat_map (points_of hp) (all_lines hp s0 lls ars))) ->
  (length (hp_objs hp) < fuel)%nat ->
  exists s, create_map hp fuel lls ars s0 = Some s /\ self_contained hp s /\
    (forall h, In h lls -> exists h', get KLanelet (m_ids s (fst h)) s = Some h') /\
    (forall a, In a ars -> exists h', get KArea (m_ids s a) s = Some h').
Proof.
  intros HO P s0 A1 A2 A3 A4 F.
  destruct (create_map_spec hp fuel lls ars s0 ids next HO P eq_refl A1 A2 A3 A4 F)
    as (s & E & W & C & G1 & G2).
  assert (GG : forall k a, good s k a -> exists h', get k (m_ids s a) s = Some h').
  { intros k a [N [h L]]. exists h. unfold get, inval.
    destruct (m_ids s a =? 0) eqn:Q; [apply Z.eqb_eq in Q; contradiction|auto]. }
  exists s. split; [auto|]. split; [auto|]. split; [intros h Hh; apply GG; apply (G1 h Hh)|auto].
Qed.
Print Assumptions C44_create_map_self_contained.

Definition ids44 (a : nat) : Z := Z.of_nat a + 1.
Example C44_nonvacuous :
  let s0 := empty_map ids44 1000 in
  listed ex_heap s0 KLanelet [(6, false); (8, true)]%nat /\
  listed ex_heap s0 KLine (all_lines ex_heap s0 [(6, false); (8, true)]%nat [10]%nat) /\
  exists s, create_map ex_heap 13 [(6, false); (8, true)]%nat [10]%nat s0 = Some s /\
    used_ids s KLine = [5; 6; 10] /\ used_ids s KReg = [8].
Proof.
  split; [|split].
  - intros h [<-|[<-|[]]]; (split; [eexists; split; reflexivity|vm_compute; split; congruence]).
  - vm_compute. intros h H. repeat (destruct H as [<-|H]; [split; [eexists; split; reflexivity|split; congruence]|]).
    destruct H.
  - eexists. split; [vm_compute; reflexivity|]. vm_compute. auto.
Qed.

(** Without valid ids this is wrong: the two points of a line string both have no
    id, only one of them is stored, under the id InvalId, where get does not find it. *)
Theorem C44_create_map_invalid_ids_refuted :
  exists hp s, heap_ok hp /\
    create_lines hp [(0, false)]%nat (empty_map (fun _ => 0) 1000) = s /\ ~ self_contained hp s.
Proof.
  exists (Heap [OLine [1%nat; 2%nat]; OPoint; OPoint] (fun _ => false)). eexists. split; [|split; [reflexivity|]].
  - check_heap.
  - intros H. destruct (H KLine 0 (0, false)%nat KPoint 1%nat) as [N _].
    + vm_compute. auto.
    + eapply ref_line_point; [reflexivity|simpl; auto].
    + apply N. reflexivity.
Qed.
Print Assumptions C44_create_map_invalid_ids_refuted.

(** * C45 LaneletSubmap::add *)
Theorem C45_submap_add hp k h s : 0 < m_next s ->
  let s' := submap_add hp k h s in
  m_ids s' (fst h) <> 0 /\ m_ids s' (fst h) < m_next s' /\
  (exists h', get k (m_ids s' (fst h)) s' = Some h') /\
  (forall k' i x, get k' i s = Some x -> get k' i s' = Some x).
Proof. exact (submap_add_found hp k h s). Qed.
Print Assumptions C45_submap_add.

Example C45_nonvacuous :
  let s := submap_add ex_heap KLanelet (6, false)%nat ex_start in
  get KLanelet 7 s = Some (6, false)%nat /\ l_elems (m_layer s KLine) = [] /\
  find_usages ex_heap KLanelet (KReg, (7, false)%nat) s = [(6, false)%nat].
Proof. vm_compute. auto. Qed.

(** Unlike LaneletMap::add a second call for the same element is not ignored: the
    user and the entry of the spatial index are doubled. *)
Theorem C45_submap_add_twice_refuted :
  exists hp s, heap_ok hp /\
    s = submap_add hp KLanelet (6, false)%nat (submap_add hp KLanelet (6, false)%nat ex_start) /\
    members s KLanelet = [(6, false)%nat] /\
    find_usages hp KLanelet (KReg, (7, false)%nat) s = [(6, false)%nat; (6, false)%nat] /\
    ~ NoDup (l_tree (m_layer s KLanelet)).
Proof.
  exists ex_heap. eexists. split; [exact ex_heap_ok|]. split; [reflexivity|].
  split; [reflexivity|]. split; [reflexivity|].
  vm_compute. intros H. inversion H as [|x l N _]; subst. apply N. simpl; auto.
Qed.
Print Assumptions C45_submap_add_twice_refuted.
