(** C103: submaps, what they keep alive and the maps made from them. *)
From Coq Require Import ZArith List Bool Lia.
From Verif Require Import MapModel MapSpec MapProofs MapProofs2 MapProofs3 MapProps SubmapModel SubmapSpec SubmapProofs SubmapMore.
Import ListNotations.
Open Scope Z_scope.

(** However a submap was built, its elements are found under their own ids, which are different in each layer and known to the counter. *)
Theorem C103_layers hp s lls ars l : 0 < m_next s -> listed hp s KLanelet lls -> listed hp s KArea (map (fun a => (a, false)) ars) ->
  (forall k h, In (k, h) l -> has_kind hp k (fst h)) -> sub_ok hp (sub_adds hp l (create_submap hp lls ars s)).
Proof. intros N HL HA K. apply sub_adds_ok; [|exact K]. apply create_submap_ok; assumption. Qed.
Print Assumptions C103_layers.

(** laneletMap ends with a map without dangling references, in which every element of the submap is found under its id (lanelets and
    areas themselves), and which has nothing that is not reached from an element of the submap. Ids stay. *)
Theorem C103_conversion_partial hp sb fuel : heap_ok hp -> sub_ok hp sb -> parts_ok hp sb -> (length (hp_objs hp) < fuel)%nat ->
  exists s', lanelet_map hp fuel sb = Some s' /\ self_contained hp s' /\
    (forall k i h, element (sb_map sb) k i h -> exists h', get k i s' = Some h' /\ (k = KLanelet -> h' = h) /\ (k = KArea -> fst h' = fst h)) /\
    (forall k i h, element s' k i h -> reaches hp (m_ids s') (has_element sb) (fst h)) /\
    (forall a, m_ids (sb_map sb) a <> 0 -> m_ids s' a = m_ids (sb_map sb) a).
Proof.
  intros HO OK PK F. destruct (convert hp sb HO OK PK fuel F) as (s' & E & SC & W & A & B & C). exists s'. auto.
Qed.
Print Assumptions C103_conversion_partial.

(** Adding to a map adds nothing that is not reached from what was added. *)
Theorem C103_nothing_else hp fuel ts s s' : heap_ok hp -> (forall t, In t ts -> target_ok hp t) -> add_all hp fuel ts s = Some s' ->
  forall k i h, element s' k i h -> element s k i h \/ reaches hp (m_ids s') (fun a => exists t, In t ts /\ target_addr t = a) (fst h).
Proof.
  intros HO T E k i h H.
  set (P := reaches hp (m_ids s') (fun a => exists t, In t ts /\ target_addr t = a)).
  assert (CL : forall h k b, P (fst h) -> references hp (m_ids s') h k b -> P b).
  { intros h0 k0 b Ph R. eapply reach_step; [exact Ph|]. eapply ref_fst; [|exact R]. reflexivity. }
  assert (O : only P s s').
  { apply (adds_only hp HO (m_ids s') P CL fuel ts s s'); [|exact E|intros a N; exact N]. intros t Ht. split; [auto|]. apply reach_root. eauto. }
  exact (O k i h H).
Qed.
Print Assumptions C103_nothing_else.

(** Every lanelet or area that is a parameter of a regulatory element of the submap is kept alive by it, however it was built. *)
Theorem C103_tracked hp s lls ars l r a : let sb := sub_adds hp l (create_submap hp lls ars s) in
  rule_in hp sb r -> uses hp r a -> kept_alive hp sb a.
Proof. cbv zeta. apply tracks_rules. apply tracks_adds. apply tracks_create. Qed.
Print Assumptions C103_tracked.

(** So these are in the map that is made from the submap after all other lanelets and areas were destroyed. *)
Theorem C103_survivors hp s lls ars l live fuel : let sb := sub_adds hp l (create_submap hp lls ars s) in
  heap_ok hp -> 0 < m_next s -> listed hp s KLanelet lls -> listed hp s KArea (map (fun a => (a, false)) ars) ->
  (forall k h, In (k, h) l -> has_kind hp k (fst h)) -> parts_ok hp sb -> survives hp sb live -> (length (hp_objs hp) < fuel)%nat ->
  exists s', lanelet_map (collect hp live) fuel sb = Some s' /\ self_contained (collect hp live) s' /\
    (forall k i h, element (sb_map sb) k i h -> exists h', get k i s' = Some h' /\ (k = KLanelet -> h' = h) /\ (k = KArea -> fst h' = fst h)) /\
    forall i h a, element s' KReg i h -> rule_in hp sb (fst h) -> uses hp (fst h) a ->
      exists k h', (k = KLanelet \/ k = KArea) /\ has_kind (collect hp live) k a /\ get k (m_ids s' a) s' = Some h'.
Proof.
  intros sb HO N HL HA K PK SV F. apply converted_later; auto.
  - apply C103_layers; assumption.
  - apply tracks_adds. apply tracks_create.
Qed.
Print Assumptions C103_survivors.

(** * A concrete submap *)
(** Two lanelets and an area; the first lanelet has a regulatory element that refers to the others. *)
Definition sm_heap : heap :=
  Heap [OPoint; OPoint; OPoint; OPoint;                       (* 0-3 *)
        OLine [0; 1]; OLine [2; 3];                           (* 4, 5 *)
        OLanelet (4, false) (5, false) None [7];              (* 6: the first lanelet *)
        OReg [ParLanelet (8, false); ParArea 10; ParPoint 0]; (* 7 *)
        OLanelet (5, true) (4, true) None [9];                (* 8: the second lanelet *)
        OReg [ParLanelet (11, false)];                        (* 9 *)
        OArea [(4, false); (5, true)] [] [];                  (* 10 *)
        OLanelet (4, false) (5, true) None []]%nat (fun _ => false). (* 11: the third lanelet *)
Definition sm_ids (a : nat) : Z := 100 + Z.of_nat a.
Definition sm_start : mstate := empty_map sm_ids 1000.
Definition sm_sub : submap := sub_adds sm_heap [(KPoint, (2, false))]%nat (create_submap sm_heap [(6, true)]%nat [] sm_start).
Lemma sm_heap_ok : heap_ok sm_heap.
Proof. check_heap. Qed.
(** All but the third lanelet survive. *)
Definition sm_live (a : nat) : bool := negb (Nat.eqb a 11).

Lemma sm_sub_ok : sub_ok sm_heap sm_sub.
Proof.
  apply C103_layers; [cbn; lia| | |].
  - intros h [<-|[]]. vm_compute. split; [eexists; split; reflexivity|]. split; [discriminate|reflexivity].
  - intros h [].
  - intros k h [E|[]]. injection E as <- <-. eexists. split; reflexivity.
Qed.
Lemma references_holds hp ids h k b : references hp ids h k b -> k = KLine \/ k = KPoint -> exists o, obj hp (fst h) = Some o /\ In b (holds o).
Proof.
  intros R K. inversion R; subst; try (destruct K; discriminate); eexists; (split; [eassumption|]); cbn [holds]; auto.
  - left. reflexivity.
  - right. left. reflexivity.
  - right. right. left. reflexivity.
  - apply in_or_app. left. apply in_map_iff. exists l. split; [reflexivity|]. apply in_or_app. auto.
  - apply in_or_app. left. apply in_map_iff. exists l. split; [reflexivity|]. apply in_or_app. right. apply in_concat. eauto.
  - apply in_flat_map. exists (ParPoint b). cbn. auto.
  - apply in_flat_map. exists (ParLine l). cbn. auto.
Qed.
Lemma sm_parts_ok : parts_ok sm_heap sm_sub.
Proof.
  assert (A : forall a b c, obj sm_heap a = Some c -> In b (holds c) -> sm_ids b <> 0 /\ sm_ids b < 1000).
  { unfold sm_ids. intros a b c. unfold obj, sm_heap. cbn [hp_objs].
    repeat (destruct a as [|a]; [cbn [nth_error]; intros E H; injection E as <-; cbn in H; repeat (destruct H as [<-|H]; [lia|]); contradiction|]).
    destruct a; discriminate. }
  intros k i h ky b H K R Ky. subst ky. change (m_ids (sb_map sm_sub)) with sm_ids in *. change (m_next (sb_map sm_sub)) with 1000.
  split.
  - destruct (references_holds _ _ _ _ _ R) as (o & E & I); [auto|]. eapply A; eauto.
  - intros p Rp. destruct (references_holds _ _ _ _ _ Rp) as (o & E & I); [auto|]. eapply A; eauto.
Qed.
Lemma sm_survives : survives sm_heap sm_sub sm_live.
Proof.
  intros a K. unfold sm_live. apply Bool.negb_true_iff, Nat.eqb_neq. induction K as [a (k & i & h & H & <-)|a H|a o b K IH E H].
  - destruct k; vm_compute in H; repeat (destruct H as [H|H]; [injection H as <- <-; discriminate|]); contradiction.
  - vm_compute in H. repeat (destruct H as [<-|H]; [discriminate|]); contradiction.
  - revert E H. unfold obj, sm_heap. cbn [hp_objs].
    repeat (destruct a as [|a]; [cbn [nth_error]; intros E H; injection E as <-; cbn in H; repeat (destruct H as [<-|H]; [discriminate|]); contradiction|]).
    destruct a; discriminate.
Qed.

Example C103_nonvacuous :
  heap_ok sm_heap /\ sub_ok sm_heap sm_sub /\ parts_ok sm_heap sm_sub /\ survives sm_heap sm_sub sm_live /\ sb_kept sm_sub = [8; 10]%nat /\
  rule_in sm_heap sm_sub 7 /\ uses sm_heap 7 8 /\ uses sm_heap 7 10 /\
  exists s', lanelet_map sm_heap 13 sm_sub = Some s' /\ used_ids s' KLanelet = [106; 108; 111] /\ used_ids s' KArea = [110] /\
    used_ids s' KReg = [107; 109] /\ used_ids s' KLine = [105; 104] /\ length (used_ids s' KPoint) = 4%nat.
Proof.
  split; [apply sm_heap_ok|]. split; [apply sm_sub_ok|]. split; [apply sm_parts_ok|]. split; [apply sm_survives|]. split; [reflexivity|].
  split; [right; left; exists 106, (6, true)%nat; do 4 eexists; split; [left; reflexivity|]; split; [reflexivity|left; reflexivity]|].
  split; [eexists; split; [reflexivity|]; left; eexists; split; [left; reflexivity|]; split; [reflexivity|eexists; split; reflexivity]|].
  split; [eexists; split; [reflexivity|]; right; split; [right; left; reflexivity|eexists; split; reflexivity]|].
  eexists. split; [vm_compute; reflexivity|]. vm_compute. repeat split; reflexivity.
Qed.

(** Finding: parameters are kept alive on one level only. The second lanelet of the example is kept alive as a parameter, the lanelet
    to which the regulatory element of the second one refers is not: it is in the map made at once, but not in the one made later. *)
Theorem C103_second_level_refuted : exists hp sb live fuel s1 s2 i,
  heap_ok hp /\ sub_ok hp sb /\ parts_ok hp sb /\ survives hp sb live /\ lanelet_map hp fuel sb = Some s1 /\ get KLanelet i s1 <> None /\
  lanelet_map (collect hp live) fuel sb = Some s2 /\ get KLanelet i s2 = None.
Proof.
  exists sm_heap, sm_sub, sm_live, 13%nat. eexists _, _, 111.
  split; [apply sm_heap_ok|]. split; [apply sm_sub_ok|]. split; [apply sm_parts_ok|]. split; [apply sm_survives|].
  split; [vm_compute; reflexivity|]. split; [vm_compute; discriminate|]. split; [vm_compute; reflexivity|]. reflexivity.
Qed.
Print Assumptions C103_second_level_refuted.

(** Finding: add gives an id to the lanelet, not to its bounds and points. Without [parts_ok] the map made from the submap has them all
    under the invalid id, so that not even the bounds are found. *)
Definition noid_heap : heap := Heap [OPoint; OPoint; OPoint; OPoint; OLine [0; 1]; OLine [2; 3]; OLanelet (4, false) (5, false) None []]%nat (fun _ => false).
Theorem C103_ids_refuted : exists hp l fuel s',
  heap_ok hp /\ (forall k h, In (k, h) l -> has_kind hp k (fst h)) /\
  lanelet_map hp fuel (sub_adds hp l (empty_submap (fun _ => 0) 1000)) = Some s' /\ ~ self_contained hp s' /\
  length (used_ids s' KLine) = 1%nat.
Proof.
  exists noid_heap, [(KLanelet, (6, false))]%nat, 13%nat. eexists. split; [check_heap|].
  split; [intros k h [E|[]]; injection E as <- <-; eexists; split; reflexivity|].
  split; [vm_compute; reflexivity|]. split; [|reflexivity]. intros S.
  destruct (S KLanelet 1000 (6, false)%nat KLine 4%nat) as (A & _).
  - left. reflexivity.
  - eapply (ref_left _ _ _ (4, false)%nat). reflexivity.
  - apply A. reflexivity.
Qed.
Print Assumptions C103_ids_refuted.
