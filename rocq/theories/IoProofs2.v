(** Proofs about IoModel: the ids of OSM files. *)
From Coq Require Import List Bool String Ascii ZArith Sorted Lia.
From Verif Require Import BoundaryModel OsmModel OsmMapModel OsmSpec OsmProofs OsmRelProofs IoModel IoSpec IoProofs.
Import ListNotations.
Local Open Scope string_scope.
Local Open Scope list_scope.
Notation zsorted := (StronglySorted (fun a b => Z.ltb a b = true)).

(** * registerIds *)
Lemma register_id_max i c : register_id i c = Z.max c (i + 1).
Proof. unfold register_id. destruct (Z.ltb_spec c (i + 1)); lia. Qed.
Lemma sorted_last {V} (m : list (Z * V)) e r : zsorted (map fst m) -> rev m = e :: r -> forall k, In k (map fst m) -> (k <= fst e)%Z.
Proof.
  intros S E k H. assert (Em : m = rev r ++ [e]) by (rewrite <- (rev_involutive m), E; auto). subst m. clear E.
  rewrite map_app in S, H. cbn [map] in S, H. apply in_app_iff in H as [H|[<-|[]]]; [|lia].
  induction (map fst (rev r)) as [|x l IH]; [destruct H|]. cbn [app] in S. apply StronglySorted_inv in S as [S F]. destruct H as [->|H]; [|auto].
  rewrite Forall_forall in F. assert (k <? fst e = true)%Z by (apply F, in_or_app; cbn; auto). apply Z.ltb_lt in H. lia.
Qed.
Lemma register_ids_ok {V} (m : list (Z * V)) c : zsorted (map fst m) ->
  (c <= register_ids m c)%Z /\ (forall k, In k (map fst m) -> (k < register_ids m c)%Z) /\
  (register_ids m c = c \/ In (register_ids m c - 1)%Z (map fst m)).
Proof.
  intros S. unfold register_ids. destruct (rev m) as [|e r] eqn:E.
  - assert (m = []) as -> by (rewrite <- (rev_involutive m), E; auto). cbn. repeat split; auto; try lia; intros k [].
  - rewrite register_id_max. split; [lia|]. split; [intros k H; pose proof (sorted_last m e r S E k H); lia|].
    destruct (Z.max_spec c (fst e + 1)) as [[_ ->]|[_ ->]]; [right|auto]. replace (fst e + 1 - 1)%Z with (fst e) by lia. apply in_map.
    apply in_rev. rewrite E. cbn. auto.
Qed.

(** * The keys of what was read *)
Section Read.
Context {D : Type}.
Variable zero_d : D.
Variable parse_id : string -> Z.
Variable parse_d : string -> D.
Variable reloc : list nat -> nat -> list nat.
Notation attr_id := (attr_id parse_id).

(** A map whose keys are the ids of the values, and those of elements of the document *)
Definition keyed {V} (id : V -> Z) (m : list (Z * V)) (Q : Z -> Prop) : Prop :=
  zsorted (map fst m) /\ (forall k v, In (k, v) m -> id v = k) /\ forall k, In k (map fst m) <-> Q k.
Lemma mset_In {V} k (v : V) m e : In e (zset k v m) -> e = (k, v) \/ In e m.
Proof.
  unfold zset. induction m as [|x m IH]; cbn [mset]; [intros [<-|[]]; auto|]. destruct (Z.ltb k (fst x)); [intros [<-|H]; auto|].
  destruct (Z.ltb (fst x) k); intros [<-|H]; cbn [In]; auto. apply IH in H as [H|H]; auto.
Qed.
Lemma memplace_In {V} k (v : V) m e : In e (zemplace k v m) -> e = (k, v) \/ In e m.
Proof.
  unfold zemplace. induction m as [|x m IH]; cbn [memplace]; [intros [<-|[]]; auto|]. destruct (Z.ltb k (fst x)); [intros [<-|H]; auto|].
  destruct (Z.ltb (fst x) k); [|auto]. intros [<-|H]; cbn [In]; auto. apply IH in H as [H|H]; auto.
Qed.
Lemma fold_zset_keyed {V} (id : V -> Z) (vf : xml -> V) (V1 : forall x, id (vf x) = attr_id "id" x) l :
  keyed id (fold_left (fun m x => zset (attr_id "id" x) (vf x) m) l []) (fun k => exists x, In x l /\ attr_id "id" x = k).
Proof.
  induction l as [|x l IH] using rev_ind.
  - split; [constructor|]. split; [intros k v []|]. intros k. split; [intros []|intros (x & [] & _)].
  - rewrite fold_left_app. cbn [fold_left]. destruct IH as (S & I & K). split; [apply (mset_sorted Z.ltb zirr ztra ztot); auto|]. split.
    + intros k v H. apply mset_In in H as [[= -> ->]|H]; auto.
    + intros k. unfold zset at 1. rewrite (mset_keys Z.ltb zirr ztra ztot). rewrite K. split.
      * intros [->|(y & Y & E)]; [exists x|exists y]; rewrite in_app_iff; cbn; auto.
      * intros (y & Y & E). apply in_app_iff in Y as [Y|[<-|[]]]; eauto.
Qed.
Section Doc.
Variable osm : xml.
Notation nodes := (read_nodes zero_d parse_id parse_d osm).
Notation ways := (fst (read_ways parse_id nodes osm)).
Definition elem_id (n : string) (k : Z) : Prop := exists x, In x (elems n osm) /\ attr_id "id" x = k.
Lemma nodes_keyed : keyed (@n_id D) nodes (elem_id "node").
Proof. unfold read_nodes. apply (fold_zset_keyed (@n_id D)). auto. Qed.
Lemma ways_keyed : keyed w_id ways (elem_id "way").
Proof.
  rewrite read_ways_eq. cbn [fst]. apply (fold_zset_keyed w_id). intros x. rewrite read_way_eq. auto.
Qed.
Lemma read_member_keys ns ws i st x : map (fun e => (fst e, wr_id (snd e))) (rs_rels (@read_member D parse_id ns ws i st x)) = map (fun e => (fst e, wr_id (snd e))) (rs_rels st).
Proof.
  assert (P : forall s, map (fun e => (fst e, wr_id (snd e))) (push i s (rs_rels st)) = map (fun e => (fst e, wr_id (snd e))) (rs_rels st)).
  { intros s. unfold push, mupdate. rewrite map_map. apply map_ext. intros [k r]. cbn [fst]. destruct (Z.eqb k i); auto. }
  unfold read_member. destruct (String.eqb _ "node"); [destruct (zget _ ns); cbn [rs_rels]; auto|].
  destruct (String.eqb _ "way"); [destruct (zget _ ws); cbn [rs_rels]; auto|]. destruct (String.eqb _ "relation"); cbn [rs_rels]; auto.
Qed.
Lemma fold_member_keys ns ws i l st : map (fun e => (fst e, wr_id (snd e))) (rs_rels (fold_left (@read_member D parse_id ns ws i) l st)) = map (fun e => (fst e, wr_id (snd e))) (rs_rels st).
Proof. revert st. induction l as [|x l IH]; intros st; cbn [fold_left]; auto. rewrite IH. apply read_member_keys. Qed.
Lemma keyed_ext {V} (id : V -> Z) (m m' : list (Z * V)) Q : map (fun e => (fst e, id (snd e))) m' = map (fun e => (fst e, id (snd e))) m -> keyed id m Q -> keyed id m' Q.
Proof.
  intros E (S & I & K). assert (EK : map fst m' = map fst m).
  { transitivity (map fst (map (fun e => (fst e, id (snd e))) m')); [rewrite map_map; apply map_ext; auto|]. rewrite E, map_map. apply map_ext. auto. }
  split; [rewrite EK; auto|]. split; [|intros k; rewrite EK; auto]. intros k v H.
  assert (H' : In (k, id v) (map (fun e => (fst e, id (snd e))) m)) by (rewrite <- E; apply in_map_iff; exists (k, v); auto).
  apply in_map_iff in H' as ((k' & v') & [= -> E'] & H'). rewrite <- E'. auto.
Qed.
Lemma rels_keyed ns ws l e : keyed wr_id (rs_rels (fold_left (@read_rel D parse_id ns ws) l (RS [] [] e 0))) (fun k => exists x, In x l /\ attr_id "id" x = k).
Proof.
  induction l as [|x l IH] using rev_ind.
  - split; [constructor|]. split; [intros k v []|]. intros k. split; [intros []|intros (x & [] & _)].
  - rewrite fold_left_app. cbn [fold_left]. set (st := fold_left _ l _) in *. destruct IH as (S & I & K). unfold read_rel.
    eapply keyed_ext; [apply fold_member_keys|]. cbn [rs_rels]. split; [apply (memplace_sorted Z.ltb zirr ztra ztot); auto|]. split.
    + intros k v H. apply memplace_In in H as [[= -> ->]|H]; auto.
    + intros k. unfold zemplace at 1. rewrite (memplace_keys Z.ltb zirr ztra ztot). rewrite K. split.
      * intros [->|(y & Y & E)]; [exists x|exists y]; rewrite in_app_iff; cbn; auto.
      * intros (y & Y & E). apply in_app_iff in Y as [Y|[<-|[]]]; eauto.
Qed.
Lemma set_slots_keys i s (m : list (Z * wrel)) : map (fun e => (fst e, wr_id (snd e))) (set_slots i s m) = map (fun e => (fst e, wr_id (snd e))) m.
Proof. unfold set_slots, mupdate. rewrite map_map. apply map_ext. intros [k r]. cbn [fst]. destruct (Z.eqb k i); auto. Qed.
Lemma resolve_keys shift fuel : forall un rels errs rels' errs', resolve shift reloc un fuel rels errs = Some (rels', errs') ->
  map (fun e => (fst e, wr_id (snd e))) rels' = map (fun e => (fst e, wr_id (snd e))) rels.
Proof.
  induction fuel as [|fuel IH]; intros [|u un] rels errs rels' errs' H; cbn [resolve] in H; try discriminate; try (injection H as <- _; auto).
  destruct (zget (u_rel u) rels); [|discriminate]. destruct (zget (u_ref u) rels).
  - destruct (write_slot _ _ _); [|discriminate]. apply IH in H. rewrite H. apply set_slots_keys.
  - destruct (remove_fix _ _ _ _ _ _) as [[s' rest']|]; [|discriminate]. apply IH in H. rewrite H. apply set_slots_keys.
Qed.
End Doc.

Lemma read_keyed shift doc f es : read zero_d parse_id parse_d shift reloc doc = Some (f, es) ->
  let osm := match xall "osm" doc with x :: _ => x | [] => Elem "" [] [] end in
  keyed (@n_id D) (f_nodes f) (elem_id osm "node") /\ keyed w_id (f_ways f) (elem_id osm "way") /\ keyed r_id (f_rels f) (elem_id osm "relation").
Proof.
  unfold read. set (osm := match xall "osm" doc with x :: _ => x | [] => Elem "" [] [] end). intros H.
  destruct (read_ways parse_id (read_nodes zero_d parse_id parse_d osm) osm) as [ways e1] eqn:W.
  destruct (resolve _ _ _ _ _) as [[rels errs]|] eqn:R; [|discriminate]. injection H as <- _. cbn [f_nodes f_ways f_rels].
  split; [apply nodes_keyed|]. split; [pose proof (ways_keyed osm) as K; rewrite W in K; exact K|].
  apply resolve_keys in R. assert (K := rels_keyed (read_nodes zero_d parse_id parse_d osm) ways (elems "relation" osm) e1).
  apply (keyed_ext wr_id _ rels) in K; [|exact R]. destruct K as (S & I & K).
  assert (EK : map fst (map finish_rel rels) = map fst rels) by (rewrite map_map; apply map_ext; auto).
  split; [rewrite EK; auto|]. split; [|intros k; rewrite EK; apply K].
  intros k v H. apply in_map_iff in H as ((k' & r) & [= <- <-] & H). cbn [r_id]. eapply I; eauto.
Qed.
End Read.

(** * The ids of a loaded map *)
Section Load.
Context {P D : Type}.
Variables (from_geo : D * D * D -> option P) (origin : P) (align : list P -> list P -> bool * bool) (ring_valid : list P -> bool) (make : string -> mreg -> bool).
Variable f : @file D.
Definition node_ids := map (fun e => n_id (snd e)) (f_nodes f).
Definition way_ids := map (fun e => w_id (snd e)) (f_ways f).
Definition rel_ids := map (fun e => r_id (snd e)) (f_rels f).

Lemma zemplace_key {V} k (v : V) m i : In i (map fst (zemplace k v m)) -> i = k \/ In i (map fst m).
Proof. apply (memplace_keys Z.ltb zirr ztra ztot). Qed.
(** A loop that only adds elements with the ids of the elements of a list *)
Lemma fold_inv {A S} (step : S -> A -> S) (keys : S -> list Z) (id : A -> Z) (G : forall s a i, In i (keys (step s a)) -> i = id a \/ In i (keys s)) l :
  forall s i, In i (keys (fold_left step l s)) -> In i (map id l) \/ In i (keys s).
Proof.
  induction l as [|a l IH]; intros s i H; cbn [fold_left map] in *; auto. apply IH in H as [H|H]; [left; cbn; auto|]. apply G in H as [->|H]; cbn; auto.
Qed.
Ltac close := repeat match goal with
  | H : In _ (map fst (zemplace _ _ _)) |- _ => apply zemplace_key in H as [?|?]
  | _ => solve [auto]
  end.
Lemma points_ids i : In i (map fst (fst (load_nodes from_geo f))) -> In i node_ids.
Proof.
  intros H. unfold load_nodes in H. apply (fold_inv _ (fun s : list (Z * @mpoint P) * list lerror => map fst (fst s)) (fun e => n_id (snd e))) in H as [H|[]]; auto.
  clear H. intros [m errs] e j. destruct (from_geo _); cbn [fst]; intros H; close.
Qed.
Lemma ways_ids (pts : list (Z * @mpoint P)) i : let r := load_ways f pts in In i (map fst (fst (fst r))) \/ In i (map fst (snd (fst r))) -> In i way_ids.
Proof.
  cbn zeta. intros H. rewrite <- in_app_iff in H. unfold load_ways in H.
  apply (fold_inv _ (fun s : list (Z * mline) * list (Z * mpoly) * list lerror => map fst (fst (fst s)) ++ map fst (snd (fst s))) (fun e => w_id (snd e))) in H as [H|[]]; auto.
  clear H. intros [[ls ps] errs] e j. destruct (map (node_id f) (w_nodes (snd e))) as [|x xs]; cbn [fst snd]; [auto|]. destruct (is_area _); cbn [fst snd]; rewrite !in_app_iff; intros [H|H]; close.
Qed.
Lemma lanelets_ids pts lines i : In i (map fst (fst (load_lanelets origin align f pts lines))) -> In i rel_ids.
Proof.
  intros H. unfold load_lanelets in H. apply (fold_inv _ (fun s : list (Z * mlanelet) * list lerror => map fst (fst s)) (fun e => r_id (snd e))) in H as [H|[]]; auto.
  clear H. intros [m errs] e j. destruct (is_type _ _); [|auto]. destruct (load_lanelet _ _ _ _ _ _); cbn [fst]; intros H; close.
Qed.
Definition area_keys (o : outcome (list (Z * marea) * list lerror)) : list Z := match o with Done (m, _) => map fst m | _ => [] end.
Lemma areas_ids pts lines i : In i (area_keys (load_areas origin ring_valid f pts lines)) -> In i rel_ids.
Proof.
  intros H. unfold load_areas in H. apply (fold_inv _ area_keys (fun e => r_id (snd e))) in H as [H|[]]; auto.
  clear H. intros o e j. destruct o as [[m errs]| |]; cbn [area_keys]; try (intros []); auto. destruct (is_type _ _); [|auto].
  destruct (load_area _ _ _ _ _ _) as [[[a|] es]| |]; cbn [area_keys]; try (intros []); intros H; close.
Qed.
Lemma regs_ids (pts : list (Z * @mpoint P)) lines polys lls areas i : In i (map fst (fst (load_regs make f pts lines polys lls areas))) -> In i rel_ids.
Proof.
  intros H. unfold load_regs in H. apply (fold_inv _ (fun s : list (Z * mreg) * list lerror => map fst (fst s)) (fun e => r_id (snd e))) in H as [H|[]]; auto.
  clear H. intros [m errs] e j. destruct (is_type _ _); [|auto]. destruct (sget _ _); [|auto]. destruct (load_params _ _ _ _ _ _ _ _).
  destruct (make _ _); cbn [fst]; intros H; close.
Qed.
Lemma add_regs_keys {V} t (m : list (Z * V)) regs add : map fst (fst (add_regs f t m regs add)) = map fst m.
Proof.
  unfold add_regs. generalize (@nil lerror). generalize (f_rels f) as l. intros l. revert m. induction l as [|e l IH]; intros m errs; cbn [fold_left]; auto.
  destruct (is_type t (snd e)); [|auto]. destruct (zget _ m); [|auto]. rewrite IH. apply mupdate_keys.
Qed.
Lemma load_ids m es : load_map from_geo origin align ring_valid make f = Done (m, es) -> forall i, map_id m i ->
  In i node_ids \/ In i way_ids \/ In i rel_ids.
Proof.
  unfold load_map. destruct (negb _); [discriminate|]. intros H i.
  pose proof (points_ids i) as A1. destruct (load_nodes from_geo f) as [pts e1]. pose proof (ways_ids pts i) as A2. destruct (load_ways f pts) as [[lines polys] e2].
  pose proof (lanelets_ids pts lines i) as A3. destruct (load_lanelets origin align f pts lines) as [lls e3].
  pose proof (areas_ids pts lines i) as A4. destruct (load_areas origin ring_valid f pts lines) as [[areas e4]| |]; try discriminate.
  pose proof (regs_ids pts lines polys lls areas i) as A5. destruct (load_regs make f pts lines polys lls areas) as [regs e5].
  match type of H with context [add_regs f "lanelet" lls regs ?g] => pose proof (add_regs_keys "lanelet" lls regs g) as A6; destruct (add_regs f "lanelet" lls regs g) as [lls' e6] end.
  match type of H with context [add_regs f "multipolygon" areas regs ?g] => pose proof (add_regs_keys "multipolygon" areas regs g) as A7; destruct (add_regs f "multipolygon" areas regs g) as [areas' e7] end.
  injection H as <- _. cbn [fst snd area_keys] in *. unfold map_id. cbn [m_points m_lines m_polys m_lanelets m_areas m_regs]. rewrite A6, A7. tauto.
Qed.
End Load.

Lemma build_message_ok intro errs : (build_message intro errs = [] <-> errs = []) /\ tl (build_message intro errs) = map (fun e => ("	- " ++ e)%string) errs.
Proof. destruct errs; cbn; split; auto; split; congruence. Qed.
