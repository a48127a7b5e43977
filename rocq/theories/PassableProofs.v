(** Proofs about the submaps of routing graphs and routes. *)
From Coq Require Import ZArith NArith List Bool.
From Verif Require Import CostAlg GraphModel GraphSpec GraphProofs RouteBuilderModel TrafficModel BuilderModel BuilderSpec BuilderProofs BuilderProofs2 BuilderProofs3 DebugModel DebugProofs
  PassableModel PassableSpec.
Import ListNotations.

Lemma find_key_iff {T} i (x : T) m : NoDup (map fst m) -> find_key i m = Some x <-> In (i, x) m.
Proof.
  induction m as [|[k y] m IH]; cbn [find_key map fst In]; intros ND; [split; [discriminate|tauto]|].
  inversion ND as [|? ? N ND']. subst. destruct (Z.eqb_spec k i) as [->|H].
  - split; [intros [= ->]; auto|]. intros [E|E]; [congruence|]. exfalso. apply N. apply in_map_iff. exists (i, x). auto.
  - rewrite (IH ND'). split; [auto|]. intros [E|E]; [congruence|auto].
Qed.
Lemma nodup_snd {T} (id : T -> Z) (m : list (Z * T)) : NoDup (map fst m) -> (forall i x, In (i, x) m -> i = id x) -> NoDup (map snd m).
Proof.
  induction m as [|[k y] m IH]; cbn [map fst snd]; intros ND H; [constructor|]. inversion ND as [|? ? N ND']. subst. constructor.
  - intros I. apply in_map_iff in I as ([k' y'] & E & I). cbn in E. subst y'. apply N.
    rewrite (H k y (or_introl eq_refl)), <- (H k' y (or_intror I)). apply in_map_iff. exists (k', y). auto.
  - apply IH; [exact ND'|]. intros i x I. apply H. right. exact I.
Qed.
(** The layer of some elements: it has one element for each id. *)
Lemma layer_facts {T} (id : T -> Z) (l : list T) (m := keep_first (map (fun x => (id x, x)) l)) :
  NoDup (map snd m) /\ (forall x, In x (map snd m) -> In x l) /\
  (forall i x, find_key i m = Some x <-> In x (map snd m) /\ id x = i) /\
  (forall x, In x l -> exists y, In y (map snd m) /\ id y = id x).
Proof.
  destruct (keep_first_facts (map (fun x => (id x, x)) l)) as (N & S & C). fold m in N, S, C.
  assert (I : forall i x, In (i, x) m -> i = id x /\ In x l).
  { intros i x H. apply S, in_map_iff in H as (y & [= <- <-] & H). auto. }
  split; [apply (nodup_snd id); [exact N|intros i x H; apply I, H]|]. split.
  { intros x H. apply in_map_iff in H as ([i y] & E & H). cbn in E. subst y. apply I in H. tauto. }
  split.
  - intros i x. rewrite find_key_iff by exact N. split.
    + intros H. split; [apply in_map_iff; exists (i, x); auto|]. symmetry. apply I, H.
    + intros [H <-]. apply in_map_iff in H as ([i y] & E & H). cbn in E. subst y. destruct (I _ _ H) as [<- _]. exact H.
  - intros x H. specialize (C (id x, x)). cbn [fst] in C.
    assert (K : In (id x, x) (map (fun x => (id x, x)) l)) by (apply in_map_iff; exists x; auto).
    apply C in K. apply in_map_iff in K as ([i y] & E & K). cbn in E. subst i. exists y. split.
    + apply in_map_iff. exists (id x, y). auto.
    + symmetry. apply I, K.
Qed.
(** If the ids are different, it has all. *)
Lemma layer_shows {T} (id : T -> Z) (l : list T) (m := keep_first (map (fun x => (id x, x)) l)) :
  (forall x y, In x l -> In y l -> id x = id y -> x = y) -> shows id (fun x => In x l) (fun i => find_key i m) (map snd m).
Proof.
  intros U. destruct (layer_facts id l) as (N & S & F & C). fold m in N, S, F, C.
  assert (E : forall x, In x (map snd m) <-> In x l).
  { intros x. split; [apply S|]. intros H. destruct (C x H) as (y & Hy & Ey). rewrite <- (U y x (S _ Hy) H Ey). exact Hy. }
  constructor; [exact N|exact E|]. intros i x. rewrite F, E. tauto.
Qed.
Lemma shows_iff {T} (id : T -> Z) (P Q : T -> Prop) find all : (forall x, P x <-> Q x) -> shows id P find all -> shows id Q find all.
Proof. intros E [H1 H2 H3]. constructor; [exact H1| |]; intros; rewrite <- E; auto. Qed.

Lemma in_lanelets_of l es : In l (lanelets_of es) <-> In (L l) es.
Proof.
  unfold lanelets_of. rewrite in_flat_map. split.
  - intros ([d i|a] & H & K); [|destruct K]. destruct K as [<-|[]]. exact H.
  - intros H. exists (L l). split; [exact H|]. cbn. destruct l. auto.
Qed.
Section Graph.
Variables (idl ida : N -> Z) (w : world) (ru : rules).
Lemma passable_iff l : In l (passable w ru) <-> usable w ru l /\ snd l = false.
Proof.
  unfold passable, usable. rewrite filter_In, in_map_iff. destruct l as [d i]. cbn. split.
  - intros ((x & E & H) & U). injection E as <- <-. auto.
  - intros ((H & U & _) & ->). split; [|exact U]. exists d. auto.
Qed.
Lemma passable_areas_iff a : In a (passable_areas w ru) <-> usable_area w ru a.
Proof. unfold passable_areas, usable_area. apply filter_In. Qed.
Lemma passable_lanelets : own_ids idl (w_layer w) ->
  shows (fun l => idl (fst l)) (fun l => usable w ru l /\ snd l = false) (find_lanelet (passable_submap idl ida w ru)) (all_lanelets (passable_submap idl ida w ru)).
Proof.
  intros O. apply shows_iff with (P := fun l => In l (passable w ru)); [apply passable_iff|]. apply (layer_shows (fun l => idl (fst l)) (passable w ru)).
  intros x y Hx Hy E. apply passable_iff in Hx as [(Hx & _) Ex], Hy as [(Hy & _) Ey]. destruct x, y. cbn in *. subst. f_equal. auto.
Qed.
Lemma passable_areas_shown : own_ids ida (w_areas w) ->
  shows ida (usable_area w ru) (find_area (passable_submap idl ida w ru)) (all_areas (passable_submap idl ida w ru)).
Proof.
  intros O. apply shows_iff with (P := fun a => In a (passable_areas w ru)); [apply passable_areas_iff|]. apply (layer_shows ida (passable_areas w ru)).
  intros x y Hx Hy E. apply passable_areas_iff in Hx as [Hx _], Hy as [Hy _]. auto.
Qed.
End Graph.
