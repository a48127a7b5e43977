(** Debug maps of routing graphs. *)
From Coq Require Import ZArith NArith List Bool Lia Permutation.
From Verif Require Import CostAlg GraphModel GraphProofs RouteBuilderModel DebugModel DebugSpec.
Import ListNotations.
Open Scope Z_scope.

(** * Maps from ids *)
Lemma has_key_iff {T} i (m : list (Z * T)) : has_key i m = true <-> In i (map fst m).
Proof.
  unfold has_key. rewrite existsb_exists, in_map_iff. split.
  - intros (x & H & E). apply Z.eqb_eq in E. eauto.
  - intros (x & E & H). exists x. split; [exact H|]. apply Z.eqb_eq. exact E.
Qed.
Lemma nodup_snoc {T} (l : list T) x : NoDup l -> ~ In x l -> NoDup (l ++ [x]).
Proof.
  induction 1 as [|y l N ND IH]; intros H; cbn; [constructor; [intros []|constructor]|]. constructor.
  - intros I. apply in_app_or in I as [I|[I|[]]]; [auto|subst; apply H; left; reflexivity].
  - apply IH. intros I. apply H. right. exact I.
Qed.
Lemma puts_facts {T} (l : list (Z * T)) : forall m, NoDup (map fst m) ->
  NoDup (map fst (fold_left put l m)) /\ (forall x, In x m -> In x (fold_left put l m)) /\
  (forall x, In x (fold_left put l m) -> In x m \/ In x l) /\ (forall x, In x l -> In (fst x) (map fst (fold_left put l m))).
Proof.
  induction l as [|e l IH]; intros m ND; cbn [fold_left].
  - split; [exact ND|]. split; [auto|]. split; [auto|intros x []].
  - assert (NP : NoDup (map fst (put m e)) /\ (forall x, In x m -> In x (put m e)) /\ (forall x, In x (put m e) -> In x m \/ x = e) /\ In (fst e) (map fst (put m e))).
    { unfold put. destruct (has_key (fst e) m) eqn:H.
      - apply has_key_iff in H. auto.
      - assert (N : ~ In (fst e) (map fst m)) by (intros I; apply has_key_iff in I; congruence). split.
        + rewrite map_app. apply nodup_snoc; auto.
        + split; [intros; apply in_or_app; auto|]. split; [intros x I; apply in_app_or in I as [I|[I|[]]]; auto|].
          rewrite map_app. apply in_or_app. right. left. reflexivity. }
    destruct NP as (N1 & N2 & N3 & N4). destruct (IH (put m e) N1) as (A & B & C & D).
    split; [exact A|]. split; [auto|]. split.
    + intros x H. apply C in H as [H|H]; [|auto with datatypes]. apply N3 in H as [H|H]; [auto|subst; right; left; reflexivity].
    + intros x [<-|H]; [|auto]. apply in_map_iff in N4 as (y & E & H). rewrite <- E. apply in_map. auto.
Qed.
Lemma keep_first_facts {T} (l : list (Z * T)) : NoDup (map fst (keep_first l)) /\ (forall x, In x (keep_first l) -> In x l) /\
  (forall x, In x l -> In (fst x) (map fst (keep_first l))).
Proof.
  destruct (puts_facts l [] (NoDup_nil _)) as (A & B & C & D). split; [exact A|]. split; [|exact D].
  intros x H. apply C in H as [[]|H]. exact H.
Qed.
(** Adding points with ids *)
Lemma add_map_points {P L} (l : list (Z * P)) : forall m : dmap P L, (forall x, In x l -> fst x <> 0) ->
  d_points (fold_left add_map_point l m) = fold_left put l (d_points m) /\ d_lines (fold_left add_map_point l m) = d_lines m.
Proof.
  induction l as [|e l IH]; intros m H; cbn [fold_left]; [auto|]. assert (H0 : fst e <> 0) by (apply H; left; reflexivity).
  destruct (IH (add_map_point m e)) as (A & B); [intros; apply H; right; auto|]. rewrite A, B. unfold add_map_point, put.
  destruct (Z.eqb_spec (fst e) 0); [contradiction|]. destruct (has_key (fst e) (d_points m)) eqn:K; [auto|]. cbn [d_points d_lines]. auto.
Qed.
(** Entries that are determined by their keys *)
Lemma keyed {T} (l m : list (Z * T)) : (forall x y, In x l -> In y l -> fst x = fst y -> x = y) -> (forall x, In x m -> In x l) ->
  (forall x, In x l -> In (fst x) (map fst m)) -> forall x, In x m <-> In x l.
Proof.
  intros U S K x. split; [apply S|]. intros H. assert (I := K x H). apply in_map_iff in I as (y & E & I). rewrite <- (U y x); auto.
Qed.

Lemma nodup_key {K T} (l : list (K * T)) k x y : NoDup (map fst l) -> In (k, x) l -> In (k, y) l -> x = y.
Proof.
  induction l as [|[k1 z] l IH]; [intros _ []|]. cbn [map fst In]. intros ND. inversion ND as [|? ? N ND']; subst.
  intros [I|I] [J|J]; [congruence| | |auto].
  - exfalso. apply N. apply in_map_iff. exists (k, y). split; [cbn; congruence|exact J].
  - exfalso. apply N. apply in_map_iff. exists (k, x). split; [cbn; congruence|exact I].
Qed.

Lemma nodup_app_l {T} (l m : list T) : NoDup (l ++ m) -> NoDup l.
Proof.
  induction l as [|y l IH]; intros ND; [constructor|]. cbn in ND. inversion ND as [|? ? N ND']; subst.
  constructor; [intros J; apply N, in_or_app; auto|auto].
Qed.

Section Debug.
Context {A : CostAlg}.
Variable idof : elem -> Z.
Notation pt := (create_point idof).
Notation pr := (get_pair idof).
Notation builder := (builder (A := A)).
(** Edges by their elements, relations and costs *)
Definition drawn := (elem * elem * (relation * cost A))%type.

Lemma eqb_refl a : elem_eqb a a = true.
Proof. apply elem_eqb_eq. reflexivity. Qed.
Lemma pair_eqb_eq a b : pair_eqb a b = true <-> a = b.
Proof.
  unfold pair_eqb. rewrite andb_true_iff, !elem_eqb_eq. destruct a, b. cbn. split; [intros [<- <-]; reflexivity|intros E; injection E; auto].
Qed.
Lemma find_point_some e l p : find_point e l = Some p -> In (e, p) l.
Proof.
  induction l as [|[k q] l IH]; cbn; [discriminate|]. destruct (elem_eqb k e) eqn:E.
  - apply elem_eqb_eq in E. subst. intros H. injection H as <-. auto.
  - auto.
Qed.
Lemma find_point_none e l : find_point e l = None -> ~ In e (map fst l).
Proof.
  induction l as [|[k q] l IH]; cbn; [auto|]. destruct (elem_eqb k e) eqn:E; [discriminate|]. intros H [I|I]; [|apply IH; auto].
  subst. rewrite eqb_refl in E. discriminate.
Qed.
Lemma find_line_some k l x : find_line (A := A) k l = Some x -> In (k, x) l.
Proof.
  induction l as [|[k' y] l IH]; cbn; [discriminate|]. destruct (pair_eqb k' k) eqn:E.
  - apply pair_eqb_eq in E. subst. intros H. injection H as <-. auto.
  - auto.
Qed.
Lemma find_line_none k l : find_line (A := A) k l = None -> ~ In k (map fst l).
Proof.
  induction l as [|[k' y] l IH]; cbn; [auto|]. destruct (pair_eqb k' k) eqn:E; [discriminate|]. intros H [I|I]; [|apply IH; auto].
  subst. assert (X : pair_eqb k k = true) by (apply pair_eqb_eq; reflexivity). congruence.
Qed.
Lemma pair_cases a b x y : pr a b = pr x y -> (a = x /\ b = y) \/ (a = y /\ b = x).
Proof. unfold get_pair. destruct (idof a <? idof b), (idof x <? idof y); intros E; injection E; auto. Qed.
Lemma pair_sym a b : idof a <> idof b -> pr a b = pr b a.
Proof. intros N. unfold get_pair. destruct (Z.ltb_spec (idof a) (idof b)), (Z.ltb_spec (idof b) (idof a)); auto; lia. Qed.

(** A line that shows what was drawn *)
Definition shows (P : list drawn) (k : elem * elem) (l : gline (A := A)) : Prop :=
  exists a b, k = pr a b /\ gl_from l = pt a /\ gl_to l = pt b /\ In (a, b, (gl_rel l, gl_cost l)) P /\
    (forall v, gl_back l = Some v <-> a <> b /\ In (b, a, v) P).
Record holds (next0 : Z) (P : list drawn) (b : builder) : Prop := {
  h_points : forall k p, In (k, p) (b_points b) -> p = pt k;
  h_pkeys : NoDup (map fst (b_points b));
  h_ends : forall x y v, In (x, y, v) P -> In x (map fst (b_points b)) /\ In y (map fst (b_points b));
  h_lines : forall k l, In (k, l) (b_lines b) -> shows P k l;
  h_all : forall x y v, In (x, y, v) P -> In (pr x y) (map fst (b_lines b));
  h_lkeys : NoDup (map fst (b_lines b));
  h_ids : NoDup (map (fun x => gl_id (snd x)) (b_lines b));
  h_next : forall k l, In (k, l) (b_lines b) -> gl_id l < b_next b }.
Lemma holds_start next : holds next [] (Builder [] [] next).
Proof. constructor; cbn; try constructor; intros; contradiction. Qed.
Lemma holds_point next P b e : holds next P b -> holds next P (add_point idof e b) /\ In e (map fst (b_points (add_point idof e b))) /\
  (forall x, In x (map fst (b_points b)) -> In x (map fst (b_points (add_point idof e b)))) /\
  (forall x, In x (map fst (b_points (add_point idof e b))) -> x = e \/ In x (map fst (b_points b))).
Proof.
  intros H. unfold add_point. destruct (find_point e (b_points b)) as [p|] eqn:F.
  - split; [exact H|]. split; [|auto]. apply find_point_some in F. apply in_map_iff. exists (e, p). auto.
  - apply find_point_none in F. split; [|split; [|split]].
    + constructor; cbn [b_points b_lines b_next]; try (apply H).
      * intros k p I. apply in_app_or in I as [I|[I|[]]]; [apply (h_points _ _ _ H); auto|]. injection I as <- <-. reflexivity.
      * rewrite map_app. apply nodup_snoc; [apply H|exact F].
      * intros x y v I. rewrite map_app, !in_app_iff. destruct (h_ends _ _ _ H x y v I). auto.
    + cbn [b_points]. rewrite map_app. apply in_or_app. right. left. reflexivity.
    + cbn [b_points]. intros x I. rewrite map_app. apply in_or_app. auto.
    + cbn [b_points]. intros x I. rewrite map_app in I. apply in_app_or in I as [I|[I|[]]]; auto.
Qed.
Lemma set_back_keys k v l : map fst (set_back (A := A) k v l) = map fst l.
Proof. unfold set_back. rewrite map_map. apply map_ext. intros [k' x]. cbn. destruct (pair_eqb k' k); reflexivity. Qed.
Lemma set_back_ids k v l : map (fun x => gl_id (snd x)) (set_back (A := A) k v l) = map (fun x => gl_id (snd x)) l.
Proof. unfold set_back. rewrite map_map. apply map_ext. intros [k' x]. cbn. destruct (pair_eqb k' k); reflexivity. Qed.
Lemma holds_edge next P b x y i : holds next P b -> In x (map fst (b_points b)) -> In y (map fst (b_points b)) ->
  (x <> y -> idof x <> idof y) -> (forall v, ~ In (x, y, v) P) ->
  exists b', draw_edge idof x y i b = Some b' /\ holds next (P ++ [(x, y, (ei_rel i, ei_cost i))]) b' /\ b_points b' = b_points b.
Proof.
  intros H Hx Hy D N. unfold draw_edge. destruct (find_line (pr x y) (b_lines b)) as [l0|] eqn:F.
  - eexists. split; [reflexivity|]. split; [|reflexivity]. apply find_line_some in F. destruct (h_lines _ _ _ H _ _ F) as (a0 & b0 & K0 & F0 & T0 & I0 & B0).
    assert (C0 : x <> y /\ a0 = y /\ b0 = x).
    { destruct (pair_cases _ _ _ _ K0) as [[-> ->]|[-> ->]]; [exfalso; eapply N; eauto|]. split; [|auto]. intros ->. eapply N; eauto. }
    destruct C0 as (XY & -> & ->).
    constructor; cbn [b_points b_lines b_next]; try (apply H).
    + intros x0 y0 v I. apply in_app_or in I as [I|[I|[]]]; [eapply H; eauto|]. injection I as <- <- <-. auto.
    + intros k l I. unfold set_back in I. apply in_map_iff in I as ([k' l'] & E & I). cbn [fst snd] in E.
      destruct (pair_eqb k' (pr x y)) eqn:Ek.
      * apply pair_eqb_eq in Ek. injection E as <- <-. subst k'.
        assert (E' : l' = l0) by (eapply nodup_key; [apply H| |]; eassumption).
        subst l'. exists y, x. cbn [gl_from gl_to gl_rel gl_cost gl_back]. split; [apply pair_sym; auto|]. split; [exact F0|]. split; [exact T0|].
        split; [apply in_or_app; auto|]. intros v. rewrite in_app_iff. cbn [In]. split.
        -- intros E. injection E as <-. split; [congruence|]. right. left. reflexivity.
        -- intros [_ [I1|[I1|[]]]]; [exfalso; eapply N; eauto|congruence].
      * injection E as <- <-. destruct (h_lines _ _ _ H _ _ I) as (a1 & b1 & K1 & F1 & T1 & I1 & B1). exists a1, b1.
        split; [exact K1|]. split; [exact F1|]. split; [exact T1|]. split; [apply in_or_app; auto|]. intros v. rewrite B1, in_app_iff. cbn [In].
        split; [tauto|]. intros [Nab [J|[J|[]]]]; [auto|]. injection J as <- <- <-.
        exfalso. assert (X : pair_eqb k' (pr x y) = true) by (apply pair_eqb_eq; rewrite K1; symmetry; exact K0). congruence.
    + intros x0 y0 v I. rewrite set_back_keys. apply in_app_or in I as [I|[I|[]]]; [eapply H; eauto|]. injection I as <- <- <-.
      apply in_map_iff. exists (pr x y, l0). auto.
    + rewrite set_back_keys. apply H.
    + rewrite set_back_ids. apply H.
    + intros k l I. unfold set_back in I. apply in_map_iff in I as ([k' l'] & E & I). apply (h_next _ _ _ H) in I.
      cbn [fst snd] in E. destruct (pair_eqb k' (pr x y)); injection E as <- <-; exact I.
  - assert (PX : forall z, In z (map fst (b_points b)) -> find_point z (b_points b) = Some (pt z)).
    { intros z I. destruct (find_point z (b_points b)) as [p|] eqn:Fz; [|exfalso; eapply find_point_none; eauto].
      apply find_point_some in Fz. apply (h_points _ _ _ H) in Fz. congruence. }
    rewrite (PX x Hx), (PX y Hy). eexists. split; [reflexivity|]. split; [|reflexivity]. apply find_line_none in F.
    assert (NP : x <> y -> forall v, ~ In (y, x, v) P).
    { intros XY v I. apply F. rewrite (pair_sym x y); [|auto]. eapply h_all; eauto. }
    constructor; cbn [b_points b_lines b_next]; try (apply H).
    + intros x0 y0 v I. apply in_app_or in I as [I|[I|[]]]; [eapply H; eauto|]. injection I as <- <- <-. auto.
    + intros k l I. apply in_app_or in I as [I|[I|[]]].
      * destruct (h_lines _ _ _ H _ _ I) as (a1 & b1 & K1 & F1 & T1 & I1 & B1). exists a1, b1.
        split; [exact K1|]. split; [exact F1|]. split; [exact T1|]. split; [apply in_or_app; auto|]. intros v. rewrite B1, in_app_iff. cbn [In].
        split; [tauto|]. intros [Nab [J|[J|[]]]]; [auto|]. injection J as <- <- <-. exfalso. apply F. apply in_map_iff. exists (k, l). split; [|exact I].
        cbn. rewrite K1. apply pair_sym. intros E. apply D; [congruence|auto].
      * injection I as <- <-. exists x, y. cbn [gl_from gl_to gl_rel gl_cost gl_back]. split; [reflexivity|]. split; [reflexivity|]. split; [reflexivity|].
        split; [apply in_or_app; right; left; reflexivity|]. intros v. rewrite in_app_iff. cbn [In]. split; [discriminate|].
        intros [XY [J|[J|[]]]]; [exfalso; eapply NP; eauto|congruence].
    + intros x0 y0 v I. rewrite map_app, in_app_iff. apply in_app_or in I as [I|[I|[]]]; [left; eapply H; eauto|]. injection I as <- <- <-. right. left. reflexivity.
    + rewrite map_app. apply nodup_snoc; [apply H|exact F].
    + rewrite map_app. apply nodup_snoc; [apply H|]. cbn. intros I. apply in_map_iff in I as ([k l] & E & I). apply (h_next _ _ _ H) in I. cbn in E. lia.
    + intros k l I. apply in_app_or in I as [I|[I|[]]]; [apply (h_next _ _ _ H) in I; lia|]. injection I as <- <-. cbn. lia.
Qed.

(** * Loops *)
Definition ids_ok (V : elem -> Prop) : Prop := (forall a, V a -> idof a <> 0) /\ forall a b, V a -> V b -> idof a = idof b -> a = b.
Definition tri (g : graph A) (from : elem) (e : edge A) : drawn :=
  (from, match vertex_elem g (e_tgt e) with Some t => t | None => from end, (ei_rel (e_info e), ei_cost (e_info e))).
Definition within (V : elem -> Prop) (b : builder) : Prop := forall x, In x (map fst (b_points b)) -> V x.
Definition grows (b b' : builder) : Prop := forall x, In x (map fst (b_points b)) -> In x (map fst (b_points b')).
Lemma within_point next P V b e : holds next P b -> within V b -> V e -> within V (add_point idof e b).
Proof. intros H W Ve x I. apply (holds_point next P b e H) in I as [->|I]; auto. Qed.
Lemma draw_edges_ok (V : elem -> Prop) (g : graph A) next from es : ids_ok V -> V from ->
  (forall e, In e es -> exists t, vertex_elem g (e_tgt e) = Some t /\ V t) ->
  forall P b, holds next P b -> within V b -> In from (map fst (b_points b)) -> NoDup (map fst (P ++ map (tri g from) es)) ->
  exists b', draw_edges idof g from es b = Some b' /\ holds next (P ++ map (tri g from) es) b' /\ within V b' /\ grows b b'.
Proof.
  intros [_ Inj] Vf. induction es as [|e es IH]; intros T P b H W F ND; cbn [draw_edges map].
  - exists b. rewrite app_nil_r. split; [reflexivity|]. split; [exact H|]. split; [exact W|]. intros x I. exact I.
  - destruct (T e (or_introl eq_refl)) as (t & Et & Vt). rewrite Et.
    destruct (holds_point next P b t H) as (H1 & In1 & K1 & _). assert (W1 := within_point next P V b t H W Vt).
    assert (TE : tri g from e = (from, t, (ei_rel (e_info e), ei_cost (e_info e)))) by (unfold tri; rewrite Et; reflexivity).
    cbn [map] in ND.
    destruct (holds_edge next P (add_point idof t b) from t (e_info e) H1 (K1 _ F) In1) as (b2 & E2 & H2 & P2).
    { intros N E. apply N. apply Inj; auto. }
    { intros v I. rewrite map_app in ND. cbn [map] in ND. apply NoDup_remove_2 in ND. apply ND. apply in_or_app. left. apply in_map_iff.
      exists (from, t, v). split; [rewrite TE; reflexivity|exact I]. }
    rewrite E2. assert (X : P ++ tri g from e :: map (tri g from) es = (P ++ [tri g from e]) ++ map (tri g from) es) by (rewrite <- app_assoc; reflexivity).
    assert (H2' : holds next (P ++ [tri g from e]) b2) by (rewrite TE; exact H2). clear H2. rename H2' into H2.
    rewrite X in ND |- *. destruct (IH (fun e' I => T e' (or_intror I)) _ b2 H2) as (b3 & E3 & H3 & W3 & G3).
    + intros x I. rewrite P2 in I. auto.
    + rewrite P2. auto.
    + exact ND.
    + exists b3. split; [exact E3|]. split; [exact H3|]. split; [exact W3|]. intros x I. apply G3. rewrite P2. auto.
Qed.
Definition tris (w : gview A) (order : list (elem * nat)) : list drawn :=
  flat_map (fun x => map (tri (v_graph w) (fst x)) (out_edges w (snd x))) order.
Lemma visit_all_ok (V : elem -> Prop) (w : gview A) next : ids_ok V ->
  (forall u e, In e (out_edges w u) -> exists t, vertex_elem (v_graph w) (e_tgt e) = Some t /\ V t) ->
  forall order P b, holds next P b -> within V b -> (forall x, In x order -> V (fst x)) -> NoDup (map fst (P ++ tris w order)) ->
  exists b', visit_all idof w order b = Some b' /\ holds next (P ++ tris w order) b' /\ within V b' /\ grows b b' /\
    forall x, In x order -> In (fst x) (map fst (b_points b')).
Proof.
  intros I T. induction order as [|x order IH]; intros P b H W O ND; cbn [visit_all].
  - exists b. cbn [tris flat_map]. rewrite app_nil_r. split; [reflexivity|]. split; [exact H|]. split; [exact W|]. split; [intros x Hx; exact Hx|intros x []].
  - unfold visit_vertex. destruct (holds_point next P b (fst x) H) as (H1 & In1 & K1 & _).
    assert (Vx : V (fst x)) by (apply O; left; reflexivity). assert (W1 := within_point next P V b (fst x) H W Vx).
    change (tris w (x :: order)) with (map (tri (v_graph w) (fst x)) (out_edges w (snd x)) ++ tris w order) in *.
    rewrite app_assoc in *.
    destruct (draw_edges_ok V (v_graph w) next (fst x) (out_edges w (snd x)) I Vx (T (snd x)) P _ H1 W1 In1) as (b2 & E2 & H2 & W2 & G2).
    { rewrite map_app in ND. eapply nodup_app_l. exact ND. }
    rewrite E2. destruct (IH _ b2 H2 W2 (fun y J => O y (or_intror J)) ND) as (b3 & E3 & H3 & W3 & G3 & O3).
    exists b3. split; [exact E3|]. split; [exact H3|]. split; [exact W3|]. split; [intros y J; auto|].
    intros y [<-|J]; auto.
Qed.

(** * What is in the map *)
Lemma run_ok (V : elem -> Prop) (w : gview A) order next : ids_ok V -> (forall a, V a <-> In a (map fst order)) ->
  (forall u e, In e (out_edges w u) -> exists t, vertex_elem (v_graph w) (e_tgt e) = Some t /\ V t) ->
  NoDup (map fst (tris w order)) ->
  exists m, run_debug idof w order next = Some m /\
    NoDup (map fst (d_points m)) /\ (forall i p, In (i, p) (d_points m) <-> exists a, V a /\ i = idof a /\ p = pt a) /\
    NoDup (map fst (d_lines m)) /\ (forall i l, In (i, l) (d_lines m) -> i = gl_id l) /\
    (forall i l, In (i, l) (d_lines m) -> exists a b, gl_from l = pt a /\ gl_to l = pt b /\ V a /\ V b /\
      In (a, b, (gl_rel l, gl_cost l)) (tris w order) /\ (forall v, gl_back l = Some v <-> a <> b /\ In (b, a, v) (tris w order))) /\
    (forall a b v, In (a, b, v) (tris w order) -> exists i l, In (i, l) (d_lines m) /\
      ((gl_from l = pt a /\ gl_to l = pt b) \/ (gl_from l = pt b /\ gl_to l = pt a))) /\
    (forall i j l k, In (i, l) (d_lines m) -> In (j, k) (d_lines m) ->
      (gl_from l = gl_from k /\ gl_to l = gl_to k) \/ (gl_from l = gl_to k /\ gl_to l = gl_from k) -> i = j).
Proof.
  intros I O T ND. destruct (visit_all_ok V w next I T order [] (Builder [] [] next) (holds_start next)) as (b & E & H & W & _ & Pt).
  { intros x []. } { intros x J. apply O. apply in_map. exact J. } { exact ND. }
  cbn [app] in H. unfold run_debug. rewrite E. clear E. eexists. split; [reflexivity|].
  assert (PV : forall k p, In (k, p) (b_points b) <-> V k /\ p = pt k).
  { intros k p. split.
    - intros J. split; [apply W; apply in_map_iff; exists (k, p); auto|apply (h_points _ _ _ H); exact J].
    - intros [Vk ->]. apply O in Vk. apply in_map_iff in Vk as (x & <- & Jx). apply Pt in Jx. apply in_map_iff in Jx as ([k' p] & <- & J). cbn.
      rewrite <- (h_points _ _ _ H _ _ J). exact J. }
  set (pts := map (fun x : elem * gpoint => (gp_id (snd x), snd x)) (b_points b)).
  assert (PT : forall i p, In (i, p) pts <-> exists a, V a /\ i = idof a /\ p = pt a).
  { intros i p. unfold pts. rewrite in_map_iff. split.
    - intros ([k q] & E & J). apply PV in J as [Vk ->]. cbn in E. injection E as <- <-. eauto.
    - intros (a & Va & -> & ->). exists (a, pt a). split; [reflexivity|]. apply PV. auto. }
  set (lines := map snd (b_lines b)).
  assert (LE : forall k l, In (k, l) (b_lines b) -> exists a b0, gl_from l = pt a /\ gl_to l = pt b0 /\ V a /\ V b0 /\
      In (a, b0, (gl_rel l, gl_cost l)) (tris w order) /\ (forall v, gl_back l = Some v <-> a <> b0 /\ In (b0, a, v) (tris w order)) /\ k = pr a b0).
  { intros k l J. destruct (h_lines _ _ _ H _ _ J) as (a & b0 & K & F & G & In1 & B). exists a, b0. destruct (h_ends _ _ _ H _ _ _ In1).
    split; [exact F|]. split; [exact G|]. split; [apply W; auto|]. split; [apply W; auto|]. auto. }
  destruct (add_map_points pts (create_map_lines (flat_map line_points lines) (map (fun l => (gl_id l, l)) lines) (b_next b))) as (EP & EL).
  { intros [i p] J. apply PT in J as (a & Va & -> & _). apply I. exact Va. }
  rewrite EP, EL. unfold create_map_lines. cbn [d_points d_lines].
  destruct (keep_first_facts (flat_map (line_points (A := A)) lines)) as (N1 & S1 & _).
  destruct (puts_facts pts _ N1) as (N2 & _ & S2 & K2).
  destruct (keep_first_facts (map (fun l => (gl_id l, l)) lines)) as (N3 & S3 & K3).
  assert (LP : forall x, In x (flat_map (line_points (A := A)) lines) -> In x pts).
  { intros [i p] J. apply in_flat_map in J as (l & Jl & J). unfold lines in Jl. apply in_map_iff in Jl as ([k l'] & El & Jl). cbn in El. subst l'.
    destruct (LE _ _ Jl) as (a & b0 & F & G & Va & Vb & _). apply PT. unfold line_points in J. rewrite F, G in J.
    destruct J as [J|[J|[]]]; cbn in J; injection J as <- <-; eauto. }
  assert (LI : forall i l, In (i, l) (keep_first (map (fun l => (gl_id l, l)) lines)) <-> i = gl_id l /\ In l lines).
  { intros i l. rewrite (keyed (map (fun l => (gl_id l, l)) lines)); [|  |exact S3|exact K3].
    - rewrite in_map_iff. split; [intros (x & E & J); injection E as <- <-; auto|intros [-> J]; exists l; auto].
    - intros x y Jx Jy E. apply in_map_iff in Jx as (lx & <- & Jx). apply in_map_iff in Jy as (ly & <- & Jy). cbn in E.
      assert (lx = ly); [|congruence]. unfold lines in Jx, Jy.
      apply in_map_iff in Jx as (ex & <- & Jx). apply in_map_iff in Jy as (ey & <- & Jy).
      assert (ND2 : NoDup (map fst (map (fun x => (gl_id (snd x), snd x)) (b_lines b)))).
      { rewrite map_map. apply (h_ids _ _ _ H). }
      eapply nodup_key; [exact ND2|apply in_map_iff; exists ex; split; [reflexivity|exact Jx]|apply in_map_iff; exists ey; split; [rewrite E; reflexivity|exact Jy]]. }
  split; [exact N2|]. split.
  { intros i p. rewrite <- PT. apply keyed; [|intros x J; apply S2 in J as [J|J]; auto|exact K2].
    intros [i1 p1] [i2 p2] J1 J2 Eq. apply PT in J1 as (a1 & V1 & -> & ->). apply PT in J2 as (a2 & V2 & -> & ->). cbn in Eq.
    assert (a1 = a2) by (apply I; auto). subst. reflexivity. }
  split; [exact N3|]. split; [intros i l J; apply LI in J; tauto|].
  assert (LL : forall l, In l lines -> exists k, In (k, l) (b_lines b)).
  { intros l J. unfold lines in J. apply in_map_iff in J as ([k l'] & <- & J). eauto. }
  split; [|split].
  - intros i l J. apply LI in J as [_ J]. apply LL in J as (k & J). destruct (LE _ _ J) as (a & b0 & F & G & Va & Vb & In1 & B & _). exists a, b0. auto 10.
  - intros a b0 v J. apply (h_all _ _ _ H) in J. apply in_map_iff in J as ([k l] & Ek & J). cbn in Ek. exists (gl_id l), l. split.
    + apply LI. split; [reflexivity|]. unfold lines. apply in_map_iff. exists (k, l). auto.
    + destruct (LE _ _ J) as (a1 & b1 & F & G & _ & _ & _ & _ & K). rewrite Ek in K. symmetry in K. destruct (pair_cases _ _ _ _ K) as [[-> ->]|[-> ->]]; auto.
  - intros i j l k J1 J2 S. apply LI in J1 as [-> J1]. apply LI in J2 as [-> J2]. apply LL in J1 as (k1 & J1). apply LL in J2 as (k2 & J2).
    destruct (LE _ _ J1) as (a1 & b1 & F1 & G1 & Va1 & Vb1 & In1 & B1 & K1). destruct (LE _ _ J2) as (a2 & b2 & F2 & G2 & Va2 & Vb2 & In2 & B2 & K2').
    assert (PI : forall x y, pt x = pt y -> x = y) by (intros x y E; unfold create_point in E; congruence).
    assert (k1 = k2).
    { subst k1 k2. rewrite F1, F2, G1, G2 in S. destruct S as [[S1' S2']|[S1' S2']]; apply PI in S1'; apply PI in S2'; subst; [reflexivity|].
      unfold get_pair. destruct (Z.ltb_spec (idof b2) (idof a2)), (Z.ltb_spec (idof a2) (idof b2)); try reflexivity; [lia|].
      assert (a2 = b2) by (apply I; auto; lia). subst. reflexivity. }
    subst k2. f_equal. eapply nodup_key; [apply (h_lkeys _ _ _ H)|exact J1|]. rewrite H0. exact J2.
Qed.

(** * Built graphs *)
Definition looked (g : graph A) : Prop := NoDup (map fst (g_lookup g)) /\
  (forall a v, assoc a (g_lookup g) = Some v -> vertex_elem g v = Some a) /\
  (forall e, In e (g_edges g) -> (exists a, assoc a (g_lookup g) = Some (e_src e)) /\ exists b, assoc b (g_lookup g) = Some (e_tgt e)).
Lemma assoc_in a v l : assoc a l = Some v -> In (a, v) l.
Proof.
  induction l as [|[k x] l IH]; cbn; [discriminate|]. destruct (elem_eqb a k) eqn:E; [|auto]. apply elem_eqb_eq in E. subst. intros H. injection H as <-. auto.
Qed.
Lemma assoc_none a l : assoc a l = None -> ~ In a (map fst l).
Proof.
  induction l as [|[k x] l IH]; cbn; [auto|]. destruct (elem_eqb a k) eqn:E; [discriminate|]. intros H [->|J]; [rewrite eqb_refl in E; discriminate|].
  apply IH; auto.
Qed.
Lemma in_assoc a v l : NoDup (map fst l) -> In (a, v) l -> assoc a l = Some v.
Proof.
  intros ND J. destruct (assoc a l) as [u|] eqn:E.
  - apply assoc_in in E. f_equal. eapply nodup_key; eauto.
  - exfalso. apply assoc_none in E. apply E. apply in_map_iff. exists (a, v). auto.
Qed.
Lemma gbuild_looked n ops : looked (gbuild n ops).
Proof.
  assert (G : forall ops (g : graph A), looked g -> looked (fold_left gstep ops g)).
  { clear. induction ops as [|o ops IH]; intros g H; [exact H|]. cbn [fold_left]. apply IH. destruct H as (ND & L & E). destruct o as [a|a b i]; cbn [gstep].
    - unfold add_vertex. destruct (assoc a (g_lookup g)) eqn:Ea.
      + split; [exact ND|]. split; [|exact E]. intros b v Hb. cbn in *. unfold vertex_elem. cbn. rewrite nth_error_app1; [apply L; exact Hb|].
        apply nth_error_Some. specialize (L _ _ Hb). unfold vertex_elem in L. congruence.
      + split; [|split]; cbn [g_lookup g_edges].
        * rewrite map_app. apply nodup_snoc; [exact ND|]. apply assoc_none. exact Ea.
        * intros b v. rewrite assoc_app. unfold vertex_elem. cbn [g_verts]. destruct (assoc b (g_lookup g)) eqn:Eb.
          -- intros X. injection X as <-. specialize (L _ _ Eb). unfold vertex_elem in L. rewrite nth_error_app1; [exact L|]. apply nth_error_Some. congruence.
          -- destruct (elem_eqb b a) eqn:Eq; [|discriminate]. intros X. injection X as <-. apply elem_eqb_eq in Eq. subst.
             rewrite nth_error_app2, Nat.sub_diag; reflexivity.
        * intros e J. destruct (E e J) as ((x & Hx) & y & Hy). split; [exists x|exists y]; rewrite assoc_app, ?Hx, ?Hy; reflexivity.
    - unfold add_edge, get_vertex. destruct (assoc a (g_lookup g)) as [u|] eqn:Ea; [|repeat split; auto; apply E; auto].
      destruct (assoc b (g_lookup g)) as [v|] eqn:Eb; [|repeat split; auto; apply E; auto]. unfold add_edge_v.
      destruct (negb _); [repeat split; auto; apply E; auto|]. destruct (cltb _ _ _); [repeat split; auto; apply E; auto|].
      split; [exact ND|]. split; [exact L|]. cbn. intros e J. apply in_app_or in J as [J|[<-|[]]]; [auto|]. cbn. eauto. }
  apply G. split; [constructor|]. split; [intros; discriminate|intros e []].
Qed.
Lemma nodup_filter {T U} (p : T -> bool) (f : T -> U) (l : list T) :
  (forall i j x y, nth_error l i = Some x -> nth_error l j = Some y -> p x = true -> p y = true -> f x = f y -> i = j) -> NoDup (map f (filter p l)).
Proof.
  induction l as [|x l IH]; intros H; cbn [filter]; [constructor|].
  assert (H' : NoDup (map f (filter p l))).
  { apply IH. intros i j a b A1 B1 Pa Pb E. specialize (H (S i) (S j) a b A1 B1 Pa Pb E). congruence. }
  destruct (p x) eqn:Px; [|exact H']. cbn [map]. constructor; [|exact H']. intros J. apply in_map_iff in J as (y & E & J).
  apply filter_In in J as [J Py]. apply In_nth_error in J as (j & J). specialize (H 0%nat (S j) x y eq_refl J Px Py (eq_sym E)). discriminate.
Qed.
Lemma nodup_app {T} (l m : list T) : NoDup l -> NoDup m -> (forall x, In x l -> ~ In x m) -> NoDup (l ++ m).
Proof.
  induction 1 as [|x l N ND IH]; intros M D; [exact M|]. cbn. constructor.
  - intros J. apply in_app_or in J as [J|J]; [auto|]. apply (D x); [left; reflexivity|exact J].
  - apply IH; auto. intros y Jy. apply D. right. exact Jy.
Qed.
Lemma passes_shown costid adjacent conflict (e : edge A) :
  edge_passes costid (debug_mask adjacent conflict) (e_info e) = true <-> shown_edge costid adjacent conflict e.
Proof.
  unfold edge_passes, shown_edge. rewrite andb_true_iff, N.eqb_eq.
  generalize (ei_costid (e_info e) = costid), (ei_rel (e_info e)). intros X r.
  destruct adjacent, conflict, r; vm_compute; intuition congruence.
Qed.
Lemma tris_linked n ops costid adjacent conflict order a b r c : let g := gbuild n ops in Permutation order (g_lookup g) ->
  In (a, b, (r, c)) (tris (GView g costid (debug_mask adjacent conflict)) order) <-> linked g costid adjacent conflict a b r c.
Proof.
  intros g Pm. destruct (gbuild_looked n ops) as (ND & L & E). fold g in ND, L, E. unfold tris. rewrite in_flat_map. split.
  - intros ([x u] & J & K). cbn [fst snd v_graph] in K. apply in_map_iff in K as (e & Eq & K). unfold out_edges in K. apply filter_In in K as [Je K].
    cbn [v_graph v_costid v_mask] in *. apply andb_true_iff in K as [Ku Kp]. apply Nat.eqb_eq in Ku. apply passes_shown in Kp.
    unfold tri in Eq. injection Eq as -> Eb <- <-. destruct (E e Je) as (_ & b' & Hb). apply L in Hb. rewrite Hb in Eb. subst b'.
    exists e. split; [exact Je|]. split; [exact Kp|]. split; [|auto]. rewrite Ku. apply L. apply in_assoc; [exact ND|]. eapply Permutation_in; eauto.
  - intros (e & Je & S & Ea & Eb & <- & <-). destruct (E e Je) as ((a' & Ha) & b' & Hb).
    assert (a' = a) by (apply L in Ha; congruence). assert (b' = b) by (apply L in Hb; congruence). subst a' b'.
    exists (a, e_src e). split; [apply assoc_in in Ha; eapply Permutation_in; [symmetry; exact Pm|exact Ha]|]. cbn [fst snd v_graph].
    apply in_map_iff. exists e. split; [unfold tri; rewrite Eb; reflexivity|]. unfold out_edges. apply filter_In. cbn [v_graph v_costid v_mask].
    split; [exact Je|]. rewrite Nat.eqb_refl. cbn. apply passes_shown. exact S.
Qed.
Lemma tris_nodup n ops costid adjacent conflict order : let g := gbuild n ops in Permutation order (g_lookup g) -> single g costid adjacent conflict ->
  NoDup (map fst (tris (GView g costid (debug_mask adjacent conflict)) order)).
Proof.
  intros g Pm S. destruct (gbuild_looked n ops) as (ND & L & E). fold g in ND, L, E.
  assert (NO : NoDup (map fst order)) by (eapply Permutation_NoDup; [symmetry; apply Permutation_map; exact Pm|exact ND]). clear Pm.
  induction order as [|[x u] order IH]; [constructor|]. cbn [map fst] in NO. inversion NO as [|? ? N NO']; subst.
  unfold tris. cbn [flat_map]. rewrite map_app. apply nodup_app; [|apply IH; exact NO'|].
  - rewrite map_map. unfold out_edges. cbn [fst snd v_graph v_costid v_mask]. apply nodup_filter. intros i j e f Ei Ej Pe Pf Eq.
    apply andb_true_iff in Pe as [Ue Pe], Pf as [Uf Pf]. apply Nat.eqb_eq in Ue, Uf. apply passes_shown in Pe, Pf.
    apply (S i j e f); auto; [congruence|]. unfold tri in Eq. injection Eq as Eq.
    destruct (E e (nth_error_In _ _ Ei)) as (_ & b1 & H1). destruct (E f (nth_error_In _ _ Ej)) as (_ & b2 & H2).
    rewrite (L _ _ H1), (L _ _ H2) in Eq. congruence.
  - intros y J K. apply in_map_iff in J as (z & <- & J). apply in_map_iff in J as (e & <- & _). cbn in K.
    apply in_map_iff in K as (z & Ez & K). unfold tris in K. apply in_flat_map in K as ([x' u'] & K1 & K2). apply in_map_iff in K2 as (f & <- & _).
    apply N. unfold tri in Ez. cbn in Ez. injection Ez as -> _. apply in_map_iff. exists (x, u'). auto.
Qed.
End Debug.
