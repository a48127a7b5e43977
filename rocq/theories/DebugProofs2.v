(** Debug maps of routes. *)
From Coq Require Import ZArith NArith List Bool Lia Permutation.
From Verif Require Import CostAlg GraphModel GraphProofs RouteBuilderModel DebugModel DebugSpec DebugProofs.
Import ListNotations.
Open Scope Z_scope.

Lemma find_key_some {T} i (m : list (Z * T)) x : find_key i m = Some x -> In (i, x) m.
Proof.
  induction m as [|[k y] m IH]; cbn; [discriminate|]. destruct (Z.eqb_spec k i); [|auto]. intros H. injection H as <-. subst. auto.
Qed.
Lemma find_key_none {T} i (m : list (Z * T)) : find_key i m = None <-> ~ In i (map fst m).
Proof.
  induction m as [|[k y] m IH]; cbn; [tauto|]. destruct (Z.eqb_spec k i).
  - split; [discriminate|tauto].
  - rewrite IH. tauto.
Qed.
Lemma find_key_in {T} i (m : list (Z * T)) x : NoDup (map fst m) -> In (i, x) m -> find_key i m = Some x.
Proof.
  intros ND I. destruct (find_key i m) as [y|] eqn:E.
  - apply find_key_some in E. f_equal. eapply nodup_key; eauto.
  - apply find_key_none in E. exfalso. apply E. apply in_map_iff. exists (i, x). auto.
Qed.
Lemma key_eqb_eq a b : key_eqb a b = true <-> a = b.
Proof.
  unfold key_eqb. rewrite andb_true_iff, !Z.eqb_eq. destruct a, b. cbn. split; [intros [<- <-]; reflexivity|intros E; injection E; auto].
Qed.
Lemma find_edge_some k m l : find_edge k m = Some l -> In (k, l) m.
Proof.
  induction m as [|[k' y] m IH]; cbn; [discriminate|]. destruct (key_eqb k' k) eqn:E; [|auto]. apply key_eqb_eq in E. intros H. injection H as <-. subst. auto.
Qed.
Lemma find_edge_none k m : find_edge k m = None -> ~ In k (map fst m).
Proof.
  induction m as [|[k' y] m IH]; cbn; [auto|]. destruct (key_eqb k' k) eqn:E; [discriminate|]. intros H [->|I]; [|apply IH; auto].
  assert (X : key_eqb k k = true) by (apply key_eqb_eq; reflexivity). congruence.
Qed.
Lemma minmax_cases a b x y : minmax a b = minmax x y -> (a = x /\ b = y) \/ (a = y /\ b = x).
Proof. unfold minmax. destruct (Z.ltb_spec b a), (Z.ltb_spec y x); intros E; injection E; lia. Qed.
Lemma minmax_sym a b : minmax a b = minmax b a.
Proof. unfold minmax. destruct (Z.ltb_spec b a), (Z.ltb_spec a b); f_equal; lia. Qed.

(** * The next unused attribute *)
Lemma next_attr_ok dir l : numbered dir l -> next_attr (S (length (rl_attrs l))) dir 1 (rl_attrs l) = Some (S (length (attributes dir l))).
Proof.
  intros N. unfold numbered in N. set (n := length (attributes dir l)) in *.
  assert (In_ : forall i, existsb (fun x => attr_eqb (fst x) (dir, i)) (rl_attrs l) = true <-> (1 <= i <= n)%nat).
  { intros i. assert (X : In i (map (fun x => snd (fst x)) (filter (fun x => Bool.eqb (fst (fst x)) dir) (rl_attrs l))) <-> (1 <= i <= n)%nat).
    { rewrite N, in_seq. lia. }
    rewrite <- X, existsb_exists, in_map_iff. split.
    - intros (x & J & E). unfold attr_eqb in E. apply andb_true_iff in E as [E1 E2]. apply Nat.eqb_eq in E2. cbn in *.
      exists x. split; [exact E2|]. apply filter_In. auto.
    - intros (x & E & J). apply filter_In in J as [J E1]. exists x. split; [exact J|]. unfold attr_eqb. cbn. rewrite E1. apply Nat.eqb_eq. exact E. }
  assert (L : (n <= length (rl_attrs l))%nat).
  { unfold n, attributes. rewrite map_length. clear. induction (rl_attrs l) as [|x m IH]; cbn; [lia|]. destruct (Bool.eqb _ _); cbn; lia. }
  assert (G : forall fuel i, (1 <= i <= S n)%nat -> (S n - i < fuel)%nat -> next_attr fuel dir i (rl_attrs l) = Some (S n)).
  { induction fuel as [|f IH]; intros i Hi Hf; [lia|]. cbn [next_attr]. destruct (existsb _ _) eqn:E.
    - apply In_ in E. apply IH; lia.
    - f_equal. destruct (Nat.eq_dec i (S n)) as [->|Ne]; [reflexivity|]. assert (X : (1 <= i <= n)%nat) by lia. apply In_ in X. congruence. }
  apply G; lia.
Qed.
Lemma attributes_app dir l d i rel : attributes dir (RLine (rl_front l) (rl_back l) (rl_attrs l ++ [((d, i), rel)])) =
  attributes dir l ++ (if Bool.eqb d dir then [rel] else []).
Proof. unfold attributes. cbn [rl_attrs]. rewrite filter_app, map_app. cbn. destruct (Bool.eqb d dir); reflexivity. Qed.
Lemma numbered_app dir l d i rel : numbered dir l -> (d = dir -> i = S (length (attributes dir l))) ->
  numbered dir (RLine (rl_front l) (rl_back l) (rl_attrs l ++ [((d, i), rel)])).
Proof.
  intros N E. unfold numbered. rewrite attributes_app. cbn [rl_attrs]. rewrite filter_app, map_app, N, app_length. cbn [filter fst snd].
  destruct (Bool.eqb d dir) eqn:D; cbn [map length fst snd].
  - apply Bool.eqb_prop in D. rewrite (E D), Nat.add_1_r, seq_S. reflexivity.
  - rewrite app_nil_r, Nat.add_0_r. reflexivity.
Qed.

Section Route.
Context {A : CostAlg}.
Variable idof : elem -> Z.
Variable r : route A.
Notation rels := (relations_among idof r).
Definition pnt (x : elem * N) : Z * rpoint := (idof (fst x), RPoint (idof (fst x)) (Some (snd x)) false).
Definition ends (e : edge A) : list (Z * rpoint) :=
  match vertex_at r (e_src e), vertex_at r (e_tgt e) with Some x, Some y => [pnt x; pnt y] | _, _ => [] end.
Definition seen (P : list (edge A)) : list (Z * rpoint) := keep_first (flat_map ends P).
Lemma ensure_put m x : ensure idof m x = put m (pnt x).
Proof.
  unfold ensure, create_and_add, put. cbn [fst]. destruct (find_key (idof (fst x)) m) eqn:E; [|reflexivity].
  apply find_key_some in E. assert (H : has_key (idof (fst x)) m = true) by (apply has_key_iff, in_map_iff; eexists; split; [|exact E]; reflexivity).
  unfold pnt. cbn [fst]. rewrite H. reflexivity.
Qed.
Lemma seen_snoc P e x y : vertex_at r (e_src e) = Some x -> vertex_at r (e_tgt e) = Some y -> seen (P ++ [e]) = put (put (seen P) (pnt x)) (pnt y).
Proof.
  intros X Y. assert (E : ends e = [pnt x; pnt y]) by (unfold ends; rewrite X, Y; reflexivity).
  unfold seen, keep_first. rewrite flat_map_app, fold_left_app. cbn [flat_map]. rewrite E. reflexivity.
Qed.
Lemma rels_app P Q a b : rels (P ++ Q) a b = rels P a b ++ rels Q a b.
Proof. unfold relations_among. rewrite filter_app, map_app. reflexivity. Qed.
Lemma rels_one e x y a b : vertex_at r (e_src e) = Some x -> vertex_at r (e_tgt e) = Some y ->
  rels [e] a b = if (idof (fst x) =? a) && (idof (fst y) =? b) then [ei_rel (e_info e)] else [].
Proof. intros X Y. unfold relations_among. cbn [filter]. rewrite X, Y. destruct (_ && _); reflexivity. Qed.

(** A line string that shows the relations between its ends *)
Definition shows_line (P : list (edge A)) (k : Z * Z) (l : rline) : Prop :=
  k = minmax (rl_front l) (rl_back l) /\ attributes false l = rels P (rl_front l) (rl_back l) /\
  attributes true l = (if rl_front l =? rl_back l then [] else rels P (rl_back l) (rl_front l)) /\ numbered false l /\ numbered true l.
Record drawn_route (P : list (edge A)) (st : list (Z * rpoint) * edge_map) : Prop := {
  dr_points : fst st = seen P;
  dr_lines : forall k l, In (k, l) (snd st) -> shows_line P k l /\ In (rl_front l) (map fst (seen P)) /\ In (rl_back l) (map fst (seen P));
  dr_keys : NoDup (map fst (snd st));
  dr_all : forall e x y, In e P -> vertex_at r (e_src e) = Some x -> vertex_at r (e_tgt e) = Some y ->
     In (minmax (idof (fst x)) (idof (fst y))) (map fst (snd st)) }.
Lemma put_keys {T} (m : list (Z * T)) e i : In i (map fst (put m e)) <-> In i (map fst m) \/ i = fst e.
Proof.
  unfold put. destruct (has_key (fst e) m) eqn:H.
  - apply has_key_iff in H. split; [auto|]. intros [I| ->]; auto.
  - rewrite map_app, in_app_iff. cbn. intuition.
Qed.
Lemma seen_ids P i p : In (i, p) (seen P) -> rp_id p = i.
Proof.
  intros J. destruct (keep_first_facts (flat_map ends P)) as (_ & S & _). apply S in J. apply in_flat_map in J as (e & _ & J). unfold ends in J.
  destruct (vertex_at r (e_src e)) as [x|], (vertex_at r (e_tgt e)) as [y|]; try contradiction. destruct J as [J|[J|[]]]; unfold pnt in J; injection J as <- <-; reflexivity.
Qed.
Lemma step_ok P st e x y : drawn_route P st -> vertex_at r (e_src e) = Some x -> vertex_at r (e_tgt e) = Some y ->
  exists st', add_relation idof x y (ei_rel (e_info e)) st = Some st' /\ drawn_route (P ++ [e]) st'.
Proof.
  intros H X Y. assert (SN := seen_snoc P e x y X Y). unfold add_relation. rewrite ensure_put, (dr_points _ _ H).
  set (a := idof (fst x)) in *. set (b := idof (fst y)) in *.
  assert (KP : forall i, In i (map fst (seen P)) -> In i (map fst (seen (P ++ [e])))) by (intros i J; rewrite SN, !put_keys; auto).
  assert (R1 : forall c d, rels (P ++ [e]) c d = rels P c d ++ (if (a =? c) && (b =? d) then [ei_rel (e_info e)] else [])).
  { intros c d. rewrite rels_app, (rels_one e x y c d X Y). reflexivity. }
  destruct (find_edge (minmax a b) (snd st)) as [l|] eqn:F.
  - apply find_edge_some in F. destruct (dr_lines _ _ H _ _ F) as ((K & A1 & A2 & N1 & N2) & I1 & I2).
    assert (VM : put (seen P) (pnt x) = seen (P ++ [e])).
    { rewrite SN. unfold put at 2. destruct (has_key (fst (pnt y)) (put (seen P) (pnt x))) eqn:HK; [reflexivity|]. exfalso.
      assert (J : In (fst (pnt y)) (map fst (put (seen P) (pnt x)))).
      { apply put_keys. left. unfold pnt. cbn [fst]. destruct (minmax_cases _ _ _ _ K) as [[_ E]|[_ E]]; fold b; rewrite E; assumption. }
      apply has_key_iff in J. congruence. }
    rewrite VM.
    set (dir := negb (rl_front l =? a)).
    assert (ND : numbered dir l) by (unfold dir; destruct (rl_front l =? a); assumption).
    rewrite (next_attr_ok dir l ND). eexists. split; [reflexivity|]. constructor; cbn [fst snd].
    + reflexivity.
    + intros k m J. apply in_map_iff in J as ([k' l'] & E & J). cbn [fst snd] in E. destruct (key_eqb k' (minmax a b)) eqn:Ek.
      * injection E as <- <-. apply key_eqb_eq in Ek. subst k'. cbn [rl_front rl_back]. split; [|auto].
        split; [cbn [rl_front rl_back]; exact K|]. rewrite !attributes_app, A1, A2. cbn [rl_front rl_back]. rewrite !R1.
        split; [|split; [|split]].
        -- f_equal. unfold dir. destruct (minmax_cases _ _ _ _ K) as [[E1 E2]|[E1 E2]]; rewrite <- E1, <- E2, ?Z.eqb_refl; cbn.
           ++ reflexivity.
           ++ destruct (Z.eqb_spec b a) as [->|Ne]; cbn; [rewrite Z.eqb_refl; reflexivity|]. destruct (Z.eqb_spec a b); [congruence|reflexivity].
        -- unfold dir. destruct (minmax_cases _ _ _ _ K) as [[E1 E2]|[E1 E2]]; rewrite <- E1, <- E2, ?Z.eqb_refl; cbn.
           ++ rewrite app_nil_r. destruct (Z.eqb_spec a b) as [->|Ne]; [reflexivity|]. rewrite ?andb_false_r. cbn. rewrite app_nil_r. reflexivity.
           ++ destruct (Z.eqb_spec b a) as [->|Ne]; [reflexivity|]. cbn. reflexivity.
        -- apply numbered_app; [exact N1|]. intros <-. reflexivity.
        -- apply numbered_app; [exact N2|]. intros E. rewrite <- E. reflexivity.
      * injection E as <- <-. destruct (dr_lines _ _ H _ _ J) as ((K' & B1 & B2 & M1 & M2) & J1 & J2). split; [|auto].
        assert (NE : k' <> minmax a b) by (intros Z0; apply key_eqb_eq in Z0; congruence).
        split; [exact K'|]. rewrite !R1, B1, B2.
        assert (Z1 : (a =? rl_front l') && (b =? rl_back l') = false).
        { apply not_true_iff_false. intros Z0. apply andb_true_iff in Z0 as [Z1 Z2]. apply Z.eqb_eq in Z1, Z2. apply NE. rewrite K', <- Z1, <- Z2. reflexivity. }
        assert (Z2 : (a =? rl_back l') && (b =? rl_front l') = false).
        { apply not_true_iff_false. intros Z0. apply andb_true_iff in Z0 as [Z2 Z3]. apply Z.eqb_eq in Z2, Z3. apply NE. rewrite K', <- Z2, <- Z3. apply minmax_sym. }
        rewrite Z1, Z2, !app_nil_r. auto.
    + rewrite map_map. rewrite (map_ext _ fst); [apply H|]. intros [k' l']. cbn. destruct (key_eqb k' (minmax a b)); reflexivity.
    + intros e' x' y' J X' Y'. rewrite map_map. rewrite (map_ext _ fst); [|intros [k' l']; cbn; destruct (key_eqb k' (minmax a b)); reflexivity].
      apply in_app_or in J as [J|[<-|[]]]; [eapply (dr_all _ _ H); eauto|]. rewrite X in X'. rewrite Y in Y'. injection X' as <-. injection Y' as <-.
      apply in_map_iff. exists (minmax a b, l). auto.
  - rewrite ensure_put, <- SN. apply find_edge_none in F.
    destruct (keep_first_facts (flat_map ends (P ++ [e]))) as (NS & _ & _). fold (seen (P ++ [e])) in NS.
    assert (Ka : In a (map fst (seen (P ++ [e])))) by (rewrite SN, !put_keys; auto).
    assert (Kb : In b (map fst (seen (P ++ [e])))) by (rewrite SN, !put_keys; auto).
    destruct (find_key a (seen (P ++ [e]))) as [p|] eqn:Fa; [|apply find_key_none in Fa; contradiction].
    destruct (find_key b (seen (P ++ [e]))) as [q|] eqn:Fb; [|apply find_key_none in Fb; contradiction].
    apply find_key_some in Fa, Fb. apply seen_ids in Fa, Fb. rewrite Fa, Fb. eexists. split; [reflexivity|].
    assert (NR : forall c d, minmax c d = minmax a b -> rels P c d = []).
    { intros c d E. unfold relations_among. destruct (filter _ P) as [|e0 m] eqn:Ef; [reflexivity|]. exfalso.
      assert (J : In e0 (e0 :: m)) by (left; reflexivity). rewrite <- Ef in J. apply filter_In in J as [J Q].
      destruct (vertex_at r (e_src e0)) as [x0|] eqn:X0; [|discriminate]. destruct (vertex_at r (e_tgt e0)) as [y0|] eqn:Y0; [|discriminate].
      apply andb_true_iff in Q as [Q1 Q2]. apply Z.eqb_eq in Q1, Q2. apply F. rewrite <- E, <- Q1, <- Q2. eapply (dr_all _ _ H); eauto. }
    constructor; cbn [fst snd].
    + reflexivity.
    + intros k l J. apply in_app_or in J as [J|[J|[]]].
      * destruct (dr_lines _ _ H _ _ J) as ((K' & B1 & B2 & M1 & M2) & J1 & J2). split; [|auto].
        assert (NE : k <> minmax a b) by (intros ->; apply F, in_map_iff; exists (minmax a b, l); auto).
        split; [exact K'|]. rewrite !R1, B1, B2.
        assert (Z1 : (a =? rl_front l) && (b =? rl_back l) = false).
        { apply not_true_iff_false. intros Z0. apply andb_true_iff in Z0 as [Z1 Z2]. apply Z.eqb_eq in Z1, Z2. apply NE. rewrite K', <- Z1, <- Z2. reflexivity. }
        assert (Z2 : (a =? rl_back l) && (b =? rl_front l) = false).
        { apply not_true_iff_false. intros Z0. apply andb_true_iff in Z0 as [Z2 Z3]. apply Z.eqb_eq in Z2, Z3. apply NE. rewrite K', <- Z2, <- Z3. apply minmax_sym. }
        rewrite Z1, Z2, !app_nil_r. auto.
      * injection J as <- <-. cbn [rl_front rl_back]. split; [|auto]. split; [reflexivity|]. cbn [rl_front rl_back]. rewrite !R1.
        rewrite (NR a b eq_refl), (NR b a (minmax_sym b a)), !Z.eqb_refl. cbn [andb app]. split; [reflexivity|]. split; [|split; reflexivity].
        destruct (Z.eqb_spec a b); reflexivity.
    + rewrite map_app. apply nodup_snoc; [apply H|exact F].
    + intros e' x' y' J X' Y'. rewrite map_app, in_app_iff. apply in_app_or in J as [J|[<-|[]]]; [left; eapply (dr_all _ _ H); eauto|].
      rewrite X in X'. rewrite Y in Y'. injection X' as <-. injection Y' as <-. right. left. reflexivity.
Qed.
Lemma add_relations_ok es : (forall e, In e es -> exists x y, vertex_at r (e_src e) = Some x /\ vertex_at r (e_tgt e) = Some y) ->
  forall P st, drawn_route P st -> exists st', add_relations idof r es st = Some st' /\ drawn_route (P ++ es) st'.
Proof.
  induction es as [|e es IH]; intros V P st H; cbn [add_relations].
  - exists st. rewrite app_nil_r. auto.
  - destruct (V e (or_introl eq_refl)) as (x & y & X & Y). rewrite X, Y. destruct (step_ok P st e x y H X Y) as (st1 & E1 & H1). rewrite E1.
    replace (P ++ e :: es) with ((P ++ [e]) ++ es) by (rewrite <- app_assoc; reflexivity). apply IH; [intros; apply V; right; auto|exact H1].
Qed.

(** * The edges in the order of their sources *)
Hypothesis OK : route_ok r.
Lemma vertices_at v : (v < length (g_verts (r_graph r)))%nat -> exists x, vertex_at r v = Some x.
Proof.
  intros L. destruct OK as (EL & _). unfold vertex_at, vertex_elem. destruct (nth_error (g_verts (r_graph r)) v) eqn:E1.
  - destruct (nth_error (r_lanes r) v) eqn:E2; [eauto|]. apply nth_error_None in E2. lia.
  - apply nth_error_None in E1. lia.
Qed.
Lemma edge_ends e : In e (g_edges (r_graph r)) -> exists x y, vertex_at r (e_src e) = Some x /\ vertex_at r (e_tgt e) = Some y.
Proof.
  intros J. destruct OK as (_ & E). destruct (E e J) as [L1 L2]. destruct (vertices_at _ L1) as (x & X). destruct (vertices_at _ L2) as (y & Y). eauto.
Qed.
Lemma route_edges_in e : In e (route_edges r) <-> In e (g_edges (r_graph r)).
Proof.
  unfold route_edges. rewrite in_flat_map. split.
  - intros (v & _ & J). apply filter_In in J. tauto.
  - intros J. exists (e_src e). destruct OK as (_ & E). destruct (E e J) as [L _]. split; [apply in_seq; lia|]. apply filter_In. split; [exact J|apply Nat.eqb_refl].
Qed.
Lemma filter_sources (p : edge A -> bool) v0 es n : (forall e, p e = true -> e_src e = v0) -> (v0 < n)%nat ->
  filter p (flat_map (fun v => filter (fun e => Nat.eqb (e_src e) v) es) (seq 0 n)) = filter p es.
Proof.
  intros Hp L. assert (G : forall k s, filter p (flat_map (fun v => filter (fun e => Nat.eqb (e_src e) v) es) (seq s k)) = if (s <=? v0)%nat && (v0 <? s + k)%nat then filter p es else []).
  { induction k as [|k IH]; intros s; cbn [seq flat_map].
    - cbn [filter]. destruct (Nat.leb_spec s v0), (Nat.ltb_spec v0 (s + 0)); cbn; auto; lia.
    - rewrite filter_app, IH.
      assert (F : filter p (filter (fun e => Nat.eqb (e_src e) s) es) = if Nat.eqb s v0 then filter p es else []).
      { clear IH. induction es as [|e es IH]; cbn [filter]; [destruct (Nat.eqb s v0); reflexivity|]. destruct (Nat.eqb_spec (e_src e) s); cbn [filter].
        - destruct (p e) eqn:Pe; [|exact IH]. rewrite IH, <- (Hp e Pe), e0, Nat.eqb_refl. reflexivity.
        - rewrite IH. destruct (p e) eqn:Pe; [|reflexivity]. apply Hp in Pe. destruct (Nat.eqb_spec s v0); [congruence|reflexivity]. }
      rewrite F. destruct (Nat.eqb_spec s v0), (Nat.leb_spec (S s) v0), (Nat.ltb_spec v0 (S s + k)), (Nat.leb_spec s v0), (Nat.ltb_spec v0 (s + S k)); cbn; rewrite ?app_nil_r; auto; lia. }
  rewrite G. destruct (Nat.ltb_spec v0 (0 + n)); [reflexivity|lia].
Qed.
Hypothesis OI : own_ids idof r.
Lemma route_rels a b : rels (route_edges r) a b = relations_between idof r a b.
Proof.
  unfold relations_between, relations_among. f_equal.
  set (p := fun e : edge A => match vertex_at r (e_src e) with
                     | Some x => match vertex_at r (e_tgt e) with Some y => (idof (fst x) =? a) && (idof (fst y) =? b) | None => false end
                     | None => false end).
  destruct (filter p (g_edges (r_graph r))) as [|e0 m] eqn:Ef.
  - destruct (filter p (route_edges r)) as [|e1 m] eqn:Eg; [reflexivity|]. exfalso.
    assert (J : In e1 (e1 :: m)) by (left; reflexivity). rewrite <- Eg in J. apply filter_In in J as [J Q]. apply (proj1 (route_edges_in e1)) in J.
    assert (J' : In e1 (filter p (g_edges (r_graph r)))) by (apply filter_In; auto). rewrite Ef in J'. contradiction.
  - rewrite <- Ef. assert (J : In e0 (e0 :: m)) by (left; reflexivity). rewrite <- Ef in J. apply filter_In in J as [J Q].
    unfold route_edges. apply (filter_sources p (e_src e0)).
    + intros e Pe. unfold p in Pe, Q. destruct (vertex_at r (e_src e)) as [x|] eqn:X; [|discriminate]. destruct (vertex_at r (e_tgt e)); [|discriminate].
      destruct (vertex_at r (e_src e0)) as [x0|] eqn:X0; [|discriminate]. destruct (vertex_at r (e_tgt e0)); [|discriminate].
      apply andb_true_iff in Pe as [Pe _]. apply andb_true_iff in Q as [Q _]. apply Z.eqb_eq in Pe, Q. destruct OI as (_ & U). eapply U; eauto. congruence.
    + destruct OK as (_ & E). apply E. exact J.
Qed.
(** Points *)
Lemma seen_exact i p : In (i, p) (seen (route_edges r)) <-> exists lane, on_edge idof r i lane /\ p = RPoint i (Some lane) false.
Proof.
  assert (FM : In (i, p) (flat_map ends (route_edges r)) <-> exists lane, on_edge idof r i lane /\ p = RPoint i (Some lane) false).
  { rewrite in_flat_map. split.
    - intros (e & J & K). apply route_edges_in in J. unfold ends in K. destruct (vertex_at r (e_src e)) as [x|] eqn:X; [|contradiction].
      destruct (vertex_at r (e_tgt e)) as [y|] eqn:Y; [|contradiction]. destruct K as [K|[K|[]]]; unfold pnt in K; injection K as <- <-.
      + exists (snd x). split; [|reflexivity]. exists e, (e_src e), (fst x). destruct x. auto.
      + exists (snd y). split; [|reflexivity]. exists e, (e_tgt e), (fst y). destruct y. auto.
    - intros (lane & (e & v & x & J & Ev & X & <-) & ->). exists e. split; [apply route_edges_in; exact J|]. unfold ends.
      destruct (edge_ends e J) as (x1 & y1 & X1 & Y1). rewrite X1, Y1. destruct Ev as [-> | ->]; [left|right; left]; unfold pnt; [rewrite X in X1; injection X1 as <-|rewrite X in Y1; injection Y1 as <-]; reflexivity. }
  rewrite <- FM. destruct (keep_first_facts (flat_map ends (route_edges r))) as (_ & S & K). unfold seen. apply keyed; [|exact S|exact K].
  intros [i1 p1] [i2 p2] J1 J2 E. cbn in E. subst i2. apply in_flat_map in J1 as (e1 & _ & J1). apply in_flat_map in J2 as (e2 & _ & J2).
  assert (Q : forall e q, In (i1, q) (ends e) -> exists v x, vertex_at r v = Some x /\ (i1, q) = pnt x).
  { intros e q J. unfold ends in J. destruct (vertex_at r (e_src e)) as [x|] eqn:X; [|contradiction]. destruct (vertex_at r (e_tgt e)) as [y|] eqn:Y; [|contradiction].
    destruct J as [J|[J|[]]]; eauto. }
  destruct (Q _ _ J1) as (v & x & X & Ex). destruct (Q _ _ J2) as (w & y & Y & Ey). destruct OI as (_ & U).
  assert (v = w). { eapply U; eauto. unfold pnt in Ex, Ey. congruence. }
  subst w. rewrite X in Y. injection Y as <-. congruence.
Qed.
End Route.

Section Marks.
Variable idof : elem -> Z.
Definition marked (path : list elem) (x : Z * rpoint) : Z * rpoint :=
  (fst x, RPoint (rp_id (snd x)) (rp_lane (snd x)) (rp_short (snd x) || existsb (fun e => fst x =? idof e) path)).
Lemma mark_all path : forall vm, (forall e, In e path -> In (idof e) (map fst vm)) -> fold_left (mark idof) path vm = map (marked path) vm.
Proof.
  induction path as [|e path IH]; intros vm K; cbn [fold_left].
  - rewrite <- (map_id vm) at 1. apply map_ext. intros [i [a b c]]. unfold marked. cbn. rewrite orb_false_r. reflexivity.
  - assert (M : mark idof vm e = map (marked [e]) vm).
    { unfold mark, put. assert (H : has_key (idof e) vm = true) by (apply has_key_iff, K; left; reflexivity). cbn [fst]. rewrite H. apply map_ext.
      intros [i [a b c]]. unfold marked. cbn. destruct (i =? idof e); [rewrite orb_true_r|rewrite orb_false_r]; reflexivity. }
    rewrite M, IH.
    + rewrite map_map. apply map_ext. intros [i [a b c]]. unfold marked. cbn. rewrite orb_false_r, orb_assoc. reflexivity.
    + intros e' J. rewrite map_map. apply (K e' (or_intror J)).
Qed.
End Marks.
