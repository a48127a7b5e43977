From Coq Require Import NArith ZArith List Bool Arith Lia.
From Verif Require Import CostAlg GraphModel GraphSpec GraphProofs TrafficModel BuilderModel BuilderSpec.
Import ListNotations.
Local Open Scope nat_scope.

(** * Outcomes and loops *)
Lemma bind_ok {T U} (r : res T) (f : T -> res U) y :
  bind r f = Ok y -> exists x, r = Ok x /\ f x = Ok y.
Proof. destruct r; simpl; try discriminate. eauto. Qed.

Lemma each_inv {S T} (f : S -> T -> res S) (I : list T -> S -> Prop) (l : list T) :
  (forall done x s s', (exists rest, l = done ++ x :: rest) -> I done s -> f s x = Ok s' -> I (done ++ [x]) s') ->
  forall s s', I [] s -> each f s l = Ok s' -> I l s'.
Proof.
  intros Hstep. assert (H : forall rest done s s', l = done ++ rest -> I done s -> each f s rest = Ok s' -> I l s').
  { induction rest as [|x rest IH]; intros done s s' E Hi Hr; simpl in Hr.
    - injection Hr as <-. rewrite E, app_nil_r. auto.
    - apply bind_ok in Hr as (s1 & Hf & Hr). apply (IH (done ++ [x]) s1); auto.
      + rewrite <- app_assoc. auto.
      + eapply Hstep; eauto. }
  intros s s' Hi Hr. apply (H l [] s s'); auto.
Qed.

Lemma each_total {S T} (f : S -> T -> res S) (I : S -> Prop) (l : list T) :
  (forall x s, In x l -> I s -> exists s', f s x = Ok s' /\ I s') ->
  forall s, I s -> exists s', each f s l = Ok s' /\ I s'.
Proof.
  induction l as [|x l IH]; intros Hstep s Hi; simpl.
  - eauto.
  - destruct (Hstep x s (or_introl eq_refl) Hi) as (s1 & E & Hi1). rewrite E. simpl.
    apply IH; auto. intros y t Hy. apply Hstep. right. auto.
Qed.

(** * Names of lanelets *)
Lemma lref_eqb_eq a b : lref_eqb a b = true <-> a = b.
Proof.
  destruct a as [d i], b as [d' i']. unfold lref_eqb. simpl. rewrite andb_true_iff, N.eqb_eq, eqb_true_iff.
  split; [intros [-> ->]; auto|intros E; injection E; auto].
Qed.
Lemma lref_eqb_neq a b : lref_eqb a b = false <-> a <> b.
Proof. rewrite <- lref_eqb_eq. destruct (lref_eqb a b); split; congruence. Qed.
Lemma L_inj a b : L a = L b -> a = b.
Proof. destruct a, b. unfold L. simpl. intros E. injection E. intros -> ->. auto. Qed.
Lemma inv_inv a : inv (inv a) = a.
Proof. destruct a as [d i]. unfold inv. simpl. rewrite negb_involutive. auto. Qed.
Lemma inv_neq a : inv a <> a.
Proof. destruct a as [d []]; unfold inv; simpl; congruence. Qed.
Lemma line_eqb_eq a b : line_eqb a b = true <-> a = b.
Proof.
  destruct a as [d i], b as [d' i']. unfold line_eqb. simpl. rewrite andb_true_iff, Nat.eqb_eq, eqb_true_iff.
  split; [intros [-> ->]; auto|intros E; injection E; auto].
Qed.
Lemma linv_linv b : linv (linv b) = b.
Proof. destruct b as [d i]. unfold linv. simpl. rewrite negb_involutive. auto. Qed.
Lemma linv_neq b : linv b <> b.
Proof. destruct b as [d []]; unfold linv; simpl; congruence. Qed.
Lemma relation_eqb_eq a b : relation_eqb a b = true <-> a = b.
Proof. destruct a, b; simpl; split; congruence. Qed.
Lemma known_in a seen : known a seen = true <-> In a seen.
Proof.
  induction seen as [|b seen IH]; simpl; [intuition congruence|].
  rewrite orb_true_iff, elem_eqb_eq, IH. intuition congruence.
Qed.

(** * The graph as list of named edges *)
Section Graph.
Context {A : CostAlg}.
Notation triple := (elem * elem * einfo A)%type.
Implicit Types (g : graph A) (E : list triple).

Definition repr (Vs : list elem) g E : Prop :=
  GraphProofs.inv Vs g /\ NoDup (g_verts g) /\ map (named g) (g_edges g) = map some_named E.

Lemma repr_edge Vs g E a b r k c : repr Vs g E ->
  joined g a b r k c <-> In (a, b, EInfo c k r) E.
Proof.
  intros (_ & _ & He). split.
  - intros (e & Hin & Hs & Ht & Hi).
    assert (In (named g e) (map some_named E)) as Hn by (rewrite <- He; apply in_map; auto).
    unfold named in Hn. rewrite Hs, Ht, Hi in Hn. apply in_map_iff in Hn as ([[x y] i] & Hn & Hin').
    unfold some_named in Hn. simpl in Hn. injection Hn as -> -> ->. auto.
  - intros Hin. apply (in_map some_named) in Hin. rewrite <- He in Hin.
    apply in_map_iff in Hin as (e & Hn & Hin). exists e. unfold named, some_named in Hn. simpl in Hn.
    injection Hn as -> -> ->. auto.
Qed.

Lemma repr_parallel Vs g E a b r k : repr Vs g E ->
  parallel g a b r k =
  map (fun t => ei_cost (snd t))
    (filter (fun t : triple => elem_eqb (fst (fst t)) a && elem_eqb (snd (fst t)) b
       && relation_eqb (ei_rel (snd t)) r && N.eqb (ei_costid (snd t)) k) E).
Proof.
  intros (_ & _ & He). unfold parallel. revert E He. induction (g_edges g) as [|e es IH]; intros [|t E] He;
    simpl in *; try discriminate; auto.
  injection He as H1 H2 H3 H4. rewrite H1, H2, H3. cbn [is_elem].
  destruct (_ && _); simpl; rewrite (IH E) by auto; auto. rewrite H3. auto.
Qed.

Lemma nodup_nth {T} (l : list T) i j x : NoDup l -> nth_error l i = Some x -> nth_error l j = Some x -> i = j.
Proof.
  intros Hn Hi Hj. eapply (proj1 (NoDup_nth_error l)); eauto.
  - apply nth_error_Some. congruence.
  - congruence.
Qed.

Lemma repr_vertex Vs g E a v : repr Vs g E -> get_vertex g a = Some v -> forall u,
  vertex_elem g u = Some a <-> u = v.
Proof.
  intros ((H1 & _) & Hn & _) Hv u. pose proof (H1 _ _ Hv) as H. unfold vertex_elem. split.
  - intros Hu. eapply nodup_nth; eauto.
  - intros ->. auto.
Qed.

Lemma repr_known Vs g E a : repr Vs g E -> In a Vs <-> exists v, get_vertex g a = Some v.
Proof. intros ((_ & H & _) & _). rewrite <- known_in. apply H. Qed.

Lemma repr_ends Vs g E a b i : repr Vs g E -> In (a, b, i) E -> In a Vs /\ In b Vs.
Proof.
  intros ((_ & _ & _ & H4) & _ & He) Hin. apply (in_map some_named) in Hin. rewrite <- He in Hin.
  apply in_map_iff in Hin as (e & Hn & _). unfold named, some_named in Hn. simpl in Hn. injection Hn as Ha Hb _.
  rewrite <- !known_in. eauto.
Qed.

Lemma repr_has_edge Vs g E a b : repr Vs g E ->
  has_edge g a b = true <-> exists i, In (L a, L b, i) E.
Proof.
  intros Hr. unfold has_edge, get_edge_info. split.
  - destruct (get_vertex g (L a)) as [u|] eqn:Eu; [|discriminate].
    destruct (get_vertex g (L b)) as [v|] eqn:Ev; [|discriminate].
    unfold first_edge. destruct (find _ _) as [e|] eqn:Ef; [|discriminate]. intros _.
    apply find_some in Ef as [Hin Hb]. apply andb_true_iff in Hb as [Hs Ht].
    apply Nat.eqb_eq in Hs. apply Nat.eqb_eq in Ht.
    exists (e_info e). destruct (e_info e) as [c k r] eqn:Ei. eapply repr_edge; eauto. exists e.
    rewrite (repr_vertex _ _ _ _ _ Hr Eu), (repr_vertex _ _ _ _ _ Hr Ev). auto.
  - intros [[c k r] Hin]. pose proof (repr_ends _ _ _ _ _ _ Hr Hin) as [Ha Hb].
    apply (repr_known _ _ _ _ Hr) in Ha as [u Hu]. apply (repr_known _ _ _ _ Hr) in Hb as [v Hv].
    rewrite Hu, Hv. eapply repr_edge in Hin as (e & Hin & Hs & Ht & Hi); eauto. unfold first_edge.
    destruct (find _ _) as [e'|] eqn:Ef; auto. exfalso.
    apply (find_none _ _ Ef) in Hin. cbv beta in Hin.
    rewrite (repr_vertex _ _ _ _ _ Hr Hu) in Hs. rewrite (repr_vertex _ _ _ _ _ Hr Hv) in Ht.
    subst. rewrite !Nat.eqb_refl in Hin. discriminate.
Qed.

Definition accepted (Vs : list elem) (t : triple) : list triple :=
  if known (fst (fst t)) Vs && known (snd (fst t)) Vs && good_cost (ei_cost (snd t)) then [t] else [].

Lemma put_ok Vs g E a b i g' : repr Vs g E -> put g a b i = Ok g' ->
  repr Vs g' (E ++ accepted Vs (a, b, i)).
Proof.
  intros (Hi & Hn & He) Hp. unfold put in Hp.
  destruct (inv_edge Vs g a b i Hi) as (Hi' & Hv' & He' & Hres).
  destruct (add_edge g a b i) as [g1 r] eqn:Ea. simpl in *.
  assert (g1 = g') by (destruct r; congruence). subst g1. split; [auto|split].
  - rewrite Hv'. auto.
  - rewrite He', He, map_app. f_equal. unfold accepted. simpl. destruct (_ && _); auto.
Qed.

Lemma put_total Vs g E a b i : repr Vs g E ->
  (cltb A (ei_cost i) (czero A) = false \/ cfinite A (ei_cost i) = false) ->
  exists g', put g a b i = Ok g' /\ repr Vs g' (E ++ accepted Vs (a, b, i)).
Proof.
  intros Hr Hc. pose proof Hr as (Hi & _). destruct (inv_edge Vs g a b i Hi) as (_ & _ & _ & Hres).
  assert (exists g', put g a b i = Ok g') as [g' Hp].
  { unfold put. destruct (add_edge g a b i) as [g1 r]. simpl in Hres. subst r.
    destruct (_ && _ && _) eqn:E1; [|eauto]. destruct (cltb _ _ _) eqn:E2; [|eauto].
    apply andb_true_iff in E1 as [_ E1]. destruct Hc; congruence. }
  exists g'. split; auto. eapply put_ok; eauto.
Qed.

(** A batch of edges, one for each cost module. *)
Lemma puts_ok {T} Vs (f : T -> triple) (l : list T) : forall g E g',
  repr Vs g E ->
  each (fun g x => put g (fst (fst (f x))) (snd (fst (f x))) (snd (f x))) g l = Ok g' ->
  repr Vs g' (E ++ flat_map (fun x => accepted Vs (f x)) l).
Proof.
  induction l as [|x l IH]; intros g E g' Hr H; simpl in *.
  - injection H as <-. rewrite app_nil_r. auto.
  - apply bind_ok in H as (g1 & H1 & H). eapply put_ok in H1; eauto.
    apply (IH _ _ _ H1) in H. rewrite <- app_assoc in H.
    destruct (f x) as [[a b] i]. auto.
Qed.
Lemma puts_total {T} Vs (f : T -> triple) (l : list T) : forall g E,
  repr Vs g E -> (forall x, In x l -> unsigned (ei_cost (snd (f x)))) ->
  exists g', each (fun g x => put g (fst (fst (f x))) (snd (fst (f x))) (snd (f x))) g l = Ok g' /\
  repr Vs g' (E ++ flat_map (fun x => accepted Vs (f x)) l).
Proof.
  induction l as [|x l IH]; intros g E Hr Hc; simpl in *.
  - exists g. rewrite app_nil_r. auto.
  - destruct (put_total Vs g E (fst (fst (f x))) (snd (fst (f x))) (snd (f x)) Hr (Hc x (or_introl eq_refl)))
      as (g1 & -> & Hr1). simpl.
    destruct (IH _ _ Hr1 (fun y Hy => Hc y (or_intror Hy))) as (g' & -> & Hr'). exists g'. split; auto.
    rewrite <- app_assoc in Hr'. destruct (f x) as [[a b] i]. auto.
Qed.
End Graph.

(** * Bounds and the search index *)
Section Bounds.
Variable w : world.

Lemma line_points_linv b : line_points w (linv b) = rev (line_points w b).
Proof. destruct b as [d []]; unfold line_points, linv; simpl; [rewrite rev_involutive|]; auto. Qed.
Lemma left_points_eq l : left_points w l = line_points w (lbound w l).
Proof. destruct l as [d []]; unfold left_points, lbound; simpl; [rewrite line_points_linv|]; auto. Qed.
Lemma right_points_eq l : right_points w l = line_points w (rbound w l).
Proof. destruct l as [d []]; unfold right_points, rbound; simpl; [rewrite line_points_linv|]; auto. Qed.
Lemma first_some b p : first w b = Some p <-> exists r, line_points w b = p :: r.
Proof.
  unfold first. destruct (line_points w b) as [|q r]; simpl; split.
  - discriminate. - intros [r H]. discriminate.
  - intros H. injection H as ->. eauto. - intros [r' H]. injection H as -> ->. auto.
Qed.
Lemma last_some b p : last w b = Some p <-> exists r, line_points w b = r ++ [p].
Proof.
  unfold last. pose proof (rev_involutive (line_points w b)) as Hr.
  destruct (rev (line_points w b)) as [|q r]; simpl in *; rewrite <- Hr; split.
  - discriminate. - intros [[|x r] H]; discriminate.
  - intros H. injection H as ->. eauto. - intros [r' H]. apply app_inj_tail in H as [_ ->]. auto.
Qed.
Lemma starts_iff l p q : starts w l p q <-> first w (lbound w l) = Some p /\ first w (rbound w l) = Some q.
Proof. unfold starts. rewrite left_points_eq, right_points_eq, !first_some. tauto. Qed.
Lemma ends_iff l p q : ends w l p q <-> last w (lbound w l) = Some p /\ last w (rbound w l) = Some q.
Proof. unfold ends. rewrite left_points_eq, right_points_eq, !last_some. tauto. Qed.
Lemma same_point_iff a b : same_point a b = true <-> exists p, a = Some p /\ b = Some p.
Proof.
  destruct a as [p|], b as [q|]; simpl; try (split; [discriminate|intros (x & H1 & H2); congruence]).
  rewrite Nat.eqb_eq. split; [intros ->; eauto|intros (x & H1 & H2); congruence].
Qed.
Lemma follows_iff p n : follows w p n = true <-> continued_by w p n.
Proof.
  unfold follows, continued_by. rewrite andb_true_iff, !same_point_iff. split.
  - intros ((x & H1 & H2) & (y & H3 & H4)). exists x, y. rewrite ends_iff, starts_iff. auto.
  - intros (x & y & He & Hs). rewrite ends_iff in He. rewrite starts_iff in Hs. split; [exists x|exists y]; tauto.
Qed.
Lemma beside_iff s b l : b <> l -> beside w s b l = true <-> neighbour w s b l.
Proof.
  intros Hn. unfold neighbour. destruct s; simpl; unfold right_of, left_of; rewrite line_eqb_eq; intuition congruence.
Qed.

Lemma lbound_inv l : lbound w (inv l) = linv (rbound w l).
Proof. destruct l as [d []]; unfold lbound, rbound, inv; simpl; rewrite ?linv_linv; auto. Qed.
Lemma rbound_inv l : rbound w (inv l) = linv (lbound w l).
Proof. destruct l as [d []]; unfold lbound, rbound, inv; simpl; rewrite ?linv_linv; auto. Qed.

(** Neighbours, followers and predecessors do not overlap. *)
Lemma beside_inv s l : beside w s (inv l) l = false.
Proof.
  destruct (beside w s (inv l) l) eqn:E; auto. exfalso. destruct s; simpl in E; unfold right_of, left_of in E;
  apply line_eqb_eq in E; rewrite ?rbound_inv, ?lbound_inv in E; [|symmetry in E]; apply linv_neq in E; auto.
Qed.
Lemma fst_eq_inv (a b : lref) : fst a = fst b -> a <> b -> b = inv a.
Proof. destruct a as [d []], b as [d' []]; simpl; intros -> H; unfold inv; simpl; congruence. Qed.
Lemma beside_no_overlap s a b : a <> b -> beside w s b a = true -> fst a <> fst b /\ overlaps w a b = false /\ overlaps w b a = false.
Proof.
  intros Hn Hb. assert (Hf : fst a <> fst b).
  { intros Hf. rewrite (fst_eq_inv a b Hf Hn), beside_inv in Hb. discriminate. }
  split; auto. unfold overlaps.
  destruct (N.eqb_spec (fst a) (fst b)) as [|_]; [contradiction|].
  destruct (N.eqb_spec (fst b) (fst a)) as [|_]; [congruence|].
  destruct s; simpl in Hb; unfold right_of, left_of in Hb; pose proof Hb as Hb'; apply line_eqb_eq in Hb';
  rewrite ?Hb', ?(proj2 (line_eqb_eq _ _) eq_refl), ?orb_true_r; simpl; rewrite ?orb_true_r; auto.
Qed.
Lemma follows_no_overlap a b : fst a <> fst b -> follows w a b = true -> overlaps w a b = false /\ overlaps w b a = false.
Proof.
  intros Hf H. unfold overlaps.
  destruct (N.eqb_spec (fst a) (fst b)) as [|_]; [contradiction|].
  destruct (N.eqb_spec (fst b) (fst a)) as [|_]; [congruence|].
  rewrite H, !orb_true_r. simpl. rewrite ?orb_true_r. auto.
Qed.
Lemma overlaps_sym a b : (forall a b, w_meet w a b = w_meet w b a) -> overlaps w a b = overlaps w b a.
Proof.
  intros Hs. unfold overlaps. rewrite (N.eqb_sym (fst b)). destruct (N.eqb _ _); auto.
  rewrite (Hs b a).
  assert (forall x y, line_eqb x y = line_eqb y x) as Hl.
  { intros [x i] [y j]. unfold line_eqb. simpl. rewrite (Nat.eqb_sym y). destruct i, j; auto. }
  assert (forall x y, line_eqb (linv x) y = line_eqb x (linv y)) as Hv.
  { intros [x i] [y j]. unfold line_eqb. simpl. destruct i, j; auto. }
  rewrite (Hl (rbound w b)), (Hl (lbound w b)), (Hv (lbound w b)), (Hv (rbound w b)),
    (Hl (lbound w b)), (Hl (rbound w b)).
  f_equal.
  destruct (line_eqb (lbound w a) (rbound w b)), (line_eqb (rbound w a) (lbound w b)),
    (line_eqb (linv (lbound w a)) (lbound w b)), (line_eqb (linv (rbound w a)) (rbound w b)),
    (follows w a b), (follows w b a), (follows w (inv a) b), (follows w (inv b) a); reflexivity.
Qed.

Lemma key_eqb_eq a b : key_eqb a b = true <-> a = b.
Proof.
  destruct a, b. unfold key_eqb. simpl. rewrite andb_true_iff, !Z.eqb_eq. split; [intros [-> ->]; auto|].
  intros E. injection E. auto.
Qed.
Lemma ordered_eq p q x y : ordered w p q = ordered w x y <->
  (w_pid w p = w_pid w x /\ w_pid w q = w_pid w y) \/ (w_pid w p = w_pid w y /\ w_pid w q = w_pid w x).
Proof.
  unfold ordered. destruct (Z.ltb_spec (w_pid w p) (w_pid w q)), (Z.ltb_spec (w_pid w x) (w_pid w y)); split;
    intros Heq; try (injection Heq as ? ?); try (f_equal; lia); lia.
Qed.

(** The entries of a lanelet. *)
Definition entries (l : lref) : list (key * lref) :=
  match first w (lbound w l), first w (rbound w l), last w (lbound w l), last w (rbound w l) with
  | Some p, Some q, Some x, Some y =>
      [(ordered w p q, l); (ordered w x y, l); (ordered w p x, l); (ordered w q y, l)]
  | _, _, _, _ => []
  end.
Definition anchored (l : lref) : Prop := exists p q x y, starts w l p q /\ ends w l x y.
Lemma add_points_ok idx l idx' : add_points w idx l = Ok idx' -> idx' = idx ++ entries l /\ anchored l.
Proof.
  unfold add_points, entries, anchored. setoid_rewrite starts_iff. setoid_rewrite ends_iff.
  destruct (first w (lbound w l)) as [p|], (first w (rbound w l)) as [q|]; try discriminate; simpl.
  destruct (last w (lbound w l)) as [x|], (last w (rbound w l)) as [y|]; try discriminate; simpl.
  intros H. injection H as <-. eauto 10.
Qed.
Lemma add_points_total idx l : anchored l -> add_points w idx l = Ok (idx ++ entries l).
Proof.
  intros (p & q & x & y & Hs & He). apply starts_iff in Hs as [H1 H2]. apply ends_iff in He as [H3 H4].
  unfold add_points, entries. rewrite H1, H2, H3, H4. reflexivity.
Qed.
Lemma anchored_iff l : anchored l <-> left_points w l <> [] /\ right_points w l <> [].
Proof.
  split.
  - intros (p & q & x & y & [[r ->] [r' ->]] & _). split; discriminate.
  - intros [Hl Hr]. unfold anchored, starts, ends.
    destruct (exists_last Hl) as (r1 & x & E1). destruct (exists_last Hr) as (r2 & y & E2).
    destruct (left_points w l) as [|p r3]; [congruence|]. destruct (right_points w l) as [|q r4]; [congruence|].
    exists p, q, x, y. eauto 10.
Qed.
Lemma drawn_anchored l : drawn w (fst l) -> anchored l.
Proof.
  intros [Hl Hr]. apply anchored_iff. destruct l as [d []]; unfold left_points, right_points; simpl in *; auto.
  split; intros H; apply (f_equal (@rev nat)) in H; rewrite rev_involutive in H; auto.
Qed.
Lemma anchored_drawn l : anchored l -> drawn w (fst l).
Proof.
  rewrite anchored_iff. destruct l as [d []]; unfold left_points, right_points, drawn; simpl; auto.
  intros [Hl Hr]. split; intros H; rewrite H in *; auto.
Qed.

Lemma in_range idx k l : In l (equal_range idx k) <-> In (k, l) idx.
Proof.
  unfold equal_range. rewrite in_map_iff. split.
  - intros ([k' l'] & <- & H). apply filter_In in H as [H Hk]. apply key_eqb_eq in Hk. simpl in *. subst. auto.
  - intros H. exists (k, l). split; auto. apply filter_In. split; auto. apply key_eqb_eq. auto.
Qed.
Lemma in_entries k l l' : In (k, l) (entries l') -> l = l'.
Proof.
  unfold entries. destruct (first w (lbound w l')), (first w (rbound w l')), (last w (lbound w l')),
    (last w (rbound w l')); simpl; try tauto. intuition congruence.
Qed.
Lemma in_index k l ls : In (k, l) (flat_map entries ls) -> In l ls /\ In (k, l) (entries l).
Proof.
  intros H. apply in_flat_map in H as (l' & Hl & H). pose proof (in_entries _ _ _ H). subst. auto.
Qed.

(** A lanelet that follows is found under the end of the lanelet. *)
Lemma followed_found ls p n k : In n ls -> follows w p n = true -> anchored n ->
  key_of w (last w (lbound w p)) (last w (rbound w p)) = Some k ->
  In n (equal_range (flat_map entries ls) k).
Proof.
  intros Hin Hf (a & b & x & y & Hs & He) Hk. apply in_range, in_flat_map. exists n. split; auto.
  apply follows_iff in Hf as (u & v & Hu & Hv). apply starts_iff in Hs as [S1 S2]. apply ends_iff in He as [E1 E2].
  apply starts_iff in Hv as [V1 V2]. apply ends_iff in Hu as [U1 U2]. rewrite U1, U2 in Hk. simpl in Hk.
  injection Hk as <-. unfold entries. rewrite V1, V2, E1, E2. left. auto.
Qed.
(** A neighbour is found under the ends of the shared bound. *)
Lemma beside_found ls s b l k : In b ls -> beside w s b l = true -> anchored b ->
  key_of w (first w (side_bound w s l)) (last w (side_bound w s l)) = Some k ->
  In b (equal_range (flat_map entries ls) k).
Proof.
  intros Hin Hb (p & q & x & y & Hs & He) Hk. apply in_range, in_flat_map. exists b. split; auto.
  apply starts_iff in Hs as [S1 S2]. apply ends_iff in He as [E1 E2]. unfold entries. rewrite S1, S2, E1, E2.
  destruct s; simpl in *; unfold right_of, left_of in Hb; apply line_eqb_eq in Hb.
  - rewrite <- Hb, S2, E2 in Hk. simpl in Hk. injection Hk as <-. simpl. auto.
  - rewrite Hb, S1, E1 in Hk. simpl in Hk. injection Hk as <-. simpl. auto.
Qed.
(** An open ended lanelet is found only once among the followers. *)
Lemma followed_once ls p n k : NoDup ls -> In n ls -> open_ended w n -> follows w p n = true ->
  key_of w (last w (lbound w p)) (last w (rbound w p)) = Some k -> anchored n ->
  filter (lref_eqb n) (equal_range (flat_map entries ls) k) = [n].
Proof.
  intros Hnd Hin Ho Hf Hk (p0 & q0 & x & y & Hs & He).
  assert (Hone : filter (lref_eqb n) (equal_range (entries n) k) = [n]).
  { pose proof (Ho _ _ _ _ Hs He) as Hd. apply follows_iff in Hf as (u & v & Hu & Hv).
    assert (u = p0 /\ v = q0) as [-> ->].
    { apply starts_iff in Hs. apply starts_iff in Hv. destruct Hs, Hv. split; congruence. }
    apply starts_iff in Hs as [S1 S2]. apply ends_iff in He as [E1 E2]. apply ends_iff in Hu as [U1 U2].
    unfold entries. rewrite S1, S2, E1, E2. rewrite U1, U2 in Hk. simpl in Hk. injection Hk as <-.
    assert (D1 : w_pid w p0 <> w_pid w x) by (apply Hd; simpl; auto).
    assert (D2 : w_pid w p0 <> w_pid w y) by (apply Hd; simpl; auto).
    assert (D3 : w_pid w q0 <> w_pid w x) by (apply Hd; simpl; auto).
    assert (D4 : w_pid w q0 <> w_pid w y) by (apply Hd; simpl; auto).
    unfold equal_range. cbn [filter fst]. rewrite (proj2 (key_eqb_eq _ _) eq_refl).
    assert (forall a b, ordered w a b <> ordered w p0 q0 -> key_eqb (ordered w a b) (ordered w p0 q0) = false) as Hne.
    { intros a b Hn. destruct (key_eqb _ _) eqn:E; auto. apply key_eqb_eq in E. contradiction. }
    rewrite !Hne by (rewrite ordered_eq; intuition congruence). simpl.
    rewrite (proj2 (lref_eqb_eq n n) eq_refl). auto. }
  assert (Hrest : forall ls, ~ In n ls -> filter (lref_eqb n) (equal_range (flat_map entries ls) k) = []).
  { clear -k. intros ls Hn. destruct (filter _ _) as [|x r] eqn:E; auto. exfalso.
    assert (In x (x :: r)) as Hx by (left; auto). rewrite <- E in Hx. apply filter_In in Hx as [Hx Hb].
    apply lref_eqb_eq in Hb. subst x. apply in_range, in_index in Hx. tauto. }
  apply in_split in Hin as (l1 & l2 & ->). apply NoDup_remove in Hnd as [_ Hn].
  assert (forall i1 i2 : index, equal_range (i1 ++ i2) k = equal_range i1 k ++ equal_range i2 k) as Happ.
  { intros. unfold equal_range. rewrite filter_app, map_app. auto. }
  rewrite flat_map_app. cbn [flat_map]. rewrite !Happ, !filter_app, Hone, !Hrest; auto; intros H; apply Hn; apply in_or_app; auto.
Qed.
End Bounds.
