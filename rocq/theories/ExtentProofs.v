(** Proofs about extents. *)
From Coq Require Import List Bool Arith Reals Lra Lia Permutation.
From Verif Require Import PathModel RelateModel ArcModel ArcSpec ExtentModel ExtentSpec.
Import ListNotations.
Local Open Scope R_scope.

Lemma lt_b_iff x y : lt_b x y = true <-> x < y.
Proof. unfold lt_b. destruct (Rlt_dec x y); split; auto; discriminate. Qed.
Lemma le_b_iff x y : le_b x y = true <-> x <= y.
Proof. unfold le_b. destruct (Rle_dec x y); split; auto; discriminate. Qed.

(** * Ranges of numbers *)
Section range.
Variable big : R.
Definition spans (r : range) (xs : list R) : Prop := match xs with [] => r = no_range big | _ => tight_range r xs end.
Definition within (xs : list R) : Prop := forall x, In x xs -> - big <= x <= big.
Lemma spans_tight r xs : xs <> [] -> spans r xs <-> tight_range r xs.
Proof. destruct xs; [contradiction|reflexivity]. Qed.
Lemma extend_range_no r xs : within xs -> spans r xs -> extend_range (no_range big) r = r.
Proof.
  intros W S. unfold extend_range, no_range. cbn [fst snd]. destruct r as [a b], xs as [|x xs].
  - cbn in S. injection S as -> ->. cbn. f_equal; [apply Rmin_left|apply Rmax_left]; lra.
  - destruct S as (_ & A & B). cbn [fst snd] in *. apply W in A, B. f_equal; [apply Rmin_right|apply Rmax_right]; lra.
Qed.
Lemma extend_range_no_r r xs : within xs -> spans r xs -> extend_range r (no_range big) = r.
Proof.
  intros W S. rewrite <- (extend_range_no r xs) at 2 by assumption. unfold extend_range. f_equal; [apply Rmin_comm|apply Rmax_comm].
Qed.
Lemma spans_app r s xs ys : within xs -> within ys -> spans r xs -> spans s ys -> spans (extend_range r s) (xs ++ ys).
Proof.
  intros W1 W2 S1 S2. destruct xs as [|x xs].
  - cbn in S1. subst r. rewrite (extend_range_no s ys) by assumption. exact S2.
  - destruct ys as [|y ys].
    + cbn in S2. subst s. rewrite app_nil_r, (extend_range_no_r r (x :: xs)) by assumption. exact S1.
    + destruct S1 as (A1 & A2 & A3), S2 as (B1 & B2 & B3). cbn [app spans]. change (x :: xs ++ y :: ys) with ((x :: xs) ++ (y :: ys)).
      unfold extend_range, tight_range, in_range in *. cbn [fst snd]. split; [|split].
      * intros z I. apply in_app_or in I. destruct I as [I|I]; [apply A1 in I|apply B1 in I];
          unfold Rmin, Rmax; destruct (Rle_dec (fst r) (fst s)), (Rle_dec (snd r) (snd s)); lra.
      * apply in_or_app. unfold Rmin. destruct (Rle_dec (fst r) (fst s)); auto.
      * apply in_or_app. unfold Rmax. destruct (Rle_dec (snd r) (snd s)); auto.
Qed.
Lemma spans_one x : spans (x, x) [x].
Proof. cbn. split; [|cbn; auto]. intros y [<-|[]]. unfold in_range. cbn. lra. Qed.
Lemma spans_fold xs : forall r ys, within ys -> within xs -> spans r ys -> spans (fold_left extend_by xs r) (ys ++ xs).
Proof.
  induction xs as [|x xs IH]; intros r ys W1 W2 S; cbn [fold_left].
  - rewrite app_nil_r. exact S.
  - change (x :: xs) with ([x] ++ xs). rewrite app_assoc. apply IH.
    + intros z I. apply in_app_or in I. destruct I as [I|[<-|[]]]; [auto|apply W2; left; reflexivity].
    + intros z I. apply W2. right. exact I.
    + change (extend_by r x) with (extend_range r (x, x)). apply spans_app; auto using spans_one.
      intros z [<-|[]]. apply W2. left. reflexivity.
Qed.
Lemma spans_unique r s xs : spans r xs -> spans s xs -> r = s.
Proof.
  destruct xs as [|x xs]; cbn [spans]; [congruence|]. intros (A1 & A2 & A3) (B1 & B2 & B3).
  destruct r as [a b], s as [c d]. unfold in_range in *. cbn [fst snd] in *.
  pose proof (A1 _ B2). pose proof (A1 _ B3). pose proof (B1 _ A2). pose proof (B1 _ A3). f_equal; lra.
Qed.
Lemma spans_perm r xs ys : Permutation xs ys -> spans r xs -> spans r ys.
Proof.
  intros P S. destruct xs as [|x xs].
  - apply Permutation_nil in P. subst ys. exact S.
  - destruct ys as [|y ys]; [apply Permutation_sym, Permutation_nil in P; discriminate|]. destruct S as (A & B & C). split; [|split].
    + intros z I. apply A. eapply Permutation_in; [symmetry; exact P|exact I].
    + eapply Permutation_in; eauto.
    + eapply Permutation_in; eauto.
Qed.
End range.

(** * Boxes *)
Section boxes.
Variable big : R.
Definition spans2 (b : box) (ps : list point) : Prop := spans big (fst b) (map fst ps) /\ spans big (snd b) (map snd ps).
Definition spans3 (b : box3) (ps : list point3) : Prop := spans2 (fst b) (map fst ps) /\ spans big (snd b) (map snd ps).
Lemma bounded_x ps : bounded big ps -> within big (map fst ps).
Proof. intros B x I. apply in_map_iff in I. destruct I as (p & <- & I). apply (B p I). Qed.
Lemma bounded_y ps : bounded big ps -> within big (map snd ps).
Proof. intros B x I. apply in_map_iff in I. destruct I as (p & <- & I). apply (B p I). Qed.
Lemma bounded_z ps : bounded3 big ps -> within big (map snd ps).
Proof. intros [_ B] x I. apply in_map_iff in I. destruct I as (p & <- & I). apply (B p I). Qed.
Lemma bounded_app ps qs : bounded big (ps ++ qs) <-> bounded big ps /\ bounded big qs.
Proof.
  unfold bounded. split.
  - intros H. split; intros p I; apply H; apply in_or_app; auto.
  - intros [A B] p I. apply in_app_or in I. destruct I; auto.
Qed.
Lemma bounded3_app ps qs : bounded3 big (ps ++ qs) <-> bounded3 big ps /\ bounded3 big qs.
Proof.
  unfold bounded3. rewrite map_app, bounded_app. split.
  - intros [[A B] H]. split; (split; [assumption|]); intros p I; apply H; apply in_or_app; auto.
  - intros [[A A'] [B B']]. split; [auto|]. intros p I. apply in_app_or in I. destruct I; auto.
Qed.
Lemma spans2_app b c ps qs : bounded big ps -> bounded big qs -> spans2 b ps -> spans2 c qs -> spans2 (box_extend b c) (ps ++ qs).
Proof.
  intros B1 B2 [A1 A2] [C1 C2]. split; cbn [box_extend fst snd]; rewrite map_app; apply spans_app; auto using bounded_x, bounded_y.
Qed.
Lemma spans3_app b c ps qs : bounded3 big ps -> bounded3 big qs -> spans3 b ps -> spans3 c qs -> spans3 (box3_extend b c) (ps ++ qs).
Proof.
  intros B1 B2 [A1 A2] [C1 C2]. split; cbn [box3_extend fst snd]; rewrite map_app.
  - apply spans2_app; auto; [apply B1|apply B2].
  - apply spans_app; auto using bounded_z.
Qed.
Lemma fold_box l : forall b, fold_left box_extend_by l b = (fold_left extend_by (map fst l) (fst b), fold_left extend_by (map snd l) (snd b)).
Proof. induction l as [|p l IH]; intros [r s]; cbn [fold_left map]; [reflexivity|]. rewrite IH. reflexivity. Qed.
Lemma fold_box3 l : forall b, fold_left box3_extend_by l b = (fold_left box_extend_by (map fst l) (fst b), fold_left extend_by (map snd l) (snd b)).
Proof. induction l as [|p l IH]; intros [r s]; cbn [fold_left map]; [reflexivity|]. rewrite IH. reflexivity. Qed.
Lemma spans_bounds2 l : bounded big l -> spans2 (bounds2 big l) l.
Proof.
  intros B. unfold bounds2. rewrite fold_box. split; cbn [fst snd no_box].
  - apply (spans_fold big (map fst l) _ []); [intros x []|apply bounded_x; exact B|reflexivity].
  - apply (spans_fold big (map snd l) _ []); [intros x []|apply bounded_y; exact B|reflexivity].
Qed.
Lemma bounds3_flat l : fst (bounds3 big l) = bounds2 big (map flat l).
Proof. unfold bounds3. rewrite fold_box3. reflexivity. Qed.
Lemma spans_bounds3 l : bounded3 big l -> spans3 (bounds3 big l) l.
Proof.
  intros B. split.
  - rewrite bounds3_flat. apply spans_bounds2. apply B.
  - unfold bounds3. rewrite fold_box3. apply (spans_fold big (map snd l) _ []); [intros x []|apply bounded_z; exact B|reflexivity].
Qed.
Lemma spans2_nil : spans2 (no_box big) []. Proof. split; reflexivity. Qed.
Lemma spans3_nil : spans3 (no_box3 big) []. Proof. split; [apply spans2_nil|reflexivity]. Qed.

Definition parameter_box3 (x : parameter) : box3 :=
  match x with
  | PPoint (x, y, z) => ((x, x), (y, y), (z, z))
  | PLine l | PPolygon l => bounds3 big l
  | PLane l r => lanelet_bounds3 big l r
  | PArea o => area_bounds3 big o
  | Expired => no_box3 big
  end.
Lemma spans_parameter3 x : bounded3 big (points_of x) -> spans3 (parameter_box3 x) (points_of x).
Proof.
  destruct x as [[[x y] z]|l|l|l r|o|]; cbn [points_of parameter_box3]; intros B; try (apply spans_bounds3; exact B).
  - split; [split|]; cbn [fst snd map]; apply spans_one.
  - apply bounded3_app in B. destruct B as [B1 B2]. apply spans3_app; auto; apply spans_bounds3; assumption.
Qed.
Lemma visit3_spans b ps x : bounded3 big ps -> bounded3 big (points_of x) -> spans3 b ps -> spans3 (visit_box3 big b x) (ps ++ points_of x).
Proof.
  intros B1 B2 S. destruct x as [[[x y] z]|l|l|l r|o|]; try (apply (spans3_app b _ ps _ B1 B2 S (spans_parameter3 _ B2))).
  cbn [points_of visit_box3]. rewrite app_nil_r. exact S.
Qed.
Lemma fold_visit3 xs : forall b ps, bounded3 big ps -> bounded3 big (concat (map points_of xs)) -> spans3 b ps ->
  spans3 (fold_left (visit_box3 big) xs b) (ps ++ concat (map points_of xs)).
Proof.
  induction xs as [|x xs IH]; intros b ps B1 B2 S; cbn [fold_left map concat].
  - rewrite app_nil_r. exact S.
  - cbn [map concat] in B2. apply bounded3_app in B2. destruct B2 as [B2 B3]. rewrite app_assoc. apply IH; auto.
    + apply bounded3_app. auto.
    + apply visit3_spans; auto.
Qed.
Lemma fold_concat {A B} (f : A -> B -> A) (ls : list (list B)) : forall a, fold_left (fun x l => fold_left f l x) ls a = fold_left f (concat ls) a.
Proof. induction ls as [|l ls IH]; intros a; cbn [fold_left concat]; [reflexivity|]. rewrite IH, fold_left_app. reflexivity. Qed.
Lemma rule_spans3 roles : bounded3 big (rule_points roles) -> spans3 (rule_bounds3 big roles) (rule_points roles).
Proof.
  intros B. unfold rule_bounds3. rewrite fold_concat. apply (fold_visit3 (concat roles) (no_box3 big) []); auto using spans3_nil.
  split; intros p [].
Qed.
Lemma visit_flat b x : fst (visit_box3 big b x) = visit_box2 big (fst b) x.
Proof.
  destruct x as [[[x y] z]|l|l|l r|o|]; cbn [visit_box3 visit_box2 box3_extend fst]; rewrite ?bounds3_flat; try reflexivity.
  - unfold lanelet_bounds3, lanelet_bounds2, box3_extend. cbn [fst]. rewrite !bounds3_flat. reflexivity.
Qed.
Lemma rule_flat roles : fst (rule_bounds3 big roles) = rule_bounds2 big roles.
Proof.
  unfold rule_bounds3, rule_bounds2. rewrite !fold_concat. change (no_box big) with (fst (no_box3 big)). generalize (no_box3 big).
  induction (concat roles) as [|x xs IH]; intros b; cbn [fold_left]; [reflexivity|]. rewrite IH, visit_flat. reflexivity.
Qed.

Lemma spans2_tight b ps : ps <> [] -> spans2 b ps -> tight b ps.
Proof. intros N [A B]. destruct ps; [contradiction|]. split; assumption. Qed.
Lemma spans3_tight b ps : ps <> [] -> spans3 b ps -> tight3 b ps.
Proof. intros N [A B]. destruct ps; [contradiction|]. split; [apply spans2_tight; [discriminate|exact A]|exact B]. Qed.
Lemma spans2_void b : 0 < big -> spans2 b [] -> void b.
Proof. intros P [A _] p [[X Y] _]. cbn in A. rewrite A in X, Y. cbn in X, Y. lra. Qed.
Lemma spans3_unique b c ps : spans3 b ps -> spans3 c ps -> b = c.
Proof.
  intros [[A1 A2] A3] [[B1 B2] B3]. destruct b as [[b1 b2] b3], c as [[c1 c2] c3]. cbn [fst snd] in *.
  f_equal; [f_equal|]; eapply spans_unique; eauto.
Qed.
Lemma spans3_perm b ps qs : Permutation ps qs -> spans3 b ps -> spans3 b qs.
Proof.
  intros P [[A1 A2] A3]. split; [split|]; (eapply spans_perm; [|eassumption]); repeat apply Permutation_map; exact P.
Qed.
End boxes.

(** * Operations *)
Lemma range_has_iff r x : range_has r x = true <-> in_range r x.
Proof. unfold range_has. rewrite andb_true_iff, !le_b_iff. reflexivity. Qed.
Lemma box_has_iff b p : box_has b p = true <-> in_box b p.
Proof. unfold box_has. rewrite andb_true_iff, !range_has_iff. reflexivity. Qed.
Lemma clamp_in r s x : in_range (clamp_range r s) x <-> in_range r x /\ in_range s x.
Proof.
  unfold in_range, clamp_range, Rmin, Rmax. cbn [fst snd].
  destruct (Rle_dec (fst r) (fst s)), (Rle_dec (snd r) (snd s)); lra.
Qed.
Lemma box_empty_void b : box_empty b = true <-> void b.
Proof.
  unfold box_empty, range_empty. rewrite orb_true_iff, !lt_b_iff. split.
  - intros [H|H] p [[X Y] [Z W]]; lra.
  - intros V. destruct (Rlt_dec (snd (fst b)) (fst (fst b))); [auto|]. destruct (Rlt_dec (snd (snd b)) (fst (snd b))); [auto|]. exfalso.
    apply (V (fst (fst b), fst (snd b))). split; unfold in_range; cbn [fst snd]; lra.
Qed.
Definition proper (r : range) : Prop := fst r <= snd r.
Lemma nonvoid_proper b : ~ void b -> proper (fst b) /\ proper (snd b).
Proof.
  intros N. rewrite <- box_empty_void in N. unfold box_empty, range_empty in N. rewrite orb_true_iff, !lt_b_iff in N. unfold proper. lra.
Qed.
Lemma range_covers_iff r s : proper s -> range_covers r s = true <-> forall x, in_range s x -> in_range r x.
Proof.
  intros P. unfold range_covers. rewrite andb_true_iff, !le_b_iff. unfold in_range, proper in *. split.
  - intros [A B] x [C D]. lra.
  - intros H. pose proof (H (fst s)). pose proof (H (snd s)). lra.
Qed.
Lemma range_meets_iff r s : proper r -> proper s -> range_meets r s = true <-> exists x, in_range r x /\ in_range s x.
Proof.
  intros P Q. unfold range_meets. rewrite andb_true_iff, !le_b_iff. unfold in_range, proper in *. split.
  - intros [A B]. exists (Rmax (fst r) (fst s)). unfold Rmax. destruct (Rle_dec (fst r) (fst s)); lra.
  - intros (x & A & B). lra.
Qed.
Lemma extend_least r s t : (proper r -> proper s -> (forall x, in_range r x \/ in_range s x -> in_range t x) -> forall x, in_range (extend_range r s) x -> in_range t x).
Proof.
  unfold proper, in_range, extend_range. cbn [fst snd]. intros P Q H x [A B].
  pose proof (H (fst r)). pose proof (H (snd r)). pose proof (H (fst s)). pose proof (H (snd s)).
  unfold Rmin, Rmax in *. destruct (Rle_dec (fst r) (fst s)), (Rle_dec (snd r) (snd s)); lra.
Qed.
Lemma extend_covers r s x : in_range r x \/ in_range s x -> in_range (extend_range r s) x.
Proof.
  unfold in_range, extend_range, Rmin, Rmax. cbn [fst snd]. destruct (Rle_dec (fst r) (fst s)), (Rle_dec (snd r) (snd s)); lra.
Qed.
(** The nearest number of a range *)
Definition nearest_in (r : range) (x : R) : R := Rmax (fst r) (Rmin (snd r) x).
Lemma nearest_in_in r x : proper r -> in_range r (nearest_in r x).
Proof. unfold proper, in_range, nearest_in, Rmax, Rmin. intros P. destruct (Rle_dec (snd r) x), (Rle_dec (fst r) _); lra. Qed.
Lemma gap_nearest r x : proper r -> range_gap r x * range_gap r x = (nearest_in r x - x) * (nearest_in r x - x).
Proof.
  unfold proper, range_gap, nearest_in, lt_b. intros P.
  destruct (Rlt_dec x (fst r)); [|destruct (Rlt_dec (snd r) x)].
  - rewrite Rmin_right by lra. rewrite Rmax_left by lra. reflexivity.
  - rewrite Rmin_left by lra. rewrite Rmax_right by lra. ring.
  - rewrite Rmin_right by lra. rewrite Rmax_right by lra. ring.
Qed.
Lemma sq_le a b : Rabs a <= Rabs b -> a * a <= b * b.
Proof. intros H. change (Rsqr a <= Rsqr b). apply Rsqr_le_abs_1. exact H. Qed.
Lemma gap_least r x y : proper r -> in_range r y -> range_gap r x * range_gap r x <= (y - x) * (y - x).
Proof.
  unfold proper, in_range, range_gap, lt_b. intros P [A B]. destruct (Rlt_dec x (fst r)); [|destruct (Rlt_dec (snd r) x)]; apply sq_le;
    unfold Rabs; repeat destruct (Rcase_abs _); lra.
Qed.
Lemma gap_range_least r s x y : in_range r x -> in_range s y -> range_gap_range r s * range_gap_range r s <= (y - x) * (y - x).
Proof.
  unfold in_range, range_gap_range, lt_b. intros [A B] [C D]. destruct (Rlt_dec (snd s) (fst r)); [|destruct (Rlt_dec (snd r) (fst s))]; apply sq_le;
    unfold Rabs; repeat destruct (Rcase_abs _); lra.
Qed.
Lemma gap_range_attained r s : proper r -> proper s -> exists x y, in_range r x /\ in_range s y /\ range_gap_range r s * range_gap_range r s = (y - x) * (y - x).
Proof.
  unfold proper, in_range, range_gap_range, lt_b. intros P Q. destruct (Rlt_dec (snd s) (fst r)); [|destruct (Rlt_dec (snd r) (fst s))].
  - exists (fst r), (snd s). repeat split; try lra.
  - exists (snd r), (fst s). repeat split; try lra.
  - exists (Rmax (fst r) (fst s)), (Rmax (fst r) (fst s)). unfold Rmax. destruct (Rle_dec (fst r) (fst s)); repeat split; lra.
Qed.
Lemma sqrt_le a b : a <= b -> sqrt a <= sqrt b.
Proof. intros H. apply sqrt_le_1_alt. exact H. Qed.
Lemma box_gap_least b p : ~ void b -> least (fun d => exists q, in_box b q /\ d = euclid p q) (box_gap b p).
Proof.
  intros N. destruct (nonvoid_proper b N) as [P Q]. split.
  - exists (nearest_in (fst b) (fst p), nearest_in (snd b) (snd p)). split; [split; cbn [fst snd]; apply nearest_in_in; assumption|].
    unfold box_gap, euclid. cbn [fst snd]. rewrite !gap_nearest by assumption. reflexivity.
  - intros e (q & [A B] & ->). unfold box_gap, euclid. apply sqrt_le. apply Rplus_le_compat; apply gap_least; assumption.
Qed.
Lemma box_gap_box_least b c : ~ void b -> ~ void c -> least (fun d => exists p q, in_box b p /\ in_box c q /\ d = euclid p q) (box_gap_box b c).
Proof.
  intros N M. destruct (nonvoid_proper b N) as [P Q], (nonvoid_proper c M) as [P' Q']. split.
  - destruct (gap_range_attained _ _ P P') as (x & x' & X & X' & E1). destruct (gap_range_attained _ _ Q Q') as (y & y' & Y & Y' & E2).
    exists (x, y), (x', y'). split; [split; assumption|]. split; [split; assumption|]. unfold box_gap_box, euclid. cbn [fst snd]. rewrite E1, E2. reflexivity.
  - intros e (p & q & [A B] & [C D] & ->). unfold box_gap_box, euclid. apply sqrt_le. apply Rplus_le_compat; apply gap_range_least; assumption.
Qed.

(** * The distance of a regulatory element *)
Definition live (x : parameter) : bool := match x with Expired => false | _ => true end.
Lemma nearer_fold dist xs : forall d,
  match fold_left (nearer dist) xs d with
  | None => d = None /\ forall x, In x xs -> live x = false
  | Some m => (d = Some m \/ exists x, In x xs /\ live x = true /\ m = dist x) /\ (forall e, d = Some e -> m <= e) /\
              forall x, In x xs -> live x = true -> m <= dist x
  end.
Proof.
  induction xs as [|x xs IH]; intros d; cbn [fold_left].
  - destruct d as [m|]; [|split; [reflexivity|intros x []]]. split; [auto|]. split; [|intros x []]. intros e H. injection H as ->. lra.
  - specialize (IH (nearer dist d x)). destruct (fold_left (nearer dist) xs (nearer dist d x)) as [m|].
    + destruct IH as (A & B & C). destruct (live x) eqn:L.
      * assert (E : nearer dist d x = Some match d with None => dist x | Some k => Rmin k (dist x) end) by (destruct x; try discriminate L; reflexivity).
        rewrite E in A, B. specialize (B _ eq_refl). split; [|split].
        -- destruct A as [A|(y & I & Ly & ->)]; [|right; exists y; split; [right; exact I|auto]]. injection A as <-. destruct d as [k|].
           ++ unfold Rmin. destruct (Rle_dec k (dist x)); [auto|]. right. exists x. split; [left; reflexivity|auto].
           ++ right. exists x. split; [left; reflexivity|auto].
        -- intros e ->. pose proof (Rmin_l e (dist x)). lra.
        -- intros y [<-|I] Ly; [|auto]. destruct d as [k|]; [pose proof (Rmin_r k (dist x))|]; lra.
      * assert (E : nearer dist d x = d) by (destruct x; try discriminate L; reflexivity). rewrite E in A, B. split; [|split].
        -- destruct A as [A|(y & I & Ly)]; [auto|]. right. exists y. split; [right; exact I|auto].
        -- exact B.
        -- intros y [<-|I] Ly; [congruence|auto].
    + destruct IH as (A & B). destruct x; cbn in A; try discriminate A. split; [exact A|]. intros y [<-|I]; auto.
Qed.
