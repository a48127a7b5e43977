(** Proofs for to2D, to3D and distance of the geometry module. *)
From Coq Require Import List Bool.
From Verif Require Import PyDimModel PyDimSpec.
Import ListNotations.

Lemma cls_eqb_eq a b : cls_eqb a b = true <-> a = b.
Proof. unfold cls_eqb. match goal with |- context [if ?d then _ else _] => destruct d end; intuition congruence. Qed.

(** Whether a class can be extracted from a class. *)
Definition fits (c k : cls) : bool :=
  cls_eqb k c || match k with
                 | Vector2d => cls_eqb c BasicPoint2d
                 | _ => match base k with Some b => cls_eqb b c | None => false end
                 end.

Section Proofs.
Context {N H D : Type}.
Implicit Types o a b : obj N H.

Lemma extract_class c o x : proper o -> extract c o = Some x -> class_of x = c.
Proof.
  unfold extract. destruct (cls_eqb (class_of o) c) eqn:E.
  - intros _ [= <-]. apply cls_eqb_eq, E.
  - destruct o as [| |?|k h]; try discriminate.
    + destruct (cls_eqb c BasicPoint2d) eqn:F; [|discriminate]. intros _ [= <-]. apply cls_eqb_eq in F. now rewrite F.
    + destruct (base k) as [b|]; [|discriminate]. destruct (cls_eqb b c); [|discriminate]. now intros _ [= <-].
Qed.

Lemma extract_fits c o : proper o -> (exists x, extract c o = Some x) <-> fits c (class_of o) = true.
Proof.
  intros P. unfold extract, fits. destruct (cls_eqb (class_of o) c) eqn:E; cbn [orb].
  - split; eauto.
  - destruct o as [x y|x y|x y z|k h]; cbn [class_of base] in *.
    + split; [intros [? ?]; discriminate|discriminate].
    + destruct (cls_eqb c BasicPoint2d); split; eauto; intros; try discriminate. destruct H0; discriminate.
    + split; [intros [? ?]; discriminate|discriminate].
    + destruct k; cbn [base]; try (split; [intros [? ?]; discriminate|discriminate]);
        try (match goal with |- context [if ?t then _ else _] => destruct t end;
             split; eauto; intros; try discriminate; try (destruct H0; discriminate)).
      exfalso. destruct P as [_ P]. now apply P.
Qed.

Lemma extract_same coords c o x : extract c o = Some x -> same_geometry coords o x.
Proof.
  unfold extract. destruct (cls_eqb (class_of o) c) eqn:E.
  - intros [= <-]. constructor.
  - destruct o as [| |?|k h]; try discriminate.
    + destruct (cls_eqb c BasicPoint2d) eqn:F; [|discriminate]. intros [= <-]. constructor.
    + destruct (base k) as [b|] eqn:B; [|discriminate]. destruct (cls_eqb b c) eqn:F; [|discriminate]. intros [= <-].
      apply cls_eqb_eq in F. subst b. destruct k; try discriminate B; injection B as <-; constructor; reflexivity.
Qed.

(** ** The overloads by class *)

Definition accepts (l : list (cls * cls * how)) (k m : cls) : bool :=
  existsb (fun '(c, d, _) => fits c k && fits d m) l.

Lemma try_accepts coords (geo : obj N H -> obj N H -> D) l a b : proper a -> proper b ->
  (exists r, try coords geo l a b = Some r) <-> accepts l (class_of a) (class_of b) = true.
Proof.
  intros Pa Pb. induction l as [|[[c d] w] l IH]; cbn [try accepts existsb].
  - split; [intros [? ?]; discriminate|discriminate].
  - pose proof (extract_fits c a Pa) as A. pose proof (extract_fits d b Pb) as B.
    destruct (extract c a) as [x|].
    + destruct (extract d b) as [y|].
      * assert (fits c (class_of a) = true) as -> by (apply A; eauto).
        assert (fits d (class_of b) = true) as -> by (apply B; eauto). cbn. split; eauto.
      * destruct (fits d (class_of b)); [destruct B as [_ B]; destruct (B eq_refl); discriminate|].
        rewrite andb_false_r. exact IH.
    + destruct (fits c (class_of a)); [destruct A as [_ A]; destruct (A eq_refl); discriminate|]. exact IH.
Qed.

Lemma distance_accepts coords (geo : obj N H -> obj N H -> D) a b : proper a -> proper b ->
  (exists d, py_distance coords geo a b = Some d) <-> accepts (rev overloads) (class_of a) (class_of b) = true.
Proof. intros Pa Pb. exact (try_accepts coords geo (rev overloads) a b Pa Pb). Qed.

Lemma try_value coords (geo : obj N H -> obj N H -> D) :
  (forall a a' b b', same_geometry coords a a' -> same_geometry coords b b' -> geo a b = geo a' b') ->
  (forall a b, geo a b = geo b a) ->
  forall l a b d, (forall c k, In (c, k, Basic) l -> k = ConstPoint2d) ->
  try coords geo l a b = Some d -> d = geo a b.
Proof.
  intros G S l a b d. induction l as [|[[c k] w] l IH]; intros B; cbn [try]; [discriminate|].
  destruct (extract c a) as [x|] eqn:X; [destruct (extract k b) as [y|] eqn:Y|].
  - intros [= <-]. pose proof (extract_same coords _ _ _ X) as Sx. pose proof (extract_same coords _ _ _ Y) as Sy.
    destruct w; cbn [call].
    + symmetry. now apply G.
    + rewrite S. symmetry. now apply G.
    + rewrite (G a x b y Sx Sy). symmetry. apply G; [constructor|].
      pose proof (B c k (or_introl eq_refl)) as ->. destruct y as [| |?|m h]; try constructor. cbn [basic_point].
      destruct (coords h) as [u v] eqn:C.
      assert (m = ConstPoint2d).
      { unfold extract in Y. destruct (cls_eqb (class_of b) ConstPoint2d) eqn:E.
        - injection Y as ->. apply cls_eqb_eq in E. exact E.
        - destruct b as [| |?|n g]; try discriminate Y. destruct (base n) as [e|]; [|discriminate Y].
          destruct (cls_eqb e ConstPoint2d); [|discriminate Y]. now injection Y as <- _. }
      subst m. replace u with (fst (coords h)) by now rewrite C. replace v with (snd (coords h)) by now rewrite C.
      now constructor.
  - apply IH. intros c' k' I. apply (B c' k'). now right.
  - apply IH. intros c' k' I. apply (B c' k'). now right.
Qed.
End Proofs.

(** ** All classes *)

Definition classes : list cls := [
  BasicPoint2d; Vector2d; BasicPoint3d; BoundingBox2d; BoundingBox3d; ConstPoint2d; Point2d; ConstPoint3d; Point3d;
  ConstLineString2d; LineString2d; ConstLineString3d; LineString3d; ConstHybridLineString2d; ConstHybridLineString3d;
  CompoundLineString2d; CompoundLineString3d; ConstPolygon2d; Polygon2d; ConstPolygon3d; Polygon3d; CompoundPolygon2d;
  CompoundPolygon3d; ConstHybridPolygon2d; ConstHybridPolygon3d; ConstLanelet; Lanelet; ConstArea; Area; Foreign].
Lemma classes_all c : In c classes.
Proof. destruct c; cbn; tauto. Qed.
Lemma for_all_pairs (f : cls -> cls -> bool) : forallb (fun a => forallb (f a) classes) classes = true ->
  forall a b, f a b = true.
Proof.
  intros E a b. rewrite forallb_forall in E. specialize (E a (classes_all a)). rewrite forallb_forall in E.
  apply E, classes_all.
Qed.

Definition dim_eqb (a b : dimension) : bool :=
  match a, b with Two, Two | Three, Three => true | Neither, _ | _, Neither => true | _, _ => false end.
Lemma accepts_dim a b : accepts (rev overloads) a b = true -> dim_eqb (dim a) (dim b) = true.
Proof.
  intros A. pose proof (for_all_pairs (fun a b => implb (accepts (rev overloads) a b) (dim_eqb (dim a) (dim b)))) as F.
  specialize (F ltac:(vm_compute; reflexivity) a b). cbn beta in F. now rewrite A in F.
Qed.
Lemma dim_eqb_eq a b : dim_eqb a b = true -> a = Neither \/ b = Neither \/ a = b.
Proof. destruct a, b; auto; discriminate. Qed.
Lemma accepts_back a b : accepts (rev overloads) a b = true ->
  accepts (rev overloads) b a = negb (one_way (kind_of a) (kind_of b)).
Proof.
  intros A. pose proof (for_all_pairs (fun a b => implb (accepts (rev overloads) a b)
    (Bool.eqb (accepts (rev overloads) b a) (negb (one_way (kind_of a) (kind_of b)))))) as F.
  specialize (F ltac:(vm_compute; reflexivity) a b). cbn beta in F. rewrite A in F. now apply eqb_prop in F.
Qed.
Lemma accepts_line_point a b : dim a = dim b ->
  In (kind_of a) [KPoint; KLine; KCompoundLine] -> In (kind_of b) [KPoint; KLine; KCompoundLine] ->
  accepts (rev overloads) a b = true.
Proof.
  intros E A B. destruct a, b; try discriminate E; try reflexivity; cbn in A, B;
    exfalso; intuition discriminate.
Qed.
Lemma accepts_exactly a b : accepts (rev overloads) a b = has_distance a b.
Proof.
  pose proof (for_all_pairs (fun a b => Bool.eqb (accepts (rev overloads) a b) (has_distance a b))) as F.
  apply eqb_prop, F. vm_compute. reflexivity.
Qed.
