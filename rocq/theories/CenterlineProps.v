(** C50: the computed centerline. *)
From Coq Require Import List Arith ZArith Bool Lia Sorted.
From Verif Require Import CenterlineModel.
From Verif Require CenterlineProofs.
Import ListNotations.

(** [P p q] for any two neighbours [p], [q] of the list. *)
Definition neighbours {A} (Q : A -> A -> Prop) (l : list A) : Prop := forall a p q b, l = a ++ p :: q :: b -> Q p q.

Lemma neighbours_rev {A} (Q : A -> A -> Prop) (l : list A) : neighbours (fun x y => Q y x) (rev l) -> neighbours Q l.
Proof.
  intros H a p q b ->. apply (H (rev b) q p (rev a)). rewrite rev_app_distr. simpl. rewrite <- !app_assoc. auto.
Qed.
Lemma descending_neighbours ps : CenterlineProofs.descending ps -> neighbours CenterlineProofs.before (rev ps).
Proof.
  intros H. apply neighbours_rev. rewrite rev_involutive. intros a p q b ->. induction a as [|x a IH]; cbn [app CenterlineProofs.descending] in H.
  - apply H.
  - apply IH. apply H.
Qed.
Lemma checked_neighbours {P} center bi sc (L R : list P) ps : CenterlineProofs.all_checked center bi sc L R ps ->
  neighbours (CenterlineProofs.checked center bi sc L R) (rev ps).
Proof.
  intros H. apply neighbours_rev. rewrite rev_involutive. intros a p q b ->. induction a as [|x a IH]; cbn [app CenterlineProofs.all_checked] in H.
  - apply H.
  - apply IH. apply H.
Qed.
Lemma Forall2_rev' {A B} (Q : A -> B -> Prop) l m : Forall2 Q l m -> Forall2 Q (rev l) (rev m).
Proof. induction 1; simpl; auto. apply Forall2_app; auto. Qed.

Lemma Forall2_len {A B} (Q : A -> B -> Prop) l m : Forall2 Q l m -> length l = length m.
Proof. induction 1; simpl; auto. Qed.

(** Bounds with at least two points each (and any other bounds, except two degenerate
    kinds): the computation ends without undefined behaviour; every centerline point is the
    middle of a point of the left and a point of the right bound, never going back on
    either; it starts in the middle of the first and ends in the middle of the last points;
    every connection except possibly the closing one passed the intersection tests of
    BoundChecker. For any geometry. *)
Theorem C50_centerline_partial {P D} (same : P -> P -> bool) (center : P -> P -> P) (hdist : P -> P -> D) dleb stops
    (near : P -> list P -> list nat) bi sc (L R : list P) l0 r0 :
  (forall a b, center a b = center b a) ->
  nth_error L 0 = Some l0 -> nth_error R 0 = Some r0 ->
  (same l0 r0 = true -> 2 <= length L /\ ~ (length L = 2 /\ length R = 1)) ->
  exists out ps,
    calculate same center hdist dleb stops near bi sc L R = Ok out /\
    Forall2 (fun p c => exists a b, nth_error L (fst p) = Some a /\ nth_error R (snd p) = Some b /\ c = center a b) ps out /\
    hd_error ps = Some (0, 0) /\ hd_error (rev ps) = Some (length L - 1, length R - 1) /\
    neighbours (fun p q => fst p <= fst q /\ snd p <= snd q /\ p <> q) ps /\
    length out < length L + length R /\
    exists tested, (ps = tested \/ ps = tested ++ [(length L - 1, length R - 1)]) /\
      neighbours (fun p q => exists a b a' b',
        nth_error L (fst p) = Some a /\ nth_error R (snd p) = Some b /\
        nth_error L (fst q) = Some a' /\ nth_error R (snd q) = Some b' /\
        bi (center a b) (center a' b') = false /\ sc true b' a' = false /\ sc false a' b' = false) tested.
Proof.
  intros CC L0 R0 DG. destruct L as [|l L']; [discriminate|]. destruct R as [|r R']; [discriminate|].
  injection L0 as ->. injection R0 as ->.
  set (L := l0 :: L') in *. set (R := r0 :: R') in *.
  assert (LL : length L = S (length L')) by auto. assert (LR : length R = S (length R')) by auto.
  change (calculate same center hdist dleb stops near bi sc L R) with
    (match walk center hdist dleb stops near bi sc (S (length L + length R)) L R (if same l0 r0 then 1 else 0) 0 (center l0 r0) [center l0 r0] with
     | UB => UB | Fuel => Fuel
     | Ok (acc, (li, ri)) => if Nat.eqb li (length L - 1) && Nat.eqb ri (length R - 1) then Ok (rev acc)
       else match back L, back R with Some a, Some b => Ok (rev (center a b :: acc)) | _, _ => UB end
     end).
  destruct (CenterlineProofs.walk_ok center hdist dleb stops near bi sc L R (S (length L + length R))
    (if same l0 r0 then 1 else 0) 0 (center l0 r0) [center l0 r0] [(0, 0)]) as (acc & li & ri & ps & -> & B1 & B2 & FM & DS & AC & T).
  { destruct (same l0 r0); [destruct (DG eq_refl)|]; lia. }
  { lia. } { destruct (same l0 r0); lia. }
  { constructor; auto. exists l0, r0. auto. } { simpl; auto. } { simpl; auto. }
  { exists (0, 0), (center l0 r0). simpl. repeat split; auto. destruct (same l0 r0); lia. }
  assert (BA : exists a, back L = Some a /\ nth_error L (length L - 1) = Some a).
  { unfold back. destruct (nth_error L (length L - 1)) eqn:E; eauto. apply nth_error_None in E. lia. }
  assert (BB : exists b, back R = Some b /\ nth_error R (length R - 1) = Some b).
  { unfold back. destruct (nth_error R (length R - 1)) eqn:E; eauto. apply nth_error_None in E. lia. }
  destruct BA as (la & BA & NA). destruct BB as (ra & BB & NB).
  assert (CK : neighbours (fun p q => exists a b a' b',
        nth_error L (fst p) = Some a /\ nth_error R (snd p) = Some b /\
        nth_error L (fst q) = Some a' /\ nth_error R (snd q) = Some b' /\
        bi (center a b) (center a' b') = false /\ sc true b' a' = false /\ sc false a' b' = false) (rev (ps ++ [(0, 0)]))).
  { intros x p q y E. destruct (checked_neighbours _ _ _ _ _ _ AC x p q y E) as (a & b & a' & b' & H1 & H2 & H3 & H4 & H5 & H6 & H7).
    exists a, b, a', b'. rewrite (CC b' a') in H5. intuition. }
  (* number of points *)
  assert (CNT : forall l p, CenterlineProofs.descending (p :: l) -> S (length l) <= S (fst p + snd p)).
  { induction l as [|q l IHl]; intros p [H1 H2]; [simpl; lia|]. specialize (IHl q H2). unfold CenterlineProofs.before in H1.
    destruct H1 as (A & B & C). destruct p, q. simpl in *. assert (n1 < n \/ n2 < n0) by (destruct (Nat.eq_dec n1 n); [|lia]; destruct (Nat.eq_dec n2 n0); [|lia]; congruence). lia. }
  assert (HD0 : hd_error (rev (ps ++ [(0, 0)])) = Some (0, 0)) by (rewrite rev_app_distr; auto).
  destruct (Nat.eqb li (length L - 1) && Nat.eqb ri (length R - 1)) eqn:FIN.
  - apply andb_true_iff in FIN as [F1 F2]. apply Nat.eqb_eq in F1, F2.
    assert (LAST : hd_error (ps ++ [(0, 0)]) = Some (length L - 1, length R - 1)).
    { destruct ps as [|p ps]; [|simpl; subst; auto]. destruct T as [T1 T2]. simpl.
      destruct (same l0 r0) eqn:SM; [|subst; f_equal; f_equal; lia]. destruct (DG eq_refl). exfalso. lia. }
    exists (rev acc), (rev (ps ++ [(0, 0)])). split; auto. split; [apply Forall2_rev'; auto|]. split; auto.
    split; [rewrite rev_involutive; auto|]. split; [apply descending_neighbours; auto|]. split.
    { rewrite rev_length, <- (Forall2_len _ _ _ FM). destruct (ps ++ [(0, 0)]) as [|p l]; [discriminate|]. injection LAST as ->.
      specialize (CNT _ _ DS). simpl in CNT |- *. lia. }
    exists (rev (ps ++ [(0, 0)])). auto.
  - rewrite BA, BB. exists (rev (center la ra :: acc)), (rev ((length L - 1, length R - 1) :: ps ++ [(0, 0)])).
    assert (DS' : CenterlineProofs.descending ((length L - 1, length R - 1) :: ps ++ [(0, 0)])).
    { cbn [CenterlineProofs.descending]. split; auto.
      assert (NE : (li, ri) <> (length L - 1, length R - 1)).
      { intros X. injection X as -> ->. rewrite !Nat.eqb_refl in FIN. discriminate. }
      destruct ps as [|p ps]; cbn [app].
      - unfold CenterlineProofs.before; simpl. split; [lia|]. split; [lia|]. intros X. injection X as X1 X2.
        destruct T as [-> ->]. destruct (same l0 r0) eqn:SM; [destruct (DG eq_refl); lia|]. apply NE. f_equal; auto.
      - subst p. unfold CenterlineProofs.before; simpl fst; simpl snd. split; [lia|]. split; [lia|]. exact NE. }
    split; auto. split. { apply Forall2_rev'. constructor; auto. exists la, ra. auto. }
    split. { cbn [rev]. rewrite rev_app_distr. auto. }
    split. { rewrite rev_involutive. auto. }
    split. { apply descending_neighbours; auto. }
    split. { rewrite rev_length. cbn [length]. rewrite <- (Forall2_len _ _ _ FM). specialize (CNT _ _ DS'). simpl in CNT. lia. }
    exists (rev (ps ++ [(0, 0)])). split; auto.
Qed.
Print Assumptions C50_centerline_partial.

(** ** The early stop in the search for the nearest point (149-153) never changes the
    result: the first admissible point in the order of distance is taken. *)
Definition sorted_by {P D} (hdist : P -> P -> D) (dleb : D -> D -> bool) (p : P) (pts : list P) : list nat -> Prop :=
  StronglySorted (fun i j => forall a b, nth_error pts i = Some a -> nth_error pts j = Some b -> dleb (hdist a p) (hdist b p) = true).
Section Stop.
Context {P D : Type} (center : P -> P -> P) (hdist : P -> P -> D) (dleb : D -> D -> bool) (bi : P -> P -> bool) (sc : bool -> P -> P -> bool).
Definition first_admissible (isleft : bool) (pts : list P) (cur : nat) (other last : P) (order : list nat) : option (nat * D) :=
  match find (fun i => Nat.leb cur i && match nth_error pts i with Some c => admissible center bi sc isleft other last c | None => false end) order with
  | Some i => match nth_error pts i with Some c => Some (i, hdist c other) | None => None end
  | None => None
  end.
Lemma scan_keeps stops isleft pts cur other last order k b :
  (forall i c, In i order -> nth_error pts i = Some c -> dleb b (hdist c other) = true) ->
  scan center hdist dleb stops bi sc isleft pts cur other last order (Some (k, b)) = Some (k, b).
Proof.
  induction order as [|i r IH]; intros H; cbn [scan]; auto. destruct (nth_error pts i) as [c|] eqn:N; auto.
  assert (Hr : forall j d, In j r -> nth_error pts j = Some d -> dleb b (hdist d other) = true) by (intros; eapply H; eauto; right; auto).
  destruct (Nat.ltb i cur); auto. cbv zeta. destruct (stops _ _ _ _); auto. rewrite (H i c); auto. left; auto.
Qed.
Lemma scan_first stops isleft pts cur other last order :
  sorted_by hdist dleb other pts order -> (forall i, In i order -> i < length pts) ->
  scan center hdist dleb stops bi sc isleft pts cur other last order None = first_admissible isleft pts cur other last order.
Proof.
  intros S I. unfold first_admissible. induction S as [|i r S IH F]; cbn [scan find]; auto.
  assert (Ir : forall j, In j r -> j < length pts) by (intros; apply I; right; auto). specialize (IH Ir).
  destruct (nth_error pts i) as [c|] eqn:N.
  2: { apply nth_error_None in N. specialize (I i (or_introl eq_refl)). lia. }
  destruct (Nat.ltb_spec i cur).
  { assert (E : Nat.leb cur i = false) by (apply Nat.leb_gt; auto). rewrite E. cbn [andb]. exact IH. }
  assert (E : Nat.leb cur i = true) by (apply Nat.leb_le; auto). rewrite E. cbn [andb]. cbv zeta.
  destruct (admissible center bi sc isleft other last c).
  - rewrite N. apply scan_keeps. intros j d Hj Nj. rewrite Forall_forall in F. eapply F; eauto.
  - exact IH.
Qed.
End Stop.

Theorem C50_early_stop {P D} same (center : P -> P -> P) (hdist : P -> P -> D) dleb stops stops'
    (near : P -> list P -> list nat) bi sc (L R : list P) :
  (forall p pts i, In i (near p pts) -> i < length pts) ->
  (forall p pts, sorted_by hdist dleb p pts (near p pts)) ->
  (forall isleft pts cur other last,
     scan center hdist dleb stops bi sc isleft pts cur other last (near other pts) None =
     first_admissible center hdist bi sc isleft pts cur other last (near other pts)) /\
  calculate same center hdist dleb stops near bi sc L R = calculate same center hdist dleb stops' near bi sc L R.
Proof.
  intros I S.
  assert (F : forall st isleft pts cur other last,
     scan center hdist dleb st bi sc isleft pts cur other last (near other pts) None =
     first_admissible center hdist bi sc isleft pts cur other last (near other pts)).
  { intros. apply scan_first; auto. intros i Hi. eapply I; eauto. }
  split; [apply F|].
  assert (C : forall isleft pts cur opts o last,
    closest center hdist dleb stops near bi sc isleft pts cur opts o last =
    closest center hdist dleb stops' near bi sc isleft pts cur opts o last).
  { intros. unfold closest. destruct (Nat.ltb _ _); auto. destruct (nth_error opts o); auto. rewrite !F. auto. }
  assert (W : forall fuel li ri last acc,
    walk center hdist dleb stops near bi sc fuel L R li ri last acc = walk center hdist dleb stops' near bi sc fuel L R li ri last acc).
  { induction fuel as [|f IH]; intros; cbn [walk]; auto. destruct (_ && _); auto. rewrite !C.
    destruct (closest _ _ _ _ _ _ _ true _ _ _ _ _); auto. destruct (closest _ _ _ _ _ _ _ false _ _ _ _ _); auto. cbv zeta.
    destruct a as [[i dl]|], a0 as [[j dr]|]; auto; try destruct (dleb dl dr);
      repeat match goal with |- context [match nth_error ?l ?k with _ => _ end] => destruct (nth_error l k); auto end. }
  unfold calculate. destruct L as [|l L']; auto. destruct R as [|r R']; auto. rewrite W. auto.
Qed.
Print Assumptions C50_early_stop.

(** The planar instance meets the assumptions. *)
Lemma near2_in p pts i : In i (near2 p pts) <-> i < length pts.
Proof.
  unfold near2. set (k := fun i => d2 _ _).
  assert (H : forall x l j, In j (insert_by k x l) <-> j = x \/ In j l).
  { induction l as [|y l IH]; intros j; simpl; [intuition|]. destruct (Z.leb _ _); simpl; [intuition|]. rewrite IH. intuition. }
  assert (G : forall l, In i (fold_right (insert_by k) [] l) <-> In i l).
  { induction l as [|x l IH]; simpl; [tauto|]. rewrite H, IH. intuition. }
  rewrite G, in_seq. lia.
Qed.
Lemma near2_sorted p pts : sorted_by d2 Z.leb p pts (near2 p pts).
Proof.
  unfold sorted_by, near2. set (k := fun i => d2 _ _).
  assert (H : forall x l, StronglySorted (fun i j => (k i <= k j)%Z) l -> StronglySorted (fun i j => (k i <= k j)%Z) (insert_by k x l)).
  { assert (I : forall x l j, In j (insert_by k x l) -> j = x \/ In j l).
    { induction l as [|y l IH]; intros j; simpl; [intuition|]. destruct (Z.leb _ _); simpl; [intuition|]. intros [->|Hj]; auto. apply IH in Hj. intuition. }
    induction l as [|y l IH]; intros S; simpl.
    - constructor; constructor.
    - destruct (Z.leb_spec (k x) (k y)).
      + constructor; auto. inversion S; subst. constructor; auto. eapply Forall_impl; [|eassumption]. simpl. intros. lia.
      + inversion S; subst. constructor; auto. apply Forall_forall. intros j Hj. destruct (I _ _ _ Hj) as [-> | Hj']; [lia|].
        rewrite Forall_forall in H3. auto. }
  assert (G : forall l, StronglySorted (fun i j => (k i <= k j)%Z) (fold_right (insert_by k) [] l)).
  { induction l; simpl; [constructor|]. apply H. auto. }
  specialize (G (seq 0 (length pts))). induction G as [|i r G IH F]; constructor; auto.
  eapply Forall_impl; [|exact F]. intros j Hj a b Na Nb. apply Z.leb_le. unfold k in Hj.
  rewrite (nth_error_nth _ _ _ Na), (nth_error_nth _ _ _ Nb) in Hj. exact Hj.
Qed.

Local Open Scope Z_scope.
Definition q i x y := Pt i x y 0.
Definition coords (r : res (list pt)) : option (list (Z * Z)) :=
  match r with Ok l => Some (map (fun p => (p_x p, p_y p)) l) | _ => None end.
Example C50_nonvacuous :
  coords (calculate2 [q 1 0 4; q 2 10 4; q 3 20 4] [q 4 0 0; q 5 10 0; q 6 20 0]) = Some [(0, 2); (5, 2); (10, 2); (15, 2); (20, 2)] /\
  (forall p pts i, In i (near2 p pts) -> (i < length pts)%nat) /\ (forall p pts, sorted_by d2 Z.leb p pts (near2 p pts)) /\
  (forall a b, pcenter a b = pcenter b a).
Proof.
  split; [vm_compute; auto|]. split; [apply near2_in|]. split; [apply near2_sorted|]. intros. unfold pcenter. f_equal; f_equal; lia.
Qed.

(** ** What does not hold *)
(** No two edges of the closed polygon have a common point, except neighbours in their
    common corner. *)
Definition edges (l : list pt) : list (pt * pt) := segs (l ++ [hd (q 0 0 0) l]).
Definition simple_polygon (l : list pt) : bool :=
  let es := edges l in
  let n := length es in
  forallb (fun i => forallb (fun j =>
    match nth_error es i, nth_error es j with
    | Some (a, b), Some (c, d) =>
      if Nat.leb j i then true
      else if Nat.eqb j (S i) then negb (on_seg a b d) && negb (on_seg c d a)
      else if Nat.eqb i 0 && Nat.eqb j (n - 1) then negb (on_seg a b c) && negb (on_seg c d b)
      else negb (intersects a b c d)
    | _, _ => false
    end) (seq 0 n)) (seq 0 n).
(** Inner points of the segments cross. *)
Definition violates (line bound : list pt) : bool :=
  existsb (fun s => existsb (fun t => crosses (fst s) (snd s) (fst t) (snd t)) (segs bound)) (segs line).
(** The closing segment is not checked: the centerline leaves a lanelet whose outline is a
    simple polygon with the left bound to the left ("guarantee that the centerline never
    violates the bounds", Lanelet.h:98-99). *)
Theorem C50_inside_refuted : exists L R out,
  simple_polygon (L ++ rev R) = true /\ calculate2 L R = Ok out /\ violates out L = true.
Proof.
  exists [q 1 4 4; q 2 4 2; q 3 0 2], [q 4 6 0; q 5 8 2; q 6 0 8]. eexists. vm_compute. repeat split.
Qed.
Print Assumptions C50_inside_refuted.
(** A left bound of one point that is also the first point of the right bound: std::next and
    dereferencing of the end iterator. *)
Theorem C50_one_point_refuted : exists L R, L <> [] /\ R <> [] /\ calculate2 L R = UB.
Proof. exists [q 1 0 0], [q 1 0 0; q 2 4 0]. split; [discriminate|]. split; [discriminate|]. vm_compute. auto. Qed.
Print Assumptions C50_one_point_refuted.
(** A triangle given by a two point left bound and a one point right bound: the end is
    missing. *)
Theorem C50_end_refuted : exists a b, calculate2 [a; b] [a] = Ok [pcenter a a] /\ pcenter b a <> pcenter a a.
Proof. exists (q 1 0 0), (q 2 4 0). split; [vm_compute; auto|discriminate]. Qed.
Print Assumptions C50_end_refuted.
(** The result depends on the direction: the centerline of an inverted lanelet (the
    reversed centerline of the lanelet) is not the one computed from its bounds. *)
Theorem C50_direction_refuted : exists L R out out',
  simple_polygon (L ++ rev R) = true /\ calculate2 L R = Ok out /\ calculate2 (rev R) (rev L) = Ok out' /\ rev out <> out'.
Proof.
  exists [q 1 2 6; q 2 10 6], [q 3 2 2; q 4 10 0; q 5 12 2]. eexists. eexists.
  split; [vm_compute; auto|]. split; [vm_compute; reflexivity|]. split; [vm_compute; reflexivity|]. discriminate.
Qed.
Print Assumptions C50_direction_refuted.
