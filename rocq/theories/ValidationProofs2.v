(** Proofs about the checks of points, the selection of the checks and the report. *)
From Coq Require Import List Arith Bool String Ascii ZArith Reals Lia Lra Sorting.Sorted Permutation.
From Verif Require Import AttrModel ValidationModel ValidationSpec ValidationProofs.
Import ListNotations.
Open Scope string_scope.
Open Scope list_scope.

(** * Doubled points *)

Lemma has_duplicates_none l : has_duplicates l = None <->
  forall p q, in_succession p q l -> p_data p <> p_data q.
Proof.
  unfold in_succession. induction l as [|p [|q l] IH].
  - split; [|reflexivity]. intros _ p q (a & b & E). destruct a; discriminate.
  - split; [|reflexivity]. intros _ x y (a & b & E). destruct a as [|? [|]]; discriminate.
  - change (has_duplicates (p :: q :: l))
      with (if same_point p q then Some (p_id p) else has_duplicates (q :: l)).
    unfold same_point. destruct (Nat.eqb_spec (p_data p) (p_data q)) as [E|N].
    + split; [discriminate|]. intros H. exfalso. apply (H p q); [|exact E]. now exists [], l.
    + rewrite IH. split.
      * intros H x y ([|z a] & b & E); cbn in E; inversion E; subst; [exact N|].
        apply H. now exists a, b.
      * intros H x y (a & b & E). apply H. exists (p :: a), b. cbn. now rewrite E.
Qed.

(** The first point that is repeated. *)
Lemma has_duplicates_some l i : has_duplicates l = Some i <->
  exists a p q b, l = a ++ p :: q :: b /\ p_data p = p_data q /\ i = p_id p
    /\ forall x y, in_succession x y (a ++ [p]) -> p_data x <> p_data y.
Proof.
  split.
  - revert i. induction l as [|p [|q l] IH]; intros i H; [discriminate|discriminate|].
    change (has_duplicates (p :: q :: l))
      with (if same_point p q then Some (p_id p) else has_duplicates (q :: l)) in H.
    unfold same_point in H. destruct (Nat.eqb_spec (p_data p) (p_data q)) as [E|N].
    + inversion H. exists [], p, q, l. repeat split; auto.
      intros x y ([|z [|w a]] & b & Ex); discriminate.
    + destruct (IH _ H) as (a & p' & q' & b & El & D & -> & F).
      exists (p :: a), p', q', b. split; [cbn; now rewrite El|]. split; [exact D|]. split; [reflexivity|].
      intros x y ([|z c] & d & Ex); cbn in Ex.
      * inversion Ex as [[E1 E2]]. subst x.
        destruct a as [|r a]; cbn in El, E2; inversion El; inversion E2; subst; exact N.
      * inversion Ex. subst z. apply F. now exists c, d.
  - intros (a & p & q & b & -> & D & -> & F). induction a as [|r a IH].
    + cbn. unfold same_point. rewrite D, Nat.eqb_refl. reflexivity.
    + assert (T : has_duplicates (a ++ p :: q :: b) = Some (p_id p)).
      { apply IH. intros x y (c & d & E). apply F. exists (r :: c), d. cbn. now rewrite E. }
      destruct a as [|s a].
      * change ((r :: []) ++ p :: q :: b) with (r :: p :: q :: b).
        change (has_duplicates (r :: p :: q :: b))
          with (if same_point r p then Some (p_id r) else has_duplicates (p :: q :: b)).
        unfold same_point at 1. destruct (Nat.eqb_spec (p_data r) (p_data p)) as [E|N]; [|exact T].
        exfalso. apply (F r p); [|exact E]. now exists [], [].
      * change ((r :: s :: a) ++ p :: q :: b) with (r :: s :: a ++ p :: q :: b).
        change (has_duplicates (r :: s :: a ++ p :: q :: b))
          with (if same_point r s then Some (p_id r) else has_duplicates ((s :: a) ++ p :: q :: b)).
        unfold same_point at 1. destruct (Nat.eqb_spec (p_data r) (p_data s)) as [E|N]; [|exact T].
        exfalso. apply (F r s); [|exact E]. now exists [], (a ++ [p]).
Qed.

(** * Points too close *)
Local Open Scope R_scope.

Lemma distance3_spec p q : distance3 p q = space_distance p q.
Proof. unfold distance3, space_distance. f_equal. ring. Qed.

Lemma space_flat p q : p_z p = p_z q -> space_distance p q = flat_distance p q.
Proof. intros E. unfold space_distance, flat_distance. rewrite E. f_equal. ring. Qed.

Lemma flat_self p : flat_distance p p = 0.
Proof. unfold flat_distance. replace (_ + _) with 0 by ring. apply sqrt_0. Qed.

Section close.
Variables (points : list vpoint) (nearest : vpoint -> list vpoint).
Hypothesis data_unique : forall p q, In p points -> In q points -> p_data p = p_data q -> p = q.
Hypothesis nearest_right : forall p, In p points -> two_nearest points p (nearest p).

Lemma same_point_eq p q : In p points -> In q points -> same_point p q = true -> p = q.
Proof. intros Hp Hq H. apply data_unique; auto. now apply Nat.eqb_eq. Qed.

Lemma too_close_in i : In i (points_too_close nearest points) ->
  exists p q, In p points /\ In q points /\ p <> q /\ space_distance p q < 5 / 100
    /\ i = Issue Warning PPoint (p_id p)
             ("Point is very close to point " ++ print_Z (p_id q) ++ ". This can lead to defects in the map")%string.
Proof.
  unfold points_too_close. rewrite in_flat_map. intros (p & Hp & H).
  destruct (nearest_right p Hp) as (ND & Hin & _ & _).
  destruct (nearest p) as [|a [|b [|c r]]] eqn:E; try contradiction.
  set (q := if same_point a p then b else a) in *.
  destruct (Rlt_dec (distance3 p q) (5 / 100)) as [D|]; [|destruct H].
  destruct H as [<-|[]].
  assert (Ha : In a points) by (apply Hin; cbn; auto).
  assert (Hb : In b points) by (apply Hin; cbn; auto).
  exists p, q. rewrite distance3_spec in D. repeat split; auto.
  - unfold q. destruct (same_point a p); assumption.
  - unfold q. destruct (same_point a p) eqn:S.
    + apply (same_point_eq a p Ha Hp) in S. subst a. inversion ND as [|? ? N _]; subst.
      intros ->. apply N. now left.
    + intros ->. unfold same_point in S. now rewrite Nat.eqb_refl in S.
Qed.

Lemma too_close_found p q : In p points -> In q points -> p <> q -> space_distance p q < 5 / 100 ->
  (forall r, In r points -> flat_distance p r < 5 / 100 -> p_z r = p_z p) ->
  exists r, In r points /\ space_distance p r < 5 / 100 /\
    In (Issue Warning PPoint (p_id p)
         ("Point is very close to point " ++ print_Z (p_id r) ++ ". This can lead to defects in the map")%string)
       (points_too_close nearest points).
Proof.
  intros Hp Hq N D Hz.
  assert (Dq : flat_distance p q < 5 / 100).
  { eapply Rle_lt_trans; [|exact D]. unfold flat_distance, space_distance. apply sqrt_le_1_alt.
    assert (0 <= (p_z p - p_z q) ^ 2) by apply pow2_ge_0. lra. }
  destruct (nearest_right p Hp) as (ND & Hin & Hlen & Hmin).
  assert (L : (2 <= List.length points)%nat).
  { destruct points as [|x [|y r]]; cbn; [destruct Hp| |lia].
    destruct Hp as [<-|[]]. destruct Hq as [<-|[]]. contradiction. }
  rewrite Nat.min_l in Hlen by exact L.
  destruct (nearest p) as [|a [|b [|c r]]] eqn:E; cbn in Hlen; try lia.
  assert (Ha : In a points) by (apply Hin; cbn; auto).
  assert (Hb : In b points) by (apply Hin; cbn; auto).
  set (n := if same_point a p then b else a).
  assert (Hn : In n points) by (unfold n; destruct (same_point a p); assumption).
  assert (Dn : flat_distance p n < 5 / 100).
  { unfold n. destruct (same_point a p) eqn:S.
    - apply (same_point_eq a p Ha Hp) in S. subst a.
      destruct (Nat.eq_dec (p_data q) (p_data b)) as [Q|Q].
      + apply data_unique in Q; auto. now subst b.
      + eapply Rle_lt_trans; [|exact Dq]. apply Hmin; [cbn; auto|exact Hq|].
        intros [I|[I|[]]]; congruence.
    - assert (Na : a <> p) by (intros ->; unfold same_point in S; now rewrite Nat.eqb_refl in S).
      destruct (Nat.eq_dec (p_data q) (p_data a)) as [Q|Q].
      + apply data_unique in Q; auto. now subst a.
      + destruct (Nat.eq_dec (p_data p) (p_data b)) as [B|B].
        * apply data_unique in B; auto. subst b.
          eapply Rle_lt_trans; [|exact Dq]. apply Hmin; [cbn; auto|exact Hq|].
          intros [I|[I|[]]]; congruence.
        * eapply Rle_lt_trans with (flat_distance p p); [|rewrite flat_self; lra].
          apply Hmin; [cbn; auto|exact Hp|]. intros [I|[I|[]]]; congruence. }
  assert (Sn : space_distance p n < 5 / 100).
  { rewrite space_flat; [exact Dn|]. symmetry. now apply Hz. }
  exists n. split; [exact Hn|]. split; [exact Sn|].
  unfold points_too_close. apply in_flat_map. exists p. split; [exact Hp|]. rewrite E. fold n.
  destruct (Rlt_dec (distance3 p n) (5 / 100)) as [_|X]; [now left|].
  exfalso. apply X. now rewrite distance3_spec.
Qed.
End close.

(** * Curvature *)

(** The product of the sides is four times the area times the radius. *)
Lemma circle_area cx cy r p q s : on_circle cx cy r p -> on_circle cx cy r q -> on_circle cx cy r s ->
  (distance2 p q * distance2 p s * distance2 q s) ^ 2
  = (4 * (1 / 2 * ((p_x q - p_x p) * (p_y s - p_y p) - (p_y q - p_y p) * (p_x s - p_x p))) * r) ^ 2.
Proof.
  unfold on_circle, distance2. intros Hp Hq Hs.
  rewrite !Rpow_mult_distr.
  assert (S : forall x y, sqrt (x * x + y * y) ^ 2 = x * x + y * y).
  { intros x y. rewrite <- Rsqr_pow2. apply Rsqr_sqrt. nra. }
  rewrite !S.
  set (px := p_x p - cx) in *. set (py := p_y p - cy) in *.
  set (qx := p_x q - cx) in *. set (qy := p_y q - cy) in *.
  set (sx := p_x s - cx) in *. set (sy := p_y s - cy) in *.
  replace (p_x p - p_x q) with (px - qx) by (unfold px, qx; ring).
  replace (p_y p - p_y q) with (py - qy) by (unfold py, qy; ring).
  replace (p_x p - p_x s) with (px - sx) by (unfold px, sx; ring).
  replace (p_y p - p_y s) with (py - sy) by (unfold py, sy; ring).
  replace (p_x q - p_x s) with (qx - sx) by (unfold qx, sx; ring).
  replace (p_y q - p_y s) with (qy - sy) by (unfold qy, sy; ring).
  replace (p_x q - p_x p) with (qx - px) by (unfold qx, px; ring).
  replace (p_y s - p_y p) with (sy - py) by (unfold sy, py; ring).
  replace (p_y q - p_y p) with (qy - py) by (unfold qy, py; ring).
  replace (p_x s - p_x p) with (sx - px) by (unfold sx, px; ring).
  clearbody px py qx qy sx sy.
  set (a := px * qx + py * qy). set (b := px * sx + py * sy). set (c := qx * sx + qy * sy).
  set (R := r * r).
  assert (Kp : px * px + py * py = R) by (unfold R; lra).
  assert (Kq : qx * qx + qy * qy = R) by (unfold R; lra).
  assert (Ks : sx * sx + sy * sy = R) by (unfold R; lra).
  replace ((px - qx) * (px - qx) + (py - qy) * (py - qy)) with (2 * (R - a)) by (unfold a; lra).
  replace ((px - sx) * (px - sx) + (py - sy) * (py - sy)) with (2 * (R - b)) by (unfold b; lra).
  replace ((qx - sx) * (qx - sx) + (qy - sy) * (qy - sy)) with (2 * (R - c)) by (unfold c; lra).
  assert (D : ((qx - px) * (sy - py) - (qy - py) * (sx - px)) ^ 2 = 4 * (R - a) * (R - b) - (R + c - a - b) ^ 2).
  { replace (2 * 2) with 4 by ring.
    replace (4 * (R - a) * (R - b)) with ((2 * (R - a)) * (2 * (R - b))) by ring.
    replace (2 * (R - a)) with ((px - qx) * (px - qx) + (py - qy) * (py - qy)) by (unfold a; lra).
    replace (2 * (R - b)) with ((px - sx) * (px - sx) + (py - sy) * (py - sy)) by (unfold b; lra).
    replace (R + c - a - b) with ((qx - px) * (sx - px) + (qy - py) * (sy - py)) by (unfold a, b, c; lra).
    ring. }
  assert (G : R * R * R + 2 * a * b * c - R * (c * c) - R * (b * b) - R * (a * a) = 0).
  { rewrite <- Kp at 1. rewrite <- Kq at 1. rewrite <- Ks at 1. rewrite <- Kp at 1. rewrite <- Kq at 1. rewrite <- Ks at 1.
    unfold a, b, c. ring. }
  transitivity (4 * R * ((qx - px) * (sy - py) - (qy - py) * (sx - px)) ^ 2); [|unfold R; field].
  rewrite D. clear - G. clearbody a b c R. nra.
Qed.

Definition twice_area (p q s : vpoint) : R :=
  (p_x q - p_x p) * (p_y s - p_y p) - (p_y q - p_y p) * (p_x s - p_x p).

Lemma circle_through p q s : twice_area p q s <> 0 ->
  exists cx cy r, 0 <= r /\ on_circle cx cy r p /\ on_circle cx cy r q /\ on_circle cx cy r s.
Proof.
  unfold twice_area, on_circle. intros N.
  set (x1 := p_x q - p_x p) in *. set (y1 := p_y q - p_y p) in *.
  set (x2 := p_x s - p_x p) in *. set (y2 := p_y s - p_y p) in *.
  set (dx := (y2 * (x1 * x1 + y1 * y1) - y1 * (x2 * x2 + y2 * y2)) / (2 * (x1 * y2 - y1 * x2))).
  set (dy := (x1 * (x2 * x2 + y2 * y2) - x2 * (x1 * x1 + y1 * y1)) / (2 * (x1 * y2 - y1 * x2))).
  exists (p_x p + dx), (p_y p + dy), (sqrt (dx * dx + dy * dy)).
  assert (Q : sqrt (dx * dx + dy * dy) ^ 2 = dx * dx + dy * dy).
  { rewrite <- Rsqr_pow2. apply Rsqr_sqrt. nra. }
  rewrite Q. split; [apply sqrt_pos|]. split; [ring|]. split.
  - replace (p_x q - (p_x p + dx)) with (x1 - dx) by (unfold x1; ring).
    replace (p_y q - (p_y p + dy)) with (y1 - dy) by (unfold y1; ring).
    unfold dx, dy. field. exact N.
  - replace (p_x s - (p_x p + dx)) with (x2 - dx) by (unfold x2; ring).
    replace (p_y s - (p_y p + dy)) with (y2 - dy) by (unfold y2; ring).
    unfold dx, dy. field. exact N.
Qed.

Lemma circle_product cx cy r p q s : 0 <= r ->
  on_circle cx cy r p -> on_circle cx cy r q -> on_circle cx cy r s ->
  distance2 p q * distance2 p s * distance2 q s = 2 * Rabs (twice_area p q s) * r.
Proof.
  intros Hr Hp Hq Hs. assert (C := circle_area cx cy r p q s Hp Hq Hs). fold (twice_area p q s) in C.
  apply Rsqr_inj.
  - unfold distance2. repeat apply Rmult_le_pos; apply sqrt_pos.
  - apply Rmult_le_pos; [|exact Hr]. apply Rmult_le_pos; [lra|apply Rabs_pos].
  - unfold Rsqr. transitivity ((distance2 p q * distance2 p s * distance2 q s) ^ 2); [ring|].
    rewrite C. assert (A : Rabs (twice_area p q s) * Rabs (twice_area p q s) = twice_area p q s * twice_area p q s).
    { rewrite <- Rabs_mult. apply Rabs_right. nra. }
    transitivity (4 * (twice_area p q s * twice_area p q s) * r * r); [field|]. rewrite <- A. ring.
Qed.

Lemma too_curved_spec p q s : 1 / 10 ^ 20 <= distance2 p q * distance2 p s * distance2 q s ->
  too_curved p q s = true <-> circle_below 2 p q s.
Proof.
  intros HP. set (P := distance2 p q * distance2 p s * distance2 q s) in *.
  assert (P0 : 0 < P). { eapply Rlt_le_trans; [|exact HP]. apply Rdiv_lt_0_compat; lra. }
  unfold too_curved, signed_curvature. fold P. fold (twice_area p q s).
  destruct (Rlt_dec P (1 / 10 ^ 20)) as [X|_]; [exfalso; eapply Rlt_not_le; eassumption|].
  set (A := twice_area p q s).
  assert (K : Rabs (Rabs (4 * (1 / 2 * A) / P)) = 2 * Rabs A / P).
  { rewrite Rabs_Rabsolu. unfold Rdiv. rewrite !Rabs_mult, (Rabs_right (/ P)).
    - rewrite (Rabs_right 4) by lra. rewrite (Rabs_right 1), (Rabs_right (/ 2)) by lra. field. lra.
    - left. now apply Rinv_0_lt_compat. }
  rewrite K.
  assert (E : 1 / 2 < 2 * Rabs A / P <-> P < 4 * Rabs A).
  { split; intros H.
    - apply (Rmult_lt_compat_r P) in H; [|exact P0]. replace (2 * Rabs A / P * P) with (2 * Rabs A) in H by (field; lra). lra.
    - apply (Rmult_lt_reg_r P); [exact P0|]. replace (2 * Rabs A / P * P) with (2 * Rabs A) by (field; lra). lra. }
  transitivity (1 / 2 < 2 * Rabs A / P).
  { destruct (Rlt_dec (1 / 2) (2 * Rabs A / P)); split; intros H; try assumption; try reflexivity; [discriminate|contradiction]. }
  rewrite E. split.
  - intros H. assert (NA : A <> 0). { intros Z. rewrite Z, Rabs_R0 in H. lra. }
    destruct (circle_through p q s NA) as (cx & cy & r & Hr & C1 & C2 & C3).
    assert (PR := circle_product cx cy r p q s Hr C1 C2 C3). fold P A in PR.
    exists cx, cy, r. repeat split; auto; assert (0 <= Rabs A) by apply Rabs_pos; nra.
  - intros (cx & cy & r & Hr & C1 & C2 & C3).
    assert (PR := circle_product cx cy r p q s (Rlt_le _ _ (proj1 Hr)) C1 C2 C3). fold P A in PR.
    assert (0 <= Rabs A) by apply Rabs_pos. nra.
Qed.

Lemma check_curvature_in id l i : In i (check_curvature id l) <->
  exists a p q s b, l = (a ++ p :: q :: s :: b)%list /\ too_curved p q s = true
    /\ i = Issue Warning PLanelet id
             ("Curvature at point " ++ print_Z (p_id q)
              ++ " is bigger than 0.5. This can confuse algorithms using this map.")%string.
Proof.
  assert (C : forall p q s l, check_curvature id (p :: q :: s :: l)
    = ((if too_curved p q s
        then [Issue Warning PLanelet id
               ("Curvature at point " ++ print_Z (p_id q)
                ++ " is bigger than 0.5. This can confuse algorithms using this map.")%string]
        else []) ++ check_curvature id (q :: s :: l))%list) by reflexivity.
  split.
  - induction l as [|p [|q [|s l]] IH]; intros H; try contradiction.
    rewrite C in H. apply in_app_iff in H. destruct H as [H|H].
    + destruct (too_curved p q s) eqn:T; [|destruct H]. destruct H as [<-|[]].
      exists [], p, q, s, l. repeat split; auto.
    + destruct (IH H) as (a & p' & q' & s' & b & E & T). exists (p :: a), p', q', s', b.
      split; [cbn; now rewrite E|exact T].
  - intros (a & p & q & s & b & -> & T & ->). induction a as [|x a IH].
    + cbn [app]. rewrite C, T. now left.
    + assert (exists y z r, (a ++ p :: q :: s :: b)%list = y :: z :: r) as (y & z & r & E).
      { destruct a as [|y [|z a]]; cbn; eauto. }
      cbn [app]. rewrite E in *. rewrite C. apply in_app_iff. now right.
Qed.
Local Close Scope R_scope.

(** * Selection *)

Lemma no_comma_app a b : no_comma (a ++ b) <-> no_comma a /\ no_comma b.
Proof. induction a as [|c a IH]; cbn; [tauto|]. rewrite IH. tauto. Qed.

Lemma string_app_assoc a b c : ((a ++ b) ++ c)%string = (a ++ b ++ c)%string.
Proof. induction a as [|x a IH]; cbn; [reflexivity|now rewrite IH]. Qed.

Lemma string_app_nil a : (a ++ "")%string = a.
Proof. induction a as [|x a IH]; cbn; [reflexivity|now rewrite IH]. Qed.

(** The pieces are joined by commas to the text again. *)
Fixpoint join (l : list string) : string :=
  match l with
  | [] => ""
  | [a] => a
  | a :: r => (a ++ "," ++ join r)%string
  end.

Lemma split_nonempty s : split_commas s <> [].
Proof. destruct s as [|c s]; cbn; [discriminate|]. destruct (Ascii.eqb c ","); [discriminate|]. destruct (split_commas s); discriminate. Qed.

Lemma split_join s : join (split_commas s) = s.
Proof.
  induction s as [|c s IH]; [reflexivity|]. cbn [split_commas].
  destruct (Ascii.eqb_spec c ",") as [->|N].
  - destruct (split_commas s) as [|h t] eqn:E; [now destruct (split_nonempty s)|].
    change (join ("" :: h :: t)) with (String "," (join (h :: t))). now rewrite IH.
  - destruct (split_commas s) as [|h t] eqn:E; [now destruct (split_nonempty s)|].
    destruct t as [|h2 t]; cbn [join] in *; rewrite <- IH; reflexivity.
Qed.

Lemma split_no_comma s t : In t (split_commas s) -> no_comma t.
Proof.
  revert t. induction s as [|c s IH]; intros t H.
  - cbn in H. destruct H as [<-|[]]. exact I.
  - cbn [split_commas] in H. destruct (Ascii.eqb_spec c ",") as [->|N].
    + destruct H as [<-|H]; [exact I|now apply IH].
    + destruct (split_commas s) as [|h r].
      * destruct H as [<-|[]]. cbn. tauto.
      * destruct H as [<-|H]; [cbn; split; [exact N|apply IH; now left]|apply IH; now right].
Qed.

(** Splitting is the inverse of joining. *)
Lemma split_app a b : no_comma a -> split_commas (a ++ "," ++ b) = a :: split_commas b.
Proof.
  induction a as [|c a IH]; intros H; [reflexivity|].
  destruct H as [N H]. cbn [append split_commas].
  destruct (Ascii.eqb_spec c ","); [contradiction|]. change ("," ++ b)%string with (String "," b) in IH.
  change (String "," ("" ++ b)) with (String "," b). now rewrite IH.
Qed.

Lemma split_single a : no_comma a -> split_commas a = [a].
Proof.
  induction a as [|c a IH]; intros H; [reflexivity|]. destruct H as [N H]. cbn [split_commas].
  destruct (Ascii.eqb_spec c ","); [contradiction|]. now rewrite IH.
Qed.

Lemma split_ends a b : split_commas (a ++ "," ++ b) = split_commas a ++ split_commas b.
Proof.
  induction a as [|c a IH]; [reflexivity|]. cbn [append split_commas].
  change (split_commas (a ++ "," ++ b)) with (split_commas (a ++ String "," b)) in IH.
  change (String "," ("" ++ b)) with (String "," b). rewrite IH.
  destruct (Ascii.eqb c ","); [reflexivity|].
  destruct (split_commas a) as [|h t] eqn:E; [now destruct (split_nonempty a)|]. reflexivity.
Qed.

Lemma split_piece s t : In t (split_commas s) <-> piece t s.
Proof.
  split.
  - intros H. split; [eapply split_no_comma, H|].
    apply in_split in H. destruct H as (l1 & l2 & E).
    assert (J : forall x l, l <> [] -> join (x :: l) = (x ++ "," ++ join l)%string).
    { intros x [|y l] N; [contradiction|reflexivity]. }
    assert (A : forall l1, exists a, (a = "" \/ exists a', a = (a' ++ ",")%string)
                 /\ join (l1 ++ t :: l2) = (a ++ join (t :: l2))%string).
    { clear E l1. induction l1 as [|x l1 IH]; [exists ""; auto|].
      destruct IH as (a & Ha & IH). exists (x ++ "," ++ a)%string. split.
      - right. destruct Ha as [->|[a' ->]]; [exists x; now rewrite string_app_nil|].
        exists (x ++ "," ++ a')%string. now rewrite !string_app_assoc.
      - cbn [app]. rewrite J by (destruct l1; discriminate). rewrite IH. now rewrite !string_app_assoc. }
    destruct (A l1) as (a & Ha & JA). rewrite <- E, split_join in JA.
    destruct l2 as [|y l2].
    + exists a, "". rewrite JA. cbn [join]. rewrite string_app_nil. auto.
    + exists a, ("," ++ join (y :: l2))%string. rewrite JA, J by discriminate. split; [reflexivity|]. eauto.
  - intros (N & a & b & -> & Ha & Hb).
    assert (B : In t (split_commas (t ++ b))).
    { destruct Hb as [->|[b' ->]].
      - rewrite string_app_nil, split_single by exact N. now left.
      - rewrite split_app by exact N. now left. }
    destruct Ha as [->|[a' ->]]; [exact B|].
    rewrite string_app_assoc, split_ends. apply in_app_iff. now right.
Qed.

Lemma parse_filter_in s t : In t (parse_filter s) <-> t <> "" /\ piece t s.
Proof.
  unfold parse_filter. rewrite filter_In, split_piece, negb_true_iff.
  destruct (String.eqb_spec t ""); intuition congruence.
Qed.

Lemma insert_in v l x : In x (insert_sorted v l) <-> x = v \/ In x l.
Proof.
  induction l as [|h t IH]; cbn; [intuition|].
  destruct (string_lt h v); cbn; [rewrite IH|]; intuition.
Qed.
Lemma sort_in l x : In x (sort_strings l) <-> In x l.
Proof. induction l as [|h t IH]; cbn; [tauto|]. rewrite insert_in, IH. intuition. Qed.

Definition not_above (a b : string) : Prop := string_lt b a = false.
Lemma not_above_trans a b c : not_above a b -> not_above b c -> not_above a c.
Proof.
  unfold not_above. intros H1 H2. destruct (string_lt c a) eqn:E; [|reflexivity].
  destruct (string_lt a b) eqn:L.
  - rewrite (string_lt_trans c a b E L) in H2. discriminate.
  - rewrite (string_lt_total a b L H1) in E. congruence.
Qed.

Lemma insert_ordered v l : StronglySorted not_above l -> StronglySorted not_above (insert_sorted v l).
Proof.
  induction l as [|h t IH]; intros H; cbn; [constructor; constructor|].
  inversion H as [|? ? Ht Hh]; subst.
  destruct (string_lt h v) eqn:E.
  - constructor; [now apply IH|]. apply Forall_forall. intros x Hx. apply insert_in in Hx. destruct Hx as [->|Hx].
    + unfold not_above. destruct (string_lt v h) eqn:F; [|reflexivity].
      rewrite <- (string_lt_irrefl v). symmetry. eapply string_lt_trans; eassumption.
    + rewrite Forall_forall in Hh. now apply Hh.
  - constructor; [exact H|]. constructor; [exact E|].
    apply Forall_forall. intros x Hx. rewrite Forall_forall in Hh. eapply not_above_trans; [exact E|now apply Hh].
Qed.
Lemma sort_ordered l : StronglySorted not_above (sort_strings l).
Proof. induction l; cbn; [constructor|now apply insert_ordered]. Qed.

Lemma unique_cons a b l : unique (a :: b :: l) = if String.eqb a b then unique (b :: l) else a :: unique (b :: l).
Proof. reflexivity. Qed.

Lemma unique_in l x : In x (unique l) <-> In x l.
Proof.
  induction l as [|a [|b l] IH]; [cbn; tauto|cbn; tauto|].
  rewrite unique_cons. destruct (String.eqb_spec a b) as [->|N].
  - rewrite IH. cbn. tauto.
  - cbn [In] in *. rewrite IH. tauto.
Qed.

Lemma unique_nodup l : StronglySorted not_above l -> NoDup (unique l).
Proof.
  induction l as [|a [|b l] IH]; intros H; [constructor|repeat constructor; auto|].
  inversion H as [|? ? Ht Ha]; subst. rewrite unique_cons.
  destruct (String.eqb_spec a b) as [->|N]; [now apply IH|].
  constructor; [|now apply IH]. rewrite unique_in. intros [->|I]; [contradiction|].
  inversion Ht as [|? ? _ Hb]; subst. rewrite Forall_forall in Hb, Ha.
  apply N. apply string_lt_total.
  - exact (Hb a I).
  - apply (Ha b). now left.
Qed.

Lemma match_validators_in matches flt names n :
  In n (match_validators matches (parse_filter flt) names) <-> In n names /\ selected matches flt n.
Proof.
  unfold match_validators, selected.
  assert (P := parse_filter_in flt).
  destruct (parse_filter flt) as [|r rs] eqn:E.
  - split; [|tauto]. intros H. split; [exact H|left]. intros t Ht.
    destruct (String.eqb_spec t "") as [|N]; [assumption|]. exfalso. apply (P t); auto.
  - rewrite unique_in, sort_in, in_flat_map. split.
    + intros (x & Hx & H). apply filter_In in H. split; [tauto|right]. exists x. apply P in Hx. tauto.
    + intros [Hn [H|(t & Ht & Hp & Hm)]].
      * exfalso. assert (Hr : In r (r :: rs)) by now left. apply P in Hr. destruct Hr as [N Hr]. now apply N, H.
      * exists t. split; [apply P; tauto|]. apply filter_In. tauto.
Qed.

Lemma match_validators_nodup matches re names : NoDup names -> NoDup (match_validators matches re names).
Proof. intros H. destruct re; [exact H|]. apply unique_nodup, sort_ordered. Qed.

Lemma run_validators_in names run d : In d (run_validators names run) <->
  In (d_check d) names /\ d_issues d = run (d_check d) /\ run (d_check d) <> [].
Proof.
  unfold run_validators. rewrite in_flat_map. split.
  - intros (n & Hn & H). destruct (run n) eqn:E; [destruct H|]. destruct H as [<-|[]]. cbn [d_check d_issues].
    rewrite E. repeat split; auto. discriminate.
  - intros (Hn & Hi & N). exists (d_check d). split; [exact Hn|]. destruct (run (d_check d)) eqn:E; [contradiction|].
    left. destruct d; cbn in *. now rewrite Hi.
Qed.

Lemma build_report_eq l : build_report l =
  (flat_map (fun d => map (report_line d) (errors d)) l, flat_map (fun d => map (report_line d) (warnings d)) l).
Proof.
  unfold build_report.
  assert (G : forall l e w, fold_left
     (fun r d => (fst r ++ map (report_line d) (errors d), snd r ++ map (report_line d) (warnings d))%list) l (e, w)
     = (e ++ flat_map (fun d => map (report_line d) (errors d)) l,
        w ++ flat_map (fun d => map (report_line d) (warnings d)) l)%list).
  { clear l. induction l as [|d r IH]; intros e w; [cbn; now rewrite !app_nil_r|].
    cbn [fold_left flat_map].
    cbn [fst snd]. rewrite IH, !app_assoc. reflexivity. }
  apply (G l [] []).
Qed.
