From Coq Require Import List Bool Arith Reals Lra Lia.
From Verif Require Import ArcModel ArcSpec.
Import ListNotations.
Local Open Scope R_scope.

Section Along.
Context {P : Type} (dist : P -> P -> R) (move : P -> P -> R -> P).
Hypothesis M : metric_ok dist move.
Notation len := (way_length dist).

Lemma len_cons a b l : len (a :: b :: l) = dist a b + len (b :: l).
Proof. reflexivity. Qed.
Lemma len_1 a : len [a] = 0. Proof. reflexivity. Qed.
Lemma range_length_eq l : range_length dist l = len l.
Proof. induction l as [|a [|b l] IH]; [reflexivity..|]. rewrite len_cons, <- IH. reflexivity. Qed.
Lemma len_app l1 a l2 : len (l1 ++ a :: l2) = len (l1 ++ [a]) + len (a :: l2).
Proof.
  induction l1 as [|x [|y l1] IH].
  - cbn [app]. rewrite len_1. ring.
  - cbn [app]. rewrite !len_cons, len_1. ring.
  - cbn [app] in *. rewrite !len_cons, IH. ring.
Qed.
Lemma len_pos l : 0 <= len l.
Proof. induction l as [|a [|b l] IH]; [unfold way_length; cbn; lra..|]. rewrite len_cons. pose proof (dist_pos _ _ M a b). lra. Qed.
Lemma len_rev l : len (rev l) = len l.
Proof.
  induction l as [|a [|b l] IH]; [reflexivity..|]. rewrite len_cons, <- IH. cbn [rev]. rewrite <- app_assoc. cbn [app].
  rewrite len_app, len_cons, len_1, (dist_sym _ _ M b a). ring.
Qed.

Lemma at_length_cons a b l s x : at_length dist move (b :: l) s x -> at_length dist move (a :: b :: l) (dist a b + s) x.
Proof.
  intros (l1 & u & v & l2 & t & E & Ht & Ex & ->). exists (a :: l1), u, v, l2, t. cbn [app]. rewrite E. repeat split; try tauto.
  destruct l1 as [|y l1]; cbn [app] in *; injection E as -> _; rewrite len_cons; ring.
Qed.
Lemma vertex_cons a b l s x : vertex_at dist (b :: l) s x -> vertex_at dist (a :: b :: l) (dist a b + s) x.
Proof.
  intros (l1 & l2 & E & ->). exists (a :: l1), l2. cbn [app]. rewrite E. split; auto.
  destruct l1 as [|y l1]; cbn [app] in *; injection E as -> _; rewrite len_cons; ring.
Qed.
Lemma vertex_inv a b l s x : vertex_at dist (a :: b :: l) s x -> (s = 0 /\ x = a) \/ vertex_at dist (b :: l) (s - dist a b) x.
Proof.
  intros ([|y l1] & l2 & E & ->); cbn [app] in E.
  - left. injection E as -> _. auto.
  - right. injection E as -> E. exists l1, l2. split; auto. destruct l1 as [|z l1]; cbn [app] in *; injection E as -> _; rewrite len_cons; ring.
Qed.
Lemma at_length_rev l s x : at_length dist move (rev l) s x -> at_length dist move l (len l - s) x.
Proof.
  intros (l1 & a & b & l2 & t & E & Ht & -> & ->). apply (f_equal (@rev P)) in E. rewrite rev_involutive, rev_app_distr in E. cbn [rev] in E.
  rewrite <- !app_assoc in E. cbn [app] in E. exists (rev l2), b, a, (rev l1), (1 - t). repeat split; try lra; auto.
  - apply move_rev with (1 := M).
  - rewrite E, len_app, len_cons, (dist_sym _ _ M b a). change (a :: rev l1) with ([a] ++ rev l1).
    rewrite <- (rev_involutive ([a] ++ rev l1)), len_rev, rev_app_distr, rev_involutive. cbn [rev app]. ring.
Qed.
Lemma vertex_rev l s x : vertex_at dist (rev l) s x -> vertex_at dist l (len l - s) x.
Proof.
  intros (l1 & l2 & E & ->). apply (f_equal (@rev P)) in E. rewrite rev_involutive, rev_app_distr in E. cbn [rev] in E.
  rewrite <- !app_assoc in E. cbn [app] in E. exists (rev l2), (rev l1). split; auto.
  rewrite E, len_app. change (x :: rev l1) with ([x] ++ rev l1).
  rewrite <- (rev_involutive ([x] ++ rev l1)), len_rev, rev_app_distr, rev_involutive. cbn [rev app]. ring.
Qed.
Lemma vertex_range l s x : vertex_at dist l s x -> 0 <= s <= len l.
Proof. intros (l1 & l2 & -> & ->). rewrite (len_app l1 x l2). pose proof (len_pos (l1 ++ [x])). pose proof (len_pos (x :: l2)). lra. Qed.

Lemma interpolate_loop_ok l : forall total d, (2 <= length l)%nat -> total <= d ->
  exists x s, interpolate_loop dist move l total d = Ok x /\ at_length dist move l s x /\
              Rmin (len l) (d - total) - / 100000000 < s <= Rmin (len l) (d - total) /\ (len l < d - total -> s = len l).
Proof.
  induction l as [|a [|b l] IH]; intros total d Hl Hd; try (cbn in Hl; lia).
  cbn [interpolate_loop]. pose proof (dist_pos _ _ M a b) as Hab. pose proof (len_pos (b :: l)) as Hr.
  destruct (Rle_dec d (total + dist a b)) as [L|L].
  - assert (Em : Rmin (len (a :: b :: l)) (d - total) = d - total) by (apply Rmin_right; rewrite len_cons; lra). rewrite Em.
    destruct (Rlt_dec (d - (total + dist a b - dist a b)) (/ 100000000)) as [S|S].
    + exists a, 0. split; auto. split; [|rewrite len_cons; split; [lra|intros; lra]].
      exists [], a, b, l, 0. cbn [app]. rewrite len_1, (move_0 _ _ M). repeat split; auto; lra.
    + assert (dist a b <> 0) by lra.
      exists (move a b ((d - (total + dist a b - dist a b)) / dist a b)), (d - total). split; auto. split.
      * exists [], a, b, l, ((d - (total + dist a b - dist a b)) / dist a b). cbn [app]. rewrite len_1.
        replace (d - (total + dist a b - dist a b)) with (d - total) by ring. repeat split; auto.
        -- apply Rmult_le_reg_r with (dist a b); [lra|]. field_simplify; lra.
        -- apply Rmult_le_reg_r with (dist a b); [lra|]. field_simplify; lra.
        -- field. auto.
      * rewrite len_cons. split; [lra|intros; lra].
  - destruct l as [|c l].
    + cbn [interpolate_loop]. exists b, (dist a b). split; auto. rewrite len_cons, len_1.
      rewrite Rmin_left by lra. split; [|split; [lra|intros; ring]].
      exists [], a, b, [], 1. cbn [app]. rewrite len_1, (move_1 _ _ M). repeat split; auto; lra.
    + destruct (IH (total + dist a b) d) as (x & s & E & A & [L1 L2] & F); [cbn; lia|lra|].
      exists x, (dist a b + s). split; [exact E|]. split; [apply at_length_cons; auto|].
      rewrite (len_cons a b). replace (d - total) with (dist a b + (d - (total + dist a b))) by ring.
      assert (Em : Rmin (dist a b + len (b :: c :: l)) (dist a b + (d - (total + dist a b))) = dist a b + Rmin (len (b :: c :: l)) (d - (total + dist a b))).
      { unfold Rmin. destruct (Rle_dec _ _), (Rle_dec _ _); lra. }
      rewrite Em. split; [lra|]. intros. rewrite F; lra.
Qed.

Lemma interpolated_ok l d : (2 <= length l)%nat ->
  exists x s, interpolated_point dist move l d = Ok x /\ at_length dist move l s x /\ Rabs (s - wanted dist l d) < / 100000000 /\
              (0 <= d -> s <= wanted dist l d) /\ (d < 0 -> wanted dist l d <= s) /\ (len l < Rabs d -> s = wanted dist l d).
Proof.
  intros Hl. unfold interpolated_point, wanted. destruct (Rlt_dec d 0) as [N|N].
  - destruct (interpolate_loop_ok (rev l) 0 (- d)) as (x & s & E & A & B & F); [rewrite rev_length; auto|lra|].
    exists x, (len l - s). rewrite len_rev in *. apply at_length_rev in A. split; auto. split; auto.
    assert (Em : Rmax 0 (len l + d) = len l - Rmin (len l) (- d - 0)) by (unfold Rmin, Rmax; destruct (Rle_dec _ _), (Rle_dec _ _); lra).
    rewrite Em. split; [apply Rabs_def1; lra|]. split; [lra|]. split; [lra|]. rewrite Rabs_left by auto. intros K.
    rewrite F by lra. rewrite Rmin_left by lra. ring.
  - destruct (interpolate_loop_ok l 0 d) as (x & s & E & A & B & F); [auto|lra|].
    exists x, s. split; auto. split; auto. replace (d - 0) with d in * by ring. split; [apply Rabs_def1; lra|].
    split; [lra|]. split; [lra|]. rewrite Rabs_right by lra. intros K. rewrite F by lra. rewrite Rmin_left by lra. ring.
Qed.

(** * The nearest vertex *)
Lemma vertex_first a l : vertex_at dist (a :: l) 0 a.
Proof. exists [], l. auto. Qed.
Lemma vertex_single a s v : vertex_at dist [a] s v -> s = 0.
Proof. intros ([|y [|]] & l2 & E & ->); cbn [app] in *; try discriminate. injection E as -> _. reflexivity. Qed.
Lemma nearest_loop_ok l : forall total d, l <> [] -> total <= d ->
  exists v s, nearest_loop dist l total d = Ok v /\ vertex_at dist l s v /\ (forall s' v', vertex_at dist l s' v' -> Rabs (s - (d - total)) <= Rabs (s' - (d - total))).
Proof.
  induction l as [|a [|b l] IH]; intros total d Hl Hd; [congruence| |].
  - exists a, 0. split; auto. split; [apply vertex_first|]. intros s' v' V. apply vertex_single in V. subst. lra.
  - clear Hl. cbn [nearest_loop]. pose proof (dist_pos _ _ M a b) as Hab.
    destruct (Rle_dec d (total + dist a b)) as [L|L].
    + replace (d - (total + dist a b - dist a b)) with (d - total) by ring.
      assert (Hother : forall s' v', vertex_at dist (a :: b :: l) s' v' -> s' = 0 \/ dist a b <= s').
      { intros s' v' V. apply vertex_inv in V. destruct V as [[-> _]|V]; auto. apply vertex_range in V. right. lra. }
      destruct (Rlt_dec (dist a b / 2) (d - total)) as [S|S].
      * exists b, (dist a b). split; auto. split; [replace (dist a b) with (dist a b + 0) by ring; apply vertex_cons, vertex_first|].
        intros s' v' V. rewrite (Rabs_right (dist a b - _)) by lra. destruct (Hother _ _ V) as [->|]; [rewrite Rabs_left1 by lra; lra|rewrite Rabs_right by lra; lra].
      * exists a, 0. split; auto. split; [apply vertex_first|].
        intros s' v' V. rewrite (Rabs_left1 (0 - _)) by lra. destruct (Hother _ _ V) as [->|]; [rewrite Rabs_left1 by lra; lra|rewrite Rabs_right by lra; lra].
    + destruct (IH (total + dist a b) d) as (v & s & E & V & O); [discriminate|lra|].
      exists v, (dist a b + s). split; [exact E|]. split; [apply vertex_cons; auto|].
      replace (dist a b + s - (d - total)) with (s - (d - (total + dist a b))) by ring.
      intros s' v' W. apply vertex_inv in W. destruct W as [[-> _]|W].
      * pose proof (O 0 b (vertex_first b l)) as K. rewrite (Rabs_left1 (0 - _)) in K by lra. rewrite (Rabs_left1 (0 - _)) by lra. lra.
      * apply O in W. replace (s' - (d - total)) with (s' - dist a b - (d - (total + dist a b))) by ring. auto.
Qed.
Lemma nearest_ok l d : l <> [] ->
  exists v s, nearest_vertex dist l d = Ok v /\ vertex_at dist l s v /\ (forall s' v', vertex_at dist l s' v' -> Rabs (s - wanted dist l d) <= Rabs (s' - wanted dist l d)).
Proof.
  intros Hl. unfold nearest_vertex, wanted. destruct (Rlt_dec d 0) as [N|N].
  - destruct (nearest_loop_ok (rev l) 0 (- d)) as (v & s & E & V & O).
    { intros K. apply (f_equal (@rev P)) in K. rewrite rev_involutive in K. easy. } { lra. }
    exists v, (len l - s). split; auto. pose proof (vertex_range _ _ _ V) as Rs. rewrite len_rev in Rs. split; [apply vertex_rev; auto|].
    intros s' v' W. pose proof (vertex_range _ _ _ W) as Rs'.
    assert (W' : vertex_at dist (rev l) (len l - s') v') by (rewrite <- (len_rev l); apply vertex_rev; rewrite rev_involutive; auto).
    apply O in W'. revert W'. unfold Rmax, Rabs. repeat destruct (Rle_dec _ _); repeat destruct (Rcase_abs _); lra.
  - destruct (nearest_loop_ok l 0 d) as (v & s & E & V & O); [auto|lra|]. exists v, s. split; auto. split; auto.
    pose proof (vertex_range _ _ _ V) as Rs. intros s' v' W. pose proof (vertex_range _ _ _ W) as Rs'. apply O in W.
    revert W. unfold Rmin, Rabs. repeat destruct (Rle_dec _ _); repeat destruct (Rcase_abs _); lra.
Qed.

(** * Ratios *)
Lemma pair_ratios_length t l : length (pair_ratios dist t l) = (length l - 1)%nat.
Proof. induction l as [|a [|b l] IH]; [reflexivity..|]. cbn [pair_ratios length] in *. lia. Qed.
Lemma pair_ratios_nth t l : forall l1 a b l2, l = l1 ++ a :: b :: l2 -> nth_error (pair_ratios dist t l) (length l1) = Some (dist a b / t).
Proof.
  induction l as [|x [|y l] IH]; intros l1 a b l2 E.
  - destruct l1; discriminate.
  - destruct l1 as [|? [|]]; discriminate.
  - destruct l1 as [|z l1]; cbn [app] in E.
    + injection E as -> -> _. reflexivity.
    + injection E as -> E. cbn [pair_ratios length nth_error]. eapply IH. eauto.
Qed.
Lemma pair_ratios_sum t l : fold_right Rplus 0 (pair_ratios dist t l) = len l / t.
Proof.
  induction l as [|a [|b l] IH]; [unfold way_length, Rdiv; cbn; ring..|]. rewrite len_cons. cbn [pair_ratios fold_right] in *. rewrite IH. unfold Rdiv. ring.
Qed.
Lemma add_previous_nth l : forall p i, (i < length l)%nat -> nth_error (add_previous p l) i = Some (p + fold_right Rplus 0 (firstn (S i) l)).
Proof.
  induction l as [|x l IH]; intros p i Hi; [cbn in Hi; lia|]. destruct i as [|i].
  - cbn [add_previous nth_error firstn fold_right]. f_equal. ring.
  - cbn [add_previous nth_error]. rewrite IH by (cbn in Hi; lia). f_equal. rewrite (firstn_cons (S i) x). cbn [fold_right]. ring.
Qed.
Lemma accumulate_nth l i : (i < length l)%nat -> nth_error (accumulate l) i = Some (fold_right Rplus 0 (firstn (S i) l)).
Proof.
  destruct l as [|x l]; [cbn; lia|]. intros Hi. destruct i as [|i]; cbn [accumulate nth_error].
  - cbn. f_equal. ring.
  - rewrite add_previous_nth by (cbn in Hi; lia). f_equal.
Qed.
Lemma add_previous_length l : forall p, length (add_previous p l) = length l.
Proof. induction l; intros; cbn; auto. Qed.
Lemma accumulate_length l : length (accumulate l) = length l.
Proof. destruct l; cbn; auto. rewrite add_previous_length. auto. Qed.
Lemma pair_ratios_firstn t l : forall i, firstn i (pair_ratios dist t l) = pair_ratios dist t (firstn (S i) l).
Proof.
  induction l as [|a [|b l] IH]; intros i; [destruct i; reflexivity|destruct i as [|[|]]; reflexivity|].
  destruct i as [|i]; [reflexivity|]. rewrite (firstn_cons (S i) a), (firstn_cons i b). cbn [pair_ratios]. rewrite firstn_cons, IH, firstn_cons. reflexivity.
Qed.
Lemma ratios_ok l : (2 <= length l)%nat -> len l <> 0 -> length_ratios dist l = Ok (pair_ratios dist (len l) l).
Proof.
  intros Hl Hz. unfold length_ratios. destruct l as [|a [|b [|c l]]]; try (cbn in Hl; lia).
  - rewrite len_cons, len_1 in *. cbn [pair_ratios]. replace (dist a b / (dist a b + 0)) with 1; auto. field. lra.
  - rewrite range_length_eq. destruct (Req_EM_T _ 0); easy.
Qed.
Lemma accumulated_ok l : (2 <= length l)%nat -> len l <> 0 ->
  exists rs, accumulated_ratios dist l = Ok rs /\ length rs = (length l - 1)%nat /\
             forall i, (i < length l - 1)%nat -> nth_error rs i = Some (len (firstn (i + 2) l) / len l).
Proof.
  intros Hl Hz. unfold accumulated_ratios. rewrite ratios_ok by auto. eexists. split; [reflexivity|]. rewrite accumulate_length, pair_ratios_length. split; auto.
  intros i Hi. rewrite accumulate_nth by (rewrite pair_ratios_length; auto). f_equal. rewrite pair_ratios_firstn, pair_ratios_sum.
  replace (S (S i)) with (i + 2)%nat by lia. reflexivity.
Qed.
End Along.
