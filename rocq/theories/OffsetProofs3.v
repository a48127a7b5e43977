(** Proofs about OffsetModel.v: the check of the result, and the evaluation of walks. *)
From Coq Require Import List Bool Arith Reals Lia Lra Psatz.
From Verif Require Import ArcModel ArcSpec ArcPlane OffsetModel OffsetSpec OffsetWalk OffsetProofs OffsetProofs2.
Import ListNotations.
Local Open Scope R_scope.

(** * The check for inversions *)

Section Check.
Variable nearest : list segment -> point -> segment.
Hypothesis N : nearest_ok nearest.

Lemma project_nearest a b p : on_segment (a, b) (project_to a b p) /\ forall y, on_segment (a, b) y -> distance (project_to a b p) p <= euclid p y.
Proof.
  destruct (project_to_ok a b p) as (t & Ht & E & Hm & _). split; [exists t; auto|].
  intros y (u & Hu & ->). cbn [fst snd]. rewrite E. rewrite distance_euclid. specialize (Hm u Hu).
  unfold euclid. apply sqrt_le_1_alt. unfold sqn in Hm.
  replace ((fst (between a b t) - fst p) * (fst (between a b t) - fst p) + (snd (between a b t) - snd p) * (snd (between a b t) - snd p))
    with ((fst p - fst (between a b t)) * (fst p - fst (between a b t)) + (snd p - snd (between a b t)) * (snd p - snd (between a b t))) by ring.
  replace ((fst (between a b u) - fst p) * (fst (between a b u) - fst p) + (snd (between a b u) - snd p) * (snd (between a b u) - snd p))
    with ((fst p - fst (between a b u)) * (fst p - fst (between a b u)) + (snd p - snd (between a b u)) * (snd p - snd (between a b u))) by ring.
  lra.
Qed.
(** The distance that is compared is the distance from the line string. *)
Lemma nearest_distance segs p a b : segs <> [] -> nearest segs p = (a, b) ->
  In (a, b) segs /\ on_segment (a, b) (project_to a b p) /\
  forall s y, In s segs -> on_segment s y -> distance (project_to a b p) p <= euclid p y.
Proof.
  intros H E. destruct (N segs p H) as (I & x & X1 & X2). rewrite E in *. destruct (project_nearest a b p) as [P1 P2].
  split; [auto|]. split; [auto|]. intros s y Hs Hy. eapply Rle_trans; [apply (P2 x X1)|]. rewrite euclid_sym, (euclid_sym p y). eapply X2; eauto.
Qed.
Lemma inverted_false segs d ps : segs <> [] ->
  inverted nearest segs d ps = false <-> (forall p s y, In p ps -> In s segs -> on_segment s y -> d - / 10000000 <= euclid p y).
Proof.
  intros H. induction ps as [|p ps IH]; simpl.
  - split; [intros _ p s y []|auto].
  - destruct (nearest segs p) as [a b] eqn:E. destruct (nearest_distance segs p a b H E) as (I1 & I2 & I3).
    destruct (Rlt_dec (distance (project_to a b p) p + / 10000000) d) as [G|G].
    + split; [discriminate|]. intros X. exfalso. specialize (X p (a, b) _ (or_introl eq_refl) I1 I2). rewrite distance_euclid in G. lra.
    + rewrite IH. split.
      * intros X q s y [<-|Iq] Is Oy; [|eauto]. specialize (I3 s y Is Oy). lra.
      * intros X q s y Iq Is Oy. eapply X; eauto.
Qed.
End Check.
Lemma inverted_negative nearest segs d ps : d <= 0 -> inverted nearest segs d ps = false.
Proof.
  intros H. induction ps as [|p ps IH]; simpl; [auto|]. destruct (nearest segs p) as [a b].
  destruct (Rlt_dec (distance (project_to a b p) p + / 10000000) d) as [G|G]; [|auto]. exfalso.
  assert (0 <= distance (project_to a b p) p) by apply sqrt_pos. lra.
Qed.

(** * Single steps of a walk *)
Section Step.
Variable query : list (segment * nat) -> segment -> list (segment * nat).
Variable meet : segment -> segment -> list point.
Hypothesis Q : query_ok query.
Hypothesis M : meet_ok meet.
Lemma next_exit segs k s from n o x : nth_error segs n = Some o -> free k s o n -> on_segment s x -> on_segment o x ->
  (forall y, on_segment s y -> on_segment o y -> y = x) -> from < euclid (fst s) x ->
  (forall n' o', nth_error segs n' = Some o' -> free k s o' n' -> touch s o' -> n' = n) ->
  exists cs, crossings_at query meet (indexed segs) k s = Done cs /\ find_next cs s from k = (x, n, euclid (fst o) x).
Proof.
  intros Hn F O1 O2 U L H. destruct (next_point query meet Q M segs k s from) as (cs & E & p & i & f & Ef & Lk & P & H1 & H2).
  exists cs. split; [auto|]. rewrite Ef. destruct H1 as [(o' & (X1 & X2 & X3 & X4 & X5) & X6)|(-> & -> & -> & X1)].
  - assert (i = n) by (apply (H i o'); auto; exists p; auto). subst i. assert (o' = o) by congruence. subst o'. rewrite (U p X3 X4) in *. congruence.
  - exfalso. destruct (X1 n o Hn F) as (y & Y1 & Y2 & Y3); [exists x; auto|]. rewrite (U y Y1 Y2) in Y3. lra.
Qed.
Lemma next_end segs k s from : (forall n o y, nth_error segs n = Some o -> (k < n)%nat -> on_segment s y -> on_segment o y -> euclid (fst s) y <= from) ->
  exists cs, crossings_at query meet (indexed segs) k s = Done cs /\ find_next cs s from k = (snd s, S k, 0).
Proof.
  intros H. destruct (next_point query meet Q M segs k s from) as (cs & E & p & i & f & Ef & Lk & P & H1 & H2).
  exists cs. split; [auto|]. rewrite Ef. destruct H1 as [(o' & (X1 & X2 & X3 & X4 & X5) & X6)|(-> & -> & -> & X1)]; [|reflexivity].
  exfalso. specialize (H i o' p X1 Lk X3 X4). lra.
Qed.
End Step.
Lemma on_coords a1 a2 b1 b2 y : on_segment ((a1, a2), (b1, b2)) y -> exists t, 0 <= t <= 1 /\ fst y = (1 - t) * a1 + t * b1 /\ snd y = (1 - t) * a2 + t * b2.
Proof. intros (t & Ht & ->). exists t. auto. Qed.
Lemma perp_eval l i a b d n p1 p2 : nth_error l i = Some a -> nth_error l (S i) = Some b -> 0 < n -> p1 * p1 + p2 * p2 = 1 ->
  psub b a = (n * p1, n * p2) -> shift_perpendicular l i d false (vicinity l i) = Done (shifted a (- (d * p2)) (d * p1)).
Proof.
  intros Ha Hb N U E. assert (L : (S i < length l)%nat) by (apply nth_error_Some; congruence).
  assert (X : snd (vicinity l i) = psub b a).
  { unfold vicinity. replace (i + 1)%nat with (S i) by lia. destruct (Nat.eqb_spec i 0); [|destruct (Nat.eqb_spec (S i) (length l)); [lia|]];
    cbn [snd]; rewrite (at_index_nth _ _ _ Ha), (at_index_nth _ _ _ Hb); reflexivity. }
  unfold shift_perpendicular. rewrite andb_false_r. replace (i + 1)%nat with (S i) by lia.
  destruct (Nat.eqb_spec (S i) (length l)); [lia|]. cbn [andb]. rewrite X, E, normalized_unit, (at_index_nth _ _ _ Ha) by auto.
  unfold padd, pscale, turned, shifted. simpl. do 2 f_equal; ring.
Qed.
Lemma convex_parts_step l d fuel cur p ps e : (cur + 1 < length l)%nat -> shift_perpendicular l cur d false (vicinity l cur) = Done p ->
  convex_part l d (length l - (cur + 1)) (cur + 1) = Done (ps, e) ->
  convex_parts l d (S fuel) cur = do rest <- convex_parts l d fuel e; Done ((p :: ps) :: rest).
Proof. intros L H1 H2. cbn [convex_parts]. destruct (Nat.ltb_spec (cur + 1) (length l)); [|lia]. rewrite H1. cbn [bind]. rewrite H2. reflexivity. Qed.
Lemma convex_parts_end l d fuel cur : (length l <= cur + 1)%nat -> convex_parts l d fuel cur = Done [].
Proof. intros L. destruct fuel; cbn [convex_parts]; destruct (Nat.ltb_spec (cur + 1) (length l)); auto; lia. Qed.

(** * Such searches exist *)
Definition on_dec (a b p : point) : bool := if point_dec (project_to a b p) p then true else false.
Lemma on_dec_ok a b p : on_dec a b p = true <-> on_segment (a, b) p.
Proof.
  unfold on_dec. destruct (project_nearest a b p) as [P1 P2]. destruct (point_dec (project_to a b p) p) as [E|E].
  - rewrite E in P1. tauto.
  - split; [discriminate|]. intros H. exfalso. apply E. specialize (P2 p H). rewrite distance_euclid, euclid_self in P2.
    symmetry. apply euclid_zero. pose proof (euclid_pos p (project_to a b p)). lra.
Qed.
Definition meet_exact (s o : segment) : list point :=
  let v := step s in let w := step o in let g := step (fst s, fst o) in
  if Req_EM_T (cross v w) 0 then
    filter (fun p => on_dec (fst s) (snd s) p && on_dec (fst o) (snd o) p) [fst s; snd s; fst o; snd o]
  else
    filter (fun p => on_dec (fst s) (snd s) p && on_dec (fst o) (snd o) p) [between (fst s) (snd s) (cross g w / cross v w)].
Lemma meet_exact_in s o p : In p (meet_exact s o) -> on_segment s p /\ on_segment o p.
Proof.
  unfold meet_exact. destruct s as [a b], o as [c d]. cbv zeta.
  destruct (Req_EM_T _ 0); intros I; apply filter_In in I; destruct I as [_ I]; apply andb_true_iff in I; destruct I as [I1 I2];
    split; apply on_dec_ok; auto.
Qed.
Lemma parallel_touch a b c d p : cross (step (a, b)) (step (c, d)) = 0 -> on_segment (a, b) p -> on_segment (c, d) p ->
  on_segment (c, d) a \/ on_segment (a, b) c \/ on_segment (a, b) d.
Proof.
  intros Z (t & Ht & Ep) (u & Hu & Ep'). cbn [fst snd] in *.
  destruct (point_dec a b) as [<-|D].
  - left. exists u. rewrite between_same in Ep. split; [auto|]. cbn [fst snd]. congruence.
  - destruct (unit_of a b D) as (n & p1 & p2 & N & U & E & _).
    destruct a as [a1 a2], b as [b1 b2], c as [c1 c2], d as [d1 d2]. unfold psub in E. cbn [fst snd] in E. injection E as E1 E2.
    assert (Eb1 : b1 = a1 + n * p1) by lra. assert (Eb2 : b2 = a2 + n * p2) by lra. clear E1 E2. subst b1 b2.
    unfold cross, step in Z. cbn [fst snd] in Z.
    set (w := ((d1 - c1) * p1 + (d2 - c2) * p2) / n).
    assert (Zk : p1 * (d2 - c2) - p2 * (d1 - c1) = 0).
    { apply Rmult_eq_reg_l with n; [|lra]. rewrite Rmult_0_r, <- Z. ring. }
    assert (W1 : d1 - c1 = w * (n * p1)).
    { unfold w. replace (((d1 - c1) * p1 + (d2 - c2) * p2) / n * (n * p1)) with ((d1 - c1) * (p1 * p1 + p2 * p2) + p2 * (p1 * (d2 - c2) - p2 * (d1 - c1))) by (field; lra).
      rewrite U, Zk. ring. }
    assert (W2 : d2 - c2 = w * (n * p2)).
    { unfold w. replace (((d1 - c1) * p1 + (d2 - c2) * p2) / n * (n * p2)) with ((d2 - c2) * (p1 * p1 + p2 * p2) - p1 * (p1 * (d2 - c2) - p2 * (d1 - c1))) by (field; lra).
      rewrite U, Zk. ring. }
    rewrite Ep in Ep'. unfold between in Ep'. cbn [fst snd] in Ep'. injection Ep' as X1 X2.
    assert (C1 : c1 = a1 + (t - u * w) * (n * p1)) by (replace d1 with (c1 + w * (n * p1)) in X1 by lra; lra).
    assert (C2 : c2 = a2 + (t - u * w) * (n * p2)) by (replace d2 with (c2 + w * (n * p2)) in X2 by lra; lra).
    assert (D1 : d1 = a1 + (t + (1 - u) * w) * (n * p1)) by (replace d1 with (c1 + w * (n * p1)) by lra; rewrite C1; ring).
    assert (D2 : d2 = a2 + (t + (1 - u) * w) * (n * p2)) by (replace d2 with (c2 + w * (n * p2)) by lra; rewrite C2; ring).
    set (x := t - u * w) in *. set (y := t + (1 - u) * w) in *.
    destruct (Rle_dec 0 x) as [G1|G1]; [destruct (Rle_dec x 1) as [G2|G2]|].
    + right. left. exists x. split; [lra|]. unfold between. cbn [fst snd]. rewrite C1, C2. f_equal; ring.
    + destruct (Rle_dec 0 y) as [G3|G3].
      * right. right. exists y. split; [split; [auto|]|unfold between; cbn [fst snd]; rewrite D1, D2; f_equal; ring].
        assert (u * w < 0) by (unfold x in G2; lra). unfold y. assert (w < 0) by nra. nra.
      * left. exists (x / (x - y)). split.
        -- split; [apply Rmult_le_reg_r with (x - y); [lra|]; unfold Rdiv; rewrite Rmult_assoc, Rinv_l by lra; lra|].
           apply Rmult_le_reg_r with (x - y); [lra|]. unfold Rdiv. rewrite Rmult_assoc, Rinv_l by lra. lra.
        -- unfold between. cbn [fst snd]. rewrite C1, C2, D1, D2. f_equal; field; lra.
    + destruct (Rle_dec y 1) as [G3|G3].
      * right. right. exists y. split; [split; [|auto]|unfold between; cbn [fst snd]; rewrite D1, D2; f_equal; ring].
        assert (0 < u * w) by (unfold x in G1; lra). unfold y. assert (0 < w) by nra. nra.
      * left. exists (x / (x - y)). split.
        -- replace (x / (x - y)) with (- x / (y - x)) by (field; lra).
           split; [apply Rmult_le_reg_r with (y - x); [lra|]; unfold Rdiv; rewrite Rmult_assoc, Rinv_l by lra; lra|].
           apply Rmult_le_reg_r with (y - x); [lra|]. unfold Rdiv. rewrite Rmult_assoc, Rinv_l by lra. lra.
        -- unfold between. cbn [fst snd]. rewrite C1, C2, D1, D2. f_equal; field; lra.
Qed.
Lemma meet_exact_ok : meet_ok meet_exact.
Proof.
  intros [a b] [c d] (p & H1 & H2). split; [|apply meet_exact_in].
  unfold meet_exact. cbv zeta. destruct (Req_EM_T _ 0) as [Z|Z]; cbn [fst snd] in *.
  - intros E. assert (X : forall q, In q [a; b; c; d] -> on_segment (a, b) q -> on_segment (c, d) q -> False).
    { intros q I Q1 Q2. assert (IN : In q (filter (fun p => on_dec a b p && on_dec c d p) [a; b; c; d])).
      { apply filter_In. split; [auto|]. apply andb_true_iff. split; apply on_dec_ok; auto. }
      rewrite E in IN. destruct IN. }
    destruct (parallel_touch a b c d p Z H1 H2) as [G|[G|G]].
    + apply (X a); simpl; auto. apply (on_fst (a, b)).
    + apply (X c); simpl; auto. apply (on_fst (c, d)).
    + apply (X d); simpl; auto. apply (on_snd (c, d)).
  - intros E. set (q := between a b _) in *. assert (IN : In q (filter (fun p => on_dec a b p && on_dec c d p) [q])); [|rewrite E in IN; destruct IN].
    apply filter_In. split; [left; auto|]. assert (q = p) as ->; [|apply andb_true_iff; split; apply on_dec_ok; auto].
    destruct H1 as (t & Ht & Ep), H2 as (u & Hu & Ep'). cbn [fst snd] in *. unfold q. rewrite Ep. f_equal.
    rewrite Ep in Ep'. destruct a as [a1 a2], b as [b1 b2], c as [c1 c2], d as [d1 d2]. unfold cross, step, between in *. cbn [fst snd] in *. injection Ep' as X1 X2.
    assert (Y1 : c1 - a1 = t * (b1 - a1) - u * (d1 - c1)) by lra. assert (Y2 : c2 - a2 = t * (b2 - a2) - u * (d2 - c2)) by lra.
    rewrite Y1, Y2. field. exact Z.
Qed.
Definition query_exact (tree : list (segment * nat)) (s : segment) : list (segment * nat) :=
  filter (fun x => match meet_exact s (fst x) with [] => false | _ => true end) tree.
Lemma query_exact_ok : query_ok query_exact.
Proof.
  intros tree s x. unfold query_exact. rewrite filter_In. split; intros [H1 H2]; (split; [auto|]).
  - destruct (meet_exact s (fst x)) as [|p ps] eqn:E; [discriminate|]. exists p. apply meet_exact_in. rewrite E. left. auto.
  - destruct (meet_exact_ok _ _ H2) as [N _]. destruct (meet_exact s (fst x)); [tauto|auto].
Qed.
Fixpoint nearest_exact (l : list segment) (p : point) : segment :=
  match l with
  | [] => (p, p)
  | [s] => s
  | s :: r => let o := nearest_exact r p in
      if Rle_dec (euclid (project_to (fst s) (snd s) p) p) (euclid (project_to (fst o) (snd o) p) p) then s else o
  end.
Lemma nearest_exact_ok : nearest_ok nearest_exact.
Proof.
  intros l p H. enough (X : In (nearest_exact l p) l /\ forall s y, In s l -> on_segment s y ->
    euclid (project_to (fst (nearest_exact l p)) (snd (nearest_exact l p)) p) p <= euclid y p).
  { destruct X as [X1 X2]. split; [auto|]. destruct (nearest_exact l p) as [a b] eqn:E. exists (project_to a b p). split; [apply project_nearest|auto]. }
  assert (PN : forall s y, on_segment s y -> euclid (project_to (fst s) (snd s) p) p <= euclid y p).
  { intros [a b] y O. destruct (project_nearest a b p) as [_ P]. specialize (P y O). rewrite distance_euclid in P. cbn [fst snd]. rewrite (euclid_sym y p), euclid_sym. auto. }
  induction l as [|s l IH]; [tauto|]. destruct l as [|o l].
  - simpl. split; [auto|]. intros s' y [<-|[]] O. apply PN. auto.
  - destruct IH as [I1 I2]; [discriminate|]. change (nearest_exact (s :: o :: l) p) with
      (if Rle_dec (euclid (project_to (fst s) (snd s) p) p) (euclid (project_to (fst (nearest_exact (o :: l) p)) (snd (nearest_exact (o :: l) p)) p) p)
       then s else nearest_exact (o :: l) p).
    destruct (Rle_dec _ _) as [G|G].
    + split; [left; auto|]. intros s' y [<-|I] O; [apply PN; auto|]. eapply Rle_trans; [exact G|]. eapply I2; eauto.
    + split; [right; auto|]. intros s' y [<-|I] O; [|eapply I2; eauto]. apply Rlt_le. apply Rnot_le_lt in G. eapply Rlt_le_trans; [exact G|]. apply PN. auto.
Qed.
