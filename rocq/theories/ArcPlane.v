From Coq Require Import List Bool Arith Reals Lra Lia Psatz.
From Verif Require Import ArcModel ArcSpec ArcProofs.
Import ListNotations.
Local Open Scope R_scope.

Lemma distance_eq p q : distance p q = euclid p q.
Proof. unfold distance, norm, pdot, psub, euclid. cbn. f_equal. ring. Qed.
Lemma on_way_eq p q t : on_way p q t = between p q t.
Proof. unfold on_way, between, padd, pscale, psub. cbn. f_equal; ring. Qed.
Definition sqn (p q : point) : R := (fst q - fst p) * (fst q - fst p) + (snd q - snd p) * (snd q - snd p).
Lemma sqn_pos p q : 0 <= sqn p q. Proof. unfold sqn. apply Rplus_le_le_0_compat; apply Rle_0_sqr. Qed.
Lemma euclid_le p q x y : euclid p q <= euclid x y <-> sqn p q <= sqn x y.
Proof. unfold euclid. fold (sqn p q) (sqn x y). split; [apply sqrt_le_0; apply sqn_pos|apply sqrt_le_1_alt]. Qed.
Lemma euclid_sq p q : euclid p q * euclid p q = sqn p q.
Proof. apply sqrt_sqrt. apply sqn_pos. Qed.
Lemma euclid_pos p q : 0 <= euclid p q. Proof. apply sqrt_pos. Qed.
Lemma euclid_zero p q : euclid p q = 0 <-> p = q.
Proof.
  split.
  - intros H. assert (S : sqn p q = 0) by (rewrite <- euclid_sq, H; ring). destruct (Rplus_sqr_eq_0 _ _ S). destruct p as [a b], q as [c d]; cbn in *. f_equal; lra.
  - intros ->. unfold euclid. replace (_ + _) with 0 by ring. apply sqrt_0.
Qed.
Lemma euclid_sym p q : euclid p q = euclid q p.
Proof. unfold euclid. f_equal. ring. Qed.
Lemma plane_metric : metric_ok euclid between.
Proof.
  constructor.
  - apply euclid_pos.
  - apply euclid_sym.
  - intros [a b] [c d]. unfold between. cbn. f_equal; ring.
  - intros [a b] [c d]. unfold between. cbn. f_equal; ring.
  - intros [a b] [c d] t. unfold between. cbn. f_equal; ring.
Qed.
Lemma euclid_between a b t : 0 <= t -> euclid a (between a b t) = t * euclid a b.
Proof.
  intros Ht. unfold euclid, between. cbn [fst snd].
  replace (_ + _) with ((t * t) * ((fst b - fst a) * (fst b - fst a) + (snd b - snd a) * (snd b - snd a))) by ring.
  rewrite sqrt_mult_alt by (apply Rmult_le_pos; auto). rewrite (sqrt_square t Ht). reflexivity.
Qed.

(** The model of the distances and the specification agree. *)
Lemma range_length_ext ls : range_length distance ls = range_length euclid ls.
Proof. induction ls as [|a [|b l] IH]; [reflexivity..|]. cbn [range_length] in *. rewrite IH, distance_eq. reflexivity. Qed.
Lemma pair_ratios_ext t ls : pair_ratios distance t ls = pair_ratios euclid t ls.
Proof. induction ls as [|a [|b l] IH]; [reflexivity..|]. cbn [pair_ratios] in *. rewrite IH, distance_eq. reflexivity. Qed.
Lemma accumulated_ext ls : accumulated_ratios distance ls = accumulated_ratios euclid ls.
Proof. unfold accumulated_ratios, length_ratios. rewrite range_length_ext, pair_ratios_ext. reflexivity. Qed.
Lemma interpolate_ext ls : forall total d, interpolate_loop distance on_way ls total d = interpolate_loop euclid between ls total d.
Proof.
  induction ls as [|a [|b l] IH]; intros; [reflexivity..|]. cbn [interpolate_loop] in *. rewrite distance_eq, IH, on_way_eq. reflexivity.
Qed.
Lemma interpolated_ext ls d : interpolated_point distance on_way ls d = interpolated_point euclid between ls d.
Proof. unfold interpolated_point. rewrite !interpolate_ext. reflexivity. Qed.

(** * Projection *)
Lemma project_to_ok a b p : exists t, 0 <= t <= 1 /\ project_to a b p = between a b t /\ (forall u, 0 <= u <= 1 -> sqn (between a b t) p <= sqn (between a b u) p) /\
  (0 < t < 1 -> (fst b - fst a) * (fst p - fst (between a b t)) + (snd b - snd a) * (snd p - snd (between a b t)) = 0).
Proof.
  unfold project_to. set (c := pdot (psub p a) (psub b a)). set (n := pdot (psub b a) (psub b a)).
  assert (Hs : forall u, sqn (between a b u) p = sqn a p - 2 * u * c + u * u * n).
  { intros u. unfold sqn, between, c, n, pdot, psub. cbn. ring. }
  assert (Hn : 0 <= n) by (unfold n, pdot; apply Rplus_le_le_0_compat; apply Rle_0_sqr).
  destruct (Rle_dec c 0) as [L|L]; [|destruct (Rle_dec n c) as [K|K]].
  - exists 0. split; [lra|]. split; [symmetry; apply (move_0 _ _ plane_metric)|]. split; [|lra].
    intros u Hu. rewrite !Hs. assert (0 <= u * - c) by (apply Rmult_le_pos; lra). assert (0 <= (u * u) * n) by (apply Rmult_le_pos; [apply Rle_0_sqr|lra]). lra.
  - exists 1. split; [lra|]. split; [symmetry; apply (move_1 _ _ plane_metric)|]. split; [|lra].
    intros u Hu. rewrite !Hs. assert (0 <= (1 - u) * (c - n)) by (apply Rmult_le_pos; lra). assert (0 <= ((1 - u) * (1 - u)) * n) by (apply Rmult_le_pos; [apply Rle_0_sqr|lra]). lra.
  - assert (Hn0 : 0 < n) by lra. exists (c / n). assert (Ec : c / n * n = c) by (field; lra).
    assert (Hc : 0 <= c / n <= 1) by (split; apply Rmult_le_reg_r with n; lra). split; auto. split; [|split].
    + unfold between, padd, pscale, psub. cbn. f_equal; ring.
    + intros u Hu. rewrite !Hs. set (q := c / n) in *. rewrite <- Ec. assert (0 <= ((u - q) * (u - q)) * n) by (apply Rmult_le_pos; [apply Rle_0_sqr|lra]). lra.
    + intros _. set (q := c / n) in *. unfold between. cbn [fst snd].
      assert (E : c = (fst p - fst a) * (fst b - fst a) + (snd p - snd a) * (snd b - snd a)) by reflexivity.
      assert (F : n = (fst b - fst a) * (fst b - fst a) + (snd b - snd a) * (snd b - snd a)) by reflexivity.
      replace (_ + _) with (c - q * n); [lra|]. rewrite E, F. ring.
Qed.

(** * The search for the closest segment *)
Definition best_of (segs : list (point * point)) (p : point) (s : point * point) : Prop :=
  In s segs /\ forall s', In s' segs -> distance (project_to (fst s) (snd s) p) p <= distance (project_to (fst s') (snd s') p) p.
Fixpoint segs_of (ls : list point) : list (point * point) :=
  match ls with a :: (b :: _) as r => (a, b) :: segs_of r | _ => [] end.
Lemma segs_of_in ls a b : In (a, b) (segs_of ls) <-> exists l1 l2, ls = l1 ++ a :: b :: l2.
Proof.
  induction ls as [|x [|y l] IH].
  - split; [intros []|intros ([|? [|]] & l2 & E); discriminate].
  - split; [intros []|intros ([|? [|]] & l2 & E); discriminate].
  - cbn [segs_of In] in *. rewrite IH. split.
    + intros [E|(l1 & l2 & E)]; [injection E as <- <-; exists [], l; reflexivity|exists (x :: l1), l2; rewrite E; reflexivity].
    + intros ([|z l1] & l2 & E); cbn in E; [left; congruence|right]. injection E as _ E. eauto.
Qed.
Lemma scan_cons a b l p best : scan_segments (a :: b :: l) p best =
  scan_segments (b :: l) p (if Rlt_dec (distance (project_to a b p) p) (snd best) then ((a, b), distance (project_to a b p) p) else best).
Proof. reflexivity. Qed.
Lemma segs_cons a b l : segs_of (a :: b :: l) = (a, b) :: segs_of (b :: l).
Proof. reflexivity. Qed.
Lemma scan_segments_best ls p : forall seen best d, d = distance (project_to (fst best) (snd best) p) p -> best_of seen p best ->
  best_of (seen ++ segs_of ls) p (scan_segments ls p (best, d)).
Proof.
  induction ls as [|a [|b l] IH]; intros seen best d Ed Hb; [cbn; rewrite app_nil_r; auto..|].
  rewrite scan_cons, segs_cons.
  replace (seen ++ (a, b) :: segs_of (b :: l)) with ((seen ++ [(a, b)]) ++ segs_of (b :: l)) by (rewrite <- app_assoc; reflexivity).
  cbn [snd]. destruct Hb as [Hin Hmin]. destruct (Rlt_dec _ d) as [L|L]; apply IH; auto; split.
  - apply in_or_app. right. left. reflexivity.
  - intros s' H. apply in_app_or in H. destruct H as [H|[<-|[]]]; [|cbn; lra]. specialize (Hmin _ H). cbn [fst snd]. lra.
  - apply in_or_app. auto.
  - intros s' H. apply in_app_or in H. destruct H as [H|[<-|[]]]; [auto|]. cbn [fst snd]. lra.
Qed.
Lemma closest_scan_best ls p : (2 <= length ls)%nat -> best_of (segs_of ls) p (closest_scan ls p).
Proof.
  destruct ls as [|a [|b l]]; cbn [length]; try lia. intros _. rewrite segs_cons. unfold closest_scan.
  change ((a, b) :: segs_of (b :: l)) with ([(a, b)] ++ segs_of (b :: l)). apply scan_segments_best; auto.
  split; [left; reflexivity|]. intros s' [<-|[]]. cbn. lra.
Qed.
Lemma closest_scan_ok : closest_ok closest_scan.
Proof.
  intros ls p Hl. destruct (closest_scan ls p) as [a b] eqn:E. destruct (closest_scan_best ls p Hl) as [Hin Hmin]. rewrite E in *. cbn [fst snd] in *.
  destruct (project_to_ok a b p) as (t & Ht & Ep & Ho & _). apply segs_of_in in Hin. destruct Hin as (l1 & l2 & El).
  exists a, b, l1, l2, t. repeat split; auto; try lra.
  - exists (way_length euclid (l1 ++ [a]) + t * euclid a b), l1, a, b, l2, t. repeat split; auto; lra.
  - intros s y (m1 & u & v & m2 & r & Em & Hr & -> & _). assert (Hs : In (u, v) (segs_of ls)) by (apply segs_of_in; eauto).
    specialize (Hmin _ Hs). cbn [fst snd] in Hmin. destruct (project_to_ok u v p) as (r' & Hr' & Er' & Hor & _).
    rewrite !distance_eq, Ep, Er' in Hmin. apply Rle_trans with (1 := Hmin). apply euclid_le. auto.
Qed.

(** * toArcCoordinates *)
Lemma length_until_ok ls : forall l1 a b l2, ls = l1 ++ a :: b :: l2 -> ~ In a l1 -> length_until ls a = way_length euclid (l1 ++ [a]).
Proof.
  induction ls as [|x ls IH]; intros l1 a b l2 E Hn; [destruct l1; discriminate|]. destruct l1 as [|z l1]; cbn [app] in E.
  - injection E as -> ->. cbn [length_until]. destruct (point_dec a a); [reflexivity|easy].
  - injection E as -> E. destruct ls as [|y ls]; [destruct l1; discriminate|].
    change (length_until (z :: y :: ls) a) with (if point_dec z a then 0 else distance z y + length_until (y :: ls) a).
    destruct (point_dec z a) as [->|]; [destruct Hn; left; auto|].
    rewrite (IH _ _ _ _ E) by (intros K; apply Hn; right; auto). rewrite distance_eq.
    destruct l1 as [|w l1]; cbn [app] in *; injection E as -> _; rewrite len_cons; reflexivity.
Qed.
Lemma find_from_in ls p : In p ls -> find_from ls p <> [].
Proof. induction ls as [|x ls IH]; [easy|]. intros H. cbn. destruct (point_dec x p); [discriminate|]. destruct H; [easy|auto]. Qed.
Lemma left_of_some ls p a b x : In b ls -> exists l, left_of ls p a b x = Ok l.
Proof.
  intros H. unfold left_of. destruct (point_dec b x); [|eauto]. pose proof (find_from_in _ _ H). destruct (find_from ls b) as [|? [|]]; [easy|eauto|].
  destruct (negb _ && _); eauto.
Qed.
Lemma start_fresh (ls : list point) l1 a b l2 : NoDup (removelast ls) -> ls = l1 ++ a :: b :: l2 -> ~ In a l1.
Proof.
  intros Hn ->. rewrite removelast_app in Hn by discriminate. change (removelast (a :: b :: l2)) with (a :: removelast (b :: l2)) in Hn.
  apply NoDup_remove_2 in Hn. intros K. apply Hn, in_or_app. auto.
Qed.
(** The projection to a nearest segment is a nearest point. *)
Lemma project_nearest ls p a b l1 l2 t : ls = l1 ++ a :: b :: l2 -> 0 <= t <= 1 -> nearest_foot ls p (between a b t) ->
  nearest_foot ls p (project_to a b p).
Proof.
  intros El Ht [_ Hm]. destruct (project_to_ok a b p) as (u & Hu & -> & Ho & _). split.
  - exists (way_length euclid (l1 ++ [a]) + u * euclid a b), l1, a, b, l2, u. repeat split; auto; lra.
  - intros s y Hy. apply Rle_trans with (euclid (between a b t) p); [apply euclid_le; auto|eauto].
Qed.
Lemma to_arc_ok closest ls p : closest_ok closest -> (2 <= length ls)%nat -> NoDup (removelast ls) ->
  exists s d x, to_arc closest ls p = Ok (s, d) /\ at_length euclid between ls s x /\ nearest_foot ls p x /\ Rabs d = euclid x p.
Proof.
  intros Hc Hl Hn. destruct (Hc ls p Hl) as (a & b & l1 & l2 & t & Ec & El & Ht & Hf). pose proof (project_nearest _ _ _ _ _ _ _ El Ht Hf) as Hp.
  destruct (project_to_ok a b p) as (u & Hu & Eu & _ & _). destruct (left_of_some ls p a b (project_to a b p)) as (l & Elft).
  { rewrite El. apply in_or_app. right. right. left. reflexivity. }
  exists (way_length euclid (l1 ++ [a]) + u * euclid a b). eexists. exists (project_to a b p). unfold to_arc. rewrite Ec. rewrite Elft.
  rewrite (length_until_ok _ _ _ _ _ El (start_fresh _ _ _ _ _ Hn El)), !distance_eq.
  assert (Ea : euclid a (project_to a b p) = u * euclid a b) by (rewrite Eu; apply euclid_between; lra). rewrite Ea. split; [reflexivity|].
  split; [exists l1, a, b, l2, u; repeat split; auto; lra|]. split; auto.
  pose proof (euclid_pos (project_to a b p) p) as K. destruct l; [rewrite Rabs_right; lra|rewrite Rabs_Ropp, Rabs_right; lra].
Qed.
