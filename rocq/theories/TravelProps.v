(** Properties of the costs of the routing graph. *)
From Coq Require Import List Bool Arith Reals Lia Lra Psatz.
From Verif Require Import ArcModel ArcSpec ArcPlane ArcProps TravelModel TravelSpec.
Import ListNotations.
Local Open Scope R_scope.

Lemma way_cons a b l : way_length euclid (a :: b :: l) = euclid a b + way_length euclid (b :: l).
Proof. reflexivity. Qed.

Lemma length_loop_spec line step : (0 < step)%nat -> forall fuel i1 i2 len,
  (length line <= i1 + fuel)%nat -> (i2 = i1 + step)%nat -> (i2 < length line)%nat ->
  exists idx, strides step i1 idx (length line - 1)
    /\ length_loop line step fuel i1 i2 len = Some (len + way_length euclid (sampled line (i1 :: idx))).
Proof.
  intros Sp. induction fuel as [|f IH]; intros i1 i2 len F E H; [lia|].
  cbn [length_loop]. destruct (Nat.ltb_spec i2 (length line)); [|lia].
  destruct (Nat.leb_spec (length line) (i2 + step)).
  - exists [i2; (length line - 1)%nat]. split; [cbn; lia|].
    destruct f; [lia|]. cbn [length_loop]. destruct (Nat.ltb_spec (i2 + step) (length line)); [lia|].
    apply f_equal. rewrite !distance_eq. unfold sampled. cbn [map]. rewrite !way_cons. unfold way_length. cbn. ring.
  - destruct (IH (i1 + step)%nat (i2 + step)%nat (len + distance (nth i1 line (0, 0)) (nth i2 line (0, 0)))) as (idx & S & Q); [lia..|].
    exists (i2 :: idx). split; [cbn; subst i2; split; [lia|exact S]|]. rewrite Q, distance_eq. apply f_equal.
    unfold sampled. cbn [map]. rewrite way_cons. subst i2. ring.
Qed.

Lemma approximated_spec line : (2 <= length line)%nat ->
  exists idx r, approximated_length line = Some r
    /\ strides (Nat.max 1 (length line / 10)) 0 idx (length line - 1)
    /\ r = way_length euclid (sampled line (0%nat :: idx)).
Proof.
  intros L. unfold approximated_length.
  assert (D : (length line / 10 < length line)%nat) by (apply Nat.div_lt; lia).
  destruct (length_loop_spec line (Nat.max 1 (length line / 10)) ltac:(lia) (S (length line)) 0 (Nat.max 1 (length line / 10)) 0) as (idx & S & E); [lia..|].
  exists idx. eexists. split; [exact E|]. split; [exact S|]. ring.
Qed.

Lemma euclid_triangle a b c : euclid a c <= euclid a b + euclid b c.
Proof.
  assert (T := Rgeom.triangle (fst a) (snd a) (fst c) (snd c) (fst b) (snd b)).
  unfold Rgeom.dist_euc in T.
  assert (E : forall p q, euclid p q = sqrt (Rsqr (fst p - fst q) + Rsqr (snd p - snd q))).
  { intros p q. unfold euclid. f_equal. unfold Rsqr. ring. }
  rewrite !E. exact T.
Qed.

Lemma way_pos l : 0 <= way_length euclid l.
Proof.
  unfold way_length. generalize (combine l (tl l)). intros q. induction q as [|[x y] q IH]; cbn; [lra|].
  assert (H := euclid_pos x y). lra.
Qed.
Lemma way_app l a r : way_length euclid (l ++ a :: r) = way_length euclid (l ++ [a]) + way_length euclid (a :: r).
Proof.
  induction l as [|x l IH].
  - cbn [app]. unfold way_length at 2. cbn. ring.
  - destruct l as [|y l]; cbn [app] in *.
    + rewrite !way_cons. unfold way_length at 2. cbn. ring.
    + rewrite (way_cons x y (l ++ a :: r)), IH, way_cons. ring.
Qed.
(** A line is at least as long as the way between its ends. *)
Lemma way_ends a l b : euclid a b <= way_length euclid (a :: l ++ [b]).
Proof.
  revert a. induction l as [|x l IH]; intros a; cbn [app].
  - rewrite way_cons. unfold way_length. cbn. lra.
  - rewrite way_cons. assert (T := euclid_triangle a x b). specialize (IH x). lra.
Qed.

Lemma skipn_nth {A} (d : A) l : forall i, (i < length l)%nat -> skipn i l = nth i l d :: skipn (S i) l.
Proof.
  induction l as [|x l IH]; intros [|i] H; cbn in *; [lia..|reflexivity|].
  apply IH. lia.
Qed.
Lemma way_skip line : forall k i, (i + k < length line)%nat ->
  euclid (nth i line (0, 0)) (nth (i + k) line (0, 0)) + way_length euclid (skipn (i + k) line)
  <= way_length euclid (skipn i line).
Proof.
  induction k as [|k IH]; intros i H.
  - rewrite Nat.add_0_r. assert (E : euclid (nth i line (0, 0)) (nth i line (0, 0)) = 0) by now apply euclid_zero. lra.
  - specialize (IH (S i) ltac:(lia)). replace (i + S k)%nat with (S i + k)%nat by lia.
    rewrite (skipn_nth (0, 0) line i) by lia. rewrite (skipn_nth (0, 0) line (S i)) by lia. rewrite way_cons.
    rewrite <- (skipn_nth (0, 0) line (S i)) by lia.
    assert (T := euclid_triangle (nth i line (0, 0)) (nth (S i) line (0, 0)) (nth (S i + k) line (0, 0))). lra.
Qed.
Lemma strides_le step idx : forall i last, strides step i idx last -> (i <= last)%nat.
Proof. induction idx as [|j r IH]; cbn; intros i last H; [lia|]. destruct H as [H S]. apply IH in S. lia. Qed.
Lemma sampled_le line step idx : forall i, strides step i idx (length line - 1) -> (i < length line)%nat ->
  way_length euclid (sampled line (i :: idx)) <= way_length euclid (skipn i line).
Proof.
  induction idx as [|j r IH]; intros i H L.
  - unfold sampled. cbn [map]. unfold way_length at 1. cbn. apply way_pos.
  - destruct H as [H S]. assert (J := strides_le _ _ _ _ S). specialize (IH j S ltac:(lia)).
    unfold sampled in *. cbn [map] in *. rewrite way_cons.
    assert (W := way_skip line (j - i) i ltac:(lia)). replace (i + (j - i))%nat with j in W by lia. lra.
Qed.
Lemma sampled_all line idx : forall i, strides 1 i idx (length line - 1) -> (i < length line)%nat ->
  way_length euclid (sampled line (i :: idx)) = way_length euclid (skipn i line).
Proof.
  induction idx as [|j r IH]; intros i H L.
  - cbn in H. unfold sampled. cbn [map]. rewrite (skipn_nth (0, 0)) by lia. rewrite (skipn_all2 (n := S i)) by lia. reflexivity.
  - destruct H as [H St]. assert (J := strides_le _ _ _ _ St). specialize (IH j St ltac:(lia)).
    unfold sampled in *. cbn [map] in *. rewrite way_cons, IH. clear IH.
    assert (j = i \/ j = S i) as [-> | ->] by lia.
    + assert (E : euclid (nth i line (0, 0)) (nth i line (0, 0)) = 0) by now apply euclid_zero. lra.
    + rewrite (skipn_nth (0, 0) line i) by lia. rewrite (skipn_nth (0, 0) line (S i)) by lia. now rewrite way_cons.
Qed.
Lemma sampled_last line step idx : forall i, strides step i idx (length line - 1) ->
  idx = [] \/ exists m, sampled line (i :: idx) = nth i line (0, 0) :: m ++ [nth (length line - 1) line (0, 0)].
Proof.
  induction idx as [|j r IH]; intros i H; [now left|]. right. destruct H as [H S].
  destruct (IH j S) as [->|(m & E)].
  - cbn in S. subst j. exists []. reflexivity.
  - exists (nth j line (0, 0) :: m). unfold sampled in *. cbn [map] in *. rewrite E. reflexivity.
Qed.

(** * C91: costs *)

(** The approximated length is that of samples of the left bound from its first to
    its last point with strides of at most a tenth of its points. *)
Theorem C91_samples line : (2 <= length line)%nat ->
  exists idx, strides (Nat.max 1 (length line / 10)) 0 idx (length line - 1)
    /\ approximated_length line = Some (way_length euclid (sampled line (0%nat :: idx))).
Proof.
  intros L. destruct (approximated_spec line L) as (idx & r & E & S & ->). eauto.
Qed.
Print Assumptions C91_samples.

(** It is between the distance of the ends and the length of the left bound, which it
    is with less than 20 points. *)
Theorem C91_length line : 
  exists r, approximated_length line = Some r
    /\ r <= way_length euclid line
    /\ (forall a m b, line = a :: m ++ [b] -> euclid a b <= r)
    /\ ((length line < 20)%nat -> r = way_length euclid line).
Proof.
  destruct (le_lt_dec 2 (length line)) as [L|L].
  - destruct (approximated_spec line L) as (idx & r & E & S & ->). eexists. split; [exact E|].
    split; [apply (sampled_le _ _ _ 0%nat S); lia|]. split.
    + intros a m b ->. destruct (sampled_last _ _ _ _ S) as [->|(m' & E')].
      * cbn [strides] in S. cbn [length] in *. rewrite app_length in S. cbn in S. lia.
      * rewrite E'. assert (Q : nth (length (a :: m ++ [b]) - 1) (a :: m ++ [b]) (0, 0) = b).
        { cbn [length]. rewrite app_length. cbn [length]. replace (Datatypes.S (length m + 1) - 1)%nat with (Datatypes.S (length m)) by lia.
          cbn [nth]. rewrite app_nth2, Nat.sub_diag; [reflexivity|lia]. }
        rewrite Q. cbn [nth]. apply way_ends.
    + intros Sm. replace (Nat.max 1 (length line / 10)) with 1%nat in S.
      * apply (sampled_all line idx 0%nat S). lia.
      * assert ((length line / 10 < 2)%nat) by (apply Nat.div_lt_upper_bound; lia). lia.
  - exists 0. assert (E : approximated_length line = Some 0).
    { unfold approximated_length. cbn [length_loop]. destruct (Nat.ltb_spec (Nat.max 1 (length line / 10)) (length line)); [lia|reflexivity]. }
    split; [exact E|]. destruct line as [|x [|y l]]; [| |cbn in L; lia]; (split; [unfold way_length; cbn; lra|]); (split; [|reflexivity]).
    + intros a m b Q. discriminate.
    + intros a m b Q. destruct m; discriminate.
Qed.
Print Assumptions C91_length.

(** Costs below zero are refused when a module is made. *)
Theorem C91_refused cost min : make_costs cost min = None <-> cost = NegInf \/ exists x, cost = Fin x /\ x < 0.
Proof.
  unfold make_costs. destruct cost as [x| | |]; cbn.
  - destruct (Rlt_dec x 0); split; intros H; try reflexivity; try discriminate; [right; eauto|].
    destruct H as [H|(y & H & Hy)]; inversion H; subst; contradiction.
  - split; [discriminate|intros [H|(y & H & _)]; discriminate].
  - split; auto.
  - split; [discriminate|intros [H|(y & H & _)]; discriminate].
Qed.
Print Assumptions C91_refused.

(** By distance: half of the sum of both lengths for a transition; the fixed cost for
    a lane change along lanelets that are long enough together, else infinity. *)
Theorem C91_distance cost min c from to froms :
  make_costs (Fin cost) (Fin min) = Some c -> (forall l, In l froms -> 0 <= l) ->
  distance_succeeding from to = Fin ((from + to) / 2)
  /\ (min <= total froms -> distance_change c froms = Fin cost)
  /\ (total froms < min -> distance_change c froms = PosInf).
Proof.
  unfold make_costs. cbn. destruct (Rlt_dec cost 0); [discriminate|]. intros E Pos. inversion E; subst c. clear E.
  split; [unfold distance_succeeding; cbn; destruct (Req_EM_T 2 0); [lra|reflexivity]|].
  unfold distance_change. cbn [min_change lane_change_cost].
  assert (F : forall x, fold_left (fun acc l => nadd acc (Fin l)) froms (Fin x) = Fin (x + total froms)).
  { clear Pos. induction froms as [|l r IH]; intros x; cbn; [f_equal; lra|]. rewrite IH. f_equal. unfold total. ring. }
  assert (T : 0 <= total froms).
  { clear F. induction froms as [|l r IH]; cbn; [lra|]. assert (0 <= l) by (apply Pos; now left).
    assert (0 <= total r) by (apply IH; intros; apply Pos; now right). unfold total in *. lra. }
  rewrite F, Rplus_0_l. cbn. destruct (Rlt_dec 0 min), (Rlt_dec (total froms) min); cbn; split; intros; try reflexivity; lra.
Qed.
Print Assumptions C91_distance.

(** By time, with limits that are finite and positive: the same with the travel times. *)
Theorem C91_time cost min c from to froms :
  make_costs (Fin cost) (Fin min) = Some c ->
  (forall l, In l (from :: to :: froms) -> 0 <= fst l /\ 0 < snd l) ->
  let rule (l : R * R) := (fst l, Fin (snd l)) in
  let time (l : R * R) := fst l / snd l in
  time_succeeding (rule from) (rule to) = Value (Fin ((time from + time to) / 2))
  /\ (min <= total (map time froms) -> time_change c (map rule froms) = Value (Fin cost))
  /\ (total (map time froms) < min -> time_change c (map rule froms) = Value PosInf).
Proof.
  unfold make_costs. cbn [nltb]. destruct (Rlt_dec cost 0); [discriminate|]. intros E Pos. inversion E; subst c. clear E. cbv zeta.
  assert (TT : forall l : R * R, 0 < snd l -> travel_time (fst l, Fin (snd l)) = Some (Fin (fst l / snd l))).
  { intros l H. unfold travel_time, speed_limit. cbn. destruct (Req_EM_T (snd l) 0); [lra|]. cbn.
    destruct (Req_EM_T (snd l) 0); [lra|]. reflexivity. }
  split.
  { unfold time_succeeding. rewrite !TT by (apply Pos; cbn; auto). cbn. destruct (Req_EM_T 2 0); [lra|reflexivity]. }
  unfold time_change. cbn [min_change lane_change_cost].
  assert (Pf : forall l, In l froms -> 0 <= fst l /\ 0 < snd l) by (intros; apply Pos; cbn; auto). clear Pos.
  assert (F : forall x, time_sum (map (fun l => (fst l, Fin (snd l))) froms) (Fin x)
              = Some (Fin (x + total (map (fun l => fst l / snd l) froms)))).
  { induction froms as [|l r IH]; intros x; cbn [map time_sum]; [do 2 f_equal; cbn; lra|].
    rewrite TT by (apply Pf; now left). cbn [nadd]. rewrite IH by (intros; apply Pf; now right). do 2 f_equal. unfold total. cbn [map fold_right]. ring. }
  assert (T : 0 <= total (map (fun l => fst l / snd l) froms)).
  { clear F. induction froms as [|l r IH]; cbn; [lra|]. destruct (Pf l (or_introl eq_refl)) as [H1 H2].
    assert (H : 0 <= fst l / snd l) by (apply Rmult_le_pos; [exact H1|left; now apply Rinv_0_lt_compat]).
    assert (I := IH (fun x Hx => Pf x (or_intror Hx))). unfold total in I. lra. }
  rewrite F, Rplus_0_l. cbn. destruct (Rlt_dec 0 min), (Rlt_dec (total (map (fun l => fst l / snd l) froms)) min); cbn; split; intros; try reflexivity; lra.
Qed.
Print Assumptions C91_time.

(** False for a limit of zero, which is meant to become a very large one: the travel
    time is infinite, or not a number for a lanelet without length. *)
Theorem C91_zero_limit_refuted len b :
  0 < len -> 0 <= fst b -> 0 < snd b ->
  travel_time (len, Fin 0) = Some PosInf /\ travel_time (0, Fin 0) = Some NaN
  /\ time_succeeding (len, Fin 0) (fst b, Fin (snd b)) = Value PosInf.
Proof.
  intros H Hb Sb. unfold time_succeeding, travel_time, speed_limit. cbn. repeat (destruct (Req_EM_T _ _); try lra; cbn).
  repeat (destruct (Rlt_dec _ _); try lra; cbn). auto.
Qed.
Print Assumptions C91_zero_limit_refuted.

(** False for infinite limits: the exception for them cannot leave getCostLaneChange,
    which is noexcept. The program ends; for a transition the exception is thrown. *)
Theorem C91_infinite_limit_refuted cost min c len :
  make_costs (Fin cost) (Fin min) = Some c -> 0 < min ->
  time_succeeding (len, PosInf) (len, PosInf) = Invalid /\ time_change c [(len, PosInf)] = Terminated.
Proof.
  unfold make_costs. cbn. destruct (Rlt_dec cost 0); [discriminate|]. intros E H. inversion E. split; [reflexivity|].
  unfold time_change. cbn. destruct (Rlt_dec 0 min); [reflexivity|contradiction].
Qed.
Print Assumptions C91_infinite_limit_refuted.

(** False for the inverse of a lanelet: the samples are those of the other bound, so
    the length is not the same in both directions. *)
Definition inner : list point := [(0, 0); (3, 0)].
Definition outer : list point := [(0, 4); (3, 8); (3, 4)].
Theorem C91_inverse_refuted :
  exists a b, approximated_length inner = Some a /\ approximated_length (rev outer) = Some b /\ a <> b.
Proof.
  destruct (C91_length inner) as (a & Ea & _ & _ & A). destruct (C91_length (rev outer)) as (b & Eb & _ & _ & B).
  exists a, b. split; [exact Ea|]. split; [exact Eb|]. rewrite A, B by (cbn; lia). unfold inner, outer. cbn [rev app].
  rewrite !way_cons. unfold way_length. cbn. rewrite <- !distance_eq.
  rewrite (distance_val (0, 0) (3, 0) 3), (distance_val (3, 4) (3, 8) 4), (distance_val (3, 8) (0, 4) 5) by (unfold sqn; cbn; lra).
  lra.
Qed.
Print Assumptions C91_inverse_refuted.

Example C91_nonvacuous :
  approximated_length outer = Some 9
  /\ (exists c, make_costs (Fin 10) (Fin 5) = Some c /\ distance_change c [2; 3] = Fin 10 /\ distance_change c [2; 2] = PosInf
        /\ time_change c [(10, Fin 2)] = Value (Fin 10) /\ time_change c [(10, Fin 3)] = Value PosInf)
  /\ time_succeeding (10, Fin 5) (6, Fin 3) = Value (Fin 2).
Proof.
  split; [|split].
  - destruct (C91_length outer) as (b & Eb & _ & _ & B). rewrite Eb, B by (cbn; lia). apply f_equal. unfold outer.
    rewrite !way_cons. unfold way_length. cbn. rewrite <- !distance_eq.
    rewrite (distance_val (3, 8) (3, 4) 4), (distance_val (0, 4) (3, 8) 5) by (unfold sqn; cbn; lra). lra.
  - assert (M : make_costs (Fin 10) (Fin 5) = Some (Costs (Fin 10) (Fin 5))).
    { unfold make_costs. cbn. destruct (Rlt_dec 10 0); [lra|reflexivity]. }
    eexists. split; [exact M|].
    assert (P : forall x l, In l [(1, 1); (1, 1); (10, x)] -> 0 < x -> 0 <= fst l /\ 0 < snd l).
    { intros x l [<-|[<-|[<-|[]]]] H; cbn; lra. }
    split; [|split; [|split]].
    + apply (C91_distance 10 5 _ 0 0 [2; 3] M); [intros l [<-|[<-|[]]]; lra|cbn; lra].
    + apply (C91_distance 10 5 _ 0 0 [2; 2] M); [intros l [<-|[<-|[]]]; lra|cbn; lra].
    + apply (C91_time 10 5 _ (1, 1) (1, 1) [(10, 2)] M); [intros l H; apply (P 2); [exact H|lra]|cbn; lra].
    + apply (C91_time 10 5 _ (1, 1) (1, 1) [(10, 3)] M); [intros l H; apply (P 3); [exact H|lra]|cbn; lra].
  - destruct (C91_time 0 0 (Costs (Fin 0) (Fin 0)) (10, 5) (6, 3) []) as [H _].
    + unfold make_costs. cbn. destruct (Rlt_dec 0 0); [lra|reflexivity].
    + intros l [<-|[<-|[]]]; cbn; lra.
    + cbn in H. rewrite H. do 2 f_equal. lra.
Qed.
