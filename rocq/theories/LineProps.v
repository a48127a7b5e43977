(** C20 - C22: inverted views of line strings and compound line strings.
    [P] is any type of points; a line string handle is the pair of the shared vector
    [pts] and its flag [inv]; invert() only flips the flag. *)
From Coq Require Import List Arith Bool Lia.
From Verif Require Import LineModel LineSpec.
From Verif Require LineProofs CompoundProofs.
Import ListNotations.

(** ** C20 *)
(** Every read through a view of [pts] is the read on the sequence [view inv pts]. *)
Theorem C20_inverted_reads {P} (inv : bool) (pts : list P) :
  let l := view inv pts in
  iterate inv pts = Some l /\
  (forall k, at_ inv pts k = nth_error l k) /\
  front inv pts = nth_error l 0 /\
  back inv pts = nth_error l (length l - 1) /\
  (forall k, (k <= length l)%nat -> exists it, advance pts (ls_begin inv pts) k = Some it /\
     deref pts it = nth_error l k) /\
  (forall k, (length l < k)%nat -> advance pts (ls_begin inv pts) k = None) /\
  (forall k, k < length l -> segment inv pts k = segment false l k /\ segment_mut inv pts k = segment false l k) /\
  num_segments pts = num_segments l.
Proof.
  cbv zeta. assert (VL := LineProofs.view_length inv pts).
  split; [apply LineProofs.iterate_spec|]. split; [intros; apply LineProofs.at_spec|].
  split; [apply LineProofs.front_spec|]. split; [rewrite VL; apply LineProofs.back_spec|].
  split; [|split; [|split]].
  - intros k H. rewrite VL in H. rewrite LineProofs.advance_begin.
    assert (Nat.leb k (length pts) = true) as -> by (apply Nat.leb_le; auto).
    eexists. split; [reflexivity|].
    destruct (Nat.eq_dec k (length pts)) as [->|N].
    + symmetry. transitivity (@None P); [apply nth_error_None; lia|].
      unfold deref, LineProofs.it_at. destruct inv; simpl.
      * rewrite Nat.sub_diag. auto.
      * symmetry. apply nth_error_None. auto.
    + apply LineProofs.deref_at. lia.
  - intros k H. rewrite VL in H. rewrite LineProofs.advance_begin.
    assert (Nat.leb k (length pts) = false) as -> by (apply Nat.leb_gt; auto). auto.
  - intros k H. rewrite VL in H. rewrite LineProofs.segment_mut_spec by auto.
    rewrite !LineProofs.segment_spec by lia. rewrite VL. cbn [view]. auto.
  - unfold num_segments. rewrite VL. auto.
Qed.
Print Assumptions C20_inverted_reads.

(** The two views show each other's reverse; inverting any number of times gives the
    view or its reverse depending on the parity. *)
Theorem C20_invert_involutive {P} (inv : bool) (pts : list P) n :
  iterate (Nat.iter n negb inv) pts =
  if Nat.even n then iterate inv pts else option_map (@rev P) (iterate inv pts).
Proof.
  rewrite !LineProofs.iterate_spec. assert (E : Nat.iter n negb inv = if Nat.even n then inv else negb inv).
  { induction n as [|n IH]; auto. rewrite Nat.even_succ, <- Nat.negb_even. cbn [Nat.iter nat_rect].
    change (nat_rect (fun _ => bool) inv (fun _ => negb) n) with (Nat.iter n negb inv). rewrite IH.
    destruct (Nat.even n); simpl; auto. apply negb_involutive. }
  rewrite E. destruct (Nat.even n); auto. destruct inv; simpl; auto. rewrite rev_involutive. auto.
Qed.
Print Assumptions C20_invert_involutive.
Example C20_nonvacuous :
  iterate true [1; 2; 3] = Some [3; 2; 1] /\ at_ true [1; 2; 3] 0 = Some 3 /\ at_ true [1; 2; 3] 3 = None /\
  front true [1; 2; 3] = Some 3 /\ back true [1; 2; 3] = Some 1 /\
  segment true [1; 2; 3] 0 = Some (3, 2) /\ segment true [1; 2; 3] 2 = Some (1, 3) /\
  segment_mut true [1; 2; 3] 1 = Some (2, 1) /\ iterate (Nat.iter 5 negb true) [1; 2; 3] = Some [1; 2; 3].
Proof. vm_compute. repeat split. Qed.

(** ** C21 *)
(** A single call: the sequence seen through the view changes as the vector operation
    says, and the returned iterator is begin() + the position the vector operation
    returns. Insertion of a range through an inverted view is left out here, see below. *)
Theorem C21_mutation_partial {P} (inv : bool) (o : op P) (pts : list P) :
  (inv = true -> forall k xs, o <> OpInsertRange k xs) ->
  match vector_op o (view inv pts) with
  | None => LineProofs.run_op inv o pts = None
  | Some (l, r) =>
    exists pts' it, LineProofs.run_op inv o pts = Some (pts', it) /\ view inv pts' = l /\
      view (negb inv) pts' = rev l /\
      match r with
      | None => it = None
      | Some k => it <> None /\ it = advance pts' (ls_begin inv pts') k
      end
  end.
Proof.
  intros NR. assert (H := LineProofs.run_op_spec inv o pts).
  assert (G : LineProofs.is_range o && inv = false).
  { destruct inv; [|apply andb_false_r]. destruct o; auto. exfalso. eapply NR; eauto. }
  specialize (H G). destruct (vector_op o (view inv pts)) as [[l r]|] eqn:E; auto.
  destruct H as (pts' & R & V). exists pts', (option_map (LineProofs.it_at inv pts') r).
  split; auto. split; auto. split.
  { subst l. destruct inv; simpl; auto. rewrite rev_involutive. auto. }
  destruct r as [k|]; auto. split; [simpl; congruence|]. cbn [option_map].
  rewrite LineProofs.advance_begin. assert (K : k <= length pts').
  { assert (L : length l = length pts') by (subst l; apply LineProofs.view_length).
    rewrite <- L. clear -E. generalize dependent (view inv pts). intros v E. destruct o; cbn [vector_op] in E; try discriminate.
    - destruct (Nat.leb k0 (length v)) eqn:Q; inversion E; subst. apply Nat.leb_le in Q.
      rewrite app_length, firstn_length. lia.
    - destruct (Nat.leb k0 (length v)) eqn:Q; inversion E; subst. apply Nat.leb_le in Q.
      rewrite app_length, firstn_length. lia.
    - destruct (Nat.ltb k0 (length v)) eqn:Q; inversion E; subst. apply Nat.ltb_lt in Q.
      rewrite app_length, firstn_length. lia.
    - destruct v; inversion E.
    - destruct (Nat.ltb k0 (length v)) eqn:Q; inversion E. }
  rewrite (proj2 (Nat.leb_le _ _) K). auto.
Qed.
Print Assumptions C21_mutation_partial.

(** Any history of calls through any mix of both views: the contents always are what
    the vector operations give, where a call through the inverted view acts on the
    reversed sequence. Range insertions are included, except for an empty range at
    begin() of the inverted view (see the refutation below). *)
Fixpoint run_ops {P} (os : list (bool * op P)) (pts : list P) : option (list P) :=
  match os with
  | [] => Some pts
  | (inv, o) :: r => match LineProofs.run_op inv o pts with None => None | Some (pts', _) => run_ops r pts' end
  end.
Fixpoint vector_ops {P} (os : list (bool * op P)) (l : list P) : option (list P) :=
  match os with
  | [] => Some l
  | (inv, o) :: r => match vector_op o (if inv then rev l else l) with
                     | None => None
                     | Some (l', _) => vector_ops r (if inv then rev l' else l')
                     end
  end.
Theorem C21_history_partial {P} (os : list (bool * op P)) (pts : list P) :
  (forall k, In (true, OpInsertRange k []) os -> k <> 0) ->
  run_ops os pts = vector_ops os pts.
Proof.
  revert pts. induction os as [|[inv o] os IH]; intros pts H; auto. cbn [run_ops vector_ops].
  assert (H' : forall k, In (true, OpInsertRange k []) os -> k <> 0) by (intros; apply H; right; auto).
  change (if inv then rev pts else pts) with (view inv pts).
  assert (VV : forall l : list P, (if inv then rev l else l) = view inv l) by auto.
  destruct (LineProofs.is_range o && inv) eqn:E.
  - apply andb_true_iff in E as [E ->]. destruct o; try discriminate. cbn [vector_op].
    rewrite LineProofs.view_length. destruct (Nat.leb k (length pts)) eqn:K.
    + apply Nat.leb_le in K. assert (N : xs <> [] \/ k <> 0).
      { destruct xs; [right|left; congruence]. apply H. left. auto. }
      destruct (LineProofs.run_range_spec k xs pts K N) as (pts' & r & -> & V).
      rewrite <- V. cbn [view]. rewrite rev_involutive. apply IH; auto.
    + cbn [LineProofs.run_op]. rewrite LineProofs.advance_begin, K. auto.
  - assert (S := LineProofs.run_op_spec inv o pts E). destruct (vector_op o (view inv pts)) as [[l r]|].
    + destruct S as (pts' & -> & <-). rewrite VV, LineProofs.view_view. apply IH; auto.
    + rewrite S. auto.
Qed.
Print Assumptions C21_history_partial.
Example C21_nonvacuous :
  LineProofs.run_op true (OpInsert 1 9) [1; 2; 3] = Some ([1; 2; 9; 3], Some (Iter 3 false)) /\
  deref [1; 2; 9; 3] (Iter 3 false) = Some 9 /\
  LineProofs.run_op true (OpErase 0) [1; 2; 3] = Some ([1; 2], Some (Iter 2 false)) /\
  run_ops [(true, OpPushBack 0); (false, OpPushBack 4); (true, OpInsertRange 1 [8; 9]); (false, OpErase 0);
           (true, OpResize 7 [50; 51; 52]); (true, OpPopBack); (true, OpSet 0 7); (false, OpInsert 6 5)] [1; 2; 3]
  = Some [1; 2; 3; 9; 8; 7; 5] /\
  run_ops [(true, OpPushBack 0); (true, OpErase 4)] [1; 2; 3] = None.
Proof. vm_compute. repeat split. Qed.

(** The iterator returned by the insertion of a range through an inverted view points
    to the last inserted point instead of the first one. *)
Theorem C21_range_iterator_refuted : exists (pts xs : list nat) k pts' it l r,
  LineProofs.run_op true (OpInsertRange k xs) pts = Some (pts', Some it) /\
  vector_op (OpInsertRange k xs) (view true pts) = Some (l, Some r) /\ view true pts' = l /\
  deref pts' it = Some 8 /\ nth_error l r = Some 7.
Proof. exists [1; 2; 3], [7; 8], 1, [1; 2; 8; 7; 3], (Iter 3 false), [3; 7; 8; 2; 1], 1. vm_compute. repeat split. Qed.
Print Assumptions C21_range_iterator_refuted.

(** An empty range at begin() of an inverted view forms an iterator behind the end. *)
Theorem C21_empty_range_refuted : exists (pts : list nat) l r,
  LineProofs.run_op true (OpInsertRange 0 []) pts = None /\ vector_op (OpInsertRange 0 []) (view true pts) = Some (l, r).
Proof. exists [1; 2; 3], [3; 2; 1], (Some 0). vm_compute. repeat split. Qed.
Print Assumptions C21_empty_range_refuted.

(** Assignment from an rvalue vector through an inverted view: the view shows the
    reverse of what was assigned (unless the vector is a palindrome). *)
Theorem C21_move_assign_refuted : exists (rhs : list nat),
  view true (ls_assign_move true rhs) <> rhs /\ view true (ls_assign true rhs) = rhs.
Proof. exists [1; 2]. vm_compute. split; [discriminate|auto]. Qed.
Print Assumptions C21_move_assign_refuted.

(** ** C22 *)
Section C22.
Context {P : Type} (peq : P -> P -> bool).
(** No two equal neighbours: what is left when runs of equal points are merged. *)
Inductive merged : list P -> list P -> Prop :=
| m_nil : merged [] []
| m_one x : merged [x] [x]
| m_same x r l : merged (x :: r) l -> merged (x :: x :: r) l
| m_diff x y r l : x <> y -> merged (y :: r) l -> merged (x :: y :: r) (x :: l).

Lemma merged_dedup (E : forall x y, peq x y = true <-> x = y) l : merged l (dedup peq l).
Proof.
  induction l as [|x l IH]; [constructor|]. destruct l as [|y l]; [constructor|].
  change (dedup peq (x :: y :: l)) with (if peq x y then dedup peq (y :: l) else x :: dedup peq (y :: l)).
  destruct (peq x y) eqn:Q.
  - apply E in Q. subst y. constructor. auto.
  - constructor; auto. intros ->. rewrite (proj2 (E y y) eq_refl) in Q. discriminate.
Qed.
End C22.

Theorem C22_compound_points {P} (peq : P -> P -> bool) (E : forall x y, peq x y = true <-> x = y)
    (inv : bool) (c : list (list P)) :
  exists l, merged (view inv (concat c)) l /\
    cl_points peq inv c = Some l /\
    cl_size peq inv c = Some (length l) /\
    (forall k, cl_at peq inv c k = nth_error l k) /\
    cl_front peq inv c = nth_error l 0 /\
    cl_back peq inv c = nth_error l (length l - 1) /\
    concat (cl_parts inv c) = view inv (concat c) /\
    cl_points peq (negb inv) c = Some (rev l).
Proof.
  assert (R := CompoundProofs.dedup_rev peq E).
  assert (DV : length (dedup peq (view inv (concat c))) = length (dedup peq (concat c))).
  { destruct inv; auto. cbn [view]. rewrite R, rev_length. auto. }
  exists (dedup peq (view inv (concat c))).
  split; [apply merged_dedup; auto|].
  split; [apply CompoundProofs.points_spec; auto|].
  split; [rewrite DV; apply CompoundProofs.size_spec; auto|].
  split; [intros k; apply CompoundProofs.at_spec; auto|].
  split; [apply CompoundProofs.front_spec; auto|].
  split; [rewrite DV; apply CompoundProofs.back_spec; auto|].
  split; [apply CompoundProofs.parts_spec|].
  rewrite CompoundProofs.points_spec by auto. f_equal. destruct inv; cbn [view negb].
  - rewrite R, rev_involutive. auto.
  - apply R.
Qed.
Print Assumptions C22_compound_points.
Example C22_nonvacuous :
  let c := [[]; [1; 1; 2]; []; [2; 3; 3]; []; [3]; [4; 1]; []] in
  cl_points Nat.eqb false c = Some [1; 2; 3; 4; 1] /\ cl_points Nat.eqb true c = Some [1; 4; 3; 2; 1] /\
  cl_size Nat.eqb true c = Some 5 /\ cl_at Nat.eqb false c 2 = Some 3 /\ cl_at Nat.eqb false c 5 = None /\
  cl_back Nat.eqb true c = Some 1 /\ cl_front Nat.eqb false [[]; []] = None /\ cl_size Nat.eqb false [[]; []] = Some 0.
Proof. vm_compute. repeat split. Qed.

(** CompoundPolygon::numSegments of an empty polygon and of a single point is 1 where
    Polygon has 0; from two points on both count the points. *)
Theorem C22_polygon_segments_refuted :
  exists c : list (list nat), option_map poly_num_segments (cl_points Nat.eqb false c) <> cp_num_segments Nat.eqb c.
Proof. exists []. vm_compute. discriminate. Qed.
Print Assumptions C22_polygon_segments_refuted.
Theorem C22_polygon_segments_partial {P} (peq : P -> P -> bool) (E : forall x y, peq x y = true <-> x = y)
    (c : list (list P)) l : cl_points peq false c = Some l -> 2 <= length l ->
  cp_num_segments peq c = Some (poly_num_segments l).
Proof.
  intros H L. unfold cp_num_segments. rewrite (CompoundProofs.size_spec peq E).
  rewrite (CompoundProofs.points_spec peq E) in H. inversion H; subst l. cbn [view] in *. cbn [option_map].
  f_equal. unfold poly_num_segments.
  rewrite (proj2 (Nat.ltb_ge _ _) L). lia.
Qed.
Print Assumptions C22_polygon_segments_partial.
