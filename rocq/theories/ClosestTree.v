(** A query that meets the promise of the R-tree: bounding boxes in the plane, sorted by their distance. *)
From Coq Require Import List Bool Arith ZArith QArith Qminmax Lqa Lia Sorting.Sorted Sorting.Permutation.
From Verif Require Import ClosestModel ClosestSpec ClosestProofs ClosestVec.
Import ListNotations.
Local Open Scope Q_scope.

(** The gap between two intervals, each given by any two of its ends. *)
Definition gap (a b c d : Q) : Q := Qmax 0 (Qmax (Qmin c d - Qmax a b) (Qmin a b - Qmax c d)).
Definition box_gap (s r : plane * plane) : Q :=
  let gx := gap (fst (fst s)) (fst (snd s)) (fst (fst r)) (fst (snd r)) in
  let gy := gap (snd (fst s)) (snd (snd s)) (snd (fst r)) (snd (snd r)) in gx * gx + gy * gy.
Fixpoint insert_by (k : (plane * plane) -> Q) (s : plane * plane) (l : list (Q * (plane * plane))) : list (Q * (plane * plane)) :=
  match l with
  | [] => [(k s, s)]
  | (d, t) :: r => if Qle_bool (k s) d then (k s, s) :: l else (d, t) :: insert_by k s r
  end.
Definition box_query (l : list (plane * plane)) (q : plane * plane) : list (Q * (plane * plane)) :=
  fold_right (insert_by (fun s => box_gap s q)) [] l.
Definition point_query (l : list (plane * plane)) (p : plane) : list (Q * (plane * plane)) := box_query l (p, p).

Lemma insert_perm k s l : Permutation (map snd (insert_by k s l)) (s :: map snd l).
Proof.
  induction l as [|[d t] r IH]; cbn; auto. destruct (Qle_bool (k s) d); cbn; auto.
  rewrite IH. apply perm_swap.
Qed.
Lemma insert_in k s l d t : In (d, t) (insert_by k s l) -> (d, t) = (k s, s) \/ In (d, t) l.
Proof.
  induction l as [|[d' t'] r IH]; cbn; [intuition|]. destruct (Qle_bool (k s) d'); cbn; intuition.
Qed.
Lemma insert_sorted k s l : StronglySorted (fun x y => fst x <= fst y) l -> StronglySorted (fun x y => fst x <= fst y) (insert_by k s l).
Proof.
  induction 1 as [|[d t] r H IH Hall]; cbn; [repeat constructor|]. destruct (Qle_bool (k s) d) eqn:E; qhyps.
  - constructor; [constructor; auto|]. constructor; [exact E|]. eapply Forall_impl; [|exact Hall]. cbn. intros; lra.
  - constructor; auto. rewrite Forall_forall in *. intros [d' t'] Hin. apply insert_in in Hin. cbn.
    destruct Hin as [F|Hin]; [injection F as -> ->; lra|apply (Hall _ Hin)].
Qed.
Lemma query_props l q : Permutation (map snd (box_query l q)) l /\ StronglySorted (fun x y => fst x <= fst y) (box_query l q) /\
  forall d s, In (d, s) (box_query l q) -> d = box_gap s q.
Proof.
  unfold box_query. induction l as [|s r (A & B & C)]; cbn; [repeat split; auto; [constructor|easy]|].
  split; [rewrite insert_perm; auto|]. split; [now apply insert_sorted|].
  intros d t Hin. apply insert_in in Hin. destruct Hin as [E|Hin]; [injection E as -> ->; auto|auto].
Qed.
Lemma gap_bound a b c d x y : Qmin a b <= x -> x <= Qmax a b -> Qmin c d <= y -> y <= Qmax c d ->
  gap a b c d * gap a b c d <= (y - x) * (y - x).
Proof.
  intros A B C D. unfold gap. pose proof (square_pos (y - x)).
  destruct (Q.max_spec 0 (Qmax (Qmin c d - Qmax a b) (Qmin a b - Qmax c d))) as [[P ->]|[P ->]]; [|lra].
  revert P. set (lo := Qmin a b) in *. set (hi := Qmax a b) in *. set (lo' := Qmin c d) in *. set (hi' := Qmax c d) in *. clearbody lo hi lo' hi'.
  destruct (Q.max_spec (lo' - hi) (lo - hi')) as [[P' ->]|[P' ->]]; intros P.
  - setoid_replace ((y - x) * (y - x)) with ((x - y) * (x - y)) by ring. apply Qmult_le_compat_nonneg; split; lra.
  - apply Qmult_le_compat_nonneg; split; lra.
Qed.
Lemma between a b t : 0 <= t -> t <= 1 -> Qmin a b <= a + t * (b - a) /\ a + t * (b - a) <= Qmax a b.
Proof.
  intros. destruct (Q.min_spec a b) as [[? ->]|[? ->]], (Q.max_spec a b) as [[? ->]|[? ->]]; split; nra.
Qed.
Lemma zero_parts x y : x * x + y * y == 0 -> x == 0 /\ y == 0.
Proof. intros H. pose proof (square_pos x). pose proof (square_pos y). assert (x * x == 0) by lra. assert (y * y == 0) by lra. split; nra. Qed.
Lemma on_segment_box (a b x : plane) : on_segment a b x ->
  (Qmin (fst a) (fst b) <= fst x /\ fst x <= Qmax (fst a) (fst b)) /\ (Qmin (snd a) (snd b) <= snd x /\ snd x <= Qmax (snd a) (snd b)).
Proof.
  intros (t & A & B & C). unfold sq, at_param in C. cbn in C. apply zero_parts in C. destruct C as [C D].
  pose proof (between (fst a) (fst b) t A B). pose proof (between (snd a) (snd b) t A B). lra.
Qed.
Lemma box_query_ok : query_ok (V := plane) box_query bound_segment.
Proof.
  intros l q. destruct (query_props l q) as (A & B & C). split; auto. split; auto.
  intros d s Hin x y X Y. rewrite (C _ _ Hin). unfold box_gap, sq. cbn [plane dot vsub fst snd]. change (pt plane) with p2 in *.
  destruct (on_segment_box _ _ _ X) as [[] []]. destruct (on_segment_box _ _ _ Y) as [[] []].
  pose proof (gap_bound (fst (fst s)) (fst (snd s)) (fst (fst q)) (fst (snd q)) (fst x) (fst y) ltac:(assumption) ltac:(assumption) ltac:(assumption) ltac:(assumption)).
  pose proof (gap_bound (snd (fst s)) (snd (snd s)) (snd (fst q)) (snd (snd q)) (snd x) (snd y) ltac:(assumption) ltac:(assumption) ltac:(assumption) ltac:(assumption)). cbn zeta. apply Qplus_le_compat; assumption.
Qed.
Lemma point_query_ok : query_ok (V := plane) point_query bound_point.
Proof.
  intros l p. destruct (box_query_ok l (p, p)) as (A & B & C). split; auto. split; auto.
  intros d s Hin x X. specialize (C d s Hin x p X (on_segment_start plane_lawful p p)).
  rewrite (sq_sym plane_lawful). exact C.
Qed.
