(** Proofs about approximated lengths, overlaps and crossings. *)
From Coq Require Import List Bool Arith Reals Lra Lia.
From Verif Require Import PathModel PathSpec RelateModel RelateSpec RelateProofs ArcModel ArcSpec ArcProofs ArcPlane ExtentModel ExtentSpec ExtentProofs.
From Verif Require PathProofs2.
Import ListNotations.
Local Open Scope R_scope.

(** * approximatedLength2d *)
Section approximated.
Context {P : Type} (dist : P -> P -> R) (zero : P) (T : triangular dist).
Variable L : list P.
Notation at_ i := (nth i L zero).
Notation n := (length L).
Definition upto (i : nat) : R := way_length dist (firstn (S i) L).
Lemma way_snoc l a b : way_length dist (l ++ [a; b]) = way_length dist (l ++ [a]) + dist a b.
Proof.
  induction l as [|x l IH]; [cbn; unfold way_length; cbn; lra|]. destruct l as [|y l]; [unfold way_length; cbn; lra|].
  cbn [app] in *. rewrite !len_cons. rewrite IH. lra.
Qed.
Lemma firstn_snoc i : (i < n)%nat -> firstn (S i) L = firstn i L ++ [at_ i].
Proof.
  revert i. induction L as [|x l IH]; intros i H; [cbn in H; lia|]. destruct i as [|i]; [reflexivity|].
  cbn [length] in H. cbn [firstn nth app] in *. f_equal. apply IH. lia.
Qed.
Lemma upto_succ i : (S i < n)%nat -> upto (S i) = upto i + dist (at_ i) (at_ (S i)).
Proof.
  intros H. unfold upto. rewrite (firstn_snoc (S i)) by lia. rewrite (firstn_snoc i) by lia. rewrite <- app_assoc. cbn [app]. apply way_snoc.
Qed.
Lemma chord i k : (i + k < n)%nat -> dist (at_ i) (at_ (i + k)) <= upto (i + k) - upto i.
Proof.
  induction k as [|k IH]; intros H.
  - rewrite Nat.add_0_r. rewrite (tri_zero _ T). lra.
  - replace (i + S k)%nat with (S (i + k)) in * by lia. rewrite upto_succ by lia. pose proof (tri_ineq _ T (at_ i) (at_ (i + k)) (at_ (S (i + k)))).
    specialize (IH ltac:(lia)). lra.
Qed.
Lemma chord' i j : (i <= j < n)%nat -> dist (at_ i) (at_ j) <= upto j - upto i.
Proof. intros H. replace j with (i + (j - i))%nat by lia. apply chord. lia. Qed.
Lemma loop_bounds step fuel : (1 <= step)%nat -> forall i sum, (i + step < n)%nat -> (n - i < fuel)%nat ->
  exists r, approx_loop dist zero fuel L step i (i + step) sum = Some r /\
    sum + dist (at_ i) (at_ (n - 1)) <= r <= sum + (upto (n - 1) - upto i).
Proof.
  intros S1. induction fuel as [|f IH]; intros i sum H F; [lia|]. cbn [approx_loop].
  rewrite (proj2 (Nat.ltb_lt _ _) H).
  pose proof (chord' i (i + step) ltac:(lia)) as C1. pose proof (chord' (i + step) (n - 1) ltac:(lia)) as C2.
  pose proof (tri_ineq _ T (at_ i) (at_ (i + step)) (at_ (n - 1))) as C3.
  destruct (Nat.leb_spec n (i + step + step)) as [G|G].
  - destruct f as [|f]; [lia|]. cbn [approx_loop]. rewrite (proj2 (Nat.ltb_ge _ _)) by lia. eexists. split; [reflexivity|]. lra.
  - destruct (IH (i + step)%nat (sum + dist (at_ i) (at_ (i + step)))) as (r & E & B); [lia|lia|]. exists r. split; [exact E|]. lra.
Qed.
Lemma loop_exact fuel : forall i sum, (i + 1 < n)%nat -> (n - i < fuel)%nat ->
  approx_loop dist zero fuel L 1 i (i + 1) sum = Some (sum + (upto (n - 1) - upto i)).
Proof.
  induction fuel as [|f IH]; intros i sum H F; [lia|]. cbn [approx_loop].
  rewrite (proj2 (Nat.ltb_lt _ _) H). pose proof (upto_succ i ltac:(lia)) as U. replace (S i) with (i + 1)%nat in U by lia.
  destruct (Nat.leb_spec n (i + 1 + 1)) as [G|G].
  - destruct f as [|f]; [lia|]. cbn [approx_loop]. rewrite (proj2 (Nat.ltb_ge _ _)) by lia. f_equal.
    replace (n - 1)%nat with (i + 1)%nat by lia. rewrite (tri_zero _ T). lra.
  - rewrite IH by lia. f_equal. lra.
Qed.
Lemma upto_last : (1 <= n)%nat -> upto (n - 1) = way_length dist L.
Proof. intros H. unfold upto. replace (S (n - 1)) with n by lia. rewrite firstn_all. reflexivity. Qed.
Lemma upto_0 : upto 0 = 0.
Proof. unfold upto. destruct L as [|a l]; unfold way_length; cbn; reflexivity. Qed.
Lemma approx_ok : (1 <= n)%nat -> exists r, approximated_length dist zero L = Some r /\ dist (at_ 0) (at_ (n - 1)) <= r <= way_length dist L.
Proof.
  intros H. unfold approximated_length. destruct (Nat.eq_dec n 1) as [E|E].
  - rewrite E. cbn [approx_loop]. rewrite (proj2 (Nat.ltb_ge _ _)) by (rewrite E; apply Nat.le_max_l). exists 0. split; [reflexivity|].
    replace (1 - 1)%nat with 0%nat by lia. rewrite (tri_zero _ T). rewrite <- upto_last by lia. rewrite E. replace (1 - 1)%nat with 0%nat by lia. rewrite upto_0. lra.
  - set (step := Nat.max 1 (n / 10)). assert (S1 : (1 <= step)%nat) by apply Nat.le_max_l.
    assert (S2 : (step < n)%nat). { unfold step. apply Nat.max_lub_lt; [lia|]. apply Nat.div_lt; lia. }
    destruct (loop_bounds step (S n) S1 0 0) as (r & Er & B); [lia|lia|]. exists r. split; [exact Er|].
    rewrite upto_0, upto_last in B by lia. lra.
Qed.
Lemma approx_exact : (n < 20)%nat -> approximated_length dist zero L = Some (way_length dist L).
Proof.
  intros H. unfold approximated_length.
  assert (S1 : Nat.max 1 (n / 10) = 1%nat).
  { apply Nat.max_l. assert (n / 10 < 2)%nat by (apply Nat.div_lt_upper_bound; lia). lia. }
  rewrite S1. destruct (Nat.le_gt_cases n 1) as [E|E].
  - cbn [approx_loop]. rewrite (proj2 (Nat.ltb_ge _ _)) by lia. f_equal. destruct L as [|a [|b l]]; [reflexivity|reflexivity|cbn in E; lia].
  - change 1%nat with (0 + 1)%nat at 2. rewrite (loop_exact (S n) 0 0) by lia. f_equal. rewrite upto_0, upto_last by lia. lra.
Qed.
End approximated.

(** * Insides and boxes *)
Definition flips (f : point -> bool) (l : list point) : bool := fold_right xorb false (map (fun e : point * point => xorb (f (fst e)) (f (snd e))) (edges l)).
Lemma flips_path f r : forall x z, fold_right xorb false (map (fun e : point * point => xorb (f (fst e)) (f (snd e))) (combine (x :: r) (r ++ [z]))) = xorb (f x) (f z).
Proof.
  induction r as [|y r IH]; intros x z; cbn [app combine map fold_right fst snd].
  - rewrite xorb_false_r. reflexivity.
  - specialize (IH y z). cbn [combine] in IH. rewrite IH. destruct (f x), (f y), (f z); reflexivity.
Qed.
Lemma flips_even f l : flips f l = false.
Proof. destruct l as [|x r]; [reflexivity|]. unfold flips, edges. cbn [tl firstn]. rewrite flips_path. apply xorb_nilpotent. Qed.
Lemma edges_in l e : In e (edges l) -> In (fst e) l /\ In (snd e) l.
Proof.
  destruct e as [a b]. intros I. split; cbn [fst snd].
  - apply in_combine_l in I. exact I.
  - apply in_combine_r in I. apply in_app_or in I. destruct I as [I|I].
    + destruct l; [exact I|right; exact I].
    + destruct l; [exact I|]. destruct I as [<-|[]]. left. reflexivity.
Qed.
Lemma xor_none {A} (f : A -> bool) l : (forall x, In x l -> f x = false) -> fold_right xorb false (map f l) = false.
Proof.
  induction l as [|x l IH]; intros H; cbn [map fold_right]; [reflexivity|]. rewrite (H x) by (left; reflexivity).
  rewrite IH; [reflexivity|]. intros y I. apply H. right. exact I.
Qed.
Lemma crossing_between p a b lo hi : Bool.eqb (above p a) (above p b) = false -> lo <= fst a <= hi -> lo <= fst b <= hi ->
  lo <= fst a + (snd p - snd a) / (snd b - snd a) * (fst b - fst a) <= hi.
Proof.
  intros E A B. set (t := (snd p - snd a) / (snd b - snd a)).
  assert (0 <= t <= 1).
  { unfold above in E. destruct (Rlt_dec (snd p) (snd a)), (Rlt_dec (snd p) (snd b)); try discriminate E; unfold t.
    - replace ((snd p - snd a) / (snd b - snd a)) with ((snd a - snd p) / (snd a - snd b)) by (field; lra). split.
      + apply Rmult_le_pos; [lra|]. left. apply Rinv_0_lt_compat. lra.
      + apply (Rmult_le_reg_r (snd a - snd b)); [lra|]. unfold Rdiv. rewrite Rmult_assoc, Rinv_l by lra. lra.
    - split.
      + apply Rmult_le_pos; [lra|]. left. apply Rinv_0_lt_compat. lra.
      + apply (Rmult_le_reg_r (snd b - snd a)); [lra|]. unfold Rdiv. rewrite Rmult_assoc, Rinv_l by lra. lra. }
  nra.
Qed.
Lemma inside_in_box l p b : (forall q, In q l -> in_box b q) -> inside l p -> in_box b p.
Proof.
  intros H I. unfold inside in I.
  assert (G : forall e, In e (edges l) -> in_box b (fst e) /\ in_box b (snd e)).
  { intros e J. apply edges_in in J. destruct J. auto. }
  destruct (Rle_dec (fst (snd b)) (snd p)) as [Y1|Y1].
  2: { exfalso. rewrite xor_none in I; [discriminate|]. intros e J. destruct (G e J) as [[_ [A _]] [_ [B _]]]. unfold crosses, above.
       destruct (Rlt_dec (snd p) (snd (fst e))); [|lra]. destruct (Rlt_dec (snd p) (snd (snd e))); [|lra]. reflexivity. }
  destruct (Rle_dec (snd p) (snd (snd b))) as [Y2|Y2].
  2: { exfalso. rewrite xor_none in I; [discriminate|]. intros e J. destruct (G e J) as [[_ [_ A]] [_ [_ B]]]. unfold crosses, above.
       destruct (Rlt_dec (snd p) (snd (fst e))); [lra|]. destruct (Rlt_dec (snd p) (snd (snd e))); [lra|]. reflexivity. }
  destruct (Rle_dec (fst p) (snd (fst b))) as [X2|X2].
  2: { exfalso. rewrite xor_none in I; [discriminate|]. intros e J. destruct (G e J) as [[A _] [B _]]. unfold crosses.
       destruct (Bool.eqb _ _) eqn:E; [reflexivity|]. pose proof (crossing_between _ _ _ _ _ E A B).
       destruct (Rlt_dec _ _); [lra|reflexivity]. }
  destruct (Rle_dec (fst (fst b)) (fst p)) as [X1|X1].
  2: { exfalso. pose proof (flips_even (above p) l) as F. unfold flips in F.
       assert (M : map (fun e => crosses p (fst e) (snd e)) (edges l) = map (fun e => xorb (above p (fst e)) (above p (snd e))) (edges l)).
       { apply map_ext_in. intros e J. destruct (G e J) as [[A _] [B _]]. unfold crosses. destruct (Bool.eqb _ _) eqn:E.
         - apply eqb_prop in E. rewrite E, xorb_nilpotent. reflexivity.
         - pose proof (crossing_between _ _ _ _ _ E A B). destruct (Rlt_dec _ _); [|lra].
           destruct (above p (fst e)), (above p (snd e)); try discriminate E; reflexivity. }
       rewrite M, F in I. discriminate. }
  split; split; assumption.
Qed.
Lemma common_meets k l b c : (forall q, In q k -> in_box b q) -> (forall q, In q l -> in_box c q) -> common_surface k l -> box_meets b c = true.
Proof.
  intros K L (s & X & Y & H). destruct (H (fst (fst s), fst (snd s))) as [A B]; [split; split; cbn [fst snd]; lra|].
  apply (inside_in_box _ _ _ K) in A. apply (inside_in_box _ _ _ L) in B. destruct A as [[A1 A2] [A3 A4]], B as [[B1 B2] [B3 B4]].
  unfold box_meets, range_meets. rewrite !andb_true_iff, !le_b_iff. cbn [fst snd] in *. repeat split; lra.
Qed.
Lemma spans2_in big b ps q : spans2 big b ps -> In q ps -> in_box b q.
Proof.
  intros [A B] I. destruct ps as [|p ps]; [contradiction|]. cbn [spans map] in A, B. destruct A as [A _], B as [B _].
  split; [apply A; apply (in_map fst (p :: ps) q I)|apply B; apply (in_map snd (p :: ps) q I)].
Qed.

(** * overlaps2d *)
Section overlap.
Variables (data : nat -> list nat) (xy : nat -> point) (big : R).
Lemma lane_box_in l q : placed data xy big l -> In q (lane_polygon data xy l) -> in_box (lane_box data xy big l) q.
Proof.
  unfold placed. rewrite map_app, bounded_app. intros [B1 B2] I.
  assert (S : spans2 big (lane_box data xy big l) (map xy (seen data (left_bound l)) ++ map xy (seen data (right_bound l)))).
  { apply spans2_app; auto; apply spans_bounds2; assumption. }
  apply (spans2_in _ _ _ _ S). unfold lane_polygon in I. rewrite map_app in I. apply in_app_or in I. apply in_or_app.
  destruct I as [I|I]; [left; exact I|right]. rewrite map_rev in I. apply in_rev in I. exact I.
Qed.
Lemma next_to_iff l m : line_eqb (right_bound l) (left_bound m) || line_eqb (left_bound l) (right_bound m)
       || line_eqb (linv (left_bound l)) (left_bound m) || line_eqb (linv (right_bound l)) (right_bound m)
       || follows data l m || follows data m l || follows data (invert l) m || follows data (invert m) l = true <-> next_to data l m.
Proof.
  unfold next_to. rewrite !orb_true_iff, !line_eqb_iff, !PathProofs2.follows_succession. change linv with turned. unfold invert, other_way. change linv with turned. tauto.
Qed.
Lemma overlaps_next relate l m : next_to data l m -> overlaps_lanes data xy big relate false l m = false.
Proof. intros N. unfold overlaps_lanes. rewrite (proj2 (next_to_iff l m) N). reflexivity. Qed.
Lemma overlaps_ok relate l m : (forall k k', relate k k' = true <-> common_surface k k') -> placed data xy big l -> placed data xy big m -> ~ next_to data l m ->
  overlaps_lanes data xy big relate false l m = true <-> common_surface (lane_polygon data xy l) (lane_polygon data xy m).
Proof.
  intros R Pl Pm N. unfold overlaps_lanes. destruct (_ || _) eqn:E; [apply next_to_iff in E; contradiction|]. clear E.
  destruct (box_meets _ _) eqn:M; cbn [negb]; [apply R|]. split; [discriminate|]. intros C.
  rewrite (common_meets _ _ _ _ (fun q => lane_box_in l q Pl) (fun q => lane_box_in m q Pm) C) in M. discriminate.
Qed.
End overlap.

(** * Crossings of centerlines *)
Lemma euclid_0 p q : euclid p q <= 0 -> p = q.
Proof.
  unfold euclid. set (s := (fst q - fst p) * (fst q - fst p) + (snd q - snd p) * (snd q - snd p)). intros H.
  assert (S0 : 0 <= s) by (unfold s; apply Rplus_le_le_0_compat; apply Rle_0_sqr). pose proof (sqrt_pos s). assert (sqrt s = 0) by lra. apply sqrt_eq_0 in H1; [|exact S0].
  destruct p as [a b], q as [c d]. unfold s in H1. cbn [fst snd] in H1.
  pose proof (Rplus_sqr_eq_0_l _ _ H1). rewrite Rplus_comm in H1. pose proof (Rplus_sqr_eq_0_l _ _ H1). f_equal; lra.
Qed.
Lemma euclid_self p : euclid p p = 0.
Proof. unfold euclid. transitivity (sqrt 0); [f_equal; ring|apply sqrt_0]. Qed.
Lemma arc_lengths_ok closest ls ps : closest_ok closest -> (2 <= length ls)%nat -> NoDup (removelast ls) ->
  (forall p, In p ps -> exists s, at_length euclid between ls s p) ->
  exists ts, arc_lengths closest ls ps = Ok ts /\ Forall2 (fun p s => at_length euclid between ls s p) ps ts.
Proof.
  intros C L N. induction ps as [|p ps IH]; intros H; cbn [arc_lengths].
  - exists []. split; [reflexivity|constructor].
  - destruct (to_arc_ok closest ls p C L N) as (s & d & x & E & A & [_ F] & _). rewrite E.
    destruct IH as (ts & -> & G); [intros q I; apply H; right; exact I|]. exists (s :: ts). split; [reflexivity|]. constructor; [|exact G].
    destruct (H p) as (t & B); [left; reflexivity|]. apply F in B. rewrite euclid_self in B. apply euclid_0 in B. subst x. exact A.
Qed.
