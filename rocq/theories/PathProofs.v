(** Proofs about the outline of paths. *)
From Coq Require Import List Bool Arith Reals Lia Lra.
From Verif Require Import LineModel LineSpec CompoundProofs PathModel PathSpec.
Import ListNotations.
Local Open Scope R_scope.

(** * Ways *)
Lemma along_cons f a b l : along f (a :: b :: l) = f a b + along f (b :: l).
Proof. reflexivity. Qed.
Lemma along_app f l a r : along f (l ++ a :: r) = along f (l ++ [a]) + along f (a :: r).
Proof.
  induction l as [|x l IH]; [cbn [app]; cbn; lra|]. destruct l as [|y l]; cbn [app] in *.
  - rewrite !along_cons. cbn. lra.
  - rewrite (along_cons f x y (l ++ a :: r)), IH, along_cons. lra.
Qed.
Lemma along_rev f l : oriented f -> along f (rev l) = - along f l.
Proof.
  intros O. induction l as [|x l IH]; [cbn; lra|]. destruct l as [|y l]; [cbn; lra|].
  cbn [rev] in *. rewrite <- app_assoc. cbn [app]. rewrite along_app, IH, along_cons. cbn [along].
  rewrite (O y x). cbn. lra.
Qed.
Lemma oriented_same f a : oriented f -> f a a = 0.
Proof. intros O. assert (H := O a a). lra. Qed.

Lemma from_to_one a : from_to [a] a a. Proof. exists [], []. auto. Qed.
Lemma from_to_rev l a b : from_to l a b -> from_to (rev l) b a.
Proof.
  intros (r & r' & E & E'). exists (rev r'), (rev r). rewrite E' at 1. rewrite rev_app_distr. cbn.
  split; [reflexivity|]. rewrite E. reflexivity.
Qed.
Lemma from_to_inj l a b a' b' : from_to l a b -> from_to l a' b' -> a = a' /\ b = b'.
Proof.
  intros (r & r' & E & E') (s & s' & F & F'). split; [congruence|].
  rewrite E' in F'. apply app_inj_tail in F'. tauto.
Qed.
Lemma from_to_exists l : l <> [] -> exists a b, from_to l a b.
Proof.
  intros N. destruct l as [|a r]; [contradiction|]. destruct (@exists_last _ (a :: r) ltac:(discriminate)) as (r' & b & E).
  exists a, b, r, r'. auto.
Qed.
Lemma from_to_join l e a m b : from_to l a m -> from_to (m :: e) m b -> from_to (l ++ e) a b.
Proof.
  intros (r & r' & E & E') (s & s' & F & F'). exists (r ++ e). rewrite E. cbn.
  destruct e as [|x e].
  - destruct s' as [|y s']; [|destruct s'; discriminate]. inversion F'; subst. exists r'.
    rewrite !app_nil_r. split; [reflexivity|congruence].
  - destruct s' as [|y s']; [discriminate|]. inversion F'; subst. exists ((a :: r) ++ s').
    split; [reflexivity|]. rewrite <- app_assoc. cbn. now rewrite H1.
Qed.
Lemma along_join f l e a m : from_to l a m -> along f (l ++ e) = along f l + along f (m :: e).
Proof.
  intros (r & r' & E & E'). rewrite E' at 1. rewrite <- app_assoc. cbn [app]. rewrite along_app, <- E'. reflexivity.
Qed.

(** Merging of consecutive points *)
Lemma dedup_cons {P} (peq : P -> P -> bool) x y l :
  dedup peq (x :: y :: l) = if peq x y then dedup peq (y :: l) else x :: dedup peq (y :: l).
Proof. reflexivity. Qed.
Lemma dedup_hd l : forall x, exists r, dedup Nat.eqb (x :: l) = x :: r.
Proof.
  induction l as [|y l IH]; intros x; [eexists; reflexivity|]. rewrite dedup_cons.
  destruct (Nat.eqb_spec x y) as [->|]; eauto.
Qed.
Lemma dedup_last l : forall b, exists r, dedup Nat.eqb (l ++ [b]) = r ++ [b].
Proof.
  induction l as [|x l IH]; intros b; [exists []; reflexivity|].
  destruct (IH b) as (r & E). destruct l as [|y l]; cbn [app] in *.
  - rewrite dedup_cons. destruct (Nat.eqb x b); [exists []; reflexivity|exists [x]; reflexivity].
  - rewrite dedup_cons, E. destruct (Nat.eqb x y); [exists r; reflexivity|exists (x :: r); reflexivity].
Qed.
Lemma dedup_from_to l a b : from_to l a b -> from_to (dedup Nat.eqb l) a b.
Proof.
  intros (r & r' & E & E'). destruct (dedup_hd r a) as (s & F). destruct (dedup_last r' b) as (s' & F').
  exists s, s'. split; [rewrite E; exact F|rewrite E'; exact F'].
Qed.
Lemma dedup_along f l : oriented f -> along f (dedup Nat.eqb l) = along f l.
Proof.
  intros O. induction l as [|x l IH]; [reflexivity|]. destruct l as [|y l]; [reflexivity|].
  rewrite dedup_cons, along_cons. destruct (Nat.eqb_spec x y) as [->|].
  - rewrite IH, (oriented_same f y O). lra.
  - destruct (dedup_hd l y) as (s & F). rewrite F in *. rewrite along_cons, IH. reflexivity.
Qed.
Lemma dedup_in l x : In x (dedup Nat.eqb l) <-> In x l.
Proof.
  induction l as [|y l IH]; [tauto|]. destruct l as [|z l]; [tauto|]. rewrite dedup_cons.
  destruct (Nat.eqb_spec y z) as [->|].
  - rewrite IH. cbn. tauto.
  - change (y = x \/ In x (dedup Nat.eqb (z :: l)) <-> y = x \/ In x (z :: l)). rewrite IH. tauto.
Qed.

(** Successive points *)
Lemma steps_app l a r : steps (l ++ a :: r) <-> steps (l ++ [a]) /\ steps (a :: r).
Proof.
  induction l as [|x l IH]; [cbn; tauto|]. destruct l as [|y l]; cbn [app] in *.
  - cbn. tauto.
  - change (x <> y /\ steps (y :: l ++ a :: r) <-> (x <> y /\ steps (y :: l ++ [a])) /\ steps (a :: r)). rewrite IH. tauto.
Qed.
Lemma steps_rev l : steps l -> steps (rev l).
Proof.
  induction l as [|x l IH]; [auto|]. destruct l as [|y l]; [auto|]. intros [N H]. cbn [rev] in *. rewrite <- app_assoc.
  cbn [app]. apply steps_app. split; [exact (IH H)|]. cbn. split; [congruence|exact I].
Qed.
Lemma steps_dedup l : steps (dedup Nat.eqb l).
Proof.
  induction l as [|x l IH]; [exact I|]. destruct l as [|y l]; [exact I|]. rewrite dedup_cons.
  destruct (Nat.eqb_spec x y) as [|N]; [exact IH|]. destruct (dedup_hd l y) as (s & F). rewrite F in *. split; assumption.
Qed.
Lemma steps_join l e a m : from_to l a m -> steps l -> steps (m :: e) -> steps (l ++ e).
Proof. intros (r & r' & E & E') H1 H2. rewrite E' in *. rewrite <- app_assoc. cbn [app]. apply steps_app. auto. Qed.

(** * Ways with their sums *)
Section sums.
Variable data : nat -> list nat.
Variable f : nat -> nat -> R.
Hypothesis Ho : oriented f.
Variable strict : Prop.      (* whether doubled points matter *)

Definition way (l : list nat) (a b : nat) (x : R) : Prop := from_to l a b /\ along f l = x.
Lemma way_join l e a m b x y : way l a m x -> way (m :: e) m b y -> way (l ++ e) a b (x + y).
Proof.
  intros [F A] [F' A']. split; [eapply from_to_join; eassumption|]. rewrite (along_join f _ _ _ _ F), A, A'. reflexivity.
Qed.
Lemma way_rev l a b x : way l a b x -> way (rev l) b a (- x).
Proof. intros [F A]. split; [now apply from_to_rev|]. rewrite along_rev, A by exact Ho. reflexivity. Qed.
Definition clean (l : list nat) (a b : nat) (x : R) : Prop := way l a b x /\ (strict -> steps l).
Lemma clean_join l e a m b x y : clean l a m x -> clean (m :: e) m b y -> clean (l ++ e) a b (x + y).
Proof.
  intros [W H] [W' H']. split; [eapply way_join; eassumption|]. intros K. eapply steps_join; [exact (proj1 W)|auto|auto].
Qed.
Lemma clean_rev l a b x : clean l a b x -> clean (rev l) b a (- x).
Proof. intros [W H]. split; [now apply way_rev|]. intros K. apply steps_rev. auto. Qed.

Lemma pts_seen l : pts data l = seen data l. Proof. reflexivity. Qed.
Lemma linv_turned l : linv l = turned l. Proof. reflexivity. Qed.
Lemma seen_turned l : seen data (turned l) = rev (seen data l).
Proof. unfold seen, turned. cbn. destruct (l_inv l); cbn; [now rewrite rev_involutive|reflexivity]. Qed.
Lemma turned_turned l : turned (turned l) = l.
Proof. destruct l. unfold turned. cbn. now rewrite negb_involutive. Qed.
Lemma line_eqb_eq a b : line_eqb a b = true <-> a = b.
Proof.
  unfold line_eqb. rewrite andb_true_iff, Nat.eqb_eq, Bool.eqb_true_iff. destruct a, b. cbn.
  split; [intros [-> ->]; reflexivity|intros E; inversion E; auto].
Qed.

Lemma front_seen l a b : from_to (seen data l) a b -> front data l = Done a.
Proof. intros (r & r' & E & _). unfold front. rewrite pts_seen, E. reflexivity. Qed.
Lemma back_seen l a b : from_to (seen data l) a b -> back data l = Done b.
Proof. intros (r & r' & _ & E). unfold back. rewrite pts_seen, E, rev_app_distr. reflexivity. Qed.

(** * Lanelets *)
Record corners (l : lanelet) (a0 a1 b0 b1 : nat) : Prop := {
  cleft : from_to (seen data (left_bound l)) a0 a1;
  cright : from_to (seen data (right_bound l)) b0 b1 }.
Lemma corners_exist l : well_formed data (Lane l) -> exists a0 a1 b0 b1, corners l a0 a1 b0 b1.
Proof.
  intros [N M]. destruct (from_to_exists _ N) as (a0 & a1 & A). destruct (from_to_exists _ M) as (b0 & b1 & B).
  exists a0, a1, b0, b1. split; assumption.
Qed.
Definition crisp (l : lanelet) (a0 a1 b0 b1 : nat) : Prop :=
  steps (seen data (left_bound l)) /\ steps (seen data (right_bound l)) /\ a0 <> b0 /\ a1 <> b1.
Lemma crisp_neat l a0 a1 b0 b1 : corners l a0 a1 b0 b1 -> neat data (Lane l) -> crisp l a0 a1 b0 b1.
Proof.
  intros [A B] H. unfold neat, tidy in H. cbn [outline] in H. destruct A as (r & r' & E & E'). apply from_to_rev in B. destruct B as (q & q' & F & F').
  rewrite E in H at 2. cbn [app firstn] in H. rewrite E', F, <- !app_assoc in H. cbn [app] in H. apply steps_app in H. destruct H as [H1 H2].
  rewrite <- E' in H1. change (a1 <> b1 /\ steps ((b1 :: q) ++ [a0])) in H2. rewrite <- F, F' in H2. rewrite <- app_assoc in H2. cbn [app] in H2.
  destruct H2 as [N H2]. apply steps_app in H2. destruct H2 as [H2 [M _]]. rewrite <- F' in H2. apply steps_rev in H2.
  rewrite rev_involutive in H2. repeat split; auto.
Qed.

Section lane.
Variables (l : lanelet) (a0 a1 b0 b1 : nat) (C : corners l a0 a1 b0 b1) (Cs : strict -> crisp l a0 a1 b0 b1).
Definition start (s : side) := match s with Right => a0 | Preceding => a1 | Left => b1 | Following => b0 end.
Definition stop (s : side) := match s with Right => a1 | Preceding => b1 | Left => b0 | Following => a0 end.
Definition side_pts (s : side) : list nat :=
  match s with
  | Right => seen data (left_bound l)
  | Preceding => [a1; b1]
  | Left => rev (seen data (right_bound l))
  | Following => [b0; a0]
  end.
Definition val (s : side) : R := along f (side_pts s).

Lemma side_from_to s : from_to (side_pts s) (start s) (stop s).
Proof.
  destruct s; cbn [side_pts start stop].
  - exists [a0], [b0]. auto.
  - exists [b1], [a1]. auto.
  - apply from_to_rev. apply C.
  - apply C.
Qed.
Lemma side_way s : way (side_pts s) (start s) (stop s) (val s).
Proof. split; [apply side_from_to|reflexivity]. Qed.
Lemma side_has s : has_side data (Lane l) (side_pts s).
Proof.
  destruct (cleft _ _ _ _ _ C) as (r & r' & E & E'), (cright _ _ _ _ _ C) as (q & q' & F & F').
  destruct s; cbn [side_pts]; [apply side_end; eapply end_front; eassumption|apply side_end; eapply end_back; eassumption|apply side_right|apply side_left].
Qed.
Lemma start_cw s : start (cw s) = stop s. Proof. now destruct s. Qed.
Lemma stop_ccw s : stop (ccw s) = start s. Proof. now destruct s. Qed.

Lemma outline_sum : around f (outline data (Lane l)) = val Right + val Preceding + val Left + val Following.
Proof.
  unfold around, outline, val, side_pts.
  destruct (cleft _ _ _ _ _ C) as (r & r' & E & E'). destruct (from_to_rev _ _ _ (cright _ _ _ _ _ C)) as (q & q' & F & F').
  rewrite E at 2. cbn [app firstn]. rewrite E'. rewrite <- !app_assoc. cbn [app].
  rewrite (along_app f r' a1 _). rewrite F at 1. cbn [app]. rewrite along_cons.
  change (b1 :: q ++ [a0]) with ((b1 :: q) ++ [a0]). rewrite <- F. rewrite F' at 1. rewrite <- app_assoc. cbn [app].
  rewrite (along_app f q' b0 [a0]), <- F'. cbn [along]. lra.
Qed.

(** What the two functions append *)
Lemma but_first_way x a b : from_to (seen data x) a b -> (strict -> steps (seen data x)) ->
  exists e, but_first data x = Done e /\ clean (a :: e) a b (along f (seen data x)).
Proof.
  intros F G. destruct F as (r & r' & E & E'). exists r. unfold but_first. rewrite pts_seen, E in *. split; [reflexivity|].
  split; [|exact G]. split; [|reflexivity]. exists r, r'. auto.
Qed.
Lemma clockwise_way s : exists e, clockwise data l s = Done e /\ clean (start s :: e) (start s) (stop s) (val s).
Proof.
  destruct s; cbn [clockwise start stop val side_pts].
  - rewrite (front_seen _ _ _ (cleft _ _ _ _ _ C)). exists [a0]. split; [reflexivity|].
    split; [split; [exists [a0], [b0]; auto|reflexivity]|]. intros K. destruct (Cs K) as (_ & _ & N & _). cbn. auto.
  - rewrite (back_seen _ _ _ (cright _ _ _ _ _ C)). exists [b1]. split; [reflexivity|].
    split; [split; [exists [b1], [a1]; auto|reflexivity]|]. intros K. destruct (Cs K) as (_ & _ & _ & N). cbn. auto.
  - unfold val, side_pts. rewrite <- seen_turned. apply (but_first_way (turned (right_bound l))); rewrite seen_turned.
    + apply from_to_rev, C.
    + intros K. apply steps_rev. apply (Cs K).
  - apply but_first_way; [apply C|]. intros K. apply (Cs K).
Qed.
Lemma counter_clockwise_way s : exists e, counter_clockwise data l s = Done e /\ clean (stop s :: e) (stop s) (start s) (- val s).
Proof.
  destruct s; cbn [counter_clockwise start stop].
  - rewrite (front_seen _ _ _ (cright _ _ _ _ _ C)). exists [b0]. split; [reflexivity|].
    split; [split; [exists [b0], [a0]; auto|]|]. { unfold val. cbn. rewrite (Ho a0 b0). lra. }
    intros K. destruct (Cs K) as (_ & _ & N & _). cbn. auto.
  - rewrite (back_seen _ _ _ (cleft _ _ _ _ _ C)). exists [a1]. split; [reflexivity|].
    split; [split; [exists [a1], [b1]; auto|]|]. { unfold val. cbn. rewrite (Ho b1 a1). lra. }
    intros K. destruct (Cs K) as (_ & _ & _ & N). cbn. auto.
  - unfold val, side_pts. rewrite along_rev, Ropp_involutive by exact Ho. apply but_first_way; [apply C|]. intros K. apply (Cs K).
  - unfold val, side_pts. rewrite <- along_rev, <- seen_turned by exact Ho. apply (but_first_way (turned (left_bound l))); rewrite seen_turned.
    + apply from_to_rev, C.
    + intros K. apply steps_rev. apply (Cs K).
Qed.
Lemma first_point_stop s : first_point data l s = Done (stop s).
Proof.
  destruct s; cbn [first_point stop].
  - apply (front_seen _ _ _ (cleft _ _ _ _ _ C)).
  - apply (back_seen _ _ _ (cright _ _ _ _ _ C)).
  - apply (front_seen _ _ _ (cright _ _ _ _ _ C)).
  - apply (back_seen _ _ _ (cleft _ _ _ _ _ C)).
Qed.

(** The sides from [s] on up to [out] *)
Fixpoint sides_until (next : side -> side) (n : nat) (s out : side) : list side :=
  match n with
  | O => []
  | S n => if side_eqb s out then [] else s :: sides_until next n (next s) out
  end.
Lemma side_eqb_eq s t : side_eqb s t = true <-> s = t.
Proof. destruct s, t; cbn; split; intros; congruence. Qed.
Lemma walk_way (next : side -> side) (extract : side -> outcome (list nat)) (st sp : side -> nat) (v : side -> R) :
  (forall s, exists e, extract s = Done e /\ clean (st s :: e) (st s) (sp s) (v s)) ->
  (forall s, st (next s) = sp s) ->
  forall n s out t h x, (exists k, (k < n)%nat /\ Nat.iter k next s = out) -> clean t h (st s) x ->
  exists t', walk next extract n s out t = Done t' /\ clean t' h (st out) (x + total (map v (sides_until next n s out))).
Proof.
  intros Ex Nx. induction n as [|n IH]; intros s out t h x (k & Hk & E) W; [lia|].
  cbn [walk sides_until]. destruct (side_eqb s out) eqn:Q.
  - apply side_eqb_eq in Q. subst s. exists t. split; [reflexivity|]. cbn. rewrite Rplus_0_r. exact W.
  - destruct (Ex s) as (e & -> & We). cbn [bind].
    assert (I : forall j y, Nat.iter j next (next y) = Nat.iter (S j) next y).
    { induction j as [|j IHj]; intros y; [reflexivity|]. cbn. f_equal. apply IHj. }
    destruct k as [|k]; [cbn in E; apply side_eqb_eq in E; congruence|].
    destruct (IH (next s) out (t ++ e) h (x + v s)) as (t' & Ew & Ww).
    + exists k. split; [lia|]. rewrite I. exact E.
    + rewrite Nx. eapply clean_join; eassumption.
    + exists t'. split; [exact Ew|]. cbn [map total fold_right]. unfold total in Ww. rewrite <- Rplus_assoc. exact Ww.
Qed.

Definition left_sum (s out : side) : R := total (map val (sides_until cw 4 (cw s) out)).
Definition right_sum (s out : side) : R := total (map val (sides_until ccw 4 (ccw s) out)).
Lemma total_opp {A} (v : A -> R) xs : total (map (fun s => - v s) xs) = - total (map v xs).
Proof. unfold total. induction xs as [|y ys IH]; cbn; [lra|]. rewrite IH. lra. Qed.
Lemma bounds_left_way s out t h x : clean t h (stop s) x ->
  exists t', bounds_left data l s out t = Done t' /\ clean t' h (start out) (x + left_sum s out).
Proof.
  intros W. apply (walk_way cw (clockwise data l) start stop val clockwise_way start_cw).
  - destruct s, out; first [exists 0%nat; split; [lia|reflexivity]|exists 1%nat; split; [lia|reflexivity]
      |exists 2%nat; split; [lia|reflexivity]|exists 3%nat; split; [lia|reflexivity]].
  - rewrite start_cw. exact W.
Qed.
Lemma walk_app next extract n : forall s out t t' u, walk next extract n s out t = Done t' ->
  walk next extract n s out (u ++ t) = Done (u ++ t').
Proof.
  induction n as [|n IH]; intros s out t t' u E; [discriminate|]. cbn [walk] in *.
  destruct (side_eqb s out); [congruence|]. destruct (extract s); cbn [bind] in *; try discriminate.
  rewrite <- app_assoc. now apply IH.
Qed.
Lemma walk_app_inv next extract n : forall s out t t' u, walk next extract n s out (u ++ t) = Done t' ->
  exists t'', t' = u ++ t'' /\ walk next extract n s out t = Done t''.
Proof.
  induction n as [|n IH]; intros s out t t' u E; [discriminate|]. cbn [walk] in *.
  destruct (side_eqb s out); [exists t; split; congruence|]. destruct (extract s); cbn [bind] in *; try discriminate.
  rewrite <- app_assoc in E. now apply IH.
Qed.
Lemma bounds_right_way s out t h x : clean (h :: t) h (start s) x ->
  exists t', bounds_right data l s out t = Done t' /\ clean (h :: t') h (stop out) (x - right_sum s out).
Proof.
  intros W.
  destruct (walk_way ccw (counter_clockwise data l) stop start (fun s => - val s) counter_clockwise_way stop_ccw 4 (ccw s) out ([h] ++ t) h x) as (t' & E & W').
  - destruct s, out; first [exists 0%nat; split; [lia|reflexivity]|exists 1%nat; split; [lia|reflexivity]
      |exists 2%nat; split; [lia|reflexivity]|exists 3%nat; split; [lia|reflexivity]].
  - rewrite stop_ccw. exact W.
  - destruct (walk_app_inv _ _ _ _ _ _ _ _ E) as (t'' & -> & E'). exists t''. split; [exact E'|].
    rewrite total_opp in W'. exact W'.
Qed.
Lemma round_sum s out : s <> out -> left_sum s out + right_sum s out + val s + val out = around f (outline data (Lane l)).
Proof.
  intros N. rewrite outline_sum. unfold left_sum, right_sum, total.
  destruct s, out; try contradiction; cbn [cw ccw sides_until side_eqb map fold_right]; lra.
Qed.
Lemma round_sum_same s : left_sum s s + val s = around f (outline data (Lane l)).
Proof.
  rewrite outline_sum. unfold left_sum, total. destruct s; cbn [cw ccw sides_until side_eqb map fold_right]; lra.
Qed.

End lane.

(** * Relations *)
Lemma is_empty_seen l a b : from_to (seen data l) a b -> is_empty data l = false.
Proof. intros (r & _ & E & _). unfold is_empty. rewrite pts_seen, E. reflexivity. Qed.
Lemma follows_corners l n a0 a1 b0 b1 c0 c1 d0 d1 : corners l a0 a1 b0 b1 -> corners n c0 c1 d0 d1 ->
  follows data l n = true <-> a1 = c0 /\ b1 = d0.
Proof.
  intros [A B] [C D]. unfold follows.
  rewrite (is_empty_seen _ _ _ A), (is_empty_seen _ _ _ B), (is_empty_seen _ _ _ C), (is_empty_seen _ _ _ D).
  rewrite (back_seen _ _ _ A), (back_seen _ _ _ B), (front_seen _ _ _ C), (front_seen _ _ _ D). cbn.
  rewrite andb_true_iff, !Nat.eqb_eq. tauto.
Qed.
Lemma succession_corners l n a0 a1 b0 b1 c0 c1 d0 d1 : corners l a0 a1 b0 b1 -> corners n c0 c1 d0 d1 ->
  in_succession data l n <-> a1 = c0 /\ b1 = d0.
Proof.
  intros [(r1 & r1' & A & A') (r2 & r2' & B & B')] [(r3 & r3' & C & C') (r4 & r4' & D & D')]. split.
  - intros (s1 & p & t1 & s2 & q & t2 & E1 & E2 & E3 & E4). rewrite A' in E1. rewrite B' in E3.
    apply app_inj_tail in E1, E3. destruct E1 as [_ ->], E3 as [_ ->]. rewrite C in E2. rewrite D in E4.
    inversion E2. inversion E4. auto.
  - intros [-> ->]. exists r1', c0, r3, r2', d0, r4. auto.
Qed.
Lemma left_of_beside l n : left_of l n = true <-> beside l n.
Proof. unfold left_of, beside. apply line_eqb_eq. Qed.

Lemma adjacency_related l n a0 a1 b0 b1 c0 c1 d0 d1 : corners l a0 a1 b0 b1 -> corners n c0 c1 d0 d1 ->
  related data (Lane l) (Lane n) ->
  let (s, s') := adjacency_lanelet data l n in
  start a0 a1 b0 b1 s = stop c0 c1 d0 d1 s' /\ stop a0 a1 b0 b1 s = start c0 c1 d0 d1 s'
  /\ val l a0 a1 b0 b1 s + val n c0 c1 d0 d1 s' = 0.
Proof.
  intros Cl Cn Rel. unfold adjacency_lanelet.
  destruct (follows data l n) eqn:F1.
  { apply (follows_corners _ _ _ _ _ _ _ _ _ _ Cl Cn) in F1. destruct F1 as [-> ->]. cbn.
    split; [reflexivity|]. split; [reflexivity|]. unfold val. cbn. rewrite (Ho d0 c0). lra. }
  destruct (follows data n l) eqn:F2.
  { apply (follows_corners _ _ _ _ _ _ _ _ _ _ Cn Cl) in F2. destruct F2 as [-> ->]. cbn.
    split; [reflexivity|]. split; [reflexivity|]. unfold val. cbn. rewrite (Ho a0 b0). lra. }
  destruct (left_of n l) eqn:F3.
  { apply left_of_beside in F3. unfold beside in F3. destruct Cl as [A B], Cn as [C D]. rewrite F3 in D.
    destruct (from_to_inj _ _ _ _ _ A D) as [-> ->]. cbn. split; [reflexivity|]. split; [reflexivity|].
    unfold val. cbn. rewrite F3, along_rev by exact Ho. lra. }
  destruct (right_of n l) eqn:F4.
  { unfold right_of in F4. apply left_of_beside in F4. unfold beside in F4. destruct Cl as [A B], Cn as [C D]. rewrite <- F4 in C.
    destruct (from_to_inj _ _ _ _ _ B C) as [-> ->]. cbn. split; [reflexivity|]. split; [reflexivity|].
    unfold val. cbn. rewrite F4, along_rev by exact Ho. lra. }
  exfalso. cbn in Rel. destruct Rel as [H|[H|[H|H]]].
  - apply (succession_corners _ _ _ _ _ _ _ _ _ _ Cl Cn) in H. apply (follows_corners _ _ _ _ _ _ _ _ _ _ Cl Cn) in H. congruence.
  - apply (succession_corners _ _ _ _ _ _ _ _ _ _ Cn Cl) in H. apply (follows_corners _ _ _ _ _ _ _ _ _ _ Cn Cl) in H. congruence.
  - apply left_of_beside in H. unfold right_of in F4. congruence.
  - apply left_of_beside in H. congruence.
Qed.

(** Areas *)
Definition lines_ok (bs : list line) : Prop := forall b, In b bs -> seen data b <> [].
Lemma find_ends_spec p1 p2 bs : lines_ok bs ->
  exists r, find_ends data p1 p2 bs = Done r
    /\ (forall b, r = Some b -> In b bs /\ from_to (seen data b) p2 p1)
    /\ (r = None -> forall b, In b bs -> ~ from_to (seen data b) p2 p1).
Proof.
  induction bs as [|b bs IH]; intros H; [exists None; cbn; split; [reflexivity|]; split; [discriminate|intros _ b []]|].
  destruct IH as (r & E & S1 & S2); [intros x Hx; apply H; now right|].
  destruct (from_to_exists _ (H b (or_introl eq_refl))) as (x & y & F).
  cbn [find_ends]. rewrite (back_seen _ _ _ F), (front_seen _ _ _ F). cbn [bind].
  destruct (Nat.eqb_spec y p1) as [->|N1]; [destruct (Nat.eqb_spec x p2) as [->|N2]|].
  - exists (Some b). split; [reflexivity|]. split; [intros c Hc; inversion Hc; subst; split; [now left|exact F]|discriminate].
  - exists r. split; [exact E|]. split; [intros c Hc; destruct (S1 c Hc); split; [now right|assumption]|].
    intros Hr c [<-|Hc]; [|now apply S2]. intros F'. destruct (from_to_inj _ _ _ _ _ F F'); congruence.
  - exists r. split; [exact E|]. split; [intros c Hc; destruct (S1 c Hc); split; [now right|assumption]|].
    intros Hr c [<-|Hc]; [|now apply S2]. intros F'. destruct (from_to_inj _ _ _ _ _ F F'); congruence.
Qed.

Lemma around_ends l a b : from_to l a b -> around f l = along f l + f b a.
Proof.
  intros (r & r' & E & E'). unfold around. rewrite E at 2. cbn [firstn]. rewrite E' at 1. rewrite <- app_assoc. cbn [app].
  rewrite (along_app f r' b [a]), <- E'. cbn [along]. lra.
Qed.

Lemma adjacency_area_spec l bs a0 a1 b0 b1 : corners l a0 a1 b0 b1 -> lines_ok bs ->
  exists r, adjacency_area data l bs = Done r
    /\ (forall s b, r = Some (s, b) -> In b bs /\ from_to (seen data b) (stop a0 a1 b0 b1 s) (start a0 a1 b0 b1 s)
        /\ (val l a0 a1 b0 b1 s + along f (seen data b) = 0
            \/ (lane_end data l (side_pts l a0 a1 b0 b1 s) /\ val l a0 a1 b0 b1 s + along f (seen data b) = around f (seen data b))))
    /\ (r = None -> ~ touches data l bs).
Proof.
  intros C Ok. destruct C as [FA FB]. assert (FA' := FA). assert (FB' := FB).
  destruct FA' as (r1 & r1' & A & A'), FB' as (r2 & r2' & B & B').
  unfold adjacency_area, common_following, common_preceding. cbn [invert left_bound right_bound].
  change linv with turned.
  assert (TB : from_to (seen data (turned (right_bound l))) b1 b0) by (rewrite seen_turned; now apply from_to_rev).
  assert (TA : from_to (seen data (turned (left_bound l))) a1 a0) by (rewrite seen_turned; now apply from_to_rev).
  rewrite (back_seen _ _ _ TB), (back_seen _ _ _ TA). cbn [bind].
  destruct (find_ends_spec b0 a0 bs Ok) as (r & E & S1 & S2). rewrite E. cbn [bind]. destruct r as [b|].
  { exists (Some (Following, b)). split; [reflexivity|]. split; [|discriminate]. intros s c H. inversion H; subst.
    destruct (S1 c eq_refl) as [Hin Fb]. split; [exact Hin|]. split; [exact Fb|]. right. split; [eapply end_front; eassumption|].
    rewrite (around_ends _ _ _ Fb). unfold val. cbn. lra. }
  rewrite (back_seen _ _ _ FA), (back_seen _ _ _ FB). cbn [bind].
  destruct (find_ends_spec a1 b1 bs Ok) as (r & E' & S3 & S4). rewrite E'. cbn [bind]. destruct r as [b|].
  { exists (Some (Preceding, b)). split; [reflexivity|]. split; [|discriminate]. intros s c H. inversion H; subst.
    destruct (S3 c eq_refl) as [Hin Fb]. split; [exact Hin|]. split; [exact Fb|]. right. split; [eapply end_back; eassumption|].
    rewrite (around_ends _ _ _ Fb). unfold val. cbn. lra. }
  assert (LA : left_of_ar l bs = true <-> In (turned (left_bound l)) bs).
  { unfold left_of_ar. rewrite existsb_exists. split.
    - intros (x & Hx & Q). apply line_eqb_eq in Q. change linv with turned in Q. rewrite <- Q, turned_turned. exact Hx.
    - intros H. exists (turned (left_bound l)). split; [exact H|]. apply line_eqb_eq. change linv with turned. apply turned_turned. }
  assert (RA : right_of_ar l bs = true <-> In (right_bound l) bs).
  { unfold right_of_ar, left_of_ar. rewrite existsb_exists. cbn [invert left_bound]. split.
    - intros (x & Hx & Q). apply line_eqb_eq in Q. change linv with turned in Q. rewrite <- (turned_turned (right_bound l)), <- Q, turned_turned. exact Hx.
    - intros H. exists (right_bound l). split; [exact H|]. now apply line_eqb_eq. }
  destruct (left_of_ar l bs) eqn:L1.
  { eexists. split; [reflexivity|]. split; [|discriminate]. intros s c H. inversion H; subst.
    split; [now apply LA|]. split; [exact TA|]. left. rewrite seen_turned. unfold val. cbn. rewrite along_rev by exact Ho. lra. }
  destruct (right_of_ar l bs) eqn:L2.
  { eexists. split; [reflexivity|]. split; [|discriminate]. intros s c H. inversion H; subst.
    split; [now apply RA|]. split; [exact FB|]. left. unfold val. cbn. rewrite along_rev by exact Ho. lra. }
  exists None. split; [reflexivity|]. split; [discriminate|]. intros _ [(b & s & Hb & He & x & y & Fs & Fb)|[H|H]].
  - destruct He as [q a q' b' Q Q'|a q b' q' Q Q'].
    + rewrite A' in Q. rewrite B' in Q'. apply app_inj_tail in Q, Q'. destruct Q as [_ <-], Q' as [_ <-].
      destruct (from_to_inj _ _ _ _ _ Fs (ex_intro _ [b1] (ex_intro _ [a1] (conj eq_refl eq_refl)))) as [-> ->].
      exact (S4 eq_refl b Hb Fb).
    + rewrite A in Q. rewrite B in Q'. inversion Q; inversion Q'; subst.
      destruct (from_to_inj _ _ _ _ _ Fs (ex_intro _ [a] (ex_intro _ [b'] (conj eq_refl eq_refl)))) as [-> ->].
      exact (S2 eq_refl b Hb Fb).
  - apply LA in H. congruence.
  - apply RA in H. congruence.
Qed.

Lemma common_areas_spec n cur :
  match common_areas n cur with
  | Some b => In b n /\ In (turned b) cur
  | None => forall l, In l cur -> ~ In (turned l) n
  end.
Proof.
  unfold common_areas. destruct (find _ n) as [b|] eqn:E.
  - apply find_some in E. destruct E as [H E]. apply existsb_exists in E. destruct E as (c & Hc & E).
    apply line_eqb_eq in E. subst c. auto.
  - intros l Hl H. assert (Q := find_none _ _ E _ H). cbn in Q.
    assert (existsb (fun c => line_eqb c (linv (turned l))) cur = true); [|congruence].
    apply existsb_exists. exists l. split; [exact Hl|]. apply line_eqb_eq. change linv with turned. symmetry. apply turned_turned.
Qed.

(** * The ring of an area *)
Definition sum_lines (bs : list line) : R := total (map (fun b => along f (seen data b)) bs).
Lemma total_app xs ys : total (xs ++ ys) = total xs + total ys.
Proof. unfold total. induction xs as [|x xs IH]; cbn; [lra|]. rewrite IH. lra. Qed.
Lemma sum_lines_app p q : sum_lines (p ++ q) = sum_lines p + sum_lines q.
Proof. unfold sum_lines. now rewrite map_app, total_app. Qed.
Lemma linked_app a p q b : linked data a (p ++ q) b <-> exists m, linked data a p m /\ linked data m q b.
Proof.
  revert a. induction p as [|l p IH]; intros a; cbn.
  - split; [eauto|]. intros (m & -> & H). exact H.
  - split.
    + intros (m & F & H). apply IH in H. destruct H as (m' & H1 & H2). eauto.
    + intros (m' & (m & F & H1) & H2). exists m. split; [exact F|]. apply IH. eauto.
Qed.
Lemma linked_ok a bs b : linked data a bs b -> lines_ok bs.
Proof.
  revert a. induction bs as [|l bs IH]; intros a H x Hx; [destruct Hx|]. destruct H as (m & F & H).
  destruct Hx as [<-|Hx]; [|eapply IH; eassumption]. destruct F as (r & _ & E & _). rewrite E. discriminate.
Qed.
Lemma linked_way a bs b : linked data a bs b -> bs <> [] -> way (concat (map (seen data) bs)) a b (sum_lines bs).
Proof.
  revert a. induction bs as [|l bs IH]; intros a H N; [contradiction|]. destruct H as (m & F & H).
  destruct bs as [|l2 bs].
  - cbn in H. subst b. cbn. rewrite app_nil_r. split; [exact F|]. unfold sum_lines. cbn. lra.
  - destruct (IH m H ltac:(discriminate)) as [F2 A2]. cbn [map concat] in *.
    set (rest := seen data l2 ++ concat (map (seen data) bs)) in *.
    destruct F2 as (r & r' & E & E'). split.
    + destruct F as (q & q' & Q & Q'). exists (q ++ rest), (seen data l ++ r'). split; [rewrite Q; reflexivity|].
      rewrite E'. apply app_assoc.
    + rewrite (along_join f _ _ _ _ F). rewrite E in A2 |- *. rewrite along_cons, (oriented_same f m Ho), A2.
      unfold sum_lines. cbn. lra.
Qed.
Lemma region_outline a bs : linked data a bs a -> bs <> [] -> around f (outline data (Region bs)) = sum_lines bs.
Proof.
  intros H N. destruct (linked_way _ _ _ H N) as [F A]. cbn [outline]. rewrite (around_ends _ _ _ F), A, (oriented_same f a Ho). lra.
Qed.

Lemma find_line_spec bs x : match find_line bs x with
  | Some i => exists p q, bs = p ++ x :: q /\ length p = i
  | None => ~ In x bs end.
Proof.
  induction bs as [|y bs IH]; cbn; [tauto|]. destruct (line_eqb y x) eqn:E.
  - apply line_eqb_eq in E. subst. exists [], bs. auto.
  - destruct (find_line bs x) as [i|]; cbn.
    + destruct IH as (p & q & -> & L). exists (y :: p), q. cbn. auto.
    + intros [->|H]; [|contradiction]. assert (line_eqb x x = true) by now apply line_eqb_eq. congruence.
Qed.

Lemma extract_same p x q : extract_between (p ++ x :: q) (length p) (length p) = q ++ p.
Proof.
  unfold extract_between. rewrite Nat.leb_refl. f_equal.
  - replace (S (length p)) with (length (p ++ [x])) by (rewrite app_length; cbn; lia).
    change (p ++ x :: q) with (p ++ [x] ++ q). rewrite app_assoc, skipn_app, skipn_all, Nat.sub_diag. reflexivity.
  - rewrite firstn_app, firstn_all, Nat.sub_diag. cbn. apply app_nil_r.
Qed.
Lemma extract_forward p x q y r : extract_between (p ++ x :: q ++ y :: r) (length p) (length (p ++ x :: q)) = q.
Proof.
  unfold extract_between. rewrite app_length. cbn [length]. destruct (Nat.leb_spec (length p + S (length q)) (length p)); [lia|].
  replace (S (length p)) with (length (p ++ [x])) by (rewrite app_length; cbn; lia).
  change (p ++ x :: q ++ y :: r) with (p ++ [x] ++ (q ++ y :: r)). rewrite app_assoc, skipn_app, skipn_all, Nat.sub_diag. cbn [app skipn].
  replace (length p + S (length q) - length (p ++ [x]))%nat with (length q) by (rewrite app_length; cbn; lia).
  rewrite firstn_app, firstn_all, Nat.sub_diag. cbn. apply app_nil_r.
Qed.
Lemma extract_backward p x q y r : extract_between (p ++ x :: q ++ y :: r) (length (p ++ x :: q)) (length p) = r ++ p.
Proof.
  unfold extract_between. rewrite (app_length p (x :: q)). cbn [length]. destruct (Nat.leb_spec (length p) (length p + S (length q))); [|lia].
  f_equal.
  - replace (S (length p + S (length q))) with (length ((p ++ x :: q) ++ [y])) by (rewrite !app_length; cbn; lia).
    replace (p ++ x :: q ++ y :: r) with (((p ++ x :: q) ++ [y]) ++ r) by (rewrite <- !app_assoc; reflexivity).
    rewrite skipn_app, skipn_all, Nat.sub_diag. reflexivity.
  - rewrite firstn_app, firstn_all, Nat.sub_diag. cbn. apply app_nil_r.
Qed.

(** All but one line string *)
Lemma except_spec a bs x : linked data a bs a -> (2 <= length bs)%nat -> In x bs ->
  exists rest m n, extract_except bs x = Done rest /\ rest <> [] /\ from_to (seen data x) m n /\ linked data n rest m
    /\ sum_lines rest + along f (seen data x) = sum_lines bs.
Proof.
  intros H L Hx. unfold extract_except. assert (F := find_line_spec bs x). destruct (find_line bs x) as [i|]; [|contradiction].
  destruct F as (p & q & -> & <-). rewrite extract_same. apply linked_app in H. destruct H as (m & H1 & n & Fx & H2).
  exists (q ++ p), m, n. split; [reflexivity|]. split; [destruct q, p; cbn in *; try discriminate; lia|].
  split; [exact Fx|]. split; [apply linked_app; eauto|]. rewrite !sum_lines_app. unfold sum_lines at 4. cbn [map total fold_right].
  unfold sum_lines, total. lra.
Qed.
(** Both parts between two of them *)
Lemma bounds_spec a bs c d : linked data a bs a -> In c bs -> In d bs -> c <> d ->
  exists b1 b2 c1 c2 d1 d2, extract_bounds bs c d = Done (b1, b2)
    /\ from_to (seen data c) c1 c2 /\ from_to (seen data d) d1 d2
    /\ linked data c2 b1 d1 /\ linked data d2 b2 c1
    /\ sum_lines b1 + sum_lines b2 + along f (seen data c) + along f (seen data d) = sum_lines bs.
Proof.
  intros H Hc Hd N. unfold extract_bounds.
  assert (Fc := find_line_spec bs c). assert (Fd := find_line_spec bs d).
  destruct (find_line bs c) as [i|]; [|contradiction]. destruct (find_line bs d) as [j|]; [|contradiction].
  destruct Fc as (p & q & E & <-), Fd as (p' & q' & E' & <-).
  assert (Sp : forall (u1 : list line) x v1 u2 y v2, u1 ++ x :: v1 = u2 ++ y :: v2 -> (length u1 < length u2)%nat ->
             exists w, u2 = u1 ++ x :: w /\ v1 = w ++ y :: v2).
  { clear. induction u1 as [|z u1 IH]; intros x v1 u2 y v2 E Le.
    - destruct u2 as [|z2 u2]; cbn in Le; [lia|]. inversion E; subst. exists u2. auto.
    - destruct u2 as [|z2 u2]; cbn in Le; [lia|]. inversion E; subst. destruct (IH _ _ _ _ _ H1 ltac:(lia)) as (w & -> & ->).
      exists w. auto. }
  destruct (lt_eq_lt_dec (length p) (length p')) as [[Le|Eq]|Le].
  - destruct (Sp p c q p' d q' ltac:(congruence) Le) as (w & -> & ->). subst bs. clear E'.
    rewrite extract_forward, extract_backward.
    apply linked_app in H. destruct H as (m & H1 & n & Fx & H2). apply linked_app in H2. destruct H2 as (m' & H2 & n' & Fy & H3).
    exists w, (q' ++ p), m, n, m', n'. split; [reflexivity|]. split; [exact Fx|]. split; [exact Fy|]. split; [exact H2|].
    split; [apply linked_app; eauto|]. rewrite !sum_lines_app. change (c :: w ++ d :: q') with ([c] ++ w ++ [d] ++ q').
    rewrite !sum_lines_app. unfold sum_lines, total. cbn. lra.
  - exfalso. apply N. assert (p = p').
    { rewrite E in E'. clear -E' Eq. revert p' E' Eq. induction p as [|z p IH]; intros [|z' p'] E Eq; cbn in *; try lia; [reflexivity|].
      inversion E; subst. f_equal. apply IH; [assumption|lia]. }
    subst p'. rewrite E in E'. apply app_inv_head in E'. congruence.
  - destruct (Sp p' d q' p c q ltac:(congruence) Le) as (w & -> & ->). subst bs. clear E'.
    rewrite <- app_assoc in H. cbn [app] in H. rewrite <- app_assoc. cbn [app].
    rewrite extract_backward, extract_forward.
    apply linked_app in H. destruct H as (m & H1 & n & Fx & H2). apply linked_app in H2. destruct H2 as (m' & H2 & n' & Fy & H3).
    exists (q ++ p'), w, m', n', m, n. split; [reflexivity|]. split; [exact Fy|]. split; [exact Fx|].
    split; [apply linked_app; eauto|]. split; [exact H2|]. rewrite !sum_lines_app. change (d :: w ++ c :: q) with ([d] ++ w ++ [c] ++ q).
    rewrite !sum_lines_app. unfold sum_lines, total. cbn. lra.
Qed.

(** What is appended of an area *)
Lemma compound_spec lss : cl_points Nat.eqb false (map (pts data) lss) = Some (dedup Nat.eqb (concat (map (seen data) lss))).
Proof. rewrite (points_spec Nat.eqb Nat.eqb_eq). reflexivity. Qed.

Lemma append_first lss a b : linked data a lss b -> lss <> [] ->
  exists t, append_lines data lss [] false false false = Done t /\ clean t a b (sum_lines lss).
Proof.
  intros H N. unfold append_lines. rewrite compound_spec. destruct (linked_way _ _ _ H N) as [F A].
  assert (F' := dedup_from_to _ _ _ F). destruct F' as (r & r' & E & E') eqn:Q. clear Q.
  cbn [orb andb]. destruct (Nat.ltb_spec (length (dedup Nat.eqb (concat (map (seen data) lss)))) 1) as [K|K].
  { rewrite E in K. cbn in K. lia. }
  eexists. split; [reflexivity|]. cbn [drop_ends app]. split; [|intros _; apply steps_dedup].
  split; [exists r, r'; auto|]. rewrite dedup_along by exact Ho. exact A.
Qed.

(** The compound line string as a way, also if there is none *)
Lemma compound_way lss a b : linked data a lss b ->
  (lss = [] /\ a = b /\ dedup Nat.eqb (concat (map (seen data) lss)) = [])
  \/ clean (dedup Nat.eqb (concat (map (seen data) lss))) a b (sum_lines lss).
Proof.
  intros H. destruct lss as [|l lss]; [left; cbn in H; auto|]. right.
  destruct (linked_way _ _ _ H ltac:(discriminate)) as [F A].
  split; [|intros _; apply steps_dedup]. split; [now apply dedup_from_to|]. rewrite dedup_along by exact Ho. exact A.
Qed.
Lemma short_way c a b x : clean c a b x -> (length c < 2)%nat -> a = b /\ x = 0.
Proof.
  intros [[(r & r' & E & E') A] _] L. subst x. rewrite E in L. cbn in L. destruct r; [|cbn in L; lia]. rewrite E in E' |- *.
  destruct r' as [|y [|]]; inversion E'; subst; cbn; auto.
Qed.
Lemma append_after lss a b t h x : linked data a lss b -> clean t h a x ->
  exists t', append_lines data lss t false false true = Done t' /\ clean t' h b (x + sum_lines lss).
Proof.
  intros H W. unfold append_lines. rewrite compound_spec. cbn [orb andb].
  destruct (compound_way _ _ _ H) as [(-> & -> & E)|Wc].
  - rewrite E. cbn. exists t. split; [reflexivity|]. unfold sum_lines. cbn. rewrite Rplus_0_r. exact W.
  - destruct (Nat.ltb_spec (length (dedup Nat.eqb (concat (map (seen data) lss)))) 2) as [K|K].
    + destruct (short_way _ _ _ _ Wc K) as [-> S0]. exists t. split; [reflexivity|]. rewrite S0, Rplus_0_r. exact W.
    + eexists. split; [reflexivity|]. cbn [drop_ends]. assert (Wc' := Wc). destruct Wc' as [[(r & r' & E & _) _] _].
      rewrite E in *. cbn [tl]. eapply clean_join; eassumption.
Qed.
Lemma append_reversed lss a b t h x : linked data a lss b -> clean (h :: t) h b x ->
  exists t', append_lines data lss t true false true = Done t' /\ clean (h :: t') h a (x - sum_lines lss).
Proof.
  intros H W. unfold append_lines. rewrite compound_spec. cbn [orb andb].
  destruct (compound_way _ _ _ H) as [(-> & -> & E)|Wc].
  - rewrite E. cbn. exists t. split; [reflexivity|]. unfold sum_lines. cbn. rewrite Rminus_0_r. exact W.
  - destruct (Nat.ltb_spec (length (dedup Nat.eqb (concat (map (seen data) lss)))) 2) as [K|K].
    + destruct (short_way _ _ _ _ Wc K) as [-> S0]. exists t. split; [reflexivity|]. rewrite S0, Rminus_0_r. exact W.
    + eexists. split; [reflexivity|]. cbn [drop_ends]. apply clean_rev in Wc. assert (Wc' := Wc). destruct Wc' as [[(r & r' & E & _) _] _].
      rewrite E in *. cbn [tl]. apply (clean_join (h :: t)) with (2 := Wc) in W. exact W.
Qed.

(** Closing the polygon *)
Lemma close_way t rgt h m b x y : clean t h m x -> clean (h :: rgt) h b y -> (strict -> m <> b) ->
  around f (t ++ rev rgt) = x + f m b - y /\ (strict -> tidy (t ++ rev rgt)).
Proof.
  intros W Wr N. apply clean_rev in Wr. destruct W as [[F A] G], Wr as [[Fr Ar] Gr]. cbn [rev] in Fr, Ar, Gr. unfold around, tidy.
  assert (E : firstn 1 (t ++ rev rgt) = [h]) by (destruct F as (r & r' & E & _); rewrite E; reflexivity).
  rewrite E, <- app_assoc, (along_join f _ _ _ _ F), A.
  destruct Fr as (s & s' & Q & _). rewrite Q in *. split; [rewrite along_cons, Ar; lra|].
  intros K. eapply steps_join; [exact F|auto|]. split; auto.
Qed.
Lemma close_popped t rgt h b x y : clean t h b x -> clean (h :: rgt) h b y -> 
  around f (removelast t ++ rev rgt) = x - y /\ ((2 <= length t)%nat -> strict -> tidy (removelast t ++ rev rgt)).
Proof.
  intros W Wr. assert (W' := W). destruct W' as [[(r & t0 & E & E') A] G]. rewrite E', removelast_last.
  destruct t0 as [|z t0].
  - cbn [app] in E'. rewrite E' in E, A. cbn in A. assert (b = h) by congruence. subst b. clear E. cbn [app].
    apply clean_rev in Wr. destruct Wr as [[Fr Ar] Gr]. cbn [rev] in Fr, Ar, Gr. unfold around.
    destruct (rev rgt) as [|q qs] eqn:Q; [cbn in Ar |- *; split; [lra|intros L; lia]|]. destruct Fr as (s & s' & Q' & _). cbn [app] in Q'.
    inversion Q'; subst. cbn [firstn]. split; [rewrite Ar; lra|]. cbn [length]. lia.
  - assert (z = h) by (rewrite E' in E; cbn in E; congruence). subst z.
    destruct (from_to_exists (h :: t0) ltac:(discriminate)) as (h' & m & F).
    assert (h' = h) by (destruct F as (? & ? & K & _); congruence). subst h'.
    assert (Gs : strict -> steps (h :: t0) /\ m <> b).
    { intros K. assert (G' := G K). rewrite E' in G'. destruct F as (q & q' & Q & Q'). rewrite Q' in *. rewrite <- app_assoc in G'. cbn [app] in G'.
      apply steps_app in G'. destruct G' as [G1 [G2 _]]. auto. }
    destruct (close_way (h :: t0) rgt h m b (along f (h :: t0)) y) as [Q1 Q2].
    + split; [split; [exact F|reflexivity]|]. intros K. apply (Gs K).
    + exact Wr.
    + intros K. apply (Gs K).
    + split; [|intros _; exact Q2]. rewrite Q1. rewrite <- A, E', (along_join f _ _ _ _ F). cbn [along]. lra.
Qed.
Lemma append_final lss a b t rgt h x y : linked data a lss b -> lss <> [] -> (strict -> a <> b) -> clean t h a x -> clean (h :: rgt) h b y ->
  exists t', append_lines data lss t false true true = Done t' /\ around f (t' ++ rev rgt) = x + sum_lines lss - y
    /\ (strict -> tidy (t' ++ rev rgt)).
Proof.
  intros H N Nab W Wr. unfold append_lines. rewrite compound_spec. cbn [orb andb].
  destruct (compound_way _ _ _ H) as [(K & _)|Wc]; [contradiction|].
  set (c := dedup Nat.eqb (concat (map (seen data) lss))) in *.
  destruct (Nat.ltb_spec (length c) 3) as [K|K].
  - exists t. split; [reflexivity|]. destruct (close_way _ _ _ _ _ _ _ W Wr Nab) as [-> Q]. split; [|exact Q].
    destruct Wc as [[(r & r' & E & E') A] _]. rewrite <- A, E. rewrite E in K, E'. cbn in K.
    destruct r as [|z [|]]; cbn in K; [| |lia].
    + destruct r' as [|? [|]]; inversion E'; subst. cbn. rewrite (oriented_same f b Ho). lra.
    + destruct r' as [|? [|? [|]]]; inversion E'; subst. cbn. lra.
  - eexists. split; [reflexivity|]. cbn [drop_ends]. destruct Wc as [[(r & r' & E & E') A] G].
    rewrite E in *. cbn [tl]. destruct r' as [|z r']; [destruct r; [cbn in K; lia|discriminate]|].
    inversion E'; subst. rewrite removelast_last.
    destruct (from_to_exists (z :: r') ltac:(discriminate)) as (z' & m & F).
    assert (z' = z) by (destruct F as (? & ? & Q & _); congruence). subst z'.
    assert (Gs : strict -> steps (z :: r') /\ m <> b).
    { intros S0. assert (G' := G S0). destruct F as (q & q' & Q & Q'). change (z :: r' ++ [b]) with ((z :: r') ++ [b]) in G'. rewrite Q' in *.
      rewrite <- app_assoc in G'. cbn [app] in G'. apply steps_app in G'. destruct G' as [G1 [G2 _]]. auto. }
    assert (W2 : clean (t ++ r') h m (x + along f (z :: r'))).
    { eapply clean_join; [exact W|]. split; [split; [exact F|reflexivity]|]. intros S0. apply (Gs S0). }
    destruct (close_way _ _ _ _ _ _ _ W2 Wr (fun S0 => proj2 (Gs S0))) as [-> Q]. split; [|exact Q].
    rewrite <- A. change (z :: r' ++ [b]) with ((z :: r') ++ [b]). rewrite (along_join f _ _ _ _ F). cbn [along]. lra.
Qed.
End sums.
