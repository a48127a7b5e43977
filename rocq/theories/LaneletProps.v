(** C26 (centerline cache) and C40 (inversion of lanelets and lanelet sequences). *)
From Coq Require Import List Arith ZArith Bool Lia.
From Verif Require Import LineModel LineSpec LineProps LaneletModel LaneletSpec.
From Verif Require LaneletProofs.
Import ListNotations.

(** ** C26 *)
(** The data objects of the bounds of lanelet [y] after the calls [a]: those of the most
    recent calls of setLeftBound / setRightBound through either view, or the initial ones. *)
Definition bound_lines {P} (w0 : world P) (a : list (op P)) (y : nat) : list nat :=
  [ls_data (match last_left (Ll y false) (rev a) with Some b => b | None => left_bound w0 (Ll y false) end);
   ls_data (match last_right (Ll y false) (rev a) with Some b => b | None => right_bound w0 (Ll y false) end)].

Theorem C26_centerline_coherent {P} (compute : list P -> list P -> option (list P))
    (os : list (op P)) (w0 w : world P) (h : llh) :
  (forall x, d_center (w_ll w0 x) = None) ->
  valid_ids (fun l => ls_id (w_ls w0 l)) os ->
  run compute os w0 = Some w ->
  notified (bound_lines w0) (ll_data h) os ->
  let expected :=
    match last_center h (rev os) with
    | Some l => Some (line_pts w l)
    | None =>
      option_map (view (ll_inv h))
        (compute (line_pts w (left_bound w (Ll (ll_data h) false))) (line_pts w (right_bound w (Ll (ll_data h) false))))
    end in
  match centerline compute h w with
  | None => expected = None
  | Some (c, pts, w') =>
    expected = Some pts /\
    (* asking again gives the same object and changes nothing *)
    centerline compute h w' = Some (c, pts, w') /\
    (* and so does asking from the other direction *)
    centerline compute (ll_invert h) w' = Some (c, rev pts, w') /\
    (* nothing else changed *)
    w_ls w' = w_ls w /\ (forall g, left_bound w' g = left_bound w g /\ right_bound w' g = right_bound w g) /\
    (forall x, x <> ll_data h -> w_ll w' x = w_ll w x)
  end.
Proof.
  intros I V R N. cbv zeta. destruct h as [x i]. cbn [ll_data ll_inv] in *.
  destruct (LaneletProofs.run_good compute w0 os w x I V R) as (G & _ & _). unfold LaneletProofs.good in G.
  assert (NF : notified (fun a y => match run compute a w0 with Some v => LaneletProofs.bounds_of v y | None => [] end) x os).
  { intros a l p b E HI. eapply N; [exact E|]. destruct (run compute a w0) as [v|] eqn:RA; [|contradiction].
    destruct (LaneletProofs.run_bounds compute a w0 v (Ll x false) RA) as [BL BR].
    unfold LaneletProofs.bounds_of in HI. unfold bound_lines. rewrite <- BL, <- BR. exact HI. }
  assert (LC : last_center (Ll x i) (rev os) =
    if i then option_map mirror (last_center (Ll x false) (rev os)) else last_center (Ll x false) (rev os)).
  { destruct i; auto. apply LaneletProofs.last_center_inv. }
  rewrite LC. unfold centerline, data_centerline, left_bound, right_bound, ll_invert. cbn [ll_data ll_inv].
  destruct (last_center (Ll x false) (rev os)) as [l|].
  - destruct G as [G1 G2]. rewrite G1. cbn [cl_pts]. rewrite G1.
    split. { destruct i; cbn [option_map]; rewrite ?LaneletProofs.line_pts_mirror; auto. }
    split; auto. split. { destruct i; simpl; rewrite ?rev_involutive; auto. }
    split; auto. 
  - destruct G as [G1 G2]. specialize (G2 NF). unfold LaneletProofs.coherent in G2.
    assert (E : (if i then option_map mirror None else None) = @None ls) by (destruct i; auto). rewrite E. clear E.
    destruct (d_center (w_ll w x)) as [[l|n q]|] eqn:DC; [contradiction| |].
    + rewrite G2. cbn [option_map cl_pts]. rewrite DC. split. { destruct i; auto. } split; auto.
      split. { destruct i; simpl; rewrite ?rev_involutive; auto. } split; auto.
    + destruct (compute _ _) as [q|]; auto. cbn [option_map cl_pts w_ll w_ls]. rewrite LaneletProofs.upd_eq. cbn [d_center].
      split. { destruct i; auto. } split; auto. split. { destruct i; simpl; rewrite ?rev_involutive; auto. }
      split; auto. split.
      * intros [y j]. cbn [ll_data ll_inv]. unfold upd. destruct (Nat.eqb_spec x y) as [->|]; destruct j; auto.
      * intros y NE. rewrite LaneletProofs.upd_neq; auto.
Qed.
Print Assumptions C26_centerline_coherent.

(** Points are numbers, the "centerline" is the list of the sums. *)
Fixpoint mids (a b : list Z) : list Z :=
  match a, b with x :: a, y :: b => (x + y)%Z :: mids a b | _, _ => [] end.
Definition zc (a b : list Z) : option (list Z) := Some (mids a b).
Definition ex_world : world Z :=
  World (fun l => match l with
                  | 0 => LsD 10 [1; 2; 3]%Z | 1 => LsD 11 [5; 6; 7]%Z | 2 => LsD 12 [100; 101; 102]%Z
                  | 3 => LsD 13 [8; 9]%Z | _ => LsD 0 [77]%Z end)
        (fun _ => LlD (Ls 0 false) (Ls 1 false) None) 0.
Definition ex_ops : list (op Z) :=
  [ORead (Ll 0 true); OSetLeft (Ll 0 true) (Ls 2 true); ORead (Ll 0 false); OEdit 0 [4; 4; 4]%Z; OReset (Ll 0 true);
   OSetCenter (Ll 1 true) (Ls 3 false); OSetRight (Ll 1 false) (Ls 2 false); OReset (Ll 1 false); OEdit 3 [30; 40]%Z].
Example C26_nonvacuous : exists w,
  run zc ex_ops ex_world = Some w /\ valid_ids (fun l => ls_id (w_ls ex_world l)) ex_ops /\
  notified (bound_lines ex_world) 0 ex_ops /\ notified (bound_lines ex_world) 1 ex_ops /\
  option_map (fun r => snd (fst r)) (centerline zc (Ll 0 false) w) = Some [104; 105; 106]%Z /\
  option_map (fun r => snd (fst r)) (centerline zc (Ll 1 false) w) = Some [40; 30]%Z /\
  last_center (Ll 1 false) (rev ex_ops) = Some (Ls 3 true) /\ last_center (Ll 0 false) (rev ex_ops) = None.
Proof.
  eexists. split; [reflexivity|]. split.
  { split.
    - intros h l H. simpl in H. repeat destruct H as [H|H]; try discriminate; try contradiction. injection H as <- <-. discriminate.
    - intros l H. simpl in H. repeat destruct H as [H|H]; try discriminate; contradiction. }
  assert (NF : forall x, x = 0 \/ x = 1 -> notified (bound_lines ex_world) x ex_ops).
  { intros x Hx a l p b E HI. unfold ex_ops in E.
    do 10 (destruct a as [|o a]; cbn [app] in E;
      [try discriminate; injection E; intros; subst;
       destruct Hx; subst x;
       first [ solve [repeat first [apply Exists_cons_hd; cbn; reflexivity | apply Exists_cons_tl]]
             | solve [cbn in HI; decompose [or] HI; try discriminate; contradiction] ]
      |injection E as <- E || discriminate]). }
  split; [apply NF; auto|]. split; [apply NF; auto|]. vm_compute. repeat split.
Qed.

(** Without a valid id the custom centerline gets lost when a bound changes. *)
Theorem C26_invalid_id_refuted : exists (os : list (op Z)) w l,
  run zc os ex_world = Some w /\ last_center (Ll 0 false) (rev os) = Some l /\ (exists h b, os = [OSetCenter h l; OSetLeft h b]) /\
  option_map (fun r => snd (fst r)) (centerline zc (Ll 0 false) w) <> Some (line_pts w l).
Proof.
  exists [OSetCenter (Ll 0 false) (Ls 4 false); OSetLeft (Ll 0 false) (Ls 2 false)]. eexists. exists (Ls 4 false).
  split; [reflexivity|]. split; [reflexivity|]. split; [eauto|]. vm_compute. discriminate.
Qed.
Print Assumptions C26_invalid_id_refuted.

(** Without resetCache a changed bound is not noticed (documented, Lanelet.h:100-103). *)
Theorem C26_no_reset_refuted : exists (os : list (op Z)) w,
  run zc os ex_world = Some w /\ valid_ids (fun l => ls_id (w_ls ex_world l)) os /\
  option_map (fun r => snd (fst r)) (centerline zc (Ll 0 false) w) <>
  zc (line_pts w (left_bound w (Ll 0 false))) (line_pts w (right_bound w (Ll 0 false))).
Proof.
  exists [ORead (Ll 0 false); OEdit 0 [4; 4; 4]%Z]. eexists. split; [reflexivity|]. split.
  - split; [intros h l H|intros l H]; simpl in H; repeat destruct H as [H|H]; try discriminate; contradiction.
  - vm_compute. discriminate.
Qed.
Print Assumptions C26_no_reset_refuted.

(** Any number of threads calling centerline() and resetCache() on one lanelet, in any
    order of their atomic accesses: whatever a reader returns is the custom centerline or
    the line computed from the bounds, the cache keeps its meaning, and nobody waits for
    anybody: three steps of its own finish every call. *)
Definition right_answer {P} (compute : list P -> list P -> option (list P)) (lpts rpts : list P) (custom : option ls)
    (c : cl P) : Prop :=
  match custom, c with
  | Some l, Cust l' => l' = l
  | None, Comp _ q => compute lpts rpts = Some q
  | _, _ => False
  end.
Theorem C26_concurrent_readers {P} (compute : list P -> list P -> option (list P)) (lpts rpts : list P) (ids : nat -> Z)
    (custom : option ls) (s s' : @cstate P) (sched : list nat) :
  (forall l, custom = Some l -> ids (ls_data l) <> 0%Z) ->
  match c_cache s with None => custom = None | Some c => right_answer compute lpts rpts custom c end ->
  (forall t, In t (c_thr s) -> t = RLoad \/ t = CLoad) ->
  trun compute lpts rpts ids sched s = Some s' ->
  (forall i c, nth_error (c_thr s') i = Some (RDone c) -> right_answer compute lpts rpts custom c) /\
  match c_cache s' with None => custom = None | Some c => right_answer compute lpts rpts custom c end /\
  (forall i, nth_error (c_thr s) i = Some RLoad -> 3 <= count_occ Nat.eq_dec sched i ->
     exists c, nth_error (c_thr s') i = Some (RDone c)) /\
  (forall i, nth_error (c_thr s) i = Some CLoad -> 3 <= count_occ Nat.eq_dec sched i ->
     nth_error (c_thr s') i = Some CDone).
Proof.
  intros CV C0 T0 R.
  assert (OK : forall c, LaneletProofs.cache_ok compute lpts rpts custom (Some c) <-> right_answer compute lpts rpts custom c).
  { intros []; destruct custom; simpl; tauto. }
  assert (J : LaneletProofs.cinv compute lpts rpts custom s).
  { split.
    - destruct (c_cache s) as [c|]; [apply OK; auto|]. subst custom. simpl; auto.
    - intros i t N. destruct (T0 t (nth_error_In _ _ N)) as [-> | ->]; simpl; auto. }
  destruct (LaneletProofs.trun_inv compute lpts rpts ids custom sched s s' CV J R) as [J1 J2].
  split; [|split; [|split]].
  - intros i c N. apply OK. exact (J2 _ _ N).
  - destruct (c_cache s') as [c|]; [apply OK; auto|]. destruct custom; simpl in J1; auto. contradiction.
  - intros i N L. destruct (LaneletProofs.trun_left compute lpts rpts ids sched s s' i _ R N) as (t & N' & L').
    destruct L' as [L' K']. exists (match t with RDone c => c | _ => Cust (Ls 0 false) end). rewrite N'.
    destruct t; cbn [LaneletProofs.left LaneletProofs.reader] in L', K'; try lia; try discriminate. auto.
  - intros i N L. destruct (LaneletProofs.trun_left compute lpts rpts ids sched s s' i _ R N) as (t & N' & L' & K').
    rewrite N'. destruct t; cbn [LaneletProofs.left LaneletProofs.reader] in L', K'; try lia; try discriminate. auto.
Qed.
Print Assumptions C26_concurrent_readers.
Example C26_concurrent_nonvacuous : exists s',
  trun zc [1; 2]%Z [3; 4]%Z (fun _ => 0%Z) [0; 1; 2; 0; 0; 1; 2; 1; 2; 3; 3] (CState None 0 [RLoad; RLoad; CLoad; RLoad]) = Some s' /\
  c_thr s' = [RDone (Comp 0 [4; 6]%Z); RDone (Comp 1 [4; 6]%Z); CDone; RDone (Comp 1 [4; 6]%Z)].
Proof. eexists. vm_compute. split; reflexivity. Qed.

(** ** C40 *)
(** The bounds seen through any handle after any history are those of the most recent call,
    whichever view it was made through. *)
Theorem C40_lanelet_bounds {P} (compute : list P -> list P -> option (list P)) (os : list (op P)) (w0 w : world P) (h : llh) :
  run compute os w0 = Some w ->
  left_bound w h = match last_left h (rev os) with Some b => b | None => left_bound w0 h end /\
  right_bound w h = match last_right h (rev os) with Some b => b | None => right_bound w0 h end.
Proof. apply LaneletProofs.run_bounds. Qed.
Print Assumptions C40_lanelet_bounds.

(** The inverted view exchanges the bounds and runs through them backwards; inverting
    twice changes nothing. *)
Theorem C40_lanelet_invert {P} (w : world P) (h : llh) :
  left_bound w (ll_invert h) = mirror (right_bound w h) /\ right_bound w (ll_invert h) = mirror (left_bound w h) /\
  line_pts w (left_bound w (ll_invert h)) = rev (line_pts w (right_bound w h)) /\
  line_pts w (right_bound w (ll_invert h)) = rev (line_pts w (left_bound w h)) /\
  ll_invert (ll_invert h) = h /\ ll_eqb h (ll_invert h) = false /\ ll_eqb h h = true.
Proof.
  assert (A : left_bound w (ll_invert h) = mirror (right_bound w h)).
  { unfold left_bound, right_bound, ll_invert. destruct h as [x [|]]; cbn [ll_inv ll_data negb]; rewrite ?LaneletProofs.mirror_invert, ?LaneletProofs.mirror_mirror; auto. }
  assert (B : right_bound w (ll_invert h) = mirror (left_bound w h)).
  { unfold left_bound, right_bound, ll_invert. destruct h as [x [|]]; cbn [ll_inv ll_data negb]; rewrite ?LaneletProofs.mirror_invert, ?LaneletProofs.mirror_mirror; auto. }
  rewrite A, B, !LaneletProofs.line_pts_mirror. split; [|split; [|split; [|split; [|split; [|split]]]]]; auto.
  - destruct h as [x []]; auto.
  - destruct h as [x []]; unfold ll_eqb; simpl; rewrite andb_false_r; auto.
  - apply LaneletProofs.ll_eqb_eq; auto.
Qed.
Print Assumptions C40_lanelet_invert.

(** Sequences: a sequence built from lanelets (of any orientation) has the bounds of these
    lanelets one after the other, repeated points merged; the inverted sequence has the
    other bound backwards; inverting twice changes nothing. *)
Theorem C40_sequence_bounds_partial {P} (peq : P -> P -> bool) (E : forall x y, peq x y = true <-> x = y)
    (w w' : world P) (lls : list llh) :
  let s := mk_sq w lls in
  exists L R,
    merged (concat (map (fun h => line_pts w' (left_bound w h)) lls)) L /\
    merged (concat (map (fun h => line_pts w' (right_bound w h)) lls)) R /\
    cmp_points peq w' (sq_left_bound s) = Some L /\ cmp_points peq w' (sq_right_bound s) = Some R /\
    cmp_points peq w' (sq_left_bound (sq_invert s)) = Some (rev R) /\
    cmp_points peq w' (sq_right_bound (sq_invert s)) = Some (rev L) /\
    sq_lanelets s = lls /\ sq_invert (sq_invert s) = s /\
    (forall v : world P, sq_reset v s = mk_sq v lls /\ sq_reset v (sq_invert s) = sq_invert (mk_sq v lls)).
Proof.
  cbv zeta.
  destruct (C22_compound_points peq E false (map (line_pts w') (map (left_bound w) lls))) as (L & ML & PL & _ & _ & _ & _ & _ & RL).
  destruct (C22_compound_points peq E false (map (line_pts w') (map (right_bound w) lls))) as (R & MR & PR & _ & _ & _ & _ & _ & RR).
  rewrite !map_map in ML, MR. exists L, R. cbn [view] in ML, MR.
  split; [exact ML|]. split; [exact MR|]. split; [exact PL|]. split; [exact PR|]. split; [exact RR|]. split; [exact RL|].
  split; auto.
Qed.
Print Assumptions C40_sequence_bounds_partial.
Example C40_nonvacuous :
  cmp_points Z.eqb ex_world (sq_left_bound (sq_invert (mk_sq ex_world [Ll 0 false; Ll 1 true]))) = Some [1; 2; 3; 7; 6; 5]%Z /\
  left_bound ex_world (Ll 0 true) = Ls 1 true /\
  option_map (fun w => right_bound w (Ll 0 false)) (run zc ex_ops ex_world) = Some (Ls 2 false).
Proof. vm_compute. repeat split. Qed.

(** The lanelets of an inverted sequence come in reverse order, but are not inverted, so
    their left bounds are not the left bound of the sequence, ... *)
Theorem C40_inverted_lanelets_refuted : exists (w : world Z) lls,
  let s := sq_invert (mk_sq w lls) in
  cmp_points Z.eqb w (sq_left_bound s) <> cmp_points Z.eqb w (sq_left_bound (mk_sq w (sq_lanelets s))).
Proof. exists ex_world, [Ll 0 false]. vm_compute. discriminate. Qed.
Print Assumptions C40_inverted_lanelets_refuted.
(** ... a sequence made of one inverted sequence differs from that sequence, ... *)
Theorem C40_concatenate_refuted : exists (w : world Z) s,
  cmp_points Z.eqb w (sq_left_bound (mk_sq_of w [s])) <> cmp_points Z.eqb w (sq_left_bound s).
Proof. exists ex_world, (sq_invert (mk_sq ex_world [Ll 0 false])). vm_compute. discriminate. Qed.
Print Assumptions C40_concatenate_refuted.
(** ... and a sequence of one lanelet compares equal to its inverted sequence. *)
Theorem C40_equality_refuted : exists (w : world Z) s,
  sq_eqb s (sq_invert s) = true /\ cmp_points Z.eqb w (sq_left_bound s) <> cmp_points Z.eqb w (sq_left_bound (sq_invert s)).
Proof. exists ex_world, (mk_sq ex_world [Ll 0 false]). vm_compute. split; [auto|discriminate]. Qed.
Print Assumptions C40_equality_refuted.
