(** C31 and C39: histories of calls on regulatory elements. *)
From Coq Require Import List Arith Bool String.
From Verif Require Import RegElemModel RegElemSpec RegElemProofs HybridProofs.
Import ListNotations.
Local Open Scope string_scope.
Local Open Scope list_scope.
Local Open Scope nat_scope.

(** ** C39: TrafficLight
    Any sequence of calls on any traffic light: no undefined behaviour, every removal
    takes away the first occurrence and reports whether there was one, the stop line is
    the one of the last call, no other role changes. The conditions of the constructor
    hold afterwards just when a light is left. *)
Theorem C39_traffic_light_partial : forall s os, tl_ctor s = Ok s ->
  exists s', run tl_step os s = Some (s', tl_results os (traffic_lights s)) /\
    traffic_lights s' = tl_lights os (traffic_lights s) /\
    stop_line s' = tl_stop os (hd_error (lines s RefLine)) /\
    (forall r, r <> Refers -> r <> RefLine -> rp s' r = rp s r) /\
    (tl_ctor s' = Ok s' <-> tl_lights os (traffic_lights s) <> []).
Proof.
  intros s os C. destruct (tl_run os s) as (m & R & T & P & L & F). exists (with_rp s m).
  split; [exact R|]. split; [exact T|]. split; [exact P|]. split; [exact F|].
  rewrite <- T. unfold tl_ctor in *. unfold traffic_lights.
  destruct (ls_or_poly (with_rp s m) Refers); [split; [discriminate|congruence]|].
  assert (List.length (lines s RefLine) <= 1) as H.
  { destruct (ls_or_poly s Refers); [discriminate|]. destruct (Nat.ltb 1 _) eqn:E; [discriminate|].
    apply Nat.ltb_ge in E. exact E. }
  apply L in H. apply Nat.ltb_ge in H. rewrite H. split; [discriminate|auto].
Qed.
Print Assumptions C39_traffic_light_partial.

Definition s0 : st := St rempty (fun _ => true) (fun _ => true) (fun _ _ => None) None.
Definition ok_or {A} (d : A) (r : res A) : A := match r with Ok a => a | _ => d end.
Definition ex_tl : st := ok_or s0 (tl_make s0 [Ls (1, false); Po (1, false); Ls (1, false)] (Some (7, true))).
Definition ex_tl_ops := [TLAdd (Ls (2, false)); TLRemove (Ls (1, false)); TLSetStop (8, false); TLRemove (Po (9, false));
                         TLRemoveStop; TLSetStop (9, false)].
Example C39_traffic_light_nonvacuous :
  tl_ctor ex_tl = Ok ex_tl /\
  (exists s', run tl_step ex_tl_ops ex_tl = Some (s', [Some true; Some true; Some true; Some false; Some true; Some true]) /\
    traffic_lights s' = [Po (1, false); Ls (1, false); Ls (2, false)] /\ stop_line s' = Some (9, false)).
Proof. split; [reflexivity|]. eexists. split; [reflexivity|]. split; reflexivity. Qed.

(** ** C39: RightOfWay
    The lanelets are those of the history that still exist; getManeuver agrees. *)
Theorem C39_right_of_way_partial : forall s os, row_ok os (al s) ->
  let row := row_lanelets os (weak_lanelets s RightOfWayR) in
  let yie := row_yields os (weak_lanelets s Yield) in
  exists s', run row_step os s = Some (s', row_results os (weak_lanelets s RightOfWayR) (weak_lanelets s Yield)) /\
    lanelets s' RightOfWayR = filter (fun h => row_alive os (al s) (fst h)) row /\
    lanelets s' Yield = filter (fun h => row_alive os (al s) (fst h)) yie /\
    stop_line s' = row_stop os (hd_error (lines s RefLine)) /\
    (forall r, r <> RightOfWayR -> r <> Yield -> r <> RefLine -> rp s' r = rp s r) /\
    (forall l, row_alive os (al s) (fst l) = true ->
       get_maneuver s' l = if in_dec handle_dec l row then MRightOfWay
                           else if in_dec handle_dec l yie then MYield else MUnknown) /\
    (row_ctor s' = Ok s' <-> row <> [] /\ yie <> []).
Proof.
  intros s os OK row yie. destruct (row_run os s OK) as (m & a & H). cbv zeta in H.
  destruct H as (R & W1 & W2 & P & A & F). exists (upd_al (with_rp s m) a). fold row in W1. fold yie in W2.
  set (s' := upd_al (with_rp s m) a) in *.
  assert (forall v, strong s' v = filter (fun h => row_alive os (al s) (fst h)) v) as St.
  { intros v. unfold strong. apply filter_ext. intros h. apply A. }
  assert (lanelets s' RightOfWayR = filter (fun h => row_alive os (al s) (fst h)) row) as L1
    by (unfold lanelets; rewrite W1; apply St).
  assert (lanelets s' Yield = filter (fun h => row_alive os (al s) (fst h)) yie) as L2
    by (unfold lanelets; rewrite W2; apply St).
  split; [exact R|]. split; [exact L1|]. split; [exact L2|]. split; [exact P|]. split; [exact F|]. split.
  - intros l Al. unfold get_maneuver. rewrite L1, L2.
    assert (forall v : list handle, existsb (fun h => h_eqb h l) (filter (fun h => row_alive os (al s) (fst h)) v) =
      if in_dec handle_dec l v then true else false) as E.
    { intros v. destruct (in_dec handle_dec l v) as [I|I].
      - apply existsb_exists. exists l. split; [apply filter_In; auto|apply handle_eqb_spec; auto].
      - destruct (existsb _ _) eqn:X; [|auto]. apply existsb_exists in X as (h & J & Q).
        apply handle_eqb_spec in Q. subst h. apply filter_In in J. tauto. }
    rewrite !E. destruct (in_dec handle_dec l row), (in_dec handle_dec l yie); reflexivity.
  - unfold row_ctor. rewrite W1, W2. destruct row, yie; split; try discriminate; intros; try tauto; split; discriminate.
Qed.
Print Assumptions C39_right_of_way_partial.

Definition ex_row : st := ok_or s0 (row_make s0 [(1, false)] [(2, false); (3, true)] None).
Definition ex_row_ops := [RAddRow (4, false); RRemoveYield (2, false); RSetStop (7, false); RRemoveRow (5, false);
                          RAddYield (6, false); RExpire 3].
Example C39_right_of_way_nonvacuous : row_ok ex_row_ops (al ex_row) /\ row_ctor ex_row = Ok ex_row /\
  exists s', run row_step ex_row_ops ex_row = Some (s', [Some true; Some true; Some true; Some false; Some true; Some true]) /\
    lanelets s' Yield = [(6, false)] /\ get_maneuver s' (4, false) = MRightOfWay /\ get_maneuver s' (6, false) = MYield /\
    get_maneuver s' (2, false) = MUnknown /\ stop_line s' = Some (7, false).
Proof. split; [simpl; auto 10|]. split; [reflexivity|]. eexists. split; [reflexivity|]. repeat split; reflexivity. Qed.

(** ** C39: TrafficSign *)
Theorem C39_traffic_sign_partial : forall s os,
  exists s', run ts_step os s = Some (s', ts_results os (ls_or_poly s Refers) (ls_or_poly s Cancels) (lines s RefLine) (lines s CancelLine)) /\
    ls_or_poly s' Refers = signs_of os (ls_or_poly s Refers) /\
    ls_or_poly s' Cancels = cancels_of os (ls_or_poly s Cancels) /\
    lines s' RefLine = refs_of os (lines s RefLine) /\
    lines s' CancelLine = cancel_lines_of os (lines s CancelLine) /\
    (forall r, r <> Refers -> r <> Cancels -> r <> RefLine -> r <> CancelLine -> rp s' r = rp s r) /\
    (* the type is the one of the first sign that is left, otherwise the attribute *)
    (forall t, sign_type_of s' = Ok t <->
       match signs_of os (ls_or_poly s Refers) with
       | x :: _ => subtype_of os (subtype s) x = Some t
       | [] => sign_type s = Some t
       end) /\
    (* the types of the cancelling signs, each once, in order *)
    (forall ts, cancel_types s' = Ok ts ->
       Sorted.StronglySorted slt ts /\
       forall t, In t ts <-> exists x, In x (cancels_of os (ls_or_poly s Cancels)) /\ subtype_of os (subtype s) x = Some t) /\
    ((forall ts, cancel_types s' <> Ok ts) <->
       exists x, In x (cancels_of os (ls_or_poly s Cancels)) /\ subtype_of os (subtype s) x = None).
Proof.
  intros s os. destruct (ts_run os s) as (m & f & H). cbv zeta in H. destruct H as (R & T1 & T2 & T3 & T4 & T5 & F).
  exists (upd_ts s m f). split; [exact R|]. split; [exact T1|]. split; [exact T2|]. split; [exact T3|]. split; [exact T4|].
  split; [exact F|]. pose proof (cancel_types_spec (upd_ts s m f)) as C. rewrite T2 in C. split; [|split].
  - intros t. unfold sign_type_of. rewrite T1. destruct (signs_of os _) as [|x r].
    + simpl. destruct (sign_type s); split; congruence.
    + rewrite T5. destruct (subtype_of os (subtype s) x); split; congruence.
  - intros ts E. rewrite E in C. destruct C as (C1 & _ & C2). split; [exact C1|].
    intros t. rewrite C2. split; intros (x & I & X); exists x; rewrite T5 in *; auto.
  - destruct (cancel_types (upd_ts s m f)) as [ts| |].
    + destruct C as (_ & C & _). split; [intros H; destruct (H ts eq_refl)|].
      intros (x & I & X). apply C in I. rewrite T5 in I. congruence.
    + destruct C as (x & I & X). rewrite T5 in X. split; [eauto|discriminate].
    + destruct C.
Qed.
Print Assumptions C39_traffic_sign_partial.

Definition ex_ts : st := ok_or s0 (ts_make s0 [Ls (1, false); Po (2, false)] "de205" [] "" [(5, false)] []).
Definition ex_ts_ops := [SAddCancel [Ls (3, false); Po (4, false)] "de282"; SRemove (Ls (1, false)); SAddRef (6, true);
                         SRemoveRef (5, false); SAddCancel [Ls (2, false)] "de278"; SRemoveCancel (Po (4, true))].
Example C39_traffic_sign_nonvacuous : ts_ctor ex_ts = Ok ex_ts /\
  exists s', run ts_step ex_ts_ops ex_ts = Some (s', [Some true; Some true; Some true; Some true; Some true; Some false]) /\
    ls_or_poly s' Refers = [Po (2, false)] /\ sign_type_of s' = Ok "de205" /\
    cancel_types s' = Ok ["de278"; "de282"] /\ lines s' RefLine = [(6, true)].
Proof. split; [reflexivity|]. eexists. split; [reflexivity|]. repeat split; reflexivity. Qed.

(** Removing does not keep what the constructors demand: a traffic light without lights,
    a right of way without yielding lanelets, a sign without type (two ways). *)
Theorem C39_invariant_refuted :
  (exists s s' bs, tl_make s0 [Ls (1, false)] None = Ok s /\
     run tl_step [TLRemove (Ls (1, false))] s = Some (s', bs) /\ traffic_lights s' = [] /\ tl_ctor s' = Throw) /\
  (exists s s' bs, row_make s0 [(1, false)] [(2, false)] None = Ok s /\
     run row_step [RRemoveYield (2, false)] s = Some (s', bs) /\ row_ctor s' = Throw) /\
  (exists s s' bs, ts_make s0 [Ls (1, false)] "de205" [] "" [] [] = Ok s /\
     run ts_step [SRemove (Ls (1, false))] s = Some (s', bs) /\ sign_type_of s' = Throw) /\
  (exists s s' bs, ts_make s0 [Ls (1, false)] "de205" [] "" [] [] = Ok s /\
     run ts_step [SAdd (Ls (2, false)); SRemove (Ls (1, false))] s = Some (s', bs) /\
     ls_or_poly s' Refers = [Ls (2, false)] /\ sign_type_of s' = Throw).
Proof. repeat split; do 3 eexists; repeat (split; [reflexivity|]); reflexivity. Qed.
Print Assumptions C39_invariant_refuted.

(** ** C31: AllWayStop
    The constructor accepts just the lists in which all lanelets or none have a stop
    line. After any further calls and expirations (see aws_ok for the one excluded
    situation): no undefined behaviour, the calls return what they should, there are no
    stop lines or as many as lanelets, and getStopLine returns the stop line with which
    the lanelet was added, unless a lanelet in front of it has expired. *)
Theorem C31_pairing_partial : forall s v signs,
  (forall b, (forall e, In e v -> has_stop e = b) -> exists s1, aws_make s v signs = Ok s1) /\
  (forall s1, aws_make s v signs = Ok s1 -> (exists b, forall e, In e v -> has_stop e = b) /\
    forall os, aws_ok os v (al s) ->
    let es := aws_entries os v in
    exists s', run aws_step os s1 = Some (s', aws_results os v signs) /\
      (lines s' RefLine = [] \/ List.length (lines s' RefLine) = List.length (weak_lanelets s' Yield)) /\
      lanelets s' Yield = filter (fun h => aws_alive os (al s) (fst h)) (map fst es) /\
      ls_or_poly s' Refers = fold_left (fun l o => aws_signs1 o l) os signs /\
      (forall l, aws_alive os (al s) (fst l) = true -> before_alive (aws_alive os (al s)) l es ->
         get_stop_line s' l = Ok (stop_of l es)) /\
      (forall l, ~ In l (map fst es) -> get_stop_line s' l = Ok None)).
Proof.
  intros s v signs. pose proof (aws_make_spec s v signs) as M. split.
  - intros b U. destruct (aws_make s v signs) as [s1| |]; [eauto| |tauto]. destruct M. exists b. exact U.
  - intros s1 E. rewrite E in M. destruct M as (U & R & G & A). split; [exact U|].
    intros os OK es. rewrite <- A in OK. destruct (aws_run os s1 v R OK) as (m & a & H). cbv zeta in H.
    destruct H as (S & R' & G' & A' & F). exists (upd_al (with_rp s1 m) a). fold es in R'.
    assert (al (upd_al (with_rp s1 m) a) = aws_alive os (al s)) as Al by (simpl; rewrite A', A; reflexivity).
    split; [rewrite S, G; reflexivity|]. split.
    { rewrite (aws_rep_lines _ _ R'). destruct R' as (Y & _ & U'). unfold weak_lanelets. rewrite Y, weaks_map, map_length.
      destruct (uniform_cases es U') as [[-> _]|[X _]]; [auto|right].
      apply (f_equal (@List.length _)) in X. rewrite !map_length in X. exact X. }
    split; [rewrite (aws_rep_lanelets _ _ R'), Al; reflexivity|].
    split; [rewrite G', G; reflexivity|]. split.
    + intros l L B. apply aws_get_stop; [exact R'| |]; rewrite Al; auto.
    + intros l N. eapply aws_get_stop_out; eauto.
Qed.
Print Assumptions C31_pairing_partial.

Definition ex_entries : list RegElemSpec.entry := [((1, false), Some (11, false)); ((2, false), Some (12, false)); ((3, true), Some (13, false))].
Definition ex_aws : st := ok_or s0 (aws_make s0 ex_entries [Ls (20, false)]).
Definition ex_aws_ops := [AAdd (4, false) (Some (14, false)); ARemove (2, false); AAdd (5, false) None; AExpire 3;
                          AAddSign (Po (21, false)); ARemove (6, false)].
Example C31_nonvacuous : aws_ok ex_aws_ops ex_entries (al s0) /\ aws_make s0 ex_entries [Ls (20, false)] = Ok ex_aws /\
  exists s', run aws_step ex_aws_ops ex_aws = Some (s', [Some true; Some true; None; Some true; Some true; Some false]) /\
    lanelets s' Yield = [(1, false); (4, false)] /\ get_stop_line s' (1, false) = Ok (Some (11, false)) /\
    before_alive (aws_alive ex_aws_ops (al s0)) (1, false) (aws_entries ex_aws_ops ex_entries).
Proof.
  split.
  - simpl. repeat split; intros; try discriminate.
    all: exfalso; match goal with H : forall e, _ -> snd e = None |- _ => specialize (H _ (or_introl eq_refl)); discriminate end.
  - split; [reflexivity|]. eexists. split; [reflexivity|]. repeat split.
Qed.

(** A lanelet in front expires: getStopLine returns the stop line of another lanelet. *)
Theorem C31_expired_refuted : exists s s' bs l,
  aws_make s0 ex_entries [] = Ok s /\ run aws_step [AExpire 1] s = Some (s', bs) /\
  l = (2, false) /\ al s' 2 = true /\ stop_of l ex_entries = Some (12, false) /\
  get_stop_line s' l = Ok (Some (11, false)).
Proof. do 4 eexists. repeat (split; [reflexivity|]). reflexivity. Qed.
Print Assumptions C31_expired_refuted.

(** The excluded situation: all lanelets (without stop lines) have expired, a lanelet
    with a stop line is accepted; removing it again erases a stop line behind the end of
    the vector: undefined behaviour. *)
Theorem C31_remove_refuted : exists s,
  aws_make s0 [((1, false), None)] [] = Ok s /\
  run aws_step [AExpire 1; AAdd (2, false) (Some (12, false)); ARemove (2, false)] s = None.
Proof. eexists. split; reflexivity. Qed.
Print Assumptions C31_remove_refuted.

(** The constructor from data (used when a map is read) counts parameters of any kind:
    with a polygon among the stop lines getStopLine throws for the last lanelet, and the
    first one gets the stop line of the second. *)
Theorem C31_parameter_kinds_refuted : exists s s',
  s = with_rp s0 (rset (rset rempty Yield [lan (1, false); lan (2, false)]) RefLine [PPoly 11 false; lin (12, false)]) /\
  create "all_way_stop" s = Ok (KAllWayStop, s') /\
  get_stop_line s' (1, false) = Ok (Some (12, false)) /\ get_stop_line s' (2, false) = Throw.
Proof. do 2 eexists. repeat (split; [reflexivity|]). reflexivity. Qed.
Print Assumptions C31_parameter_kinds_refuted.
