(** C124: the matching module from Python. *)
From Coq Require Import List Bool ZArith.
From Verif Require Import PyCallModel MatchingModel PyMatchModel PyMatchSpec PyMatchProofs.
Import ListNotations.

(** Of matches of one class exactly those stay whose lanelet can be passed, unchanged and in their order; ... *)
Theorem C124_rules {L D} (l : list (item L D)) can_pass : all_det l \/ all_prob l ->
  rule_check l (Some can_pass) = Matches (filter (compliant can_pass) l).
Proof. intros [H|H]; [apply check_det|apply check_prob]; exact H. Qed.
Print Assumptions C124_rules.

(** ... of matches of both classes these stay too, as far as ConstLaneletMatch knows them; ... *)
Theorem C124_mixed {L D} (l : list (item L D)) can_pass : Forall is_match l ->
  exists r, rule_check l (Some can_pass) = Matches r /\ map base r = map base (filter (compliant can_pass) l).
Proof.
  intros H. unfold rule_check. destruct (extract_all as_prob l) as [ps|] eqn:E.
  - assert (A : all_prob l).
    { intros i Hi. destruct i as [a d|a d q|]; [| |exfalso; rewrite Forall_forall in H; apply (H Other Hi); reflexivity].
      - rewrite (extract_fails as_prob l (Det a d) Hi eq_refl) in E. discriminate.
      - eauto. }
    pose proof (check_prob l can_pass A) as C. unfold rule_check in C. rewrite E in C. rewrite C. eauto.
  - destruct (extract_matches l H) as (xs & E' & M). rewrite E'. rewrite remove_matches_rules. cbn [to_list].
    eexists. split; [reflexivity|]. apply remove_base; [reflexivity|exact M].
Qed.
Print Assumptions C124_mixed.

(** ... but the Mahalanobis distances are lost. *)
Theorem C124_mixed_refuted : exists (l : list (item nat nat)) can_pass, Forall is_match l /\
  rule_check l (Some can_pass) <> Matches (filter (compliant can_pass) l).
Proof.
  exists [Prob 1 2 3; Det 4 5], (fun _ => true). split; [repeat constructor; discriminate|]. cbn. discriminate.
Qed.
Print Assumptions C124_mixed_refuted.

(** Nothing stays of nothing, whatever the rules are. *)
Theorem C124_empty {L D} rules : @rule_check L D [] rules = Matches [].
Proof. reflexivity. Qed.
Print Assumptions C124_empty.

(** Anything else in the list raises, whatever the rules are. *)
Theorem C124_other {L D} (l : list (item L D)) rules : In Other l -> rule_check l rules = RuntimeError.
Proof.
  intros H. unfold rule_check. rewrite (extract_fails as_prob l Other H eq_refl).
  rewrite (extract_fails as_det l Other H eq_refl). reflexivity.
Qed.
Print Assumptions C124_other.

(** None instead of traffic rules follows a null pointer as soon as there is a match. *)
Theorem C124_none_refuted {L D} (l : list (item L D)) : l <> [] -> Forall is_match l -> rule_check l None = NullPointer.
Proof.
  intros N H. unfold rule_check. destruct (extract_all as_prob l) as [[|p ps]|] eqn:E.
  - exfalso. destruct l as [|i l]; [congruence|]. cbn in E. destruct (as_prob i); [|discriminate].
    destruct (extract_all as_prob l); discriminate.
  - reflexivity.
  - destruct (extract_matches l H) as (xs & E' & M). rewrite E'. destruct xs as [|x xs]; [|reflexivity].
    destruct l; [congruence|discriminate].
Qed.
Print Assumptions C124_none_refuted.

(** An object has the members it was given and otherwise those of C++, if the covariance was given; ... *)
Theorem C124_object {Pose P D : Type} identity zero inval id pose hull cov kappa : cov <> None ->
  members (object_cpp identity zero inval) id pose hull cov kappa
    (@make_object Pose P D identity zero inval id pose hull cov kappa).
Proof.
  intros H. unfold members, make_object, object_cpp, or_else. cbn.
  repeat split; intros; subst; try reflexivity. congruence.
Qed.
Print Assumptions C124_object.

(** ... and then matching gives what it gives in C++ for a covariance made in Python: the distance for the matrix of the
    two variances and the covariance, those left out being zero, or an error if the matrix is zero or singular. *)
Theorem C124_covariance {L Pose P D : Type} identity zero inval id pose hull var_x var_y cov_xy kappa is_zero singular dist l :
  let x := match var_x with Some v => v | None => zero end in
  let y := match var_y with Some v => v | None => zero end in
  let c := match cov_xy with Some v => v | None => zero end in
  let r := @mahalanobis L Pose P D is_zero singular dist l
    (make_object identity zero inval id pose hull (Some (make_covariance zero var_x var_y cov_xy)) kappa) in
  (is_zero (x, c, c, y) = true \/ singular (x, c, c, y) = true -> r = MatchingError) /\
  (is_zero (x, c, c, y) = false -> singular (x, c, c, y) = false -> r = Distance (dist l (x, c, c, y))) /\
  (is_zero (zero, zero, zero, zero) = true ->
   @mahalanobis L Pose P D is_zero singular dist l (object_cpp identity zero inval) = MatchingError).
Proof.
  unfold mahalanobis, make_covariance, make_object, or_else. cbn. split; [|split].
  - intros [->| ->]; [reflexivity|]. destruct (is_zero _); reflexivity.
  - intros -> ->. reflexivity.
  - intros ->. reflexivity.
Qed.
Print Assumptions C124_covariance.

(** Without a covariance the object is not the one of C++, and matching it reads numbers that nobody has written. *)
Theorem C124_object_refuted {L Pose P D : Type} identity zero inval id pose hull kappa is_zero singular dist l :
  let o := @make_object Pose P D identity zero inval id pose hull None kappa in
  ~ members (object_cpp identity zero inval) id pose hull None kappa o /\
  @mahalanobis L Pose P D is_zero singular dist l o = UndefinedValue.
Proof.
  cbn. split; [|reflexivity]. intros (_ & _ & _ & _ & _ & _ & _ & H & _). specialize (H eq_refl). discriminate H.
Qed.
Print Assumptions C124_object_refuted.

(** The hull of an object cannot be assigned. *)
Theorem C124_hull_refuted {V} (converts : list V -> bool) (self hull : V) :
  call [(hull_setter, converts)] [self; hull] [] = ArgumentError.
Proof. reflexivity. Qed.
Print Assumptions C124_hull_refuted.

Example C124_nonvacuous :
  rule_check [Prob 1 2 3; Prob 4 5 6; Prob 7 8 9] (Some (fun l => negb (Nat.eqb l 4))) = Matches [Prob 1 2 3; Prob 7 8 9] /\
  rule_check [Prob 1 2 3; Det 4 5; Prob 7 8 9] (Some (fun l => negb (Nat.eqb l 4))) = Matches [Det 1 2; Det 7 8] /\
  rule_check (L := nat) (D := nat) [] None = Matches [] /\
  o_cov (@make_object nat nat nat 0 0 0%Z None None None (Some (make_covariance 0 (Some 1) (Some 2) (Some 3))) None)
    = (Given 1, Given 3, Given 3, Given 2).
Proof. repeat split; reflexivity. Qed.
