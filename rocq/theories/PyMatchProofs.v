(** Proofs for the matching module from Python. *)
From Coq Require Import List Bool ZArith.
From Verif Require Import PyCallModel MatchingModel PyMatchModel PyMatchSpec.
Import ListNotations.

Section Proofs.
Context {L D : Type}.
Implicit Types l : list (item L D).

Lemma extract_prob l : all_prob l ->
  exists xs, extract_all as_prob l = Some xs /\ l = map (fun m => Prob (fst (fst m)) (snd (fst m)) (snd m)) xs.
Proof.
  induction l as [|i l IH]; intros H.
  - exists []. split; reflexivity.
  - destruct (H i) as (a & d & q & ->); [left; reflexivity|].
    destruct IH as (xs & E & ->). { intros j Hj. apply H. right. exact Hj. }
    exists ((a, d, q) :: xs). cbn. rewrite E. split; reflexivity.
Qed.
Lemma extract_det l : all_det l ->
  exists xs, extract_all as_det l = Some xs /\ l = map (fun m => Det (fst m) (snd m)) xs.
Proof.
  induction l as [|i l IH]; intros H.
  - exists []. split; reflexivity.
  - destruct (H i) as (a & d & ->); [left; reflexivity|].
    destruct IH as (xs & E & ->). { intros j Hj. apply H. right. exact Hj. }
    exists ((a, d) :: xs). cbn. rewrite E. split; reflexivity.
Qed.
Lemma extract_matches l : Forall is_match l ->
  exists xs, extract_all as_det l = Some xs /\ map base l = map Some xs.
Proof.
  induction 1 as [|i l Hi _ (xs & E & M)].
  - exists []. split; reflexivity.
  - destruct i as [a d|a d q|]; [| |exfalso; apply Hi; reflexivity];
      exists ((a, d) :: xs); cbn; rewrite E; cbn; rewrite M; split; reflexivity.
Qed.
Lemma extract_fails {T} (f : item L D -> option T) l i : In i l -> f i = None -> extract_all f l = None.
Proof.
  induction l as [|j l IH]; [intros []|]. intros [->|H] E; cbn.
  - rewrite E. reflexivity.
  - destruct (f j); [|reflexivity]. rewrite (IH H E). reflexivity.
Qed.

Lemma remove_map {T} (f : T -> item L D) (lan : T -> L) can_pass xs :
  (forall x, lanelet_of (f x) = Some (lan x)) ->
  map f (remove_if (fun m => negb (can_pass (lan m))) xs) = filter (compliant can_pass) (map f xs).
Proof.
  intros H. induction xs as [|x xs IH]; [reflexivity|]. cbn. unfold compliant at 1. rewrite H.
  destruct (can_pass (lan x)); cbn; rewrite IH; reflexivity.
Qed.
Lemma remove_matches_rules {T} (lan : T -> L) can_pass xs :
  remove_matches lan (Some can_pass) xs = Some (remove_if (fun m => negb (can_pass (lan m))) xs).
Proof. destruct xs; reflexivity. Qed.

Lemma check_prob l can_pass : all_prob l -> rule_check l (Some can_pass) = Matches (filter (compliant can_pass) l).
Proof.
  intros H. destruct (extract_prob l H) as (xs & E & ->). unfold rule_check. rewrite E.
  rewrite remove_matches_rules. unfold to_list. f_equal. apply remove_map. reflexivity.
Qed.
Lemma check_det l can_pass : all_det l -> rule_check l (Some can_pass) = Matches (filter (compliant can_pass) l).
Proof.
  intros H. destruct l as [|i l]; [reflexivity|].
  destruct (extract_det _ H) as (xs & E & M). unfold rule_check.
  rewrite (extract_fails as_prob (i :: l) i); [|left; reflexivity|destruct (H i) as (a & d & ->); [left; reflexivity|reflexivity]].
  rewrite E, M, remove_matches_rules. unfold to_list. f_equal. apply remove_map. reflexivity.
Qed.

Lemma remove_base can_pass (f : L * D -> item L D) : (forall x, f x = Det (fst x) (snd x)) -> forall l xs,
  map base l = map Some xs ->
  map base (map f (remove_if (fun m => negb (can_pass (fst m))) xs)) = map base (filter (compliant can_pass) l).
Proof.
  intros F. induction l as [|i l IH]; intros [|x xs] M; try discriminate; [reflexivity|].
  cbn in M. injection M as Mi Ml. specialize (IH xs Ml).
  destruct i as [a d|a d q|]; cbn in Mi; [| |discriminate]; injection Mi as <-; cbn; unfold compliant at 1; cbn;
    destruct (can_pass a); cbn; try rewrite F; cbn; rewrite IH; reflexivity.
Qed.
End Proofs.
