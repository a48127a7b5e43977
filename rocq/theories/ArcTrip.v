From Coq Require Import List Bool Arith Reals Lra Lia Psatz.
From Verif Require Import ArcModel ArcSpec ArcProofs ArcPlane.
Import ListNotations.
Local Open Scope R_scope.
Notation len := (way_length euclid).

Lemma shift_left_beside a b x d : a <> b -> beside a b x d (shift_left a b x d).
Proof.
  intros Hab. unfold shift_left. set (dx := fst b - fst a). set (dy := snd b - snd a). change (sqrt (dx * dx + dy * dy)) with (euclid a b).
  pose proof (euclid_sq a b) as Hq. unfold sqn in Hq. fold dx dy in Hq.
  destruct (Req_EM_T (euclid a b) 0) as [E|E]; [apply euclid_zero in E; easy|].
  unfold beside, padd, pscale. cbn [fst snd]. fold dx dy. split; [ring|].
  replace (dx * (snd x + d * (/ euclid a b * dx) - snd x) - dy * (fst x + d * (/ euclid a b * - dy) - fst x)) with (d * / euclid a b * (dx * dx + dy * dy)) by ring.
  rewrite <- Hq. field. auto.
Qed.
Lemma beside_unique a b x d q q' : a <> b -> beside a b x d q -> beside a b x d q' -> q = q'.
Proof.
  unfold beside. intros Hab [A B] [C D]. set (dx := fst b - fst a) in *. set (dy := snd b - snd a) in *.
  assert (Hn : dx * dx + dy * dy <> 0).
  { change (sqn a b <> 0). rewrite <- euclid_sq. intros K. apply Rmult_integral in K. apply Hab, euclid_zero. tauto. }
  assert (E1 : (dx * dx + dy * dy) * (fst q - fst q') = 0).
  { replace (_ * _) with (dx * ((dx * (fst q - fst x) + dy * (snd q - snd x)) - (dx * (fst q' - fst x) + dy * (snd q' - snd x)))
      - dy * ((dx * (snd q - snd x) - dy * (fst q - fst x)) - (dx * (snd q' - snd x) - dy * (fst q' - fst x)))) by ring. rewrite A, B, C, D. ring. }
  assert (E2 : (dx * dx + dy * dy) * (snd q - snd q') = 0).
  { replace (_ * _) with (dy * ((dx * (fst q - fst x) + dy * (snd q - snd x)) - (dx * (fst q' - fst x) + dy * (snd q' - snd x)))
      + dx * ((dx * (snd q - snd x) - dy * (fst q - fst x)) - (dx * (snd q' - snd x) - dy * (fst q' - fst x)))) by ring. rewrite A, B, C, D. ring. }
  apply Rmult_integral in E1, E2. destruct q, q'; cbn in *. f_equal; destruct E1, E2; lra.
Qed.

Lemma find_ratio_spec rs total d :
  match find_ratio rs total d with
  | Some i => (exists r, nth_error rs i = Some r /\ d < r * total) /\ forall j r, (j < i)%nat -> nth_error rs j = Some r -> r * total <= d
  | None => forall j r, nth_error rs j = Some r -> r * total <= d
  end.
Proof.
  induction rs as [|r rs IH]; cbn [find_ratio]; [intros [|j]; discriminate|]. destruct (Rlt_dec d (r * total)) as [L|L].
  - split; [exists r; auto|]. intros j ? Hj. lia.
  - destruct (find_ratio rs total d) as [i|]; cbn [option_map].
    + destruct IH as [IH1 IH2]. split; auto. intros [|j] r' Hj E; [injection E as <-; lra|]. eapply (IH2 j); eauto. lia.
    + intros [|j] r' E; [injection E as <-; lra|eauto].
Qed.

(** The segment whose direction is taken *)
Definition start_of (ls : list point) (s : R) : nat :=
  match (match accumulated_ratios distance ls with Ok rs => find_ratio rs (range_length distance ls) s | _ => None end) with
  | Some i => i
  | None => (length ls - 2)%nat
  end.
Lemma len_firstn (ls : list point) i a b l2 : ls = firstn i ls ++ a :: b :: l2 -> (i <= length ls)%nat -> firstn (i + 2) ls = firstn i ls ++ [a; b].
Proof.
  intros E Hi. rewrite E at 1. rewrite firstn_app, firstn_length, Nat.min_l by auto. replace (i + 2 - i)%nat with 2%nat by lia.
  rewrite firstn_all2 by (rewrite firstn_length; lia). reflexivity.
Qed.
Lemma split_at (ls : list point) i : (S i < length ls)%nat -> exists a b, nth_error ls i = Some a /\ nth_error ls (S i) = Some b /\ ls = firstn i ls ++ a :: b :: skipn (i + 2) ls.
Proof.
  revert i; induction ls as [|x ls IH]; intros i Hi; [cbn in Hi; lia|]. destruct i as [|i].
  - destruct ls as [|y ls]; [cbn in Hi; lia|]. exists x, y. auto.
  - destruct (IH i) as (a & b & A & B & E); [cbn in Hi; lia|]. exists a, b. split; auto. split; auto. cbn. f_equal. exact E.
Qed.
Lemma start_inside ls s : (2 <= length ls)%nat -> s < len ls -> 0 <= s ->
  exists l1 a b l2, ls = l1 ++ a :: b :: l2 /\ start_of ls s = length l1 /\ len (l1 ++ [a]) <= s < len (l1 ++ [a]) + euclid a b.
Proof.
  intros Hl Hs H0. assert (Hz : len ls <> 0) by lra. destruct (accumulated_ok euclid ls Hl Hz) as (rs & E & El & Hn).
  unfold start_of. rewrite accumulated_ext, E, range_length_ext, range_length_eq. pose proof (find_ratio_spec rs (len ls) s) as F.
  destruct (find_ratio rs (len ls) s) as [i|].
  - destruct F as [(r & Er & Lr) F]. assert (Hi : (i < length ls - 1)%nat) by (rewrite <- El; apply nth_error_Some; congruence).
    rewrite Hn in Er by auto. injection Er as <-. destruct (split_at ls i) as (a & b & A & B & Esplit); [lia|].
    exists (firstn i ls), a, b, (skipn (i + 2) ls). split; auto. rewrite firstn_length, Nat.min_l by lia. split; auto.
    rewrite (len_firstn _ _ _ _ _ Esplit) in Lr by lia. replace (len (firstn i ls ++ [a; b]) / len ls * len ls) with (len (firstn i ls ++ [a; b])) in Lr by (field; auto).
    rewrite len_app, len_cons, len_1 in Lr. split; [|lra]. destruct i as [|i].
    + cbn [firstn app]. rewrite len_1. auto.
    + assert (K := F i (len (firstn (i + 2) ls) / len ls) ltac:(lia) (Hn i ltac:(lia))).
      replace (len (firstn (i + 2) ls) / len ls * len ls) with (len (firstn (i + 2) ls)) in K by (field; auto).
      replace (firstn (i + 2) ls) with (firstn (S i) ls ++ [a]) in K; auto.
      replace (i + 2)%nat with (S i + 1)%nat by lia. rewrite Esplit at 2. rewrite firstn_app, firstn_length, Nat.min_l by lia.
      replace (S i + 1 - S i)%nat with 1%nat by lia. rewrite (firstn_all2 (firstn (S i) ls)) by (rewrite firstn_length; lia). reflexivity.
  - exfalso. assert (K := F (length ls - 2)%nat _ (Hn (length ls - 2)%nat ltac:(lia))). replace (length ls - 2 + 2)%nat with (length ls) in K by lia.
    rewrite firstn_all in K. replace (len ls / len ls * len ls) with (len ls) in K by (field; auto). lra.
Qed.
Lemma start_beyond ls s : (2 <= length ls)%nat -> len ls <= s -> start_of ls s = (length ls - 2)%nat.
Proof.
  intros Hl Hs. unfold start_of. destruct (Req_EM_T (len ls) 0) as [Z|Hz].
  - destruct ls as [|a [|b [|c l]]]; try (cbn in Hl; lia).
    + cbn. rewrite len_cons, len_1 in *. rewrite distance_eq. destruct (Rlt_dec _ _); [lra|reflexivity].
    + rewrite accumulated_ext. unfold accumulated_ratios, length_ratios. rewrite range_length_eq. destruct (Req_EM_T _ 0); [reflexivity|easy].
  - destruct (accumulated_ok euclid ls Hl Hz) as (rs & E & El & Hn). rewrite accumulated_ext, E, range_length_ext, range_length_eq. pose proof (find_ratio_spec rs (len ls) s) as F.
    destruct (find_ratio rs (len ls) s) as [i|]; auto. destruct F as [(r & Er & Lr) _].
    assert (Hi : (i < length ls - 1)%nat) by (rewrite <- El; apply nth_error_Some; congruence).
    rewrite Hn in Er by auto. injection Er as <-. exfalso.
    replace (len (firstn (i + 2) ls) / len ls * len ls) with (len (firstn (i + 2) ls)) in Lr by (field; auto).
    destruct (split_at ls i) as (a & b & A & B & Esplit); [lia|]. rewrite (len_firstn _ _ _ _ _ Esplit) in Lr by lia.
    rewrite Esplit in Hs. change (a :: b :: skipn (i + 2) ls) with ([a] ++ b :: skipn (i + 2) ls) in Hs. rewrite app_assoc, len_app in Hs.
    replace (firstn i ls ++ [a; b]) with ((firstn i ls ++ [a]) ++ [b]) in Lr by (rewrite <- app_assoc; reflexivity).
    pose proof (len_pos _ _ plane_metric (b :: skipn (i + 2) ls)). lra.
Qed.
Lemma from_arc_eq ls s d l1 a b l2 x : ls = l1 ++ a :: b :: l2 -> start_of ls s = length l1 -> interpolated_point euclid between ls s = Ok x ->
  from_arc ls s d = Ok (shift_left a b x d).
Proof.
  intros E Es Ex. unfold from_arc. replace (length ls <? 2)%nat with false by (symmetry; apply Nat.ltb_ge; rewrite E, app_length; cbn; lia).
  fold (start_of ls s). rewrite Es, interpolated_ext, Ex. rewrite E, nth_error_app2, Nat.sub_diag, nth_error_app2 by lia.
  replace (S (length l1) - length l1)%nat with 1%nat by lia. reflexivity.
Qed.
Lemma from_arc_inside ls s d : (2 <= length ls)%nat -> 0 <= s < len ls ->
  exists l1 a b l2 x s' q, ls = l1 ++ a :: b :: l2 /\ len (l1 ++ [a]) <= s < len (l1 ++ [a]) + euclid a b /\
    at_length euclid between ls s' x /\ s - / 100000000 < s' <= s /\ from_arc ls s d = Ok q /\ beside a b x d q.
Proof.
  intros Hl [H0 Hs]. destruct (start_inside ls s Hl Hs H0) as (l1 & a & b & l2 & E & Es & Hab).
  destruct (interpolated_ok _ _ plane_metric ls s Hl) as (x & s' & Ex & Ax & D & Lo & _).
  exists l1, a, b, l2, x, s', (shift_left a b x d). split; auto. split; auto. split; auto.
  assert (W : wanted euclid ls s = s) by (unfold wanted; destruct (Rlt_dec s 0); [lra|]; apply Rmin_right; lra). rewrite W in *. specialize (Lo H0).
  split; [apply Rabs_def2 in D; lra|]. split; [apply (from_arc_eq ls s d l1 a b l2 x E Es Ex)|]. apply shift_left_beside.
  intros K. apply euclid_zero in K. lra.
Qed.
Lemma interpolate_exact l : forall total l1 a b l2 t, l = l1 ++ a :: b :: l2 -> 0 < t <= 1 -> / 100000000 <= t * euclid a b ->
  interpolate_loop euclid between l total (total + len (l1 ++ [a]) + t * euclid a b) = Ok (between a b t).
Proof.
  induction l as [|x l IH]; intros total l1 a b l2 t E Ht Hs; [destruct l1; discriminate|].
  assert (Hab : 0 < euclid a b) by (pose proof (euclid_pos a b); destruct (Rtotal_order 0 (euclid a b)) as [|[K|]]; [auto|rewrite <- K in *; lra|lra]).
  destruct l1 as [|z l1]; cbn [app] in E.
  - injection E as -> ->. cbn [app interpolate_loop]. rewrite len_1. destruct (Rle_dec _ _) as [L|L].
    + destruct (Rlt_dec _ _) as [K|K]; [lra|]. f_equal. f_equal. field. lra.
    + exfalso. apply L. assert (t * euclid a b <= 1 * euclid a b) by (apply Rmult_le_compat_r; lra). lra.
  - injection E as -> E. destruct l as [|y l]; [destruct l1; discriminate|].
    change (interpolate_loop euclid between (z :: y :: l) total ?d) with
      (if Rle_dec d (total + euclid z y) then
         if Rlt_dec (d - (total + euclid z y - euclid z y)) (/ 100000000) then Ok z else Ok (between z y ((d - (total + euclid z y - euclid z y)) / euclid z y))
       else interpolate_loop euclid between (y :: l) (total + euclid z y) d).
    assert (Ep : len ((z :: l1) ++ [a]) = euclid z y + len (l1 ++ [a])) by (destruct l1 as [|w l1]; cbn [app] in *; injection E as -> _; rewrite len_cons; reflexivity).
    pose proof (len_pos _ _ plane_metric (l1 ++ [a])) as Hp. destruct (Rle_dec _ _) as [L|L]; [lra|].
    rewrite Ep. replace (total + (euclid z y + len (l1 ++ [a])) + t * euclid a b) with (total + euclid z y + len (l1 ++ [a]) + t * euclid a b) by ring.
    eapply IH; eauto.
Qed.
Lemma round_trip closest ls p : closest_ok closest -> (2 <= length ls)%nat -> NoDup (removelast ls) -> feet_inside ls p ->
  exists s d, to_arc closest ls p = Ok (s, d) /\ from_arc ls s d = Ok p.
Proof.
  intros Hc Hl Hn Hin. destruct (Hc ls p Hl) as (a & b & l1 & l2 & t & Ec & El & Ht & Hf). pose proof (project_nearest _ _ _ _ _ _ _ El Ht Hf) as Hp.
  destruct (project_to_ok a b p) as (u & Hu & Eu & _ & Hperp). rewrite Eu in Hp. destruct (Hin _ _ _ _ _ El Hu Hp) as [Hu1 Hu2].
  assert (Hab : 0 < euclid a b) by (pose proof (euclid_pos a b); destruct (Rtotal_order 0 (euclid a b)) as [|[K|]]; [auto|rewrite <- K in *; lra|lra]).
  assert (Hu0 : 0 < u) by (destruct (Rtotal_order 0 u) as [|[K|]]; [auto|rewrite <- K in *; lra|lra]).
  assert (Hne : a <> b) by (intros K; apply euclid_zero in K; lra).
  set (x := between a b u) in *. assert (Ea : euclid a x = u * euclid a b) by (apply euclid_between; lra).
  assert (Hxb : b <> x).
  { intros K. assert (E1 : euclid a x = euclid a b) by (rewrite <- K; auto). rewrite Ea in E1.
    assert (u * euclid a b < 1 * euclid a b) by (apply Rmult_lt_compat_r; lra). lra. }
  exists (len (l1 ++ [a]) + u * euclid a b). eexists. split.
  - unfold to_arc. rewrite Ec, Eu. unfold left_of. destruct (point_dec b x); [easy|].
    rewrite (length_until_ok _ _ _ _ _ El (start_fresh _ _ _ _ _ Hn El)), !distance_eq, Ea. reflexivity.
  - assert (Hlt : u * euclid a b < 1 * euclid a b) by (apply Rmult_lt_compat_r; lra).
    pose proof (len_pos _ _ plane_metric (l1 ++ [a])) as Hp0. pose proof (len_pos _ _ plane_metric (b :: l2)) as Hp2.
    assert (Ell : len ls = len (l1 ++ [a]) + (euclid a b + len (b :: l2))) by (rewrite El, len_app, len_cons; reflexivity).
    destruct (start_inside ls (len (l1 ++ [a]) + u * euclid a b) Hl) as (m1 & c & e & m2 & Em & Es & Hm); [lra|lra|].
    assert (Hsame : length m1 = length l1).
    { destruct (lt_eq_lt_dec (length m1) (length l1)) as [[K|K]|K]; auto; exfalso.
      - (* the found segment would end before *)
        assert (P1 : exists r, l1 ++ [a] = (m1 ++ [c]) ++ e :: r).
        { rewrite El in Em. clear -Em K. revert m1 Em K. induction l1 as [|z l1 IH]; intros m1 Em K; [cbn in K; lia|].
          destruct m1 as [|w m1]; cbn [app] in *.
          - injection Em as -> Em. destruct l1 as [|y l1]; cbn [app] in *; injection Em as -> _; [exists []|exists (l1 ++ [a])]; reflexivity.
          - injection Em as -> Em. destruct (IH m1 Em) as (r & Er); [cbn in K; lia|]. exists r. rewrite Er. reflexivity. }
        destruct P1 as (r & Er). rewrite Er in Hm. rewrite <- !app_assoc in Hm. cbn [app] in Hm. rewrite (len_app _ m1 c (e :: r)), len_cons in Hm.
        pose proof (len_pos _ _ plane_metric (e :: r)). assert (0 < u * euclid a b) by (apply Rmult_lt_0_compat; auto). lra.
      - assert (P1 : exists r, m1 ++ [c] = (l1 ++ [a]) ++ b :: r).
        { rewrite El in Em. clear -Em K. revert l1 Em K. induction m1 as [|z m1 IH]; intros l1 Em K; [cbn in K; lia|].
          destruct l1 as [|w l1]; cbn [app] in *.
          - injection Em as -> Em. destruct m1 as [|y m1]; cbn [app] in *; injection Em as -> _; [exists []|exists (m1 ++ [c])]; reflexivity.
          - injection Em as -> Em. destruct (IH l1 Em) as (r & Er); [cbn in K; lia|]. exists r. rewrite Er. reflexivity. }
        destruct P1 as (r & Er). rewrite Er in Hm. rewrite <- !app_assoc in Hm. cbn [app] in Hm. rewrite (len_app _ l1 a (b :: r)), len_cons in Hm.
        pose proof (len_pos _ _ plane_metric (b :: r)). lra. }
    rewrite Hsame in Es.
    rewrite (from_arc_eq ls _ _ l1 a b l2 x El Es).
    2: { unfold interpolated_point. destruct (Rlt_dec _ 0) as [N|_]; [assert (0 < u * euclid a b) by (apply Rmult_lt_0_compat; auto); lra|].
         pose proof (interpolate_exact ls 0 l1 a b l2 u El ltac:(lra) Hu1) as K. rewrite Rplus_0_l in K. exact K. }
    f_equal. eapply beside_unique; [apply Hne|apply shift_left_beside, Hne|]. specialize (Hperp (conj Hu0 Hu2)).
    split; [exact Hperp|].
    assert (Hsq : ((fst b - fst a) * (snd p - snd x) - (snd b - snd a) * (fst p - fst x)) * ((fst b - fst a) * (snd p - snd x) - (snd b - snd a) * (fst p - fst x))
                  = (euclid x p * euclid a b) * (euclid x p * euclid a b)).
    { replace (euclid x p * euclid a b * (euclid x p * euclid a b)) with ((euclid x p * euclid x p) * (euclid a b * euclid a b)) by ring. rewrite !euclid_sq. unfold sqn.
      fold x in Hperp.
      replace (((fst p - fst x) * (fst p - fst x) + (snd p - snd x) * (snd p - snd x)) * ((fst b - fst a) * (fst b - fst a) + (snd b - snd a) * (snd b - snd a))) with
        (((fst b - fst a) * (snd p - snd x) - (snd b - snd a) * (fst p - fst x)) * ((fst b - fst a) * (snd p - snd x) - (snd b - snd a) * (fst p - fst x))
         + ((fst b - fst a) * (fst p - fst x) + (snd b - snd a) * (snd p - snd x)) * ((fst b - fst a) * (fst p - fst x) + (snd b - snd a) * (snd p - snd x))) by ring.
      rewrite Hperp. ring. }
    assert (Ecr : fst (psub b a) * snd (psub p a) - snd (psub b a) * fst (psub p a) = (fst b - fst a) * (snd p - snd x) - (snd b - snd a) * (fst p - fst x)).
    { unfold x, between, psub. cbn. ring. }
    unfold left_of_line. rewrite Ecr. set (cr := (fst b - fst a) * (snd p - snd x) - (snd b - snd a) * (fst p - fst x)) in *.
    assert (Hpos : 0 <= euclid x p * euclid a b) by (apply Rmult_le_pos; apply euclid_pos).
    destruct (Rlt_dec 0 cr) as [L|L].
    + apply Rsqr_inj; try lra. exact Hsq.
    + rewrite Ropp_mult_distr_l_reverse. assert (- cr = euclid x p * euclid a b); [|lra]. apply Rsqr_inj; try lra. unfold Rsqr. lra.
Qed.
Lemma from_arc_beyond l1 a b s d : a <> b -> len (l1 ++ [a; b]) <= s ->
  exists x s' q, at_length euclid between (l1 ++ [a; b]) s' x /\ len (l1 ++ [a; b]) - / 100000000 < s' <= len (l1 ++ [a; b]) /\
                 from_arc (l1 ++ [a; b]) s d = Ok q /\ beside a b x d q.
Proof.
  intros Hne Hs. set (ls := l1 ++ [a; b]) in *. assert (Hl : (2 <= length ls)%nat) by (unfold ls; rewrite app_length; cbn; lia).
  destruct (interpolated_ok _ _ plane_metric ls s Hl) as (x & s' & Ex & Ax & D & Lo & _). pose proof (len_pos _ _ plane_metric ls) as Hp.
  assert (W : wanted euclid ls s = len ls) by (unfold wanted; destruct (Rlt_dec s 0); [lra|]; apply Rmin_left; lra). rewrite W in *.
  exists x, s', (shift_left a b x d). split; auto. split; [apply Rabs_def2 in D; specialize (Lo ltac:(lra)); lra|]. split.
  - apply (from_arc_eq ls s d l1 a b [] x eq_refl); auto. rewrite start_beyond by auto. unfold ls. rewrite app_length. cbn. lia.
  - apply shift_left_beside; auto.
Qed.
Lemma lateral_ok ls idx i d : (2 <= length ls)%nat -> (i < length ls)%nat ->
  idx = Z.of_nat i \/ (0 < i)%nat /\ idx = (Z.of_nat i - Z.of_nat (length ls))%Z ->
  exists a b x, nth_error ls (i - 1) = Some a /\ nth_error ls (min (i + 1) (length ls - 1)) = Some b /\ nth_error ls i = Some x /\
    lateral_shift ls idx d = Ok (shift_left a b x d).
Proof.
  intros Hl Hi Hidx. destruct (nth_error ls (i - 1)) as [a|] eqn:A; [|apply nth_error_None in A; lia].
  destruct (nth_error ls (min (i + 1) (length ls - 1))) as [b|] eqn:B; [|apply nth_error_None in B; lia].
  destruct (nth_error ls i) as [x|] eqn:X; [|apply nth_error_None in X; lia].
  exists a, b, x. do 3 (split; auto). unfold lateral_shift.
  destruct (Z.ltb_spec (Z.of_nat (length ls)) (Z.abs idx + 1)) as [K|K]; [exfalso; lia|].
  assert (Ei : (if (0 <=? idx)%Z then idx else (Z.of_nat (length ls) + idx)%Z) = Z.of_nat i) by (destruct (Z.leb_spec 0 idx); lia). rewrite Ei.
  destruct (Z.eqb_spec (Z.max 0 (Z.of_nat i - 1)) (Z.min (Z.of_nat i + 1) (Z.of_nat (length ls) - 1))) as [F|_]; [exfalso; lia|].
  replace (Z.to_nat (Z.max 0 (Z.of_nat i - 1))) with (i - 1)%nat by lia.
  replace (Z.to_nat (Z.min (Z.of_nat i + 1) (Z.of_nat (length ls) - 1))) with (min (i + 1) (length ls - 1)) by lia.
  rewrite Nat2Z.id, A, B, X. reflexivity.
Qed.
