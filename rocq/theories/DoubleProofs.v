(** IEEE double precision numbers satisfy the laws assumed of costs. *)
From Coq Require Import ZArith Reals Lra Lia Bool.
From Flocq Require Import Core IEEE754.BinarySingleNaN.
From Verif Require Import CostAlg DoubleModel.
Local Open Scope R_scope.

Local Existing Instance p53.
Local Existing Instance p1024.
Notation fexp := (SpecFloat.fexp 53 1024).
Notation rnd := (round radix2 fexp ZnearestE).

(** A value of the search is a non-negative number or infinity. *)
Lemma dok_cases (a : double) : dok a -> (is_finite a = true /\ 0 <= B2R a) \/ a = B754_infinity false.
Proof.
  intros [H1 H2]. destruct (is_finite a) eqn:F.
  - left. split; auto. rewrite Bltb_correct in H2; auto. simpl in H2.
    destruct (Rlt_bool_spec (B2R a) 0); [discriminate|auto].
  - right. destruct a as [s|[|]| |s m e He]; try discriminate; auto.
Qed.
Lemma dwok_cases (a : double) : dwok a -> is_finite a = true /\ 0 <= B2R a.
Proof.
  intros [F H2]. split; auto. rewrite Bltb_correct in H2; auto. simpl in H2.
  destruct (Rlt_bool_spec (B2R a) 0); [discriminate|auto].
Qed.
Lemma ltb_fin (a b : double) : is_finite a = true -> is_finite b = true -> (Bltb a b = true <-> B2R a < B2R b).
Proof. intros Ha Hb. rewrite Bltb_correct by auto. destruct (Rlt_bool_spec (B2R a) (B2R b)); split; intros; try discriminate; auto; lra. Qed.
Lemma ltb_inf_l (b : double) : Bltb (B754_infinity false) b = false.
Proof. destruct b as [[|]|[|]| |[|] m e He]; reflexivity. Qed.
Lemma ltb_inf_r (a : double) : is_finite a = true -> Bltb a (B754_infinity false) = true.
Proof. destruct a as [[|]|[|]| |[|] m e He]; try discriminate; reflexivity. Qed.
Lemma le_fin (a b : double) : is_finite a = true -> is_finite b = true -> (Bltb b a = false <-> B2R a <= B2R b).
Proof. intros Ha Hb. rewrite Bltb_correct by auto. destruct (Rlt_bool_spec (B2R b) (B2R a)); split; intros; try discriminate; auto; lra. Qed.

Lemma sum_cases (c w : double) : is_finite c = true -> 0 <= B2R c -> is_finite w = true -> 0 <= B2R w ->
  (is_finite (dplus c w) = true /\ B2R (dplus c w) = rnd (B2R c + B2R w) /\ rnd (B2R c + B2R w) < bpow radix2 1024) \/
  (dplus c w = B754_infinity false /\ bpow radix2 1024 <= rnd (B2R c + B2R w)).
Proof.
  intros Fc Pc Fw Pw. pose proof (Bplus_correct 53 1024 _ _ mode_NE c w Fc Fw) as H. fold (dplus c w) in H.
  simpl round_mode in H.
  assert (P : 0 <= rnd (B2R c + B2R w)). { apply round_ge_generic; [apply fexp_correct; reflexivity|apply valid_rnd_N|apply generic_format_0|lra]. }
  rewrite (Rabs_pos_eq _ P) in H.
  destruct (Rlt_bool_spec (rnd (B2R c + B2R w)) (bpow radix2 1024)) as [L|L].
  - left. destruct H as (H1 & H2 & _). auto.
  - right. split; auto. destruct H as [H Hs]. unfold binary_overflow in H. simpl in H.
    destruct (Bsign c) eqn:Sc.
    + exfalso. assert (B2R c <= 0 /\ B2R w <= 0).
      { split; [destruct c as [s|s| |s m e He]|destruct w as [s|s| |s m e He]]; simpl in *; try lra; subst; apply Rlt_le, F2R_lt_0; reflexivity. }
      assert (E : B2R c + B2R w = 0) by lra. rewrite E, round_0 in L by apply valid_rnd_N. pose proof (bpow_gt_0 radix2 1024). lra.
    + destruct (dplus c w) as [s|s| |s m e He]; try discriminate. injection H as ->. auto.
Qed.
Lemma inf_plus (w : double) : is_finite w = true -> dplus (B754_infinity false) w = B754_infinity false.
Proof. destruct w; try discriminate; reflexivity. Qed.
Lemma rnd_mono x y : x <= y -> rnd x <= rnd y.
Proof. apply round_le; [apply fexp_correct; reflexivity|apply valid_rnd_N]. Qed.
Lemma rnd_val (c : double) : rnd (B2R c) = B2R c.
Proof. apply round_generic; [apply valid_rnd_N|apply generic_format_B2R]. Qed.

Lemma inf_ok : dok (B754_infinity false).
Proof. split; reflexivity. Qed.
Lemma fin_ok (a : double) : is_finite a = true -> 0 <= B2R a -> dok a.
Proof.
  intros F P. split; [destruct a; try discriminate; auto|]. rewrite Bltb_correct; auto. apply Rlt_bool_false. simpl. auto.
Qed.

Lemma DoubleLaws : CostLaws DoubleCost dok dwok.
Proof.
  constructor; unfold cle; simpl.
  - split; reflexivity.
  - apply inf_ok.
  - intros c w Hc Hw. apply dwok_cases in Hw as [Fw Pw]. destruct (dok_cases c Hc) as [[Fc Pc]| ->].
    + destruct (sum_cases c w Fc Pc Fw Pw) as [(F & E & _)|[-> _]]; [|apply inf_ok].
      apply fin_ok; auto. rewrite E. rewrite <- (round_0 radix2 fexp ZnearestE). apply rnd_mono. lra.
    + rewrite inf_plus by auto. apply inf_ok.
  - intros w. unfold dwok. tauto.
  - intros a Ha. destruct (dok_cases a Ha) as [[F P]| ->]; [|reflexivity]. apply le_fin; auto; lra.
  - intros a b c Ha Hb Hc. destruct (dok_cases a Ha) as [[Fa Pa]| ->]; [|rewrite ltb_inf_l; discriminate].
    destruct (dok_cases b Hb) as [[Fb Pb]| ->]; destruct (dok_cases c Hc) as [[Fc Pc]| ->].
    + rewrite ltb_fin, le_fin, ltb_fin by auto. lra.
    + intros _ _. apply ltb_inf_r; auto.
    + rewrite (ltb_inf_r c) by auto. discriminate.
    + auto.
  - intros a b c Ha Hb Hc. destruct (dok_cases c Hc) as [[Fc Pc]| ->]; [|rewrite !ltb_inf_l; auto].
    destruct (dok_cases b Hb) as [[Fb Pb]| ->]; [|rewrite (ltb_inf_r c) by auto; discriminate].
    destruct (dok_cases a Ha) as [[Fa Pa]| ->]; [|rewrite (ltb_inf_r b) by auto; discriminate].
    rewrite !le_fin by auto. lra.
  - intros a b Ha Hb. destruct (dok_cases b Hb) as [[Fb Pb]| ->]; [|rewrite ltb_inf_l; auto].
    destruct (dok_cases a Ha) as [[Fa Pa]| ->]; [|rewrite ltb_inf_l; discriminate].
    rewrite ltb_fin, le_fin by auto. lra.
  - intros a _. apply ltb_inf_l.
  - reflexivity.
  - intros a Ha. destruct Ha. auto.
  - intros c w Hc Hw. apply dwok_cases in Hw as [Fw Pw]. destruct (dok_cases c Hc) as [[Fc Pc]| ->].
    + destruct (sum_cases c w Fc Pc Fw Pw) as [(F & E & _)|[-> _]]; [|apply ltb_inf_l].
      apply le_fin; auto. rewrite E. rewrite <- (rnd_val c) at 1. apply rnd_mono. lra.
    + rewrite inf_plus by auto. reflexivity.
  - intros c c' w Hc Hc' Hw Hle. apply dwok_cases in Hw as [Fw Pw]. destruct (dok_cases c' Hc') as [[Fc' Pc']| ->].
    + destruct (dok_cases c Hc) as [[Fc Pc]| ->]; [|rewrite (ltb_inf_r c') in Hle by auto; discriminate].
      apply le_fin in Hle; auto. pose proof (rnd_mono (B2R c + B2R w) (B2R c' + B2R w) ltac:(lra)) as M.
      destruct (sum_cases c' w Fc' Pc' Fw Pw) as [(F' & E' & L')|[-> L']]; [|apply ltb_inf_l].
      destruct (sum_cases c w Fc Pc Fw Pw) as [(F & E & _)|[-> L]]; [|lra].
      apply le_fin; auto. rewrite E, E'. auto.
    + rewrite inf_plus by auto. apply ltb_inf_l.
Qed.
