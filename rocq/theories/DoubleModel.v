(** Costs as IEEE 754 double precision numbers (Flocq), as the library computes them.

    Source: lanelet2_routing/include/lanelet2_routing/internal/ShortestPath.h:122-128
    (std::less<double>, boost::closed_plus<double>, infinity()). boost::closed_plus (boost/graph/relax.hpp) is
    default-constructed with inf = std::numeric_limits<double>::max(): it returns inf if one operand equals inf,
    otherwise the sum. *)
From Coq Require Import ZArith Bool.
From Flocq Require Import IEEE754.BinarySingleNaN.
From Verif Require Import CostAlg.

Notation double := (binary_float 53 1024).
Definition p53 : FLX.Prec_gt_0 53 := eq_refl.
Definition p1024 : Prec_lt_emax 53 1024 := eq_refl.

(** a + b, rounded to nearest even. *)
Definition dplus (a b : double) : double := @Bplus 53 1024 p53 p1024 mode_NE a b.
Definition dmax : double := B754_finite (prec := 53) (emax := 1024) false (2 ^ 53 - 1)%positive 971 eq_refl.
Definition closed_plus (a b : double) : double :=
  if Beqb a dmax then dmax else if Beqb b dmax then dmax else dplus a b.

Definition double_alg (plus : double -> double -> double) : CostAlg := {|
  cost := double; czero := B754_zero false; cinf := B754_infinity false; cplus := plus;
  cltb := Bltb (prec := 53) (emax := 1024); cfinite := is_finite (prec := 53) (emax := 1024) |}.
(** With plain addition, and with the addition the library uses. *)
Definition DoubleCost : CostAlg := double_alg dplus.
Definition LibraryCost : CostAlg := double_alg closed_plus.

(** The values that occur: not NaN and not negative; weights are finite. *)
Definition dok (a : double) : Prop := is_nan a = false /\ Bltb a (B754_zero false) = false.
Definition dwok (a : double) : Prop := is_finite a = true /\ Bltb a (B754_zero false) = false.
