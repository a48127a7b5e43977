(** C55: routing with double precision costs. *)
From Coq Require Import NArith ZArith List Bool.
From Flocq Require Import IEEE754.BinarySingleNaN.
From Verif Require Import CostAlg GraphModel GraphProofs GraphProps DijkstraModel RoutingSpec RoutingProofs RoutingProps DoubleModel DoubleProofs.
Import ListNotations.

(** Double precision numbers with addition rounded to nearest satisfy everything the routing theorems (C11 to C15) assume of
    the cost arithmetic. Not covered: the treatment of the largest double by boost::closed_plus, see below. *)
Theorem C55_double_laws_partial : CostLaws DoubleCost dok dwok.
Proof. exact DoubleLaws. Qed.
Print Assumptions C55_double_laws_partial.
(** So a returned path is optimal in terms of the rounded sums. *)
Theorem C55_shortest_path_partial m (ops : list (gop DoubleCost)) tie a b costid lc ar :
  let g := gbuild m ops in
  let P := drivable g costid lc ar in
  match shortest_path tie g a b costid lc ar with
  | QRet (Some p) => path_between g P a b p /\ (costid < g_numcosts g)%N
  | QRet None => no_path g P a b
  | QThrow => (exists s t, get_vertex g a = Some s /\ get_vertex g b = Some t) /\
      ((g_numcosts g <= costid)%N \/ (ar = false /\ area_between g P a b))
  | QBroken => False
  end.
Proof. exact (C11_shortest_path_optimal DoubleCost dok dwok DoubleLaws m ops tie a b costid lc ar). Qed.
Print Assumptions C55_shortest_path_partial.
(** The addition of the library is the rounded sum unless an operand is the largest double. *)
Theorem C55_closed_plus (a b : double) : Beqb a dmax = false -> Beqb b dmax = false -> closed_plus a b = dplus a b.
Proof. intros Ha Hb. unfold closed_plus. rewrite Ha, Hb. auto. Qed.
Print Assumptions C55_closed_plus.

(** With the largest double as an intermediate sum, adding a weight is not monotone: the larger cost plus the weight is the
    smaller one, because the largest double stands for infinity in closed_plus but not in the search. *)
Definition below_max : double := B754_finite (prec := 53) (emax := 1024) false (2 ^ 53 - 2)%positive 971 eq_refl.
Definition huge2 : double := B754_finite (prec := 53) (emax := 1024) false (2 ^ 52)%positive 960 eq_refl.
Theorem C55_closed_plus_refuted : exists c c' w, dok c /\ dok c' /\ dwok w /\ cle LibraryCost c c' /\
  ~ cle LibraryCost (closed_plus c w) (closed_plus c' w).
Proof. exists below_max, dmax, huge2. vm_compute. repeat split. discriminate. Qed.
Print Assumptions C55_closed_plus_refuted.

(** Rounded addition is not associative, so the routing theorems could not assume it. *)
Definition d_one : double := B754_finite (prec := 53) (emax := 1024) false (2 ^ 52)%positive (-52) eq_refl.
Definition d_big : double := B754_finite (prec := 53) (emax := 1024) false (2 ^ 52)%positive 1 eq_refl.
Definition dedge (a b : N) (c : double) (r : relation) : gop DoubleCost := OpEdge (ll a) (ll b) (EInfo (A := DoubleCost) c 0 r).
Definition double_ops : list (gop DoubleCost) :=
  [OpVertex (ll 1); OpVertex (ll 2); OpVertex (ll 3); dedge 1 2 d_big Successor; dedge 2 3 d_one Successor; dedge 1 3 (dplus d_big d_big) Successor].
Example C55_nonvacuous :
  Beqb (dplus (dplus d_one d_one) d_big) (dplus d_one (dplus d_one d_big)) = false /\
  shortest_path tie0 (gbuild 1 double_ops) (ll 1) (ll 3) 0 true false = QRet (Some [ll 1; ll 2; ll 3]).
Proof. vm_compute. auto. Qed.
