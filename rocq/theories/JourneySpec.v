(** Ways through a map, without reference to a graph. *)
From Coq Require Import NArith List Bool Relations.
From Verif Require Import CostAlg GraphModel BuilderModel BuilderSpec.
Import ListNotations.

Section Spec.
Context {A : CostAlg}.
Variable w : world.
Variable ru : rules.

(** b begins where a ends, both can be used, and the traffic rules let one pass from a to b. *)
Definition leads_to (a b : lref) : Prop :=
  usable w ru a /\ usable w ru b /\ continued_by w a b /\ may_pass ru (L a) (L b) = true.
(** The lanelets [ls] lead from a to b at the cost c of the module: costs are added in driving order and are neither negative nor infinite. *)
Inductive way (m : @module A) (a : lref) : list lref -> lref -> cost A -> Prop :=
| way_start : usable w ru a -> way m a [a] a (czero A)
| way_on ls b c d : way m a ls b c -> leads_to b d ->
    cfinite A (m_succeeding m (L b) (L d)) = true -> cltb A (m_succeeding m (L b) (L d)) (czero A) = false ->
    way m a (ls ++ [d]) d (cplus A c (m_succeeding m (L b) (L d))).
(** The sum is not infinite. *)
Definition payable (c : cost A) : Prop := cltb A c (cinf A) = true.
(** A cheapest way, and that there is none. *)
Definition cheapest (m : @module A) (a b : lref) (ls : list lref) : Prop :=
  exists c, way m a ls b c /\ payable c /\ NoDup ls /\ forall ls' c', way m a ls' b c' -> cle A c c'.
Definition no_way (m : @module A) (a b : lref) : Prop := forall ls c, way m a ls b c -> ~ payable c.

(** With lane changes: on to the next lanelet, or to the one beside. *)
Definition moves_to (a b : lref) : Prop := leads_to a b \/ exists s, changeable w ru s (a, b).
Fixpoint each_moves (a : lref) (ls : list lref) : Prop :=
  match ls with [] => True | b :: r => moves_to a b /\ each_moves b r end.
(** The module refuses nothing and sums of costs stay finite. *)
Record generous (m : @module A) : Prop := {
  gen_on : forall x y, cfinite A (m_succeeding m x y) = true /\ cltb A (m_succeeding m x y) (czero A) = false;
  gen_change : forall f t, cfinite A (m_change m f t) = true /\ cltb A (m_change m f t) (czero A) = false;
  gen_sum : forall c d, payable c -> cfinite A d = true -> cltb A d (czero A) = false -> payable (cplus A c d) }.
End Spec.
