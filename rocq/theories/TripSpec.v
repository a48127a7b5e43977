(** Trips through a map on which lanes may be changed, without reference to a graph. *)
From Coq Require Import NArith List Bool Relations.
From Verif Require Import CostAlg GraphModel BuilderModel BuilderSpec JourneySpec.
Import ListNotations.

Section Spec.
Context {A : CostAlg}.

(** A cost that counts: finite and not negative. *)
Definition acceptable (c : cost A) : Prop := cfinite A c = true /\ cltb A c (czero A) = false.
(** One step of a trip: from a lanelet to another one at a cost. *)
Definition stepping := lref -> lref -> cost A -> Prop.
(** Driving on to the next lanelet, for what the module says. *)
Definition drives_on (w : world) (ru : rules) (m : @module A) : stepping :=
  fun a b c => leads_to w ru a b /\ c = m_succeeding m (L a) (L b) /\ acceptable c.
(** Driving on, or changing to the lanelet beside for the fixed price [p]. *)
Definition drives_or_changes (w : world) (ru : rules) (m : @module A) (p : cost A) : stepping :=
  fun a b c => drives_on w ru m a b c \/ (exists s, changeable w ru s (a, b)) /\ c = p /\ acceptable c.
(** The same steps, made backwards. *)
Definition backwards (St : stepping) : stepping := fun a b c => St b a c.
(** The lanelets [ls] lead from a to b by steps; the costs are added in the order of the steps. *)
Inductive trip (w : world) (ru : rules) (St : stepping) (a : lref) : list lref -> lref -> cost A -> Prop :=
| trip_start : usable w ru a -> trip w ru St a [a] a (czero A)
| trip_on ls b c d e : trip w ru St a ls b c -> St b d e -> trip w ru St a (ls ++ [d]) d (cplus A c e).
(** A cheapest trip, and that there is none. *)
Definition cheapest_trip (w : world) (ru : rules) (St : stepping) (a b : lref) (ls : list lref) : Prop :=
  exists c, trip w ru St a ls b c /\ payable c /\ NoDup ls /\ forall ls' c', trip w ru St a ls' b c' -> cle A c c'.
Definition no_trip (w : world) (ru : rules) (St : stepping) (a b : lref) : Prop := forall ls c, trip w ru St a ls b c -> ~ payable c.
(** Cheapest trips from point to point; where two of them meet, the lanelet is named once. *)
Inductive stages (w : world) (ru : rules) (St : stepping) : list lref -> list lref -> Prop :=
| stage_last a b ls : cheapest_trip w ru St a b ls -> stages w ru St [a; b] ls
| stage_more a b rest ls r : cheapest_trip w ru St a b ls -> stages w ru St (b :: rest) (b :: r) -> stages w ru St (a :: b :: rest) (ls ++ r).
(** The price of a lane change does not depend on the lanelets. *)
Definition fixed_price (m : @module A) (p : cost A) : Prop := forall f t, m_change m f t = p.
(** Lanelets to which a trip within the budget leads. *)
Definition within (w : world) (ru : rules) (St : stepping) (a : lref) (budget : cost A) (b : lref) : Prop :=
  exists ls c, trip w ru St a ls b c /\ payable c /\ cle A c budget.
(** Changing lanes to the same side again and again never leads back. *)
Definition no_rings (w : world) (ru : rules) : Prop := forall s a, ~ clos_trans lref (fun x y => changeable w ru s (x, y)) a a.
End Spec.
