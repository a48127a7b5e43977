(** What is expected of the matching module from Python: the matches on lanelets that can be passed stay, as they are, and an
    object has the members given and otherwise those it has in C++. *)
From Coq Require Import List Bool ZArith.
From Verif Require Import PyCallModel PyMatchModel.
Import ListNotations.

Section Spec.
Context {L Pose P D : Type}.

Definition lanelet_of (i : item L D) : option L := match i with Det l _ | Prob l _ _ => Some l | Other => None end.
(** The matches that stay. *)
Definition compliant (can_pass : L -> bool) (i : item L D) : bool :=
  match lanelet_of i with Some l => can_pass l | None => false end.

(** All items are of one class. *)
Definition all_det (l : list (item L D)) : Prop := forall i, In i l -> exists a d, i = Det a d.
Definition all_prob (l : list (item L D)) : Prop := forall i, In i l -> exists a d q, i = Prob a d q.
Definition is_match (i : item L D) : Prop := lanelet_of i <> None.
(** What ConstLaneletMatch knows of a match. *)
Definition base (i : item L D) : option (L * D) := match i with Det l d | Prob l d _ => Some (l, d) | Other => None end.

(** An object with the members given, the others as in C++. *)
Definition members (cpp : object Pose P D) (id : option Z) (pose : option Pose) (hull : option (list P))
    (cov : option (covariance D)) (kappa : option D) (o : object Pose P D) : Prop :=
  (forall x, id = Some x -> o_id o = x) /\ (id = None -> o_id o = o_id cpp) /\
  (forall x, pose = Some x -> o_pose o = x) /\ (pose = None -> o_pose o = o_pose cpp) /\
  (forall x, hull = Some x -> o_hull o = x) /\ (hull = None -> o_hull o = o_hull cpp) /\
  (forall x, cov = Some x -> o_cov o = x) /\ (cov = None -> o_cov o = o_cov cpp) /\
  (forall x, kappa = Some x -> o_kappa o = x) /\ (kappa = None -> o_kappa o = o_kappa cpp).
End Spec.
