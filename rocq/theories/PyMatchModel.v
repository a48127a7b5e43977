(** Model of the matching module from Python: the objects that are matched and the filter for matches.

    Source: lanelet2_python/python_api/matching.cpp, lanelet2_matching/include/lanelet2_matching/Types.h:45-80,
    lanelet2_matching/src/Utilities.cpp:73-83 and LaneletMatching.h:86-95.

    Lanelets, poses, points and numbers are parameters. Not modelled: Pose2d and its text, the search for matches (C89). *)
From Coq Require Import List Bool ZArith.
From Verif Require Import PyCallModel MatchingModel.
Import ListNotations.

Section Match.
Context {L Pose P D : Type}.
Variables (identity : Pose) (zero : D) (inval : Z).

(** A member that may never have been written: Eigen::Matrix has a default constructor that leaves the numbers as they are. *)
Inductive number := Given (x : D) | Indeterminate.
(** PositionCovariance2d (Types.h:45), row by row. *)
Definition covariance := (number * number * number * number)%type.
Definition cov_zero : covariance := (Given zero, Given zero, Given zero, Given zero).
(** PositionCovariance2d() in C++, evaluated for the default argument in matching.cpp:166. *)
Definition cov_default : covariance := (Indeterminate, Indeterminate, Indeterminate, Indeterminate).

(** ObjectWithCovariance2d (Types.h:53-62) with the members of Object2d. *)
Record object := Object {
  o_id : Z; o_pose : Pose; o_hull : list P; o_cov : covariance; o_kappa : D }.
(** ObjectWithCovariance2d{} in C++: the member initialisers, Types.h:54-61. *)
Definition object_cpp : object := Object inval identity [] cov_zero zero.

(** covFromVarXVarYCovXY, matching.cpp:106-110: what PositionCovariance2d(...) in Python makes. It is defined behind
    init<>() and so tried first; all its arguments have a default (matching.cpp:142-144). *)
Definition or_else {T} (o : option T) (d : T) : T := match o with Some x => x | None => d end.
Definition make_covariance (var_x var_y cov_xy : option D) : covariance :=
  let c := Given (or_else cov_xy zero) in (Given (or_else var_x zero), c, c, Given (or_else var_y zero)).

(** The constructor of ObjectWithCovariance2d, matching.cpp:149-166, arguments left out being None. *)
Definition make_object (id : option Z) (pose : option Pose) (hull : option (list P)) (cov : option covariance)
    (kappa : option D) : object :=
  Object (or_else id inval) (or_else pose identity) (or_else hull []) (or_else cov cov_default) (or_else kappa zero).

(** getMahalanobisDistSq, Utilities.cpp:73-83, up to the computation: isZero() and determinant() read the covariance.
    [is_zero], [singular] and [dist] are the tests and the result for numbers. *)
Inductive distance := Distance (d : D) | MatchingError | UndefinedValue.
Definition mahalanobis (is_zero singular : D * D * D * D -> bool) (dist : L -> D * D * D * D -> D) (l : L) (o : object)
  : distance :=
  match o_cov o with
  | (Given a, Given b, Given c, Given d) =>
      if is_zero (a, b, c, d) then MatchingError else if singular (a, b, c, d) then MatchingError
      else Distance (dist l (a, b, c, d))
  | _ => UndefinedValue
  end.

(** ** removeNonRuleCompliantMatches *)

(** Items of a Python list: ConstLaneletMatch, ConstLaneletMatchProbabilistic (derived from it, matching.cpp:174-176) and
    anything else. *)
Inductive item := Det (l : L) (d : D) | Prob (l : L) (d : D) (q : D) | Other.

(** extract<T> of stl_input_iterator<T>: an instance of the derived class is converted to the base class by copying the
    base part. [None] is error_already_set. *)
Definition as_prob (i : item) : option (L * D * D) := match i with Prob l d q => Some (l, d, q) | _ => None end.
Definition as_det (i : item) : option (L * D) :=
  match i with Det l d => Some (l, d) | Prob l d _ => Some (l, d) | Other => None end.
Fixpoint extract_all {T} (f : item -> option T) (l : list item) : option (list T) :=
  match l with
  | [] => Some []
  | i :: r => match f i with
              | None => None
              | Some x => match extract_all f r with Some xs => Some (x :: xs) | None => None end
              end
  end.

(** The result: a list of items, std::runtime_error, or a null pointer that is followed. The traffic rules are a
    shared_ptr, which Boost.Python makes from None as null. *)
Inductive checked := Matches (l : list item) | RuntimeError | NullPointer.
(** LaneletMatching.h:86-95; without an element the rules are not looked at. *)
Definition remove_matches {T} (lanelet : T -> L) (rules : option (L -> bool)) (l : list T) : option (list T) :=
  match l, rules with
  | [], _ => Some []
  | _, None => None
  | _, Some can_pass => Some (remove_if (fun m => negb (can_pass (lanelet m))) l)
  end.
Definition to_list {T} (f : T -> item) (r : option (list T)) : checked :=
  match r with Some l => Matches (map f l) | None => NullPointer end.

(** ruleCheckWrapper, matching.cpp:91-104 *)
Definition rule_check (matches : list item) (rules : option (L -> bool)) : checked :=
  match extract_all as_prob matches with
  | Some l => to_list (fun m => Prob (fst (fst m)) (snd (fst m)) (snd m)) (remove_matches (fun m => fst (fst m)) rules l)
  | None =>
      match extract_all as_det matches with
      | Some l => to_list (fun m => Det (fst m) (snd m)) (remove_matches fst rules l)
      | None => RuntimeError
      end
  end.
End Match.
Arguments number : clear implicits. Arguments object : clear implicits. Arguments item : clear implicits.
Arguments covariance : clear implicits. Arguments checked : clear implicits. Arguments distance : clear implicits.

(** The setter of Object2d.absoluteHull, matching.cpp:136-138: hullFromList takes the list only; Python calls it with the
    object and the list. *)
Definition hull_setter {V} : binding V := Binding 1 [].
