(** Specification of rings of line strings, independent of the assembly. *)
From Coq Require Import List Arith Bool ZArith Permutation.
From Verif Require Import BoundaryModel.
Import ListNotations.
Local Open Scope list_scope.

(** The line string itself, without the orientation of the handle. *)
Definition key (l : ls) : Z * list Z := (l_id l, l_pts l).
(** The line strings, passed in order and in the direction of their handles, lead from
    point [p] to point [q]. *)
Inductive walk : Z -> list ls -> Z -> Prop :=
| walk_nil : forall p, walk p [] p
| walk_cons : forall p q t l r, hd_error (points l) = Some p -> hd_error (rev (points l)) = Some q ->
    walk q r t -> walk p (l :: r) t.
Definition ring (r : list ls) : Prop := r <> [] /\ exists p, walk p r p.
Definition open_walk (r : list ls) : Prop := r <> [] /\ exists p q, walk p r q /\ p <> q.
(** The ring passed in the other direction. *)
Inductive reversed : list ls -> list ls -> Prop :=
| rev_nil : reversed [] []
| rev_cons : forall l r s, reversed r s ->
    reversed (l :: r) (s ++ [LS (l_id l) (l_pts l) (negb (l_inv l))]).
(** The ring entered at another line string. *)
Definition rotation (r s : list ls) : Prop := exists a b, r = a ++ b /\ s = b ++ a.
(** The points at which line strings of the ring meet. *)
Definition junctions (r : list ls) : list (option Z) := map (fun l => hd_error (points l)) r.

(** What an error says about the ring given up: it leads to a point [q] at which no
    line string is left, or it is closed, but no valid boundary in either direction. *)
Definition given_up (valid : list ls -> bool) (todo : list ls) (e : berror) (r : list ls) : Prop :=
  match e with
  | EIncomplete i => exists p q a l, r = a ++ [l] /\ l_id l = i /\ walk p r q /\ p <> q /\
      (forall x, In x todo -> hd_error (points x) <> Some q /\ hd_error (rev (points x)) <> Some q)
  | EInvalid => ring r /\ valid r = false /\ forall s, reversed r s -> valid s = false
  end.

(** How the line strings are used, in order: rings, and rings given up with an error; [t] is
    what is left when all line strings have been used. *)
Inductive history (valid : list ls -> bool) : list (option berror * list ls) -> list ls -> Prop :=
| h_end : forall t, t = [] \/ open_walk t -> history valid [] t
| h_ring : forall r h t, ring r -> valid r = true -> history valid h t -> history valid ((None, r) :: h) t
| h_error : forall e r h t, given_up valid (concat (map snd h) ++ t) e r -> history valid h t ->
    history valid ((Some e, r) :: h) t.
Definition rings_of (h : list (option berror * list ls)) : list (list ls) :=
  concat (map (fun x => match fst x with None => [snd x] | Some _ => [] end) h).
Definition errors_of (h : list (option berror * list ls)) : list berror :=
  concat (map (fun x => match fst x with None => [] | Some e => [e] end) h).
