(** Properties of the assembly of area rings (C36). *)
From Coq Require Import List Arith Bool ZArith Permutation Lia.
From Verif Require Import BoundaryModel BoundarySpec BoundaryProofs.
Import ListNotations.
Local Open Scope list_scope.

(** Every list of non-empty line strings, in every order and orientation: the assembly
    ends; the rings it returns are closed, valid and joined at shared points; with the
    rings given up (one error each, with its reason) and the line strings [t] left at the
    end they use every line string of the list exactly once. Weaker than the property: no
    error for [t]. *)
Theorem C36_rings_partial : forall (valid : list ls -> bool) l, (forall x, In x l -> l_pts x <> []) ->
  exists h t, assemble valid l = Done (rings_of h, errors_of h) /\ history valid h t /\
    Permutation (map key l) (map key (concat (map snd h) ++ t)).
Proof. intros valid l H. apply assemble_ok. apply List.Forall_forall. exact H. Qed.
Print Assumptions C36_rings_partial.

(** If the list consists of the line strings of some rings, in any order and each in any
    direction, and no two of them meet other line strings at the same point, then
    exactly these rings are found (each entered anywhere), without an error. [valid]
    tells the two directions of the rings apart and does not depend on where a ring is
    entered. *)
Theorem C36_rings_found : forall (valid : list ls -> bool) rs l,
  (forall r, In r rs -> ring r) -> NoDup (junctions (concat rs)) ->
  (forall r s t, In r rs -> rotation r s -> reversed s t -> valid s = true /\ valid t = false) ->
  Permutation (map key l) (map key (concat rs)) ->
  exists rs' out, assemble valid l = Done (out, []) /\ Permutation rs rs' /\ Forall2 rotation rs' out.
Proof.
  intros valid rs l R D V P. apply assemble_complete; auto; apply List.Forall_forall; auto.
  intros r Hr s Hs. apply (V r s (reverse s) Hr Hs). apply reversed_reverse.
Qed.
Print Assumptions C36_rings_found.

(** An area with a single ring: getOuterRing returns it. *)
Theorem C36_outer_ring : forall (valid : list ls -> bool) r l,
  ring r -> NoDup (junctions r) ->
  (forall s t, rotation r s -> reversed s t -> valid s = true /\ valid t = false) ->
  Permutation (map key l) (map key r) ->
  exists s, outer_ring valid l = Done (s, []) /\ rotation r s.
Proof.
  intros valid r l R D V P. destruct (C36_rings_found valid [r] l) as (rs' & out & E & Pr & F).
  - intros r' [<-|[]]; auto.
  - cbn. rewrite app_nil_r. auto.
  - intros r' s t [<-|[]]. apply V.
  - cbn. rewrite app_nil_r. auto.
  - apply Permutation_length_1_inv in Pr. subst rs'. inversion F as [|? s ? o Rot F']; subst. inversion F'; subst.
    exists s. split; auto. unfold outer_ring. destruct l as [|x l].
    + destruct R as [N _]. apply Permutation_nil in P. destruct r; [congruence|discriminate].
    + rewrite E. auto.
Qed.
Print Assumptions C36_outer_ring.

(** Line strings that are left over at the end are dropped without any error, also when a
    ring was found. *)
Theorem C36_unreported_refuted : exists (valid : list ls -> bool) l r x,
  (forall y, In y l -> l_pts y <> []) /\ outer_ring valid l = Done (r, []) /\ In x l /\ ~ In (key x) (map key r).
Proof.
  exists (fun _ => true), [LS 10 [1; 2; 1] false; LS 11 [3; 4] false]%Z, [LS 10 [1; 2; 1] false]%Z, (LS 11 [3; 4] false)%Z.
  split; [|split; [reflexivity|split; [cbn; auto|]]].
  - intros y [<-|[<-|[]]]; discriminate.
  - intros [H|[]]. discriminate.
Qed.
Print Assumptions C36_unreported_refuted.

(** Two rings, given mixed, three line strings against their direction: found. [cw]: the sum of
    the shoelace formula of a clockwise ring is negative. *)
Definition ex_xy (p : Z) : Z * Z :=
  match p with 1 => (0, 0) | 2 => (0, 9) | 3 => (9, 0) | 4 => (1, 1) | 5 => (1, 2) | 6 => (2, 1) | _ => (0, 0) end%Z.
Fixpoint shoelace (ps : list Z) : Z :=
  match ps with
  | p :: ((q :: _) as r) => (fst (ex_xy p) * snd (ex_xy q) - fst (ex_xy q) * snd (ex_xy p) + shoelace r)%Z
  | _ => 0%Z
  end.
Definition cw (r : list ls) : bool := Z.ltb (shoelace (concat (map points r))) 0.
Definition ex_outer := [LS 10 [1; 2] false; LS 11 [3; 2] true; LS 12 [3; 1] false]%Z.
Definition ex_inner := [LS 13 [5; 4] true; LS 14 [4; 6; 5] true]%Z.
Definition ex_lines := [LS 14 [4; 6; 5] false; LS 11 [3; 2] false; LS 13 [5; 4] false; LS 12 [3; 1] true; LS 10 [1; 2] true]%Z.
Lemma rotations r s : rotation r s -> exists k, k <= length r /\ s = skipn k r ++ firstn k r.
Proof.
  intros (a & b & -> & ->). exists (length a). rewrite app_length. split; [lia|].
  rewrite skipn_app, firstn_app, Nat.sub_diag, skipn_all, firstn_all. cbn. rewrite app_nil_r. auto.
Qed.
Example C36_nonvacuous :
  (forall r, In r [ex_outer; ex_inner] -> ring r) /\ NoDup (junctions (concat [ex_outer; ex_inner])) /\
  (forall r s t, In r [ex_outer; ex_inner] -> rotation r s -> reversed s t -> cw s = true /\ cw t = false) /\
  Permutation (map key ex_lines) (map key (concat [ex_outer; ex_inner])) /\
  assemble cw ex_lines = Done ([[LS 13 [5; 4] true; LS 14 [4; 6; 5] true]; [LS 12 [3; 1] false; LS 10 [1; 2] false; LS 11 [3; 2] true]]%Z, []) /\
  (* a gap: both line strings are reported or left *)
  assemble cw [LS 1 [1; 2] false; LS 2 [3; 4] false; LS 3 [7; 8; 9; 7] false]%Z = Done ([], [EIncomplete 1; EIncomplete 2; EInvalid]%Z) /\
  outer_ring cw ex_lines = Done ([], [ENotOne]) /\
  outer_ring cw [LS 12 [3; 1] true; LS 10 [1; 2] true; LS 11 [3; 2] false]%Z = Done ([LS 10 [1; 2] false; LS 11 [3; 2] true; LS 12 [3; 1] false]%Z, []).
Proof.
  split; [|split; [|split; [|split; [|vm_compute; repeat split]]]].
  - intros r [<-|[<-|[]]]; (split; [discriminate|]); eexists; unfold ex_outer, ex_inner;
      repeat (eapply walk_cons; [reflexivity|reflexivity|]); apply walk_nil.
  - vm_compute. repeat (constructor; [cbn; intuition discriminate|]). constructor.
  - intros r s t H Rot Rev. apply rotations in Rot. destruct Rot as (k & Hk & ->). apply reversed_unique in Rev. subst t.
    destruct H as [<-|[<-|[]]]; cbn in Hk; do 4 (destruct k as [|k]; [vm_compute; auto|]); lia.
  - vm_compute. apply NoDup_Permutation_bis; [|cbn; lia|].
    + repeat (constructor; [cbn; intuition discriminate|]). constructor.
    + intros x H. cbn in *. tauto.
Qed.
