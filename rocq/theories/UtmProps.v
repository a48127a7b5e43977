(** Properties of the UTM projector (C52). *)
From Coq Require Import ZArith Bool Lia.
From Verif Require Import UtmModel.
Local Open Scope Z_scope.

(** What is assumed of GeographicLib, in exact arithmetic: Reverse inverts Forward, also after
    Transfer to another zone; a point obtained by Reverse is projected back to the same
    coordinates, directly or by Transfer. *)
Record lib_laws {D} (fwd : D -> D -> option (Z * bool * D * D)) (rev : Z -> bool -> D -> D -> option (D * D))
    (trans : Z -> bool -> D -> D -> Z -> bool -> option (D * D * Z)) : Prop := {
  law_reverse : forall a o z n x y, fwd a o = Some (z, n, x, y) -> rev z n x y = Some (a, o);
  law_transfer : forall a o z n x y z' n' x' y', fwd a o = Some (z, n, x, y) -> trans z n x y z' n' = Some (x', y', z') ->
    rev z' n' x' y' = Some (a, o);
  law_forward : forall z n x y a o, rev z n x y = Some (a, o) ->
    exists z' n' x' y', fwd a o = Some (z', n', x', y') /\ (z' = z -> n' = n -> x' = x /\ y' = y) /\
      forall x'' y'', trans z' n' x' y' z n = Some (x'', y'', z) -> x'' = x /\ y'' = y }.

Section Utm.
Context {D : Type}.
Variables (add sub : D -> D -> D) (zero : D).
Hypothesis add_sub : forall a b, add (sub a b) b = a.
Hypothesis sub_add : forall a b, sub (add a b) b = a.
Hypothesis sub_diag : forall a, sub a a = zero.
Variable fwd : D -> D -> option (Z * bool * D * D).
Variable rev : Z -> bool -> D -> D -> option (D * D).
Variable trans : Z -> bool -> D -> D -> Z -> bool -> option (D * D * Z).
Hypothesis laws : lib_laws fwd rev trans.
Variable u : @projector D.
Notation forward := (forward sub fwd trans u).
Notation reverse := (reverse add sub fwd rev trans u).

Lemma same_zone_eq z n : same_zone u z n = true <-> z = u_zone u /\ n = u_north u.
Proof. unfold same_zone. rewrite andb_true_iff, Z.eqb_eq, eqb_true_iff. tauto. Qed.
Lemma reverse_forward g p : forward g = Ok p -> reverse p = Ok g.
Proof.
  intros F. assert (rev (u_zone u) (u_north u) (if u_use_offset u then add (px p) (u_x u) else px p)
    (if u_use_offset u then add (py p) (u_y u) else py p) = Some (lat g, lon g) /\ pz p = ele g) as [R Z].
  { unfold UtmModel.forward in F. destruct (fwd (lat g) (lon g)) as [[[[z n] x] y]|] eqn:E; [|discriminate].
    destruct (same_zone u z n) eqn:S.
    - apply same_zone_eq in S. destruct S as [-> ->]. injection F as <-. unfold offset.
      destruct (u_use_offset u); cbn; rewrite ?add_sub; split; auto; apply (law_reverse _ _ _ laws _ _ _ _ _ _ E).
    - destruct (u_throw u); [discriminate|]. destruct (trans z n x y (u_zone u) (u_north u)) as [[[x' y'] z']|] eqn:T; [|discriminate].
      destruct (Z.eqb_spec z' (u_zone u)); [subst z'|discriminate]. injection F as <-. unfold offset.
      destruct (u_use_offset u); cbn; rewrite ?add_sub; split; auto; apply (law_transfer _ _ _ laws _ _ _ _ _ _ _ _ _ _ E T). }
  unfold UtmModel.reverse. rewrite R, Z.
  assert (G (lat g) (lon g) (ele g) = g) as Eg by (destruct g; auto). rewrite Eg.
  destruct (u_throw u); auto. rewrite F. auto.
Qed.
Lemma forward_reverse p g : reverse p = Ok g -> (exists q, forward g = Ok q) -> forward g = Ok p.
Proof.
  intros R [q Fq]. rewrite Fq. f_equal.
  unfold UtmModel.reverse in R. set (x := if u_use_offset u then add (px p) (u_x u) else px p) in *.
  set (y := if u_use_offset u then add (py p) (u_y u) else py p) in *.
  destruct (rev (u_zone u) (u_north u) x y) as [[a o]|] eqn:E; [|discriminate].
  assert (g = G a o (pz p)) as -> by (destruct (u_throw u); [destruct (forward (G a o (pz p)))|]; congruence). clear R.
  destruct (law_forward _ _ _ laws _ _ _ _ _ _ E) as (z' & n' & x' & y' & Ef & Same & Tr).
  assert (offset sub u x y (pz p) = p) as Eo.
  { unfold offset, x, y. destruct p. destruct (u_use_offset u); cbn; rewrite ?sub_add; auto. }
  unfold UtmModel.forward in Fq. cbn [lat lon ele] in Fq. rewrite Ef in Fq. destruct (same_zone u z' n') eqn:S.
  - apply same_zone_eq in S. destruct S as [S1 S2]. destruct (Same S1 S2) as [-> ->]. congruence.
  - destruct (u_throw u); [discriminate|]. destruct (trans z' n' x' y' (u_zone u) (u_north u)) as [[[x'' y''] z'']|] eqn:T; [|discriminate].
    destruct (Z.eqb_spec z'' (u_zone u)); [subst z''|discriminate]. destruct (Tr _ _ eq_refl) as [-> ->]. congruence.
Qed.
End Utm.

(** Every projector, with and without offset, in both modes: what forward accepts comes back. *)
Theorem C52_reverse_forward : forall {D} (add sub : D -> D -> D) fwd rev trans u g p,
  (forall a b, add (sub a b) b = a) -> lib_laws fwd rev trans ->
  forward sub fwd trans u g = Ok p -> reverse add sub fwd rev trans u p = Ok g.
Proof. intros D add sub fwd rev trans u g p A L. apply reverse_forward; auto. Qed.
Print Assumptions C52_reverse_forward.
(** In the other direction: always with throwInPaddingArea; without it unless the point is too
    far from the zone to be projected forward at all. *)
Theorem C52_forward_reverse : forall {D} (add sub : D -> D -> D) fwd rev trans u g p,
  (forall a b, sub (add a b) b = a) -> lib_laws fwd rev trans ->
  reverse add sub fwd rev trans u p = Ok g ->
  forward sub fwd trans u g = Ok p \/ (u_throw u = false /\ forward sub fwd trans u g = ForwardError).
Proof.
  intros D add sub fwd rev trans u g p A L R. destruct (forward sub fwd trans u g) as [q| |] eqn:F.
  - left. rewrite <- F. eapply forward_reverse; eauto.
  - right. split; auto. destruct (u_throw u) eqn:T; auto. exfalso. unfold reverse in R. rewrite T in R.
    destruct (rev _ _ _ _) as [[a o]|]; [|discriminate]. destruct (forward sub fwd trans u (G a o (pz p))) eqn:F'; try discriminate. congruence.
  - exfalso. unfold forward in F. repeat match type of F with context [match ?x with _ => _ end] => destruct x end; discriminate.
Qed.
Print Assumptions C52_forward_reverse.
(** With useOffset the origin has the coordinates zero. *)
Theorem C52_origin : forall {D} (sub : D -> D -> D) zero fwd trans origin throw u,
  (forall a, sub a a = zero) -> construct zero fwd origin true throw = Some u ->
  forward sub fwd trans u origin = Ok (B zero zero (ele origin)).
Proof.
  intros D sub zero fwd trans origin throw u S H. unfold construct in H.
  destruct (fwd (lat origin) (lon origin)) as [[[[z n] x] y]|] eqn:E; [|discriminate]. injection H as <-.
  unfold forward. rewrite E. unfold same_zone, offset. cbn. rewrite Z.eqb_refl, eqb_reflx. cbn. rewrite !S. auto.
Qed.
Print Assumptions C52_origin.
(** With throwInPaddingArea only points in the zone and hemisphere of the origin are converted, in both
    directions. *)
Theorem C52_zone : forall {D} (add sub : D -> D -> D) zero fwd rev trans origin off u,
  construct zero fwd origin off true = Some u ->
  exists z n x0 y0, fwd (lat origin) (lon origin) = Some (z, n, x0, y0) /\
    forall g, (exists p, forward sub fwd trans u g = Ok p \/ reverse add sub fwd rev trans u p = Ok g) ->
      exists x y, fwd (lat g) (lon g) = Some (z, n, x, y).
Proof.
  intros D add sub zero fwd rev trans origin off u H. unfold construct in H.
  destruct (fwd (lat origin) (lon origin)) as [[[[z n] x] y]|] eqn:E; [|discriminate]. exists z, n, x, y. split; auto. injection H as <-.
  intros g (p & H). set (u := Projector z n off true _ _) in *.
  assert (exists q, forward sub fwd trans u g = Ok q) as [q F].
  { destruct H as [H|H]; eauto. unfold reverse in H. destruct (rev _ _ _ _) as [[a o]|]; [|discriminate]. cbn [u_throw u] in H.
    destruct (forward sub fwd trans u (G a o (pz p))) as [q| |] eqn:F; try discriminate. exists q. congruence. }
  unfold forward in F. destruct (fwd (lat g) (lon g)) as [[[[z' n'] x'] y']|] eqn:E'; [|discriminate].
  destruct (same_zone u z' n') eqn:S; [|discriminate]. apply same_zone_eq in S. destruct S as [-> ->]. eauto.
Qed.
Print Assumptions C52_zone.
(** forward only throws ForwardProjectionError, reverse only ReverseProjectionError. *)
Theorem C52_errors : forall {D} (add sub : D -> D -> D) fwd rev trans u g p,
  forward sub fwd trans u g <> ReverseError /\ reverse add sub fwd rev trans u p <> ForwardError.
Proof.
  intros. split; [unfold forward|unfold reverse]; repeat match goal with |- context [match ?x with _ => _ end] => destruct x end; discriminate.
Qed.
Print Assumptions C52_errors.

(** A library with zones of width 6 on integer degrees: y is shifted by 100 in the south, Transfer is
    possible up to 3 degrees beyond the zone. *)
Definition toy_forward (a o : Z) : option (Z * bool * Z * Z) :=
  if Z.leb a 90 then Some (o / 6, Z.leb 0 a, o mod 6, if Z.leb 0 a then a else a + 100) else None.
Definition toy_reverse (z : Z) (n : bool) (x y : Z) : option (Z * Z) :=
  let a := if n then y else y - 100 in
  if Z.leb a 90 && Z.leb (-3) x && Z.leb x 8 then Some (a, 6 * z + x) else None.
Definition toy_transfer (z : Z) (n : bool) (x y z' : Z) (n' : bool) : option (Z * Z * Z) :=
  let o := 6 * z + x in let a := if n then y else y - 100 in
  let x' := o - 6 * z' in
  if Z.leb a 90 && Z.leb (-3) x' && Z.leb x' 8 then Some (x', if n' then a else a + 100, z') else None.
Opaque Z.mul.
Lemma toy_laws : lib_laws toy_forward toy_reverse toy_transfer.
Proof.
  split.
  - intros a o z n x y H. unfold toy_forward in H. destruct (Z.leb_spec a 90); [|discriminate]. injection H as <- <- <- <-.
    unfold toy_reverse. pose proof (Z.div_mod o 6 ltac:(lia)). pose proof (Z.mod_pos_bound o 6 ltac:(lia)).
    assert ((if 0 <=? a then (if 0 <=? a then a else a + 100) else (if 0 <=? a then a else a + 100) - 100) = a) as -> by (destruct (0 <=? a); lia).
    destruct (Z.leb_spec a 90), (Z.leb_spec (-3) (o mod 6)), (Z.leb_spec (o mod 6) 8); try lia. cbn [andb]. rewrite <- H. reflexivity.
  - intros a o z n x y z' n' x' y' H T. unfold toy_forward in H. destruct (Z.leb_spec a 90); [|discriminate]. injection H as <- <- <- <-.
    unfold toy_transfer in T. pose proof (Z.div_mod o 6 ltac:(lia)).
    replace (if 0 <=? a then (if 0 <=? a then a else a + 100) else (if 0 <=? a then a else a + 100) - 100) with a in T by (destruct (0 <=? a); lia).
    destruct (_ && _) eqn:C in T; [|discriminate]. injection T as <- <-. unfold toy_reverse.
    cbv zeta. assert ((if n' then if n' then a else a + 100 else (if n' then a else a + 100) - 100) = a) as -> by (destruct n'; lia).
    rewrite <- !H in C |- *. rewrite C. f_equal. f_equal. lia.
  - intros z n x y a o H. unfold toy_reverse in H. set (a0 := if n then y else y - 100) in *. destruct (_ && _) eqn:C in H; [|discriminate]. injection H as <- <-.
    exists ((6 * z + x) / 6), (0 <=? a0), ((6 * z + x) mod 6), (if 0 <=? a0 then a0 else a0 + 100).
    rewrite !andb_true_iff, !Z.leb_le in C. pose proof (Z.div_mod (6 * z + x) 6 ltac:(lia)). split; [|split].
    + unfold toy_forward. destruct (Z.leb_spec a0 90); [auto|lia].
    + intros Hz Hn. split; [lia|]. rewrite Hn. unfold a0. destruct n; lia.
    + intros x'' y'' T. unfold toy_transfer in T.
      replace (if 0 <=? a0 then (if 0 <=? a0 then a0 else a0 + 100) else (if 0 <=? a0 then a0 else a0 + 100) - 100) with a0 in T by (destruct (0 <=? a0); lia).
      destruct (_ && _) in T; [|discriminate]. injection T as <- <-. split; [lia|]. unfold a0. destruct n; lia.
Qed.
Transparent Z.mul.
Example C52_nonvacuous : lib_laws toy_forward toy_reverse toy_transfer /\
  exists u v, construct 0 toy_forward (G 49 8 0) true false = Some u /\ construct 0 toy_forward (G 49 8 0) true true = Some v /\
    (* in the zone, in the next zone, in the other hemisphere, too far away *)
    forward Z.sub toy_forward toy_transfer u (G 50 11 7) = Ok (B 3 1 7) /\ reverse Z.add Z.sub toy_forward toy_reverse toy_transfer u (B 3 1 7) = Ok (G 50 11 7) /\
    forward Z.sub toy_forward toy_transfer u (G 50 13 7) = Ok (B 5 1 7) /\ forward Z.sub toy_forward toy_transfer v (G 50 13 7) = ForwardError /\
    reverse Z.add Z.sub toy_forward toy_reverse toy_transfer u (B 5 1 7) = Ok (G 50 13 7) /\ reverse Z.add Z.sub toy_forward toy_reverse toy_transfer v (B 5 1 7) = ReverseError /\
    forward Z.sub toy_forward toy_transfer u (G (-2) 8 7) = Ok (B 0 (-51) 7) /\ forward Z.sub toy_forward toy_transfer u (G 49 33 7) = ForwardError /\
    reverse Z.add Z.sub toy_forward toy_reverse toy_transfer u (B 99 0 0) = ReverseError.
Proof. split; [apply toy_laws|]. eexists. eexists. split; [reflexivity|]. split; [reflexivity|]. repeat split. Qed.
