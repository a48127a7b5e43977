(** Proofs for routing costs written in Python. *)
From Coq Require Import List Bool.
From Verif Require Import PyCostModel PyCostSpec.
Import ListNotations.

Section Proofs.
Context {Q D : Type}.
Variables (finite negative : D -> bool) (one : D).
Hypothesis one_finite : finite one = true.
Hypothesis one_positive : negative one = false.
Implicit Types (c : cost Q D) (r : request Q).

Lemma virtual_value c m q d : virtual_call c m q = Value d <-> gives c m q d.
Proof.
  split.
  - destruct c as [b o|f|]; cbn [virtual_call].
    + unfold wrapped. destruct (o m) as [g|] eqn:O.
      * destruct (g q) eqn:G; cbn; try discriminate. intros [= <-]. eapply gives_over; eauto.
      * destruct b as [b|]; [|discriminate]. unfold cpp_method, throwing.
        destruct m; destruct (b _ q) eqn:B; cbn; try discriminate; intros [= <-]; now apply gives_base.
    + unfold cpp_method, throwing. destruct m; destruct (f _ q) eqn:F; cbn; try discriminate; intros [= <-];
        now apply gives_cpp.
    + discriminate.
  - intros [b o m' f q' d' O F|b o m' q' d' O B|f m' q' d' F]; cbn [virtual_call].
    + unfold wrapped. rewrite O, F. reflexivity.
    + unfold wrapped, cpp_method, throwing. rewrite O. destruct m'; rewrite B; reflexivity.
    + unfold cpp_method, throwing. destruct m'; rewrite F; reflexivity.
Qed.
Lemma gives_one c m q d d' : gives c m q d -> gives c m q d' -> d = d'.
Proof. intros A B. apply virtual_value in A, B. congruence. Qed.

Lemma add_finite l (e : edge Q D) : finite (e_cost e) = true -> negative (e_cost e) = false ->
  add_edge finite negative l e = Built (l ++ [e]).
Proof. intros F N. unfold add_edge. rewrite F, N. reflexivity. Qed.

Lemma assign_fine g r id c l : fine finite negative c r -> edges_for finite one r id c l ->
  assign finite negative one g r id c = Built (g ++ l).
Proof.
  intros F E. destruct E as [q ->|q d -> G Fd|q d -> G Fd|q d -> G Fd|q d -> G Fd]; cbn [fine assign] in *.
  - destruct c; [| |congruence]; now apply add_finite.
  - rewrite (proj2 (virtual_value _ _ _ _) G). cbn [with_value]. destruct F as (d' & G' & N).
    rewrite (gives_one _ _ _ _ _ G' G) in N. apply add_finite; auto.
  - rewrite (proj2 (virtual_value _ _ _ _) G). cbn [with_value]. unfold add_edge. cbn. rewrite Fd, app_nil_r. reflexivity.
  - rewrite (proj2 (virtual_value _ _ _ _) G). cbn [with_value]. rewrite Fd. destruct F as (d' & G' & N).
    rewrite (gives_one _ _ _ _ _ G' G) in N. apply add_finite; auto.
  - rewrite (proj2 (virtual_value _ _ _ _) G). cbn [with_value]. rewrite Fd. cbn. now apply add_finite.
Qed.
Lemma edges_for_exist r id c : fine finite negative c r -> exists l, edges_for finite one r id c l.
Proof.
  destruct r as [q|q|q]; cbn.
  - intros (d & G & _). destruct (finite d) eqn:F; eexists; [eapply follow|eapply follow_not]; eauto.
  - intros (d & G & _). destruct (finite d) eqn:F; eexists; [eapply change|eapply change_not]; eauto.
  - eexists. eapply plain. reflexivity.
Qed.

Lemma assign_all_fine r cs : (forall c, In c cs -> fine finite negative c r) ->
  forall id g l, edges_of_costs finite one r id cs l -> assign_all finite negative one g r id cs = Built (g ++ l).
Proof.
  intros F id g l E. revert F g. induction E as [id|id c cs l m A B IH]; intros F g; cbn [assign_all].
  - now rewrite app_nil_r.
  - rewrite (assign_fine g r id c l); [|apply F; now left|exact A]. cbn [and_then].
    rewrite IH; [now rewrite app_assoc|]. intros x I. apply F. now right.
Qed.
Lemma edges_of_costs_exist r cs : (forall c, In c cs -> fine finite negative c r) ->
  forall id, exists l, edges_of_costs finite one r id cs l.
Proof.
  induction cs as [|c cs IH]; intros F id; [eexists; constructor|].
  destruct (edges_for_exist r id c (F c (or_introl eq_refl))) as [l L].
  destruct (IH (fun x I => F x (or_intror I)) (S id)) as [m M]. eexists. econstructor; eauto.
Qed.

Lemma build_fine cs rs : (forall c r, In c cs -> In r rs -> fine finite negative c r) ->
  forall g l, edges_of finite one cs rs l -> build_from finite negative one g rs cs = Built (g ++ l).
Proof.
  intros F g l E. revert F g. induction E as [|r rs l m A B IH]; intros F g; cbn [build_from].
  - now rewrite app_nil_r.
  - rewrite (assign_all_fine r cs) with (l := l); [|intros c I; apply F; [exact I|now left]|exact A]. cbn [and_then].
    rewrite IH; [now rewrite app_assoc|]. intros c x I J. apply F; [exact I|now right].
Qed.
Lemma edges_exist cs rs : (forall c r, In c cs -> In r rs -> fine finite negative c r) ->
  exists l, edges_of finite one cs rs l.
Proof.
  induction rs as [|r rs IH]; intros F; [eexists; constructor|].
  destruct (edges_of_costs_exist r cs (fun c I => F c r I (or_introl eq_refl)) 0) as [l L].
  destruct IH as [m M]; [intros c x I J; apply F; [exact I|now right]|]. eexists. econstructor; eauto.
Qed.

(** What happens at the first cost that is not fine. *)
Lemma assign_all_stops r before c after : (forall x, In x before -> fine finite negative x r) ->
  forall id g b, (forall g id, assign finite negative one g r id c = b) -> (forall l, b <> Built l) ->
  assign_all finite negative one g r id (before ++ c :: after) = b.
Proof.
  intros F. induction before as [|x before IH]; intros id g b S N; cbn [app assign_all].
  - rewrite S. destruct b as [l| | |]; try reflexivity. now destruct (N l).
  - destruct (edges_for_exist r id x (F x (or_introl eq_refl))) as [l L].
    rewrite (assign_fine g r id x l (F x (or_introl eq_refl)) L). cbn [and_then].
    apply IH; auto. intros y I. apply F. now right.
Qed.
Lemma build_stops rs1 r rs2 before c after b :
  (forall x y, In x (before ++ c :: after) -> In y rs1 -> fine finite negative x y) ->
  (forall x, In x before -> fine finite negative x r) ->
  (forall g id, assign finite negative one g r id c = b) -> (forall l, b <> Built l) ->
  build finite negative one (rs1 ++ r :: rs2) (before ++ c :: after) = b.
Proof.
  intros F1 F2 S N. unfold build. generalize (@nil (edge Q D)). induction rs1 as [|y rs1 IH]; intros g; cbn [app build_from].
  - rewrite (assign_all_stops r before c after F2 0 g b S N). destruct b as [l| | |]; try reflexivity. now destruct (N l).
  - destruct (edges_of_costs_exist y (before ++ c :: after) (fun x I => F1 x y I (or_introl eq_refl)) 0) as [l L].
    rewrite (assign_all_fine y _ (fun x I => F1 x y I (or_introl eq_refl)) 0 g l L). cbn [and_then].
    apply IH. intros x z I J. apply F1; [exact I|now right].
Qed.

Lemma wrapped_ends (b : option (implementation Q D)) o m (q : Q) : (forall d, ~ gives (Py b o) m q d) -> virtual_call (Py b o) m q = Terminates.
Proof.
  intros N. destruct (virtual_call (Py b o) m q) as [d| | |] eqn:E.
  - apply virtual_value in E. now destruct (N d).
  - exfalso. cbn in E. unfold wrapped in E. destruct (match o m with Some _ => _ | None => _ end); discriminate.
  - reflexivity.
  - exfalso. cbn in E. unfold wrapped in E. destruct (o m) as [g|].
    + destruct (g q); discriminate.
    + destruct b as [b|]; [|discriminate]. unfold cpp_method, throwing in E. destruct m, (b _ q); discriminate.
Qed.
Lemma assign_outcome g r id c m q : asks r = Some (m, q) -> (forall d, virtual_call c m q <> Value d) ->
  assign finite negative one g r id c =
  match virtual_call c m q with Throws => Exception | NullPointer => NullFollowed | _ => Terminated end.
Proof.
  intros A N. destruct r; cbn in A; [| |discriminate]; injection A as <- <-; cbn [assign];
    destruct (virtual_call c _ q0) as [d| | |] eqn:E; try reflexivity; now destruct (N d).
Qed.
End Proofs.
