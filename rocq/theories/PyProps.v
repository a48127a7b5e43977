(** C114: line strings as Python sees them. *)
From Coq Require Import List Arith Bool ZArith Lia.
From Verif Require Import LineModel LineSpec LineProofs PySpec PyModel PyProofs.
Import ListNotations.

(** Every single statement does what it does on a list, for every index and both directions, as long as its variable is still
    readable: same points, same error, and the variable it sets reads the same. *)
Theorem C114_statement (P : Type) grow s (d : vec P) env :
  int64 (index_of_stmt s) -> (Z.of_nat (length (v_pts d)) < 2 ^ 63)%Z ->
  (forall v, env v <> None -> reading d env v <> None) ->
  match list_step s (v_pts d, reading d env), step grow s (d, env) with
  | Ran (pts, lenv), Ran (d', env') =>
      v_pts d' = pts /\
      match s with
      | Get _ _ _ | Copy _ _ _ => forall v, reading d' env' v = lenv v
      | _ => env' = env
      end
  | IndexError (pts, _), IndexError st => st = (d, env)
  | NameError, NameError => True
  | _, _ => False
  end.
Proof.
  intros I N R.
  assert (Us : forall v, uses s = Some v -> reading d env v = reading d env v /\ (env v <> None -> reading d env v <> None)) by auto.
  pose proof (step_spec grow s d env (reading d env) I N Us) as H.
  destruct (list_step s (v_pts d, reading d env)) as [[pts lenv]|[pts lenv]| |]; destruct (step grow s (d, env)) as [[d' env']|[d' env']| |];
    try contradiction; auto.
  - destruct H as [E [_ H]]. split; [exact E|]. destruct s; try exact (proj2 H).
    + destruct H as [-> [x [-> [h [-> Rh]]]]]. intros u. unfold reading, bind_var. destruct (Nat.eqb u v); auto.
    + destruct H as [-> [x [-> ->]]]. intros u. unfold reading, bind_var. destruct (Nat.eqb u v); auto.
  - destruct H as [_ [_ H]]. exact H.
Qed.
Print Assumptions C114_statement.

(** Programs that do not use what ls[i] returned after the line string was changed are list programs. *)
Theorem C114_program (P : Type) grow p buf cap (pts : list P) e :
  prompt (given e) p -> Forall (fun s => int64 (index_of_stmt s)) p -> (Z.of_nat (length pts + length p) <= 2 ^ 63)%Z ->
  match list_run p (pts, e), run grow p (Vec buf cap pts, owned e) with
  | Ran (pts', e'), Ran (d', env') =>
      v_pts d' = pts' /\ forall v, status_after (given e) p v <> Unusable -> reading d' env' v = e' v
  | IndexError (pts', _), IndexError (d', _) => v_pts d' = pts'
  | NameError, NameError => True
  | _, _ => False
  end.
Proof.
  intros Pr F N.
  assert (S : sees (Vec buf cap pts) (owned e) e (given e)).
  { intros v. unfold given, owned. destruct (e v) as [x|]; [|exact Logic.I]. exists x. auto. }
  pose proof (run_list grow p (Vec buf cap pts) (owned e) e (given e) Pr S F N) as H. cbn [v_pts] in H.
  destruct (list_run p (pts, e)) as [[pts' e']|[pts' e']| |]; destruct (run grow p (Vec buf cap pts, owned e)) as [[d' env']|[d' env']| |]; auto.
  destruct H as [E S']. split; [exact E|]. intros v U. exact (proj1 (sees_usable _ _ _ _ v S' U)).
Qed.
Print Assumptions C114_program.

(** Programs that neither delete nor append are never undefined, whatever they do with what ls[i] returned. *)
Theorem C114_defined (P : Type) grow p buf cap (pts : list P) e :
  Forall (fun s => keeps_length s = true) p -> Forall (fun s => int64 (index_of_stmt s)) p -> (Z.of_nat (length pts) < 2 ^ 63)%Z ->
  match run grow p (Vec buf cap pts, owned e) with
  | Ran (d', _) | IndexError (d', _) => length (v_pts d') = length pts
  | NameError => True
  | Undefined => False
  end.
Proof.
  intros K F N. apply (run_defined grow p (Vec buf cap pts) (owned e) K); auto.
  intros v b s E. unfold owned in E. destruct (e v); discriminate.
Qed.
Print Assumptions C114_defined.

(** * "Accessing individual points works similar to python lists" *)
(** Three points named 1, 2 and 3; variable 9 is a point made by Python. *)
Definition room (n : nat) : nat := 2 * n + 1.
Definition mine : nat -> option nat := fun v => if Nat.eqb v 9 then Some 4 else None.
Definition points_of {V} (o : outcome (vec nat * V)) : option (list nat) := match o with Ran (d, _) => Some (v_pts d) | _ => None end.
Definition list_points {V} (o : outcome (list nat * V)) : option (list nat) := match o with Ran (l, _) => Some l | _ => None end.

(** ls[0], ls[1] = ls[1], ls[0] *)
Definition swap : list stmt := [Get false 0 1; Get false 1 0; Put false 0 0; Put false 1 1].
Theorem C114_swap_refuted :
  list_points (list_run swap ([1; 2; 3], mine)) = Some [2; 1; 3] /\
  points_of (run room swap (Vec 0 3 [1; 2; 3], owned mine)) = Some [2; 2; 3].
Proof. split; vm_compute; reflexivity. Qed.
Print Assumptions C114_swap_refuted.

(** p = ls[0]; del ls[0]; ls.append(p) moves the first point to the end in a list; here the first point is lost. *)
Definition rotate : list stmt := [Get false 0 0; Del false 0; Append false 0].
Theorem C114_rotate_refuted :
  list_points (list_run rotate ([1; 2; 3], mine)) = Some [2; 3; 1] /\
  points_of (run room rotate (Vec 0 3 [1; 2; 3], owned mine)) = Some [2; 3; 2].
Proof. split; vm_compute; reflexivity. Qed.
Print Assumptions C114_rotate_refuted.

(** p = ls[i]; ls.append(q); ls.append(p): for every line string whose vector is full, p points to memory that is gone. *)
Definition append_twice (inv : bool) (i : Z) : list stmt := [Get inv 0 i; Append inv 9; Append inv 0].
Theorem C114_append_refuted (P : Type) grow inv i buf (pts : list P) q k :
  int64 i -> (Z.of_nat (length pts) < 2 ^ 63)%Z -> list_index i (length pts) = Some k ->
  let e := fun v => if Nat.eqb v 9 then Some q else None in
  (exists x e', nth_error (view inv pts) k = Some x /\
     list_run (append_twice inv i) (pts, e) = Ran (view inv (view inv pts ++ [q; x]), e')) /\
  run grow (append_twice inv i) (Vec buf (length pts) pts, owned e) = Undefined.
Proof.
  intros I N K e. pose proof (list_index_lt _ _ _ K) as L.
  destruct (nth_error (view inv pts) k) as [x|] eqn:E; [|apply nth_error_None in E; rewrite view_length in E; lia].
  split.
  - exists x. eexists. split; [reflexivity|]. unfold append_twice. cbn [list_run list_step]. rewrite K, E. cbn [list_run list_step].
    unfold bind_var, e. cbn [Nat.eqb list_run list_step]. cbv zeta. rewrite view_view, <- app_assoc. reflexivity.
  - unfold append_twice. cbn [run step v_pts]. rewrite (item_index_spec _ _ I N), K, at_spec, E. cbn [run step v_pts v_buf].
    unfold bind_var at 1, owned at 1, e at 1. cbn [Nat.eqb option_map read]. unfold enlarge. cbn [v_cap v_buf].
    rewrite push_view, view_length, app_length, view_length. cbn [length].
    rewrite (proj2 (Nat.leb_gt _ _)) by lia. cbn [run step]. unfold bind_var at 1. cbn [Nat.eqb read v_buf].
    rewrite (proj2 (Nat.eqb_neq _ _)) by lia. reflexivity.
Qed.
Print Assumptions C114_append_refuted.

(** * A case *)
(** del ls[-1]; ls.invert()[0] = list(ls)[0]; ls.append(q) *)
Definition some_program : list stmt := [Del false (-1); Copy false 1 0; Put true 0 1; Get false 2 (-2); Append false 9; Append true 1].
Example C114_nonvacuous :
  prompt (given mine) some_program /\ Forall (fun s => int64 (index_of_stmt s)) some_program /\
  list_points (list_run some_program ([1; 2; 3], mine)) = Some [1; 1; 1; 4] /\
  points_of (run room some_program (Vec 0 3 [1; 2; 3], owned mine)) = Some [1; 1; 1; 4] /\
  ~ prompt (given mine) swap /\ ~ prompt (given mine) rotate /\ ~ prompt (given mine) (append_twice false 0) /\
  step room (Get false 0 (-4)) (Vec 0 3 [1; 2; 3], owned mine) = IndexError (Vec 0 3 [1; 2; 3], owned mine).
Proof.
  split; [cbn; repeat split; discriminate|]. split; [repeat constructor; cbn; lia|].
  split; [vm_compute; reflexivity|]. split; [vm_compute; reflexivity|].
  split; [cbn; intros [_ [H _]]; apply H; reflexivity|]. split; [cbn; intros [H _]; apply H; reflexivity|].
  split; [cbn; intros [_ [H _]]; apply H; reflexivity|]. reflexivity.
Qed.
Print Assumptions C114_nonvacuous.
