(** Proofs about line strings as Python sees them. *)
From Coq Require Import List Arith Bool ZArith Lia.
From Verif Require Import LineModel LineSpec LineProofs PySpec PyModel.
Import ListNotations.

Lemma item_index_spec i n : int64 i -> (Z.of_nat n < 2 ^ 63)%Z -> item_index i n = list_index i n.
Proof.
  unfold int64, item_index, list_index, wrap64. intros I N.
  destruct (Z.ltb_spec i 0) as [L|L].
  - destruct (Z.leb_spec 0 i) as [L'|L']; [lia|].
    rewrite Z.mod_small by lia. replace (i + Z.of_nat n + 2 ^ 63 - 2 ^ 63)%Z with (Z.of_nat n + i)%Z by lia.
    destruct (Z.leb_spec (- Z.of_nat n) i) as [B|B].
    + destruct (Z.leb_spec 0 (Z.of_nat n + i)); [|lia]. destruct (Z.ltb_spec (Z.of_nat n + i) (Z.of_nat n)); [|lia]. reflexivity.
    + destruct (Z.leb_spec 0 (Z.of_nat n + i)); [lia|]. reflexivity.
  - destruct (Z.leb_spec 0 i) as [L'|L']; [|lia]. reflexivity.
Qed.
Lemma list_index_lt i n k : list_index i n = Some k -> k < n.
Proof.
  unfold list_index. destruct (Z.leb_spec 0 i).
  - destruct (Z.ltb_spec i (Z.of_nat n)); [|discriminate]. intros [= <-]. lia.
  - destruct (Z.leb_spec (- Z.of_nat n) i); [|discriminate]. intros [= <-]. lia.
Qed.

Section Py.
Context {P : Type}.
Variable grow : nat -> nat.
Notation vec := (vec P). Notation state := (state P).

Lemma set_view inv k x (pts : list P) : k < length pts ->
  ls_set inv k x pts = Some (view inv (firstn k (view inv pts) ++ x :: skipn (S k) (view inv pts))).
Proof.
  intros K. pose proof (run_op_spec inv (OpSet k x) pts eq_refl) as H. cbn [vector_op run_op] in H.
  rewrite view_length in H. rewrite (proj2 (Nat.ltb_lt _ _) K) in H. destruct H as [p' [E V]].
  destruct (ls_set inv k x pts) as [q|]; [|discriminate]. injection E as ->. rewrite <- V, view_view. reflexivity.
Qed.
Lemma erase_view inv k (pts : list P) : k < length pts ->
  exists it r, advance pts (ls_begin inv pts) k = Some it /\
    ls_erase inv it pts = Some (view inv (firstn k (view inv pts) ++ skipn (S k) (view inv pts)), r).
Proof.
  intros K. pose proof (run_op_spec inv (OpErase k) pts eq_refl) as H. cbn [vector_op run_op] in H.
  rewrite view_length in H. rewrite (proj2 (Nat.ltb_lt _ _) K) in H. destruct H as [p' [E V]].
  destruct (advance pts (ls_begin inv pts) k) as [it|]; [|discriminate]. exists it.
  destruct (ls_erase inv it pts) as [[q r]|]; [|discriminate]. injection E as -> _. exists r. split; [reflexivity|].
  rewrite <- V, view_view. reflexivity.
Qed.
Lemma push_view inv x (pts : list P) : ls_push_back inv x pts = view inv (view inv pts ++ [x]).
Proof. destruct inv; cbn; [|reflexivity]. rewrite rev_app_distr, rev_involutive. reflexivity. Qed.
Lemma v_pts_enlarge (d : vec) pts : v_pts (enlarge grow d pts) = pts.
Proof. unfold enlarge. destruct (Nat.leb _ _); reflexivity. Qed.

Lemma read_slot inv (d : vec) k : k < length (v_pts d) ->
  read d (Slot (v_buf d) (slot_of inv d k)) = nth_error (view inv (v_pts d)) k.
Proof.
  intros K. cbn. rewrite Nat.eqb_refl. unfold slot_of. destruct inv; cbn; [|reflexivity]. symmetry. apply nth_error_rev, K.
Qed.

(** Which variable a statement uses. *)
Definition uses (s : stmt) : option nat := match s with Put _ _ v | Append _ v => Some v | _ => None end.
Definition sets_var (s : stmt) : option nat := match s with Get _ v _ | Copy _ v _ => Some v | _ => None end.

(** One statement, whatever the other variables hold. *)
Lemma step_spec s (d : vec) env lenv : int64 (index_of_stmt s) -> (Z.of_nat (length (v_pts d)) < 2 ^ 63)%Z ->
  (forall v, uses s = Some v -> reading d env v = lenv v /\ (env v <> None -> lenv v <> None)) ->
  match list_step s (v_pts d, lenv), step grow s (d, env) with
  | Ran (pts, lenv'), Ran (d', env') =>
      v_pts d' = pts /\ length pts <= S (length (v_pts d)) /\
      match s with
      | Get _ v _ => d' = d /\ exists x, lenv' = bind_var lenv v x /\ exists h, env' = bind_var env v h /\ read d h = Some x
      | Copy _ v _ => d' = d /\ exists x, lenv' = bind_var lenv v x /\ env' = bind_var env v (Own x)
      | _ => lenv' = lenv /\ env' = env
      end
  | IndexError (pts, lenv'), IndexError st => pts = v_pts d /\ lenv' = lenv /\ st = (d, env)
  | NameError, NameError => True
  | _, _ => False
  end.
Proof.
  intros I N U. destruct s as [inv v i|inv v i|inv i v|inv i|inv v]; cbn [index_of_stmt] in I; cbn [list_step step].
  - rewrite (item_index_spec _ _ I N). destruct (list_index i (length (v_pts d))) as [k|] eqn:K; [|auto].
    apply list_index_lt in K. rewrite at_spec.
    destruct (nth_error (view inv (v_pts d)) k) as [x|] eqn:E.
    + split; [reflexivity|]. split; [lia|]. split; [reflexivity|]. exists x. split; [reflexivity|].
      eexists. split; [reflexivity|]. rewrite read_slot by exact K. exact E.
    + apply nth_error_None in E. rewrite view_length in E. lia.
  - rewrite iterate_spec, view_length. destruct (list_index i (length (v_pts d))) as [k|] eqn:K; [|auto].
    destruct (nth_error (view inv (v_pts d)) k) as [x|] eqn:E; [|auto].
    split; [reflexivity|]. split; [lia|]. split; [reflexivity|]. exists x. auto.
  - destruct (U v eq_refl) as [R B]. unfold reading in R. destruct (env v) as [h|].
    + destruct (lenv v) as [x|]; [|exfalso; apply B; congruence]. rewrite R.
      rewrite (item_index_spec _ _ I N). destruct (list_index i (length (v_pts d))) as [k|] eqn:K; [|auto].
      apply list_index_lt in K. rewrite set_view by exact K. cbn [v_pts].
      split; [reflexivity|]. split; [|auto]. rewrite view_length, app_length. cbn [length].
      rewrite firstn_length, skipn_length, view_length. lia.
    + rewrite <- R. exact Logic.I.
  - rewrite (item_index_spec _ _ I N). destruct (list_index i (length (v_pts d))) as [k|] eqn:K; [|auto].
    apply list_index_lt in K. destruct (erase_view inv k (v_pts d) K) as [it [r [-> ->]]]. cbn [v_pts].
    split; [reflexivity|]. split; [|auto]. rewrite view_length, app_length, firstn_length, skipn_length, view_length. lia.
  - destruct (U v eq_refl) as [R B]. unfold reading in R. destruct (env v) as [h|].
    + destruct (lenv v) as [x|]; [|exfalso; apply B; congruence]. rewrite R, v_pts_enlarge, push_view.
      split; [reflexivity|]. split; [|auto]. rewrite view_length, app_length, view_length. cbn [length]. lia.
    + rewrite <- R. exact Logic.I.
Qed.

(** * Programs *)
Definition sees (d : vec) (env : nat -> option (held P)) (lenv : nat -> option P) (st : nat -> status) : Prop :=
  forall v, match st v with
            | Unusable => True
            | Passing => exists x, lenv v = Some x /\ reading d env v = Some x
            | Lasting => exists x, lenv v = Some x /\ env v = Some (Own x)
            end.
Lemma sees_usable d env lenv st v : sees d env lenv st -> st v <> Unusable ->
  reading d env v = lenv v /\ (env v <> None -> lenv v <> None).
Proof.
  intros H U. specialize (H v). destruct (st v); [congruence| |].
  - destruct H as [x [-> ->]]. split; [reflexivity|discriminate].
  - destruct H as [x [-> E]]. unfold reading. rewrite E. split; [reflexivity|discriminate].
Qed.
Lemma sees_change d d' env lenv st : sees d env lenv st -> sees d' env lenv (after_change st).
Proof.
  intros H v. specialize (H v). unfold after_change. destruct (st v); auto.
Qed.
Lemma sees_set d env lenv st v x h w : sees d env lenv st ->
  match w with Unusable => True | Passing => read d h = Some x | Lasting => h = Own x end ->
  sees d (bind_var env v h) (bind_var lenv v x) (sets st v w).
Proof.
  intros H W u. specialize (H u). unfold sets, reading, bind_var in *. destruct (Nat.eqb u v).
  - destruct w; [exact Logic.I| |]; exists x; [|subst h]; auto.
  - exact H.
Qed.

Theorem run_list p : forall (d : vec) env lenv st, prompt st p -> sees d env lenv st ->
  Forall (fun s => int64 (index_of_stmt s)) p -> (Z.of_nat (length (v_pts d) + length p) <= 2 ^ 63)%Z ->
  match list_run p (v_pts d, lenv), run grow p (d, env) with
  | Ran (pts, lenv'), Ran (d', env') => v_pts d' = pts /\ sees d' env' lenv' (status_after st p)
  | IndexError (pts, _), IndexError (d', _) => v_pts d' = pts
  | NameError, NameError => True
  | _, _ => False
  end.
Proof.
  induction p as [|s p IH]; intros d env lenv st Pr S F N.
  - cbn. auto.
  - inversion F as [|? ? I F']. subst. cbn [length] in N.
    assert (Us : forall v, uses s = Some v -> reading d env v = lenv v /\ (env v <> None -> lenv v <> None)).
    { intros v E. apply sees_usable with (st := st); [exact S|].
      destruct s; cbn in E; inversion E; subst; exact (proj1 Pr). }
    assert (N' : (Z.of_nat (length (v_pts d)) < 2 ^ 63)%Z) by lia.
    pose proof (step_spec s d env lenv I N' Us) as H. cbn [list_run run].
    destruct (list_step s (v_pts d, lenv)) as [[pts lenv']|[pts lenv']| |]; destruct (step grow s (d, env)) as [[d' env']|[d' env']| |];
      try contradiction; auto.
    + destruct H as [E [L H]]. subst pts.
      assert (N2 : (Z.of_nat (length (v_pts d') + length p) <= 2 ^ 63)%Z) by lia.
      destruct s as [inv v i|inv v i|inv i v|inv i|inv v]; cbn [prompt] in Pr; cbn [status_after].
      * destruct H as [-> [x [-> [h [-> R]]]]]. apply IH; auto. apply sees_set; auto.
      * destruct H as [-> [x [-> ->]]]. apply IH; auto. apply sees_set; auto.
      * destruct H as [-> ->]. apply IH; auto; [exact (proj2 Pr)|]. eapply sees_change; eauto.
      * destruct H as [-> ->]. apply IH; auto. eapply sees_change; eauto.
      * destruct H as [-> ->]. apply IH; auto; [exact (proj2 Pr)|]. eapply sees_change; eauto.
    + destruct H as [-> [_ E]]. injection E as -> _. reflexivity.
Qed.

(** * Programs that keep the number of points *)
Definition inside (d : vec) (env : nat -> option (held P)) : Prop :=
  forall v b s, env v = Some (Slot b s) -> b = v_buf d /\ s < length (v_pts d).
Lemma inside_reading d env v : inside d env -> env v <> None -> reading d env v <> None.
Proof.
  intros H N. unfold reading. destruct (env v) as [[x|b s]|] eqn:E; [discriminate| |congruence].
  destruct (H v b s E) as [-> L]. cbn. rewrite Nat.eqb_refl. apply nth_error_Some, L.
Qed.

Theorem run_defined p : forall (d : vec) env, Forall (fun s => keeps_length s = true) p -> inside d env ->
  Forall (fun s => int64 (index_of_stmt s)) p -> (Z.of_nat (length (v_pts d)) < 2 ^ 63)%Z ->
  match run grow p (d, env) with
  | Ran (d', _) | IndexError (d', _) => length (v_pts d') = length (v_pts d)
  | NameError => True
  | Undefined => False
  end.
Proof.
  induction p as [|s p IH]; intros d env K In F N; [reflexivity|].
  inversion K as [|? ? Ks K']. inversion F as [|? ? I F']. subst.
  assert (Us : forall v, uses s = Some v -> reading d env v = reading d env v /\ (env v <> None -> reading d env v <> None)).
  { intros v _. split; [reflexivity|]. apply inside_reading, In. }
  pose proof (step_spec s d env (reading d env) I N Us) as H. cbn [run].
  destruct (step grow s (d, env)) as [[d' env']|[d' env']| |] eqn:St.
  - destruct s as [inv v i|inv v i|inv i v|inv i|inv v]; try discriminate.
    + destruct (list_step _ _) as [[pts lenv']|[pts lenv']| |]; try contradiction.
      destruct H as [E [L [-> [x [_ [h [-> R]]]]]]]. apply IH; auto.
      intros u b s Eu. unfold bind_var in Eu. destruct (Nat.eqb u v); [|eapply In; eauto]. injection Eu as ->.
      cbn in R. destruct (Nat.eqb_spec b (v_buf d)) as [->|]; [|discriminate]. split; [reflexivity|].
      apply nth_error_Some. congruence.
    + destruct (list_step _ _) as [[pts lenv']|[pts lenv']| |]; try contradiction.
      destruct H as [E [L [-> [x [_ ->]]]]]. apply IH; auto.
      intros u b s Eu. unfold bind_var in Eu. destruct (Nat.eqb u v); [discriminate|eapply In; eauto].
    + cbn [step] in St. destruct (env v) as [h|]; [|discriminate]. destruct (read d h) as [x|]; [|discriminate].
      cbn [index_of_stmt] in I. rewrite (item_index_spec _ _ I N) in St.
      destruct (list_index i (length (v_pts d))) as [k|] eqn:Ek; [|discriminate]. apply list_index_lt in Ek.
      rewrite set_view in St by exact Ek. injection St as <- <-.
      assert (L : length (view inv (firstn k (view inv (v_pts d)) ++ x :: skipn (S k) (view inv (v_pts d)))) = length (v_pts d)).
      { rewrite view_length, app_length. cbn [length]. rewrite firstn_length, skipn_length, view_length. lia. }
      assert (In' : inside (Vec (v_buf d) (v_cap d) (view inv (firstn k (view inv (v_pts d)) ++ x :: skipn (S k) (view inv (v_pts d))))) env).
      { intros u b s Eu. cbn [v_buf v_pts]. rewrite L. eapply In; eauto. }
      specialize (IH _ _ K' In' F'). cbn [v_pts] in IH. rewrite L in IH. apply IH, N.
  - destruct (list_step _ _) as [[pts lenv']|[pts lenv']| |]; try contradiction.
    destruct H as [_ [_ E]]. injection E as -> _. reflexivity.
  - exact Logic.I.
  - destruct (list_step _ _) as [[pts lenv']|[pts lenv']| |]; contradiction.
Qed.
End Py.
