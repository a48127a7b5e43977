(** Lemmas about line strings and inverted views. *)
From Coq Require Import List Arith Bool Lia.
From Verif Require Import LineModel LineSpec.
Import ListNotations.

Section Line.
Context {P : Type}.
Implicit Types pts l : list P.

Lemma nth_error_rev l : forall k, k < length l -> nth_error (rev l) k = nth_error l (length l - 1 - k).
Proof.
  induction l as [|x l IH] using rev_ind; intros k H; [simpl in H; lia|].
  rewrite rev_unit, app_length in *. simpl in *. destruct k as [|k]; simpl.
  - rewrite nth_error_app2 by lia. replace (length l + 1 - 1 - 0 - length l) with 0 by lia. auto.
  - rewrite IH by lia. rewrite nth_error_app1 by lia. f_equal. lia.
Qed.

Lemma view_length inv pts : length (view inv pts) = length pts.
Proof. destruct inv; simpl; auto. apply rev_length. Qed.

Lemma view_view inv pts : view inv (view inv pts) = pts.
Proof. destruct inv; simpl; auto. apply rev_involutive. Qed.

Lemma at_spec inv pts k : at_ inv pts k = nth_error (view inv pts) k.
Proof.
  unfold at_, view. destruct inv; auto. destruct (Nat.ltb k (length pts)) eqn:E.
  - apply Nat.ltb_lt in E. rewrite nth_error_rev; auto.
  - apply Nat.ltb_ge in E. symmetry. apply nth_error_None. rewrite rev_length. auto.
Qed.

Lemma front_spec inv pts : front inv pts = nth_error (view inv pts) 0.
Proof.
  rewrite <- at_spec. unfold front, at_, vback, vfront. destruct inv; auto.
  destruct pts; simpl; auto. rewrite !Nat.sub_0_r. auto.
Qed.

Lemma back_spec inv pts : back inv pts = nth_error (view inv pts) (length pts - 1).
Proof.
  rewrite <- at_spec. unfold back, at_, vback, vfront. destruct inv.
  - destruct pts as [|p pts]; simpl; auto. rewrite Nat.sub_0_r.
    assert (Nat.ltb (length pts) (S (length pts)) = true) as -> by (apply Nat.ltb_lt; lia).
    rewrite Nat.sub_diag. auto.
  - destruct pts; auto.
Qed.

(** The iterator begin() + k. *)
Definition it_at (inv : bool) pts (k : nat) : iter :=
  if inv then Iter (length pts - k) false else Iter k true.

Lemma advance_at inv pts j d : j + d <= length pts -> advance pts (it_at inv pts j) d = Some (it_at inv pts (j + d)).
Proof.
  intros H. unfold advance, it_at. destruct inv; simpl.
  - assert (Nat.leb d (length pts - j) = true) as -> by (apply Nat.leb_le; lia). do 2 f_equal. lia.
  - assert (Nat.leb (j + d) (length pts) = true) as -> by (apply Nat.leb_le; lia). auto.
Qed.

Lemma advance_begin inv pts k :
  advance pts (ls_begin inv pts) k = if Nat.leb k (length pts) then Some (it_at inv pts k) else None.
Proof.
  unfold advance, ls_begin, it_at. destruct inv; simpl; auto.
Qed.

Lemma deref_at inv pts k : k < length pts -> deref pts (it_at inv pts k) = nth_error (view inv pts) k.
Proof.
  intros H. unfold deref, it_at, view. destruct inv; simpl; auto.
  destruct (length pts - k) eqn:E; [lia|]. rewrite nth_error_rev by auto. f_equal. lia.
Qed.

Lemma walk_at inv pts : forall f k, k + f = length pts ->
  walk f pts (it_at inv pts k) (ls_end inv pts) = Some (skipn k (view inv pts)).
Proof.
  induction f as [|f IH]; intros k H; simpl.
  - assert (it_eqb (it_at inv pts k) (ls_end inv pts) = true) as ->.
    { unfold it_eqb, it_at, ls_end. apply Nat.eqb_eq. destruct inv; simpl; lia. }
    rewrite skipn_all2; auto. rewrite view_length. lia.
  - assert (it_eqb (it_at inv pts k) (ls_end inv pts) = false) as ->.
    { unfold it_eqb, it_at, ls_end. apply Nat.eqb_neq. destruct inv; simpl; lia. }
    rewrite deref_at by lia. rewrite advance_at by lia. rewrite Nat.add_1_r, IH by lia.
    assert (L : k < length (view inv pts)) by (rewrite view_length; lia).
    destruct (nth_error (view inv pts) k) as [x|] eqn:E.
    + f_equal. symmetry. clear -E. revert k E. induction (view inv pts) as [|y l IH]; intros [|k] E; try discriminate.
      * simpl in *. congruence.
      * simpl in *. auto.
    + apply nth_error_None in E. lia.
Qed.

Theorem iterate_spec inv pts : iterate inv pts = Some (view inv pts).
Proof.
  unfold iterate. assert (E : ls_begin inv pts = it_at inv pts 0).
  { unfold ls_begin, it_at. rewrite Nat.sub_0_r. auto. }
  rewrite E, walk_at by auto. auto.
Qed.

Theorem segment_spec inv pts k : k < length pts ->
  segment inv pts k =
  match nth_error (view inv pts) k, nth_error (view inv pts) (if Nat.eqb (k + 1) (length pts) then 0 else k + 1) with
  | Some a, Some b => Some (a, b)
  | _, _ => None
  end.
Proof.
  intros H. unfold segment. rewrite advance_begin.
  assert (Nat.leb k (length pts) = true) as -> by (apply Nat.leb_le; lia).
  destruct (Nat.eqb (k + 1) (length pts)) eqn:E.
  - assert (B : ls_begin inv pts = it_at inv pts 0).
    { unfold ls_begin, it_at. rewrite Nat.sub_0_r. auto. }
    rewrite B, !deref_at by lia. auto.
  - apply Nat.eqb_neq in E. rewrite advance_at by lia. rewrite !deref_at by lia. auto.
Qed.

Theorem segment_mut_spec inv pts k : k < length pts -> segment_mut inv pts k = segment inv pts k.
Proof. intros H. rewrite segment_spec by auto. unfold segment_mut. rewrite !at_spec. auto. Qed.

(** * Mutations *)
(** The call on the line string: positions are turned into iterators by begin() + k;
    a returned iterator is turned back into its distance from the new begin(). *)
Definition position (inv : bool) pts (it : iter) : nat :=
  if inv then length pts - it_base it else it_base it.

Definition run_op (inv : bool) (o : op P) pts : option (list P * option iter) :=
  match o with
  | OpInsert k x =>
    match advance pts (ls_begin inv pts) k with
    | None => None
    | Some it => match ls_insert inv it x pts with None => None | Some (l, r) => Some (l, Some r) end
    end
  | OpInsertRange k xs =>
    match advance pts (ls_begin inv pts) k with
    | None => None
    | Some it => match ls_insert_range inv it xs pts with None => None | Some (l, r) => Some (l, Some r) end
    end
  | OpPushBack x => Some (ls_push_back inv x pts, None)
  | OpErase k =>
    match advance pts (ls_begin inv pts) k with
    | None => None
    | Some it => match ls_erase inv it pts with None => None | Some (l, r) => Some (l, Some r) end
    end
  | OpPopBack => match ls_pop_back inv pts with None => None | Some l => Some (l, None) end
  | OpResize n news => Some (ls_resize inv n news pts, None)
  | OpClear => Some ([], None)
  | OpAssign xs => Some (ls_assign inv xs, None)
  | OpSet k x => match ls_set inv k x pts with None => None | Some l => Some (l, None) end
  end.

Lemma firstn_skipn_rev k l : k <= length l ->
  firstn k (rev l) = rev (skipn (length l - k) l) /\ skipn k (rev l) = rev (firstn (length l - k) l).
Proof. intros H. rewrite firstn_rev, skipn_rev. auto. Qed.

Definition is_range (o : op P) : bool := match o with OpInsertRange _ _ => true | _ => false end.

Lemma skipn_S n l : skipn (S n) l = tl (skipn n l).
Proof. revert l. induction n as [|n IH]; intros [|x l]; auto. rewrite skipn_cons, IH. reflexivity. Qed.

(** Every call, except the insertion of a range through an inverted view. *)
Theorem run_op_spec inv o pts : is_range o && inv = false ->
  match vector_op o (view inv pts) with
  | None => run_op inv o pts = None
  | Some (l, r) =>
    exists pts', run_op inv o pts = Some (pts', option_map (it_at inv pts') r) /\ view inv pts' = l
  end.
Proof.
  intros NR. destruct o as [k x|k xs|x|k| |n news| |xs|k x]; cbn [vector_op run_op].
  - (* insert *)
    rewrite view_length, advance_begin. destruct (Nat.leb k (length pts)) eqn:K; [|reflexivity].
    apply Nat.leb_le in K. unfold ls_insert, vinsert.
    assert (B : Nat.leb (it_base (it_at inv pts k)) (length pts) = true).
    { apply Nat.leb_le. destruct inv; simpl; lia. }
    rewrite B. clear B. destruct inv; cbn [it_at it_base view].
    + exists (firstn (length pts - k) pts ++ [x] ++ skipn (length pts - k) pts). split.
      * cbn [option_map it_at]. do 4 f_equal. rewrite !app_length, firstn_length, skipn_length. simpl. lia.
      * destruct (firstn_skipn_rev k pts K) as [-> ->]. rewrite !rev_app_distr. simpl.
        rewrite <- app_assoc. auto.
    + eexists. split; [reflexivity|]. reflexivity.
  - (* insert range, not inverted *)
    simpl in NR. subst inv. cbn [view]. rewrite advance_begin.
    destruct (Nat.leb k (length pts)) eqn:K; [|reflexivity].
    unfold ls_insert_range, vinsert. cbn [it_at it_base]. rewrite K.
    eexists. split; reflexivity.
  - (* push_back *)
    eexists. split; [reflexivity|]. unfold ls_push_back, view. destruct inv; auto.
  - (* erase *)
    rewrite view_length, advance_begin. destruct (Nat.ltb k (length pts)) eqn:K.
    + apply Nat.ltb_lt in K. assert (Nat.leb k (length pts) = true) as -> by (apply Nat.leb_le; lia).
      unfold ls_erase. destruct inv.
      * rewrite advance_at by lia. unfold verase. cbn [it_at it_base view].
        assert (Nat.ltb (length pts - (k + 1)) (length pts) = true) as -> by (apply Nat.ltb_lt; lia).
        eexists. split.
        -- cbn [option_map it_at negb]. do 4 f_equal.
           rewrite !app_length, firstn_length, skipn_length. lia.
        -- rewrite firstn_rev, skipn_rev. rewrite rev_app_distr.
           replace (S (length pts - (k + 1))) with (length pts - k) by lia.
           replace (length pts - (k + 1)) with (length pts - S k) by lia. auto.
      * cbn [it_at it_base view]. unfold verase.
        assert (Nat.ltb k (length pts) = true) as -> by (apply Nat.ltb_lt; lia).
        eexists. split; reflexivity.
    + apply Nat.ltb_ge in K. destruct (Nat.leb k (length pts)) eqn:K2; [|reflexivity].
      apply Nat.leb_le in K2. assert (k = length pts) by lia. subst k.
      unfold ls_erase. destruct inv; cbn [it_at it_base].
      * unfold advance. cbn [it_fwd it_base]. rewrite Nat.sub_diag. reflexivity.
      * unfold verase. rewrite Nat.ltb_irrefl. reflexivity.
  - (* pop_back *)
    unfold ls_pop_back. destruct inv; cbn [view].
    + destruct pts as [|p pts]; [reflexivity|].
      destruct (rev (p :: pts)) as [|q r] eqn:R.
      * apply (f_equal (@length P)) in R. rewrite rev_length in R. discriminate.
      * eexists. split; [reflexivity|]. rewrite <- R. simpl. rewrite removelast_last. auto.
    + destruct pts as [|p pts]; [reflexivity|]. eexists. split; reflexivity.
  - (* resize *)
    eexists. split; [reflexivity|]. unfold ls_resize, vresize. destruct inv; cbn [view].
    + rewrite rev_involutive. auto.
    + auto.
  - (* clear *) exists []. split; [reflexivity|]. destruct inv; auto.
  - (* assign *) eexists. split; [reflexivity|]. unfold ls_assign. apply view_view.
  - (* set *)
    rewrite view_length. unfold ls_set. destruct (Nat.ltb k (length pts)) eqn:K; [|reflexivity].
    apply Nat.ltb_lt in K. eexists. split; [reflexivity|].
    assert (VS : forall i l, i < length l -> vset i x l = firstn i l ++ x :: skipn (S i) l).
    { intros i l Hi. unfold vset. rewrite skipn_S. f_equal.
      destruct (skipn i l) eqn:Q; auto.
      apply (f_equal (@length P)) in Q. rewrite skipn_length in Q. simpl in Q. lia. }
    rewrite VS by (destruct inv; lia). destruct inv; cbn [view]; auto.
    rewrite rev_app_distr. cbn [rev]. rewrite <- app_assoc. cbn [app].
    replace (S (length pts - 1 - k)) with (length pts - k) by lia.
    rewrite firstn_rev, skipn_rev. replace (length pts - 1 - k) with (length pts - S k) by lia. auto.
Qed.

(** Insertion of a range through an inverted view: contents only. *)
Theorem run_range_spec k xs pts : k <= length pts -> xs <> [] \/ k <> 0 ->
  exists pts' r, run_op true (OpInsertRange k xs) pts = Some (pts', r) /\
    view true pts' = firstn k (view true pts) ++ xs ++ skipn k (view true pts).
Proof.
  intros K N. cbn [run_op]. rewrite advance_begin.
  assert (Nat.leb k (length pts) = true) as -> by (apply Nat.leb_le; auto).
  unfold ls_insert_range, vinsert. cbn [it_at it_base].
  assert (Nat.leb (length pts - k) (length pts) = true) as -> by (apply Nat.leb_le; lia).
  match goal with |- context [if ?b then _ else _] => assert (B : b = true) end.
  { apply Nat.leb_le. rewrite !app_length, rev_length, firstn_length, skipn_length.
    destruct N as [N|N]; [destruct xs; [congruence|simpl]|]; lia. }
  rewrite B. eexists. eexists. split; [reflexivity|]. cbn [view].
  destruct (firstn_skipn_rev k pts K) as [-> ->]. rewrite !rev_app_distr, rev_involutive, app_assoc. auto.
Qed.
End Line.
