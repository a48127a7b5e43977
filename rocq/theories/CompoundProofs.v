(** Lemmas about the iterator of compound line strings. *)
From Coq Require Import List Arith Bool Lia.
From Verif Require Import LineModel LineSpec.
Import ListNotations.

Section Compound.
Context {P : Type}.
Variable peq : P -> P -> bool.
Hypothesis peq_eq : forall x y, peq x y = true <-> x = y.
Implicit Types (c : list (list P)) (l : list P).

Lemma peq_refl x : peq x x = true.
Proof. apply peq_eq; auto. Qed.

(** Number of leading copies of [x]. *)
Fixpoint lead (x : P) l : nat :=
  match l with y :: r => if peq x y then S (lead x r) else 0 | [] => 0 end.

Lemma dedup_lead x r : dedup peq (x :: r) = x :: dedup peq (skipn (lead x r) r).
Proof.
  revert x. induction r as [|y r IH]; intros x; [reflexivity|].
  cbn [dedup lead]. destruct (peq x y) eqn:E.
  - apply peq_eq in E. subst y. cbn [skipn]. rewrite <- IH. reflexivity.
  - reflexivity.
Qed.

Lemma lead_le x l : lead x l <= length l.
Proof. induction l as [|y l IH]; simpl; auto. destruct (peq x y); lia. Qed.

(** * Positions and flat indices *)
Definition off c (o : nat) : nat := length (concat (firstn o c)).

Lemma off_S c o : o < length c -> off c (S o) = off c o + length (part c o).
Proof.
  unfold off, part. revert o. induction c as [|a c IH]; intros [|o] H; simpl in *; try lia.
  - rewrite app_nil_r. auto.
  - rewrite !app_length. rewrite IH by lia. lia.
Qed.

Lemma off_all c o : length c <= o -> off c o = total c.
Proof. intros H. unfold off, total. rewrite firstn_all2; auto. Qed.

Lemma off_mono c o o' : o <= o' -> off c o <= off c o'.
Proof.
  intros H. induction H as [|o' H IH]; auto.
  destruct (Nat.lt_ge_cases o' (length c)) as [L|L].
  - rewrite off_S by auto. lia.
  - rewrite (off_all c o') in IH by auto. rewrite (off_all c (S o')) by lia. auto.
Qed.

Lemma nth_concat c o i : o < length c -> i < length (part c o) ->
  nth_error (concat c) (off c o + i) = nth_error (part c o) i.
Proof.
  unfold off, part. revert o. induction c as [|a c IH]; intros [|o] Ho Hi; simpl in *; try lia.
  - rewrite nth_error_app1; auto.
  - rewrite app_length, nth_error_app2 by lia.
    replace (length a + length (concat (firstn o c)) + i - length a) with (length (concat (firstn o c)) + i) by lia.
    apply IH; lia.
Qed.

(** [at_idx c k p]: position [p] stands at index [k] of the concatenation. *)
Definition at_idx c (k : nat) (p : pos) : Prop :=
  (fst p < length c /\ snd p < length (part c (fst p)) /\ k = off c (fst p) + snd p) \/
  (p = c_end c /\ k = total c).

Lemma at_lt c k p : at_idx c k p -> k < total c ->
  fst p < length c /\ snd p < length (part c (fst p)) /\ k = off c (fst p) + snd p.
Proof. intros [H|[-> ->]] L; auto. lia. Qed.

Lemma at_le c k p : at_idx c k p -> k <= total c.
Proof.
  intros [(A & B & ->)|[_ ->]]; auto.
  assert (off c (S (fst p)) <= off c (length c)) by (apply off_mono; lia).
  rewrite off_S in H by auto. rewrite (off_all c (length c)) in H by auto. lia.
Qed.

Lemma at_end c k p : at_idx c k p -> k = total c -> p = c_end c.
Proof.
  intros [(A & B & E)|[H _]] K; auto. exfalso.
  assert (off c (S (fst p)) <= off c (length c)) by (apply off_mono; lia).
  rewrite off_S in H by auto. rewrite (off_all c (length c)) in H by auto. lia.
Qed.

Lemma at_inj c k p q : at_idx c k p -> at_idx c k q -> p = q.
Proof.
  intros A B. destruct (Nat.eq_dec k (total c)) as [E|N].
  - rewrite (at_end _ _ _ A E), (at_end _ _ _ B E). auto.
  - assert (K : k < total c) by (apply at_le in A; lia).
    apply at_lt in A; auto. apply at_lt in B; auto.
    destruct p as [o i], q as [o' i']; simpl in *. destruct A as (A1 & A2 & A3), B as (B1 & B2 & B3).
    assert (o = o').
    { destruct (Nat.lt_trichotomy o o') as [L|[E|L]]; auto; exfalso.
      - assert (H := off_mono c (S o) o' L). rewrite off_S in H by auto. lia.
      - assert (H := off_mono c (S o') o L). rewrite off_S in H by auto. lia. }
    subst o'. f_equal. lia.
Qed.

Lemma at_fun c k k' p : at_idx c k p -> at_idx c k' p -> k = k'.
Proof.
  intros [(A & B & E)|[A E]] [(A' & B' & E')|[A' E']]; try lia; subst p; simpl in *; lia.
Qed.

Lemma pos_eqb_iff p q : pos_eqb p q = true <-> p = q.
Proof.
  destruct p, q. unfold pos_eqb. simpl. rewrite andb_true_iff, !Nat.eqb_eq.
  split; [intros [-> ->]; auto|inversion 1; auto].
Qed.

Lemma at_eqb c k k' p q : at_idx c k p -> at_idx c k' q -> pos_eqb p q = Nat.eqb k k'.
Proof.
  intros A B. destruct (Nat.eqb k k') eqn:E.
  - apply Nat.eqb_eq in E. subst k'. apply pos_eqb_iff. eapply at_inj; eauto.
  - destruct (pos_eqb p q) eqn:Q; auto. apply pos_eqb_iff in Q. subst q.
    apply Nat.eqb_neq in E. exfalso. apply E. eapply at_fun; eauto.
Qed.

Lemma at_deref c k p : at_idx c k p -> c_deref c p = nth_error (concat c) k.
Proof.
  intros [(A & B & ->)|[-> ->]].
  - unfold c_deref. rewrite nth_concat; auto.
  - unfold c_deref, c_end, part. simpl. rewrite nth_overflow by lia. simpl.
    symmetry. apply nth_error_None. unfold total. lia.
Qed.

Lemma nonempty_from_spec c : forall ls o, ls = skipn o c -> o <= length c ->
  at_idx c (off c o) (nonempty_from o ls, 0).
Proof.
  induction ls as [|a ls IH]; intros o E H.
  - right. assert (o = length c).
    { apply (f_equal (@length _)) in E. rewrite skipn_length in E. simpl in E. lia. }
    subst o. split; auto. apply off_all; auto.
  - assert (L : o < length c).
    { apply (f_equal (@length _)) in E. rewrite skipn_length in E. simpl in E. lia. }
    assert (PA : part c o = a /\ ls = skipn (S o) c).
    { clear -E L. revert o E L. induction c as [|b c IH]; intros [|o] E L; simpl in *; try lia.
      - inversion E; auto.
      - apply IH; auto. lia. }
    destruct PA as [PA PL]. cbn [nonempty_from]. destruct a as [|x a].
    + assert (OE : off c o = off c (S o)) by (rewrite off_S, PA by auto; simpl; lia).
      rewrite OE. apply IH; auto.
    + left. cbn [fst snd]. rewrite PA. simpl. split; auto. split; lia.
Qed.

Lemma at_begin c : at_idx c 0 (c_begin c).
Proof.
  unfold c_begin, first_nonempty. assert (H := nonempty_from_spec c c 0 eq_refl (Nat.le_0_l _)).
  exact H.
Qed.

Lemma at_endpos c : at_idx c (total c) (c_end c).
Proof. right. auto. Qed.

Lemma inc_one_spec c k p : at_idx c k p -> k < total c ->
  exists p', inc_one c p = Some p' /\ at_idx c (S k) p'.
Proof.
  intros A K. apply at_lt in A; auto. destruct p as [o i]; simpl in A. destruct A as (A & B & ->).
  unfold inc_one. assert (Nat.ltb o (length c) = true) as -> by (apply Nat.ltb_lt; auto).
  destruct (Nat.eqb (S i) (length (part c o))) eqn:E.
  - apply Nat.eqb_eq in E. eexists. split; [reflexivity|].
    replace (S (off c o + i)) with (off c (S o)) by (rewrite off_S by auto; lia).
    apply nonempty_from_spec; auto.
  - apply Nat.eqb_neq in E. eexists. split; [reflexivity|]. left. simpl. repeat split; auto; lia.
Qed.

Lemma inc_one_end c : inc_one c (c_end c) = None.
Proof. unfold inc_one, c_end. rewrite Nat.ltb_irrefl. auto. Qed.

Lemma first_nonempty_off c o : o <= first_nonempty c -> off c o = 0.
Proof.
  intros H. assert (A := at_begin c).
  assert (M := off_mono c _ _ H).
  destruct A as [(A & B & E)|[A E]]; unfold c_begin, c_end in *; simpl in *.
  - lia.
  - assert (off c (first_nonempty c) = 0).
    { inversion A as [F]. rewrite F. rewrite off_all by auto. lia. }
    lia.
Qed.

Lemma back_outer_spec c : forall o k, o <= length c -> off c o = S k ->
  exists o', back_outer c (first_nonempty c) o = Some o' /\ o' < length c /\
    off c o = off c o' + length (part c o') /\ 0 < length (part c o').
Proof.
  induction o as [|o IH]; intros k H E; [discriminate|]. cbn [back_outer].
  assert (L : o < length c) by lia. assert (OS := off_S c o L).
  destruct (Nat.eqb o (first_nonempty c)) eqn:F.
  - apply Nat.eqb_eq in F. exists o. split; auto. split; auto. split; auto.
    assert (off c o = 0) by (apply first_nonempty_off; lia). lia.
  - destruct (part c o) as [|x a] eqn:PA.
    + simpl in OS. destruct (IH k) as (o' & Q1 & Q2 & Q3 & Q4); [lia|lia|].
      exists o'. repeat split; auto. lia.
    + exists o. rewrite PA. simpl. repeat split; auto. lia.
Qed.

Lemma back_outer_none c : forall o, o <= first_nonempty c -> back_outer c (first_nonempty c) o = None.
Proof.
  induction o as [|o IH]; intros H; auto. cbn [back_outer].
  assert (Nat.eqb o (first_nonempty c) = false) as -> by (apply Nat.eqb_neq; lia).
  assert (part c o = []) as ->; [|apply IH; lia].
  destruct (Nat.lt_ge_cases o (length c)) as [L|L].
  - assert (OS := off_S c o L). assert (off c (S o) = 0) by (apply first_nonempty_off; lia).
    destruct (part c o); auto. simpl in OS. lia.
  - unfold part. apply nth_overflow; auto.
Qed.

Lemma dec_one_spec c k p : at_idx c (S k) p -> exists p', dec_one c p = Some p' /\ at_idx c k p'.
Proof.
  intros A. destruct p as [o i]. unfold dec_one.
  destruct (Nat.eqb o (length c) || Nat.eqb i 0) eqn:E.
  - assert (O : o <= length c /\ off c o = S k).
    { destruct A as [(A & B & K)|[A K]]; simpl in *.
      - apply orb_true_iff in E as [E|E]; apply Nat.eqb_eq in E; lia.
      - inversion A; subst. split; auto. rewrite off_all; auto. }
    destruct O as [O1 O2]. destruct (back_outer_spec c o k O1 O2) as (o' & -> & Q2 & Q3 & Q4).
    destruct (part c o') as [|x a] eqn:PA; [simpl in Q4; lia|]. rewrite <- PA in *.
    eexists. split; [reflexivity|]. left. simpl. repeat split; auto; lia.
  - apply orb_false_iff in E as [E1 E2]. apply Nat.eqb_neq in E1. apply Nat.eqb_neq in E2.
    destruct A as [(A & B & K)|[A K]]; simpl in *; [|inversion A; congruence].
    eexists. split; [reflexivity|]. left. simpl. repeat split; auto; lia.
Qed.

Lemma dec_one_begin c : dec_one c (c_begin c) = None.
Proof.
  unfold dec_one, c_begin. rewrite Nat.eqb_refl, orb_true_r, back_outer_none; auto.
Qed.

(** * Increment and decrement *)
Lemma skipn_nth l : forall k, skipn k l = match nth_error l k with Some x => x :: skipn (S k) l | None => [] end.
Proof.
  induction l as [|y l IH]; intros [|k]; auto. cbn [skipn nth_error]. rewrite IH. auto.
Qed.

Lemma inc_loop_spec c old : forall fuel k p, at_idx c k p -> k < total c -> total c - k <= fuel ->
  exists p', inc_loop peq fuel c old p = Some p' /\
    at_idx c (S k + lead old (skipn (S k) (concat c))) p'.
Proof.
  induction fuel as [|f IH]; intros k p A K F; [lia|]. cbn [inc_loop].
  destruct (inc_one_spec c k p A K) as (p' & -> & A').
  rewrite (at_eqb c _ _ _ _ A' (at_endpos c)). destruct (Nat.eqb (S k) (total c)) eqn:E.
  - apply Nat.eqb_eq in E. exists p'. split; auto.
    rewrite skipn_all2 by (unfold total in *; lia). simpl. rewrite Nat.add_0_r. auto.
  - apply Nat.eqb_neq in E. rewrite (at_deref c _ _ A').
    rewrite (skipn_nth (concat c) (S k)).
    destruct (nth_error (concat c) (S k)) as [x|] eqn:N.
    + cbn [lead]. destruct (peq old x) eqn:Q.
      * destruct (IH (S k) p' A') as (q & Eq & Aq); [lia|lia|]. exists q. split; auto.
        replace (S k + S (lead old (skipn (S (S k)) (concat c))))
          with (S (S k) + lead old (skipn (S (S k)) (concat c))) by lia. auto.
      * exists p'. split; auto. rewrite Nat.add_0_r. auto.
    + apply nth_error_None in N. unfold total in *. lia.
Qed.

Lemma inc_spec c k p x : at_idx c k p -> nth_error (concat c) k = Some x ->
  exists p', inc peq c p = Some p' /\ at_idx c (S k + lead x (skipn (S k) (concat c))) p'.
Proof.
  intros A N. assert (K : k < total c) by (apply nth_error_Some; congruence).
  unfold inc. rewrite (at_deref _ _ _ A), N. apply inc_loop_spec; auto. lia.
Qed.

Lemma inc_end c p : at_idx c (total c) p -> inc peq c p = None.
Proof.
  intros A. unfold inc. rewrite (at_deref _ _ _ A).
  destruct (nth_error (concat c) (total c)) eqn:N; auto.
  assert (total c < total c) by (apply nth_error_Some; congruence). lia.
Qed.

Lemma firstn_nth l k x : nth_error l k = Some x -> rev (firstn (S k) l) = x :: rev (firstn k l).
Proof.
  revert k. induction l as [|y l IH]; intros [|k] H; try discriminate.
  - simpl in *. congruence.
  - cbn [firstn rev nth_error] in *. rewrite IH by auto. auto.
Qed.

Lemma dec_loop_spec c x : forall fuel k p, at_idx c (S k) p -> nth_error (concat c) (S k) = Some x ->
  k < fuel -> exists p', dec_loop peq fuel c p = Some p' /\
    at_idx c (S k - lead x (rev (firstn (S k) (concat c)))) p'.
Proof.
  induction fuel as [|f IH]; intros k p A N F; [lia|]. cbn [dec_loop]. cbv zeta.
  destruct (dec_one_spec c k p A) as (p' & -> & A').
  rewrite (at_deref _ _ _ A'), (at_deref _ _ _ A), N.
  destruct (nth_error (concat c) k) as [y|] eqn:Y.
  - rewrite (firstn_nth _ _ _ Y). cbn [lead]. destruct (peq y x) eqn:Q; simpl negb; cbv iota.
    + apply peq_eq in Q. subst y. rewrite peq_refl.
      rewrite (at_eqb _ _ _ _ _ A' (at_begin c)). destruct (Nat.eqb k 0) eqn:E.
      * apply Nat.eqb_eq in E. subst k. exists p'. split; auto.
      * apply Nat.eqb_neq in E. destruct k as [|k]; [congruence|].
        destruct (IH k p' A' Y) as (q & Eq & Aq); [lia|]. exists q. split; auto.
    + exists p. split; auto. assert (peq x y = false) as ->; [|auto].
      destruct (peq x y) eqn:Q'; auto. apply peq_eq in Q'. subst. rewrite peq_refl in Q. discriminate.
  - apply nth_error_None in Y. assert (S k < length (concat c)) by (apply nth_error_Some; congruence). lia.
Qed.

Lemma dec_spec c k p x : at_idx c (S k) p -> nth_error (concat c) k = Some x ->
  exists p', dec peq c p = Some p' /\ at_idx c (k - lead x (rev (firstn k (concat c)))) p'.
Proof.
  intros A N. unfold dec. destruct (dec_one_spec c k p A) as (p' & -> & A').
  rewrite (at_eqb _ _ _ _ _ A' (at_begin c)). destruct (Nat.eqb k 0) eqn:E.
  - apply Nat.eqb_eq in E. subst k. simpl. eauto.
  - apply Nat.eqb_neq in E. destruct k as [|k]; [congruence|].
    apply dec_loop_spec; auto. assert (S k < length (concat c)) by (apply nth_error_Some; congruence).
    unfold total. lia.
Qed.

Lemma dec_begin c p : at_idx c 0 p -> dec peq c p = None.
Proof.
  intros A. rewrite (at_inj _ _ _ _ A (at_begin c)). unfold dec. rewrite dec_one_begin. auto.
Qed.

Lemma nth_lead x l : forall j, j < lead x l -> nth_error l j = Some x.
Proof.
  induction l as [|y l IH]; intros j H; simpl in H; [lia|]. destruct (peq x y) eqn:E; [|lia].
  apply peq_eq in E. subst y. destruct j; auto. apply IH. lia.
Qed.

(** * The sequence still to come, seen from index [k] *)
Definition rest (inv : bool) c (k : nat) : list P :=
  if inv then rev (firstn k (concat c)) else skipn k (concat c).

Lemma skipn_add (m n : nat) l : skipn (m + n) l = skipn m (skipn n l).
Proof.
  revert l. induction n as [|n IH]; intros l.
  - rewrite Nat.add_0_r. auto.
  - destruct l; [rewrite !skipn_nil; auto|]. rewrite Nat.add_succ_r. cbn [skipn]. apply IH.
Qed.

Lemma rest_step inv c k p x r : at_idx c k p -> rest inv c k = x :: r ->
  exists p' k', cl_next peq inv c p = Some p' /\ at_idx c k' p' /\
    cl_deref peq inv c p = Some x /\ rest inv c k' = skipn (lead x r) r.
Proof.
  intros A R. destruct inv; cbn [rest cl_next cl_deref] in *.
  - destruct k as [|k]; [simpl in R; discriminate|].
    assert (K : S k <= length (concat c)) by (apply at_le in A; auto).
    destruct (nth_error (concat c) k) as [y|] eqn:N.
    2:{ apply nth_error_None in N. lia. }
    rewrite (firstn_nth _ _ _ N) in R. inversion R; subst y r. clear R.
    destruct (dec_spec c k p x A N) as (p' & -> & A'). exists p'. eexists.
    split; [auto|]. split; [exact A'|].
    set (m := lead x (rev (firstn k (concat c)))) in *.
    assert (M : m <= k).
    { unfold m. etransitivity; [apply lead_le|]. rewrite rev_length, firstn_length. lia. }
    split.
    + rewrite (at_deref _ _ _ A'). destruct m as [|m'] eqn:EM.
      * rewrite Nat.sub_0_r. auto.
      * assert (L : nth_error (rev (firstn k (concat c))) m' = Some x).
        { apply nth_lead. fold m. lia. }
        assert (LN : length (firstn k (concat c)) = k) by (rewrite firstn_length; lia).
        clear -L LN M.
        assert (NR : forall (l : list P) j, j < length l -> nth_error (rev l) j = nth_error l (length l - 1 - j)).
        { intros l. induction l as [|z l IH] using rev_ind; intros j H; [simpl in H; lia|].
          rewrite rev_unit, app_length in *. simpl in *. destruct j as [|j]; simpl.
          - rewrite nth_error_app2 by lia. replace (length l + 1 - 1 - 0 - length l) with 0 by lia. auto.
          - rewrite IH by lia. rewrite nth_error_app1 by lia. f_equal. lia. }
        rewrite NR in L by lia. rewrite LN in L.
        replace (k - 1 - m') with (k - S m') in L by lia.
        rewrite <- (firstn_skipn k (concat c)). rewrite nth_error_app1 by lia. auto.
    + rewrite skipn_rev. f_equal. rewrite firstn_firstn. f_equal. rewrite firstn_length. lia.
  - assert (N : nth_error (concat c) k = Some x).
    { rewrite skipn_nth in R. destruct (nth_error (concat c) k); congruence. }
    rewrite skipn_nth, N in R. inversion R; subst r.
    destruct (inc_spec c k p x A N) as (p' & -> & A'). exists p'. eexists.
    split; [auto|]. split; [exact A'|]. split; [rewrite (at_deref _ _ _ A); auto|].
    rewrite Nat.add_comm. change (match concat c with [] => [] | _ :: l => skipn k l end) with (skipn (S k) (concat c)).
    apply skipn_add.
Qed.

Lemma rest_nil inv c k p : at_idx c k p -> rest inv c k = [] -> p = cl_last inv c.
Proof.
  intros A R. destruct inv; cbn [rest cl_last] in *.
  - assert (K := at_le _ _ _ A). unfold total in K.
    apply (f_equal (@length P)) in R. rewrite rev_length, firstn_length in R. simpl in R.
    replace k with 0 in A.
    + apply (at_inj c 0); auto. apply at_begin.
    + lia.
  - apply (at_end c k); auto. apply at_le in A.
    apply (f_equal (@length P)) in R. rewrite skipn_length in R. simpl in R. unfold total in *. lia.
Qed.

Lemma rest_not_nil inv c k p x r : at_idx c k p -> rest inv c k = x :: r -> pos_eqb p (cl_last inv c) = false.
Proof.
  intros A R. destruct inv; cbn [rest cl_last] in *.
  - rewrite (at_eqb _ _ _ _ _ A (at_begin c)). destruct k; [discriminate|auto].
  - rewrite (at_eqb _ _ _ _ _ A (at_endpos c)). apply Nat.eqb_neq. intros ->.
    rewrite skipn_all2 in R; [discriminate|]. unfold total. auto.
Qed.

Lemma walk_spec inv c : forall fuel k p, at_idx c k p -> length (rest inv c k) <= fuel ->
  cl_walk peq fuel inv c p (cl_last inv c) = Some (dedup peq (rest inv c k)).
Proof.
  induction fuel as [|f IH]; intros k p A F.
  - destruct (rest inv c k) eqn:R; [|simpl in F; lia]. cbn [cl_walk].
    rewrite (rest_nil _ _ _ _ A R), (proj2 (pos_eqb_iff _ _) eq_refl). auto.
  - destruct (rest inv c k) as [|x r] eqn:R.
    + cbn [cl_walk]. rewrite (rest_nil _ _ _ _ A R), (proj2 (pos_eqb_iff _ _) eq_refl). auto.
    + cbn [cl_walk]. rewrite (rest_not_nil _ _ _ _ _ _ A R).
      destruct (rest_step inv c k p x r A R) as (p' & k' & -> & A' & -> & R').
      rewrite (IH k' p' A'); [|rewrite R', skipn_length; simpl in F; lia].
      rewrite R', <- dedup_lead. auto.
Qed.

Lemma at_first (inv : bool) c : at_idx c (if inv then total c else 0) (cl_first inv c).
Proof. destruct inv; simpl; [apply at_endpos|apply at_begin]. Qed.

Lemma rest_first (inv : bool) c : rest inv c (if inv then total c else 0) = view inv (concat c).
Proof. destruct inv; simpl; auto. rewrite firstn_all2; auto. Qed.

Theorem points_spec inv c : cl_points peq inv c = Some (dedup peq (view inv (concat c))).
Proof.
  unfold cl_points. rewrite <- rest_first. apply walk_spec; [apply at_first|].
  rewrite rest_first. unfold view, total. destruct inv; rewrite ?rev_length; auto.
Qed.

Theorem at_spec inv c n : cl_at peq inv c n = nth_error (dedup peq (view inv (concat c))) n.
Proof.
  unfold cl_at. rewrite <- rest_first. assert (A := at_first inv c).
  revert A. generalize (cl_first inv c) as p. generalize (if inv then total c else 0) as k.
  induction n as [|n IH]; intros k p A; cbn [advance_by].
  - destruct (rest inv c k) as [|x r] eqn:R.
    + rewrite (rest_nil _ _ _ _ A R). simpl. destruct inv; cbn [cl_deref cl_last].
      * rewrite dec_begin; auto. apply at_begin.
      * rewrite (at_deref _ _ _ (at_endpos c)). apply nth_error_None. unfold total. auto.
    + destruct (rest_step inv c k p x r A R) as (p' & k' & _ & _ & -> & _).
      rewrite dedup_lead. auto.
  - destruct (rest inv c k) as [|x r] eqn:R.
    + rewrite (rest_nil _ _ _ _ A R). simpl. destruct inv; cbn [cl_next cl_last].
      * rewrite dec_begin; auto. apply at_begin.
      * rewrite inc_end; auto. apply at_endpos.
    + destruct (rest_step inv c k p x r A R) as (p' & k' & -> & A' & _ & R').
      rewrite (IH k' p' A'), R'. rewrite (dedup_lead x r). auto.
Qed.

Lemma count_spec c : forall fuel k p, at_idx c k p -> length (rest false c k) <= fuel ->
  count_to peq fuel c p (c_end c) = Some (length (dedup peq (rest false c k))).
Proof.
  induction fuel as [|f IH]; intros k p A F.
  - destruct (rest false c k) eqn:R; [|simpl in F; lia]. cbn [count_to].
    rewrite (rest_nil _ _ _ _ A R), (proj2 (pos_eqb_iff _ _) eq_refl). auto.
  - destruct (rest false c k) as [|x r] eqn:R.
    + cbn [count_to]. rewrite (rest_nil _ _ _ _ A R), (proj2 (pos_eqb_iff _ _) eq_refl). auto.
    + cbn [count_to]. assert (E := rest_not_nil _ _ _ _ _ _ A R). cbn [cl_last] in E. rewrite E.
      destruct (rest_step false c k p x r A R) as (p' & k' & N & A' & _ & R'). cbn [cl_next] in N.
      rewrite N. rewrite (IH k' p' A'); [|rewrite R', skipn_length; simpl in F; lia].
      rewrite R', (dedup_lead x r). auto.
Qed.

Theorem size_spec inv c : cl_size peq inv c = Some (length (dedup peq (concat c))).
Proof.
  assert (B := at_begin c). assert (E := at_endpos c).
  assert (R : rest false c 0 = concat c) by reflexivity.
  assert (L : length (rest false c 0) <= total c) by (rewrite R; auto).
  unfold cl_size, c_distance, cl_first, cl_last. destruct inv.
  - assert (N : pos_ltb (c_end c) (c_begin c) = false).
    { unfold pos_ltb, c_end, c_begin. cbn [fst snd].
      assert (F : first_nonempty c <= length c).
      { destruct B as [(B & _)|[B _]]; unfold c_begin in B; simpl in B; [lia|inversion B; lia]. }
      rewrite (proj2 (Nat.ltb_ge _ _)) by auto. rewrite Nat.ltb_irrefl, andb_false_r. auto. }
    rewrite N, (count_spec c _ 0 _ B L), R. auto.
  - destruct (pos_ltb (c_begin c) (c_end c)) eqn:N.
    + rewrite (count_spec c _ 0 _ B L), R. auto.
    + assert (EQ : c_begin c = c_end c).
      { destruct B as [(B & _)|[B _]]; auto. unfold pos_ltb, c_end in N.
        apply orb_false_iff in N as [N _]. cbn [fst] in N. apply Nat.ltb_ge in N.
        unfold c_begin in *. simpl in *. lia. }
      assert (T : total c = 0) by (rewrite EQ in B; apply (at_fun c _ _ _ E B)).
      rewrite T, EQ. cbn [count_to]. rewrite (proj2 (pos_eqb_iff _ _) eq_refl).
      unfold total in T. destruct (concat c); [auto|discriminate].
Qed.

Lemma dedup_snoc l x : dedup peq (l ++ [x]) =
  match rev l with
  | y :: _ => if peq y x then dedup peq l else dedup peq l ++ [x]
  | [] => [x]
  end.
Proof.
  induction l as [|a l IH]; [reflexivity|].
  destruct l as [|b l].
  - simpl. destruct (peq a x) eqn:E; auto. apply peq_eq in E. subst. auto.
  - assert (R : exists y r, rev (b :: l) = y :: r /\ rev (a :: b :: l) = y :: r ++ [a]).
    { destruct (rev (b :: l)) as [|y r] eqn:R.
      - apply (f_equal (@length P)) in R. rewrite rev_length in R. discriminate.
      - exists y, r. split; auto. change (rev (a :: b :: l)) with (rev (b :: l) ++ [a]). rewrite R. auto. }
    destruct R as (y & r & R1 & R2). rewrite R1 in IH. rewrite R2.
    change ((a :: b :: l) ++ [x]) with (a :: b :: (l ++ [x])).
    change (dedup peq (a :: b :: l ++ [x])) with
      (if peq a b then dedup peq ((b :: l) ++ [x]) else a :: dedup peq ((b :: l) ++ [x])).
    change (dedup peq (a :: b :: l)) with (if peq a b then dedup peq (b :: l) else a :: dedup peq (b :: l)).
    rewrite IH. destruct (peq a b), (peq y x); auto.
Qed.

Theorem dedup_rev l : dedup peq (rev l) = rev (dedup peq l).
Proof.
  induction l as [|x l IH]; auto. cbn [rev]. rewrite dedup_snoc, rev_involutive.
  destruct l as [|y l]; auto. rewrite IH. cbn [dedup].
  assert (S : peq x y = peq y x).
  { destruct (peq x y) eqn:E1, (peq y x) eqn:E2; auto; exfalso.
    - apply peq_eq in E1. subst. rewrite peq_refl in E2. discriminate.
    - apply peq_eq in E2. subst. rewrite peq_refl in E1. discriminate. }
  rewrite S. destruct (peq y x); auto.
Qed.

Theorem front_spec inv c : cl_front peq inv c = nth_error (dedup peq (view inv (concat c))) 0.
Proof. rewrite <- at_spec. reflexivity. Qed.

Theorem back_spec inv c :
  cl_back peq inv c = nth_error (dedup peq (view inv (concat c))) (length (dedup peq (concat c)) - 1).
Proof.
  assert (X : nth_error (dedup peq (view inv (concat c))) (length (dedup peq (concat c)) - 1) =
              nth_error (dedup peq (view (negb inv) (concat c))) 0).
  { assert (NR : forall (l : list P), nth_error l (length l - 1) = nth_error (rev l) 0).
    { intros l. destruct (rev l) as [|y r] eqn:R.
      - apply (f_equal (@rev P)) in R. rewrite rev_involutive in R. subst. auto.
      - apply (f_equal (@rev P)) in R. rewrite rev_involutive in R. subst l. simpl.
        rewrite app_length, nth_error_app2 by (simpl; lia). simpl.
        replace (length (rev r) + 1 - 1 - length (rev r)) with 0 by lia. auto. }
    destruct inv; cbn [view negb].
    - rewrite dedup_rev. rewrite <- (rev_length (dedup peq (concat c))) at 1. rewrite NR, rev_involutive. auto.
    - rewrite dedup_rev, NR. auto. }
  rewrite X. clear X. unfold cl_back.
  destruct inv; cbn [cl_prev cl_last cl_deref negb view].
  - (* inc begin, then look one before *)
    destruct (nth_error (concat c) 0) as [x|] eqn:N.
    + destruct (inc_spec c 0 _ x (at_begin c) N) as (p' & -> & A').
      set (m := lead x (skipn 1 (concat c))) in *.
      assert (M : S m <= total c) by (apply at_le in A'; simpl in A'; lia).
      destruct (nth_error (concat c) m) as [y|] eqn:NY.
      2:{ apply nth_error_None in NY. unfold total in M. lia. }
      change (1 + m) with (S m) in A'.
      destruct (dec_spec c m p' y A' NY) as (q & -> & Aq).
      rewrite (at_deref _ _ _ Aq).
      destruct (concat c) as [|z l] eqn:CC; [discriminate|]. simpl in N. inversion N; subst z.
      rewrite dedup_lead. cbn [nth_error]. cbn [skipn] in m.
      assert (YX : forall j, j <= m -> nth_error (x :: l) j = Some x).
      { intros [|j] Hj; auto. cbn [nth_error]. apply nth_lead. fold m. lia. }
      apply YX. lia.
    + unfold inc. rewrite (at_deref c 0 _ (at_begin c)), N.
      destruct (concat c); [auto|discriminate].
  - assert (Q := rest_step true c (total c) (c_end c)). cbn [rest cl_deref cl_next] in Q.
    assert (FA : firstn (total c) (concat c) = concat c) by (apply firstn_all2; auto).
    rewrite FA in Q. destruct (rev (concat c)) as [|x r] eqn:R.
    + assert (concat c = []) by (apply (f_equal (@rev P)) in R; rewrite rev_involutive in R; auto).
      assert (T : total c = 0) by (unfold total; rewrite H; auto).
      rewrite dec_begin; auto. assert (A := at_endpos c). rewrite T in A. exact A.
    + destruct (Q x r (at_endpos c) eq_refl) as (p' & k' & E & _ & D & _).
      rewrite E in D. rewrite E. rewrite D, dedup_lead. auto.
Qed.

Theorem parts_spec inv c : concat (cl_parts inv c) = view inv (concat c).
Proof.
  destruct inv; auto. cbn [cl_parts view]. induction c as [|a c IH]; auto.
  cbn [map rev concat]. rewrite concat_app, IH, rev_app_distr. simpl. rewrite app_nil_r. auto.
Qed.
End Compound.
