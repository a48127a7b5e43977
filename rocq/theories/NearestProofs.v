(** Lemmas about the spatial queries. *)
From Coq Require Import List Bool Arith NArith Lia Permutation Sorted.
From Verif Require Import NearestModel.
Import ListNotations.

Section FindIf.
Context {S A : Type}.
Variable f : S -> A -> option (bool * S).

(** [rejected s l s']: called one after the other on [l], the predicate says no each
    time and goes from state [s] to [s']. *)
Inductive rejected : S -> list A -> S -> Prop :=
| rej_nil s : rejected s [] s
| rej_cons s x s1 l s2 : f s x = Some (false, s1) -> rejected s1 l s2 -> rejected s (x :: l) s2.

Lemma find_if_spec l : forall s r s' calls, find_if f s l = Some (r, s', calls) ->
  match r with
  | None => rejected s l s' /\ calls = l
  | Some x => exists pre post s1, l = pre ++ x :: post /\ calls = pre ++ [x] /\
                rejected s pre s1 /\ f s1 x = Some (true, s')
  end.
Proof.
  induction l as [|y l IH]; simpl; intros s r s' calls E.
  - inversion E; subst. split; [constructor|auto].
  - destruct (f s y) as [[[] s1]|] eqn:F; [| |discriminate].
    + inversion E; subst. exists [], l, s. repeat split; auto. constructor.
    + destruct (find_if f s1 l) as [[[r0 s2] c]|] eqn:G; [|discriminate].
      inversion E; subst. specialize (IH _ _ _ _ G). destruct r as [x|].
      * destruct IH as (pre & post & s3 & -> & -> & R & X).
        exists (y :: pre), post, s3. repeat split; auto. econstructor; eauto.
      * destruct IH as [R ->]. split; auto. econstructor; eauto.
Qed.

Lemma find_if_total (Inv : S -> Prop) l :
  (forall s x, Inv s -> exists b s', f s x = Some (b, s') /\ Inv s') ->
  forall s, Inv s -> exists r s' c, find_if f s l = Some (r, s', c).
Proof.
  intros H. induction l as [|x l IH]; simpl; intros s I; [eauto|].
  destruct (H s x I) as (b & s' & -> & I'). destruct b; [eauto|].
  destruct (IH s' I') as (r & s2 & c & ->). eauto.
Qed.
End FindIf.

Lemma to_unsigned_small n : (N.of_nat n < 2 ^ 32)%N -> to_unsigned n = n.
Proof. intros H. unfold to_unsigned. rewrite N.mod_small by auto. apply Nat2N.id. Qed.

Lemma firstn_exact {X} (a b : list X) : firstn (length a) (a ++ b) = a.
Proof. induction a; simpl; [destruct b; auto|congruence]. Qed.
Lemma skipn_exact {X} (a b : list X) : skipn (length a) (a ++ b) = b.
Proof. induction a; simpl; auto. Qed.

Section Nearest.
Context {D A : Type}.
Variable leb : D -> D -> bool.
Hypothesis leb_total : forall a b, leb a b = true \/ leb b a = true.
Hypothesis leb_trans : forall a b c, leb a b = true -> leb b c = true -> leb a c = true.

Notation vle := (fun v w : D * A => leb (fst v) (fst w) = true).

Lemma ltb_le a b : ltb leb a b = true -> leb a b = true.
Proof. unfold ltb. rewrite negb_true_iff. destruct (leb_total a b); congruence. Qed.

Lemma lower_bound_spec m vs : StronglySorted vle vs -> exists a b,
  vs = a ++ b /\ lower_bound leb vs m = length a /\
  (forall v, In v a -> leb (fst v) m = true) /\ (forall v, In v b -> leb m (fst v) = true).
Proof.
  induction vs as [|v vs IH]; intros ST; simpl.
  - exists [], []. repeat split; auto; intros ? [].
  - apply StronglySorted_inv in ST as [ST F]. destruct (ltb leb (fst v) m) eqn:L.
    + destruct (IH ST) as (a & b & -> & E & H1 & H2). exists (v :: a), b.
      split; [auto|]. split; [simpl; congruence|]. split; [|auto].
      intros w [<-|H]; auto. apply ltb_le; auto.
    + exists [], (v :: vs). split; [auto|]. split; [auto|]. split; [intros ? []|].
      unfold ltb in L. rewrite negb_false_iff in L. intros w [<-|H]; auto.
      eapply leb_trans; [exact L|]. rewrite Forall_forall in F. apply (F w H).
Qed.

Lemma ss_app (l1 l2 : list (D * A)) : StronglySorted vle l1 -> StronglySorted vle l2 ->
  (forall v w, In v l1 -> In w l2 -> vle v w) -> StronglySorted vle (l1 ++ l2).
Proof.
  induction l1 as [|v l1 IH]; simpl; intros S1 S2 H; auto.
  apply StronglySorted_inv in S1 as [S1 F]. constructor.
  - apply IH; auto.
  - rewrite Forall_forall in *. intros w [Hw|Hw] % in_app_iff; auto.
Qed.

Lemma ss_app_inv (l1 l2 : list (D * A)) : StronglySorted vle (l1 ++ l2) ->
  StronglySorted vle l1 /\ StronglySorted vle l2 /\ (forall v w, In v l1 -> In w l2 -> vle v w).
Proof.
  induction l1 as [|v l1 IH]; simpl; intros S0.
  - split; [constructor|]. split; [auto|intros ? ? []].
  - apply StronglySorted_inv in S0 as [S0 F]. destruct (IH S0) as (S1 & S2 & H).
    rewrite Forall_forall in F. repeat split; auto.
    + constructor; auto. rewrite Forall_forall. intros w Hw. apply F, in_app_iff; auto.
    + intros x w [<-|Hx] Hw; auto. apply F, in_app_iff; auto.
Qed.

Lemma ss_insert m x a b : StronglySorted vle (a ++ b) ->
  (forall v, In v a -> leb (fst v) m = true) -> (forall v, In v b -> leb m (fst v) = true) ->
  StronglySorted vle (a ++ (m, x) :: b).
Proof.
  intros S0 H1 H2. apply ss_app_inv in S0 as (S1 & S2 & H). apply ss_app; auto.
  - constructor; auto. rewrite Forall_forall. auto.
  - intros v w Hv [<-|Hw]; simpl; auto.
Qed.

Variables (bdist dist : A -> D) (n : nat).
Hypothesis bound : forall x, leb (bdist x) (dist x) = true.
Hypothesis n_pos : (0 < n)%nat.

(** State of the collection after the elements [pre]: [out] are the rejected ones. *)
Record inv (pre : list A) (vs : list (D * A)) (out : list A) : Prop := {
  i_sorted : StronglySorted vle vs;
  i_dist : forall d x, In (d, x) vs -> d = dist x;
  i_perm : Permutation pre (map snd vs ++ out);
  i_len : length vs = min n (length pre);
  i_out : forall y v, In y out -> In v vs -> leb (fst v) (dist y) = true
}.

Lemma inv_nil : inv [] [] [].
Proof.
  split; simpl; auto; try tauto; [constructor|]. lia.
Qed.

Lemma inv_ins pre vs out x : inv pre vs out ->
  exists out', inv (pre ++ [x]) (ins leb n vs (dist x) x) out'.
Proof.
  intros [IS ID IP IL IO].
  destruct (lower_bound_spec (dist x) vs IS) as (a & b & E & P & H1 & H2).
  unfold ins. rewrite P. unfold emplace.
  assert (LP : length (pre ++ [x]) = S (length pre)) by (rewrite app_length; simpl; lia).
  destruct (Nat.ltb (length vs) n) eqn:Q.
  - (* not full *)
    apply Nat.ltb_lt in Q. rewrite orb_true_r.
    assert (Nat.leb n (length vs) = false) as -> by (apply Nat.leb_gt; auto).
    subst vs. rewrite firstn_exact, skipn_exact.
    exists out. assert (out = []) as ->.
    { apply Permutation_length in IP. rewrite app_length, map_length in IP.
      destruct out; auto. simpl in IP. lia. }
    split.
    + apply ss_insert; auto.
    + intros d y [H|[H|H]] % in_app_iff; [|inversion H; auto|]; apply ID, in_app_iff; auto.
    + rewrite app_nil_r in *. rewrite map_app in *. simpl.
      rewrite Permutation_app_comm. simpl. apply Permutation_cons_app. exact IP.
    + rewrite LP, app_length. simpl. rewrite app_length in *. lia.
    + intros y v [].
  - apply Nat.ltb_ge in Q. rewrite orb_false_r.
    assert (Nat.leb n (length vs) = true) as -> by (apply Nat.leb_le; auto).
    destruct (Nat.eqb (length a) (length vs)) eqn:Z; simpl.
    + (* rejected *)
      apply Nat.eqb_eq in Z. assert (b = []) as ->.
      { subst vs. rewrite app_length in Z. destruct b; simpl in Z; auto; lia. }
      rewrite app_nil_r in E. subst a. exists (x :: out). split; auto.
      * rewrite Permutation_app_comm. simpl. apply Permutation_cons_app. exact IP.
      * lia.
      * intros y v [<-|Hy] Hv; auto.
    + apply Nat.eqb_neq in Z. assert (Hb : b <> []).
      { intros ->. rewrite app_nil_r in E. congruence. }
      destruct (exists_last Hb) as (b' & l & ->).
      assert (RL : removelast vs = a ++ b').
      { subst vs. rewrite app_assoc. apply removelast_last. }
      rewrite RL. rewrite firstn_exact, skipn_exact.
      assert (S0 := IS). rewrite E, app_assoc in S0. apply ss_app_inv in S0 as (S1 & _ & S3).
      assert (ML : leb (dist x) (fst l) = true) by (apply H2, in_app_iff; simpl; auto).
      assert (DL : fst l = dist (snd l)).
      { apply ID. rewrite E. destruct l. apply in_app_iff. right. apply in_app_iff. simpl; auto. }
      exists (snd l :: out). split.
      * apply ss_insert; auto. intros v Hv. apply H2, in_app_iff; auto.
      * intros d y [H|[H|H]] % in_app_iff; [|inversion H; auto|]; apply ID; rewrite E;
          rewrite !in_app_iff; auto.
      * rewrite IP, E. rewrite !map_app. simpl. rewrite <- !app_assoc.
        apply Permutation_app_head. simpl.
        replace (map snd b' ++ snd l :: out ++ [x]) with ((map snd b' ++ snd l :: out) ++ [x])
          by (rewrite <- app_assoc; auto).
        symmetry. apply Permutation_cons_append.
      * assert (length vs = length (a ++ b') + 1)%nat by
          (rewrite E, app_assoc, app_length; simpl; auto).
        rewrite LP, app_length. simpl. rewrite app_length in *. lia.
      * assert (VL : forall v, In v (a ++ (dist x, x) :: b') -> leb (fst v) (fst l) = true).
        { intros v [H|[H|H]] % in_app_iff.
          - apply S3; simpl; auto. apply in_app_iff; auto.
          - subst v. exact ML.
          - apply S3; simpl; auto. apply in_app_iff; auto. }
        intros y v [<-|Hy] Hv.
        -- rewrite <- DL. apply VL; auto.
        -- eapply leb_trans; [apply VL; eauto|]. apply (IO y l Hy).
           rewrite E, !in_app_iff. simpl; auto.
Qed.

Lemma visit_total vs x : exists b vs', visit leb n bdist dist vs x = Some (b, vs').
Proof.
  unfold visit. destruct (Nat.leb n (length vs)) eqn:Q; [|eauto].
  apply Nat.leb_le in Q. destruct (rev vs) as [|v l] eqn:R.
  - apply (f_equal (@length _)) in R. rewrite rev_length in R. simpl in R. lia.
  - destruct (ltb leb (fst v) (bdist x)); eauto.
Qed.

Lemma rejected_inv l : forall vs vs', rejected (visit leb n bdist dist) vs l vs' ->
  forall pre out, inv pre vs out -> exists out', inv (pre ++ l) vs' out'.
Proof.
  induction l as [|x l IH]; intros vs vs' R pre out I; inversion R; subst.
  - rewrite app_nil_r. eauto.
  - assert (E : s1 = ins leb n vs (dist x) x).
    { match goal with H : visit _ _ _ _ _ _ = Some _ |- _ => revert H end. unfold visit.
      destruct (Nat.leb n (length vs)); [|congruence].
      destruct (rev vs); [discriminate|]. destruct (ltb leb _ _); congruence. }
    subst s1. destruct (inv_ins pre vs out x I) as [out' I'].
    replace (pre ++ x :: l) with ((pre ++ [x]) ++ l) by (rewrite <- app_assoc; auto).
    eapply IH; eauto.
Qed.

Theorem find_nearest_spec q :
  StronglySorted (fun x y => leb (bdist x) (bdist y) = true) q ->
  (N.of_nat (length q) < 2 ^ 32)%N ->
  exists vs out, find_nearest leb n bdist dist q = Some vs /\ inv q vs out.
Proof.
  intros ST SM. unfold find_nearest, nearest_until.
  rewrite (to_unsigned_small _ SM), firstn_all.
  destruct q as [|x0 q0]; [exists [], []; split; [auto|apply inv_nil]|].
  destruct (find_if_total (visit leb n bdist dist) (fun _ => True) (x0 :: q0)) with (s := @nil (D * A))
    as (r & vs & c & F); auto.
  { intros s x _. destruct (visit_total s x) as (b & s' & E). eauto. }
  rewrite F. assert (X := find_if_spec _ _ _ _ _ _ F). exists vs.
  destruct r as [x|].
  - destruct X as (pre & post & s1 & Eq & _ & R & V).
    destruct (rejected_inv _ _ _ R [] [] inv_nil) as [out I]. simpl in I.
    unfold visit in V. destruct (Nat.leb n (length s1)) eqn:FU; [|congruence].
    destruct (rev s1) as [|v l] eqn:RV; [discriminate|].
    destruct (ltb leb (fst v) (bdist x)) eqn:L; [|congruence]. inversion V; subst s1.
    exists (out ++ x :: post). split; auto. destruct I as [IS ID IP IL IO].
    assert (BK : forall w, In w vs -> leb (fst w) (fst v) = true).
    { intros w Hw. assert (E : vs = rev l ++ [v]) by (rewrite <- (rev_involutive vs), RV; auto).
      rewrite E in IS, Hw. apply ss_app_inv in IS as (_ & _ & H).
      apply in_app_iff in Hw as [Hw|[<-|[]]]; [apply H; simpl; auto|].
      destruct (leb_total (fst v) (fst v)); auto. }
    assert (ST' : forall y, In y (x :: post) -> leb (bdist x) (bdist y) = true).
    { rewrite Eq in ST. clear -ST leb_total. induction pre as [|p pre IH]; simpl in ST;
        apply StronglySorted_inv in ST as [ST FA]; auto.
      rewrite Forall_forall in FA. intros y [<-|H]; auto.
      destruct (leb_total (bdist x) (bdist x)); auto. }
    split; auto.
    + rewrite Eq, IP, <- app_assoc. auto.
    + rewrite Eq, app_length. simpl. apply Nat.leb_le in FU. lia.
    + intros y w [Hy|Hy] % in_app_iff Hw; auto.
      eapply leb_trans; [apply BK; auto|]. eapply leb_trans; [apply ltb_le; eauto|].
      eapply leb_trans; [apply ST'; eauto|apply bound].
  - destruct X as [R _]. destruct (rejected_inv _ _ _ R [] [] inv_nil) as [out I].
    exists out. split; auto.
Qed.
End Nearest.
