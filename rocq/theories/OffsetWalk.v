(** Proofs about the walks of OffsetModel.v. *)
From Coq Require Import List Bool Arith Reals Sorted Lia Lra Psatz.
From Verif Require Import ArcModel ArcSpec OffsetModel OffsetSpec.
Import ListNotations.
Local Open Scope R_scope.

Lemma segments_pairs l : segments_of l = pairs l.
Proof.
  unfold pairs. induction l as [|a l IH]; [reflexivity|]. destruct l as [|b l]; [reflexivity|].
  change (segments_of (a :: b :: l)) with ((a, b) :: segments_of (b :: l)). rewrite IH. reflexivity.
Qed.
Lemma pairs_length l : length (pairs l) = (length l - 1)%nat.
Proof. unfold pairs. rewrite combine_length. destruct l; cbn [length tl]; lia. Qed.
Lemma pairs_nth l k a b : nth_error (pairs l) k = Some (a, b) <-> nth_error l k = Some a /\ nth_error l (S k) = Some b.
Proof.
  revert k. induction l as [|x l IH]; intros k; [unfold pairs; destruct k; simpl; (split; [discriminate|intros [? ?]; discriminate])|].
  destruct l as [|y l].
  - unfold pairs. destruct k as [|[|k]]; simpl; (split; [discriminate|intros [? ?]; discriminate]).
  - destruct k as [|k].
    + unfold pairs. simpl. split; [intros H; injection H; intros; subst; auto|intros [H1 H2]; congruence].
    + apply (IH k).
Qed.
Lemma pairs_cons a b l : pairs (a :: b :: l) = (a, b) :: pairs (b :: l).
Proof. reflexivity. Qed.

Lemma squares_pos x y : 0 <= x * x + y * y.
Proof. pose proof (Rle_0_sqr x). pose proof (Rle_0_sqr y). unfold Rsqr in *. lra. Qed.
Lemma distance_euclid p q : distance p q = euclid q p.
Proof. unfold distance, norm, pdot, psub, euclid. simpl. f_equal. Qed.
Lemma euclid_sym p q : euclid p q = euclid q p.
Proof. unfold euclid. f_equal. ring. Qed.
Lemma euclid_pos p q : 0 <= euclid p q.
Proof. apply sqrt_pos. Qed.
Lemma euclid_zero p q : euclid p q = 0 -> p = q.
Proof.
  unfold euclid. destruct p as [a b], q as [c d]. cbn [fst snd]. intros H. apply sqrt_eq_0 in H; [|apply squares_pos].
  pose proof (Rle_0_sqr (c - a)) as Ha. pose proof (Rle_0_sqr (d - b)) as Hb. unfold Rsqr in Ha, Hb.
  assert (H0 : (c - a) * (c - a) = 0) by lra. assert (H1 : (d - b) * (d - b) = 0) by lra.
  apply Rmult_integral in H0. apply Rmult_integral in H1. f_equal; destruct H0, H1; lra.
Qed.
Lemma euclid_between a b t : 0 <= t -> euclid a (between a b t) = t * euclid a b.
Proof.
  intros H. unfold euclid, between. simpl.
  replace (t * sqrt ((fst b - fst a) * (fst b - fst a) + (snd b - snd a) * (snd b - snd a)))
    with (sqrt (t * t) * sqrt ((fst b - fst a) * (fst b - fst a) + (snd b - snd a) * (snd b - snd a))) by (rewrite sqrt_square; auto).
  rewrite <- sqrt_mult; [f_equal; ring|apply Rle_0_sqr|apply squares_pos].
Qed.
Lemma euclid_self a : euclid a a = 0.
Proof. unfold euclid. rewrite !Rminus_eq_0, Rmult_0_l, Rplus_0_l. apply sqrt_0. Qed.
Lemma between_0 a b : between a b 0 = a.
Proof. destruct a, b. unfold between. simpl. f_equal; ring. Qed.
Lemma between_1 a b : between a b 1 = b.
Proof. destruct a, b. unfold between. simpl. f_equal; ring. Qed.
Lemma between_same a t : between a a t = a.
Proof. destruct a. unfold between. simpl. f_equal; ring. Qed.
Lemma between_between a b t t' r : between (between a b t) (between a b t') r = between a b ((1 - r) * t + r * t').
Proof. unfold between. simpl. f_equal; ring. Qed.
Lemma part_on s u x : part_of s u -> on_segment u x -> on_segment s x.
Proof.
  intros (t & t' & H1 & H2 & E1 & E2) (r & Hr & ->). rewrite E1, E2, between_between. exists ((1 - r) * t + r * t'). split; [nra|auto].
Qed.
Lemma on_fst s : on_segment s (fst s).
Proof. exists 0. rewrite between_0. split; [lra|auto]. Qed.
Lemma on_snd s : on_segment s (snd s).
Proof. exists 1. rewrite between_1. split; [lra|auto]. Qed.

(** Points by their lengths along a segment *)
Lemma by_length s x : on_segment s x -> exists t, 0 <= t <= 1 /\ x = between (fst s) (snd s) t /\ euclid (fst s) x = t * euclid (fst s) (snd s).
Proof. intros (t & Ht & ->). exists t. do 2 (split; auto). apply euclid_between. lra. Qed.
Lemma same_length s x y : on_segment s x -> on_segment s y -> euclid (fst s) x = euclid (fst s) y -> x = y.
Proof.
  intros (t & Ht & ->) (r & Hr & ->) H. rewrite !euclid_between in H by lra.
  destruct (Req_EM_T (euclid (fst s) (snd s)) 0) as [Z|Z].
  - apply euclid_zero in Z. rewrite <- Z. now rewrite !between_same.
  - f_equal. apply Rmult_eq_reg_r with (1 := H). auto.
Qed.

Section W.
Variable query : list (segment * nat) -> segment -> list (segment * nat).
Variable meet : segment -> segment -> list point.
Hypothesis Q : query_ok query.
Hypothesis M : meet_ok meet.

Lemma lowest_above_some cs : forall least best c, lowest_above cs least best = Some c ->
  (forall b, best = Some b -> least < own_s b) ->
  (In c cs \/ best = Some c) /\ least < own_s c /\
  (forall b, best = Some b -> own_s c <= own_s b) /\ (forall c', In c' cs -> least < own_s c' -> own_s c <= own_s c').
Proof.
  induction cs as [|x cs IH]; intros least best c H HB; simpl in H.
  - subst best. split; [auto|]. split; [auto|]. split; [intros b E; injection E as <-; lra|]. simpl. tauto.
  - destruct (Rlt_dec least (own_s x)) as [L|L]; simpl in H.
    + destruct best as [b|].
      * destruct (Rlt_dec (own_s x) (own_s b)) as [L2|L2]; apply IH in H.
        -- destruct H as (H1 & H2 & H3 & H4). specialize (H3 x eq_refl). split; [destruct H1 as [H1|H1]; [simpl; auto|injection H1 as <-; simpl; auto]|].
           split; [auto|]. split; [intros b' E; injection E as <-; lra|]. intros c' [<-|H5] H6; auto.
        -- intros b' E. injection E as <-. auto.
        -- destruct H as (H1 & H2 & H3 & H4). specialize (H3 b eq_refl). split; [simpl; tauto|].
           split; [auto|]. split; [intros b' E; injection E as <-; lra|]. intros c' [<-|H5] H6; [lra|auto].
        -- auto.
      * apply IH in H.
        -- destruct H as (H1 & H2 & H3 & H4). specialize (H3 x eq_refl). split; [destruct H1 as [H1|H1]; [simpl; auto|injection H1 as <-; simpl; auto]|].
           split; [auto|]. split; [discriminate|]. intros c' [<-|H5] H6; auto.
        -- intros b' E. injection E as <-. auto.
    + apply IH in H; [|auto]. destruct H as (H1 & H2 & H3 & H4). split; [simpl; tauto|]. split; [auto|]. split; [auto|].
      intros c' [<-|H5] H6; [lra|auto].
Qed.
Lemma lowest_above_best cs : forall least b, lowest_above cs least (Some b) <> None.
Proof.
  induction cs as [|x cs IH]; intros least b; simpl; [discriminate|].
  match goal with |- context [if ?g then Some x else Some b] => destruct g end; apply IH.
Qed.
Lemma lowest_above_none cs : forall least, lowest_above cs least None = None -> forall c, In c cs -> own_s c <= least.
Proof.
  induction cs as [|x cs IH]; intros least H c I; [destruct I|]. simpl in H.
  destruct (Rlt_dec least (own_s x)) as [L|L]; simpl in H.
  - apply lowest_above_best in H. destruct H.
  - destruct I as [<-|I]; [lra|]. eapply IH; eauto.
Qed.

Definition free (k : nat) (s o : segment) (i : nat) : Prop := fst o <> snd s /\ snd o <> fst s /\ fst o <> fst s /\ (k < i)%nat.
Lemma crossings_done k s found : (forall x, In x found -> touch s (fst x)) ->
  exists cs, crossings_of meet k s found = Done cs /\
    (forall c, In c cs -> exists o, In (o, other_index c) found /\ free k s o (other_index c) /\ on_segment s (common c) /\ on_segment o (common c) /\
       own_s c = euclid (fst s) (common c) /\ other_s c = euclid (fst o) (common c)) /\
    (forall o i, In (o, i) found -> free k s o i -> exists c, In c cs /\ other_index c = i /\ on_segment s (common c) /\ on_segment o (common c) /\
       own_s c = euclid (fst s) (common c)).
Proof.
  induction found as [|[o i] found IH]; intros H.
  - exists []. split; [reflexivity|]. split; intros; simpl in *; tauto.
  - destruct IH as (cs & E & H1 & H2); [intros x I; apply H; right; auto|].
    simpl. destruct (point_dec (fst o) (snd s)) as [D1|D1]; simpl.
    { exists cs. split; [auto|]. split; [intros c I; destruct (H1 c I) as (o' & I' & R); exists o'; split; [right; auto|auto]|].
      intros o' i' [E'|I'] F; [injection E' as -> ->; destruct F as (F & _); tauto|eauto]. }
    destruct (point_dec (snd o) (fst s)) as [D2|D2]; simpl.
    { exists cs. split; [auto|]. split; [intros c I; destruct (H1 c I) as (o' & I' & R); exists o'; split; [right; auto|auto]|].
      intros o' i' [E'|I'] F; [injection E' as -> ->; destruct F as (_ & F & _); tauto|eauto]. }
    destruct (point_dec (fst o) (fst s)) as [D3|D3]; simpl.
    { exists cs. split; [auto|]. split; [intros c I; destruct (H1 c I) as (o' & I' & R); exists o'; split; [right; auto|auto]|].
      intros o' i' [E'|I'] F; [injection E' as -> ->; destruct F as (_ & _ & F & _); tauto|eauto]. }
    destruct (Nat.ltb_spec k i) as [D4|D4].
    + destruct (M s o) as [MN MO]; [apply (H (o, i)); left; auto|]. destruct (meet s o) as [|p ps] eqn:EM; [destruct MN; auto|].
      destruct (MO p) as [P1 P2]; [left; auto|]. rewrite E. simpl. eexists. split; [reflexivity|]. split.
      * intros c [<-|I]; [|destruct (H1 c I) as (o' & I' & R); exists o'; split; [right; auto|auto]].
        exists o. simpl. rewrite !distance_euclid. unfold free. repeat (split; auto).
      * intros o' i' [E'|I'] F.
        -- injection E' as -> ->. eexists. split; [left; reflexivity|]. simpl. rewrite distance_euclid. auto.
        -- destruct (H2 o' i' I' F) as (c & I & R). exists c. split; [right; auto|auto].
    + exists cs. split; [auto|]. split; [intros c I; destruct (H1 c I) as (o' & I' & R); exists o'; split; [right; auto|auto]|].
      intros o' i' [E'|I'] F; [injection E' as -> ->; destruct F as (_ & _ & _ & F); lia|eauto].
Qed.

Lemma indexed_in l s i : In (s, i) (indexed l) <-> nth_error l i = Some s.
Proof.
  unfold indexed. enough (H : forall n, In (s, i) (combine l (seq n (length l))) <-> exists k, i = (n + k)%nat /\ nth_error l k = Some s).
  { rewrite H. split; [intros (k & -> & E); auto|intros E; exists i; auto]. }
  induction l as [|a l IH]; intros n; simpl.
  - split; [tauto|]. intros ([|k] & _ & E); discriminate.
  - rewrite IH. split.
    + intros [E|(k & -> & E)]; [injection E as -> <-; exists 0%nat; split; [lia|auto]|exists (S k); split; [lia|auto]].
    + intros ([|k] & -> & E); simpl in E; [left; injection E as ->; f_equal; lia|right; exists k; split; [lia|auto]].
Qed.

(** No point inside of [u] lies on a segment behind [k]. *)
Definition clean (segs : list segment) (k : nat) (u : segment) : Prop :=
  forall n o x, (k < n)%nat -> nth_error segs n = Some o -> inside u x -> ~ on_segment o x.

(** The segments where a walk on [s], the segment with the number [k], may leave it behind the length [from] *)
Definition exits (segs : list segment) (k : nat) (s : segment) (from : R) (i : nat) (o : segment) (x : point) : Prop :=
  nth_error segs i = Some o /\ free k s o i /\ on_segment s x /\ on_segment o x /\ from < euclid (fst s) x.

Lemma next_point segs k s from : exists cs, crossings_at query meet (indexed segs) k s = Done cs /\
  exists p i f, find_next cs s from k = (p, i, f) /\ (k < i)%nat /\ on_segment s p /\
   ((exists o, exits segs k s from i o p /\ f = euclid (fst o) p) \/ p = snd s /\ i = S k /\ f = 0 /\
     (forall n o, nth_error segs n = Some o -> free k s o n -> touch s o -> exists x, on_segment s x /\ on_segment o x /\ euclid (fst s) x <= from)) /\
   (forall n o x, nth_error segs n = Some o -> free k s o n -> touch s o -> on_segment s x -> on_segment o x ->
      (forall y, on_segment s y -> on_segment o y -> y = x) -> from < euclid (fst s) x -> euclid (fst s) p <= euclid (fst s) x).
Proof.
  unfold crossings_at. destruct (crossings_done k s (query (indexed segs) s)) as (cs & E & H1 & H2).
  { intros x I. apply Q in I. tauto. }
  exists cs. split; [auto|]. unfold find_next. destruct (lowest_above cs from None) as [c|] eqn:L.
  - apply lowest_above_some in L; [|discriminate]. destruct L as (L1 & L2 & _ & L3). destruct L1 as [L1|L1]; [|discriminate].
    destruct (H1 c L1) as (o & I & F & S1 & S2 & S3 & S4). apply Q in I. destruct I as [I _]. apply indexed_in in I.
    exists (common c), (other_index c), (other_s c). split; [reflexivity|]. split; [apply F|]. split; [auto|]. split.
    + left. exists o. split; [|auto]. split; [auto|]. split; [auto|]. rewrite <- S3. auto.
    + intros n o' x N F' T X1 X2 U X3. destruct (H2 o' n) as (c' & C1 & C2 & C3 & C4 & C5); [apply Q; split; [apply indexed_in; auto|auto]|auto|].
      rewrite (U _ C3 C4) in C5. rewrite <- S3, <- C5. apply L3; [auto|]. rewrite C5. auto.
  - pose proof (lowest_above_none _ _ L) as L1. exists (snd s), (k + 1)%nat, 0. split; [reflexivity|]. split; [lia|]. split; [apply on_snd|]. split.
    + right. split; [auto|]. split; [lia|]. split; [auto|]. intros n o N F T.
      destruct (H2 o n) as (c' & C1 & C2 & C3 & C4 & C5); [apply Q; split; [apply indexed_in; auto|auto]|auto|].
      exists (common c'). split; [auto|]. split; [auto|]. rewrite <- C5. auto.
    + intros n o' x N F' T X1 X2 U X3. destruct (H2 o' n) as (c' & C1 & C2 & C3 & C4 & C5); [apply Q; split; [apply indexed_in; auto|auto]|auto|].
      rewrite (U _ C3 C4) in C5. specialize (L1 _ C1). lra.
Qed.

(** One piece of a walk is part of a segment, and clean. *)
Lemma piece segs k s from c p i : nth_error segs k = Some s -> on_segment s c -> from = euclid (fst s) c -> on_segment s p ->
  ((exists o, exits segs k s from i o p) \/ p = snd s) ->
  part_of s (c, p).
Proof.
  intros N C -> P H. destruct (by_length _ _ C) as (t & Ht & Ec & El). destruct (by_length _ _ P) as (t' & Ht' & Ep & El').
  destruct H as [(o & H)|H].
  - destruct H as (_ & _ & _ & _ & H). exists t, t'. simpl. split; [|split; [lra|auto]]. split; [lra|].
    pose proof (euclid_pos (fst s) (snd s)) as Hs. rewrite El, El' in H. nra.
  - exists t, 1. simpl. split; [lra|]. split; [lra|]. split; [auto|]. now rewrite between_1.
Qed.
Lemma piece_clean segs k s c p : nth_error segs k = Some s -> single_crossings segs -> on_segment s c -> on_segment s p -> part_of s (c, p) ->
  (forall n o x, nth_error segs n = Some o -> free k s o n -> touch s o -> on_segment s x -> on_segment o x ->
      (forall y, on_segment s y -> on_segment o y -> y = x) -> euclid (fst s) c < euclid (fst s) x -> euclid (fst s) p <= euclid (fst s) x) ->
  clean segs k (c, p).
Proof.
  intros N SC C P PO H n o x Kn No (X1 & X2 & X3) X4. simpl in X2, X3.
  pose proof (part_on _ _ _ PO X1) as X5.
  assert (U : forall y, on_segment s y -> on_segment o y -> y = x) by (intros y Y1 Y2; apply (SC k n s o y x); auto).
  destruct PO as (t & t' & T1 & T2 & E1 & E2). simpl in E1, E2. destruct X1 as (r & Hr & Ex). simpl in Ex.
  rewrite E1, E2, between_between in Ex. set (q := (1 - r) * t + r * t') in *.
  assert (Hs := euclid_pos (fst s) (snd s)).
  assert (Lx : euclid (fst s) x = q * euclid (fst s) (snd s)) by (rewrite Ex; apply euclid_between; unfold q; nra).
  assert (Lc : euclid (fst s) c = t * euclid (fst s) (snd s)) by (rewrite E1; apply euclid_between; lra).
  assert (Lp : euclid (fst s) p = t' * euclid (fst s) (snd s)) by (rewrite E2; apply euclid_between; lra).
  assert (Q1 : t <= q) by (unfold q; nra). assert (Q2 : q <= t') by (unfold q; nra).
  assert (Gc : euclid (fst s) c < euclid (fst s) x).
  { destruct (Rle_lt_or_eq_dec (euclid (fst s) c) (euclid (fst s) x)) as [G|G]; [rewrite Lc, Lx; nra|auto|].
    exfalso. apply X2. apply (same_length s); auto. }
  assert (Gp : euclid (fst s) x < euclid (fst s) p).
  { destruct (Rle_lt_or_eq_dec (euclid (fst s) x) (euclid (fst s) p)) as [G|G]; [rewrite Lp, Lx; nra|auto|].
    exfalso. apply X3. apply (same_length s); auto. }
  assert (F : free k s o n).
  { unfold free. split; [|split; [|split]]; [| | |auto]; intros E.
    - apply X3. assert (Hb : snd s = x) by (apply U; [apply on_snd|rewrite <- E; apply on_fst]).
      exfalso. rewrite <- Hb in Gp. rewrite Lp in Gp. nra.
    - assert (Ha : fst s = x) by (apply U; [apply on_fst|rewrite <- E; apply on_snd]).
      rewrite <- Ha in Gc. rewrite Lc in Gc. rewrite euclid_self in Gc. nra.
    - assert (Ha : fst s = x) by (apply U; [apply on_fst|rewrite <- E; apply on_fst]).
      rewrite <- Ha in Gc. rewrite Lc in Gc. rewrite euclid_self in Gc. nra. }
  specialize (H n o x No F). assert (T : touch s o) by (exists x; auto). specialize (H T X5 X4 U Gc). lra.
Qed.

Lemma sorted_nth (ks : list nat) : StronglySorted lt ks -> forall m n a b, (m < n)%nat -> nth_error ks m = Some a -> nth_error ks n = Some b -> (a < b)%nat.
Proof.
  induction 1 as [|k ks S IH F]; intros m n a b L A B; [destruct m; discriminate|].
  destruct n; [lia|]. destruct m; simpl in *.
  - injection A as <-. rewrite Forall_forall in F. apply F. eapply nth_error_In; eauto.
  - apply (IH m n); auto. lia.
Qed.
Lemma Forall2_nth {A B} (P : A -> B -> Prop) l l' : Forall2 P l l' -> forall n b, nth_error l' n = Some b -> exists a, nth_error l n = Some a /\ P a b.
Proof.
  induction 1 as [|x y l l' H F IH]; intros n b E; [destruct n; discriminate|].
  destruct n; simpl in *; [injection E as <-; eauto|eauto].
Qed.
Lemma clean_no_crossing segs ks r : StronglySorted lt ks ->
  Forall2 (fun k u => exists s, nth_error segs k = Some s /\ part_of s u /\ clean segs k u) ks (pairs r) -> no_crossing r.
Proof.
  intros S F m n u v x L Hu Hv I O.
  destruct (Forall2_nth _ _ _ F _ _ Hu) as (k & Kk & s & Ns & _ & C). destruct (Forall2_nth _ _ _ F _ _ Hv) as (k' & Kk' & s' & Ns' & P & _).
  apply (C k' s' x); auto; [eapply sorted_nth; eauto|]. eapply part_on; eauto.
Qed.
Lemma clean_walk segs ks r : StronglySorted lt ks ->
  Forall2 (fun k u => exists s, nth_error segs k = Some s /\ part_of s u /\ (single_crossings segs -> clean segs k u)) ks (pairs r) ->
  walks_forward segs r /\ (single_crossings segs -> no_crossing r).
Proof.
  intros S F. split.
  - exists ks. split; [auto|]. clear S. induction F as [|k u ks us H F IH]; constructor; auto. destruct H as (s & H1 & H2 & _). eauto.
  - intros SC. apply (clean_no_crossing segs ks); auto. clear S. induction F as [|k u ks us H F IH]; constructor; auto.
    destruct H as (s & H1 & H2 & H3). eauto.
Qed.

(** * Removal of self-intersections *)

Definition piece_ok (segs : list segment) (k : nat) (u : segment) : Prop :=
  exists s, nth_error segs k = Some s /\ part_of s u /\ (single_crossings segs -> clean segs k u).
Lemma at_index_nth l i a : nth_error l i = Some a -> at_index l i = a.
Proof. intros H. unfold at_index. apply nth_error_nth with (d := (0, 0)) in H. auto. Qed.
Lemma last_nth {A} (l : list A) (d a : A) n : length l = S n -> nth_error l n = Some a -> last l d = a.
Proof.
  revert n. induction l as [|x l IH]; intros n L N; [discriminate|]. destruct l as [|y l].
  - destruct n; [simpl in *; congruence|discriminate].
  - destruct n; [discriminate|]. change (last (x :: y :: l) d) with (last (y :: l) d). apply (IH n); [simpl in *; lia|auto].
Qed.
Lemma Forall_le_weaken i i' (ks : list nat) : (i <= i')%nat -> Forall (le i') ks -> Forall (le i) ks.
Proof. intros L F. eapply Forall_impl; [|exact F]. simpl. intros; lia. Qed.
Lemma sorted_cons i i' ks : (i < i')%nat -> Forall (le i') ks -> StronglySorted lt ks -> StronglySorted lt (i :: ks).
Proof. intros L F S. constructor; [auto|]. eapply Forall_impl; [|exact F]. simpl. intros; lia. Qed.

Lemma remove_loop_spec l fuel : forall i s c, (i < length l - 1)%nat -> (length l - 2 - i <= fuel)%nat ->
  nth_error (pairs l) i = Some s -> on_segment s c ->
  exists rest ks, remove_loop query meet l (indexed (segments_of l)) fuel i (euclid (fst s) c) = Done rest /\ rest <> [] /\ last rest (0, 0) = last l (0, 0) /\
    Forall (le i) ks /\ StronglySorted lt ks /\ Forall2 (piece_ok (pairs l)) ks (pairs (c :: rest)).
Proof.
  rewrite segments_pairs. induction fuel as [|fuel IH]; intros i s c Hi Hf Ns C.
  - assert (E : remove_loop query meet l (indexed (pairs l)) 0 i (euclid (fst s) c) = Done [last l (0, 0)]).
    { cbn [remove_loop]. destruct (Nat.ltb_spec i (length l - 2)); [lia|auto]. }
    exists [last l (0, 0)], [i]. split; [auto|]. split; [discriminate|]. split; [auto|]. split; [constructor; auto|]. split; [repeat constructor|].
    constructor; [|constructor]. exists s. split; [auto|]. destruct s as [a b]. destruct (proj1 (pairs_nth _ _ _ _) Ns) as [Na Nb].
    assert (i = length l - 2)%nat by lia. rewrite (last_nth l (0, 0) b (S i)) by (auto; lia). split.
    + eapply piece with (from := euclid a c); eauto. apply on_snd. Unshelve. exact 0%nat.
    + intros _ n o x L N. exfalso. assert (n < length (pairs l))%nat by (apply nth_error_Some; congruence). rewrite pairs_length in H0. lia.
  - cbn [remove_loop]. destruct (Nat.ltb_spec i (length l - 2)) as [Li|Li].
    + destruct s as [a b]. destruct (proj1 (pairs_nth _ _ _ _) Ns) as [Na Nb].
      rewrite (at_index_nth _ _ _ Na). replace (i + 1)%nat with (S i) by lia. rewrite (at_index_nth _ _ _ Nb).
      destruct (next_point (pairs l) i (a, b) (euclid a c)) as (cs & E & p & i' & f & Ef & Lk & P & H1 & H2).
      cbn [fst snd] in *. rewrite E. cbn [bind]. rewrite Ef.
      assert (PO : part_of (a, b) (c, p)).
      { apply (piece (pairs l) i (a, b) (euclid a c) c p i'); auto. destruct H1 as [(o & H1 & _)|(H1 & _)]; [left; eauto|right; auto]. }
      assert (CL : single_crossings (pairs l) -> clean (pairs l) i (c, p)) by (intros SC; apply (piece_clean (pairs l) i (a, b) c p); auto).
      assert (NX : exists o, nth_error (pairs l) i' = Some o /\ on_segment o p /\ f = euclid (fst o) p).
      { destruct H1 as [(o & (X1 & X2 & X3 & X4 & X5) & X6)|(-> & -> & -> & _)]; [exists o; auto|].
        destruct (nth_error l (S (S i))) as [b'|] eqn:Eb; [|apply nth_error_None in Eb; lia].
        exists (b, b'). split; [apply pairs_nth; auto|]. split; [apply on_fst|]. simpl. now rewrite euclid_self. }
      destruct NX as (o & No & Oo & Eo).
      assert (Hi' : (i' < length l - 1)%nat) by (rewrite <- pairs_length; apply nth_error_Some; congruence).
      destruct (IH i' o p) as (rest & ks & R1 & R2 & R3 & R4 & R5 & R6); auto; [lia|].
      rewrite Eo, R1. cbn [bind]. exists (p :: rest), (i :: ks). split; [auto|]. split; [discriminate|]. split.
      { destruct rest; [tauto|]. exact R3. }
      split; [constructor; [lia|eapply Forall_le_weaken; [|eauto]; lia]|]. split; [eapply sorted_cons; eauto|].
      rewrite pairs_cons. constructor; [|auto]. exists (a, b). auto.
    + exists [last l (0, 0)], [i]. split; [auto|]. split; [discriminate|]. split; [auto|]. split; [constructor; auto|]. split; [repeat constructor|].
      constructor; [|constructor]. exists s. split; [auto|]. destruct s as [a b]. destruct (proj1 (pairs_nth _ _ _ _) Ns) as [Na Nb].
      assert (i = length l - 2)%nat by lia. rewrite (last_nth l (0, 0) b (S i)) by (auto; lia). split.
      * eapply piece with (from := euclid a c); eauto. apply on_snd. Unshelve. exact 0%nat.
      * intros _ n o x L N. exfalso. assert (n < length (pairs l))%nat by (apply nth_error_Some; congruence). rewrite pairs_length in H0. lia.
Qed.

Lemma all_parts l : exists ks, StronglySorted lt ks /\ Forall2 (fun k u => nth_error (pairs l) k = Some u) ks (pairs l).
Proof.
  exists (seq 0 (length (pairs l))). split.
  - generalize 0%nat. induction (length (pairs l)) as [|n IH]; intros k; simpl; constructor; [auto|]. apply Forall_forall. intros x I. apply in_seq in I. lia.
  - enough (H : forall pre, Forall2 (fun k u => nth_error (pre ++ pairs l) k = Some u) (seq (length pre) (length (pairs l))) (pairs l)) by apply (H []).
    induction (pairs l) as [|u us IH]; intros pre; simpl; constructor.
    + rewrite nth_error_app2 by lia. now rewrite Nat.sub_diag.
    + specialize (IH (pre ++ [u])). rewrite app_length in IH. simpl in IH. rewrite Nat.add_1_r in IH.
      rewrite <- app_assoc in IH. exact IH.
Qed.
Lemma Forall2_weaken {A B} (P P' : A -> B -> Prop) l l' : (forall a b, P a b -> P' a b) -> Forall2 P l l' -> Forall2 P' l l'.
Proof. intros H F. induction F; constructor; auto. Qed.
Lemma part_self s : part_of s s.
Proof. exists 0, 1. rewrite between_0, between_1. repeat split; lra. Qed.

Theorem remove_spec l : exists r, remove_self_intersections query meet l = Done r /\ hd (0, 0) r = hd (0, 0) l /\ last r (0, 0) = last l (0, 0) /\
  walks_forward (pairs l) r /\ (single_crossings (pairs l) -> no_crossing r).
Proof.
  unfold remove_self_intersections. destruct (Nat.leb_spec (length l) 3) as [L|L].
  - exists l. do 3 (split; auto). split.
    + destruct (all_parts l) as (ks & S & F). exists ks. split; [auto|].
      eapply Forall2_weaken; [|exact F]. simpl. intros k u E. exists u. split; [auto|apply part_self].
    + intros SC m n [a b] [b' c] x Lm Hu Hv (I1 & I2 & I3) I4.
      assert (n < length (pairs l))%nat by (apply nth_error_Some; congruence). rewrite pairs_length in H.
      assert (n = S m) by lia. subst n. destruct (proj1 (pairs_nth _ _ _ _) Hu) as [_ U]. destruct (proj1 (pairs_nth _ _ _ _) Hv) as [V _].
      assert (b' = b) by congruence. subst b'. apply I3. apply (SC m (S m) (a, b) (b, c) x b); auto; [apply (on_snd (a, b))|apply (on_fst (b, c))].
  - destruct l as [|a [|b l]]; [simpl in L; lia|simpl in L; lia|].
    destruct (remove_loop_spec (a :: b :: l) (length (a :: b :: l)) 0 (a, b) a) as (rest & ks & R1 & R2 & R3 & R4 & R5 & R6);
      [lia|lia|reflexivity|apply (on_fst (a, b))|].
    cbn [fst] in R1. rewrite euclid_self in R1. rewrite R1. cbn [bind]. exists (a :: rest). split; [reflexivity|]. split; [reflexivity|].
    split; [destruct rest; [tauto|exact R3]|]. destruct (clean_walk _ _ _ R5 R6) as [W1 W2]. auto.
Qed.

(** * Joining the parts *)

Definition start_of (parts : list (list point)) (i : nat) : nat := length (flat_map segments_of (firstn i parts)).
Lemma start_cons p parts i : start_of (p :: parts) (S i) = (length (pairs p) + start_of parts i)%nat.
Proof. unfold start_of. simpl. rewrite app_length, segments_pairs. auto. Qed.
Lemma flat_nth parts : forall i p j s, nth_error parts i = Some p -> nth_error (pairs p) j = Some s ->
  nth_error (flat_map segments_of parts) (start_of parts i + j) = Some s.
Proof.
  induction parts as [|q parts IH]; intros i p j s Hp Hs; [destruct i; discriminate|].
  destruct i as [|i].
  - simpl in Hp. injection Hp as ->. unfold start_of. simpl. rewrite segments_pairs. rewrite nth_error_app1; [auto|]. apply nth_error_Some. congruence.
  - rewrite start_cons. simpl. rewrite segments_pairs. rewrite nth_error_app2 by lia.
    replace (length (pairs q) + start_of parts i + j - length (pairs q))%nat with (start_of parts i + j)%nat by lia. eapply IH; eauto.
Qed.
Lemma flat_inv parts : forall idx s, nth_error (flat_map segments_of parts) idx = Some s ->
  exists i p j, nth_error parts i = Some p /\ nth_error (pairs p) j = Some s /\ idx = (start_of parts i + j)%nat.
Proof.
  induction parts as [|q parts IH]; intros idx s H; [destruct idx; discriminate|]. simpl in H. rewrite segments_pairs in H.
  destruct (Nat.lt_ge_cases idx (length (pairs q))) as [L|L].
  - rewrite nth_error_app1 in H by auto. exists 0%nat, q, idx. repeat split; auto.
  - rewrite nth_error_app2 in H by auto. destruct (IH _ _ H) as (i & p & j & H1 & H2 & H3).
    exists (S i), p, j. split; [auto|]. split; [auto|]. rewrite start_cons. lia.
Qed.
Lemma owner_nth parts : forall b i p j, nth_error parts i = Some p -> (j < length (pairs p))%nat ->
  nth_error (owners b parts) (start_of parts i + j) = Some (b + i)%nat.
Proof.
  induction parts as [|q parts IH]; intros b i p j Hp Hj; [destruct i; discriminate|]. destruct i as [|i].
  - simpl in Hp. injection Hp as ->. unfold start_of. simpl. rewrite segments_pairs. rewrite nth_error_app1 by (rewrite repeat_length; auto).
    rewrite Nat.add_0_r. apply nth_error_repeat. auto.
  - rewrite start_cons. simpl. rewrite segments_pairs. rewrite nth_error_app2 by (rewrite repeat_length; lia). rewrite repeat_length.
    replace (length (pairs q) + start_of parts i + j - length (pairs q))%nat with (start_of parts i + j)%nat by lia.
    rewrite (IH (S b) i p j) by auto. f_equal. lia.
Qed.
Lemma owners_length parts : forall b, length (owners b parts) = length (flat_map segments_of parts).
Proof. induction parts as [|q parts IH]; intros b; simpl; [auto|]. rewrite !app_length, repeat_length, IH. auto. Qed.
Lemma owner_inv parts idx i : nth_error (owners 0 parts) idx = Some i ->
  exists p j s, nth_error parts i = Some p /\ nth_error (pairs p) j = Some s /\ idx = (start_of parts i + j)%nat /\ nth_error (flat_map segments_of parts) idx = Some s.
Proof.
  intros H. assert (L : (idx < length (flat_map segments_of parts))%nat) by (rewrite <- (owners_length parts 0); apply nth_error_Some; congruence).
  destruct (nth_error (flat_map segments_of parts) idx) as [s|] eqn:E; [|apply nth_error_None in E; lia].
  destruct (flat_inv _ _ _ E) as (i' & p & j & H1 & H2 & H3).
  assert (Hj : (j < length (pairs p))%nat) by (apply nth_error_Some; congruence).
  pose proof (owner_nth parts 0 i' p j H1 Hj) as O'. rewrite <- H3, H in O'. injection O' as ->. exists p, j, s. auto.
Qed.
Lemma start_mono parts : forall i i' p p', nth_error parts i = Some p -> nth_error parts i' = Some p' -> (i < i')%nat ->
  (start_of parts i + length (pairs p) <= start_of parts i')%nat.
Proof.
  induction parts as [|q parts IH]; intros i i' p p' Hp Hp' L; [destruct i; discriminate|].
  destruct i' as [|i']; [lia|]. rewrite start_cons. destruct i as [|i].
  - simpl in Hp. injection Hp as ->. unfold start_of at 1. simpl. lia.
  - rewrite start_cons. simpl in Hp, Hp'. specialize (IH i i' p p' Hp Hp'). lia.
Qed.

Definition on_parts (parts : list (list point)) (x : point) : Prop := exists p s, In p parts /\ In s (pairs p) /\ on_segment s x.
Lemma join_loop_general parts fuel : forall i j idx from p, nth_error parts i = Some p -> (start_of parts i + j <= idx)%nat ->
  nth_error (owners 0 parts) idx = Some i -> (length (flat_map segments_of parts) - idx <= fuel)%nat ->
  exists rest, join_loop query meet parts (indexed (flat_map segments_of parts)) (owners 0 parts) fuel i j idx from = Done rest /\ rest <> [] /\
    Forall (on_parts parts) rest.
Proof.
  induction fuel as [|fuel IH]; intros i j idx from p Hp Hj Ho Hf.
  - exfalso. assert (L : (idx < length (owners 0 parts))%nat) by (apply nth_error_Some; congruence). rewrite owners_length in L. lia.
  - cbn [join_loop]. rewrite Hp. destruct (owner_inv _ _ _ Ho) as (p1 & j1 & s1 & Hp1 & Hs1 & E1 & _).
    assert (p1 = p) by congruence. subst p1.
    assert (Hj1 : (j1 < length (pairs p))%nat) by (apply nth_error_Some; congruence).
    destruct (nth_error (pairs p) j) as [[a b]|] eqn:Es; [|apply nth_error_None in Es; lia].
    destruct (proj1 (pairs_nth _ _ _ _) Es) as [Ha Hb]. rewrite Ha, Hb.
    destruct (next_point (flat_map segments_of parts) idx (a, b) from) as (cs & E & q & i' & f & Ef & Lk & P & _ & _).
    rewrite E. cbn [bind]. rewrite Ef.
    assert (OQ : on_parts parts q) by (exists p, (a, b); split; [eapply nth_error_In; eauto|]; split; [eapply nth_error_In; eauto|auto]).
    destruct (nth_error (owners 0 parts) i') as [o|] eqn:Eo.
    + destruct (owner_inv _ _ _ Eo) as (p2 & j2 & s2 & Hp2 & Hs2 & E2 & _). destruct (Nat.eqb_spec o i) as [->|D].
      * destruct (IH i (S j) i' f p) as (rest & R1 & R2 & R3); auto; try lia.
        rewrite R1. cbn [bind]. exists (q :: rest). split; [auto|]. split; [discriminate|]. constructor; auto.
      * destruct (IH o 0%nat i' f p2) as (rest & R1 & R2 & R3); auto; try lia.
        rewrite R1. cbn [bind]. exists (q :: rest). split; [auto|]. split; [discriminate|]. constructor; auto.
    + exists [q]. split; [auto|]. split; [discriminate|]. repeat constructor; auto.
Qed.

Lemma last_in {A} (l : list A) d : l <> [] -> In (last l d) l.
Proof. induction l as [|x l IH]; intros H; [tauto|]. destruct l; [left; auto|]. right. apply IH. discriminate. Qed.
Lemma vertex_on p v : (2 <= length p)%nat -> In v p -> exists s, In s (pairs p) /\ on_segment s v.
Proof.
  intros L I. apply In_nth_error in I. destruct I as [n N]. destruct n as [|n].
  - destruct (nth_error p 1) as [b|] eqn:E; [|apply nth_error_None in E; lia]. exists (v, b). split; [|apply (on_fst (v, b))].
    apply nth_error_In with 0%nat. apply pairs_nth. auto.
  - destruct (nth_error p n) as [b|] eqn:E; [|apply nth_error_None in E; assert (S n < length p)%nat by (apply nth_error_Some; congruence); lia].
    exists (b, v). split; [|apply (on_snd (b, v))]. apply nth_error_In with n. apply pairs_nth. auto.
Qed.
Theorem join_general parts : Forall (fun p => (2 <= length p)%nat) parts ->
  exists r, join_parts query meet parts = Done r /\ Forall (on_parts parts) r /\ (parts <> [] -> r <> []) /\
    hd (0, 0) r = hd (0, 0) (hd [] parts) /\ last r (0, 0) = last (last parts []) (0, 0).
Proof.
  intros F. destruct parts as [|p [|p' parts]].
  - exists []. split; [reflexivity|]. split; [constructor|]. split; [tauto|]. split; reflexivity.
  - exists p. split; [reflexivity|]. inversion F as [|? ? L _]; subst. split.
    + apply Forall_forall. intros v I. destruct (vertex_on p v L I) as (s & S1 & S2). exists p, s. split; [left; auto|auto].
    + split; [intros _ ->; simpl in L; lia|]. split; reflexivity.
  - remember (p' :: parts) as rest0 eqn:E0. unfold join_parts. rewrite E0. rewrite <- E0.
    rewrite Forall_forall in F. assert (Lp : (2 <= length p)%nat) by (apply F; left; auto).
    destruct p as [|a [|b p]]; [simpl in Lp; lia|simpl in Lp; lia|].
    set (ps := (a :: b :: p) :: rest0) in *.
    destruct (join_loop_general ps (S (length (flat_map segments_of ps))) 0 0 0 0 (a :: b :: p)) as (rest & R1 & R2 & R3).
    + reflexivity.
    + unfold start_of. simpl. lia.
    + apply (owner_nth ps 0 0 (a :: b :: p) 0); [reflexivity|]. rewrite pairs_length. simpl. lia.
    + lia.
    + rewrite R1. cbn [bind].
      assert (IL : In (last ps []) ps) by (apply last_in; discriminate).
      pose proof (F _ IL) as LL. destruct (last ps []) as [|x y] eqn:El; [simpl in LL; lia|]. rewrite <- El in *.
      exists (a :: rest ++ [last (last ps []) (0, 0)]). split; [rewrite El; reflexivity|]. split.
      * constructor; [|apply Forall_app; split; [auto|constructor; [|constructor]]].
        -- exists (a :: b :: p), (a, b). split; [left; auto|]. split; [left; auto|apply (on_fst (a, b))].
        -- destruct (vertex_on (last ps []) (last (last ps []) (0, 0)) LL) as (s & S1 & S2); [apply last_in; rewrite El; discriminate|].
           exists (last ps []), s. auto.
      * split; [discriminate|]. split; [reflexivity|]. rewrite app_comm_cons, last_last. reflexivity.
Qed.

(** Walks that reach every part at its first segment *)
Definition exit_ahead (parts : list (list point)) (i j : nat) (s : segment) (from : R) : Prop :=
  (S i < length parts)%nat -> exists p j1 s1 i' p' s' x, nth_error parts i = Some p /\ nth_error (pairs p) j1 = Some s1 /\ (j <= j1)%nat /\
    (i < i')%nat /\ nth_error parts i' = Some p' /\ nth_error (pairs p') 0 = Some s' /\
    on_segment s1 x /\ on_segment s' x /\ x <> fst s1 /\ fst s' <> snd s1 /\ snd s' <> fst s1 /\ fst s' <> fst s1 /\ (j1 = j -> from < euclid (fst s) x).
Lemma join_loop_tidy parts (T : tidy parts) (K : linked parts) (C1 : single_crossings (flat_map segments_of parts)) fuel :
  forall i j p s c, nth_error parts i = Some p -> nth_error (pairs p) j = Some s ->
  (length (flat_map segments_of parts) - (start_of parts i + j) <= fuel)%nat -> on_segment s c -> exit_ahead parts i j s (euclid (fst s) c) ->
  exists rest ks, join_loop query meet parts (indexed (flat_map segments_of parts)) (owners 0 parts) fuel i j (start_of parts i + j) (euclid (fst s) c) = Done rest /\
    rest <> [] /\ last rest (0, 0) = last (last parts []) (0, 0) /\
    Forall (le (start_of parts i + j)) ks /\ StronglySorted lt ks /\ Forall2 (piece_ok (flat_map segments_of parts)) ks (pairs (c :: rest)).
Proof.
  set (segs := flat_map segments_of parts) in *.
  induction fuel as [|fuel IH]; intros i j p s c Hp Hs Hf Oc X.
  - exfalso. pose proof (flat_nth parts i p j s Hp Hs) as N. assert (L : (start_of parts i + j < length segs)%nat) by (apply nth_error_Some; unfold segs; congruence). lia.
  - cbn [join_loop]. rewrite Hp. destruct s as [a b]. destruct (proj1 (pairs_nth _ _ _ _) Hs) as [Ha Hb]. rewrite Ha, Hb.
    pose proof (flat_nth parts i p j _ Hp Hs) as N. fold segs in N. set (idx := (start_of parts i + j)%nat) in *.
    destruct (next_point segs idx (a, b) (euclid a c)) as (cs & E & q & i' & f & Ef & Lk & P & H1 & H2).
    cbn [fst snd] in *. rewrite E. cbn [bind]. rewrite Ef.
    assert (PO : part_of (a, b) (c, q)).
    { apply (piece segs idx (a, b) (euclid a c) c q i'); auto. destruct H1 as [(o & H1 & _)|(H1 & _)]; [left; eauto|right; auto]. }
    assert (CL : clean segs idx (c, q)) by (apply (piece_clean segs idx (a, b) c q); auto).
    assert (PK : piece_ok segs idx (c, q)) by (exists (a, b); auto).
    destruct H1 as [(o & (X1 & X2 & X3 & X4 & X5) & X6)|(-> & -> & -> & X1)].
    + (* into another part *)
      unfold segs in X1. destruct (flat_inv _ _ _ X1) as (k & pk & jk & Hk & Hsk & Ek).
      assert (Hjk : (jk < length (pairs pk))%nat) by (apply nth_error_Some; congruence).
      subst i'. rewrite (owner_nth parts 0 k pk jk Hk Hjk). rewrite Nat.add_0_l.
      assert (Lj : (j < length (pairs p))%nat) by (apply nth_error_Some; congruence).
      assert (LT : (i < k \/ i = k /\ j < jk)%nat).
      { destruct (Nat.lt_trichotomy i k) as [?|[?|G]]; [auto|subst k; right; unfold idx in Lk; lia|].
        exfalso. pose proof (start_mono parts k i pk p Hk Hp G). unfold idx in Lk. lia. }
      assert (TT : touch (a, b) o) by (exists q; auto).
      destruct (T i j k jk p pk (a, b) o LT Hp Hk Hs Hsk TT) as [[G ->]|[<- ->]].
      * destruct (Nat.eqb_spec k i) as [|_]; [lia|].
        destruct (IH k 0%nat pk o q) as (rest & ks & R1 & R2 & R3 & R4 & R5 & R6); auto.
        -- lia.
        -- intros Lk'. destruct (K k pk Hk Lk') as (j1 & s1 & k' & p' & s' & x & Y1 & Y2 & Y3 & Y4 & Y5 & Y6 & Y7 & Y8 & Y9 & Y10 & Y11).
           exists pk, j1, s1, k', p', s', x. do 2 (split; [auto|]). split; [lia|]. do 9 (split; [auto|]). intros ->.
           assert (s1 = o) by congruence. subst s1. apply (Y11 eq_refl i p (a, b) q G Hp); auto. eapply nth_error_In; eauto.
        -- rewrite X6, R1. cbn [bind]. exists (q :: rest), (idx :: ks). split; [auto|]. split; [discriminate|].
           split; [destruct rest; [tauto|exact R3]|]. split; [constructor; [lia|eapply Forall_le_weaken; [|eauto]; lia]|].
           split; [eapply sorted_cons; [|eauto|auto]; lia|]. rewrite pairs_cons. constructor; auto.
      * exfalso. destruct o as [o1 o2]. destruct (proj1 (pairs_nth _ _ _ _) Hsk) as [U _]. assert (pk = p) by congruence. subst pk.
        destruct X2 as (X2 & _). simpl in X2. congruence.
    + (* to the end of the segment *)
      destruct (Nat.lt_ge_cases (S j) (length (pairs p))) as [Lj|Lj].
      * replace (S idx) with (start_of parts i + S j)%nat by (unfold idx; lia).
        rewrite (owner_nth parts 0 i p (S j) Hp Lj). rewrite Nat.add_0_l. rewrite Nat.eqb_refl.
        destruct (nth_error (pairs p) (S j)) as [[b' d]|] eqn:Es'; [|apply nth_error_None in Es'; lia].
        destruct (proj1 (pairs_nth _ _ _ _) Es') as [Hb' Hd]. assert (b' = b) by congruence. subst b'.
        destruct (IH i (S j) p (b, d) b) as (rest & ks & R1 & R2 & R3 & R4 & R5 & R6); auto.
        -- unfold idx in Hf. lia.
        -- apply (on_fst (b, d)).
        -- intros Lp. destruct (X Lp) as (p0 & j1 & s1 & k' & p' & s' & x & Y0 & Y1 & Y1' & Y2 & Y3 & Y4 & Y5 & Y6 & Y7 & Y8 & Y9 & Y10 & Y11).
           assert (p0 = p) by congruence. subst p0.
           assert (D : j1 <> j).
           { intros ->. assert (s1 = (a, b)) by congruence. subst s1. specialize (Y11 eq_refl).
             pose proof (flat_nth parts k' p' 0 s' Y3 Y4) as N'. fold segs in N'.
             assert (L' : (idx < start_of parts k' + 0)%nat) by (pose proof (start_mono parts i k' p p' Hp Y3 Y2); unfold idx; lia).
             destruct (X1 _ _ N') as (x' & Z1 & Z2 & Z3); [unfold free; auto|exists x; auto|].
             assert (x' = x) by (apply (C1 idx (start_of parts k' + 0)%nat (a, b) s'); auto). subst x'. simpl in *. lra. }
           exists p, j1, s1, k', p', s', x. do 2 (split; [auto|]). split; [lia|]. do 9 (split; [auto|]). intros ->.
           assert (s1 = (b, d)) by congruence. subst s1. simpl in *. rewrite euclid_self.
           destruct (Rle_lt_or_eq_dec 0 (euclid b x) (euclid_pos _ _)) as [G|G]; [auto|]. exfalso. apply Y7. symmetry. apply euclid_zero. auto.
        -- cbn [fst] in R1. rewrite euclid_self in R1. rewrite R1. cbn [bind]. exists (b :: rest), (idx :: ks). split; [auto|]. split; [discriminate|].
           split; [destruct rest; [tauto|exact R3]|]. split; [constructor; [lia|eapply Forall_le_weaken; [|eauto]; unfold idx; lia]|].
           split; [eapply sorted_cons; [|eauto|auto]; unfold idx; lia|]. rewrite pairs_cons. constructor; auto.
      * destruct (Nat.lt_ge_cases (S i) (length parts)) as [Lp|Lp].
        { exfalso. destruct (X Lp) as (p0 & j1 & s1 & k' & p' & s' & x & Y0 & Y1 & Y1' & Y2 & Y3 & Y4 & Y5 & Y6 & Y7 & Y8 & Y9 & Y10 & Y11).
          assert (p0 = p) by congruence. subst p0.
          assert (j1 < length (pairs p))%nat by (apply nth_error_Some; congruence). assert (j1 = j) by lia. subst j1.
          assert (s1 = (a, b)) by congruence. subst s1. specialize (Y11 eq_refl).
          pose proof (flat_nth parts k' p' 0 s' Y3 Y4) as N'. fold segs in N'.
          assert (L' : (idx < start_of parts k' + 0)%nat) by (pose proof (start_mono parts i k' p p' Hp Y3 Y2); unfold idx; lia).
          destruct (X1 _ _ N') as (x' & Z1 & Z2 & Z3); [unfold free; auto|exists x; auto|].
          assert (x' = x) by (apply (C1 idx (start_of parts k' + 0)%nat (a, b) s'); auto). subst x'. simpl in *. lra. }
        assert (EL : last parts [] = p).
        { assert (i < length parts)%nat by (apply nth_error_Some; congruence). apply (last_nth parts [] p i); [lia|auto]. }
        assert (Lj' : (j < length (pairs p))%nat) by (apply nth_error_Some; congruence).
        assert (EN : nth_error (owners 0 parts) (S idx) = None).
        { destruct (nth_error (owners 0 parts) (S idx)) as [k|] eqn:Eo; [|auto]. exfalso.
          destruct (owner_inv _ _ _ Eo) as (p2 & j2 & s2 & G1 & G2 & G3 & _).
          assert (j2 < length (pairs p2))%nat by (apply nth_error_Some; congruence).
          assert (k < length parts)%nat by (apply nth_error_Some; congruence).
          assert (i < length parts)%nat by (apply nth_error_Some; congruence).
          destruct (Nat.eq_dec k i) as [->|Dk]; [assert (p2 = p) by congruence; subst p2; unfold idx in G3; lia|].
          pose proof (start_mono parts k i p2 p G1 Hp). unfold idx in G3. lia. }
        rewrite EN. exists [b], [idx]. split; [auto|]. split; [discriminate|]. split.
        { rewrite EL. symmetry. apply (last_nth p (0, 0) b (S j)); [|auto]. rewrite pairs_length in Lj, Lj'. assert (S j < length p)%nat by (apply nth_error_Some; congruence). lia. }
        split; [constructor; auto|]. split; [repeat constructor|]. constructor; [auto|constructor].
Qed.
Theorem join_tidy parts : tidy parts -> linked parts -> single_crossings (flat_map segments_of parts) -> Forall (fun p => (2 <= length p)%nat) parts ->
  (2 <= length parts)%nat ->
  exists r, join_parts query meet parts = Done (r ++ [last r (0, 0)]) /\ r <> [] /\ hd (0, 0) r = hd (0, 0) (hd [] parts) /\
    last r (0, 0) = last (last parts []) (0, 0) /\ walks_forward (flat_map segments_of parts) r /\ no_crossing r.
Proof.
  intros T K C1 F L. destruct parts as [|p [|p' parts]]; [simpl in L; lia|simpl in L; lia|].
  remember (p' :: parts) as rest0 eqn:E0. unfold join_parts. rewrite E0. rewrite <- E0.
  rewrite Forall_forall in F. assert (Lp : (2 <= length p)%nat) by (apply F; left; auto).
  destruct p as [|a [|b p]]; [simpl in Lp; lia|simpl in Lp; lia|].
  set (ps := (a :: b :: p) :: rest0) in *.
  destruct (join_loop_tidy ps T K C1 (S (length (flat_map segments_of ps))) 0 0 (a :: b :: p) (a, b) a) as (rest & ks & R1 & R2 & R3 & R4 & R5 & R6).
  - reflexivity.
  - reflexivity.
  - lia.
  - apply (on_fst (a, b)).
  - intros Lk'. destruct (K 0%nat (a :: b :: p) eq_refl Lk') as (j1 & s1 & k' & p1 & s' & x & Y1 & Y2 & Y3 & Y4 & Y5 & Y6 & Y7 & Y8 & Y9 & Y10 & Y11).
    exists (a :: b :: p), j1, s1, k', p1, s', x. do 2 (split; [auto|]). split; [lia|]. do 9 (split; [auto|]). intros ->.
    simpl in Y1. injection Y1 as <-. simpl in *. rewrite euclid_self.
    destruct (Rle_lt_or_eq_dec 0 (euclid a x) (euclid_pos _ _)) as [G|G]; [auto|]. exfalso. apply Y7. symmetry. apply euclid_zero. auto.
  - cbn [fst] in R1. rewrite euclid_self in R1. unfold start_of in R1 at 1. cbn [firstn flat_map length Nat.add] in R1. rewrite R1. cbn [bind].
    assert (IL : In (last ps []) ps) by (apply last_in; discriminate).
    pose proof (F _ IL) as LL. destruct (last ps []) as [|x y] eqn:El; [simpl in LL; lia|]. rewrite <- El in *.
    assert (LR : last (a :: rest) (0, 0) = last (last ps []) (0, 0)) by (destruct rest; [tauto|exact R3]).
    exists (a :: rest). rewrite LR. split; [rewrite El; reflexivity|]. split; [discriminate|]. split; [reflexivity|]. split; [reflexivity|].
    destruct (clean_walk _ _ _ R5 R6) as [W1 W2]. auto.
Qed.
End W.
