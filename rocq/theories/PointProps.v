(** C123: points. *)
From Coq Require Import ZArith Bool List Arith.
From Flocq Require Import IEEE754.BinarySingleNaN.
From Verif Require Import DoubleModel PointModel PointSpec PointProofs.
Import ListNotations.

(** However a point is written and read through its handles, it has the coordinates written last, and what is read
    is these coordinates. Only basicPoint2d() may return a zero of the other sign. *)
Theorem C123_reads p l : Forall (fun o => o <> LookFlat) l ->
  pd_point (fst (run (make p) l)) = fst (expected p l) /\
  Forall2 (Forall2 same) (snd (expected p l)) (snd (run (make p) l)) /\
  (Forall (fun o => o <> GetFlat) l -> snd (run (make p) l) = snd (expected p l)).
Proof.
  intros H. split; [exact (run_expected (make p) l)|]. exact (run_values (make p) l H).
Qed.
Print Assumptions C123_reads.

(** If minus zero is not among the coordinates, what is read is exactly what was written. *)
Theorem C123_exact x y z l : Forall (fun o => o <> LookFlat) l ->
  Forall (fun v => ~ minus_zero v) [x; y; z] -> Forall (fun o => Forall (fun v => ~ minus_zero v) (sets o)) l ->
  snd (run (make (x, y, z)) l) = snd (expected (x, y, z) l).
Proof.
  intros HL HP HS. apply (run_exact l (make (x, y, z))); [|exact HL|exact HS].
  inversion HP as [|? ? A H1]; subst. inversion H1 as [|? ? B H2]; subst. inversion H2 as [|? ? C _]; subst.
  unfold plain_data, plain, bx, by_, bz. cbn. repeat split; assumption.
Qed.
Print Assumptions C123_exact.

(** With minus zero it is not: the copy keeps the zero it has. *)
Definition one : double := B754_finite (prec := 53) (emax := 1024) false (2 ^ 52)%positive (-52) eq_refl.
Definition two : double := B754_finite (prec := 53) (emax := 1024) false (2 ^ 52)%positive (-51) eq_refl.
Definition zero (s : bool) : double := B754_zero s.
Theorem C123_exact_refuted : exists p l, Forall (fun o => o <> LookFlat) l /\
  snd (run (make p) l) <> snd (expected p l).
Proof.
  exists (zero false, one, one), [SetX (zero true); GetFlat]. split; [repeat constructor; discriminate|].
  intros H. assert (K : nth 0 (nth 1 (snd (run (make (zero false, one, one)) [SetX (zero true); GetFlat])) []) one
    = nth 0 (nth 1 (snd (expected (zero false, one, one) [SetX (zero true); GetFlat])) []) one) by (rewrite H; reflexivity).
  revert K. vm_compute. discriminate.
Qed.
Print Assumptions C123_exact_refuted.

(** A reference returned by basicPoint2d() has what the last such call, through whichever handle, returned; ... *)
Theorem C123_reference p l1 l2 : Forall (fun o => o <> GetFlat) l2 ->
  let d := fst (run (make p) l1) in
  snd (step (fst (run (fst (step d GetFlat)) l2)) LookFlat) = snd (step d GetFlat).
Proof.
  intros H d. rewrite step_out_flat. rewrite run_flat by exact H.
  destruct d as [[[x y] z] q]. reflexivity.
Qed.
Print Assumptions C123_reference.

(** ... so it does not follow the point. *)
Theorem C123_reference_refuted : exists p l,
  ~ Forall2 (Forall2 same) (snd (expected p l)) (snd (run (make p) l)).
Proof.
  exists (one, one, one), [GetFlat; SetX two; LookFlat]. intros H.
  inversion H as [|? ? ? ? _ H1]; subst. inversion H1 as [|? ? ? ? _ H2]; subst. inversion H2 as [|? ? ? ? H3 _]; subst.
  inversion H3 as [|? ? ? ? S _]; subst. clear - S. vm_compute in S.
  destruct S as [S|(s & t & S & _)]; discriminate S.
Qed.
Print Assumptions C123_reference_refuted.

(** Threads that only read a point: there is a data race exactly if the copy is not up to date and one thread calls
    basicPoint2d() while another one does so or reads a reference returned by it. *)
Theorem C123_race d progs : (forall i, Forall reads_only (progs i)) ->
  (racy d progs <-> ~ up_to_date d /\
     exists i j, i <> j /\ In GetFlat (progs i) /\ (In GetFlat (progs j) \/ In LookFlat (progs j))).
Proof.
  intros _. split; [apply race_needs|]. intros (U & i & j & N & A & B). exact (race_happens d progs i j U N A B).
Qed.
Print Assumptions C123_race.

(** The accesses of the threads are those of the operations: alone, they read and leave behind what the operation does. *)
Theorem C123_accesses d o rest rg : reads_only o ->
  exists k m rg', alone k (layout d, Thread (code o ++ rest) rg) = (m, Thread rest (rev (snd (step d o)) ++ rg')) /\
  forall c, m c = layout (fst (step d o)) c.
Proof. intros R. apply alone_code; [exact R|reflexivity]. Qed.
Print Assumptions C123_accesses.

(** A point just made or read can be shared if its coordinates are numbers; ... *)
Theorem C123_share x y z d progs : ~ not_a_number x -> ~ not_a_number y ->
  ~ racy (make (x, y, z)) progs /\
  (pd_point d = (x, y, z) -> ~ racy (fst (step d GetFlat)) progs).
Proof.
  intros X Y. split.
  - apply fresh_no_race. apply up_to_date_make; assumption.
  - intros E. apply fresh_no_race. pose proof (up_to_date_read d) as U. rewrite E in U.
    destruct d as [[[x' y'] z'] q]. cbn in E. inversion E; subst. apply U; assumption.
Qed.
Print Assumptions C123_share.

(** ... one whose coordinates were assigned cannot, nor one with NaN, even if it was read before. *)
Definition readers : nat -> list op := fun i => if i <? 2 then [GetFlat] else [].
Theorem C123_share_refuted :
  racy (fst (run (make (one, one, one)) [SetX two])) readers /\
  forall y z l, Forall reads_only l -> racy (fst (run (make (B754_nan, y, z)) l)) readers.
Proof.
  assert (W : forall d, ~ up_to_date d -> racy d readers).
  { intros d U. apply (race_happens d readers 0 1); [exact U|discriminate|left; reflexivity|left; left; reflexivity]. }
  split.
  - apply W. intros [A _]. revert A. vm_compute. discriminate.
  - intros y z l H. apply W. intros [A _].
    assert (P : pd_point (fst (run (make (B754_nan, y, z)) l)) = (B754_nan, y, z)).
    { rewrite run_expected. cbn [make pd_point]. clear - H. induction l as [|o l IH]; [reflexivity|].
      inversion H as [|? ? R H']; subst. specialize (IH H'). cbn [expected].
      assert (F : fst (want (B754_nan, y, z) o) = (B754_nan, y, z)).
      { destruct o; try reflexivity; try discriminate R; [destruct q|destruct p as [[? ?] ?]]; discriminate R. }
      destruct (want (B754_nan, y, z) o) as [p1 v]. cbn in F. subst p1.
      destruct (expected (B754_nan, y, z) l) as [p2 vs]. exact IH. }
    rewrite P in A. cbn [fst] in A. rewrite eq_nan in A. discriminate.
Qed.
Print Assumptions C123_share_refuted.

(** The points of a map: threads that only read them, in any order, race exactly if two of them read in 2D a point whose
    copy is not up to date. *)
Theorem C123_map_race d progs : (forall i, Forall (fun o => reads_only (snd o)) (progs i)) ->
  (mracy d progs <-> exists n i j, i <> j /\ ~ up_to_date (d n) /\
     In (n, GetFlat) (progs i) /\ (In (n, GetFlat) (progs j) \/ In (n, LookFlat) (progs j))).
Proof.
  intros _. split.
  - intros H. destruct (map_race_point d progs H) as [n K]. destruct (race_needs _ _ K) as (U & i & j & N & A & B).
    exists n, i, j. rewrite mine_in in A. rewrite !mine_in in B. auto.
  - intros (n & i & j & N & U & A & B). apply (point_race_map d progs n).
    apply (race_happens _ _ i j U N); [apply mine_in; exact A|].
    destruct B as [B|B]; [left|right]; apply mine_in; exact B.
Qed.
Print Assumptions C123_map_race.

(** So a map can be shared if no coordinate is NaN and, after the last assignment, each point was read in 2D once. *)
Theorem C123_map_share d progs :
  (forall n, ~ not_a_number (bx (pd_point (d n))) /\ ~ not_a_number (by_ (pd_point (d n)))) ->
  ~ mracy (fun n => fst (step (d n) GetFlat)) progs.
Proof.
  intros H R. destruct (map_race_point _ _ R) as [n K]. revert K. destruct (H n) as [X Y].
  assert (E : pd_point (d n) = (bx (pd_point (d n)), by_ (pd_point (d n)), bz (pd_point (d n))))
    by (destruct (pd_point (d n)) as [[? ?] ?]; reflexivity).
  exact (proj2 (C123_share _ _ (bz (pd_point (d n))) (d n) _ X Y) E).
Qed.
Print Assumptions C123_map_share.

(** One point of a map was moved: two threads that read all points of two line strings with this point race. *)
Definition moved : nat -> point_data := fun n =>
  if n =? 2 then fst (run (make (one, one, one)) [SetY two]) else make (one, two, one).
Definition line_readers : nat -> list (nat * op) := fun i =>
  if i =? 0 then map (fun n => (n, GetFlat)) [0; 1; 2] else if i =? 1 then map (fun n => (n, GetFlat)) [3; 2; 4] else [].
Example C123_map_nonvacuous : mracy moved line_readers /\
  ~ mracy moved (fun i => if i =? 0 then line_readers 0 else [(3, GetFlat); (2, GetPoint)]).
Proof.
  assert (RO : forall i, Forall (fun o : nat * op => reads_only (snd o)) (line_readers i)).
  { intros [|[|i]]; repeat constructor. }
  split.
  - apply (C123_map_race moved line_readers RO). exists 2, 0, 1. split; [discriminate|]. split.
    + intros [_ A]. revert A. vm_compute. discriminate.
    + cbn. split; [|left]; auto.
  - assert (RO' : forall i, Forall (fun o : nat * op => reads_only (snd o))
       ((fun i => if i =? 0 then line_readers 0 else [(3, GetFlat); (2, GetPoint)]) i)).
    { intros [|i]; repeat constructor. }
    intros H. apply (C123_map_race moved _ RO') in H. destruct H as (n & i & j & N & U & A & B).
    assert (F : forall n, n <> 2 -> up_to_date (moved n)).
    { intros k K. unfold moved. destruct (Nat.eqb_spec k 2); [congruence|]. split; vm_compute; reflexivity. }
    destruct (Nat.eq_dec n 2) as [->|K]; [|exact (U (F n K))].
    assert (X : forall k, k <> 0 -> ~ In (2, GetFlat) [(3, GetFlat); (2, GetPoint)] /\ ~ In (2, LookFlat) [(3, GetFlat); (2, GetPoint)]).
    { intros k _. split; intros [E|[E|[]]]; discriminate. }
    destruct i as [|i]; cbn [Nat.eqb] in A.
    + destruct j as [|j]; [congruence|]. cbn [Nat.eqb] in B. destruct B as [B|B]; [apply (proj1 (X 1 ltac:(discriminate)) B)|apply (proj2 (X 1 ltac:(discriminate)) B)].
    + exact (proj1 (X 1 ltac:(discriminate)) A).
Qed.

(** A point is moved and read; after the read two threads may share it. *)
Example C123_nonvacuous :
  let l := [SetX two; GetFlat; SetZ two; GetPoint; GetHead] in
  let d := fst (run (make (one, one, one)) l) in
  snd (run (make (one, one, one)) l) = [[]; [two; one]; []; [two; one; two]; [two; one]] /\
  up_to_date d /\ ~ racy d readers /\ ~ up_to_date (fst (run (make (one, one, one)) [SetX two])).
Proof.
  split; [vm_compute; reflexivity|]. split; [split; vm_compute; reflexivity|]. split.
  - apply fresh_no_race. split; vm_compute; reflexivity.
  - intros [A _]. revert A. vm_compute. discriminate.
Qed.
