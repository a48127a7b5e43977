(** Proofs for points. *)
From Coq Require Import ZArith Bool List Arith Lia.
From Flocq Require Import IEEE754.BinarySingleNaN.
From Verif Require Import DoubleModel PointModel PointSpec.
Import ListNotations.

(** ** The comparison *)
Lemma eq_same (a b : double) : Beqb a b = true -> same a b.
Proof.
  unfold Beqb, SpecFloat.SFeqb. destruct (SpecFloat.SFcompare (B2SF a) (B2SF b)) as [[ | | ]|] eqn:E; try discriminate.
  intros _.
  destruct a as [s|s| |s m e Ha]; destruct b as [t|t| |t n f Hb]; cbn in E; try discriminate;
    try (destruct s; discriminate); try (destruct t; discriminate).
  - right. eauto.
  - left. destruct s, t; try discriminate; reflexivity.
  - left. apply B2SF_inj. cbn.
    destruct s, t; try discriminate.
    + destruct (Z.compare e f) eqn:Ef; try discriminate. apply Z.compare_eq in Ef. subst f.
      destruct (Pos.compare_cont Eq m n) eqn:Em; try discriminate. apply Pos.compare_eq in Em. subst; reflexivity.
    + destruct (Z.compare e f) eqn:Ef; try discriminate. apply Z.compare_eq in Ef. subst f.
      destruct (Pos.compare_cont Eq m n) eqn:Em; try discriminate. apply Pos.compare_eq in Em. subst; reflexivity.
Qed.

Lemma eq_refl_number (a : double) : a <> B754_nan -> Beqb a a = true.
Proof.
  intros H. unfold Beqb, SpecFloat.SFeqb. destruct a as [s|s| |s m e Ha]; cbn; try reflexivity.
  - destruct s; reflexivity.
  - congruence.
  - rewrite Z.compare_refl. unfold Pos.compare. rewrite Pos.compare_cont_refl. destruct s; reflexivity.
Qed.
Lemma eq_nan (b : double) : Beqb B754_nan b = false.
Proof. destruct b; reflexivity. Qed.

Lemma up_to_date_differs d : up_to_date d <-> differs (head2 (pd_point d)) (pd_flat d) = false.
Proof.
  unfold up_to_date, differs, ne, head2. split.
  - intros [A B]. rewrite A, B. reflexivity.
  - intros H. apply orb_false_iff in H. destruct H as [A B]. apply negb_false_iff in A, B. auto.
Qed.

(** ** Sequences of operations *)
Lemma step_point d o : pd_point (fst (step d o)) = fst (want (pd_point d) o).
Proof.
  destruct d as [[[x y] z] q]. destruct o; cbn; try reflexivity.
  - destruct q0; reflexivity.
  - unfold point2d. cbn. destruct (differs _ _); reflexivity.
Qed.

Lemma run_expected d l : pd_point (fst (run d l)) = fst (expected (pd_point d) l).
Proof.
  revert d. induction l as [|o l IH]; intros d; [reflexivity|].
  cbn. destruct (step d o) as [d1 v] eqn:E. pose proof (step_point d o) as H. rewrite E in H. cbn in H.
  destruct (want (pd_point d) o) as [p1 w] eqn:W. cbn in H. specialize (IH d1). rewrite H in IH.
  destruct (run d1 l) as [d2 vs]. destruct (expected p1 l) as [p2 ws]. exact IH.
Qed.

Lemma point2d_same d : same (fst (head2 (pd_point d))) (fst (pd_flat (point2d d))) /\
  same (snd (head2 (pd_point d))) (snd (pd_flat (point2d d))).
Proof.
  unfold point2d. destruct (differs _ _) eqn:E; cbn.
  - split; left; reflexivity.
  - apply up_to_date_differs in E. destruct E as [A B]. split; apply eq_same; assumption.
Qed.

Lemma step_values d o : o <> LookFlat ->
  Forall2 same (snd (want (pd_point d) o)) (snd (step d o)) /\
  (o <> GetFlat -> snd (step d o) = snd (want (pd_point d) o)).
Proof.
  intros HL. assert (R : forall a, same a a) by (left; reflexivity).
  pose proof (point2d_same d) as P. destruct d as [[[x y] z] q]. destruct o; cbn in *;
    try destruct q0; cbn; try (split; [repeat constructor; auto|reflexivity]).
  - split; [|congruence]. destruct P as [P1 P2]. apply Forall2_cons; [exact P1|]. apply Forall2_cons; [exact P2|constructor].
  - congruence.
Qed.

Lemma run_values d l : Forall (fun o => o <> LookFlat) l ->
  Forall2 (Forall2 same) (snd (expected (pd_point d) l)) (snd (run d l)) /\
  (Forall (fun o => o <> GetFlat) l -> snd (run d l) = snd (expected (pd_point d) l)).
Proof.
  revert d. induction l as [|o l IH]; intros d HL.
  - split; [constructor|reflexivity].
  - inversion HL as [|? ? H1 H2]; subst.
    cbn. destruct (step d o) as [d1 v] eqn:E. pose proof (step_point d o) as H. rewrite E in H. cbn in H.
    pose proof (step_values d o H1) as [V1 V2]. rewrite E in V1, V2. cbn in V1, V2.
    destruct (want (pd_point d) o) as [p1 w] eqn:W. cbn in H, V1, V2.
    specialize (IH d1 H2). rewrite H in IH. destruct IH as [I1 I2].
    destruct (run d1 l) as [d2 vs]. destruct (expected p1 l) as [p2 ws]. cbn in *. split.
    + constructor; assumption.
    + intros HF. inversion HF; subst. f_equal; auto.
Qed.

(** No coordinate is a negative zero: the values are the very same. *)
Definition plain (a : double) : Prop := ~ minus_zero a.
Definition plain_data (d : point_data) : Prop :=
  plain (bx (pd_point d)) /\ plain (by_ (pd_point d)) /\ plain (bz (pd_point d)) /\
  plain (fst (pd_flat d)) /\ plain (snd (pd_flat d)).
Lemma same_plain a b : plain a -> plain b -> same a b -> a = b.
Proof.
  unfold plain, minus_zero. intros Ha Hb [H|(s & t & -> & ->)]; [exact H|].
  destruct s; [exfalso; auto|]. destruct t; [exfalso; auto|]. reflexivity.
Qed.
Lemma point2d_plain d : plain_data d -> plain_data (point2d d).
Proof.
  destruct d as [[[x y] z] q]. unfold plain_data, point2d, bx, by_, bz. cbn. intros (A & B & C & D & E).
  destruct (differs _ _); cbn; repeat split; assumption.
Qed.
Lemma step_plain d o : Forall plain (sets o) -> plain_data d -> plain_data (fst (step d o)).
Proof.
  intros HS HD. pose proof (point2d_plain d HD) as HP. unfold plain_data, bx, by_, bz in HD |- *.
  destruct d as [[[x y] z] q]. destruct HD as (A & B & C & D & E).
  destruct o; cbn in *; try exact HP; try (repeat split; assumption).
  - inversion HS; subst. repeat split; assumption.
  - inversion HS; subst. repeat split; assumption.
  - inversion HS; subst. repeat split; assumption.
  - destruct q0 as [a b]. inversion HS as [|? ? ? H2]; subst. inversion H2; subst. cbn. repeat split; assumption.
  - destruct p as [[a b] c]. inversion HS as [|? ? ? H2]; subst. inversion H2 as [|? ? ? H3]; subst.
    inversion H3; subst. cbn. repeat split; assumption.
Qed.
Lemma step_exact d o : plain_data d -> o <> LookFlat -> snd (step d o) = snd (want (pd_point d) o).
Proof.
  intros HD HL. destruct (step_values d o HL) as [V1 V2].
  assert (K : o = GetFlat \/ o <> GetFlat) by (destruct o; ((right; congruence) || (left; reflexivity))).
  destruct K as [->|K]; [|auto].
  pose proof (point2d_plain d HD) as (_ & _ & _ & D & E). destruct HD as (A & B & _).
  pose proof (point2d_same d) as [S1 S2].
  destruct d as [[[x y] z] q]. cbn in *. f_equal; [|f_equal]; symmetry; apply same_plain; assumption.
Qed.
Lemma run_exact l : forall d, plain_data d -> Forall (fun o => o <> LookFlat) l ->
  Forall (fun o => Forall plain (sets o)) l -> snd (run d l) = snd (expected (pd_point d) l).
Proof.
  induction l as [|o l IH]; intros d HD HL HS; [reflexivity|].
  inversion HL as [|? ? H1 H2]; subst. inversion HS as [|? ? S1 S2]; subst.
  cbn. pose proof (step_plain d o S1 HD) as HD'. pose proof (step_point d o) as H.
  pose proof (step_exact d o HD H1) as V.
  destruct (step d o) as [d1 v]. destruct (want (pd_point d) o) as [p1 w]. cbn in *.
  specialize (IH d1 HD' H2 S2). rewrite H in IH.
  destruct (run d1 l) as [d2 vs]. destruct (expected p1 l) as [p2 ws]. cbn in *. congruence.
Qed.

(** A reference kept: what the last call returned. *)
Lemma run_app l1 : forall d l2, fst (run d (l1 ++ l2)) = fst (run (fst (run d l1)) l2).
Proof.
  induction l1 as [|o l1 IH]; intros d l2; [reflexivity|].
  cbn. destruct (step d o) as [d1 v]. specialize (IH d1 l2).
  destruct (run d1 (l1 ++ l2)) as [d3 v3]. destruct (run d1 l1) as [d4 v4]. exact IH.
Qed.
Lemma step_flat d o : o <> GetFlat -> pd_flat (fst (step d o)) = pd_flat d.
Proof. destruct d as [[[x y] z] q]. destruct o; cbn; try reflexivity. congruence. Qed.
Lemma run_flat l : forall d, Forall (fun o => o <> GetFlat) l -> pd_flat (fst (run d l)) = pd_flat d.
Proof.
  induction l as [|o l IH]; intros d H; [reflexivity|]. inversion H; subst.
  cbn. pose proof (step_flat d o) as HF. destruct (step d o) as [d1 v]. specialize (IH d1).
  destruct (run d1 l) as [d2 vs]. cbn in *. rewrite IH, HF; auto.
Qed.
Lemma step_out_flat d : snd (step d LookFlat) = [fst (pd_flat d); snd (pd_flat d)].
Proof. destruct d as [[[x y] z] q]. reflexivity. Qed.

(** ** Threads *)
Definition solo (m : memory) (t : thread) : thread := snd (thread_step m t).
Definition at_store (t : thread) : Prop := exists c, stores t c.

Lemma not_store_memory m t : ~ at_store t -> fst (thread_step m t) = m.
Proof.
  intros H. destruct t as [td rg]. destruct td as [|[c|c|rest] r]; cbn; try reflexivity.
  - exfalso. apply H. exists c. exists r. reflexivity.
  - destruct rg as [|b [|a rg]]; reflexivity.
Qed.

(** A memory in which the copy is up to date: no read writes. *)
Fixpoint iter (m : memory) (k : nat) (t : thread) : thread := match k with O => t | S k => iter m k (solo m t) end.

Lemma iter_S m k t : iter m (S k) t = solo m (iter m k t).
Proof. revert t. induction k; intros t; [reflexivity|]. cbn [iter] in *. rewrite <- IHk. reflexivity. Qed.

Ltac no_store := intros (c0 & r0 & E0); cbn in E0; discriminate E0.

Lemma iter_flat m rg td :
  ne (m PX) (m FX) = false -> ne (m PY) (m FY) = false ->
  (forall k rg', ~ at_store (iter m k (Thread td rg'))) ->
  forall k, ~ at_store (iter m k (Thread (code GetFlat ++ td) rg)).
Proof.
  intros A B H k. cbn [code app].
  destruct k as [|k]; [no_store|]. cbn [iter solo thread_step t_todo snd t_regs].
  destruct k as [|k]; [no_store|]. cbn [iter solo thread_step t_todo snd t_regs].
  destruct k as [|k]; [no_store|]. unfold iter at 1; fold iter. unfold solo at 1. cbn [thread_step t_todo snd t_regs].
  rewrite A. cbn [app].
  destruct k as [|k]; [no_store|]. unfold iter at 1; fold iter. unfold solo at 1. cbn [thread_step t_todo snd t_regs].
  destruct k as [|k]; [no_store|]. unfold iter at 1; fold iter. unfold solo at 1. cbn [thread_step t_todo snd t_regs].
  destruct k as [|k]; [no_store|]. unfold iter at 1; fold iter. unfold solo at 1. cbn [thread_step t_todo snd t_regs].
  rewrite B. cbn [app].
  destruct k as [|k]; [no_store|]. unfold iter at 1; fold iter. unfold solo at 1. cbn [thread_step t_todo snd t_regs].
  destruct k as [|k]; [no_store|]. unfold iter at 1; fold iter. unfold solo at 1. cbn [thread_step t_todo snd t_regs].
  apply H.
Qed.

Lemma iter_loads m td l : (forall k rg', ~ at_store (iter m k (Thread td rg'))) ->
  forall k rg, ~ at_store (iter m k (Thread (map Load l ++ td) rg)).
Proof.
  intros H. induction l as [|c l IH]; intros k rg; [apply H|].
  destruct k as [|k]; [no_store|]. cbn [iter]. unfold solo. cbn. apply IH.
Qed.

Lemma code_loads o : o <> GetFlat -> exists l, code o = map Load l.
Proof.
  intros H. destruct o; try congruence; first
    [ exists []; reflexivity | exists [PX]; reflexivity | exists [PY]; reflexivity | exists [PZ]; reflexivity
    | exists [PX; PY]; reflexivity | exists [PX; PY; PZ]; reflexivity | exists [FX; FY]; reflexivity ].
Qed.

Lemma iter_program m p : ne (m PX) (m FX) = false -> ne (m PY) (m FY) = false ->
  forall k rg, ~ at_store (iter m k (Thread (flat_map code p) rg)).
Proof.
  intros A B. induction p as [|o p IH]; intros k rg.
  - cbn [flat_map]. induction k as [|k IHk]; [no_store|]. cbn [iter]. exact IHk.
  - cbn [flat_map]. assert (K : o = GetFlat \/ o <> GetFlat) by (destruct o; ((right; congruence) || (left; reflexivity))).
    destruct K as [->|K].
    + apply iter_flat; auto.
    + destruct (code_loads o K) as [l ->]. apply iter_loads. exact IH.
Qed.

Lemma reach_fresh m0 progs : ne (m0 PX) (m0 FX) = false -> ne (m0 PY) (m0 FY) = false ->
  forall m ts, reach m0 (start progs) m ts -> m = m0 /\ forall i, exists k, ts i = iter m0 k (start progs i).
Proof.
  intros A B m ts H. induction H as [|i m ts H [IH1 IH2]].
  - split; [reflexivity|]. intros i. exists 0. reflexivity.
  - subst m. destruct (IH2 i) as [k Ek]. split.
    + apply not_store_memory. rewrite Ek. apply iter_program; assumption.
    + intros j. unfold update. destruct (Nat.eqb_spec i j) as [<-|Hn].
      * exists (S k). rewrite iter_S. rewrite <- Ek. reflexivity.
      * apply IH2.
Qed.

Lemma fresh_no_race d progs : up_to_date d -> ~ racy d progs.
Proof.
  intros H (m & ts & R & i & j & c & Hij & Hs & Ha).
  apply up_to_date_differs in H. unfold differs in H. apply orb_false_iff in H. destruct H as [A B].
  destruct (reach_fresh (layout d) progs A B m ts R) as [_ H]. destruct (H i) as [k Hk].
  apply (iter_program (layout d) (progs i) A B k []). exists c. rewrite Hk in Hs. exact Hs.
Qed.

(** What a thread can access, by the operations in its program. *)
Definition flat_cell (c : cell) : Prop := c = FX \/ c = FY.
Inductive fine : instr -> Prop :=
| fine_load c : fine (Load c)
| fine_store c : flat_cell c -> fine (Store c)
| fine_compare1 : fine (Compare [])
| fine_compare2 : fine (Compare [Load PY; Load FY; Compare []]).
Definition own_load (i : instr) : Prop := exists c, i = Load c /\ ~ flat_cell c.
Definition load (i : instr) : Prop := exists c, i = Load c.

Definition fits (p : list op) (t : thread) : Prop :=
  Forall fine (t_todo t) /\
  (~ In GetFlat p -> Forall load (t_todo t)) /\
  (~ In GetFlat p -> ~ In LookFlat p -> Forall own_load (t_todo t)).

Lemma fits_start p rg : fits p (Thread (flat_map code p) rg).
Proof.
  unfold fits. cbn [t_todo]. induction p as [|o p (I1 & I2 & I3)].
  - repeat split; constructor.
  - assert (N : forall c, c = PX \/ c = PY \/ c = PZ -> own_load (Load c)).
    { intros c Hc. exists c. split; [reflexivity|]. intros [->| ->]; destruct Hc as [E|[E|E]]; discriminate. }
    assert (L : forall c, load (Load c)) by (intros c; exists c; reflexivity).
    cbn [flat_map]. repeat split.
    + apply Forall_app. split; [|exact I1]. destruct o; cbn; repeat constructor.
    + intros HG. apply Forall_app. split; [|apply I2; intros K; apply HG; right; exact K].
      destruct o; cbn; repeat (apply Forall_cons; [apply L|]); try apply Forall_nil.
      exfalso. apply HG. left. reflexivity.
    + intros HG HL. apply Forall_app.
      split; [|apply I3; [intros K; apply HG|intros K; apply HL]; right; exact K].
      destruct o; cbn; repeat (apply Forall_cons; [apply N; auto|]); try apply Forall_nil; exfalso;
        (apply HG; left; reflexivity) || (apply HL; left; reflexivity).
Qed.

Lemma fits_step p m t : fits p t -> fits p (solo m t).
Proof.
  destruct t as [td rg]. unfold fits, solo. cbn [t_todo]. intros (H1 & H2 & H3).
  destruct td as [|i r]; [cbn; auto|].
  inversion H1 as [|? ? F1 F2]; subst.
  assert (G2 : ~ In GetFlat p -> load i /\ Forall load r).
  { intros K. specialize (H2 K). inversion H2; subst. auto. }
  assert (G3 : ~ In GetFlat p -> ~ In LookFlat p -> own_load i /\ Forall own_load r).
  { intros K K'. specialize (H3 K K'). inversion H3; subst. auto. }
  destruct i as [c|c|rest]; cbn.
  - split; [exact F2|]. split; [apply G2|]. intros K K'; apply G3; assumption.
  - split; [exact F2|]. split; [apply G2|]. intros K K'; apply G3; assumption.
  - assert (X : forall (Q : Prop), ~ In GetFlat p -> Q).
    { intros Q K. destruct (G2 K) as [[c Ec] _]. discriminate. }
    destruct rg as [|b [|a rg]]; cbn; (split; [|split; [intros K; apply X; exact K|intros K _; apply X; exact K]]).
    + exact F2.
    + exact F2.
    + apply Forall_app. split; [|exact F2]. destruct (ne a b).
      * unfold renew. apply Forall_cons; [constructor|]. apply Forall_cons; [constructor; left; reflexivity|].
        apply Forall_cons; [constructor|]. apply Forall_cons; [constructor; right; reflexivity|constructor].
      * inversion F1; subst; repeat constructor.
Qed.

Lemma reach_fits m0 progs m ts : reach m0 (start progs) m ts -> forall i, fits (progs i) (ts i).
Proof.
  intros H. induction H as [|i m ts H IH]; intros j.
  - apply fits_start.
  - unfold update. destruct (Nat.eqb_spec i j) as [<-|_]; [|apply IH]. apply fits_step. apply IH.
Qed.

Lemma op_in_dec (o : op) p : (forall a, {a = o} + {a <> o}) -> {In o p} + {~ In o p}.
Proof. intros D. induction p as [|a p [I|I]]; [right; auto|left; right; exact I|].
  destruct (D a) as [->|N]; [left; left; reflexivity|right; intros [K|K]; auto]. Defined.
Lemma is_get_flat (a : op) : {a = GetFlat} + {a <> GetFlat}.
Proof. destruct a; ((left; reflexivity) || (right; discriminate)). Defined.
Lemma is_look_flat (a : op) : {a = LookFlat} + {a <> LookFlat}.
Proof. destruct a; ((left; reflexivity) || (right; discriminate)). Defined.

Lemma race_needs d progs : racy d progs ->
  ~ up_to_date d /\ exists i j, i <> j /\ In GetFlat (progs i) /\ (In GetFlat (progs j) \/ In LookFlat (progs j)).
Proof.
  intros H. split; [intros U; exact (fresh_no_race d progs U H)|].
  destruct H as (m & ts & R & i & j & c & Hij & [ri Hi] & [rj Hj]). exists i, j.
  pose proof (reach_fits _ _ _ _ R i) as (I1 & I2 & _). pose proof (reach_fits _ _ _ _ R j) as (_ & _ & J3).
  rewrite Hi in I1, I2. inversion I1 as [|? ? F _]; subst. inversion F as [|? Fc| | ]; subst.
  split; [exact Hij|]. split.
  - destruct (op_in_dec GetFlat (progs i) is_get_flat) as [K|K]; [exact K|].
    specialize (I2 K). inversion I2 as [|? ? [c' E] _]; subst. discriminate.
  - destruct (op_in_dec GetFlat (progs j) is_get_flat) as [K|K]; [left; exact K|].
    destruct (op_in_dec LookFlat (progs j) is_look_flat) as [K'|K']; [right; exact K'|].
    specialize (J3 K K'). destruct Hj as [E|E]; rewrite E in J3; inversion J3 as [|? ? [c' [E' N]] _]; subst.
    + inversion E'; subst. contradiction.
    + discriminate.
Qed.

(** ** Reaching a race *)
(** A thread runs alone as long as it only loads and compares. *)
Lemma reach_solo m0 ts0 i k : forall ts, reach m0 ts0 m0 ts ->
  (forall k', k' < k -> ~ at_store (iter m0 k' (ts i))) ->
  exists ts', reach m0 ts0 m0 ts' /\ ts' i = iter m0 k (ts i) /\ forall j, j <> i -> ts' j = ts j.
Proof.
  induction k as [|k IH]; intros ts R H.
  - exists ts. auto.
  - destruct (IH ts R) as (ts1 & R1 & E1 & O1). { intros k' Hk. apply H. lia. }
    exists (update ts1 i (solo m0 (ts1 i))). repeat split.
    + pose proof (reach_step m0 ts0 i m0 ts1 R1) as R2.
      rewrite not_store_memory in R2; [exact R2|]. rewrite E1. apply H. lia.
    + unfold update. rewrite Nat.eqb_refl. rewrite iter_S, E1. reflexivity.
    + intros j Hj. unfold update. destruct (Nat.eqb_spec i j) as [->|_]; [congruence|]. apply O1. exact Hj.
Qed.

Lemma iter_over_loads m l : forall td rg,
  iter m (length l) (Thread (map Load l ++ td) rg) = Thread td (rev (map m l) ++ rg) /\
  forall k, k < length l -> ~ at_store (iter m k (Thread (map Load l ++ td) rg)).
Proof.
  induction l as [|c l IH]; intros td rg; cbn [length].
  - split; [reflexivity|]. intros k Hk. lia.
  - destruct (IH td (m c :: rg)) as [E N]. split.
    + cbn [iter map app]. unfold solo. cbn [thread_step t_todo snd t_regs]. rewrite E. cbn [map rev].
      rewrite <- app_assoc. reflexivity.
    + intros k Hk. destruct k as [|k]; [no_store|]. cbn [iter map app]. unfold solo. cbn [thread_step t_todo snd t_regs].
      apply N. lia.
Qed.

Lemma iter_add m a b t : iter m (a + b) t = iter m b (iter m a t).
Proof. revert t. induction a; intros t; cbn; auto. Qed.

(** Up to the first operation of a kind, without such an operation nothing is written. *)
Lemma to_first m p rest : Forall (fun o => o <> GetFlat) p ->
  forall rg, exists k rg', iter m k (Thread (flat_map code p ++ rest) rg) = Thread rest rg' /\
  forall k', k' < k -> ~ at_store (iter m k' (Thread (flat_map code p ++ rest) rg)).
Proof.
  induction p as [|o p IH]; intros HF rg.
  - exists 0, rg. split; [reflexivity|]. intros k' Hk. lia.
  - inversion HF as [|? ? H1 H2]; subst. destruct (code_loads o H1) as [l Hl]. cbn [flat_map]. rewrite Hl.
    rewrite <- app_assoc. destruct (iter_over_loads m l (flat_map code p ++ rest) rg) as [E N].
    destruct (IH H2 (rev (map m l) ++ rg)) as (k & rg' & E' & N').
    exists (length l + k), rg'. split.
    + rewrite iter_add, E. exact E'.
    + intros k' Hk'. destruct (Nat.lt_ge_cases k' (length l)) as [C|C]; [apply N; exact C|].
      replace k' with (length l + (k' - length l)) by lia. rewrite iter_add, E. apply N'. lia.
Qed.

Lemma first_in (o : op) (D : forall a, {a = o} + {a <> o}) p : In o p ->
  exists p1 p2, p = p1 ++ o :: p2 /\ Forall (fun a => a <> o) p1.
Proof.
  induction p as [|a p IH]; [intros []|]. intros H. destruct (D a) as [->|N].
  - exists [], p. auto.
  - destruct H as [H|H]; [congruence|]. destruct (IH H) as (p1 & p2 & -> & F).
    exists (a :: p1), p2. split; [reflexivity|]. constructor; assumption.
Qed.

(** The thread that writes: it gets to the store into FX. *)
Lemma to_store d td rg : ~ up_to_date d ->
  exists k r rg', iter (layout d) k (Thread (code GetFlat ++ td) rg) = Thread (Store FX :: r) rg' /\
  forall k', k' < k -> ~ at_store (iter (layout d) k' (Thread (code GetFlat ++ td) rg)).
Proof.
  intros H.
  assert (K : ne (layout d PX) (layout d FX) = false -> ne (layout d PY) (layout d FY) = false -> False).
  { intros A B. apply H. apply up_to_date_differs. unfold differs. apply orb_false_iff. split; assumption. }
  clear H. revert K. generalize (layout d). intros m K.
  destruct (ne (m PX) (m FX)) eqn:A.
  - exists 4. do 2 eexists. split.
    + cbn [iter code app]. unfold solo. cbn [thread_step t_todo snd t_regs]. rewrite A. cbn. reflexivity.
    + intros k' Hk. cbn [code app].
      destruct k' as [|k']; [no_store|]. destruct k' as [|k']; [no_store|]. destruct k' as [|k']; [no_store|].
      destruct k' as [|k']; [|lia]. cbn [iter]. unfold solo. cbn [thread_step t_todo snd t_regs]. rewrite A. no_store.
  - destruct (ne (m PY) (m FY)) eqn:B.
    + exists 7. do 2 eexists. split.
      * cbn [iter code app]. unfold solo. cbn [thread_step t_todo snd t_regs]. rewrite A. cbn. rewrite B. cbn. reflexivity.
      * intros k' Hk. cbn [code app].
        destruct k' as [|k']; [no_store|]. destruct k' as [|k']; [no_store|]. destruct k' as [|k']; [no_store|].
        cbn [iter]. unfold solo at 1 2 3. cbn [thread_step t_todo snd t_regs]. rewrite A. cbn [app].
        destruct k' as [|k']; [cbn; no_store|]. destruct k' as [|k']; [cbn; no_store|].
        destruct k' as [|k']; [cbn; no_store|].
        destruct k' as [|k']; [|lia]. cbn [iter]. unfold solo. cbn [thread_step t_todo snd t_regs]. rewrite B. no_store.
    + exfalso. apply K; reflexivity.
Qed.

Lemma no_earlier_store m p o td :
  Forall (fun a => a <> GetFlat) p -> forall rg, exists k rg',
  iter m k (Thread (flat_map code (p ++ o :: td)) rg) = Thread (code o ++ flat_map code td) rg' /\
  forall k', k' < k -> ~ at_store (iter m k' (Thread (flat_map code (p ++ o :: td)) rg)).
Proof. intros H rg. rewrite flat_map_app. cbn [flat_map]. apply to_first. exact H. Qed.

Lemma race_happens d progs i j : ~ up_to_date d -> i <> j -> In GetFlat (progs i) ->
  In GetFlat (progs j) \/ In LookFlat (progs j) -> racy d progs.
Proof.
  intros HD Hij Hi Hj.
  destruct (first_in GetFlat is_get_flat _ Hi) as (p1 & p2 & Ep & Fp).
  (* the first operation of j that touches the copy *)
  assert (J : exists q1 o q2, progs j = q1 ++ o :: q2 /\ (o = GetFlat \/ o = LookFlat) /\
              Forall (fun a => a <> GetFlat) q1).
  { clear Hi Ep Fp p1 p2. induction (progs j) as [|a q IH]; [destruct Hj as [[]|[]]|].
    destruct (is_get_flat a) as [->|N1]; [exists [], GetFlat, q; auto|].
    destruct (is_look_flat a) as [->|N2]; [exists [], LookFlat, q; auto|].
    destruct IH as (q1 & o & q2 & -> & Ho & Fq).
    { destruct Hj as [[K|K]|[K|K]]; try congruence; auto. }
    exists (a :: q1), o, q2. repeat split; auto. }
  destruct J as (q1 & o & q2 & Eq & Ho & Fq).
  set (m := layout d).
  (* thread i *)
  destruct (no_earlier_store m p1 GetFlat p2 Fp []) as (k1 & rg1 & E1 & N1).
  destruct (to_store d (flat_map code p2) rg1 HD) as (k2 & r & rg2 & E2 & N2). fold m in E2, N2.
  assert (Ei : iter m (k1 + k2) (start progs i) = Thread (Store FX :: r) rg2).
  { unfold start. rewrite Ep. rewrite iter_add, E1. exact E2. }
  assert (Ni : forall k', k' < k1 + k2 -> ~ at_store (iter m k' (start progs i))).
  { intros k' Hk. unfold start. rewrite Ep. destruct (Nat.lt_ge_cases k' k1) as [C|C]; [apply N1; exact C|].
    replace k' with (k1 + (k' - k1)) by lia. rewrite iter_add, E1. apply N2. lia. }
  destruct (reach_solo m (start progs) i (k1 + k2) (start progs) (reach_start _ _) Ni) as (ts1 & R1 & S1 & O1).
  (* thread j *)
  destruct (no_earlier_store m q1 o q2 Fq []) as (k3 & rg3 & E3 & N3).
  assert (Nj : forall k', k' < k3 -> ~ at_store (iter m k' (ts1 j))).
  { rewrite O1 by congruence. unfold start. rewrite Eq. exact N3. }
  destruct (reach_solo m (start progs) j k3 ts1 R1 Nj) as (ts2 & R2 & S2 & O2).
  assert (E4 : ts2 j = Thread (code o ++ flat_map code q2) rg3).
  { rewrite S2. rewrite O1 by congruence. unfold start. rewrite Eq. exact E3. }
  assert (E5 : ts2 i = Thread (Store FX :: r) rg2).
  { rewrite O2 by congruence. rewrite S1. exact Ei. }
  destruct Ho as [-> | ->].
  - exists m, (update ts2 j (solo m (ts2 j))). split.
    + pose proof (reach_step m (start progs) j m ts2 R2) as R3. rewrite not_store_memory in R3; [exact R3|].
      rewrite E4. no_store.
    + exists i, j, FX. split; [exact Hij|]. unfold update. rewrite Nat.eqb_refl.
      destruct (Nat.eqb_spec j i) as [K|_]; [congruence|]. rewrite E4, E5. split.
      * exists r. reflexivity.
      * eexists. left. cbn. reflexivity.
  - exists m, ts2. split; [exact R2|]. exists i, j, FX. split; [exact Hij|]. rewrite E4, E5. split.
    + exists r. reflexivity.
    + eexists. left. cbn. reflexivity.
Qed.

(** ** When the copy is up to date *)
Lemma up_to_date_make p : bx p <> B754_nan -> by_ p <> B754_nan -> up_to_date (make p).
Proof. destruct p as [[x y] z]. intros A B. split; apply eq_refl_number; assumption. Qed.
Lemma up_to_date_read d : bx (pd_point d) <> B754_nan -> by_ (pd_point d) <> B754_nan -> up_to_date (point2d d).
Proof.
  intros A B. unfold point2d. destruct (differs _ _) eqn:E.
  - split; apply eq_refl_number; assumption.
  - apply up_to_date_differs. exact E.
Qed.

(** ** The accesses of an operation do what the operation does *)
Fixpoint alone (k : nat) (s : memory * thread) : memory * thread :=
  match k with O => s | S k => alone k (thread_step (fst s) (snd s)) end.

Lemma alone_code d o rest rg m : reads_only o -> (forall c, m c = layout d c) ->
  exists k m' rg', alone k (m, Thread (code o ++ rest) rg) = (m', Thread rest (rev (snd (step d o)) ++ rg')) /\
  forall c, m' c = layout (fst (step d o)) c.
Proof.
  intros R M. destruct d as [[[x y] z] [u v]]. unfold layout, bx, by_, bz in M. cbn in M.
  pose proof (M PX) as MX. pose proof (M PY) as MY. pose proof (M PZ) as MZ.
  pose proof (M FX) as MU. pose proof (M FY) as MV. cbn in MX, MY, MZ, MU, MV.
  destruct o; try discriminate R; try (destruct q; discriminate R); try (destruct p as [[? ?] ?]; discriminate R).
  - exists 1, m, rg. cbn. rewrite MX. split; [reflexivity|exact M].
  - exists 1, m, rg. cbn. rewrite MY. split; [reflexivity|exact M].
  - exists 1, m, rg. cbn. rewrite MZ. split; [reflexivity|exact M].
  - exists 2, m, rg. cbn. rewrite MX, MY. split; [reflexivity|exact M].
  - exists 3, m, rg. cbn. rewrite MX, MY, MZ. split; [reflexivity|exact M].
  - cbn [step pd_point fst snd pd_flat]. unfold point2d, differs, head2. cbn [pd_point pd_flat fst snd].
    destruct (ne x u) eqn:A.
    + exists 9. do 2 eexists. split.
      * cbn [alone code app]. cbn [thread_step t_todo t_regs fst snd]. rewrite MX, MU, A. cbn. rewrite MX, MY. cbn.
        reflexivity.
      * intros []; cbn; auto.
    + destruct (ne y v) eqn:B.
      * exists 12. do 2 eexists. split.
        -- cbn [alone code app]. cbn [thread_step t_todo t_regs fst snd]. rewrite MX, MU, A. cbn.
           rewrite MY, MV, B. cbn. rewrite MX, MY. cbn. reflexivity.
        -- intros []; cbn; auto.
      * exists 8. do 2 eexists. split.
        -- cbn [alone code app]. cbn [thread_step t_todo t_regs fst snd]. rewrite MX, MU, A. cbn.
           rewrite MY, MV, B. cbn. rewrite MU, MV. cbn. reflexivity.
        -- exact M.
  - exists 2, m, rg. cbn. rewrite MU, MV. split; [reflexivity|exact M].
Qed.

(** ** The points of a map *)
(** What a thread does with one point. *)
Definition mine {T} (n : nat) (l : list (nat * T)) : list T := map snd (filter (fun x => Nat.eqb (fst x) n) l).
Definition view (n : nat) (t : mthread) : thread := Thread (mine n (mt_todo t)) (mt_regs t n).

Lemma mine_app {T} n (l1 l2 : list (nat * T)) : mine n (l1 ++ l2) = mine n l1 ++ mine n l2.
Proof. unfold mine. rewrite filter_app, map_app. reflexivity. Qed.
Lemma mine_same {T} n (l : list T) : mine n (map (pair n) l) = l.
Proof. induction l as [|x l IH]; [reflexivity|]. unfold mine in *. cbn. rewrite Nat.eqb_refl. cbn. rewrite IH. reflexivity. Qed.
Lemma mine_other {T} n n' (l : list T) : n' <> n -> mine n (map (pair n') l) = [].
Proof.
  intros H. induction l as [|x l IH]; [reflexivity|]. unfold mine in *. cbn.
  destruct (Nat.eqb_spec n' n); [congruence|]. exact IH.
Qed.
Lemma mine_in {T} n (x : T) l : In x (mine n l) <-> In (n, x) l.
Proof.
  unfold mine. rewrite in_map_iff. split.
  - intros ([n' y] & E & H). apply filter_In in H. destruct H as [H K]. cbn in *. apply Nat.eqb_eq in K. subst. exact H.
  - intros H. exists (n, x). split; [reflexivity|]. apply filter_In. split; [exact H|]. apply Nat.eqb_refl.
Qed.
Lemma mine_cons {T} n (x : T) l : mine n ((n, x) :: l) = x :: mine n l.
Proof. unfold mine. cbn. rewrite Nat.eqb_refl. reflexivity. Qed.
Lemma mine_skip {T} n n' (x : T) l : n' <> n -> mine n ((n', x) :: l) = mine n l.
Proof. intros H. unfold mine. cbn. destruct (Nat.eqb_spec n' n); [congruence|reflexivity]. Qed.

Lemma set_same {T} (f : nat -> T) n x : set_point f n x n = x.
Proof. unfold set_point. rewrite Nat.eqb_refl. reflexivity. Qed.
Lemma set_other {T} (f : nat -> T) n x n' : n' <> n -> set_point f n x n' = f n'.
Proof. intros H. unfold set_point. destruct (Nat.eqb_spec n n'); [congruence|reflexivity]. Qed.

Lemma step_one m i r rg : thread_step m (Thread (i :: r) rg) =
  let s := thread_step m (Thread [i] rg) in (fst s, Thread (t_todo (snd s) ++ r) (t_regs (snd s))).
Proof.
  destruct i as [c|c|rest]; cbn; try reflexivity.
  destruct rg as [|b [|a rg]]; cbn; try reflexivity. rewrite app_nil_r. reflexivity.
Qed.

(** A step with a point is a step of the view on it and nothing for the other points. *)
Lemma view_step ms t n i r : mt_todo t = (n, i) :: r ->
  fst (mthread_step ms t) n = fst (thread_step (ms n) (view n t)) /\
  view n (snd (mthread_step ms t)) = snd (thread_step (ms n) (view n t)) /\
  forall n', n' <> n -> fst (mthread_step ms t) n' = ms n' /\ view n' (snd (mthread_step ms t)) = view n' t.
Proof.
  intros E. unfold mthread_step, view. rewrite E. rewrite mine_cons.
  rewrite (step_one (ms n) i (mine n r)). cbv zeta. cbn [fst snd mt_todo mt_regs].
  repeat split.
  - apply set_same.
  - rewrite mine_app, mine_same, set_same. reflexivity.
  - apply set_other. exact H.
  - rewrite mine_app, mine_other, set_other, mine_skip by congruence. reflexivity.
Qed.

Lemma view_start progs n i : view n (mstart progs i) = start (fun k => mine n (progs k)) i.
Proof.
  unfold view, mstart, start. cbn [mt_todo mt_regs]. f_equal. induction (progs i) as [|[n' o] l IH]; [reflexivity|].
  cbn [flat_map]. rewrite mine_app. unfold mcode at 1. cbn [fst snd].
  destruct (Nat.eq_dec n' n) as [->|N].
  - rewrite mine_same, mine_cons. cbn [flat_map]. rewrite IH. reflexivity.
  - rewrite mine_other, mine_skip by exact N. exact IH.
Qed.

(** What happens to one point happens to it alone. *)
Lemma view_reach ms0 progs ms ts n : mreach ms0 (mstart progs) ms ts ->
  exists ts1, reach (ms0 n) (start (fun k => mine n (progs k))) (ms n) ts1 /\ forall k, ts1 k = view n (ts k).
Proof.
  intros R. induction R as [|i ms ts R (ts1 & R1 & E1)].
  - eexists. split; [apply reach_start|]. intros k. symmetry. apply view_start.
  - destruct (mt_todo (ts i)) as [|[n' ins] r] eqn:E.
    + exists ts1. unfold mthread_step. rewrite E. cbn [fst snd]. split; [exact R1|]. intros k. rewrite E1.
      unfold set_point. destruct (Nat.eqb_spec i k) as [->|_]; reflexivity.
    + destruct (view_step ms (ts i) n' ins r E) as (A & B & C). destruct (Nat.eq_dec n' n) as [->|N].
      * pose proof (reach_step _ _ i _ _ R1) as R2. rewrite E1 in R2. rewrite <- A, <- B in R2.
        eexists. split; [exact R2|]. intros k. unfold update, set_point.
        destruct (Nat.eqb_spec i k) as [->|_]; [reflexivity|apply E1].
      * destruct (C n) as [C1 C2]; [congruence|]. exists ts1. rewrite C1. split; [exact R1|].
        intros k. rewrite E1. unfold set_point. destruct (Nat.eqb_spec i k) as [->|_]; [symmetry; exact C2|reflexivity].
Qed.

Lemma view_stores n t c : mstores t n c -> stores (view n t) c.
Proof. intros [r E]. exists (mine n r). unfold view. rewrite E. cbn [t_todo]. apply mine_cons. Qed.
Lemma view_accesses n t c : maccesses t n c -> accesses (view n t) c.
Proof.
  intros [r [E|E]]; exists (mine n r); [left|right]; unfold view; rewrite E; cbn [t_todo]; apply mine_cons.
Qed.

Lemma map_race_point d progs : mracy d progs -> exists n, racy (d n) (fun k => mine n (progs k)).
Proof.
  intros (ms & ts & R & i & j & n & c & N & Hs & Ha). exists n.
  destruct (view_reach _ _ _ _ n R) as (ts1 & R1 & E1). exists (ms n), ts1. split; [exact R1|].
  exists i, j, c. rewrite !E1. split; [exact N|]. split; [apply view_stores|apply view_accesses]; assumption.
Qed.

(** The other way round: the accesses to other points do not hinder a thread. *)
Fixpoint weight (i : instr) : nat :=
  match i with
  | Load _ | Store _ => 1
  | Compare rest => 5 + (fix total l := match l with [] => 0 | a :: r => weight a + total r end) rest
  end.
Definition total (l : list instr) : nat := fold_right (fun a s => weight a + s) 0 l.
Lemma weight_compare rest : weight (Compare rest) = 5 + total rest.
Proof.
  cbn [weight]. reflexivity.
Qed.
Lemma total_app l1 l2 : total (l1 ++ l2) = total l1 + total l2.
Proof. unfold total. induction l1 as [|a l IH]; [reflexivity|]. cbn. rewrite IH. lia. Qed.
Lemma weight_step m i rg : total (t_todo (snd (thread_step m (Thread [i] rg)))) < weight i.
Proof.
  destruct i as [c|c|rest].
  - cbn. lia.
  - cbn. lia.
  - rewrite weight_compare. destruct rg as [|b [|a rg]]; cbn [thread_step t_todo t_regs snd]; try (cbn; lia).
    rewrite app_nil_r. destruct (ne a b); [cbn; lia|lia].
Qed.
Definition load_of (t : mthread) : nat := total (map snd (mt_todo t)).

(** A thread is at the point n or has nothing left to do with it. *)
Definition arrived (n : nat) (t : mthread) : Prop :=
  match mt_todo t with [] => True | (n', _) :: _ => n' = n end.

Lemma drain ms0 ts0 n i : forall w ms ts, load_of (ts i) <= w -> mreach ms0 ts0 ms ts ->
  exists ms' ts', mreach ms0 ts0 ms' ts' /\ ms' n = ms n /\ (forall k, view n (ts' k) = view n (ts k)) /\
  arrived n (ts' i) /\ forall k, k <> i -> ts' k = ts k.
Proof.
  induction w as [|w IH]; intros ms ts W R.
  - exists ms, ts. repeat split; auto. unfold arrived. destruct (mt_todo (ts i)) as [|[n' ins] r] eqn:E; [exact I|].
    exfalso. unfold load_of in W. rewrite E in W. cbn in W. destruct ins; cbn in W; lia.
  - destruct (mt_todo (ts i)) as [|[n' ins] r] eqn:E.
    { exists ms, ts. repeat split; auto. unfold arrived. rewrite E. exact I. }
    destruct (Nat.eq_dec n' n) as [->|N].
    { exists ms, ts. repeat split; auto. unfold arrived. rewrite E. reflexivity. }
    destruct (view_step ms (ts i) n' ins r E) as (_ & _ & C). destruct (C n) as [C1 C2]; [congruence|].
    pose proof (mreach_step _ _ i _ _ R) as R1.
    assert (W1 : load_of (set_point ts i (snd (mthread_step ms (ts i))) i) <= w).
    { rewrite set_same. unfold load_of, mthread_step in *. rewrite E in *. cbn [snd mt_todo].
      rewrite map_app, map_map. cbn [snd]. rewrite map_id. rewrite total_app.
      pose proof (weight_step (ms n') ins (mt_regs (ts i) n')) as L. cbn [map snd] in W.
      change (total (ins :: map snd r)) with (weight ins + total (map snd r)) in W. lia. }
    destruct (IH _ _ W1 R1) as (ms' & ts' & R' & M' & V' & A' & O').
    exists ms', ts'. split; [exact R'|]. split; [congruence|]. split; [|split; [exact A'|]].
    + intros k. rewrite V'. unfold set_point. destruct (Nat.eqb_spec i k) as [->|_]; [exact C2|reflexivity].
    + intros k K. rewrite O' by exact K. apply set_other. exact K.
Qed.

Lemma arrived_head n t i r : arrived n t -> t_todo (view n t) = i :: r -> exists r', mt_todo t = (n, i) :: r'.
Proof.
  unfold arrived, view. cbn [t_todo]. destruct (mt_todo t) as [|[n' ins] l]; [discriminate|].
  intros ->. rewrite mine_cons. intros H. inversion H; subst. eauto.
Qed.

Lemma lift_reach ms0 progs n m ts : reach (ms0 n) (start (fun k => mine n (progs k))) m ts ->
  exists ms mts, mreach ms0 (mstart progs) ms mts /\ ms n = m /\ forall k, view n (mts k) = ts k.
Proof.
  intros R. induction R as [|i m ts R (ms & mts & R1 & M1 & V1)].
  - exists ms0, (mstart progs). split; [apply mreach_start|]. split; [reflexivity|]. intros k. apply view_start.
  - destruct (drain _ _ n i (load_of (mts i)) ms mts (le_n _) R1) as (ms2 & mts2 & R2 & M2 & V2 & A2 & _).
    assert (VI : view n (mts2 i) = ts i) by (rewrite V2; apply V1).
    assert (MI : ms2 n = m) by congruence.
    destruct (mt_todo (mts2 i)) as [|[n' ins] r] eqn:E.
    + exists ms2, mts2. split; [exact R2|].
      assert (S : thread_step m (ts i) = (m, ts i)).
      { rewrite <- VI. unfold view. rewrite E. reflexivity. }
      rewrite S. cbn [fst snd]. split; [exact MI|]. intros k. unfold update.
      rewrite V2, V1. destruct (Nat.eqb_spec i k) as [->|_]; reflexivity.
    + assert (n' = n) by (unfold arrived in A2; rewrite E in A2; exact A2). subst n'.
      destruct (view_step ms2 (mts2 i) n ins r E) as (A & B & _).
      pose proof (mreach_step _ _ i _ _ R2) as R3. do 2 eexists. split; [exact R3|]. rewrite A, MI, VI.
      split; [reflexivity|]. intros k. unfold update, set_point.
      destruct (Nat.eqb_spec i k) as [->|_]; [rewrite B, MI, VI; reflexivity|]. rewrite V2. apply V1.
Qed.

Lemma point_race_map d progs n : racy (d n) (fun k => mine n (progs k)) -> mracy d progs.
Proof.
  intros (m & ts & R & i & j & c & N & [ri Hs] & [rj Ha]).
  destruct (lift_reach (fun n => layout (d n)) progs n m ts R) as (ms & mts & R1 & _ & V1).
  destruct (drain _ _ n i (load_of (mts i)) ms mts (le_n _) R1) as (ms2 & mts2 & R2 & _ & V2 & A2 & _).
  destruct (drain _ _ n j (load_of (mts2 j)) ms2 mts2 (le_n _) R2) as (ms3 & mts3 & R3 & _ & V3 & A3 & O3).
  exists ms3, mts3. split; [exact R3|]. exists i, j, n, c. split; [exact N|]. split.
  - rewrite O3 by exact N. apply (arrived_head n _ _ ri A2). rewrite V2, V1. exact Hs.
  - destruct Ha as [Ha|Ha]; rewrite <- V1, <- V2, <- V3 in Ha; destruct (arrived_head n _ _ rj A3 Ha) as [r' E];
      exists r'; [left|right]; exact E.
Qed.
