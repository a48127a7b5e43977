(** Proofs about Attribute. *)
From Coq Require Import List Arith Bool String Ascii ZArith Lia.
From Coq Require Import DecimalString Decimal DecimalZ DecimalFacts.
From Verif Require Import AttrModel.
Import ListNotations.
Local Open Scope list_scope.
Local Open Scope nat_scope.

(** * Integers survive printing and parsing *)
Lemma pos_to_uint_nonnil p : Pos.to_uint p <> Nil.
Proof.
  intros E. assert (H := DecimalPos.Unsigned.of_to p). rewrite E in H. discriminate.
Qed.

Lemma to_int_nz z : Z.to_int z <> Pos Nil /\ Z.to_int z <> Neg Nil.
Proof.
  destruct z as [|p|p]; simpl; split; try discriminate; intros E; inversion E as [H]; eapply pos_to_uint_nonnil; eauto.
Qed.

Lemma string_of_uint_plus u : u <> Nil -> match NilZero.string_of_uint u with String "+"%char _ => False | EmptyString => False | _ => True end.
Proof. destruct u; simpl; auto. Qed.

Lemma lex_print lo hi z : (lo <= z <= hi)%Z -> lex_Z lo hi (print_Z z) = Some z.
Proof.
  intros B. unfold lex_Z, print_Z. destruct (to_int_nz z) as [N1 N2].
  assert (I : NilZero.int_of_string (NilZero.string_of_int (Z.to_int z)) = Some (Z.to_int z)).
  { apply NilZero.isi; auto. }
  assert (Z.leb lo z && Z.leb z hi = true)%bool as L.
  { apply andb_true_iff. split; apply Z.leb_le; lia. }
  destruct (NilZero.string_of_int (Z.to_int z)) as [|c r] eqn:S.
  - rewrite I. cbv zeta. rewrite DecimalZ.of_to, L. auto.
  - assert (c <> "+"%char).
    { intros ->. destruct (Z.to_int z) as [u|u]; simpl in S; [|discriminate].
      assert (H := string_of_uint_plus u). rewrite S in H. apply H. congruence. }
    assert (M : match c with "+"%char => option_map Pos (NilZero.uint_of_string r) | _ => NilZero.int_of_string (String c r) end
                = NilZero.int_of_string (String c r)).
    { clear -H. destruct c as [[] [] [] [] [] [] [] []]; try reflexivity. congruence. }
    cbv zeta. 
    match goal with |- match ?x with _ => _ end = _ => replace x with (Some (Z.to_int z)) end.
    + rewrite DecimalZ.of_to, L. auto.
    + rewrite <- I. symmetry. exact M.
Qed.

Section Attribute.
Context {D Vel : Type}.
Variable lex_double : string -> option D.
Variable stod : string -> option (D * nat).
Variable kmh mps mph : D -> Vel.
Variable print_double : D -> string.
Variable vel_kmh : Vel -> D.
Notation attr := (attr D Vel). Notation cache := (cache D Vel). Notation result := (result D Vel).
Notation unit_velocity := (unit_velocity stod kmh mps mph).
Notation get := (get lex_double stod kmh mps mph).
Notation get_all := (get_all lex_double stod kmh mps mph).

(** The result without any cache. *)
Definition plain (s : string) (g : getter) : result :=
  match g with
  | GBool => RBool (conv_bool s)
  | GDouble => RDouble (lex_double s)
  | GId => RId (lex_id s)
  | GInt => RInt (lex_int s)
  | GVel => RVel (match lex_double s with Some d => Some (kmh d) | None => unit_velocity s end)
  end.

Definition coherent (s : string) (c : cache) : Prop := forall g r, cached g c = Some r -> r = plain s g.
Definition ok (a : attr) : Prop := forall c, a_cache a = Some c -> coherent (a_value a) c.

Lemma coherent_plain s g c : to_cache (plain s g) = Some c -> coherent s c.
Proof.
  unfold to_cache. intros H g' r C.
  destruct g; cbn [plain] in H;
  match type of H with match ?x with _ => _ end = _ => destruct x eqn:E end; inversion H; subst c;
  destruct g'; cbn [cached] in C; try discriminate; inversion C; cbn [plain]; rewrite E; auto.
Qed.

Lemma get_ok g a : ok a -> exists a', get g a = (a', plain (a_value a) g) /\ ok a' /\ a_value a' = a_value a.
Proof.
  intros O. destruct a as [s c]. assert (OK : ok (Attr s c)) by exact O. unfold ok in O. cbn [a_value a_cache] in *.
  assert (C : forall g r x, c = Some x -> cached g x = Some r -> r = plain s g).
  { intros g' r x E H. eapply O; eauto. }
  assert (K : forall g x, to_cache (plain s g) = Some x -> ok (Attr s (Some x))).
  { intros g' x H y E. cbn in *. inversion E; subst. eapply coherent_plain; eauto. }
  destruct g; cbn [get].
  - unfold as_bool. cbn [a_value a_cache].
    assert (REST : exists a', (let '(a', r) := match lex_bool s with
         | Some b => (Attr s c, Some b)
         | None => match conv_bool s with Some b => (Attr s (Some (CBool b)), Some b) | None => (Attr s c, None) end
         end in (a', @RBool D Vel r)) = (a', plain s GBool) /\ ok a' /\ a_value a' = s).
    { cbn [plain]. unfold conv_bool at 2. destruct (lex_bool s) as [b|] eqn:L; [eauto|].
      assert (CB := K GBool). cbn [plain] in CB. unfold conv_bool in *. rewrite L in *.
      destruct (_ || _); [eexists; split; [reflexivity|]; split; [apply CB; reflexivity|auto]|].
      destruct (_ || _); [eexists; split; [reflexivity|]; split; [apply CB; reflexivity|auto]|]. eauto. }
    destruct c as [[b|d|i|i|v]|]; auto.
    assert (E := C GBool _ _ eq_refl eq_refl). rewrite <- E. eauto.
  - unfold as_double. cbn [a_value a_cache]. assert (CB := K GDouble). cbn [plain to_cache] in *.
    destruct c as [[b|d|i|i|v]|]; try (assert (E := C GDouble _ _ eq_refl eq_refl); cbn [plain] in E; rewrite <- E; eauto; fail);
      destruct (lex_double s) as [d'|]; eexists; (split; [reflexivity|]); split; auto.
  - unfold as_id. cbn [a_value a_cache]. assert (CB := K GId). cbn [plain to_cache] in *.
    destruct c as [[b|d|i|i|v]|]; try (assert (E := C GId _ _ eq_refl eq_refl); cbn [plain] in E; rewrite <- E; eauto; fail);
      destruct (lex_id s) as [d'|]; eexists; (split; [reflexivity|]); split; auto.
  - unfold as_int. cbn [a_value a_cache]. assert (CB := K GInt). cbn [plain to_cache] in *.
    destruct c as [[b|d|i|i|v]|]; try (assert (E := C GInt _ _ eq_refl eq_refl); cbn [plain] in E; rewrite <- E; eauto; fail);
      destruct (lex_int s) as [d'|]; eexists; (split; [reflexivity|]); split; auto.
  - unfold as_velocity. cbn [a_value a_cache]. assert (CB := K GVel). cbn [plain to_cache] in CB.
    assert (CD := K GDouble). cbn [plain to_cache] in CD.
    assert (DD : exists a1, as_double lex_double (Attr s c) = (a1, lex_double s) /\ ok a1 /\ a_value a1 = s).
    { unfold as_double. cbn [a_value a_cache].
      destruct c as [[b|d|i|i|v]|];
        try (assert (E := C GDouble _ _ eq_refl eq_refl); cbn [plain] in E;
             assert (E' : lex_double s = Some d) by congruence; rewrite E'; eexists; split; [reflexivity|]; split; auto; fail);
        destruct (lex_double s) as [d'|]; eexists; (split; [reflexivity|]); split; auto. }
    assert (REST : exists a', (let '(a', r) :=
       let '(a1, d) := as_double lex_double (Attr s c) in
       match (match d with Some d => Some (kmh d) | None => unit_velocity (a_value a1) end) with
       | Some v => (Attr (a_value a1) (Some (CVel v)), Some v)
       | None => (a1, None)
       end in (a', RVel r)) = (a', plain s GVel) /\ ok a' /\ a_value a' = s).
    { destruct DD as (a1 & -> & O1 & V1). rewrite V1. cbn [plain].
      destruct (match lex_double s with Some d => Some (kmh d) | None => unit_velocity s end) as [v|].
      - eexists. split; [reflexivity|]. split; auto.
      - eexists. split; [reflexivity|]. split; auto. }
    destruct c as [[b|d|i|i|v]|]; auto.
    assert (E := C GVel _ _ eq_refl eq_refl). rewrite <- E. eauto.
Qed.

Theorem get_all_ok gs a : ok a -> get_all gs a = map (plain (a_value a)) gs.
Proof.
  revert a. induction gs as [|g gs IH]; intros a O; auto. cbn [AttrModel.get_all map].
  destruct (get_ok g a O) as (a' & -> & O' & E). rewrite IH, E; auto.
Qed.

Lemma ok_string s : ok (Attr s None).
Proof. intros c E. discriminate. Qed.

Lemma ok_cache s c g : cached g c = Some (plain s g) -> ok (Attr s (Some c)).
Proof.
  intros H x E. cbn [a_cache a_value] in *. inversion E; subst x. intros g' r C.
  destruct c, g, g'; cbn in *; try discriminate; congruence.
Qed.

Lemma bool_print (b : bool) : conv_bool (print_Z (if b then 1 else 0)) = Some b.
Proof. destruct b; reflexivity. Qed.

(** * Several threads *)
Notation shared := (shared D Vel). Notation thread := (thread D Vel).
Notation sstep := (sstep lex_double stod kmh mps mph).
Notation tstep := (tstep lex_double stod kmh mps mph).
Notation srun := (srun lex_double stod kmh mps mph).

Definition res_of (k : bool) (s : string) (g : getter) : Prop := k = true -> g = GDouble.
Definition pc_ok (s : string) (x : shared) (p : pc D Vel) : Prop :=
  match p with
  | PLoad g k | PHold g k _ | PRaw g k _ _ | PPtr g k _ | PConv g k => res_of k s g
  | PStore g k n r => res_of k s g /\ r = plain s g /\ n < s_next x
  | PStored g k _ r | PRet g k r => res_of k s g /\ r = plain s g
  | PIdle | PBad => True
  end.
Definition sh_ok (s : string) (x : shared) : Prop :=
  (forall n c, s_obj x n = Some c -> coherent s c) /\
  (forall t, In t (s_threads x) -> pc_ok s x (t_pc t) /\ forall g r, In (g, r) (t_out t) -> r = plain s g).

Lemma in_upd {A} i (a : A) l b : In b (upd i a l) -> b = a \/ In b l.
Proof.
  revert i. induction l as [|c l IH]; intros [|i]; simpl; auto.
  - intros [H|H]; auto.
  - intros [H|H]; auto. apply IH in H as [H|H]; auto.
Qed.

Lemma cached_pc s c g r : coherent s c -> cached g c = Some r -> r = plain s g.
Proof. intros H E. eapply H; eauto. Qed.

Lemma convert_plain s g : g <> GVel -> fst (convert lex_double stod kmh mps mph g s) = plain s g.
Proof. destruct g; simpl; congruence. Qed.

Lemma store_step_ok s g k x r st p o : res_of k s g -> r = plain s g ->
  store_step g k x r st = (p, o) ->
  (forall c, o = Some c -> coherent s c) /\
  (forall y : shared, s_next y = (match o with None => s_next x | Some _ => S (s_next x) end) -> pc_ok s y p).
Proof.
  intros R E H. unfold store_step in H. destruct (to_cache r) as [c|] eqn:T.
  - destruct st; inversion H; subst.
    + split.
      * intros c' [= <-]. eapply coherent_plain; eauto.
      * intros y Y. cbn [pc_ok]. split; auto. split; auto. rewrite Y. lia.
    + split; [discriminate|]. intros y _. cbn. auto.
  - inversion H; subst. split; [discriminate|]. intros y _. cbn. auto.
Qed.

Lemma pc_ok_mono s x y p : s_next x <= s_next y -> pc_ok s x p -> pc_ok s y p.
Proof. destruct p; cbn; auto. intros L (A & B & C). split; auto. split; auto. lia. Qed.

Lemma sstep_ok s x i : sh_ok s x -> sh_ok s (sstep s x i).
Proof.
  intros [O T]. unfold AttrModel.sstep. destruct (nth_error (s_threads x) i) as [t|] eqn:N; [|split; auto].
  assert (I := nth_error_In _ _ N). destruct (T t I) as [P Q].
  destruct (tstep s x t) as [[ptr o] t'] eqn:E.
  set (y := Shared _ _ _ _).
  assert (KEY : (forall c, o = Some c -> coherent s c) /\ pc_ok s y (t_pc t') /\
                (forall g r, In (g, r) (t_out t') -> r = plain s g)).
  { assert (STAY : forall p, (ptr, o, t') = (s_ptr x, None, Thread p (t_todo t) (t_out t)) -> pc_ok s y p ->
      (forall c, o = Some c -> coherent s c) /\ pc_ok s y (t_pc t') /\ (forall g r, In (g, r) (t_out t') -> r = plain s g)).
    { intros p H PK. inversion H; subst. cbn. split; [discriminate|]. auto. }
    rewrite <- E in STAY. unfold AttrModel.tstep in *. destruct (t_pc t) as [|g k|g k c|g k c p|g k p|g k|g k n r|g k n r|g k r|] eqn:PC; cbn [pc_ok] in P.
    - destruct (t_todo t) as [|g l] eqn:TD.
      + apply (STAY PIdle); cbn; auto.
      + inversion E; subst. cbn. split; [discriminate|]. split; auto. unfold res_of. discriminate.
    - destruct (s_ptr x); eapply STAY; eauto.
    - destruct (s_ptr x) as [p|]; [|apply (STAY PBad); cbn; auto].
      destruct (s_obj x p) as [v|]; [|apply (STAY PBad); cbn; auto].
      destruct (cached g v); eapply STAY; eauto.
    - eapply STAY; eauto.
    - destruct (alive x p); [|apply (STAY PBad); cbn; auto].
      destruct (s_obj x p) as [v|] eqn:OB; [|apply (STAY PBad); cbn; auto].
      destruct (cached g v) as [r|] eqn:CA; [|apply (STAY PBad); cbn; auto].
      apply (STAY (PRet g k r)); auto. cbn. split; auto. eapply cached_pc; eauto.
    - destruct g;
        try (match type of E with context [convert _ _ _ _ _ ?g0 _] =>
               destruct (convert lex_double stod kmh mps mph g0 s) as [r st] eqn:CV;
               destruct (store_step g0 k x r st) as [p o'] eqn:SS;
               inversion E; subst; cbn [t_pc t_out];
               assert (PL : r = plain s g0) by (rewrite <- convert_plain by congruence; rewrite CV; auto);
               destruct (store_step_ok s g0 k x r st p o P PL SS) as [A B];
               split; [exact A|split; [apply B; reflexivity|auto]]
             end).
      apply (STAY (PLoad GDouble true)); auto. cbn. unfold res_of. auto.
    - inversion E; subst. cbn. split; [discriminate|]. split; auto. tauto.
    - eapply STAY; eauto.
    - destruct P as [P1 P2]. destruct k.
      + assert (PV : match r with RDouble (Some d) => RVel (Some (kmh d)) | _ => RVel (unit_velocity s) end = plain s GVel).
        { subst r. rewrite (P1 eq_refl). cbn [plain]. destruct (lex_double s); auto. }
        revert PV E. generalize (match r with RDouble (Some d) => @RVel D Vel (Some (kmh d)) | _ => RVel (unit_velocity s) end).
        intros v PV E. cbv zeta in E. destruct (store_step GVel false x v true) as [p o'] eqn:SS.
        rename E into E'.
        injection E' as <- <- <-. cbn [t_pc t_out].
        destruct (store_step_ok s GVel false x v true p o' (fun H => match Bool.diff_false_true H with end) PV SS) as [A B].
        split; [exact A|]. split; [apply B; reflexivity|auto].
      + inversion E; subst. cbn. split; [discriminate|]. split; auto. intros g' r' IN.
        apply in_app_iff in IN as [IN|[IN|[]]]; auto. congruence.
    - eapply STAY; eauto. }
  destruct KEY as (K1 & K2 & K3). split.
  - intros n c H. subst y. cbn [s_obj] in H. destruct o as [c'|].
    + destruct (Nat.eqb n (s_next x)); [inversion H; subst; auto|]. eapply O; eauto.
    + eapply O; eauto.
  - intros t0 I0. subst y. cbn [s_threads] in I0. apply in_upd in I0 as [->|I0]; auto.
    destruct (T t0 I0) as [A B]. split; auto. eapply pc_ok_mono; [|eauto]. cbn. destruct o; lia.
Qed.

Lemma sstart_ok a calls : ok a -> sh_ok (a_value a) (sstart a calls).
Proof.
  intros O. split.
  - intros n c. cbn. destruct (Nat.eqb n 0); [|discriminate]. intros E. apply O; auto.
  - intros t I. cbn in I. apply in_map_iff in I as (gs & <- & _). cbn. split; auto. tauto.
Qed.

Theorem srun_ok a calls sched : ok a -> sh_ok (a_value a) (srun a calls sched).
Proof.
  intros O. unfold AttrModel.srun. assert (H := sstart_ok a calls O). revert H. generalize (sstart a calls).
  induction sched as [|i l IH]; intros x H; cbn; auto. apply IH. apply sstep_ok; auto.
Qed.

(** Outputs are results of the calls in order. *)
Definition progress (gs : list getter) (t : thread) : Prop :=
  match t_pc t with
  | PIdle => map fst (t_out t) ++ t_todo t = gs
  | PLoad g k | PHold g k _ | PRaw g k _ _ | PPtr g k _ | PConv g k | PStore g k _ _ | PStored g k _ _ | PRet g k _ =>
      map fst (t_out t) ++ (if k then GVel else g) :: t_todo t = gs
  | PBad => True
  end.

Lemma tstep_progress s x t gs : progress gs t ->
  progress gs (snd (tstep s x t)).
Proof.
  unfold progress, AttrModel.tstep. destruct (t_pc t) as [|g k|g k c|g k c p|g k p|g k|g k n r|g k n r|g k r|] eqn:PC; intros H; auto.
  - destruct (t_todo t) as [|g l] eqn:TD; cbn; rewrite ?TD; auto.
  - destruct (s_ptr x); cbn; auto.
  - destruct (s_ptr x) as [p|]; cbn; auto. destruct (s_obj x p) as [v|]; cbn; auto. destruct (cached g v); cbn; auto.
  - destruct (alive x p); cbn; auto. destruct (s_obj x p) as [v|]; cbn; auto. destruct (cached g v); cbn; auto.
  - destruct g; try (match goal with |- context [convert _ _ _ _ _ ?g0 _] =>
               destruct (convert lex_double stod kmh mps mph g0 s) as [r st];
               unfold store_step; destruct (to_cache r); [destruct st|]; cbn; auto end).
    cbn. destruct k; auto.
  - destruct k; cbn.
    + unfold store_step. match goal with |- context [to_cache ?r] => destruct (to_cache r) end; cbn; auto.
    + rewrite map_app, <- app_assoc. cbn. auto.
Qed.

(** A single reader, or readers that never store: no access to freed memory. *)
Definition settled (x : shared) (p : pc D Vel) : Prop :=
  match p with
  | PRaw g k c p => s_ptr x = Some p /\ exists v r, s_obj x p = Some v /\ cached g v = Some r
  | PPtr g k p => s_ptr x = Some p /\ exists v r, s_obj x p = Some v /\ cached g v = Some r
  | PHold g k c => s_ptr x = Some c
  | PBad => False
  | PStore _ _ n _ => n < s_next x /\ s_obj x n <> None
  | _ => True
  end.
Definition sh_live (x : shared) : Prop :=
  match s_ptr x with Some p => p < s_next x /\ s_obj x p <> None | None => True end.

Lemma alive_ptr (x : shared) p : s_ptr x = Some p -> alive x p = true.
Proof. intros E. unfold alive. rewrite E. cbn. rewrite Nat.eqb_refl. auto. Qed.

Lemma tstep_settled s x t ptr o t' : sh_live x -> settled x (t_pc t) -> tstep s x t = (ptr, o, t') ->
  let y := Shared ptr (match o with None => s_obj x | Some c => fun n => if Nat.eqb n (s_next x) then Some c else s_obj x n end)
             (match o with None => s_next x | Some _ => S (s_next x) end) [] in
  sh_live y /\ settled y (t_pc t').
Proof.
  intros L P E y.
  assert (STAY : forall p, (ptr, o, t') = (s_ptr x, None, Thread p (t_todo t) (t_out t)) -> settled x p ->
      sh_live y /\ settled y (t_pc t')).
  { intros p H PK. inversion H; subst ptr o t'. split; auto. }
  rewrite <- E in STAY.
  assert (STORE : forall g k r st p o', store_step g k x r st = (p, o') ->
     (ptr, o, t') = (s_ptr x, o', Thread p (t_todo t) (t_out t)) -> sh_live y /\ settled y (t_pc t')).
  { intros g k r st p o' SS H. inversion H; subst ptr o t'. unfold store_step in SS.
    assert (Y : sh_live y).
    { unfold sh_live in *. subst y. cbn. destruct (s_ptr x) as [q|]; auto. destruct L as [L1 L2].
      destruct o'; cbn; [|auto]. split; [lia|]. rewrite (proj2 (Nat.eqb_neq q (s_next x))) by lia. auto. }
    split; auto. destruct (to_cache r) as [c|]; [destruct st|]; inversion SS; subst; cbn; auto.
    split; [lia|]. rewrite Nat.eqb_refl. discriminate. }
  rewrite <- E in STORE.
  unfold AttrModel.tstep in *. destruct (t_pc t) as [|g k|g k c|g k c p|g k p|g k|g k n r|g k n r|g k r|] eqn:PC; cbn [settled] in P.
  - destruct (t_todo t) as [|g l] eqn:TD.
    + apply (STAY PIdle); cbn; auto.
    + inversion E; subst. split; cbn; auto.
  - destruct (s_ptr x) as [c|] eqn:SP; eapply STAY; eauto; cbn; auto.
  - rewrite P in *. destruct (s_obj x c) as [v|] eqn:SO.
    + destruct (cached g v) as [r|] eqn:CA; eapply STAY; eauto; cbn; auto. split; auto. exists v, r. auto.
    + exfalso. unfold sh_live in L. rewrite P in L. destruct L as [_ L]. congruence.
  - eapply STAY; eauto.
  - destruct P as (P1 & v & r & P2 & P3). rewrite (alive_ptr x p P1), P2, P3 in *. eapply STAY; eauto. cbn. auto.
  - destruct g; try (match type of E with context [convert _ _ _ _ _ ?g0 _] =>
             destruct (convert lex_double stod kmh mps mph g0 s) as [r st];
             destruct (store_step g0 k x r st) as [p o'] eqn:SS; eapply STORE; eauto end).
    eapply STAY; eauto; cbn; auto.
  - inversion E; subst. split; cbn; auto.
  - eapply STAY; eauto; cbn; auto.
  - destruct k.
    + match type of E with context [store_step GVel false x ?v true] =>
        destruct (store_step GVel false x v true) as [p o'] eqn:SS end. eapply STORE; eauto.
    + inversion E; subst. split; cbn; auto.
  - tauto.
Qed.

Theorem single_settled a gs sched :
  exists t, s_threads (srun a [gs] sched) = [t] /\ t_pc t <> PBad.
Proof.
  unfold AttrModel.srun.
  assert (H : exists t, s_threads (sstart a [gs]) = [t] /\ settled (sstart a [gs]) (t_pc t) /\ sh_live (sstart a [gs])).
  { eexists. split; [reflexivity|]. split; [cbn; auto|]. unfold sh_live. cbn. destruct (a_cache a); auto. split; auto. discriminate. }
  revert H. generalize (sstart a [gs]). induction sched as [|i l IH]; intros x (t & T & S & L).
  - exists t. split; auto. cbn. intros E. rewrite E in S. exact S.
  - cbn [fold_left]. apply IH. unfold AttrModel.sstep. rewrite T. destruct i as [|i].
    + cbn [nth_error]. destruct (tstep (a_value a) x t) as [[ptr o] t'] eqn:E.
      destruct (tstep_settled _ _ _ _ _ _ L S E) as [L' S']. cbn [upd].
      exists t'. split; [reflexivity|]. split.
      * destruct (t_pc t'); cbn in *; auto.
      * exact L'.
    + assert (nth_error [t] (Datatypes.S i) = None) as -> by (destruct i; auto). exists t. auto.
Qed.

(** Readers that never store. *)
Definition silent (c : option cache) (s : string) (g : getter) : Prop :=
  (exists x r, c = Some x /\ cached g x = Some r) \/
  (g <> GVel /\ (to_cache (plain s g) = None \/ snd (convert lex_double stod kmh mps mph g s) = false)).

Definition quiet (a : attr) (p : pc D Vel) : Prop :=
  match p with
  | PIdle => True
  | PLoad g k => k = false /\ silent (a_cache a) (a_value a) g
  | PHold g k c => k = false /\ c = 0 /\ silent (a_cache a) (a_value a) g /\ a_cache a <> None
  | PRaw g k _ p | PPtr g k p => k = false /\ p = 0 /\ exists x r, a_cache a = Some x /\ cached g x = Some r
  | PConv g k => k = false /\ g <> GVel /\ (to_cache (plain (a_value a) g) = None \/ snd (convert lex_double stod kmh mps mph g (a_value a)) = false)
  | PRet _ k _ => k = false
  | PStore _ _ _ _ | PStored _ _ _ _ | PBad => False
  end.
Definition sh_quiet (a : attr) (x : shared) : Prop :=
  s_ptr x = match a_cache a with Some _ => Some 0 | None => None end /\
  (forall n, s_obj x n = if Nat.eqb n 0 then a_cache a else None) /\
  forall t, In t (s_threads x) -> quiet a (t_pc t) /\ forall g, In g (t_todo t) -> silent (a_cache a) (a_value a) g.

Lemma sstep_quiet a x i : sh_quiet a x -> sh_quiet a (sstep (a_value a) x i).
Proof.
  intros (P & O & T). unfold AttrModel.sstep. destruct (nth_error (s_threads x) i) as [t|] eqn:N; [|split; auto].
  assert (I := nth_error_In _ _ N). destruct (T t I) as [Q R].
  destruct (tstep (a_value a) x t) as [[ptr o] t'] eqn:E.
  assert (KEY : ptr = s_ptr x /\ o = None /\ quiet a (t_pc t') /\ forall g, In g (t_todo t') -> silent (a_cache a) (a_value a) g).
  { assert (STAY : forall p, (ptr, o, t') = (s_ptr x, None, Thread p (t_todo t) (t_out t)) -> quiet a p ->
      ptr = s_ptr x /\ o = None /\ quiet a (t_pc t') /\ forall g, In g (t_todo t') -> silent (a_cache a) (a_value a) g).
    { intros p H PK. inversion H; subst. auto. }
    rewrite <- E in STAY. unfold AttrModel.tstep in *.
    destruct (t_pc t) as [|g k|g k c|g k c p|g k p|g k|g k n r|g k n r|g k r|] eqn:PC; cbn [quiet] in Q; try tauto.
    - destruct (t_todo t) as [|g l] eqn:TD.
      + apply (STAY PIdle); cbn; auto.
      + inversion E; subst. cbn. split; auto. split; auto. split; [split; auto; apply R; left; auto|].
        intros g' I'. apply R. right. auto.
    - destruct Q as [-> Q]. rewrite P in *. destruct (a_cache a) as [c|] eqn:CA.
      + eapply STAY; [reflexivity|]. cbn. rewrite ?CA. split; auto. split; auto. split; auto. discriminate.
      + eapply STAY; [reflexivity|]. cbn. split; auto. destruct Q as [(y & r & H & _)|Q]; [discriminate|auto].
    - destruct Q as (-> & -> & Q & NN). rewrite ?P in *. destruct (a_cache a) as [v|] eqn:CA; [|congruence].
      assert (O0 : s_obj x 0 = Some v) by (rewrite O; auto). rewrite O0 in *.
      destruct (cached g v) as [r|] eqn:CG.
      + eapply STAY; [reflexivity|]. cbn. split; auto. split; auto. exists v, r. auto.
      + eapply STAY; [reflexivity|]. cbn. split; auto. destruct Q as [(y & r & H & C)|Q]; auto. congruence.
    - destruct Q as (-> & -> & Q). eapply STAY; [reflexivity|]. cbn. auto.
    - destruct Q as (-> & -> & v & r & CA & CG). assert (AL : alive x 0 = true) by (apply alive_ptr; rewrite P, CA; auto).
      assert (O0 : s_obj x 0 = Some v) by (rewrite O, CA; auto).
      rewrite AL, O0, CG in *. eapply STAY; [reflexivity|]. cbn. auto.
    - destruct Q as (-> & NV & Q).
      assert (PL := convert_plain (a_value a) g NV).
      destruct (convert lex_double stod kmh mps mph g (a_value a)) as [r st] eqn:CV. cbn [fst snd] in *.
      assert (SS : store_step g false x r st = (PRet g false r, None)).
      { unfold store_step. subst r. destruct Q as [Q|Q]; rewrite Q; auto. destruct (to_cache _); auto. }
      assert (E' : (s_ptr x, None, Thread (PRet g false r) (t_todo t) (t_out t)) = (ptr, o, t')).
      { destruct g; try congruence; rewrite SS in E; auto. }
      inversion E'; subst. cbn. auto.
    - subst k. inversion E; subst. cbn. auto. }
  destruct KEY as (-> & -> & K1 & K2). split; auto. split; auto.
  intros t0 I0. cbn [s_threads] in I0. apply in_upd in I0 as [->|I0]; auto.
Qed.

Theorem srun_quiet a calls sched : (forall gs g, In gs calls -> In g gs -> silent (a_cache a) (a_value a) g) ->
  forall t, In t (s_threads (srun a calls sched)) -> t_pc t <> PBad.
Proof.
  intros S. assert (H : sh_quiet a (srun a calls sched)).
  { unfold AttrModel.srun. assert (H : sh_quiet a (sstart a calls)).
    { split; [reflexivity|]. split; [reflexivity|]. intros t I. cbn in I. apply in_map_iff in I as (gs & <- & I).
      cbn. split; auto. intros g G. eapply S; eauto. }
    revert H. generalize (sstart a calls). induction sched as [|i l IH]; intros x H; cbn; auto.
    apply IH. apply sstep_quiet; auto. }
  intros t I E. destruct H as (_ & _ & H). apply H in I as [I _]. rewrite E in I. exact I.
Qed.

(** Progress over whole runs. *)
Lemma nth_upd {A} (d : A) l : forall i j (a : A), nth_error (upd i a l) j =
  if Nat.eqb i j then (match nth_error l j with Some _ => Some a | None => None end) else nth_error l j.
Proof.
  induction l as [|b l IH]; intros [|i] [|j] a; simpl; auto. destruct (Nat.eqb i j); auto.
Qed.

Theorem srun_progress a calls sched i t gs : nth_error (s_threads (srun a calls sched)) i = Some t ->
  nth_error calls i = Some gs -> progress gs t.
Proof.
  unfold AttrModel.srun.
  assert (H : forall t, nth_error (s_threads (sstart (D:=D) (Vel:=Vel) a calls)) i = Some t -> nth_error calls i = Some gs -> progress gs t).
  { intros t0 H C. cbn in H. rewrite nth_error_map, C in H. inversion H; subst. cbn. auto. }
  revert H. revert t. generalize (sstart (D:=D) (Vel:=Vel) a calls). induction sched as [|j l IH]; intros x t H N C; cbn in *; [eauto|].
  eapply IH; [|exact N|exact C]. intros t0 N0 _. unfold AttrModel.sstep in N0.
  destruct (nth_error (s_threads x) j) as [t1|] eqn:N1; [|eauto].
  assert (TP := tstep_progress (a_value a) x t1).
  destruct (tstep (a_value a) x t1) as [[ptr o] t'] eqn:E. cbn [s_threads snd] in *.
  rewrite (nth_upd t1) in N0. destruct (Nat.eqb j i) eqn:J; [|eauto].
  apply Nat.eqb_eq in J. subst j. rewrite N1 in N0. inversion N0; subst. apply TP. eauto.
Qed.
End Attribute.
