From Coq Require Import ZArith List Bool Lia ZifyBool Permutation.
From Verif Require Import IdModel IdSpec.
Import ListNotations.
Open Scope Z_scope.

Lemma nth_error_set_nth_eq {A} n (x : A) l y :
  nth_error l n = Some y -> nth_error (set_nth n x l) n = Some x.
Proof. revert n; induction l; intros [|n]; simpl; intros; try discriminate; auto. Qed.

Lemma nth_error_set_nth_ne {A} n m (x : A) l :
  n <> m -> nth_error (set_nth n x l) m = nth_error l m.
Proof. revert n m; induction l; intros [|n] [|m]; simpl; intros; try congruence; auto. Qed.

Lemma NoDup_app_l {A} (l l' : list A) : NoDup (l ++ l') -> NoDup l.
Proof.
  induction l; simpl; [constructor|]. inversion 1; subst. constructor; auto.
  intros ?; apply H2, in_or_app; auto.
Qed.

(** ** Bookkeeping for the range precondition *)
Definition phase_gets (p : phase) : Z := match p with InGet => 1 | _ => 0 end.
Definition thread_gets (th : thread) : Z := count_gets (th_todo th) + phase_gets (th_phase th).
Fixpoint open_gets (ths : list thread) : Z :=
  match ths with [] => 0 | th :: r => thread_gets th + open_gets r end.

Definition phase_regs (p : phase) : list Z :=
  match p with InReg x => [x] | RegLoop x n _ => [x] | _ => [] end.

Definition pending_reg (ths : list thread) (x : Z) : Prop :=
  exists t th, nth_error ths t = Some th /\
    (In (RegisterId x) (th_todo th) \/ In x (phase_regs (th_phase th))).

Lemma count_gets_nonneg p : 0 <= count_gets p.
Proof. unfold count_gets; lia. Qed.
Lemma count_gets_cons_get p : count_gets (GetId :: p) = 1 + count_gets p.
Proof. unfold count_gets; cbn [filter length]; lia. Qed.
Lemma count_gets_cons_reg x p : count_gets (RegisterId x :: p) = count_gets p.
Proof. reflexivity. Qed.
Lemma count_gets_app p q : count_gets (p ++ q) = count_gets p + count_gets q.
Proof. unfold count_gets. rewrite filter_app, app_length. lia. Qed.

Lemma thread_gets_nonneg th : 0 <= thread_gets th.
Proof. unfold thread_gets. pose proof (count_gets_nonneg (th_todo th)). destruct (th_phase th); simpl; lia. Qed.
Lemma open_gets_nonneg ths : 0 <= open_gets ths.
Proof. induction ths; simpl; [lia|]. pose proof (thread_gets_nonneg a). lia. Qed.

Lemma open_gets_set t th th' ths :
  nth_error ths t = Some th ->
  open_gets (set_nth t th' ths) = open_gets ths - thread_gets th + thread_gets th'.
Proof.
  revert t; induction ths; intros [|t]; simpl; intros H; try discriminate.
  - injection H as ->. lia.
  - rewrite (IHths _ H). lia.
Qed.

Lemma open_gets_ge t th ths : nth_error ths t = Some th -> thread_gets th <= open_gets ths.
Proof.
  revert t; induction ths; intros [|t]; simpl; intros H; try discriminate.
  - injection H as ->. pose proof (open_gets_nonneg ths). lia.
  - pose proof (IHths _ H). pose proof (thread_gets_nonneg a). lia.
Qed.

(** ** Values in flight *)
Definition phase_ids (p : phase) : list Z := match p with GotId v => [v] | _ => [] end.
Fixpoint flight (ths : list thread) : list Z :=
  match ths with [] => [] | th :: r => phase_ids (th_phase th) ++ flight r end.

Lemma get_results_app a b : get_results (a ++ b) = get_results a ++ get_results b.
Proof. induction a as [|[]]; simpl; congruence. Qed.

Lemma flight_set t th th' ths :
  nth_error ths t = Some th ->
  Permutation (phase_ids (th_phase th) ++ flight (set_nth t th' ths))
              (phase_ids (th_phase th') ++ flight ths).
Proof.
  revert t; induction ths; intros [|t]; simpl; intros H; try discriminate.
  - injection H as ->. rewrite !app_assoc. apply Permutation_app_tail, Permutation_app_comm.
  - specialize (IHths _ H).
    rewrite !app_assoc.
    rewrite (Permutation_app_comm _ (phase_ids (th_phase a))).
    rewrite (Permutation_app_comm (phase_ids (th_phase th')) (phase_ids (th_phase a))).
    rewrite <- !app_assoc. now apply Permutation_app_head.
Qed.

Definition all_ids (s : state) : list Z := get_results (st_trace s) ++ flight (st_threads s).

(** Lower bound an event puts on later ids. *)
Definition bound (e : event) : option Z :=
  match e with RetReg _ x => Some x | RetGet _ v => Some v | _ => None end.

Definition phase_bound (p : phase) : option Z :=
  match p with GotId v => Some v | RegDone x => Some x | _ => None end.

Record inv (G : Z) (s : state) : Prop := {
  inv_ub : st_ub s = false;
  inv_lo : first_id <= st_cell s;
  inv_hi : st_cell s + open_gets (st_threads s) <= id_max;
  inv_G : open_gets (st_threads s) <= G;
  inv_reg : forall x, pending_reg (st_threads s) x -> - 2^63 <= x /\ x + 1 + G <= id_max;
  inv_loop : forall t th x n cur, nth_error (st_threads s) t = Some th ->
      th_phase th = RegLoop x n cur -> n = x + 1 /\ cur <= st_cell s;
  inv_dup : NoDup (all_ids s);
  inv_ids : Forall (fun v => first_id <= v < st_cell s) (all_ids s);
  inv_bound : forall e b, In e (st_trace s) -> bound e = Some b -> b < st_cell s;
  inv_phase : forall t th b, nth_error (st_threads s) t = Some th ->
      phase_bound (th_phase th) = Some b -> b < st_cell s;
  inv_open : forall pre e b mid1 t' mid2,
      st_trace s = pre ++ e :: mid1 ++ InvGet t' :: mid2 -> silent t' mid2 ->
      bound e = Some b ->
      exists th, nth_error (st_threads s) t' = Some th /\
        (th_phase th = InGet \/ exists v, th_phase th = GotId v /\ b < v);
  inv_done : forall pre e b mid1 t' mid2 v post,
      st_trace s = pre ++ e :: mid1 ++ InvGet t' :: mid2 ++ RetGet t' v :: post ->
      silent t' mid2 -> bound e = Some b -> b < v
}.

Lemma wrap64_id z : first_id <= z <= id_max -> wrap64 z = z.
Proof.
  unfold wrap64, first_id, id_max. intros H.
  rewrite Z.mod_small; [lia|]. split; [lia|].
  replace (2^64) with (2 * 2^63) by reflexivity. lia.
Qed.

Lemma snoc_inv {A} (l l' : list A) x y : l ++ [x] = l' ++ [y] -> l = l' /\ x = y.
Proof. apply app_inj_tail. Qed.

(** Splitting [tr ++ [ev]] at an open getId. *)
Lemma split_open tr ev pre e mid1 t' mid2 :
  tr ++ [ev] = pre ++ e :: mid1 ++ InvGet t' :: mid2 ->
  (mid2 = [] /\ ev = InvGet t' /\ tr = pre ++ e :: mid1) \/
  (exists m, mid2 = m ++ [ev] /\ tr = pre ++ e :: mid1 ++ InvGet t' :: m).
Proof.
  intros H. induction mid2 as [|a m _] using rev_ind.
  - left. split; auto.
    replace (pre ++ e :: mid1 ++ [InvGet t']) with ((pre ++ e :: mid1) ++ [InvGet t']) in H
      by (rewrite <- app_assoc; reflexivity).
    apply snoc_inv in H as [-> ->]; auto.
  - right.
    replace (pre ++ e :: mid1 ++ InvGet t' :: m ++ [a])
      with ((pre ++ e :: mid1 ++ InvGet t' :: m) ++ [a]) in H
      by (repeat (rewrite <- app_assoc; simpl); reflexivity).
    apply snoc_inv in H as [-> ->]. eauto.
Qed.

Lemma split_done tr ev pre e mid1 t' mid2 v post :
  tr ++ [ev] = pre ++ e :: mid1 ++ InvGet t' :: mid2 ++ RetGet t' v :: post ->
  (post = [] /\ ev = RetGet t' v /\ tr = pre ++ e :: mid1 ++ InvGet t' :: mid2) \/
  (exists p, tr = pre ++ e :: mid1 ++ InvGet t' :: mid2 ++ RetGet t' v :: p).
Proof.
  intros H. induction post as [|a m _] using rev_ind.
  - left. split; auto.
    replace (pre ++ e :: mid1 ++ InvGet t' :: mid2 ++ [RetGet t' v])
      with ((pre ++ e :: mid1 ++ InvGet t' :: mid2) ++ [RetGet t' v]) in H
      by (repeat (rewrite <- app_assoc; simpl); reflexivity).
    apply snoc_inv in H as [-> ->]; auto.
  - right. exists m.
    replace (pre ++ e :: mid1 ++ InvGet t' :: mid2 ++ RetGet t' v :: m ++ [a])
      with ((pre ++ e :: mid1 ++ InvGet t' :: mid2 ++ RetGet t' v :: m) ++ [a]) in H
      by (repeat (rewrite <- app_assoc; simpl); reflexivity).
    apply snoc_inv in H as [-> ->]. reflexivity.
Qed.

Lemma silent_snoc t m e : silent t (m ++ [e]) -> silent t m /\ ev_thread e <> t.
Proof. unfold silent. rewrite Forall_app. intros [? H]. inversion H; auto. Qed.

(** Preservation, generic in the local update. *)
Lemma inv_update G s t th c todo ph ev :
  inv G s ->
  nth_error (st_threads s) t = Some th ->
  (forall e, In e ev -> ev_thread e = t) ->
  (length ev <= 1)%nat ->
  st_cell s <= c ->
  c + open_gets (st_threads s) - thread_gets th + thread_gets (Thread todo ph) <= id_max ->
  thread_gets (Thread todo ph) <= thread_gets th ->
  (forall x, In (RegisterId x) todo \/ In x (phase_regs ph) ->
             In (RegisterId x) (th_todo th) \/ In x (phase_regs (th_phase th))) ->
  (forall x n cur, ph = RegLoop x n cur -> n = x + 1 /\ cur <= c) ->
  NoDup (get_results (st_trace s ++ ev) ++ flight (set_nth t (Thread todo ph) (st_threads s))) ->
  Forall (fun v => first_id <= v < c) (get_results (st_trace s ++ ev) ++ flight (set_nth t (Thread todo ph) (st_threads s))) ->
  (forall e b, In e ev -> bound e = Some b -> b < c) ->
  (forall b, phase_bound ph = Some b -> b < c) ->
  (* phases and events fit *)
  match ev with
  | [] => (th_phase th = InGet /\ ph = GotId (st_cell s)) \/
          (th_phase th <> InGet /\ forall v, th_phase th <> GotId v)
  | [InvGet _] => ph = InGet
  | [RetGet _ v] => th_phase th = GotId v
  | _ => th_phase th <> InGet /\ forall v, th_phase th <> GotId v
  end ->
  inv G (State c (set_nth t (Thread todo ph) (st_threads s)) (st_trace s ++ ev) (st_ub s)).
Proof.
  intros I Hth Hevt Hlen Hc Hhi Hg Hreg Hloop Hdup Hids Hbnd Hph Hfit.
  pose proof (open_gets_set t th (Thread todo ph) _ Hth) as Hog.
  assert (Hself : nth_error (set_nth t (Thread todo ph) (st_threads s)) t = Some (Thread todo ph))
    by eauto using nth_error_set_nth_eq.
  assert (Hopen : forall pre e b mid1 t' mid2,
      st_trace s ++ ev = pre ++ e :: mid1 ++ InvGet t' :: mid2 -> silent t' mid2 ->
      bound e = Some b ->
      exists th0, nth_error (set_nth t (Thread todo ph) (st_threads s)) t' = Some th0 /\
        (th_phase th0 = InGet \/ exists v, th_phase th0 = GotId v /\ b < v)).
  { intros pre e b mid1 t' mid2 Htr Hs Hb.
    destruct ev as [|e0 ev0].
    - rewrite app_nil_r in Htr. destruct (inv_open _ _ I _ _ _ _ _ _ Htr Hs Hb) as (th0 & Hth0 & Hp).
      destruct (Nat.eq_dec t t') as [<-|Hne].
      + rewrite Hth in Hth0. injection Hth0 as <-. exists (Thread todo ph). split; auto.
        destruct Hfit as [[Hi Hgot]|[Hni Hng]].
        * right. exists (st_cell s). simpl. split; auto.
          eapply (inv_bound _ _ I e b); eauto. rewrite Htr. apply in_or_app; right; left; auto.
        * destruct Hp as [Hp|[v [Hp _]]]; [contradiction|]. destruct (Hng _ Hp).
      + exists th0. rewrite nth_error_set_nth_ne by auto. auto.
    - destruct ev0; [|simpl in Hlen; lia].
      assert (Et : ev_thread e0 = t) by (apply Hevt; left; auto).
      destruct (split_open _ _ _ _ _ _ _ Htr) as [(-> & -> & Htr')|(m & -> & Htr')].
      + simpl in Et. subst t'. exists (Thread todo ph). split; auto.
      + apply silent_snoc in Hs as [Hs Hne].
        destruct (inv_open _ _ I _ _ _ _ _ _ Htr' Hs Hb) as (th0 & Hth0 & Hp).
        exists th0. rewrite nth_error_set_nth_ne by congruence. auto. }
  constructor; simpl; auto.
  - apply (inv_ub _ _ I).
  - pose proof (inv_lo _ _ I). lia.
  - rewrite Hog. lia.
  - rewrite Hog. pose proof (inv_G _ _ I). lia.
  - intros x (t0 & th0 & H0 & H1). apply (inv_reg _ _ I).
    destruct (Nat.eq_dec t t0) as [<-|Hne].
    + rewrite Hself in H0. injection H0 as <-. exists t, th. split; auto.
    + rewrite nth_error_set_nth_ne in H0 by auto. exists t0, th0; auto.
  - intros t0 th0 x n cur H0 H1. destruct (Nat.eq_dec t t0) as [<-|Hne].
    + rewrite Hself in H0. injection H0 as <-. eapply Hloop; eauto.
    + rewrite nth_error_set_nth_ne in H0 by auto.
      destruct (inv_loop _ _ I _ _ _ _ _ H0 H1). split; [auto|lia].
  - intros e b He Hb. apply in_app_or in He as [He|He]; eauto.
    pose proof (inv_bound _ _ I _ _ He Hb). lia.
  - intros t0 th0 b H0 H1. destruct (Nat.eq_dec t t0) as [<-|Hne].
    + rewrite Hself in H0. injection H0 as <-. auto.
    + rewrite nth_error_set_nth_ne in H0 by auto. pose proof (inv_phase _ _ I _ _ _ H0 H1). lia.
  - intros pre e b mid1 t' mid2 v post Htr Hs Hb.
    destruct ev as [|e0 ev0].
    + rewrite app_nil_r in Htr. eapply (inv_done _ _ I); eauto.
    + destruct ev0; [|simpl in Hlen; lia].
      destruct (split_done _ _ _ _ _ _ _ _ _ Htr) as [(-> & -> & Htr')|(p & Htr')].
      * assert (Et : t' = t) by (apply (Hevt (RetGet t' v)); left; auto). subst t'.
        destruct (inv_open _ _ I _ _ _ _ _ _ Htr' Hs Hb) as (th0 & Hth0 & Hp).
        rewrite Hth in Hth0. injection Hth0 as <-. simpl in Hfit.
        destruct Hp as [Hp|[v' [Hp Hlt]]]; rewrite Hp in Hfit; congruence.
      * eapply (inv_done _ _ I); eauto.
Qed.

Lemma perm_same t th todo ph ths :
  nth_error ths t = Some th -> phase_ids (th_phase th) = [] -> phase_ids ph = [] ->
  Permutation (flight (set_nth t (Thread todo ph) ths)) (flight ths).
Proof.
  intros H H1 H2. pose proof (flight_set t th (Thread todo ph) ths H) as P.
  simpl in P. rewrite H1, H2 in P. exact P.
Qed.

Ltac fin I :=
  simpl; try reflexivity; try lia;
  try (intros e [<-|[]]; reflexivity);
  try (unfold thread_gets; simpl; rewrite ?count_gets_cons_get, ?count_gets_cons_reg; lia);
  try (intros y [?|[]]; auto; fail);
  try (intros y [?|[<-|[]]]; auto; fail);
  try discriminate;
  try (intros ? ? ? [= <- <- <-]; lia);
  try (intros e b [<-|[]]; simpl; (discriminate || (intros [= <-]; eapply (inv_phase _ _ I); eauto; fail)));
  try (intros b [= <-]; lia);
  try (split; [|intros ?v]; discriminate);
  try (right; split; [|intros ?v]; discriminate);
  try (rewrite get_results_app; simpl; rewrite app_nil_r;
       eapply Permutation_NoDup; [apply Permutation_app_head; symmetry; eapply perm_same; eauto|];
       apply (inv_dup _ _ I));
  try (rewrite get_results_app; simpl; rewrite app_nil_r;
       eapply Permutation_Forall; [apply Permutation_app_head; symmetry; eapply perm_same; eauto|];
       apply (inv_ids _ _ I));
  try (rewrite app_nil_r;
       eapply Permutation_NoDup; [apply Permutation_app_head; symmetry; eapply perm_same; eauto|];
       apply (inv_dup _ _ I));
  try (rewrite app_nil_r;
       eapply Permutation_Forall; [apply Permutation_app_head; symmetry; eapply perm_same; eauto|];
       eapply Forall_impl; [|apply (inv_ids _ _ I)]; simpl; lia).

Lemma inv_step G s sp : inv G s -> inv G (step s sp).
Proof.
  intros I. destruct sp as [t sp]. unfold step.
  destruct (nth_error (st_threads s) t) as [th|] eqn:Hth; [|exact I].
  pose proof (open_gets_ge _ _ _ Hth) as Hge.
  pose proof (inv_hi _ _ I) as Hhi. pose proof (inv_lo _ _ I) as Hlo.
  pose proof (open_gets_nonneg (st_threads s)) as Hnn.
  pose proof (count_gets_nonneg (th_todo th)) as Hcn.
  destruct th as [todo ph]. simpl in *.
  destruct ph as [| |v|x|x n cur|x].
  - destruct todo as [|[|x] rest]; [exact I| |];
      (eapply inv_update; [exact I|exact Hth|..]; fin I).
  - (* InGet *)
    assert (Hw : wrap64 (st_cell s + 1) = st_cell s + 1).
    { apply wrap64_id. unfold thread_gets in Hge; simpl in Hge. lia. }
    rewrite Hw.
    assert (HP : Permutation (flight (set_nth t (Thread todo (GotId (st_cell s))) (st_threads s)))
                   (st_cell s :: flight (st_threads s))).
    { exact (flight_set _ _ (Thread todo (GotId (st_cell s))) _ Hth). }
    eapply inv_update; [exact I|exact Hth|..]; fin I.
    + rewrite app_nil_r.
      eapply Permutation_NoDup; [apply Permutation_app_head; symmetry; exact HP|].
      eapply Permutation_NoDup; [apply Permutation_middle|].
      constructor; [|apply (inv_dup _ _ I)].
      intros Hin. pose proof (inv_ids _ _ I) as HF. rewrite Forall_forall in HF.
      specialize (HF _ Hin). lia.
    + rewrite app_nil_r.
      eapply Permutation_Forall; [apply Permutation_app_head; symmetry; exact HP|].
      eapply Permutation_Forall; [apply Permutation_middle|].
      constructor; [lia|]. eapply Forall_impl; [|apply (inv_ids _ _ I)]. simpl; lia.
    + left. split; auto.
  - (* GotId v *)
    pose proof (flight_set _ _ (Thread todo Idle) _ Hth) as HP. simpl in HP.
    eapply inv_update; [exact I|exact Hth|..]; fin I.
    + rewrite get_results_app; simpl. rewrite <- app_assoc; simpl.
      eapply Permutation_NoDup; [apply Permutation_app_head; symmetry; exact HP|].
      apply (inv_dup _ _ I).
    + rewrite get_results_app; simpl. rewrite <- app_assoc; simpl.
      eapply Permutation_Forall; [apply Permutation_app_head; symmetry; exact HP|].
      apply (inv_ids _ _ I).
  - (* InReg *)
    destruct (x =? id_max) eqn:Hx.
    { exfalso. assert (Hp : pending_reg (st_threads s) x).
      { exists t, (Thread todo (InReg x)). split; auto. right; left; auto. }
      apply (inv_reg _ _ I) in Hp. pose proof (inv_G _ _ I). lia. }
    eapply inv_update; [exact I|exact Hth|..]; fin I.
  - (* RegLoop *)
    destruct (inv_loop _ _ I _ _ _ _ _ Hth eq_refl) as [-> Hcur].
    assert (Hp : pending_reg (st_threads s) x).
    { exists t, (Thread todo (RegLoop x (x+1) cur)). split; auto. right; left; auto. }
    apply (inv_reg _ _ I) in Hp. pose proof (inv_G _ _ I) as HG.
    destruct (cur <? x + 1) eqn:Hlt; [destruct ((st_cell s =? cur) && negb sp) eqn:Hcas|];
      (eapply inv_update; [exact I|exact Hth|..]; fin I).
  - (* RegDone *)
    eapply inv_update; [exact I|exact Hth|..]; fin I.
Qed.

Lemma inv_run G sched s : inv G s -> inv G (run s sched).
Proof. revert s; induction sched; simpl; auto using inv_step. Qed.

Lemma open_gets_init progs :
  open_gets (map (fun p => Thread p Idle) progs) = count_gets (concat progs).
Proof.
  induction progs; simpl; [reflexivity|].
  rewrite count_gets_app, IHprogs. unfold thread_gets; simpl; lia.
Qed.

Lemma flight_init progs : flight (map (fun p => Thread p Idle) progs) = [].
Proof. induction progs; simpl; auto. Qed.

Lemma nth_error_init progs t th :
  nth_error (map (fun p => Thread p Idle) progs) t = Some th ->
  th_phase th = Idle /\ forall c, In c (th_todo th) -> In c (concat progs).
Proof.
  revert t; induction progs; intros [|t]; simpl; intros H; try discriminate.
  - injection H as <-; simpl. split; auto. intros; apply in_or_app; auto.
  - destruct (IHprogs _ H). split; auto. intros; apply in_or_app; auto.
Qed.

Lemma inv_init progs : in_range progs -> inv (count_gets (concat progs)) (init progs).
Proof.
  intros H. unfold in_range in H; cbv zeta in H. destruct H as [H1 H2].
  constructor; unfold init; cbn [st_cell st_threads st_trace st_ub]; auto.
  - lia.
  - rewrite open_gets_init. lia.
  - rewrite open_gets_init. lia.
  - intros x (t & th & Hth & Hx). apply nth_error_init in Hth as [Hp Hin].
    rewrite Hp in Hx. destruct Hx as [Hx|[]]. apply H2; auto.
  - intros t th x n cur Hth Hp. apply nth_error_init in Hth as [Hi _]. congruence.
  - unfold all_ids; simpl. rewrite flight_init. constructor.
  - unfold all_ids; simpl. rewrite flight_init. constructor.
  - intros ? ? [].
  - intros t th b Hth Hp. apply nth_error_init in Hth as [Hi _]. rewrite Hi in Hp. discriminate.
  - intros [|] ? ? ? ? ?; discriminate.
  - intros [|] ? ? ? ? ? ? ?; discriminate.
Qed.

Lemma run_inv progs sched :
  in_range progs -> inv (count_gets (concat progs)) (run (init progs) sched).
Proof. intros. apply inv_run, inv_init; auto. Qed.

Lemma ids_ok progs sched : in_range progs ->
  let s := run (init progs) sched in
  st_ub s = false /\ ids_distinct (st_trace s) /\ ids_valid (st_trace s) /\
  register_respected (st_trace s) /\ gets_increase (st_trace s).
Proof.
  intros H. pose proof (run_inv progs sched H) as I. simpl. repeat split.
  - apply (inv_ub _ _ I).
  - pose proof (inv_dup _ _ I) as D. unfold ids_distinct. unfold all_ids in D.
    now apply NoDup_app_l in D.
  - pose proof (inv_ids _ _ I) as D. unfold ids_valid. unfold all_ids in D.
    apply Forall_app in D as [D _]. eapply Forall_impl; [|exact D]. unfold first_id; simpl; lia.
  - intros pre t x mid1 t' mid2 v post Htr Hs. eapply (inv_done _ _ I); eauto.
  - intros pre t x mid1 t' mid2 v post Htr Hs. eapply (inv_done _ _ I); eauto.
Qed.

Lemma set_nth_set_nth {A} n (x y : A) l : set_nth n y (set_nth n x l) = set_nth n y l.
Proof. revert n; induction l; intros [|n]; simpl; auto. f_equal; auto. Qed.

(** An undisturbed registerId finishes in four steps and raises the counter. *)
Lemma register_solo s t x rest :
  nth_error (st_threads s) t = Some (Thread (RegisterId x :: rest) Idle) ->
  x <> id_max ->
  run s (repeat (t, false) 4) =
  State (Z.max (st_cell s) (x + 1)) (set_nth t (Thread rest Idle) (st_threads s))
        (st_trace s ++ [InvReg t x; RetReg t x]) (st_ub s).
Proof.
  intros Hth Hx. unfold run. cbn [repeat fold_left].
  assert (E : forall th, nth_error (set_nth t th (st_threads s)) t = Some th)
    by (intros; eapply nth_error_set_nth_eq; eauto).
  unfold step at 4. rewrite Hth. cbn [th_phase th_todo].
  unfold step at 3. cbn [st_threads]. rewrite E. cbn [th_phase th_todo st_cell st_threads st_trace st_ub].
  destruct (Z.eqb_spec x id_max); [contradiction|].
  unfold step at 2. cbn [st_threads]. rewrite set_nth_set_nth, E.
  cbn [th_phase th_todo st_cell st_threads st_trace st_ub].
  rewrite Z.eqb_refl. cbn [negb andb].
  destruct (st_cell s <? x + 1) eqn:Hlt; unfold step; cbn [st_threads]; rewrite set_nth_set_nth, E;
    cbn [th_phase th_todo st_cell st_threads st_trace st_ub];
    rewrite set_nth_set_nth, ?app_nil_r, <- ?app_assoc; cbn [app]; f_equal; lia.
Qed.

Lemma registered_not_reissued x sched v : - 2^63 <= x -> x + 2 <= id_max ->
  let s := run (init [[RegisterId x; GetId]]) sched in
  st_ub s = false /\
  (st_trace s = [InvReg 0 x; RetReg 0 x; InvGet 0; RetGet 0 v] -> v > x).
Proof.
  intros H1 H2. cbv zeta.
  assert (R : in_range [[RegisterId x; GetId]]).
  { split; [vm_compute; discriminate|]. intros y Hy. cbn in Hy.
    destruct Hy as [[= <-]|[H|[]]]; [|discriminate].
    change (count_gets (concat [[RegisterId x; GetId]])) with 1. split; [exact H1|].
    replace (x + 1 + 1) with (x + 2) by (rewrite <- Z.add_assoc; reflexivity). exact H2. }
  destruct (ids_ok _ sched R) as (U & _ & _ & RR & _). split; [exact U|].
  intros Htr. apply Z.lt_gt.
  exact (RR [InvReg 0%nat x] 0%nat x [] 0%nat [] v [] Htr (Forall_nil _)).
Qed.
