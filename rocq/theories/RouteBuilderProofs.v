(** Searches of the route builder: breadth first and depth first. *)
From Coq Require Import NArith List Bool Arith Lia Relations.
From Verif Require Import CostAlg GraphModel RouteSpec RouteBuilderModel.
Import ListNotations.
Local Open Scope nat_scope.

Lemma mem_in v l : mem v l = true <-> In v l.
Proof.
  unfold mem. rewrite existsb_exists. split.
  - intros (x & H & E). apply Nat.eqb_eq in E. congruence.
  - intros H. exists v. split; auto. apply Nat.eqb_refl.
Qed.
Lemma mem_out v l : mem v l = false <-> ~ In v l.
Proof. rewrite <- mem_in. destruct (mem v l); split; congruence. Qed.
Lemma NoDup_app {T} (l l' : list T) : NoDup l -> NoDup l' -> (forall x, In x l -> ~ In x l') -> NoDup (l ++ l').
Proof.
  induction l as [|a l IH]; simpl; auto. intros H1 H2 H3. apply NoDup_cons_iff in H1 as [Ha H1]. constructor.
  - intros H. apply in_app_or in H as [H|H]; [auto|]. apply (H3 a); auto.
  - apply IH; auto.
Qed.
Lemma bounded_length n (l : list nat) : NoDup l -> (forall x, In x l -> x < n) -> length l <= n.
Proof.
  intros H1 H2. rewrite <- (seq_length n 0). apply NoDup_incl_length; auto.
  intros x Hx. apply in_seq. specialize (H2 x Hx). lia.
Qed.
Lemma unseen_spec l : forall seen, NoDup (unseen seen l) /\ forall x, In x (unseen seen l) <-> In x l /\ ~ In x seen.
Proof.
  induction l as [|t r IH]; intros seen; simpl.
  - split; [constructor|tauto].
  - destruct (mem t seen) eqn:E.
    + apply mem_in in E. destruct (IH seen) as [H1 H2]. split; auto. intros x. rewrite H2. intuition (subst; tauto).
    + apply mem_out in E. destruct (IH (t :: seen)) as [H1 H2]. split.
      * constructor; auto. rewrite H2. simpl. tauto.
      * intros x. simpl. rewrite H2. simpl. destruct (Nat.eq_dec t x); subst; tauto.
Qed.

(** * Breadth first search *)
Section Bfs.
Variable next : nat -> list nat.
Variable n : nat.
Hypothesis Hnext : forall u t, u < n -> In t (next u) -> t < n.
Notation step := (fun u t => In t (next u)).

Lemma bfs_loop_spec fuel : forall queue seen,
  NoDup queue -> NoDup seen -> incl queue seen -> (forall x, In x seen -> x < n) -> length queue + n <= fuel + length seen ->
  exists l, bfs_loop next fuel queue seen = Some l /\ NoDup l /\ incl queue l /\
    (forall x, In x l -> In x seen -> In x queue) /\ (forall x, In x l -> x < n) /\
    (forall u t, In u l -> In t (next u) -> In t l \/ In t seen) /\
    (forall p x s, l = p ++ x :: s -> In x queue \/ exists u, In u p /\ In x (next u)).
Proof.
  induction fuel as [|k IH]; intros queue seen Hq Hs Hi Hb Hf.
  - destruct queue as [|u q].
    + exists []. split; [reflexivity|]. split; [constructor|]. split; [intros ? []|]. split; [intros ? []|]. split; [intros ? []|].
      split; [intros ? ? []|]. intros [|? ?] x s E; discriminate.
    + pose proof (bounded_length n seen Hs Hb). simpl in Hf. lia.
  - destruct queue as [|u q].
    + exists []. split; [reflexivity|]. split; [constructor|]. split; [intros ? []|]. split; [intros ? []|]. split; [intros ? []|].
      split; [intros ? ? []|]. intros [|? ?] x s E; discriminate.
    + simpl. destruct (unseen_spec (next u) seen) as [Hnd Hin]. set (new := unseen seen (next u)) in *.
      assert (Hu : u < n) by (apply Hb, Hi; left; auto).
      apply NoDup_cons_iff in Hq as [Huq Hq].
      destruct (IH (q ++ new) (new ++ seen)) as (l & E & H1 & H2 & H3 & H4 & H5 & H6).
      * apply NoDup_app; auto. intros x Hx Hx'. apply Hin in Hx' as [_ Hx']. apply Hx', Hi. right; auto.
      * apply NoDup_app; auto. intros x Hx Hx'. apply Hin in Hx as [_ Hx]. tauto.
      * intros x Hx. apply in_app_or in Hx as [Hx|Hx]; apply in_or_app; auto. right. apply Hi. right; auto.
      * intros x Hx. apply in_app_or in Hx as [Hx|Hx]; auto. apply Hin in Hx as [Hx _]. eauto.
      * rewrite !app_length. simpl in Hf. lia.
      * rewrite E. exists (u :: l). split; [reflexivity|].
        assert (Hul : ~ In u l).
        { intros H. apply H3 in H; [|apply in_or_app; right; apply Hi; left; auto].
          apply in_app_or in H as [H|H]; auto. apply Hin in H as [_ H]. apply H, Hi. left; auto. }
        split; [constructor; auto|]. split.
        { intros x [<-|Hx]; [left; auto|right]. apply H2. apply in_or_app; auto. }
        split.
        { intros x [<-|Hx] Hx'; [left; auto|]. right. pose proof (H3 x Hx) as H. rewrite in_app_iff in H.
          destruct (in_app_or _ _ _ (H (or_intror Hx'))) as [?|Hn]; auto. apply Hin in Hn as [_ Hn]. tauto. }
        split; [intros x [<-|Hx]; auto|]. split.
        { intros x t [<-|Hx] Ht.
          - destruct (in_dec Nat.eq_dec t seen) as [|Hn]; auto. left. right. apply H2, in_or_app. right. apply Hin; auto.
          - destruct (H5 x t Hx Ht) as [?|H]; [left; right; auto|]. apply in_app_or in H as [H|H]; auto.
            left. right. apply H2, in_or_app; auto. }
        { intros [|y p] x s Heq; injection Heq as -> Heq.
          - left. left; auto.
          - destruct (H6 p x s Heq) as [H|(w & Hw & Hx)].
            + apply in_app_or in H as [H|H]; [left; right; auto|]. right. exists y. split; [left; auto|]. apply Hin in H. tauto.
            + right. exists w. split; auto. right; auto. }
Qed.
Lemma bfs_spec fuel start : start < n -> n < fuel -> exists l, bfs next fuel start = Some (start :: l) /\ NoDup (start :: l) /\
  (forall x, In x (start :: l) <-> clos_refl_trans nat step start x) /\ (forall x, In x (start :: l) -> x < n) /\
  (forall p x s, l = p ++ x :: s -> exists u, In u (start :: p) /\ In x (next u)).
Proof.
  intros Hs Hf. unfold bfs.
  destruct (bfs_loop_spec fuel [start] [start]) as (l & E & H1 & H2 & H3 & H4 & H5 & H6).
  - repeat constructor; auto.
  - repeat constructor; auto.
  - apply incl_refl.
  - intros x [<-|[]]; auto.
  - simpl. lia.
  - assert (Hl : exists l', l = start :: l').
    { destruct l as [|x l']; [destruct (H2 start); left; auto|].
      destruct (H6 [] x l' eq_refl) as [[->|[]]|(u & [] & _)]; eauto. }
    destruct Hl as [l' ->]. exists l'. split; auto. split; auto. split; [|split]; auto.
    + assert (Hcl : forall u t, In u (start :: l') -> In t (next u) -> In t (start :: l')).
      { intros u t Hu Ht. destruct (H5 u t Hu Ht) as [?|[<-|[]]]; auto. left; auto. }
      intros x. split.
      * assert (Hpre : forall p s, start :: l' = p ++ s -> forall x, In x p -> clos_refl_trans nat step start x).
        { intros p. induction p as [|y p IH] using rev_ind; intros s Ep z Hz; [destruct Hz|].
          rewrite <- app_assoc in Ep. apply in_app_or in Hz as [Hz|[<-|[]]]; [eauto|].
          destruct (H6 p y s Ep) as [[->|[]]|(u & Hu & Hy)]; [apply rt_refl|].
          eapply rt_trans; [eapply IH; eauto|]. apply rt_step; auto. }
        intros Hx. apply in_split in Hx as (p & s & Ep). apply (Hpre (p ++ [x]) s); [rewrite <- app_assoc; exact Ep|].
        apply in_or_app; right; left; auto.
      * intros H. apply clos_rt_rtn1 in H. induction H as [|y z Hyz _ IH]; [left; auto|]. eauto.
    + intros p x s ->. destruct (H6 (start :: p) x s eq_refl) as [[->|[]]|(u & Hu & Hx)]; eauto.
      exfalso. apply NoDup_cons_iff in H1 as [H1 _]. apply H1, in_or_app. right; left; auto.
Qed.
End Bfs.

(** * Depth first search *)
Section Dfs.
Variable next : nat -> result (list nat).
Variable nx : nat -> list nat.
Variable stop : list nat -> bool.
Variable n : nat.
Hypothesis Hdone : forall u, u < n -> next u = Done (nx u).
Hypothesis Hnext : forall u t, u < n -> In t (nx u) -> t < n.
Notation step := (fun u t => In t (nx u)).

Record dfs_ok (path : list nat) (v : nat) (seen : list nat) (b : bool) (ps : list (list nat)) (seen' : list nat) : Prop := {
  d_some : ps <> [];
  d_more : incl seen seen';
  d_self : In v seen';
  d_bound : forall x, In x seen' -> x < n;
  d_paths : forall p, In p ps -> exists q, p = path ++ v :: q /\ linked step (v :: q) /\ (forall x, In x (v :: q) -> x < n);
  d_cover : b = false -> forall x, In x seen' -> ~ In x seen -> exists p, In p ps /\ In x p;
  d_closed : b = false -> forall x t, In x seen' -> ~ In x seen -> In t (nx x) -> In t seen';
  d_stop : b = true -> exists p, In p ps /\ stop p = true;
  d_go : b = false -> forall p, In p ps -> stop p = false }.

Lemma linked_cons (R : nat -> nat -> Prop) a b l : R a b -> linked R (b :: l) -> linked R (a :: b :: l).
Proof. intros; split; auto. Qed.

Lemma dfs_spec fuel : forall path v seen, NoDup (path ++ [v]) -> (forall x, In x path -> x < n) -> v < n ->
  ~ In v seen -> incl path seen -> (forall x, In x seen -> x < n) -> n < fuel + length path ->
  exists b ps seen', dfs next stop fuel path v seen = Done (b, ps, seen') /\ dfs_ok path v seen b ps seen'.
Proof.
  induction fuel as [|k IH]; intros path v seen Hnd Hp Hv Hvs Hps Hs Hf.
  - exfalso. assert (length (path ++ [v]) <= n).
    { apply bounded_length; auto. intros x Hx. apply in_app_or in Hx as [?|[<-|[]]]; auto. }
    rewrite app_length in H. simpl in *. lia.
  - cbn [dfs]. rewrite Hdone by auto. cbn [rbind].
    assert (Hch : forall ts seen1 acc, (forall t, In t ts -> In t (nx v)) -> incl (v :: seen) seen1 ->
        (forall x, In x seen1 -> x < n) ->
        (forall p, In p acc -> exists q, p = path ++ v :: q /\ linked step (v :: q) /\ (forall x, In x (v :: q) -> x < n)) ->
        (forall x, In x seen1 -> ~ In x seen -> x = v \/ exists p, In p acc /\ In x p) ->
        (forall x t, In x seen1 -> ~ In x (v :: seen) -> In t (nx x) -> In t seen1) ->
        (forall t, In t (nx v) -> In t ts \/ In t seen1) ->
        (forall p, In p acc -> stop p = false) ->
        exists b ps seen', (fix children (ts : list nat) (seen : list nat) (acc : list (list nat)) :=
           match ts with
           | [] => match acc with [] => Done (stop (path ++ [v]), [path ++ [v]], seen) | _ => Done (false, acc, seen) end
           | t :: r => if mem t seen then children r seen acc
                       else match dfs next stop k (path ++ [v]) t seen with
                            | Done (true, ps, seen') => Done (true, acc ++ ps, seen')
                            | Done (false, ps, seen') => children r seen' (acc ++ ps)
                            | o => o
                            end
           end) ts seen1 acc = Done (b, ps, seen') /\ dfs_ok path v seen b ps seen').
    { induction ts as [|t r IHr]; intros seen1 acc Hts Hi Hb Hacc Hcov Hcl Hex Hgo.
      - destruct acc as [|p0 acc].
        + exists (stop (path ++ [v])), [path ++ [v]], seen1. split; auto. constructor.
          * discriminate.
          * intros x Hx. apply Hi. right; auto.
          * apply Hi. left; auto.
          * auto.
          * intros p [<-|[]]. exists []. simpl. split; auto. split; auto. intros x [<-|[]]; auto.
          * intros _ x Hx Hn. exists (path ++ [v]). split; [left; auto|]. apply in_or_app; right.
            destruct (Hcov x Hx Hn) as [->|(p & [] & _)]. left; auto.
          * intros _ x t Hx Hn Ht. destruct (Nat.eq_dec x v) as [->|Hne].
            -- destruct (Hex t Ht) as [[]|?]; auto.
            -- apply (Hcl x); auto. intros [?|?]; auto.
          * intros E. exists (path ++ [v]). split; [left; auto|auto].
          * intros E p [<-|[]]. auto.
        + exists false, (p0 :: acc), seen1. split; auto. constructor; auto; try discriminate.
          * intros x Hx. apply Hi. right; auto.
          * apply Hi. left; auto.
          * intros _ x Hx Hn. destruct (Hcov x Hx Hn) as [->|H]; auto.
            exists p0. split; [left; auto|]. destruct (Hacc p0) as (q & -> & _); [left; auto|]. apply in_or_app; right; left; auto.
          * intros _ x t Hx Hn Ht. destruct (Nat.eq_dec x v) as [->|Hne].
            -- destruct (Hex t Ht) as [[]|?]; auto.
            -- apply (Hcl x); auto. intros [?|?]; auto.
      - destruct (mem t seen1) eqn:Et.
        + apply mem_in in Et. apply IHr; auto.
          * intros x Hx. apply Hts. right; auto.
          * intros x Hx. destruct (Hex x Hx) as [[<-|?]|?]; auto.
        + apply mem_out in Et.
          destruct (IH (path ++ [v]) t seen1) as (b & ps & seen' & E & Hok).
          * apply NoDup_app; auto.
            -- repeat constructor; auto.
            -- intros x Hx [<-|[]]. apply Et, Hi. apply in_app_or in Hx as [Hx|[<-|[]]]; [right; auto|left; auto].
          * intros x Hx. apply in_app_or in Hx as [?|[<-|[]]]; auto.
          * apply (Hnext v); auto. apply Hts. left; auto.
          * auto.
          * intros x Hx. apply Hi. apply in_app_or in Hx as [Hx|[<-|[]]]; [right; auto|left; auto].
          * auto.
          * rewrite app_length. simpl. lia.
          * rewrite E. destruct Hok as [K1 K2 K3 K4 K5 K6 K7 K8 K9].
            assert (Hpp : forall p, In p (acc ++ ps) -> exists q, p = path ++ v :: q /\ linked step (v :: q) /\ (forall x, In x (v :: q) -> x < n)).
            { intros p Hpin. apply in_app_or in Hpin as [?|Hpin]; auto. destruct (K5 p Hpin) as (q & -> & Hq & Hqn).
              exists (t :: q). rewrite <- app_assoc. simpl. split; auto. split.
              - split; auto. apply Hts. left; auto.
              - intros x [<-|Hx]; auto. }
            destruct b.
            -- exists true, (acc ++ ps), seen'. split; auto. constructor; auto; try discriminate.
               ++ intros Ha. apply app_eq_nil in Ha as [_ Ha]. auto.
               ++ intros x Hx. apply K2, Hi. right; auto.
               ++ apply K2, Hi. left; auto.
               ++ intros _. destruct (K8 eq_refl) as (p & Hpin & Hst). exists p. split; auto. apply in_or_app; auto.
            -- destruct (IHr seen' (acc ++ ps)) as (b & ps' & seen'' & Er & Hok); auto.
               ++ intros x Hx. apply Hts. right; auto.
               ++ intros x Hx. apply K2, Hi, Hx.
               ++ intros x Hx Hn. destruct (in_dec Nat.eq_dec x seen1) as [Hx1|Hx1].
                  ** destruct (Hcov x Hx1 Hn) as [?|(p & Hpin & Hxp)]; auto. right. exists p. split; auto. apply in_or_app; auto.
                  ** destruct (K6 eq_refl x Hx Hx1) as (p & Hpin & Hxp). right. exists p. split; auto. apply in_or_app; auto.
               ++ intros x y Hx Hn Hy. destruct (in_dec Nat.eq_dec x seen1) as [Hx1|Hx1]; [apply K2; eauto|eauto].
               ++ intros x Hx. destruct (Hex x Hx) as [[<-|?]|?]; auto.
               ++ intros p Hpin. apply in_app_or in Hpin as [?|?]; auto.
               ++ exists b, ps', seen''. split; auto. }
    apply Hch; auto.
    + apply incl_refl.
    + intros x [<-|Hx]; auto.
    + intros p [].
    + intros x [<-|Hx] Hn; auto. tauto.
    + intros x t [<-|Hx] Hn; exfalso; apply Hn; [left|right]; auto.
    + intros p [].
Qed.
Lemma linked_reach v q : linked step (v :: q) -> forall x, In x (v :: q) -> clos_refl_trans nat step v x.
Proof.
  revert v. induction q as [|w q IH]; intros v H x [<-|Hx]; try apply rt_refl; [destruct Hx|].
  destruct H as [H1 H2]. eapply rt_trans; [apply rt_step, H1|]. apply IH; auto.
Qed.
End Dfs.

Lemma has_path_spec next nx n from to : (forall u, u < n -> next u = Done (nx u)) ->
  (forall u t, u < n -> In t (nx u) -> t < n) -> from < n ->
  exists b, has_path n next from to = Done b /\ (b = true <-> clos_refl_trans nat (fun u t => In t (nx u)) from to).
Proof.
  intros Hd Hn Hf. unfold has_path.
  destruct (dfs_spec next nx (mem to) n Hd Hn (S n) [] from []) as (b & ps & seen & E & Hok);
    try (intros x []; fail); auto.
  - repeat constructor; auto.
  - simpl. lia.
  - rewrite E. cbn [rbind fst]. exists b. split; auto. destruct Hok as [K1 K2 K3 K4 K5 K6 K7 K8 K9]. split.
    + intros Hb. destruct (K8 Hb) as (p & Hp & Ht). apply mem_in in Ht. destruct (K5 p Hp) as (q & -> & Hq & _).
      eapply linked_reach; eauto.
    + intros Hr. destruct b; auto. exfalso. assert (Hin : In to seen).
      { clear K9 K8 E. apply clos_rt_rtn1 in Hr. induction Hr as [|y z Hyz _ IH]; auto. exact (K7 eq_refl y z IH (fun H => H) Hyz). }
      destruct (K6 eq_refl to Hin) as (p & Hp & Ht); [intros []|]. apply K9 in Hp; auto. apply mem_out in Hp. tauto.
Qed.
