(** Correctness of the search. *)
From Coq Require Import NArith List Bool Arith Lia Sorted ZifyBool ZifyNat.
From stdpp Require Import gmap.
From Verif Require Import CostAlg GraphModel DijkstraModel RoutingSpec VisitSpec.
Import ListNotations.

(** * Walk facts *)
Section WalkFacts.
Context {A : CostAlg}.
Implicit Types (es : list (edge A)).

Lemma wcost_snoc es e : wcost (es ++ [e]) = cplus A (wcost es) (ei_cost (e_info e)).
Proof. unfold wcost. rewrite fold_left_app. reflexivity. Qed.
Lemma wchanges_snoc es e :
  wchanges (es ++ [e]) = wchanges es + if relation_eqb (ei_rel (e_info e)) Successor then 0 else 1.
Proof.
  unfold wchanges. rewrite List.filter_app, app_length. simpl.
  destruct (relation_eqb _ _); simpl; lia.
Qed.
Lemma wpred_snoc es e v : wpred (es ++ [e]) v = e_src e.
Proof. unfold wpred. rewrite rev_app_distr. reflexivity. Qed.
Lemma walk_inv P s es (e : edge A) v :
  walk P s (es ++ [e]) v -> walk P s es (e_src e) /\ P e /\ e_tgt e = v.
Proof.
  intros H. inversion H as [Heq Hv|es' e' Hw HP Heq Hv].
  - destruct es; discriminate.
  - apply app_inj_tail in Heq as [-> ->]. subst. auto.
Qed.
Lemma walk_nil_inv (P : edge A -> Prop) s v : walk P s [] v -> v = s.
Proof.
  intros H. inversion H as [|es e Hw HP Heq Hv]; auto. destruct es; discriminate.
Qed.
Lemma open_is_walk P acc s es (v : nat) : open_walk P acc s es v -> walk P s es v.
Proof. induction 1; constructor; auto. Qed.
End WalkFacts.

Section Correct.
Context {A : CostAlg} (cok wok : cost A -> Prop) (L : CostLaws A cok wok).
Context {St : Type}.
Variable P : edge A -> Prop.
Variable out : nat -> list (edge A).
Variable cb : St -> vinfo A -> St * option bool.
Variable tie : nat -> nat.
Variable start : nat.
Variable V : list nat.
Hypothesis out_iff : forall u e, In e (out u) <-> P e /\ e_src e = u.
Hypothesis out_w : forall e, P e -> wok (ei_cost (e_info e)).
Hypothesis start_V : In start V.
Hypothesis out_V : forall e, P e -> In (e_tgt e) V.

Notation W e := (ei_cost (e_info e)).
Notation le := (cle A).
Notation lt a b := (cltb A a b = true).
Notation smap' := (smap A).

Definition info_of (v : nat) (s : vstate A) : vinfo A :=
  VI v (vs_pred s) (vs_cost s) (vs_len s) (vs_nlc s).

Lemma le_total a b : cok a -> cok b -> le a b \/ le b a.
Proof.
  intros Ha Hb. unfold cle at 1. destruct (cltb A b a) eqn:E; auto.
  right. eapply lt_le; eauto.
Qed.
Lemma le_refl a : cok a -> le a a.
Proof. intros. eapply lt_irrefl; eauto. Qed.
Lemma ok_wcost es s v : walk P s es v -> cok (wcost es).
Proof.
  induction 1.
  - apply (ok_zero _ _ _ L).
  - rewrite wcost_snoc. eapply ok_plus; eauto.
Qed.
Lemma lt_inf_le a b : cok a -> cok b -> le a b -> below_inf b -> below_inf a.
Proof.
  unfold below_inf. intros Ha Hb Hle Hlt.
  destruct (cltb A a (cinf A)) eqn:E; auto.
  assert (Hi : le (cinf A) a) by exact E.
  assert (le (cinf A) b).
  { eapply le_trans with (b := a); eauto. eapply ok_inf; eauto. }
  unfold cle in H. congruence.
Qed.

(** * Invariant *)
Record InvM (best : nat -> option (list (edge A))) (D : list nat) (done : edge A -> Prop)
       (m : smap') (q : list nat) : Prop := {
  I_nodup : List.NoDup (D ++ q);
  I_V : forall v, In v (D ++ q) -> In v V;
  I_dom : forall v, is_Some (m !! v) <-> In v D \/ In v q;
  I_cost : forall v s, m !! v = Some s -> cok (vs_cost s) /\ below_inf (vs_cost s);
  I_startq : In start q -> D = [] /\ q = [start];
  I_startin : In start (D ++ q);
  I_start : forall s, m !! start = Some s ->
      vs_pred s = start /\ vs_cost s = czero A /\ vs_len s = 1 /\ vs_nlc s = 0 /\
      (In start q -> vs_predicate s = true /\ vs_leaf s = true);
  I_q : forall v s, In v q -> v <> start -> m !! v = Some s ->
      vs_predicate s = true /\ vs_leaf s = true /\
      exists e es ps, P e /\ e_src e = vs_pred s /\ e_tgt e = v /\ best (vs_pred s) = Some es /\
        m !! vs_pred s = Some ps /\ vs_predicate ps = true /\
        vs_cost s = wcost (es ++ [e]) /\ vs_len s = S (length (es ++ [e])) /\
        vs_nlc s = wchanges (es ++ [e]);
  I_best_dom : forall v, is_Some (best v) <-> In v D;
  I_best_start : forall es, best start = Some es -> es = [];
  I_best : forall v es s, best v = Some es -> m !! v = Some s ->
      walk P start es v /\ vs_cost s = wcost es /\ vs_len s = S (length es) /\
      vs_nlc s = wchanges es /\ vs_pred s = wpred es v;
  I_best_nil : forall v, best v = Some [] -> v = start;
  I_best_step : forall v es e, best v = Some (es ++ [e]) ->
      best (e_src e) = Some es /\ exists ps, m !! e_src e = Some ps /\ vs_predicate ps = true;
  I_relaxed : forall u s e, In u D -> m !! u = Some s -> vs_predicate s = true -> P e -> e_src e = u ->
      done e -> le (dist m (e_tgt e)) (cplus A (vs_cost s) (W e));
  I_order : forall u v su sv, In u D -> In v q -> m !! u = Some su -> m !! v = Some sv ->
      le (vs_cost su) (vs_cost sv);
  I_leaf : forall v s, m !! v = Some s ->
      (vs_leaf s = true <-> forall w sw, In w D -> w <> v -> m !! w = Some sw -> vs_pred sw <> v)
}.

Record InvL (st0 : St) (D : list nat) (m : smap') (log : list (vinfo A * option bool)) (st : St) : Prop := {
  I_D : D = visited log;
  I_log : forall i a, In (i, a) log ->
      exists s, m !! vi_vertex i = Some s /\ i = info_of (vi_vertex i) s /\ a = Some (vs_predicate s);
  I_sorted : StronglySorted (fun x y => le (vi_cost (fst x)) (vi_cost (fst y))) log;
  I_calls : calls cb st0 log st
}.

Definition Inv st0 best (s : search A St) : Prop :=
  InvM best (visited (s_log s)) (fun _ => True) (s_map s) (s_queue s) /\
  InvL st0 (visited (s_log s)) (s_map s) (s_log s) (s_cb s).

Lemma D_not_q best D done m q v : InvM best D done m q -> In v D -> ~ In v q.
Proof.
  intros I HD Hq. pose proof (I_nodup _ _ _ _ _ I) as ND.
  apply NoDup_ListNoDup in ND. apply NoDup_app in ND as (_ & ND & _).
  apply (ND v); apply elem_of_list_In; auto.
Qed.

Lemma in_D_pred best D done m q v s :
  InvM best D done m q -> In v D -> m !! v = Some s -> In (vs_pred s) D.
Proof.
  intros I HD Hm. destruct (proj2 (I_best_dom _ _ _ _ _ I v) HD) as [es Hes].
  destruct (I_best _ _ _ _ _ I _ _ _ Hes Hm) as (Hw & _ & _ & _ & ->).
  destruct es as [|e es] using rev_ind.
  - unfold wpred; simpl; auto.
  - rewrite wpred_snoc. apply (I_best_dom _ _ _ _ _ I).
    destruct (I_best_step _ _ _ _ _ I _ _ _ Hes) as [-> _]. eauto.
Qed.


Lemma InvM_done best D (done done' : edge A -> Prop) m q :
  (forall e, P e -> done' e -> done e) -> InvM best D done m q -> InvM best D done' m q.
Proof.
  intros H I. destruct I. constructor; auto. intros; eapply I_relaxed0; eauto.
Qed.

(** * Relaxation of one edge *)
Lemma dist_lookup (m : smap') v s : m !! v = Some s -> dist m v = vs_cost s.
Proof. intros H. unfold dist. rewrite H. auto. Qed.

Lemma at_or_new_insert (m : smap') v s : at_or_new (<[v:=s]> m) v = s.
Proof. unfold at_or_new. rewrite lookup_insert. auto. Qed.

(** What a successful relaxation does to the map and the queue. *)
Lemma relax_edge_inv best D done m q e su :
  InvM best D done m q ->
  P e -> In (e_src e) D -> m !! e_src e = Some su -> vs_predicate su = true ->
  (forall v s, In v D -> m !! v = Some s -> le (vs_cost s) (vs_cost su)) ->
  exists m' q', relax_edge m q e = RelOk m' q' /\ InvM best D (fun x => done x \/ x = e) m' q' /\
    (forall v, In v D -> m' !! v = m !! v).
Proof.
  intros I HP HD Hsu Hpr Hmax.
  pose proof (I_cost _ _ _ _ _ I _ _ Hsu) as [oku binf].
  assert (Hw : wok (W e)) by auto.
  assert (Hwn : cltb A (W e) (czero A) = false) by (apply (wok_iff _ _ _ L); auto).
  unfold relax_edge. rewrite Hwn.
  set (u := e_src e) in *. set (v := e_tgt e).
  rewrite (dist_lookup _ _ _ Hsu).
  set (d := cplus A (vs_cost su) (W e)).
  assert (okd : cok d) by (eapply ok_plus; eauto).
  assert (Hinfl : le (vs_cost su) d) by (eapply plus_infl; eauto).
  assert (okdv : cok (dist m v)).
  { unfold dist. destruct (m !! v) eqn:E; [eapply I_cost; eauto | eapply ok_inf; eauto]. }
  destruct (cltb A d (dist m v)) eqn:Ec.
  2:{ (* not relaxed *)
    exists m, q. split; [auto|split; [|auto]].
    destruct I; constructor; auto.
    intros u' s e' H1 H2 H3 H4 H5 [H6|H6]; eauto.
    subst e' u'. fold u in H2. assert (s = su) by congruence. subst s. exact Ec. }
  (* relaxed: v is not visited yet *)
  assert (HvD : ~ In v D).
  { intros Hv. destruct (proj2 (I_dom _ _ _ _ _ I v) (or_introl Hv)) as [sv Hsv].
    rewrite (dist_lookup _ _ _ Hsv) in *.
    assert (le (vs_cost sv) d).
    { eapply le_trans with (b := vs_cost su); eauto. }
    unfold cle in H. congruence. }
  assert (Huv : u <> v) by (intros ->; auto).
  destruct (proj2 (I_best_dom _ _ _ _ _ I u) HD) as [es Hes].
  destruct (I_best _ _ _ _ _ I _ _ _ Hes Hsu) as (Hwalk & Hcost & Hlen & Hnlc & _).
  assert (Hvs : v <> start).
  { intros ->. destruct (in_app_or _ _ _ (I_startin _ _ _ _ _ I)) as [Hs|Hs]; auto.
    destruct (I_startq _ _ _ _ _ I Hs) as [-> _]. auto. }
  unfold edge_relaxed, put_cost. cbv zeta. fold u v.
  rewrite lookup_insert_ne by auto. rewrite Hsu.
  rewrite !at_or_new_insert. cbn [vs_pred vs_cost vs_len vs_nlc vs_predicate vs_leaf].
  rewrite insert_insert.
  set (f := at_or_new m v).
  set (nv := VS u d (S (vs_len su)) (vs_nlc su + if relation_eqb (ei_rel (e_info e)) Successor then 0 else 1)
                  (vs_predicate f) (vs_leaf f)).
  assert (Hd : below_inf d).
  { unfold below_inf. eapply lt_le_trans with (b := dist m v); eauto. eapply ok_inf; eauto.
    eapply le_inf; eauto. }
  set (m' := <[v:=nv]> m).
  assert (Hm'v : m' !! v = Some nv) by apply lookup_insert.
  assert (Hm' : forall x, x <> v -> m' !! x = m !! x) by (intros x Hx; apply lookup_insert_ne; auto).
  assert (HinQ : In v q <-> is_Some (m !! v)).
  { rewrite (I_dom _ _ _ _ _ I). tauto. }
  assert (Hf : vs_predicate f = true /\ vs_leaf f = true).
  { unfold f, at_or_new. destruct (m !! v) as [sv|] eqn:E; [|auto].
    destruct (I_q _ _ _ _ _ I v sv) as (? & ? & _); auto. apply HinQ; eauto. }
  assert (Hq : existsb (Nat.eqb v) q = true <-> In v q).
  { rewrite existsb_exists. split.
    - intros (x & Hx & Hxv). apply Nat.eqb_eq in Hxv. subst; auto.
    - intros Hx. exists v. split; auto. apply Nat.eqb_refl. }
  assert (Hund : negb (cltb A (dist m v) (cinf A)) = true <-> ~ In v q).
  { rewrite HinQ. unfold dist. destruct (m !! v) as [sv|] eqn:E.
    - destruct (I_cost _ _ _ _ _ I _ _ E) as [_ Hb]. unfold below_inf in Hb. rewrite Hb. simpl.
      split; [discriminate|]. intros H. exfalso; apply H; eauto.
    - assert (cltb A (cinf A) (cinf A) = false) as -> by (apply (lt_irrefl _ _ _ L), (ok_inf _ _ _ L)).
      simpl. split; [intros _ [? ?]; discriminate|auto]. }
  (* the new queue *)
  set (q' := if negb (cltb A (dist m v) (cinf A)) then v :: q else q).
  exists m', q'. split.
  { unfold q'. destruct (existsb (Nat.eqb v) q) eqn:E1; destruct (negb (cltb A (dist m v) (cinf A))) eqn:E2; auto;
      exfalso; intuition congruence. }
  assert (Hq' : forall x, In x q' <-> In x q \/ x = v).
  { intros x. unfold q'. destruct (negb (cltb A (dist m v) (cinf A))) eqn:E2; simpl.
    - intuition.
    - assert (In v q). { destruct (in_dec Nat.eq_dec v q); auto. exfalso. intuition congruence. }
      intuition. subst; auto. }
  assert (HDne : forall x, In x D -> x <> v) by (intros x Hx ->; auto).
  split; [|intros x Hx; apply Hm'; auto].
  constructor.
  - (* nodup *)
    pose proof (I_nodup _ _ _ _ _ I) as ND. unfold q'.
    destruct (negb (cltb A (dist m v) (cinf A))) eqn:E2; auto.
    apply NoDup_ListNoDup in ND. apply NoDup_ListNoDup.
    apply NoDup_app in ND as (N1 & N2 & N3). apply NoDup_app. split; [auto|split].
    + intros x Hx. apply not_elem_of_cons. split; [|auto]. intros ->. apply HvD, elem_of_list_In; auto.
    + apply NoDup_cons. split; auto. intros Hx. apply elem_of_list_In in Hx. intuition congruence.
  - intros x Hx. apply in_app_or in Hx as [Hx|Hx].
    + apply (I_V _ _ _ _ _ I), in_or_app; auto.
    + apply Hq' in Hx as [Hx| ->]; [apply (I_V _ _ _ _ _ I), in_or_app; auto|]. apply out_V; auto.
  - intros x. rewrite Hq'. destruct (Nat.eq_dec x v) as [->|Hx].
    + split; eauto.
    + rewrite Hm' by auto. rewrite (I_dom _ _ _ _ _ I). intuition.
  - intros x s Hs. destruct (Nat.eq_dec x v) as [->|Hx].
    + rewrite Hm'v in Hs. injection Hs as <-. auto.
    + rewrite Hm' in Hs by auto. eapply I_cost; eauto.
  - intros Hs. apply Hq' in Hs as [Hs|Hs]; [|congruence].
    destruct (I_startq _ _ _ _ _ I Hs) as [-> _]. destruct HD.
  - pose proof (I_startin _ _ _ _ _ I) as Hs. apply in_app_or in Hs as [Hs|Hs]; apply in_or_app; auto.
    right. apply Hq'. auto.
  - intros s Hs. rewrite Hm' in Hs by auto.
    destruct (I_start _ _ _ _ _ I _ Hs) as (? & ? & ? & ? & Hx).
    split; [auto|split; [auto|split; [auto|split; [auto|]]]].
    intros Hin; apply Hq' in Hin as [Hin|Hin]; [auto|congruence].
  - intros x s Hin Hxs Hs. destruct (Nat.eq_dec x v) as [->|Hx].
    + rewrite Hm'v in Hs. injection Hs as <-. cbn [nv vs_pred vs_cost vs_len vs_nlc vs_predicate vs_leaf].
      destruct Hf as [-> ->]. split; [auto|split; [auto|]].
      exists e, es, su. rewrite Hm' by auto. repeat split; auto.
      * rewrite wcost_snoc, <- Hcost. reflexivity.
      * rewrite app_length, Hlen. simpl. lia.
      * rewrite wchanges_snoc, Hnlc. reflexivity.
    + rewrite Hm' in Hs by auto. apply Hq' in Hin as [Hin|Hin]; [|congruence].
      destruct (I_q _ _ _ _ _ I _ _ Hin Hxs Hs) as (? & ? & e0 & es0 & ps & H1 & H2 & H3 & H4 & H5 & H6).
      split; [auto|split; [auto|]]. exists e0, es0, ps.
      assert (Hpn : vs_pred s <> v) by (apply HDne, (I_best_dom _ _ _ _ _ I); eauto).
      rewrite (Hm' _ Hpn). tauto.
  - apply I.
  - apply I.
  - intros x es0 s Hb Hs. rewrite Hm' in Hs.
    + eapply I_best; eauto.
    + apply HDne. apply (I_best_dom _ _ _ _ _ I). eauto.
  - apply I.
  - intros x es0 e0 Hb. destruct (I_best_step _ _ _ _ _ I _ _ _ Hb) as (Hb' & ps & Hps & Hpp).
    split; auto. exists ps. rewrite Hm'; auto. apply HDne. apply (I_best_dom _ _ _ _ _ I). eauto.
  - intros u' s e' H1 H2 H3 H4 H5 H6. rewrite Hm' in H2 by auto.
    assert (Hold : done e' -> le (dist m (e_tgt e')) (cplus A (vs_cost s) (W e')))
      by (intros; eapply I_relaxed; eauto).
    assert (oks : cok (cplus A (vs_cost s) (W e'))).
    { eapply ok_plus; eauto. eapply I_cost; eauto. }
    destruct (Nat.eq_dec (e_tgt e') v) as [Hev|Hev].
    + rewrite Hev, (dist_lookup _ _ _ Hm'v). simpl.
      destruct H6 as [H6|H6].
      * rewrite Hev in Hold. eapply le_trans with (b := dist m v); eauto. eapply lt_le; eauto.
      * subst e' u'. fold u in H2. assert (s = su) by congruence. subst s. eapply le_refl; auto.
    + destruct H6 as [H6|H6]; [|subst e'; unfold v in Hev; congruence].
      unfold dist. rewrite Hm' by auto. apply Hold; auto.
  - intros x y sx sy Hx Hy Hsx Hsy. rewrite Hm' in Hsx by auto.
    destruct (Nat.eq_dec y v) as [->|Hyv].
    + rewrite Hm'v in Hsy. injection Hsy as <-. simpl.
      eapply le_trans with (b := vs_cost su); eauto. eapply I_cost; eauto.
    + rewrite Hm' in Hsy by auto. apply Hq' in Hy as [Hy|Hy]; [|congruence].
      eapply I_order with (u := x) (v := y); eauto.
  - intros x s Hs. destruct (Nat.eq_dec x v) as [->|Hx].
    + rewrite Hm'v in Hs. injection Hs as <-. simpl. destruct Hf as [_ ->]. split; auto.
      intros _ w sw Hw' Hwv Hsw Hp. rewrite Hm' in Hsw by auto.
      apply HvD. rewrite <- Hp. eapply in_D_pred; eauto.
    + rewrite Hm' in Hs by auto. rewrite (I_leaf _ _ _ _ _ I _ _ Hs).
      split; intros H w sw H1 H2 H3; apply (H w sw); auto;
        [rewrite Hm' in H3 by auto|rewrite Hm' by auto]; auto.
Qed.

Lemma relax_edges_inv best D u su es : forall done m q,
  InvM best D done m q ->
  (forall e, In e es -> P e /\ e_src e = u) -> In u D -> m !! u = Some su -> vs_predicate su = true ->
  (forall v s, In v D -> m !! v = Some s -> le (vs_cost s) (vs_cost su)) ->
  exists m' q', relax_edges m q es = RelOk m' q' /\ InvM best D (fun x => done x \/ In x es) m' q' /\
    (forall v, In v D -> m' !! v = m !! v).
Proof.
  induction es as [|e es IH]; intros done m q I Hes HD Hsu Hp Hmax; simpl.
  - exists m, q. split; [auto|split; [|auto]]. eapply InvM_done; [|exact I]. simpl. tauto.
  - destruct (Hes e (or_introl eq_refl)) as [HP He].
    destruct (relax_edge_inv best D done m q e su) as (m1 & q1 & E1 & I1 & F1); auto; try (rewrite He; auto).
    rewrite E1.
    destruct (IH _ _ _ I1) as (m2 & q2 & E2 & I2 & F2); auto.
    + intros e' He'. apply Hes. right; auto.
    + rewrite F1; auto.
    + intros v s Hv Hs. rewrite F1 in Hs; eauto.
    + exists m2, q2. split; [auto|split].
      * eapply InvM_done; [|exact I2]. simpl. intros e' _ [H|[H|H]]; auto.
      * intros v Hv. rewrite F2, F1; auto.
Qed.

(** * Taking a vertex out of the queue *)
Lemma minimal_exists (m : smap') q :
  (forall v, In v q -> cok (dist m v)) -> q <> [] ->
  exists v, In v q /\ forall w, In w q -> le (dist m v) (dist m w).
Proof.
  induction q as [|a q IH]; intros Hok Hne; [congruence|].
  destruct q as [|b q].
  - exists a. split; [left; auto|]. intros w [<-|[]]. apply le_refl. apply Hok; left; auto.
  - destruct IH as (v & Hv & Hmin); [intros; apply Hok; right; auto|congruence|].
    destruct (le_total (dist m a) (dist m v)) as [H|H]; try (apply Hok; simpl in *; tauto).
    + exists a. split; [left; auto|]. intros w [<-|Hw]; [apply le_refl, Hok; left; auto|].
      apply (le_trans _ _ _ L) with (b := dist m v); auto; apply Hok; simpl in *; tauto.
    + exists v. split; [right; auto|]. intros w [<-|Hw]; auto.
Qed.

Lemma minimal_in_spec (m : smap') q v :
  minimal_in m q v = true <-> forall w, In w q -> le (dist m v) (dist m w).
Proof.
  unfold minimal_in. rewrite forallb_forall. unfold cle.
  split; intros H w Hw; specialize (H w Hw); destruct (cltb _ _ _); auto; discriminate.
Qed.

Lemma pop_none (m : smap') q c :
  (forall v, In v q -> cok (dist m v)) -> pop m q c = None -> q = [].
Proof.
  intros Hok H. destruct q as [|a q]; auto.
  destruct (minimal_exists m (a :: q) Hok) as (v & Hv & Hmin); [congruence|].
  unfold pop in H. destruct (List.filter _ _) eqn:E; [|discriminate].
  assert (Hin : In v (List.filter (minimal_in m (a :: q)) (a :: q))).
  { apply filter_In. split; auto. apply minimal_in_spec; auto. }
  rewrite E in Hin. destruct Hin.
Qed.

Lemma pop_some (m : smap') q c v q' :
  pop m q c = Some (v, q') ->
  In v q /\ (forall w, In w q -> le (dist m v) (dist m w)) /\
  (forall w, In w q' <-> In w q /\ w <> v) /\ (List.NoDup q -> List.NoDup q').
Proof.
  unfold pop. destruct (List.filter (minimal_in m q) q) as [|x r] eqn:E; [discriminate|].
  assert (Hin : In (nth (c mod S (length r)) (x :: r) x) (List.filter (minimal_in m q) q)).
  { rewrite E. apply nth_In. cbn [length]. apply Nat.mod_upper_bound. lia. }
  revert Hin. cbv zeta. generalize (nth (c mod S (length r)) (x :: r) x).
  intros v0 Hin H. injection H as <- <-. rename v0 into v.
  apply filter_In in Hin as [H1 H2]. split; [exact H1|split; [exact (proj1 (minimal_in_spec m q v) H2)|split]].
  - intros w. rewrite filter_In. destruct (Nat.eqb_spec w v); simpl; intuition congruence.
  - apply List.NoDup_filter.
Qed.

(** * One iteration of the main loop *)
Lemma visit_step st0 best s v q c :
  Inv st0 best s -> pop (s_map s) (s_queue s) c = Some (v, q) ->
  exists vs st' ans,
    s_map s !! v = Some vs /\ cb (s_cb s) (info_of v vs) = (st', ans) /\
    (forall x, In x (s_queue s) -> le (vs_cost vs) (dist (s_map s) x)) /\
    In v (s_queue s) /\
    match ans with
    | None => visit out cb s v q = Aborted (Search (s_map s) q st' (s_log s ++ [(info_of v vs, None)]))
    | Some b => exists s' best',
        visit out cb s v q = Running s' /\ Inv st0 best' s' /\
        s_log s' = s_log s ++ [(info_of v vs, Some b)]
    end.
Proof.
  intros [I IL] Hpop.
  destruct (pop_some _ _ _ _ _ Hpop) as (Hvq & Hmin & Hq & HqND).
  set (D := visited (s_log s)) in *. set (m := s_map s) in *.
  destruct (proj2 (I_dom _ _ _ _ _ I v) (or_intror Hvq)) as [vs Hvs].
  destruct (cb (s_cb s) (info_of v vs)) as [st' ans] eqn:Ecb.
  exists vs, st', ans. split; [auto|split; [auto|split; [|split; [auto|]]]].
  { intros x Hx. rewrite <- (dist_lookup _ _ _ Hvs). auto. }
  unfold visit. fold m. rewrite Hvs. unfold info_of in Ecb. rewrite Ecb.
  destruct ans as [b|]; [|reflexivity].
  destruct (I_cost _ _ _ _ _ I _ _ Hvs) as [okv binf].
  assert (HvD : ~ In v D) by (intros H; eapply D_not_q; eauto).
  (* the way that leads to v *)
  assert (exists esv, walk P start esv v /\ vs_cost vs = wcost esv /\ vs_len vs = S (length esv) /\
     vs_nlc vs = wchanges esv /\ vs_pred vs = wpred esv v /\ vs_predicate vs = true /\ vs_leaf vs = true /\
     (esv = [] <-> v = start) /\
     (forall es e, esv = es ++ [e] -> best (e_src e) = Some es /\
         exists ps, m !! e_src e = Some ps /\ vs_predicate ps = true)) as
     (esv & Hwalk & Hcost & Hlen & Hnlc & Hpred & Hpr & Hleaf & Hnil & Hstep).
  { destruct (Nat.eq_dec v start) as [->|Hns].
    - exists []. destruct (I_start _ _ _ _ _ I _ Hvs) as (H1 & H2 & H3 & H4 & H5).
      destruct (H5 Hvq). repeat split; auto; try constructor; destruct es; discriminate.
    - destruct (I_q _ _ _ _ _ I _ _ Hvq Hns Hvs) as (H1 & H2 & e & es & ps & HP & Hs & Ht & Hb & Hps & Hpp & Hc & Hl & Hn).
      exists (es ++ [e]).
      destruct (I_best _ _ _ _ _ I _ _ _ Hb Hps) as (Hw & _).
      split; [rewrite <- Ht; constructor; [rewrite Hs|]; auto|].
      rewrite wpred_snoc. repeat split; auto.
      + destruct es; discriminate.
      + congruence.
      + apply app_inj_tail in H as [-> ->]. congruence.
      + apply app_inj_tail in H as [-> ->]. rewrite Hs. eauto. }
  set (p := vs_pred vs) in *.
  assert (HpD : p <> v -> In p D).
  { intros Hp. destruct esv as [|e es] using rev_ind.
    - exfalso. apply Hp. rewrite Hpred. reflexivity.
    - destruct (Hstep _ _ eq_refl) as [Hb _]. rewrite wpred_snoc in Hpred. rewrite Hpred.
      apply (I_best_dom _ _ _ _ _ I). eauto. }
  set (vs1 := VS p (vs_cost vs) (vs_len vs) (vs_nlc vs) b (vs_leaf vs)).
  assert (exists ps, <[v:=vs1]> m !! p = Some ps /\ (p <> v -> m !! p = Some ps) /\ (p = v -> ps = vs1)) as (ps & Hps & Hps1 & Hps2).
  { destruct (Nat.eq_dec p v) as [Hp|Hp].
    - exists vs1. rewrite Hp, lookup_insert. split; [auto|split; [congruence|auto]].
    - rewrite lookup_insert_ne by auto. destruct (proj2 (I_dom _ _ _ _ _ I p)) as [ps Hps]; auto.
      exists ps. rewrite Hps. split; [auto|split; [auto|congruence]]. }
  change (VS p (vs_cost vs) (vs_len vs) (vs_nlc vs) b (vs_leaf vs)) with vs1. rewrite Hps.
  set (ps' := VS (vs_pred ps) (vs_cost ps) (vs_len ps) (vs_nlc ps) (vs_predicate ps) (Nat.eqb v p)).
  set (m2 := <[p:=ps']> (<[v:=vs1]> m)).
  set (vs2 := VS p (vs_cost vs) (vs_len vs) (vs_nlc vs) b true).
  assert (Hv2 : m2 !! v = Some vs2).
  { unfold m2. destruct (Nat.eq_dec p v) as [Hp|Hp].
    - rewrite Hp, lookup_insert. unfold ps'. rewrite (Hps2 Hp), Hp, Nat.eqb_refl. reflexivity.
    - rewrite lookup_insert_ne by auto. rewrite lookup_insert. unfold vs1, vs2. rewrite Hleaf. reflexivity. }
  set (upd := fun x (sx : vstate A) => VS (vs_pred sx) (vs_cost sx) (vs_len sx) (vs_nlc sx) (vs_predicate sx)
                          (if Nat.eqb x p then false else vs_leaf sx)).
  assert (Hx2 : forall x, x <> v -> m2 !! x = option_map (upd x) (m !! x)).
  { intros x Hx. unfold m2. destruct (Nat.eq_dec p x) as [Hp|Hp].
    - rewrite <- Hp in *. rewrite lookup_insert, (Hps1 Hx). simpl. unfold ps', upd.
      rewrite Nat.eqb_refl. destruct (Nat.eqb_spec v p); congruence.
    - rewrite !lookup_insert_ne by auto. destruct (m !! x) as [sx|]; auto. simpl. unfold upd.
      destruct (Nat.eqb_spec x p); [congruence|]. destruct sx; auto. }
  assert (Hsome2 : forall x s2, x <> v -> m2 !! x = Some s2 -> exists sx, m !! x = Some sx /\ s2 = upd x sx).
  { intros x s2 Hx H2. rewrite Hx2 in H2 by auto. destruct (m !! x) as [sx|]; [|discriminate].
    injection H2 as <-. eauto. }
  assert (Hd2 : dist m2 v = vs_cost vs) by (unfold dist; rewrite Hv2; auto).
  rewrite Hd2. unfold below_inf in binf. rewrite binf. simpl negb. cbv iota.
  set (best' := fun x => if Nat.eqb x v then Some esv else best x).
  assert (Hb'v : best' v = Some esv) by (unfold best'; rewrite Nat.eqb_refl; auto).
  assert (Hb'x : forall x, x <> v -> best' x = best x) by (intros x Hx; unfold best'; destruct (Nat.eqb_spec x v); congruence).
  assert (HDv : forall x, In x D -> x <> v) by (intros x Hx ->; auto).
  assert (Hdist2 : forall x, dist m2 x = dist m x).
  { intros x. destruct (Nat.eq_dec x v) as [->|Hx].
    - rewrite Hd2. symmetry. apply dist_lookup; auto.
    - unfold dist. rewrite Hx2 by auto. destruct (m !! x); auto. }
  assert (Hpred2 : forall es : edge A, best (e_src es) <> None -> e_src es <> v).
  { intros es0 H0 Hv. apply HvD. apply (I_best_dom _ _ _ _ _ I). rewrite <- Hv. destruct (best (e_src es0)); eauto; congruence. }
  assert (I2 : InvM best' (D ++ [v]) (fun e => e_src e <> v) m2 q).
  { constructor.
    - pose proof (I_nodup _ _ _ _ _ I) as ND.
      apply NoDup_ListNoDup in ND. apply NoDup_ListNoDup.
      apply NoDup_app in ND as (N1 & N2 & N3). apply NoDup_app. split; [|split].
      + apply NoDup_app. split; [auto|split; [|apply NoDup_singleton]].
        intros x Hx Hxv. apply elem_of_list_singleton in Hxv. subst x. apply HvD, elem_of_list_In; auto.
      + intros x Hx Hxq. apply elem_of_list_In in Hxq. apply Hq in Hxq as [Hxq Hxv].
        apply elem_of_app in Hx as [Hx|Hx]; [|apply elem_of_list_singleton in Hx; auto].
        apply (N2 x Hx), elem_of_list_In; auto.
      + apply NoDup_ListNoDup, HqND, NoDup_ListNoDup. auto.
    - intros x Hx. apply (I_V _ _ _ _ _ I). apply in_app_or in Hx as [Hx|Hx].
      + apply in_app_or in Hx as [Hx|[<-|[]]]; apply in_or_app; auto.
      + apply Hq in Hx as [Hx _]. apply in_or_app; auto.
    - intros x. rewrite in_app_iff. destruct (Nat.eq_dec x v) as [->|Hx].
      + split; [intros _; left; right; left; auto|intros _; rewrite Hv2; eauto].
      + rewrite Hx2 by auto. rewrite Hq. rewrite fmap_is_Some. rewrite (I_dom _ _ _ _ _ I x). simpl.
        intuition congruence.
    - intros x s2 H2. destruct (Nat.eq_dec x v) as [->|Hx].
      + rewrite Hv2 in H2. injection H2 as <-. auto.
      + destruct (Hsome2 _ _ Hx H2) as (sx & Hsx & ->). simpl. eapply I_cost; eauto.
    - intros Hs. apply Hq in Hs as [Hs Hne]. destruct (I_startq _ _ _ _ _ I Hs) as [_ Hqs].
      rewrite Hqs in Hvq. destruct Hvq as [Hvq|[]]. congruence.
    - pose proof (I_startin _ _ _ _ _ I) as Hs. apply in_app_or in Hs as [Hs|Hs].
      + apply in_or_app. left. apply in_or_app. auto.
      + destruct (I_startq _ _ _ _ _ I Hs) as [_ Hqs]. rewrite Hqs in Hvq. destruct Hvq as [->|[]].
        apply in_or_app. left. apply in_or_app. right. left. auto.
    - intros s2 H2. destruct (Nat.eq_dec start v) as [Hsv|Hsv].
      + subst v. rewrite Hv2 in H2. injection H2 as <-.
        destruct (I_start _ _ _ _ _ I _ Hvs) as (? & ? & ? & ? & _).
        split; [auto|split; [auto|split; [auto|split; [auto|]]]].
        intros Hin. apply Hq in Hin as [_ Hin]. congruence.
      + destruct (Hsome2 _ _ Hsv H2) as (sx & Hsx & ->). simpl.
        destruct (I_start _ _ _ _ _ I _ Hsx) as (? & ? & ? & ? & Hq0).
        split; [auto|split; [auto|split; [auto|split; [auto|]]]].
        intros Hin. apply Hq in Hin as [Hin _]. destruct (I_startq _ _ _ _ _ I Hin) as [_ Hqs].
        rewrite Hqs in Hvq. destruct Hvq as [Hvq|[]]. congruence.
    - intros x s2 Hin Hxs H2. apply Hq in Hin as [Hin Hxv].
      destruct (Hsome2 _ _ Hxv H2) as (sx & Hsx & ->).
      destruct (I_q _ _ _ _ _ I _ _ Hin Hxs Hsx) as (H1 & H3 & e & es & pps & HP & Hs & Ht & Hb & Hpps & Hpp & Hr).
      assert (Hxp : x <> p).
      { intros ->. destruct (Nat.eq_dec p v); auto. eapply D_not_q; eauto. }
      simpl. destruct (Nat.eqb_spec x p); [congruence|].
      split; [auto|split; [auto|]]. exists e, es, (upd (vs_pred sx) pps).
      assert (Hnv : vs_pred sx <> v). { apply HDv, (I_best_dom _ _ _ _ _ I). eauto. }
      rewrite Hx2, Hb'x by auto. rewrite Hpps. simpl. tauto.
    - intros x. rewrite in_app_iff. destruct (Nat.eq_dec x v) as [->|Hx].
      + rewrite Hb'v. split; [intros _; right; left; auto|eauto].
      + rewrite Hb'x by auto. rewrite (I_best_dom _ _ _ _ _ I). simpl. intuition congruence.
    - intros es Hes. destruct (Nat.eq_dec start v) as [Hsv|Hsv].
      + rewrite Hsv, Hb'v in Hes. injection Hes as <-. apply Hnil. auto.
      + rewrite Hb'x in Hes by auto. eapply I_best_start; eauto.
    - intros x es s2 Hes H2. destruct (Nat.eq_dec x v) as [->|Hx].
      + rewrite Hb'v in Hes. injection Hes as <-. rewrite Hv2 in H2. injection H2 as <-. simpl. auto.
      + rewrite Hb'x in Hes by auto. destruct (Hsome2 _ _ Hx H2) as (sx & Hsx & ->). simpl.
        eapply I_best; eauto.
    - intros x Hes. destruct (Nat.eq_dec x v) as [->|Hx].
      + rewrite Hb'v in Hes. injection Hes as ->. apply Hnil. auto.
      + rewrite Hb'x in Hes by auto. eapply I_best_nil; eauto.
    - intros x es e Hes.
      assert (Hold : best (e_src e) = Some es /\ exists ps0, m !! e_src e = Some ps0 /\ vs_predicate ps0 = true).
      { destruct (Nat.eq_dec x v) as [->|Hx].
        - rewrite Hb'v in Hes. injection Hes as ->. apply Hstep. auto.
        - rewrite Hb'x in Hes by auto. eapply I_best_step; eauto. }
      destruct Hold as (Hb & ps0 & Hps0 & Hpp0).
      assert (Hne : e_src e <> v) by (apply Hpred2; congruence).
      rewrite Hb'x, Hx2 by auto. rewrite Hps0. simpl. eauto.
    - intros u su e Hu Hsu Hpu HP Hse Hne. rewrite Hse in Hne.
      destruct (Hsome2 _ _ Hne Hsu) as (sx & Hsx & ->). simpl in *. rewrite Hdist2.
      apply (I_relaxed _ _ _ _ _ I u); auto.
      apply in_app_or in Hu as [Hu|[Hu|[]]]; [auto|congruence].
    - intros x y sx sy Hx Hy Hsx Hsy. apply Hq in Hy as [Hy Hyv].
      destruct (Hsome2 _ _ Hyv Hsy) as (sy' & Hsy' & ->). simpl.
      destruct (Nat.eq_dec x v) as [->|Hxv].
      + rewrite Hv2 in Hsx. injection Hsx as <-. simpl.
        rewrite <- (dist_lookup _ _ _ Hvs), <- (dist_lookup _ _ _ Hsy'). apply Hmin. auto.
      + destruct (Hsome2 _ _ Hxv Hsx) as (sx' & Hsx' & ->). simpl.
        apply in_app_or in Hx as [Hx|[Hx|[]]]; [|congruence]. eapply I_order with (u := x) (v := y); eauto.
    - intros x s2 H2.
      assert (HpredD : forall w sw, In w D -> m !! w = Some sw -> vs_pred sw <> v).
      { intros w sw Hw Hsw Hp. apply HvD. rewrite <- Hp. eapply in_D_pred; eauto. }
      destruct (Nat.eq_dec x v) as [->|Hx].
      + rewrite Hv2 in H2. injection H2 as <-. simpl. split; auto.
        intros _ w sw Hw Hwv Hsw. destruct (Hsome2 _ _ Hwv Hsw) as (sw' & Hsw' & ->). simpl.
        apply in_app_or in Hw as [Hw|[Hw|[]]]; [eauto|congruence].
      + destruct (Hsome2 _ _ Hx H2) as (sx & Hsx & ->). simpl.
        destruct (Nat.eqb_spec x p) as [Hxp|Hxp].
        * split; [discriminate|]. intros H. exfalso. apply (H v vs2); auto.
          apply in_or_app. right. left. auto.
        * rewrite (I_leaf _ _ _ _ _ I _ _ Hsx). split.
          -- intros H w sw Hw Hwx Hsw. destruct (Nat.eq_dec w v) as [->|Hwv].
             ++ rewrite Hv2 in Hsw. injection Hsw as <-. simpl. auto.
             ++ destruct (Hsome2 _ _ Hwv Hsw) as (sw' & Hsw' & ->). simpl.
                apply in_app_or in Hw as [Hw|[Hw|[]]]; [eauto|congruence].
          -- intros H w sw Hw Hwx Hsw.
             apply (H w (upd w sw)); auto. apply in_or_app; auto.
             rewrite Hx2, Hsw by auto. auto. }
  assert (Hmax : forall x sx, In x (D ++ [v]) -> m2 !! x = Some sx -> le (vs_cost sx) (vs_cost vs2)).
  { intros x sx Hx Hsx. simpl. destruct (Nat.eq_dec x v) as [->|Hxv].
    - rewrite Hv2 in Hsx. injection Hsx as <-. simpl. apply le_refl; auto.
    - destruct (Hsome2 _ _ Hxv Hsx) as (sx' & Hsx' & ->). simpl.
      apply in_app_or in Hx as [Hx|[Hx|[]]]; [|congruence]. exact (I_order _ _ _ _ _ I x v sx' vs Hx Hvq Hsx' Hvs). }
  assert (exists m3 q3, relax_edges m2 q (if b then out v else []) = RelOk m3 q3 /\
            InvM best' (D ++ [v]) (fun _ => True) m3 q3 /\
            (forall x, In x (D ++ [v]) -> m3 !! x = m2 !! x)) as (m3 & q3 & E3 & I3 & F3).
  { destruct b.
    - destruct (relax_edges_inv best' (D ++ [v]) v vs2 (out v) _ _ _ I2) as (m3 & q3 & E3 & I3 & F3); auto.
      + intros e He. apply out_iff in He. auto.
      + apply in_or_app. right. left. auto.
      + exists m3, q3. split; [auto|split; [|auto]]. eapply InvM_done; [|exact I3].
        simpl. intros e HP _. destruct (Nat.eq_dec (e_src e) v); auto. right. apply out_iff. auto.
    - exists m2, q. split; [auto|split; [|auto]].
      destruct I2; constructor; auto.
      intros u su e Hu Hsu Hpu HP Hse _.
      destruct (Nat.eq_dec u v) as [->|Huv].
      + rewrite Hv2 in Hsu. injection Hsu as <-. discriminate.
      + apply (I_relaxed0 u); auto. congruence. }
  rewrite E3.
  eexists _, best'. split; [reflexivity|].
  assert (HD : visited (s_log s ++ [(info_of v vs, Some b)]) = D ++ [v]).
  { unfold visited. rewrite map_app. reflexivity. }
  split; [|reflexivity].
  unfold Inv. cbn [s_map s_queue s_log s_cb].
  change (VI v p (vs_cost vs) (vs_len vs) (vs_nlc vs)) with (info_of v vs).
  rewrite HD. split; [exact I3|]. destruct IL as [_ ILlog ILs ILc].
  constructor.
  - auto.
  - intros i a Hia. apply in_app_or in Hia as [Hia|[Hia|[]]].
    + destruct (ILlog _ _ Hia) as (sx & Hsx & Hi & Ha).
      assert (HxD : In (vi_vertex i) D).
      { unfold D, visited. apply in_map_iff. exists (i, a). auto. }
      exists (upd (vi_vertex i) sx). rewrite F3 by (apply in_or_app; auto).
      rewrite Hx2 by auto. fold m in Hsx. rewrite Hsx. auto.
    + injection Hia as <- <-. exists vs2. cbn [vi_vertex info_of].
      rewrite F3 by (apply in_or_app; right; left; auto). auto.
  - assert (forall x, In x (s_log s) -> le (vi_cost (fst x)) (vs_cost vs)).
    { intros [i a] Hia. destruct (ILlog _ _ Hia) as (sx & Hsx & Hi & Ha).
      assert (HxD : In (vi_vertex i) D).
      { unfold D, visited. apply in_map_iff. exists (i, a). auto. }
      rewrite Hi. simpl. exact (I_order _ _ _ _ _ I _ v sx vs HxD Hvq Hsx Hvs). }
    revert ILs H. generalize (s_log s). induction l as [|x l IH]; intros Hs Hall; simpl.
    + constructor; constructor.
    + inversion Hs; subst. constructor.
      * apply IH; auto. intros; apply Hall; right; auto.
      * apply Forall_app. split; auto. constructor; [apply Hall; left; auto|constructor].
  - econstructor; eauto.
Qed.

Lemma Inv_init st0 : Inv st0 (fun _ => None) (query_init start st0).
Proof.
  unfold Inv, query_init. cbn [s_map s_queue s_log s_cb visited map].
  set (s0 := VS start (czero A) 1 0 true true).
  assert (Hs : forall x s, (<[start:=s0]> ∅ : smap') !! x = Some s -> x = start /\ s = s0).
  { intros x s H. destruct (Nat.eq_dec x start) as [->|Hx].
    - rewrite lookup_insert in H. injection H as <-. auto.
    - rewrite lookup_insert_ne, lookup_empty in H by auto. discriminate. }
  split; constructor; simpl; try tauto; try discriminate; auto.
  - constructor; auto. constructor.
  - intros v [<-|[]]. auto.
  - intros v. split.
    + intros [s H]. apply Hs in H as [-> ->]. auto.
    + intros [[]|[<-|[]]]. rewrite lookup_insert. eauto.
  - intros v s H. apply Hs in H as [-> ->]. simpl. split; [apply (ok_zero _ _ _ L)|apply (zero_finite _ _ _ L)].
  - intros s H. apply Hs in H as [_ ->]. simpl. tauto.
  - intros v s [<-|[]]. congruence.
  - intros v. split; [intros [? ?]; discriminate|intros []].
  - intros v s H. apply Hs in H as [-> ->]. simpl. tauto.
  - constructor.
  - constructor.
Qed.

(** * The whole run *)
Lemma Inv_log_length st0 best s : Inv st0 best s -> length (s_log s) <= length V.
Proof.
  intros [I _]. replace (length (s_log s)) with (length (visited (s_log s))) by apply map_length.
  apply NoDup_incl_length.
  - pose proof (I_nodup _ _ _ _ _ I) as ND. apply NoDup_ListNoDup in ND.
    apply NoDup_app in ND as (N1 & _). apply NoDup_ListNoDup; auto.
  - intros x Hx. apply (I_V _ _ _ _ _ I). apply in_or_app; auto.
Qed.

Lemma srun_result st0 fuel : forall best s,
  Inv st0 best s -> length V < fuel + length (s_log s) ->
  (exists s' best', srun out cb tie fuel s = Finished s' /\ Inv st0 best' s' /\ s_queue s' = []) \/
  (exists s' best' v vs st' q, srun out cb tie fuel s = Aborted (Search (s_map s') q st' (s_log s' ++ [(info_of v vs, None)])) /\
      Inv st0 best' s' /\ In v (s_queue s') /\ s_map s' !! v = Some vs /\
      (forall x, In x (s_queue s') -> le (vs_cost vs) (dist (s_map s') x)) /\
      cb (s_cb s') (info_of v vs) = (st', None)).
Proof.
  induction fuel as [|k IH]; intros best s I Hf.
  - apply Inv_log_length in I. lia.
  - simpl. unfold sstep. destruct (pop _ _ _) as [[v q]|] eqn:Ep.
    + destruct (visit_step _ _ _ _ _ _ I Ep) as (vs & st' & ans & Hvs & Hcb & Hmin & Hin & Hres).
      destruct ans as [b|].
      * destruct Hres as (s' & best' & -> & I' & Hlog). apply (IH best'); auto.
        rewrite Hlog, app_length. simpl. lia.
      * rewrite Hres. right. exists s, best, v, vs, st', q. auto 10.
    + left. exists s, best. split; [auto|split; [auto|]].
      eapply pop_none; [|exact Ep]. intros v Hv. destruct I as [I _].
      unfold dist. destruct (s_map s !! v) as [sv|] eqn:E; [eapply I_cost; eauto|apply (ok_inf _ _ _ L)].
Qed.

(** * What the result means *)

(** The predecessor chain stored in the map. *)
Inductive chain (m : smap') : list (edge A) -> nat -> Prop :=
| chain_nil s : m !! start = Some s -> vs_len s = 1 -> vs_pred s = start -> chain m [] start
| chain_snoc es e s : chain m es (e_src e) -> m !! e_tgt e = Some s ->
    vs_len s = S (S (length es)) -> vs_pred s = e_src e -> chain m (es ++ [e]) (e_tgt e).

Lemma visited_in st0 D m log st v s :
  InvL st0 D m log st -> In v D -> m !! v = Some s -> In (info_of v s, Some (vs_predicate s)) log.
Proof.
  intros IL HD Hs. rewrite (I_D _ _ _ _ _ IL) in HD. unfold visited in HD.
  apply in_map_iff in HD as ([i a] & Hv & Hia). simpl in Hv. subst v.
  destruct (I_log _ _ _ _ _ IL _ _ Hia) as (s' & Hs' & Hi & Ha). 
  assert (s' = s) by congruence. subst s'. rewrite <- Hi, <- Ha. auto.
Qed.

Lemma best_chain best D done m q es : InvM best D done m q ->
  forall v, best v = Some es -> chain m es v.
Proof.
  intros I. induction es as [|e es IH] using rev_ind; intros v Hb.
  - assert (v = start) by (eapply I_best_nil; eauto). subst v.
    destruct (proj2 (I_dom _ _ _ _ _ I start)) as [s Hs]. { left. apply (I_best_dom _ _ _ _ _ I); eauto. }
    destruct (I_start _ _ _ _ _ I _ Hs) as (H1 & H2 & H3 & _). econstructor; eauto.
  - destruct (proj2 (I_dom _ _ _ _ _ I v)) as [s Hs]. { left. apply (I_best_dom _ _ _ _ _ I); eauto. }
    destruct (I_best _ _ _ _ _ I _ _ _ Hb Hs) as (Hw & Hc & Hl & Hn & Hp).
    apply walk_inv in Hw as (Hw & HP & Ht). subst v.
    destruct (I_best_step _ _ _ _ _ I _ _ _ Hb) as (Hb' & _).
    econstructor; eauto.
    + rewrite Hl, app_length. simpl. lia.
    + rewrite Hp. apply wpred_snoc.
Qed.

Lemma tree_simple (best : nat -> option (list (edge A))) :
  (forall v es, best v = Some es -> walk P start es v) ->
  (forall v es e, best v = Some (es ++ [e]) -> best (e_src e) = Some es) ->
  forall es v, best v = Some es -> List.NoDup (wverts start es).
Proof.
  intros Hwalk Hpre.
  (* every vertex on the way is the end of a prefix of the way *)
  assert (Hall : forall es v, best v = Some es -> forall x, In x (wverts start es) ->
            exists es1 es2, es = es1 ++ es2 /\ best x = Some es1).
  { induction es as [|e es IH] using rev_ind; intros v Hb x Hx.
    - simpl in Hx. destruct Hx as [<-|[]]. exists [], []. split; auto.
      pose proof (Hwalk _ _ Hb) as Hw. apply walk_nil_inv in Hw. subst; auto.
    - pose proof (Hwalk _ _ Hb) as Hw. apply walk_inv in Hw as (_ & _ & Ht).
      unfold wverts in Hx. rewrite map_app in Hx. rewrite app_comm_cons in Hx.
      apply in_app_or in Hx as [Hx|[Hx|[]]].
      + destruct (IH _ (Hpre _ _ _ Hb) x Hx) as (es1 & es2 & -> & Hb1).
        exists es1, (es2 ++ [e]). rewrite app_assoc. auto.
      + exists (es ++ [e]), []. rewrite app_nil_r. split; auto. congruence. }
  induction es as [|e es IH] using rev_ind; intros v Hb.
  - constructor; [intros []|constructor].
  - pose proof (Hwalk _ _ Hb) as Hw. apply walk_inv in Hw as (_ & _ & Ht).
    pose proof (Hpre _ _ _ Hb) as Hb'. specialize (IH _ Hb').
    unfold wverts. rewrite map_app. rewrite app_comm_cons.
    apply NoDup_ListNoDup. apply NoDup_app. split; [apply NoDup_ListNoDup, IH|split; [|apply NoDup_singleton]].
    intros x Hx Hxe. apply elem_of_list_singleton in Hxe. apply elem_of_list_In in Hx.
    destruct (Hall _ _ Hb' _ Hx) as (es1 & es2 & E & Hb1).
    assert (Some (es ++ [e]) = Some es1) as E2. { rewrite <- Hb, <- Hb1. f_equal. simpl in Hxe. congruence. }
    injection E2 as E2. subst es1. apply (f_equal length) in E. rewrite !app_length in E. simpl in E. lia.
Qed.

Lemma Inv_finished st0 best s :
  Inv st0 best s -> s_queue s = [] ->
  best_tree P (accepted_in (s_log s)) start best /\
  List.NoDup (visited (s_log s)) /\
  (forall v, In v (visited (s_log s)) <-> is_Some (best v)) /\
  (forall i a, In (i, a) (s_log s) -> exists es b, a = Some b /\
      best (vi_vertex i) = Some es /\ i = info_way (vi_vertex i) es) /\
  StronglySorted (fun x y => le (vi_cost (fst x)) (vi_cost (fst y))) (s_log s) /\
  calls cb st0 (s_log s) (s_cb s) /\
  (forall v es, best v = Some es -> chain (s_map s) es v) /\
  (forall v, is_Some (s_map s !! v) <-> is_Some (best v)) /\
  (forall v vs, s_map s !! v = Some vs ->
      In (info_of v vs, Some (vs_predicate vs)) (s_log s) /\
      (vs_leaf vs = true <-> forall w es e, best w = Some (es ++ [e]) -> e_src e <> v)).
Proof.
  intros [I IL] Hq. rewrite Hq in I. set (D := visited (s_log s)) in *. set (m := s_map s) in *.
  assert (HDom : forall v, is_Some (m !! v) <-> is_Some (best v)).
  { intros v. rewrite (I_dom _ _ _ _ _ I), (I_best_dom _ _ _ _ _ I). simpl. tauto. }
  assert (Hacc : forall v vs, m !! v = Some vs -> vs_predicate vs = true <-> accepted_in (s_log s) v).
  { intros v vs Hvs. split.
    - intros Hp. exists (info_of v vs). split; auto. rewrite <- Hp.
      eapply visited_in; eauto. apply (I_best_dom _ _ _ _ _ I), HDom; eauto.
    - intros (i & Hi & <-). destruct (I_log _ _ _ _ _ IL _ _ Hi) as (s' & Hs' & _ & Ha). congruence. }
  assert (Hwalk : forall v es, best v = Some es -> walk P start es v).
  { intros v es Hb. destruct (proj2 (HDom v)) as [vs Hvs]; eauto.
    apply (I_best _ _ _ _ _ I _ _ _ Hb Hvs). }
  split; [|split; [|split; [|split; [|split; [|split; [|split; [|split]]]]]]].
  - constructor.
    + pose proof (I_startin _ _ _ _ _ I) as Hs. rewrite app_nil_r in Hs.
      apply (I_best_dom _ _ _ _ _ I) in Hs as [es Hs]. rewrite Hs. f_equal. eapply I_best_start; eauto.
    + auto.
    + intros v es e Hb. destruct (I_best_step _ _ _ _ _ I _ _ _ Hb) as (Hb' & ps & Hps & Hpp).
      split; auto. eapply Hacc; eauto.
    + intros v es Hb. eapply tree_simple; eauto.
      intros v' es' e' Hb'. apply (I_best_step _ _ _ _ _ I _ _ _ Hb').
    + intros v es Hb. destruct (proj2 (HDom v)) as [vs Hvs]; eauto.
      destruct (I_best _ _ _ _ _ I _ _ _ Hb Hvs) as (_ & <- & _). eapply I_cost; eauto.
    + intros v es Hop. induction Hop as [|es e Hop IH Hac HP]; intros Hbelow.
      * pose proof (I_startin _ _ _ _ _ I) as Hs. rewrite app_nil_r in Hs.
        apply (I_best_dom _ _ _ _ _ I) in Hs as [es Hs]. exists es. split; auto.
        assert (es = []) as -> by (eapply I_best_start; eauto). apply le_refl. apply (ok_zero _ _ _ L).
      * rewrite wcost_snoc in *.
        assert (okes : cok (wcost es)) by (eapply ok_wcost, open_is_walk; eauto).
        assert (Hb1 : below_inf (wcost es)).
        { eapply lt_inf_le; [| |eapply plus_infl; eauto|exact Hbelow]; auto. eapply ok_plus; eauto. }
        destruct (IH Hb1) as (b & Hb & Hle).
        destruct (proj2 (HDom (e_src e))) as [vs Hvs]; eauto.
        destruct (I_best _ _ _ _ _ I _ _ _ Hb Hvs) as (Hwb & Hc & _).
        assert (Hin : In (e_src e) D) by (apply (I_best_dom _ _ _ _ _ I); eauto).
        pose proof (I_relaxed _ _ _ _ _ I (e_src e) vs e Hin Hvs (proj2 (Hacc _ _ Hvs) Hac) HP eq_refl Logic.I) as Hrel.
        assert (okb : cok (wcost b)) by (eapply ok_wcost; eauto).
        assert (okd : cok (dist m (e_tgt e))).
        { unfold dist. destruct (m !! e_tgt e) eqn:E; [eapply I_cost; eauto|apply (ok_inf _ _ _ L)]. }
        assert (Hle2 : le (dist m (e_tgt e)) (cplus A (wcost es) (W e))).
        { eapply le_trans with (b := cplus A (wcost b) (W e)); eauto.
          - eapply ok_plus; eauto.
          - eapply ok_plus; eauto.
          - rewrite <- Hc. auto.
          - eapply plus_mono; eauto. }
        destruct (m !! e_tgt e) as [tv|] eqn:Et.
        -- destruct (proj1 (HDom (e_tgt e))) as [bt Hbt]; eauto. exists bt. split; auto.
           destruct (I_best _ _ _ _ _ I _ _ _ Hbt Et) as (_ & <- & _).
           rewrite <- (dist_lookup _ _ _ Et). auto.
        -- exfalso. unfold dist in Hle2. rewrite Et in Hle2. unfold cle in Hle2. unfold below_inf in Hbelow.
           congruence.
  - pose proof (I_nodup _ _ _ _ _ I) as ND. rewrite app_nil_r in ND. auto.
  - intros v. symmetry. apply (I_best_dom _ _ _ _ _ I).
  - intros i a Hia. destruct (I_log _ _ _ _ _ IL _ _ Hia) as (vs & Hvs & Hi & Ha).
    destruct (proj1 (HDom (vi_vertex i))) as [es Hes]; eauto.
    exists es, (vs_predicate vs). split; [auto|split; [auto|]].
    destruct (I_best _ _ _ _ _ I _ _ _ Hes Hvs) as (_ & H1 & H2 & H3 & H4).
    rewrite Hi at 1. unfold info_of, info_way. congruence.
  - apply (I_sorted _ _ _ _ _ IL).
  - apply (I_calls _ _ _ _ _ IL).
  - intros v es Hb. eapply best_chain; eauto.
  - auto.
  - intros v vs Hvs. split.
    + eapply visited_in; eauto. apply (I_best_dom _ _ _ _ _ I), HDom; eauto.
    + rewrite (I_leaf _ _ _ _ _ I _ _ Hvs). split.
      * intros H w es e Hb He.
        destruct (proj2 (HDom w)) as [ws Hws]; eauto.
        destruct (I_best _ _ _ _ _ I _ _ _ Hb Hws) as (Hw & _ & Hl & _ & Hp).
        rewrite wpred_snoc in Hp. apply (H w ws); auto.
        -- apply (I_best_dom _ _ _ _ _ I). eauto.
        -- intros ->. destruct (I_best_step _ _ _ _ _ I _ _ _ Hb) as (Hb' & _).
           rewrite He, Hb in Hb'. injection Hb' as Hb'. apply (f_equal length) in Hb'.
           rewrite app_length in Hb'. simpl in Hb'. lia.
        -- congruence.
      * intros H w sw Hw Hwv Hsw Hp. apply (I_best_dom _ _ _ _ _ I) in Hw as [es Hb].
        destruct (I_best _ _ _ _ _ I _ _ _ Hb Hsw) as (Hwk & _ & Hl & _ & Hp').
        destruct es as [|e es] using rev_ind.
        -- unfold wpred in Hp'. simpl in Hp'. congruence.
        -- rewrite wpred_snoc in Hp'. apply (H w es e); congruence.
Qed.

(** Ways that leave no rejected vertex are not cheaper than the labels, or at least as expensive as a
    lower bound c of the queue. *)
Lemma frontier st0 best s c : Inv st0 best s -> cok c ->
  (forall x, In x (s_queue s) -> le c (dist (s_map s) x)) ->
  forall es' x, open_walk P (fun x => ~ rejected_in (s_log s) x) start es' x ->
    le (dist (s_map s) x) (wcost es') \/ le c (wcost es').
Proof.
  intros [I IL] okc Hmin. set (D := visited (s_log s)) in *. set (m := s_map s) in *.
  assert (okdist : forall x, cok (dist m x)).
  { intros x. unfold dist. destruct (m !! x) eqn:E; [eapply I_cost; eauto|apply (ok_inf _ _ _ L)]. }
  intros es' x H. induction H as [|es' e Hop' IH Hrej HP].
  - left. unfold wcost. simpl. destruct (proj2 (I_dom _ _ _ _ _ I start)) as [s0 Hs0].
    { apply in_app_or, (I_startin _ _ _ _ _ I). }
    rewrite (dist_lookup _ _ _ Hs0). destruct (I_start _ _ _ _ _ I _ Hs0) as (_ & -> & _).
    apply le_refl, (ok_zero _ _ _ L).
  - assert (okes : cok (wcost es')) by (eapply ok_wcost, open_is_walk; eauto).
    assert (okp : cok (cplus A (wcost es') (W e))) by (eapply ok_plus; eauto).
    rewrite wcost_snoc. destruct IH as [IH|IH].
    + destruct (in_dec Nat.eq_dec (e_src e) D) as [HD|HD].
      * left. destruct (proj2 (I_dom _ _ _ _ _ I (e_src e))) as [us Hus]; auto.
        assert (Hp : vs_predicate us = true).
        { destruct (vs_predicate us) eqn:E; auto. exfalso. apply Hrej. exists (info_of (e_src e) us).
          split; auto. rewrite <- E. eapply visited_in; eauto. }
        pose proof (I_relaxed _ _ _ _ _ I (e_src e) us e HD Hus Hp HP eq_refl Logic.I) as Hrel.
        rewrite (dist_lookup _ _ _ Hus) in IH.
        destruct (I_cost _ _ _ _ _ I _ _ Hus) as [oku _].
        eapply le_trans with (b := cplus A (vs_cost us) (W e)); eauto.
        -- eapply ok_plus; eauto.
        -- eapply plus_mono; eauto.
      * right. apply (le_trans _ _ _ L) with (b := dist m (e_src e)); auto.
        -- destruct (m !! e_src e) as [us|] eqn:E.
           ++ apply Hmin. destruct (proj1 (I_dom _ _ _ _ _ I (e_src e))); eauto. tauto.
           ++ unfold dist. rewrite E. apply (le_inf _ _ _ L). auto.
        -- apply (le_trans _ _ _ L) with (b := wcost es'); auto. eapply plus_infl; eauto.
    + right. apply (le_trans _ _ _ L) with (b := wcost es'); auto. eapply plus_infl; eauto.
Qed.

Lemma best_open st0 best s : Inv st0 best s ->
  forall es x, best x = Some es -> open_walk P (accepted_in (s_log s)) start es x.
Proof.
  intros [I IL].
  induction es as [|e es IH] using rev_ind; intros x Hb.
  - assert (x = start) by (eapply I_best_nil; eauto). subst. constructor.
  - destruct (I_best_step _ _ _ _ _ I _ _ _ Hb) as (Hb' & ps & Hps & Hpp).
    assert (HxD : In x (visited (s_log s))) by (apply (I_best_dom _ _ _ _ _ I); eauto).
    destruct (proj2 (I_dom _ _ _ _ _ I x)) as [xs Hxs]; auto.
    destruct (I_best _ _ _ _ _ I _ _ _ Hb Hxs) as (Hw & _).
    apply walk_inv in Hw as (_ & HP & <-). constructor; auto.
    exists (info_of (e_src e) ps). split; auto. rewrite <- Hpp. eapply visited_in; eauto.
    apply (I_best_dom _ _ _ _ _ I); eauto.
Qed.

Lemma best_simple st0 best s : Inv st0 best s ->
  forall es x, best x = Some es -> List.NoDup (wverts start es) /\ forall y, In y (wverts start es) -> In y (visited (s_log s)).
Proof.
  intros HI es x Hb. pose proof HI as [I IL]. split.
  - eapply tree_simple; eauto.
    + intros v es0 Hv. eapply open_is_walk, best_open; eauto.
    + intros v es0 e Hv. destruct (I_best_step _ _ _ _ _ I _ _ _ Hv); auto.
  - revert x Hb. induction es as [|e es IH] using rev_ind; intros x Hb y Hy.
    + assert (x = start) by (eapply I_best_nil; eauto). subst.
      destruct Hy as [<-|[]]. apply (I_best_dom _ _ _ _ _ I); eauto.
    + destruct (I_best_step _ _ _ _ _ I _ _ _ Hb) as (Hb' & _).
      unfold wverts in Hy. rewrite map_app, app_comm_cons in Hy. apply in_app_or in Hy as [Hy|[<-|[]]].
      * eapply IH; eauto.
      * pose proof (open_is_walk _ _ _ _ _ (best_open _ _ _ HI _ _ Hb)) as Hw.
        apply walk_inv in Hw as (_ & _ & ->). apply (I_best_dom _ _ _ _ _ I); eauto.
Qed.

(** Any moment of the search: the visits so far. *)
Lemma Inv_entries st0 best s : Inv st0 best s ->
  forall i a, In (i, a) (s_log s) -> exists es b, a = Some b /\ i = info_way (vi_vertex i) es /\
    open_walk P (accepted_in (s_log s)) start es (vi_vertex i) /\ List.NoDup (wverts start es) /\
    below_inf (wcost es) /\
    (forall es', open_walk P (fun x => ~ rejected_in (s_log s) x) start es' (vi_vertex i) ->
                 le (wcost es) (wcost es')).
Proof.
  intros HI i a Hin. pose proof HI as [I IL].
  destruct (I_log _ _ _ _ _ IL _ _ Hin) as (vs & Hvs & Hi & Ha).
  assert (HD : In (vi_vertex i) (visited (s_log s))).
  { unfold visited. apply in_map_iff. exists (i, a). auto. }
  destruct (proj2 (I_best_dom _ _ _ _ _ I _) HD) as [es Hes].
  destruct (I_best _ _ _ _ _ I _ _ _ Hes Hvs) as (Hw & Hc & Hl & Hn & Hp).
  destruct (I_cost _ _ _ _ _ I _ _ Hvs) as [okv binf].
  exists es, (vs_predicate vs). split; [auto|split; [|split; [|split; [|split]]]].
  - rewrite Hi at 1. unfold info_of, info_way. congruence.
  - eapply best_open; eauto.
  - eapply best_simple; eauto.
  - rewrite <- Hc; auto.
  - intros es' Hop. rewrite <- Hc.
    destruct (frontier _ _ _ _ HI okv) with (es' := es') (x := vi_vertex i) as [H|H]; auto.
    + intros x Hx. destruct (proj2 (I_dom _ _ _ _ _ I x)) as [xs Hxs]; auto.
      rewrite (dist_lookup _ _ _ Hxs). exact (I_order _ _ _ _ _ I _ _ _ _ HD Hx Hvs Hxs).
    + rewrite (dist_lookup _ _ _ Hvs) in H. auto.
Qed.

(** When the visit function throws at v. *)
Lemma Inv_aborted st0 best s v vs :
  Inv st0 best s -> In v (s_queue s) -> s_map s !! v = Some vs ->
  (forall x, In x (s_queue s) -> le (vs_cost vs) (dist (s_map s) x)) ->
  exists es, walk P start es v /\ info_of v vs = info_way v es /\ chain (s_map s) es v /\
    List.NoDup (wverts start es) /\
    below_inf (wcost es) /\ ~ In v (visited (s_log s)) /\
    open_walk P (accepted_in (s_log s)) start es v /\
    (forall es', open_walk P (fun x => ~ rejected_in (s_log s) x) start es' v -> le (wcost es) (wcost es')) /\
    (forall es' x, open_walk P (fun x => ~ rejected_in (s_log s) x) start es' x ->
                   cltb A (wcost es') (wcost es) = true -> In x (visited (s_log s))).
Proof.
  intros HI Hq Hvs Hmin. pose proof HI as [I IL]. set (D := visited (s_log s)) in *. set (m := s_map s) in *.
  destruct (I_cost _ _ _ _ _ I _ _ Hvs) as [okv binf].
  assert (HnD : ~ In v D). { intros HD. eapply D_not_q; eauto. }
  assert (exists es, walk P start es v /\ info_of v vs = info_way v es /\ chain m es v /\
            List.NoDup (wverts start es) /\
            open_walk P (accepted_in (s_log s)) start es v) as (es & Hw & Hi & Hch & Hnd & Hop).
  { destruct (Nat.eq_dec v start) as [->|Hns].
    - exists []. destruct (I_start _ _ _ _ _ I _ Hvs) as (H1 & H2 & H3 & H4 & _).
      split; [constructor|split; [|split; [econstructor; eauto|split; [constructor; [intros []|constructor]|constructor]]]].
      unfold info_of, info_way. rewrite H1, H2, H3, H4. reflexivity.
    - destruct (I_q _ _ _ _ _ I _ _ Hq Hns Hvs) as (_ & _ & e & es & ps & HP & Hs & Ht & Hb & Hps & Hpp & Hc & Hl & Hn).
      exists (es ++ [e]). destruct (I_best _ _ _ _ _ I _ _ _ Hb Hps) as (Hw & _).
      destruct (best_simple _ _ _ HI _ _ Hb) as [Hnd Hvis].
      rewrite <- Hs in Hb. subst v.
      split; [constructor; congruence|split; [|split; [|split]]].
      + unfold info_of, info_way. rewrite wpred_snoc. congruence.
      + econstructor; eauto. eapply best_chain; eauto.
        rewrite Hl, app_length. simpl. lia.
      + unfold wverts. rewrite map_app, app_comm_cons. apply NoDup_ListNoDup, NoDup_app.
        split; [apply NoDup_ListNoDup, Hnd|split; [|apply NoDup_singleton]].
        intros x Hx Hxe. simpl in Hxe. apply elem_of_list_singleton in Hxe. subst x.
        apply HnD, Hvis. apply elem_of_list_In in Hx. exact Hx.
      + constructor; auto. { eapply best_open; eauto. }
        exists (info_of (e_src e) ps). split; auto. rewrite <- Hpp. eapply visited_in; eauto.
        * apply (I_best_dom _ _ _ _ _ I). eauto.
        * congruence. }
  assert (Hcv : vs_cost vs = wcost es).
  { apply (f_equal vi_cost) in Hi. exact Hi. }
  exists es. split; [auto|split; [auto|split; [auto|split; [auto|split; [rewrite <- Hcv; auto|split; [auto|split; [auto|]]]]]]].
  rewrite <- Hcv. split.
  - intros es' Hop'. destruct (frontier _ _ _ _ HI okv Hmin _ _ Hop') as [H|H]; auto.
    fold m in H. rewrite (dist_lookup _ _ _ Hvs) in H. auto.
  - intros es' x Hop' Hlt. destruct (frontier _ _ _ _ HI okv Hmin _ _ Hop') as [H|H].
    2:{ unfold le, cle in H. congruence. }
    assert (okes : cok (wcost es')) by (eapply ok_wcost, open_is_walk; eauto).
    fold m in H. destruct (m !! x) as [xs|] eqn:E.
    + destruct (proj1 (I_dom _ _ _ _ _ I x)) as [HD|Hxq]; eauto.
      exfalso. pose proof (Hmin x Hxq) as Hm. fold m in Hm. rewrite (dist_lookup _ _ _ E) in H, Hm.
      destruct (I_cost _ _ _ _ _ I _ _ E) as [okx _].
      pose proof (le_trans _ _ _ L _ _ _ okv okx okes Hm H) as HH. unfold cle in HH. congruence.
    + exfalso. unfold dist in H. rewrite E in H.
      pose proof (lt_le_trans _ _ _ L _ _ _ okes okv (ok_inf _ _ _ L) Hlt (le_inf _ _ _ L _ okv)) as HH.
      unfold le, cle in H. congruence.
Qed.

(** * buildPath *)
Lemma set_at_middle (l r : list (option nat)) x y :
  set_at (length l) x (l ++ y :: r) = Some (l ++ Some x :: r).
Proof.
  unfold set_at. assert ((length l <? length (l ++ y :: r)) = true) as ->.
  { apply Nat.ltb_lt. rewrite app_length. simpl. lia. }
  rewrite List.firstn_app, List.firstn_all, Nat.sub_diag. simpl. rewrite app_nil_r.
  f_equal. f_equal. f_equal. rewrite List.skipn_app.
  rewrite List.skipn_all2 by lia. replace (S (length l) - length l) with 1 by lia. reflexivity.
Qed.

Lemma chain_lookup m es v : chain m es v -> exists s, m !! v = Some s /\ vs_len s = S (length es) /\
   vs_pred s = wpred es v.
Proof.
  intros H. destruct H.
  - exists s. auto.
  - exists s. rewrite app_length, wpred_snoc. simpl. repeat split; auto. lia.
Qed.

Lemma build_forward m es v : chain m es v -> forall rest size fuel,
  length es < fuel ->
  build_loop false m size fuel v (repeat None (S (length es)) ++ map Some rest) =
  BPPath (map Some (wverts start es ++ rest)).
Proof.
  induction 1 as [s Hs Hl Hp|es e s Hch IH Hs Hl Hp]; intros rest size fuel Hf;
    (destruct fuel as [|k]; [lia|]); simpl build_loop; rewrite Hs, Hl.
  - simpl. unfold set_at. simpl. rewrite Hp, Nat.eqb_refl. reflexivity.
  - rewrite app_length in *. simpl length in *. rewrite Nat.add_1_r in *.
    replace (None :: repeat None (S (length es)) ++ map Some rest)
      with (repeat (@None nat) (S (length es)) ++ None :: map Some rest).
    2:{ rewrite app_comm_cons, (repeat_cons (S (length es))), <- app_assoc. reflexivity. }
    assert (Hset := set_at_middle (repeat None (S (length es))) (map Some rest) (e_tgt e) None).
    rewrite repeat_length in Hset. rewrite Hset.
    destruct (chain_lookup _ _ _ Hch) as (s' & Hs' & Hl' & _).
    destruct (Nat.eqb_spec (vs_pred s) (e_tgt e)) as [E|E].
    { exfalso. rewrite Hp in E. rewrite E, Hs in Hs'. injection Hs' as <-. lia. }
    rewrite Hp. pose proof (IH (e_tgt e :: rest) size k ltac:(lia)) as E2. cbn [map] in E2. rewrite E2.
    unfold wverts. f_equal. f_equal. rewrite map_app. cbn [map]. rewrite app_comm_cons, <- app_assoc. reflexivity.
Qed.

Lemma build_backward m es v : chain m es v -> forall done fuel,
  length es < fuel ->
  build_loop true m (length done + S (length es)) fuel v (map Some done ++ repeat None (S (length es))) =
  BPPath (map Some (done ++ rev (wverts start es))).
Proof.
  induction 1 as [s Hs Hl Hp|es e s Hch IH Hs Hl Hp]; intros done fuel Hf;
    (destruct fuel as [|k]; [lia|]); simpl build_loop; rewrite Hs, Hl.
  - simpl. rewrite (proj2 (Nat.ltb_ge _ _)) by lia. rewrite Nat.add_sub.
    assert (Hset := set_at_middle (map Some done) [] start None). rewrite map_length in Hset. rewrite Hset.
    rewrite Hp, Nat.eqb_refl. rewrite map_app. reflexivity.
  - rewrite app_length in *. simpl length in *. rewrite Nat.add_1_r in *.
    rewrite (proj2 (Nat.ltb_ge _ _)) by lia. rewrite Nat.add_sub.
    assert (Hset := set_at_middle (map Some done) (repeat None (S (length es))) (e_tgt e) None).
    rewrite map_length in Hset. simpl repeat in *. rewrite Hset.
    destruct (chain_lookup _ _ _ Hch) as (s' & Hs' & Hl' & _).
    destruct (Nat.eqb_spec (vs_pred s) (e_tgt e)) as [E|E].
    { exfalso. rewrite Hp in E. rewrite E, Hs in Hs'. injection Hs' as <-. lia. }
    rewrite Hp.
    specialize (IH (done ++ [e_tgt e]) k ltac:(lia)).
    rewrite app_length, map_app, <- app_assoc in IH. simpl in IH.
    replace (length done + 1 + S (length es)) with (length done + S (S (length es))) in IH by lia.
    rewrite IH. f_equal. f_equal. unfold wverts. simpl. rewrite map_app, rev_app_distr. simpl.
    rewrite <- !app_assoc. reflexivity.
Qed.

Lemma build_path_chain backw m es v : chain m es v ->
  build_path backw m v = BPPath (map Some (oriented backw (wverts start es))).
Proof.
  intros Hch. unfold build_path. destruct (chain_lookup _ _ _ Hch) as (s & Hs & Hl & _).
  rewrite Hs, Hl. destruct backw.
  - exact (build_backward m es v Hch [] (S (S (length es))) ltac:(lia)).
  - pose proof (build_forward m es v Hch [] (S (length es)) (S (S (length es))) ltac:(lia)) as H.
    simpl map in H. rewrite !app_nil_r in H. exact H.
Qed.
End Correct.
