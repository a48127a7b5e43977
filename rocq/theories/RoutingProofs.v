(** The graph queries of the public interface. *)
From Coq Require Import NArith List Bool Arith Lia Sorted ZifyBool ZifyNat.
From stdpp Require Import gmap.
From Verif Require Import CostAlg GraphModel GraphSpec GraphProofs DijkstraModel RoutingSpec VisitSpec DijkstraProofs.
Import ListNotations.

Section Api.
Context {A : CostAlg} (cok wok : cost A -> Prop) (L : CostLaws A cok wok).
Variable g : graph A.
Hypothesis Hg : graph_ok g.

Section View.
Variables (backw lc ar : bool) (costid : N).
Let w : gview A := GView g costid (view_mask (routing_view lc ar)).
Let P : edge A -> Prop := directed backw (drivable g costid lc ar).
Let V : list nat := seq 0 (length (g_verts g)).

Lemma view_drivable (e : edge A) : In e (g_edges g) ->
  edge_passes costid (view_mask (routing_view lc ar)) (e_info e) = true <-> drivable g costid lc ar e.
Proof.
  intros He. rewrite view_exact by (destruct lc, ar; discriminate).
  unfold drivable, allowed. destruct lc, ar; simpl; intuition congruence.
Qed.

Lemma out_iff u e : In e (directed_out backw w u) <-> P e /\ e_src e = u.
Proof.
  unfold directed_out, P, directed. destruct backw.
  - rewrite in_map_iff. unfold in_edges, reversed. split.
    + intros (e' & <- & H). apply filter_In in H as [Hin H]. apply andb_true_iff in H as [H1 H2].
      apply Nat.eqb_eq in H1. split; [|simpl; auto]. exists e'. simpl.
      split; [|auto]. apply view_drivable; auto.
    + intros [(e' & Hd & H1 & H2 & H3) Hu]. exists e'. split.
      * destruct e; simpl in *. unfold flip_edge. congruence.
      * apply filter_In. split; [apply Hd|]. apply andb_true_iff. split.
        -- apply Nat.eqb_eq. congruence.
        -- apply view_drivable; auto. apply Hd.
  - unfold out_edges. rewrite filter_In, andb_true_iff, Nat.eqb_eq. split.
    + intros (Hin & H1 & H2). split; auto. apply view_drivable; auto.
    + intros [Hd H]. split; [apply Hd|]. split; auto. apply view_drivable; auto. apply Hd.
Qed.

Lemma out_w e : P e -> wok (ei_cost (e_info e)).
Proof.
  unfold P, directed. intros H. apply (wok_iff _ _ _ L). destruct backw.
  - destruct H as (e' & [Hin _] & _ & _ & ->). apply (go_edges _ Hg) in Hin. tauto.
  - destruct H as [Hin _]. apply (go_edges _ Hg) in Hin. tauto.
Qed.

Lemma out_V e : P e -> In (e_tgt e) V.
Proof.
  unfold P, directed. intros H. apply in_seq. simpl. destruct backw.
  - destruct H as (e' & [Hin _] & _ & -> & _). apply (go_edges _ Hg) in Hin. lia.
  - destruct H as [Hin _]. apply (go_edges _ Hg) in Hin. lia.
Qed.

Lemma walk_V s es v : In s V -> walk P s es v -> forall x, In x (wverts s es) -> In x V.
Proof.
  intros Hs H. induction H as [|es e H IH HP]; intros x Hx.
  - destruct Hx as [<-|[]]. auto.
  - unfold wverts in Hx. rewrite map_app, app_comm_cons in Hx.
    apply in_app_or in Hx as [Hx|[<-|[]]]; [apply IH; auto|apply out_V; auto].
Qed.

Lemma start_V s : s < length (g_verts g) -> In s V.
Proof. intros. apply in_seq. lia. Qed.

Section Start.
Context {St : Type} (cb : St -> vinfo A -> St * option bool) (tie : nat -> nat) (st : St).
Variable s : nat.
Hypothesis Hs : s < length (g_verts g).

Lemma query_cases :
  (exists r best, query (directed_out backw w) cb tie (search_fuel g) s st = Finished r /\
      Inv cok P cb s V st best r /\ s_queue r = []) \/
  (exists r best v vs st' q,
      query (directed_out backw w) cb tie (search_fuel g) s st =
        Aborted (Search (s_map r) q st' (s_log r ++ [(info_of v vs, None)])) /\
      Inv cok P cb s V st best r /\ In v (s_queue r) /\ s_map r !! v = Some vs /\
      (forall x, In x (s_queue r) -> cle A (vs_cost vs) (dist (s_map r) x)) /\
      cb (s_cb r) (info_of v vs) = (st', None)).
Proof.
  unfold query, search_fuel.
  apply (srun_result cok wok L P (directed_out backw w) cb tie s V out_iff out_w (start_V _ Hs) out_V st _
           (fun _ => None)).
  - apply (Inv_init cok wok L P cb tie s V (start_V _ Hs)).
  - simpl. unfold V. rewrite seq_length. lia.
Qed.

Definition finished_facts := Inv_finished cok wok L P (directed_out backw w) cb tie s V out_iff out_w out_V.
Definition aborted_facts := Inv_aborted cok wok L P (directed_out backw w) cb tie s V out_iff out_w out_V.
Definition entry_facts := Inv_entries cok wok L P (directed_out backw w) cb tie s V out_iff out_w out_V.
Definition build_facts := build_path_chain wok P (directed_out backw w) tie s V out_iff out_w out_V.
End Start.

Lemma below_prefix s es e : walk P s es (e_src e) -> P e -> below_inf (wcost (es ++ [e])) -> below_inf (wcost es).
Proof.
  intros Hw HP. rewrite wcost_snoc.
  pose proof (ok_wcost cok wok L P out_w _ _ _ Hw) as Hok.
  pose proof (out_w _ HP) as Hwok.
  apply (lt_inf_le cok wok L); auto.
  - apply (ok_plus _ _ _ L); auto.
  - apply (plus_infl _ _ _ L); auto.
Qed.
End View.

(** * Casting a vertex path *)
Lemma cast_path_spec lo vs :
  (forall v, In v vs -> v < length (g_verts g)) ->
  (exists p, cast_path g lo (map Some vs) = QRet p /\ elements g vs p) \/
  (cast_path g lo (map Some vs) = QThrow /\ lo = true /\ exists v d, In v vs /\ vertex_elem g v = Some (EArea d)).
Proof.
  induction vs as [|v vs IH]; intros Hv; simpl.
  - left. exists []. split; auto. constructor.
  - destruct (vertex_elem g v) as [e|] eqn:E.
    2:{ exfalso. apply nth_error_None in E. specialize (Hv v (or_introl eq_refl)). lia. }
    unfold cast. destruct (lo && negb (is_lanelet e)) eqn:El.
    + right. apply andb_true_iff in El as [-> El]. split; [auto|split; [auto|]].
      destruct e; [discriminate|]. exists v, data. auto.
    + destruct IH as [(p & -> & Hp)|(-> & -> & v' & d & H1 & H2)].
      * intros x Hx. apply Hv. right; auto.
      * left. exists (e :: p). split; auto. constructor; auto.
      * right. split; [auto|split; [auto|]]. exists v', d. auto.
Qed.

Lemma calls_answer {St I R} (cb : St -> I -> St * R) st log st' :
  calls cb st log st' -> forall i r, In (i, r) log -> exists s1 s2, cb s1 i = (s2, r).
Proof.
  induction 1 as [|st log st' i st'' r H IH Hcb]; intros i' r' Hin; [destruct Hin|].
  apply in_app_or in Hin as [Hin|[Hin|[]]]; eauto. injection Hin as <- <-. eauto.
Qed.

Lemma get_filtered_cases n costid :
  (get_filtered g n costid = None /\ (g_numcosts g <= costid)%N) \/
  (get_filtered g n costid = Some (GView g costid (view_mask n)) /\ (costid < g_numcosts g)%N).
Proof.
  unfold get_filtered. destruct (N.leb_spec (g_numcosts g) costid); auto.
Qed.

(** * shortestPath *)
Lemma shortest_path_spec tie a b costid lc ar :
  let P := drivable g costid lc ar in
  match shortest_path tie g a b costid lc ar with
  | QRet (Some p) => path_between g P a b p /\ (costid < g_numcosts g)%N
  | QRet None => no_path g P a b
  | QThrow => (exists s t, get_vertex g a = Some s /\ get_vertex g b = Some t) /\
      ((g_numcosts g <= costid)%N \/ (ar = false /\ area_between g P a b))
  | QBroken => False
  end.
Proof.
  intros P. unfold shortest_path.
  destruct (get_vertex g a) as [s|] eqn:Ea; [|intros s t H; congruence].
  destruct (get_vertex g b) as [t|] eqn:Eb; [|intros s' t H H'; congruence].
  destruct (get_filtered_cases (routing_view lc ar) costid) as [[-> Hc]|[-> Hc]]; [eauto 6|].
  destruct (go_lookup _ Hg _ _ Ea) as [_ Hs]. destruct (go_lookup _ Hg _ _ Eb) as [_ Ht].
  destruct (query_cases false lc ar costid (dest_cb t) tie tt s Hs)
    as [(r & best & -> & HI & Hq)|(r & best & v & vs & st' & q & -> & HI & Hvq & Hvs & Hmin & Hcb)].
  - intros s' t' H1 H2 es Hw Hb. rewrite Ea in H1. rewrite Eb in H2.
    injection H1 as <-. injection H2 as <-.
    destruct (finished_facts false lc ar costid (dest_cb t) tie s _ _ _ HI Hq)
      as (Hbt & _ & Hvis & Hinfo & _ & Hcalls & _).
    assert (Hans : forall v, is_Some (best v) -> v <> t /\ accepted_in (s_log r) v).
    { intros v Hv. apply Hvis in Hv. unfold visited in Hv. apply in_map_iff in Hv as ([i ans] & Hi & Hin).
      simpl in Hi. subst v. destruct (Hinfo _ _ Hin) as (es0 & b0 & -> & _).
      destruct (calls_answer _ _ _ _ Hcalls _ _ Hin) as (s1 & s2 & Hcb). unfold dest_cb in Hcb.
      destruct (Nat.eqb_spec (vi_vertex i) t); [discriminate|]. injection Hcb as _ <-.
      split; auto. exists i. auto. }
    assert (Hopen : forall es v, walk P s es v -> below_inf (wcost es) ->
              open_walk P (accepted_in (s_log r)) s es v).
    { clear - Hbt Hans Hg L. induction 1 as [|es e H IH HP]; intros Hb; constructor; auto.
      - apply IH. eapply (below_prefix false lc ar costid); eauto.
      - assert (Hb' : below_inf (wcost es)) by (eapply (below_prefix false lc ar costid); eauto).
        destruct (bt_optimal _ _ _ _ Hbt _ _ (IH Hb') Hb') as (b' & Hb1 & _).
        apply Hans. eauto. }
    destruct (bt_optimal _ _ _ _ Hbt _ _ (Hopen _ _ Hw Hb) Hb) as (b' & Hb1 & _).
    destruct (Hans t); eauto.
  - destruct (aborted_facts false lc ar costid (dest_cb t) tie s _ _ _ _ _ HI Hvq Hvs Hmin)
      as (es & Hw & Hi & Hch & Hnd & Hb & _ & _ & Hopt & _).
    assert (v = t) as ->.
    { unfold dest_cb in Hcb. simpl in Hcb. destruct (Nat.eqb_spec v t); [auto|discriminate]. }
    unfold path_elems. cbn [s_map].
    rewrite (build_facts false lc ar costid tie s false _ _ _ Hch). cbn [oriented].
    assert (Hshort : shortest_way P s t es).
    { split; auto. intros es' Hw'. apply Hopt.
      assert (Hnr : forall x, ~ rejected_in (s_log r) x).
      { intros x (i & Hin & _). destruct HI as [_ HL].
        destruct (calls_answer _ _ _ _ (I_calls _ _ _ _ _ _ HL) _ _ Hin) as (s1 & s2 & Hc1).
        unfold dest_cb in Hc1. destruct (Nat.eqb _ _); discriminate. }
      clear - Hw' Hnr. induction Hw'; constructor; auto. }
    destruct (cast_path_spec (negb ar) (wverts s es)) as [(p & Hp & Hel)|(Hp & Har & v & d & Hv & Hd)].
    + intros x Hx. eapply (walk_V false lc ar costid) in Hx; eauto; [|apply start_V; auto].
      apply in_seq in Hx. lia.
    + rewrite Hp. split; auto. exists s, t, es. auto 8.
    + rewrite Hp. split; [eauto|]. right. split; [destruct ar; auto; discriminate|].
      exists s, t, es, v, d. auto.
Qed.

(** * shortestPathVia *)
Section Via.
Variables (sp : elem -> elem -> qres (option (list elem))) (R : elem -> elem -> list elem -> Prop).
Hypothesis HR : forall a b p, R a b p -> exists q, p = a :: q.

Lemma via_loop_spec rest : forall cur path,
  (forall a b p, sp a b = QRet (Some p) -> R a b p) ->
  (forall a b, sp a b <> QBroken) ->
  rest <> [] ->
  match via_loop sp cur rest path with
  | QRet (Some r) => exists q, via_path R (cur :: rest) (cur :: q) /\
        r = match path with [] => cur :: q | _ => path ++ q end
  | QRet None => exists a b, consecutive (cur :: rest) a b /\ sp a b = QRet None
  | QThrow => exists a b, consecutive (cur :: rest) a b /\ sp a b = QThrow
  | QBroken => False
  end.
Proof.
  induction rest as [|n rest IH]; intros cur path Hsp Hnb Hne; [congruence|]. cbn [via_loop].
  destruct (sp cur n) as [[p|]| |] eqn:E.
  - pose proof (Hsp _ _ _ E) as Hp. destruct (HR _ _ _ Hp) as (q & ->).
    destruct rest as [|n' rest'].
    + cbn [via_loop]. exists q. split; [apply via_one; auto|]. destruct path; reflexivity.
    + set (path1 := match path with [] => [cur] | _ => path end).
      assert (Hp1 : exists y ys, path1 = y :: ys) by (unfold path1; destruct path; eauto).
      specialize (IH n (path1 ++ q) Hsp Hnb ltac:(discriminate)).
      destruct (via_loop sp n (n' :: rest') (path1 ++ q)) as [[r|]| |].
      * destruct IH as (q' & Hv & ->). exists (q ++ q'). split.
        -- rewrite app_comm_cons. apply via_more; auto.
        -- destruct Hp1 as (y & ys & Hy). rewrite Hy. cbn [app].
           unfold path1 in Hy. destruct path; injection Hy as <- <-; cbn [app]; rewrite ?app_assoc; reflexivity.
      * destruct IH as (a & b & (pre & post & Hc) & Ha). exists a, b. split; auto.
        exists (cur :: pre), post. rewrite Hc. reflexivity.
      * destruct IH as (a & b & (pre & post & Hc) & Ha). exists a, b. split; auto.
        exists (cur :: pre), post. rewrite Hc. reflexivity.
      * auto.
  - exists cur, n. split; auto. exists [], rest. reflexivity.
  - exists cur, n. split; auto. exists [], rest. reflexivity.
  - destruct (Hnb _ _ E).
Qed.
End Via.

Lemma path_between_head P a b p : path_between g P a b p -> exists q, p = a :: q.
Proof.
  intros (s & t & es & Ha & _ & _ & _ & _ & Hel). destruct (go_lookup _ Hg _ _ Ha) as [Hv _].
  unfold wverts in Hel. inversion Hel; subst. rewrite Hv in H1. injection H1 as <-. eauto.
Qed.

Lemma shortest_path_via_spec tie a via b costid lc ar :
  let P := drivable g costid lc ar in
  let points := a :: via ++ [b] in
  match shortest_path_via tie g a via b costid lc ar with
  | QRet (Some p) => via_path (path_between g P) points p
  | QRet None => exists x y, consecutive points x y /\ no_path g P x y
  | QThrow => (g_numcosts g <= costid)%N \/
       (ar = false /\ exists x y, consecutive points x y /\ area_between g P x y)
  | QBroken => False
  end.
Proof.
  intros P points. unfold shortest_path_via.
  set (sp := fun x y => shortest_path tie g x y costid lc ar).
  assert (Hsp : forall x y, match sp x y with
              | QRet (Some p) => path_between g P x y p /\ (costid < g_numcosts g)%N
              | QRet None => no_path g P x y
              | QThrow => (exists s t, get_vertex g x = Some s /\ get_vertex g y = Some t) /\
                  ((g_numcosts g <= costid)%N \/ (ar = false /\ area_between g P x y))
              | QBroken => False end) by (intros; apply shortest_path_spec).
  pose proof (via_loop_spec sp (path_between g P) (path_between_head P) (via ++ [b]) a []) as H.
  assert (H1 : forall x y p, sp x y = QRet (Some p) -> path_between g P x y p).
  { intros x y p E. specialize (Hsp x y). rewrite E in Hsp. tauto. }
  assert (H2 : forall x y, sp x y <> QBroken).
  { intros x y E. specialize (Hsp x y). rewrite E in Hsp. auto. }
  specialize (H H1 H2 ltac:(destruct via; discriminate)).
  destruct (via_loop sp a (via ++ [b]) []) as [[r|]| |].
  - destruct H as (q & Hv & ->). exact Hv.
  - destruct H as (x & y & Hc & E). exists x, y. split; auto. specialize (Hsp x y). rewrite E in Hsp. auto.
  - destruct H as (x & y & Hc & E). specialize (Hsp x y). rewrite E in Hsp.
    destruct Hsp as [_ [Hsp|[Hsp1 Hsp2]]]; [left; auto|right; split; auto; eauto].
  - auto.
Qed.

(** * Searches with a stop criterion *)
Lemma crit_cb_total crit st i : crit_cb (A := A) crit st i = (st, Some (crit i)).
Proof. reflexivity. Qed.

Section Crit.
Variables (backw lc ar : bool) (costid : N) (tie : nat -> nat) (s : nat) (crit : vinfo A -> bool).
Hypothesis Hs : s < length (g_verts g).
Let w : gview A := GView g costid (view_mask (routing_view lc ar)).
Let P : edge A -> Prop := directed backw (drivable g costid lc ar).

(** The map after the search describes a tree that is extended where the criterion holds. *)
Lemma crit_search :
  exists r best, query (directed_out backw w) (crit_cb crit) tie (search_fuel g) s tt = Finished r /\
    best_tree P (fun v => exists es, best v = Some es /\ crit (info_way v es) = true) s best /\
    (forall v, is_Some (s_map r !! v) <-> is_Some (best v)) /\
    (forall v es, best v = Some es -> chain s (s_map r) es v) /\
    (forall v vs es, s_map r !! v = Some vs -> best v = Some es ->
       vs_predicate vs = crit (info_way v es) /\
       (vs_leaf vs = true <-> forall x es' e, best x = Some (es' ++ [e]) -> e_src e <> v)).
Proof.
  destruct (query_cases backw lc ar costid (crit_cb crit) tie tt s Hs)
    as [(r & best & Hq1 & HI & Hq)|(r & best & v & vs & st' & q & _ & _ & _ & _ & _ & Hcb)].
  2:{ rewrite crit_cb_total in Hcb. discriminate. }
  destruct (finished_facts backw lc ar costid (crit_cb crit) tie s _ _ _ HI Hq)
      as (Hbt & _ & Hvis & Hinfo & _ & Hcalls & Hch & Hdom & Hpl).
  assert (Hans : forall i a, In (i, a) (s_log r) -> a = Some (crit i)).
  { intros i a Hin. destruct (calls_answer _ _ _ _ Hcalls _ _ Hin) as (s1 & s2 & Hcb).
    rewrite crit_cb_total in Hcb. congruence. }
  assert (Hacc : forall v, accepted_in (s_log r) v <-> exists es, best v = Some es /\ crit (info_way v es) = true).
  { intros v. split.
    - intros (i & Hin & <-). destruct (Hinfo _ _ Hin) as (es & b & _ & Hb & Hi).
      exists es. split; auto. rewrite <- Hi. apply Hans in Hin. congruence.
    - intros (es & Hb & Hc). assert (Hv : In v (visited (s_log r))) by (apply Hvis; eauto).
      unfold visited in Hv. apply in_map_iff in Hv as ([i a] & Hi & Hin). simpl in Hi. subst v.
      destruct (Hinfo _ _ Hin) as (es' & b & _ & Hb' & Hi).
      rewrite Hb in Hb'. injection Hb' as <-. exists i. split; auto.
      rewrite (Hans _ _ Hin) in Hin. rewrite Hi in Hin at 2. rewrite Hc in Hin. auto. }
  exists r, best. split; [exact Hq1|]. split; [|split; [exact Hdom|split; [exact Hch|]]].
  - destruct Hbt as [B1 B2 B3 B4 B5 B6]. constructor; auto.
    + intros v es e Hb. destruct (B3 _ _ _ Hb) as [H1 H2]. split; auto. apply Hacc; auto.
    + intros v es Hop. apply B6. clear - Hop Hacc. induction Hop; constructor; auto. apply Hacc; auto.
  - intros v vs es Hm Hb. destruct (Hpl _ _ Hm) as [Hin Hleaf]. split; auto.
    destruct (Hinfo _ _ Hin) as (es' & b & _ & Hb' & Hi). simpl in Hb', Hi.
    rewrite Hb in Hb'. injection Hb' as <-. apply Hans in Hin. rewrite Hi in Hin. congruence.
Qed.
End Crit.

Lemma map_vertices_spec m keep v :
  In v (map_vertices g m keep) <-> v < length (g_verts g) /\ exists s, m !! v = Some s /\ keep s = true.
Proof.
  unfold map_vertices. rewrite filter_In, in_seq. split.
  - intros [H1 H2]. split; [lia|]. destruct (m !! v); [eauto|discriminate].
  - intros [H1 (s & -> & H2)]. split; [lia|auto].
Qed.
Lemma map_vertices_nodup m keep : List.NoDup (map_vertices g m keep).
Proof. unfold map_vertices. apply List.NoDup_filter, seq_NoDup. Qed.

Lemma reachable_set_spec backw ar tie a c costid lc : comparable cok c ->
  let P := directed backw (drivable g costid lc ar) in
  let reachable s v := exists es, walk P s es v /\ below_inf (wcost es) /\ cle A (wcost es) c in
  match reachable_set backw ar tie g a c costid lc with
  | QRet l => match get_vertex g a with
              | None => l = []
              | Some s => exists vs, List.NoDup vs /\ elements g vs l /\ forall v, In v vs <-> reachable s v
              end
  | QThrow => exists s, get_vertex g a = Some s /\ ((g_numcosts g <= costid)%N \/
                (ar = false /\ exists v d, reachable s v /\ vertex_elem g v = Some (EArea d)))
  | QBroken => False
  end.
Proof.
  intros Hcomp P reachable. unfold reachable_set.
  destruct (get_vertex g a) as [s|] eqn:Ea; [|reflexivity].
  destruct (get_filtered_cases (routing_view lc ar) costid) as [[-> Hc]|[-> Hc]]; [eauto|].
  destruct (go_lookup _ Hg _ _ Ea) as [_ Hs].
  unfold reachable_set_impl. cbn [v_graph].
  destruct (crit_search backw lc ar costid tie s (cost_within true c) Hs)
    as (r & best & -> & Hbt & Hdom & Hch & Hpl).
  fold P in Hbt.
  set (vs := map_vertices g (s_map r) vs_predicate).
  assert (Hvs : forall v, In v vs <-> reachable s v).
  { intros v. unfold vs. rewrite map_vertices_spec. split.
    - intros (_ & x & Hx & Hp). destruct (proj1 (Hdom v)) as [es Hes]; eauto.
      destruct (Hpl _ _ _ Hx Hes) as [Hp' _]. rewrite Hp in Hp'.
      exists es. split; [|split].
      + eapply bt_walk; eauto.
      + eapply bt_below; eauto.
      + symmetry in Hp'. unfold cost_within in Hp'. apply negb_true_iff in Hp'. exact Hp'.
    - intros (es & Hw & Hb & Hle).
      assert (Hin : In v (wverts s es)).
      { destruct Hw; [left; auto|]. right. rewrite map_app. apply in_or_app. right. left. reflexivity. }
      assert (HV : v < length (g_verts g)).
      { eapply (walk_V backw lc ar costid) in Hin; eauto; [|apply start_V; auto]. apply in_seq in Hin. lia. }
      split; auto.
      assert (Hgen : open_walk P (fun v => exists es, best v = Some es /\ cost_within true c (info_way v es) = true) s es v /\
                 exists b, best v = Some b /\ cost_within true c (info_way v b) = true).
      { clear HV Hin. induction Hw as [|es e Hw IH HP].
        - split; [constructor|]. exists []. split; [apply (bt_start _ _ _ _ Hbt)|].
          unfold cost_within, info_way. simpl vi_cost. apply negb_true_iff. exact Hle.
        - pose proof (ok_wcost cok wok L P (out_w backw lc ar costid) _ _ _ Hw) as Hok.
          pose proof (out_w backw lc ar costid _ HP) as Hwok.
          pose proof (ok_plus _ _ _ L _ _ Hok Hwok) as Hok'.
          destruct IH as [Hop Hacc].
          { eapply (below_prefix backw lc ar costid); eauto. }
          { eapply Hcomp. 4: exact Hle. auto. rewrite wcost_snoc; auto.
            rewrite wcost_snoc. apply (plus_infl _ _ _ L); auto. }
          assert (Hop' : open_walk P (fun v => exists es, best v = Some es /\ cost_within true c (info_way v es) = true) s (es ++ [e]) (e_tgt e)).
          { constructor; auto. }
          split; auto.
          destruct (bt_optimal _ _ _ _ Hbt _ _ Hop' Hb) as (b & Hb1 & Hb2). exists b. split; auto.
          unfold cost_within, info_way. simpl vi_cost. apply negb_true_iff.
          eapply Hcomp. 4: exact Hle.
          + eapply (ok_wcost cok wok L P (out_w backw lc ar costid)), bt_walk; eauto.
          + rewrite wcost_snoc; auto.
          + auto. }
      destruct Hgen as [_ (b & Hb1 & Hb2)].
      destruct (proj2 (Hdom v)) as [x Hx]; eauto. exists x. split; auto.
      destruct (Hpl _ _ _ Hx Hb1) as [-> _]. auto. }
  destruct (cast_path_spec (negb ar) vs) as [(p & -> & Hel)|(-> & Har & v & d & Hv & Hd)].
  - intros v Hv. apply map_vertices_spec in Hv. tauto.
  - exists vs. split; [apply map_vertices_nodup|auto].
  - exists s. split; auto. right. split; [destruct ar; auto; discriminate|].
    exists v, d. split; auto. apply Hvs; auto.
Qed.

(** * possiblePaths *)
Lemma collect_spec f (Q : nat -> list elem -> Prop) l :
  (forall v, In v l -> match f v with QRet p => Q v p | QThrow => True | QBroken => False end) ->
  match collect f l with
  | QRet ps => Forall2 Q l ps
  | QThrow => exists v, In v l /\ f v = QThrow
  | QBroken => False
  end.
Proof.
  induction l as [|v l IH]; intros H; simpl; [constructor|].
  pose proof (H v (or_introl eq_refl)) as Hv. destruct (f v) as [p| |] eqn:E; [| |contradiction].
  - specialize (IH ltac:(intros; apply H; right; auto)).
    destruct (collect f l) as [ps| |]; [constructor; auto| |auto].
    destruct IH as (x & Hx & Ex). exists x. split; [right|]; auto.
  - exists v. split; [left|]; auto.
Qed.

Lemma pp_criterion_spec p crit : pp_criterion (A := A) p = Some crit ->
  forall v es, crit (info_way v es) = true <-> in_limits p es.
Proof.
  unfold pp_criterion, in_limits, cost_within, length_within. intros H v es.
  destruct (pp_cost p) as [c|], (pp_elems p) as [n|]; try discriminate; injection H as <-; simpl vi_cost; simpl vi_len.
  - rewrite andb_true_iff, Nat.ltb_lt. split.
    + intros [H1 H2]. split; intros ? E; injection E as <-; auto.
    + intros [H1 H2]. auto.
  - split; [intros H; split; intros ? E; [injection E as <-; auto|discriminate]|intros [H _]; auto].
  - rewrite Nat.ltb_lt. split; [intros H; split; intros ? E; [discriminate|injection E as <-; auto]|intros [_ H]; auto].
Qed.

Lemma possible_paths_spec backw ar tie a p :
  let P := directed backw (drivable g (pp_costid p) (pp_lane_changes p) ar) in
  match possible_paths backw ar tie g a p with
  | QRet l => match get_vertex g a with
              | None => l = []
              | Some s => good_paths g P backw s p l
              end
  | QThrow => exists s, get_vertex g a = Some s /\ ((g_numcosts g <= pp_costid p)%N \/
                (pp_cost p = None /\ pp_elems p = None) \/
                (ar = false /\ exists es v d t, walk P s es t /\ In v (wverts s es) /\ vertex_elem g v = Some (EArea d)))
  | QBroken => False
  end.
Proof.
  intros P. unfold possible_paths. set (lc := pp_lane_changes p) in *. set (costid := pp_costid p) in *.
  destruct (get_vertex g a) as [s|] eqn:Ea; [|reflexivity].
  destruct (get_filtered_cases (routing_view lc ar) costid) as [[-> Hc]|[-> Hc]]; [eauto|].
  destruct (pp_criterion p) as [crit|] eqn:Ecrit.
  2:{ exists s. split; auto. right. left. unfold pp_criterion in Ecrit.
      destruct (pp_cost p), (pp_elems p); try discriminate; auto. }
  pose proof (pp_criterion_spec _ _ Ecrit) as Hlim.
  destruct (go_lookup _ Hg _ _ Ea) as [_ Hs].
  unfold possible_paths_impl. cbn [v_graph].
  destruct (crit_search backw lc ar costid tie s crit Hs)
    as (r & best & -> & Hbt & Hdom & Hch & Hpl).
  fold P in Hbt.
  set (ends := map_vertices g (s_map r) _).
  assert (HV : forall v es, best v = Some es -> forall x, In x (wverts s es) -> x < length (g_verts g)).
  { intros v es Hb x Hx. eapply (walk_V backw lc ar costid) in Hx; eauto.
    - apply in_seq in Hx. lia.
    - apply start_V; auto.
    - eapply bt_walk; eauto. }
  assert (Hends : forall v, In v ends <-> exists es, best v = Some es /\
        (forall w es' e, best w = Some (es' ++ [e]) -> e_src e <> v) /\
        (pp_shorter p = true \/ ~ in_limits p es)).
  { intros v. unfold ends. rewrite map_vertices_spec. split.
    - intros (_ & x & Hx & Hk). destruct (proj1 (Hdom v)) as [es Hes]; eauto.
      destruct (Hpl _ _ _ Hx Hes) as [Hp Hl]. apply andb_true_iff in Hk as [Hk1 Hk2].
      exists es. split; [auto|split; [apply Hl; auto|]].
      apply orb_true_iff in Hk2 as [Hk2|Hk2]; auto. right. intros Hin.
      apply (Hlim v) in Hin. rewrite Hp, Hin in Hk2. discriminate.
    - intros (es & Hes & Hl & Hk). split.
      + eapply HV; eauto. pose proof (bt_walk _ _ _ _ Hbt _ _ Hes) as Hw. clear - Hw.
        destruct Hw; [left; auto|]. right. rewrite map_app. apply in_or_app. right. left. reflexivity.
      + destruct (proj2 (Hdom v)) as [x Hx]; eauto. exists x. split; auto.
        destruct (Hpl _ _ _ Hx Hes) as [Hp Hl']. apply andb_true_iff. split; [apply Hl'; auto|].
        apply orb_true_iff. destruct Hk as [Hk|Hk]; auto. right. apply negb_true_iff.
        rewrite Hp. destruct (crit (info_way v es)) eqn:E; auto. destruct Hk. apply (Hlim v); auto. }
  assert (Hpath : forall v, In v ends ->
     match path_elems g backw (negb ar) (s_map r) v with
     | QRet path => exists es, best v = Some es /\ elements g (oriented backw (wverts s es)) path
     | QThrow => ar = false /\ exists es x d t, walk P s es t /\ In x (wverts s es) /\ vertex_elem g x = Some (EArea d)
     | QBroken => False
     end).
  { intros v Hv. apply Hends in Hv as (es & Hes & _).
    unfold path_elems. rewrite (build_facts backw lc ar costid tie s backw _ _ _ (Hch _ _ Hes)).
    destruct (cast_path_spec (negb ar) (oriented backw (wverts s es))) as [(q & -> & Hel)|(-> & Har & x & d & Hx & Hd)].
    - intros x Hx. eapply HV; eauto. unfold oriented in Hx. destruct backw; auto. apply in_rev; auto.
    - eauto.
    - split; [destruct ar; auto; discriminate|]. exists es, x, d, v. split; [|split; [|auto]].
      + eapply bt_walk; eauto.
      + unfold oriented in Hx. destruct backw; auto. apply in_rev; auto. }
  pose proof (collect_spec (path_elems g backw (negb ar) (s_map r))
    (fun v path => exists es, best v = Some es /\ elements g (oriented backw (wverts s es)) path) ends) as Hcol.
  match type of Hcol with ?X -> _ => assert X as HX end.
  { intros v Hv. specialize (Hpath v Hv). destruct (path_elems _ _ _ _ _); auto. }
  specialize (Hcol HX). destruct (collect _ ends) as [l| |].
  - exists best, ends. split; [|split; [apply map_vertices_nodup|split; [auto|auto]]].
    destruct Hbt as [B1 B2 B3 B4 B5 B6]. constructor; auto.
    + intros v es e Hb. destruct (B3 _ _ _ Hb) as [H1 (es' & H2 & H3)]. split; auto.
      exists es'. split; auto. apply (Hlim (e_src e)); auto.
    + intros v es Hop. apply B6. clear - Hop Hlim.
      induction Hop as [|es e Hop IH (es' & H2 & H3)]; constructor; auto.
      exists es'. split; auto. apply Hlim; auto.
  - destruct Hcol as (v & Hv & E). specialize (Hpath v Hv). rewrite E in Hpath.
    exists s. auto.
  - auto.
Qed.

(** * forEachSuccessor and relatives *)
Lemma sorted_snoc {T} (R : T -> T -> Prop) l x :
  StronglySorted R l -> (forall y, In y l -> R y x) -> StronglySorted R (l ++ [x]).
Proof.
  induction 1 as [|y l H IH Hf]; intros Hx; simpl; [repeat constructor|].
  constructor.
  - apply IH. intros z Hz. apply Hx. right; auto.
  - apply List.Forall_app. split; auto. constructor; auto. apply Hx. left; auto.
Qed.

Lemma for_each_spec {St} backw ar tie a (cb : St -> vinfo A -> St * option bool) st lc costid :
  let P := directed backw (drivable g costid lc ar) in
  match for_each backw ar tie g a cb st lc costid with
  | QRet (Some (log, st')) => exists s, get_vertex g a = Some s /\
       good_visits P cb s st log st' /\ complete_visits P s log
  | QRet None => get_vertex g a = None
  | QThrow => (exists s, get_vertex g a = Some s) /\ (g_numcosts g <= costid)%N
  | QBroken => False
  end.
Proof.
  intros P. unfold for_each.
  destruct (get_vertex g a) as [s|] eqn:Ea; [|reflexivity].
  destruct (get_filtered_cases (routing_view lc ar) costid) as [[-> Hc]|[-> Hc]]; [eauto|].
  destruct (go_lookup _ Hg _ _ Ea) as [_ Hs].
  destruct (query_cases backw lc ar costid cb tie st s Hs)
    as [(r & best & -> & HI & Hq)|(r & best & v & vs & st' & q & -> & HI & Hvq & Hvs & Hmin & Hcb)];
    exists s; (split; [reflexivity|]); pose proof (entry_facts backw lc ar costid cb tie s _ _ _ HI) as Hent;
    fold P in Hent.
  - destruct (finished_facts backw lc ar costid cb tie s _ _ _ HI Hq)
      as (Hbt & Hnd & Hvis & Hinfo & Hsort & Hcalls & _).
    split.
    + constructor; auto. intros i a' Hin. destruct (Hent _ _ Hin) as (es & b & _ & H1 & H2 & H3 & _ & H4). eauto 6.
    + left. split.
      * intros i a' Hin. destruct (Hent _ _ Hin) as (es & b & -> & _). discriminate.
      * intros es v Hop Hb. destruct (bt_optimal _ _ _ _ Hbt _ _ Hop Hb) as (b & Hb1 & _).
        apply Hvis. eauto.
  - destruct (aborted_facts backw lc ar costid cb tie s _ _ _ _ _ HI Hvq Hvs Hmin)
      as (es & Hw & Hi & Hch & Hnd & Hb & Hnv & Hop & Hopt & Hcheap).
    cbn [s_log s_cb]. pose proof HI as [I IL].
    assert (Hrej : forall x, rejected_in (s_log r ++ [(info_of v vs, None)]) x <-> rejected_in (s_log r) x).
    { intros x. split; intros (i & Hin & Hx); exists i; split; auto.
      - apply in_app_or in Hin as [Hin|[Hin|[]]]; [auto|discriminate].
      - apply in_or_app; auto. }
    assert (Hacc : forall x, accepted_in (s_log r ++ [(info_of v vs, None)]) x <-> accepted_in (s_log r) x).
    { intros x. split; intros (i & Hin & Hx); exists i; split; auto.
      - apply in_app_or in Hin as [Hin|[Hin|[]]]; [auto|discriminate].
      - apply in_or_app; auto. }
    assert (Hmono : forall (Q1 Q2 : nat -> Prop) es x, (forall y, Q1 y -> Q2 y) -> open_walk P Q1 s es x -> open_walk P Q2 s es x).
    { intros Q1 Q2 es' x HQ H. induction H; constructor; auto. }
    split.
    + constructor.
      * econstructor; eauto. apply (I_calls _ _ _ _ _ _ IL).
      * unfold visited. rewrite map_app. simpl.
        apply NoDup_ListNoDup, NoDup_app. split; [|split; [|apply NoDup_singleton]].
        -- apply NoDup_ListNoDup. assert (ND : List.NoDup (visited (s_log r) ++ s_queue r)) by (eapply I_nodup; eauto).
           apply NoDup_ListNoDup in ND. apply NoDup_app in ND as (ND & _). apply NoDup_ListNoDup; auto.
        -- intros x Hx Hxe. apply elem_of_list_singleton in Hxe. subst x. apply Hnv.
           apply elem_of_list_In; auto.
      * apply sorted_snoc; [apply (I_sorted _ _ _ _ _ _ IL)|].
        intros [i a'] Hin. cbn [fst]. destruct (I_log _ _ _ _ _ _ IL _ _ Hin) as (s1 & Hs1 & Hi1 & _).
        rewrite Hi1. cbn [info_of vi_cost].
        eapply I_order; [exact I| |exact Hvq|exact Hs1|exact Hvs].
        unfold visited. apply in_map_iff. exists (i, a'). auto.
      * intros i a' Hin. apply in_app_or in Hin as [Hin|[Hin|[]]].
        -- destruct (Hent _ _ Hin) as (es' & b & _ & H1 & H2 & H3 & _ & H4). exists es'.
           split; [auto|split; [|split; [auto|]]].
           ++ eapply Hmono; [|exact H2]. intros; apply Hacc; auto.
           ++ intros es2 Ho. apply H4. eapply Hmono; [|exact Ho]. intros y Hy Hr. apply Hy, Hrej; auto.
        -- injection Hin as <- <-. exists es. split; [auto|split; [|split; [auto|]]].
           ++ eapply Hmono; [|exact Hop]. intros; apply Hacc; auto.
           ++ intros es2 Ho. apply Hopt. eapply Hmono; [|exact Ho]. intros y Hy Hr. apply Hy, Hrej; auto.
    + right. exists (s_log r), (info_of v vs). split; [auto|split].
      * intros i a' Hin. destruct (Hent _ _ Hin) as (es' & b & -> & _). discriminate.
      * intros es' x Ho Hlt. rewrite Hi in Hlt. simpl in Hlt. eapply Hcheap; eauto.
        eapply Hmono; [|exact Ho]. intros y Hy Hr. apply Hacc in Hy.
        destruct Hy as (i1 & Hi1 & E1). destruct Hr as (i2 & Hi2 & E2).
        destruct (I_log _ _ _ _ _ _ IL _ _ Hi1) as (s1 & Hs1 & _ & Ha1).
        destruct (I_log _ _ _ _ _ _ IL _ _ Hi2) as (s2 & Hs2 & _ & Ha2).
        congruence.
Qed.
End Api.
