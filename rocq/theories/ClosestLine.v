From Coq Require Import List Bool Arith ZArith QArith Lqa Lia Sorting.Sorted Sorting.Permutation Morphisms Setoid.
From Verif Require Import ClosestModel ClosestSpec ClosestProofs ClosestVec.
Import ListNotations.
Local Open Scope Q_scope.

Lemma multiple_add g x y : multiple g x -> multiple g y -> multiple g (x + y).
Proof. intros [m E] [n F]. exists (m + n)%Z. rewrite E, F, inject_Z_plus. ring. Qed.
Lemma multiple_opp g x : multiple g x -> multiple g (- x).
Proof. intros [m E]. exists (- m)%Z. rewrite E, inject_Z_opp. ring. Qed.
Lemma multiple_sub g x y : multiple g x -> multiple g y -> multiple g (x - y).
Proof. intros. apply multiple_add; auto. now apply multiple_opp. Qed.
Lemma multiple_mul g h x y : multiple g x -> multiple h y -> multiple (g * h) (x * y).
Proof. intros [m E] [n F]. exists (m * n)%Z. rewrite E, F, inject_Z_mult. ring. Qed.
Lemma exact_multiple g x : small <= g -> multiple g x -> exact x.
Proof.
  intros Hg [m E]. pose proof small_pos. unfold exact, qabs.
  destruct (Z.eq_dec m 0) as [->|N]; [left; rewrite E; ring|right].
  assert (inject_Z m <= -1 \/ 1 <= inject_Z m) as [K|K].
  { destruct (Z_lt_le_dec m 0); [left; change (-1) with (inject_Z (-1))|right; change 1 with (inject_Z 1)]; rewrite <- Zle_Qle; lia. }
  - assert (x <= - g) by (rewrite E; nra). qcase; qhyps; lra.
  - assert (g <= x) by (rewrite E; nra). qcase; qhyps; lra.
Qed.
Lemma solve_exact g a b c d e : 0 < g -> small <= g * g ->
  multiple g a -> multiple g b -> multiple g c -> multiple g d -> multiple g e -> 0 <= a * c - b * b ->
  let lp := solve a b c d e in
  (a * c - b * b == 0 \/ small <= a * c - b * b) /\ exact (sN lp) /\ exact (tN lp).
Proof.
  intros Hg Hgg A B C D E Hd. cbn zeta.
  assert (Hs : small <= g).
  { destruct (Qlt_le_dec g small) as [K|K]; auto. exfalso. assert (g * g < small * small) by nra. 
    assert (small * small < small) by reflexivity. lra. }
  assert (Den : multiple (g * g) (a * c - b * b)) by (apply multiple_sub; apply multiple_mul; auto).
  assert (Sn : multiple (g * g) (b * e - c * d)) by (apply multiple_sub; apply multiple_mul; auto).
  assert (Tn : multiple (g * g) (a * e - b * d)) by (apply multiple_sub; apply multiple_mul; auto).
  assert (X0 : exact 0) by (left; reflexivity). assert (X1 : exact 1) by (right; vm_compute; discriminate).
  assert (Y : forall x, multiple g x -> exact x) by (intros x; apply exact_multiple; auto).
  assert (W : forall x, multiple (g * g) x -> exact x) by (intros x; apply exact_multiple; auto).
  split.
  { destruct (W _ Den) as [K|K]; auto. right. rewrite qabs_nonneg in K; auto. }
  unfold solve, clamp_params, line_params.
  repeat (qcase; cbn [sN sD tN tD]); cbn [sN sD tN tD]; split; auto using multiple_add, multiple_opp.
Qed.

Section Line.
Context {V : space} (L : lawful V).
Implicit Types a b x y z p q : V.

Lemma pairs_in (l : list V) s : In s (pairs l) <-> exists l1 l2, l = l1 ++ fst s :: snd s :: l2.
Proof.
  destruct s as [a b]. cbn [fst snd]. induction l as [|u [|v r] IH]; cbn [pairs].
  - split; [intros []|intros (l1 & l2 & E)]. destruct l1; discriminate.
  - split; [intros []|intros (l1 & l2 & E)]. destruct l1 as [|? [|]]; discriminate.
  - cbn [In]. rewrite IH. split.
    + intros [E|(l1 & l2 & E)]; [injection E as -> ->; exists [], r; auto|].
      exists (u :: l1), l2. cbn. now rewrite E.
    + intros (l1 & l2 & E). destruct l1 as [|w l1]; cbn in E.
      * injection E as -> -> ->. auto.
      * injection E as -> E. right. eauto.
Qed.
Lemma segments_ok (l : list V) : l <> [] -> exists segs, segments l = Ok segs /\ segs <> [] /\
  (forall x, on_line l x <-> exists s, In s segs /\ on_segment (fst s) (snd s) x) /\
  (forall s, In s segs -> In (fst s) l /\ In (snd s) l) /\
  ((exists a, l = [a] /\ segs = [(a, a)]) \/ (2 <= length l)%nat /\ segs = pairs l).
Proof.
  intros Hne. destruct l as [|a [|b r]]; [easy| |].
  - exists [(a, a)]. split; auto. split; [discriminate|]. split; [|split].
    + intros x. split.
      * intros [(c & E & H)|(l1 & c & d & l2 & E & _)]; [|destruct l1 as [|? [|]]; discriminate].
        injection E as <-. exists (a, a). split; [now left|]. cbn [fst snd].
        apply on_segment_same with a; auto; [rewrite (sq_sym L); auto|apply on_segment_start; auto].
      * intros (s & [<-|[]] & H). left. exists a. split; auto. eapply on_degenerate; eauto. apply (sq_refl L).
    + intros s [<-|[]]. cbn. auto.
    + left. eauto.
  - exists (pairs (a :: b :: r)). split; auto. split; [discriminate|]. split; [|split].
    + intros x. split.
      * intros [(c & E & H)|(l1 & c & d & l2 & E & H)]; [discriminate|].
        exists (c, d). split; auto. apply pairs_in. cbn [fst snd]. eauto.
      * intros (s & Hin & H). apply pairs_in in Hin. destruct Hin as (l1 & l2 & E). right. eauto 10.
    + intros s Hin. apply pairs_in in Hin. destruct Hin as (l1 & l2 & ->). split; apply in_or_app; right; cbn; auto.
    + right. split; auto. cbn. lia.
Qed.

(** * Point and line string *)
Definition good_p (p : V) (best : near_p) (segs : list seg) : Prop :=
  match best with
  | None => segs = []
  | Some (d, s, x) => In s segs /\ x = project_segment (fst s) (snd s) p /\ d = sq x p /\
      forall s' y, In s' segs -> on_segment (fst s') (snd s') y -> d <= sq y p
  end.
Lemma update_good p best segs s : good_p p best segs ->
  let r := update_p p best s in good_p p (fst r) (segs ++ [s]) /\ exists s0 x, fst r = Some (snd r, s0, x).
Proof.
  unfold good_p, update_p. cbn zeta. destruct best as [[[d s0] x]|]; intros H.
  - destruct H as (Hin & -> & -> & Hopt). qcase; cbn [fst snd]; qhyps; change (@sqd V) with (@sq V) in *.
    + split; [|eauto]. repeat split; auto; [apply in_or_app; cbn; auto|].
      intros s' y Hs Hy. apply in_app_iff in Hs. destruct Hs as [Hs|[<-|[]]].
      * specialize (Hopt _ _ Hs Hy). lra.
      * now apply project_segment_nearest.
    + split; [|eauto]. repeat split; auto; [apply in_or_app; cbn; auto|].
      intros s' y Hs Hy. apply in_app_iff in Hs. destruct Hs as [Hs|[<-|[]]]; eauto.
      pose proof (project_segment_nearest L (fst s) (snd s) p y Hy). lra.
  - subst segs. cbn [fst snd app]. split; [|eauto]. repeat split; auto; [now left|].
    intros s' y [<-|[]] Hy. now apply project_segment_nearest.
Qed.
Lemma good_p_zero p d s x done rest : good_p p (Some (d, s, x)) done -> d == 0 -> good_p p (Some (d, s, x)) (done ++ rest).
Proof.
  intros (A & B & C & D) Z. split; [apply in_or_app; auto|]. repeat split; auto.
  intros s' y _ _. rewrite Z. apply (sq_pos L).
Qed.
Lemma scan_good p l : forall best done, good_p p best done -> good_p p (scan (update_p p) l best) (done ++ l).
Proof.
  induction l as [|s r IH]; intros best done H; cbn [scan]; [now rewrite app_nil_r|].
  destruct (update_good p best done s H) as [G (s0 & x & E)].
  destruct (update_p p best s) as [best' d]. cbn [fst snd] in *. subst best'.
  destruct (Qeq_bool d 0) eqn:Z.
  - apply Qeq_bool_iff in Z. replace (done ++ s :: r) with ((done ++ [s]) ++ r) by (rewrite <- app_assoc; auto).
    now apply good_p_zero.
  - replace (done ++ s :: r) with ((done ++ [s]) ++ r) by (rewrite <- app_assoc; auto). now apply IH.
Qed.
Lemma loop_good p l : StronglySorted (fun i j => fst i <= fst j) l -> (forall d s, In (d, s) l -> bound_point d s p) ->
  forall best done, good_p p best done -> good_p p (point_loop p l best) (done ++ map snd l).
Proof.
  induction 1 as [|[dbox s] r Hr IH Hall]; intros Hb best done H; cbn [point_loop map snd]; [now rewrite app_nil_r|].
  destruct (match best with Some (d, _, _) => qlt d dbox | None => false end) eqn:B.
  - destruct best as [[[d s0] x]|]; [|discriminate]. qhyps. destruct H as (A1 & A2 & A3 & A4).
    split; [apply in_or_app; auto|]. repeat split; auto.
    intros s' y Hs Hy. apply in_app_iff in Hs. destruct Hs as [Hs|Hs]; eauto.
    assert (exists d', In (d', s') ((dbox, s) :: r)) as (d' & Hin).
    { destruct Hs as [<-|Hs]; [eexists; left; reflexivity|]. apply in_map_iff in Hs. destruct Hs as ([d' t] & <- & ?). exists d'. now right. }
    pose proof (Hb _ _ Hin y Hy) as K.
    assert (dbox <= d'). { destruct Hin as [E|Hin]; [injection E as -> ->; lra|]. rewrite Forall_forall in Hall. apply (Hall _ Hin). }
    lra.
  - destruct (update_good p best done s H) as [G (s0 & x & E)].
    destruct (update_p p best s) as [best' d]. cbn [fst snd] in *. subst best'.
    replace (done ++ s :: map snd r) with ((done ++ [s]) ++ map snd r) by (rewrite <- app_assoc; auto).
    destruct (Qeq_bool d 0) eqn:Z.
    + apply Qeq_bool_iff in Z. now apply good_p_zero.
    + apply IH; auto. intros. apply Hb. now right.
Qed.

Lemma closest_to_point_ok tree ls p : query_ok tree bound_point -> ls <> [] ->
  exists d s x segs, closest_to_point tree ls p = Ok (Some (d, s, x)) /\ segments ls = Ok segs /\ good_p p (Some (d, s, x)) segs.
Proof.
  intros Hq Hne. destruct (segments_ok ls Hne) as (segs & E & Hn & _ & _ & Hsh).
  unfold closest_to_point. destruct (length ls <? rtree_thres)%nat eqn:Len.
  - unfold point_brute. rewrite E. pose proof (scan_good p segs None [] eq_refl) as G. cbn [app] in G.
    destruct (scan (update_p p) segs None) as [[[d s] x]|]; [|easy]. eauto 10.
  - apply Nat.ltb_ge in Len. unfold rtree_thres in Len. destruct Hsh as [(a & -> & _)|[_ ->]]; [cbn in Len; lia|].
    destruct (Hq (pairs ls) p) as (Hp & Hs & Hb).
    pose proof (loop_good p _ Hs Hb None [] eq_refl) as G. cbn [app] in G.
    destruct (point_loop p (tree (pairs ls) p) None) as [[[d s] x]|].
    + exists d, s, x, (pairs ls). split; auto. split; auto. destruct G as (A & B & C & D).
      split; [eapply Permutation_in; eauto|]. repeat split; auto. intros s' y Hin. apply D. eapply Permutation_in; [symmetry; eauto|auto].
    + exfalso. cbn in G. rewrite G in Hp. apply Permutation_nil in Hp. auto.
Qed.

(** * Two line strings *)
Definition good_l (cond : seg -> seg -> Prop) (best : near_l) (done : list (seg * seg)) : Prop :=
  match best with
  | None => done = []
  | Some (d, (x, y)) => d = sq x y /\
      (exists s1 s2, In (s1, s2) done /\ on_segment (V := V) (fst s1) (snd s1) x /\ on_segment (fst s2) (snd s2) y) /\
      forall s1 s2 x' y', In (s1, s2) done -> cond s1 s2 ->
        on_segment (fst s1) (snd s1) x' -> on_segment (fst s2) (snd s2) y' -> d <= sq x' y'
  end.
Definition sound_cond (cond : seg -> seg -> Prop) : Prop := forall s1 s2 : V * V, cond s1 s2 ->
  exact_pair (fst s1) (snd s1) (fst s2) (snd s2) /\ (sq (fst s2) (snd s2) == 0 -> sq (fst s1) (snd s1) == 0).

Lemma update_l_good cond best done s1 s2 : sound_cond cond -> good_l cond best done ->
  let r := update_l best s1 s2 in good_l cond (fst r) (done ++ [(s1, s2)]) /\ exists w, fst r = Some (snd r, w).
Proof.
  intros Hc. unfold good_l, update_l. cbn zeta.
  pose proof (project_pair_on L (fst s1) (snd s1) (fst s2) (snd s2)) as Hon. cbn zeta in Hon.
  assert (Hn : forall x y, cond s1 s2 -> on_segment (fst s1) (snd s1) x -> on_segment (fst s2) (snd s2) y ->
     sq (fst (project_pair (fst s1) (snd s1) (fst s2) (snd s2))) (snd (project_pair (fst s1) (snd s1) (fst s2) (snd s2))) <= sq x y).
  { intros x y K. destruct (Hc _ _ K). now apply project_pair_nearest. }
  change (@sqd V) with (@sq V).
  destruct (project_pair (fst s1) (snd s1) (fst s2) (snd s2)) as [u v]. cbn [fst snd] in *.
  destruct best as [[d [x y]]|]; intros H.
  - destruct H as (-> & (t1 & t2 & Hin & O1 & O2) & Hopt). qcase; cbn [fst snd]; qhyps.
    + split; [|eauto]. split; auto. split; [exists s1, s2; split; [apply in_or_app; cbn; auto|tauto]|].
      intros r1 r2 x' y' Hr K X Y. apply in_app_iff in Hr. destruct Hr as [Hr|[E|[]]].
      * specialize (Hopt _ _ _ _ Hr K X Y). lra.
      * injection E as <- <-. auto.
    + split; [|eauto]. split; auto. split; [exists t1, t2; split; [apply in_or_app; cbn; auto|tauto]|].
      intros r1 r2 x' y' Hr K X Y. apply in_app_iff in Hr. destruct Hr as [Hr|[E|[]]].
      * apply (Hopt _ _ _ _ Hr K X Y).
      * injection E as <- <-. specialize (Hn _ _ K X Y). lra.
  - subst done. cbn [fst snd app]. split; [|eauto]. split; auto. split; [exists s1, s2; split; [now left|tauto]|].
    intros r1 r2 x' y' [E|[]] K X Y. injection E as <- <-. auto.
Qed.
Lemma good_l_more cond d (x : V * V) done rest : good_l cond (Some (d, x)) done ->
  (forall s1 s2 x' y', In (s1, s2) rest -> on_segment (fst s1) (snd s1) x' -> on_segment (fst s2) (snd s2) y' -> d <= sq x' y') ->
  good_l cond (Some (d, x)) (done ++ rest).
Proof.
  destruct x as [x y]. intros (A & (s1 & s2 & B) & C) H. split; auto. split; [exists s1, s2; split; [apply in_or_app|]; tauto|].
  intros r1 r2 x' y' Hr K X Y. apply in_app_iff in Hr. destruct Hr as [Hr|Hr]; eauto.
Qed.
Lemma good_l_zero cond d (x : V * V) done rest : good_l cond (Some (d, x)) done -> d == 0 -> good_l cond (Some (d, x)) (done ++ rest).
Proof. intros H Z. apply good_l_more; auto. intros. rewrite Z. apply (sq_pos L). Qed.

Lemma inner_good cond s1 l : sound_cond cond -> forall best done, good_l cond best done ->
  good_l cond (scan (fun best s2 => update_l best s1 s2) l best) (done ++ map (pair s1) l).
Proof.
  intros Hc. induction l as [|s r IH]; intros best done H; cbn [scan map]; [now rewrite app_nil_r|].
  destruct (update_l_good cond best done s1 s Hc H) as [G (x & E)].
  destruct (update_l best s1 s) as [best' d]. cbn [fst snd] in *. subst best'.
  replace (done ++ (s1, s) :: map (pair s1) r) with ((done ++ [(s1, s)]) ++ map (pair s1) r) by (rewrite <- app_assoc; auto).
  destruct (Qeq_bool d 0) eqn:Z.
  - apply Qeq_bool_iff in Z. now apply good_l_zero.
  - now apply IH.
Qed.
Lemma lines_loop_good cond s1 l : sound_cond cond -> StronglySorted (fun i j => fst i <= fst j) l ->
  (forall d s, In (d, s) l -> bound_segment d s s1) ->
  forall best done, good_l cond best done -> good_l cond (lines_loop s1 l best) (done ++ map (pair s1) (map snd l)).
Proof.
  intros Hc. induction 1 as [|[dbox s] r Hr IH Hall]; intros Hb best done H; cbn [lines_loop map snd]; [now rewrite app_nil_r|].
  destruct (match best with Some (d, _) => qlt d dbox | None => false end) eqn:B.
  - destruct best as [[d x]|]; [|discriminate]. qhyps. apply good_l_more; auto.
    intros t1 t2 x' y' Hin X Y.
    assert (t1 = s1 /\ exists d', In (d', t2) ((dbox, s) :: r)) as (-> & d' & Hin').
    { destruct Hin as [E|Hin]; [injection E as <- <-; split; auto; eexists; left; reflexivity|].
      apply in_map_iff in Hin. destruct Hin as (t & E & Hin). injection E as <- <-. split; auto.
      apply in_map_iff in Hin. destruct Hin as ([d' t'] & <- & ?). exists d'. now right. }
    pose proof (Hb _ _ Hin' y' x' Y X) as K.
    assert (dbox <= d'). { destruct Hin' as [E|Hin']; [injection E as -> ->; lra|]. rewrite Forall_forall in Hall. apply (Hall _ Hin'). }
    lra.
  - destruct (update_l_good cond best done s1 s Hc H) as [G _].
    replace (done ++ (s1, s) :: map (pair s1) (map snd r)) with ((done ++ [(s1, s)]) ++ map (pair s1) (map snd r)) by (rewrite <- app_assoc; auto).
    apply IH; auto. intros. apply Hb. now right.
Qed.
Lemma good_l_perm cond best d1 d2 : (forall s, In s d1 <-> In s d2) -> good_l cond best d1 -> good_l cond best d2.
Proof.
  intros P. destruct best as [[d [x y]]|]; cbn.
  - intros (A & (s1 & s2 & B & C) & D). split; auto. split; [exists s1, s2; rewrite <- P; auto|].
    intros s1' s2' x' y' Hin. rewrite <- P in Hin. eauto.
  - intros ->. destruct d2; auto. exfalso. apply (P p). now left.
Qed.
(** The outer loop, for any inner loop that deals with all segments of the other line string. *)
Lemma outer_good cond (inner : near_l -> seg -> near_l) l2 l1 : l2 <> [] ->
  (forall best done s1, good_l cond best done -> good_l cond (inner best s1) (done ++ map (pair s1) l2)) ->
  forall best done, good_l cond best done ->
  good_l cond (scan (fun best s1 => let best' := inner best s1 in (best', distance_of best')) l1 best) (done ++ list_prod l1 l2).
Proof.
  intros Hne Hin. induction l1 as [|s r IH]; intros best done H; cbn [scan list_prod]; [now rewrite app_nil_r|].
  specialize (Hin best done s H). cbn zeta. rewrite app_assoc.
  destruct (inner best s) as [[d x]|] eqn:E; cbn [distance_of].
  - destruct (Qeq_bool d 0) eqn:Z.
    + apply Qeq_bool_iff in Z. now apply good_l_zero.
    + now apply IH.
  - exfalso. cbn in Hin. destruct done; [|discriminate]. destruct l2; [auto|discriminate].
Qed.

Lemma closest_ordered_ok cond tree l1 l2 : sound_cond cond -> query_ok tree bound_segment -> l1 <> [] -> l2 <> [] ->
  (length l1 <= length l2)%nat ->
  exists d (x : V * V) segs1 segs2, closest_ordered tree false l1 l2 = Ok (Some (d, x)) /\ segments l1 = Ok segs1 /\ segments l2 = Ok segs2 /\
    good_l cond (Some (d, x)) (list_prod segs1 segs2).
Proof.
  intros Hc Hq N1 N2 Hlen. destruct (segments_ok l1 N1) as (segs1 & E1 & Hn1 & _ & _ & _).
  destruct (segments_ok l2 N2) as (segs2 & E2 & Hn2 & _ & _ & Hsh).
  assert (Hdone : forall best, good_l cond best (list_prod segs1 segs2) -> exists d (x : V * V), best = Some (d, x)).
  { intros [[d x]|]; [eauto|]. cbn. intros E. exfalso. destruct segs1; [auto|]. destruct segs2; [auto|discriminate]. }
  unfold closest_ordered. destruct l1 as [|a0 r0] eqn:El; [easy|]. rewrite <- El in *.
  destruct (length l2 <? rtree_thres)%nat eqn:Len.
  - unfold lines_brute. rewrite E1, E2.
    pose proof (outer_good cond (fun best s1 => scan (fun best s2 => update_l best s1 s2) segs2 best) segs2 segs1 Hn2) as O.
    specialize (O (fun best done s1 H => inner_good cond s1 segs2 Hc best done H) None [] eq_refl). cbn [app] in O.
    destruct (Hdone _ O) as (d & x & E). rewrite E in O. exists d, x, segs1, segs2. cbn zeta in E. rewrite E. auto.
  - apply Nat.ltb_ge in Len. unfold rtree_thres in Len. destruct Hsh as [(a & -> & _)|[_ ->]]; [cbn in Len; lia|].
    unfold lines_tree. rewrite E1.
    assert (Er : ring_segments false l2 = pairs l2) by (unfold ring_segments; destruct l2; [reflexivity|]; destruct (rev _); apply app_nil_r).
    pose proof (outer_good cond (fun best s1 => lines_loop s1 (tree (ring_segments false l2) s1) best) (pairs l2) segs1 Hn2) as O.
    assert (Hin : forall best done s1, good_l cond best done ->
       good_l cond (lines_loop s1 (tree (ring_segments false l2) s1) best) (done ++ map (pair s1) (pairs l2))).
    { intros best done s1 H. rewrite Er. destruct (Hq (pairs l2) s1) as (Hp & Hs & Hb).
      pose proof (lines_loop_good cond s1 _ Hc Hs Hb best done H) as G.
      apply good_l_perm with (2 := G). intros s. rewrite !in_app_iff, !in_map_iff.
      split; intros [K|(t & ? & K)]; auto; right; exists t; (split; auto); [eapply Permutation_in; [exact Hp|]|eapply Permutation_in; [symmetry; exact Hp|]]; auto. }
    specialize (O Hin None [] eq_refl). cbn [app] in O.
    destruct (Hdone _ O) as (d & x & E). rewrite E in O. exists d, x, segs1, (pairs l2). cbn zeta in E. rewrite E. auto.
Qed.

(** Every point of a line string that is not constant ends a segment that is not degenerate. *)
Lemma proper_segment (l : list V) : (exists a b, In a l /\ In b l /\ ~ sq a b == 0) ->
  forall x, In x l -> exists s, In s (pairs l) /\ ~ sq (fst s) (snd s) == 0 /\ (sq x (fst s) == 0 \/ sq x (snd s) == 0).
Proof.
  induction l as [|u r IH]; intros (a & b & Ha & Hb & Hab) x Hx; [easy|].
  destruct r as [|v r].
  { exfalso. apply Hab. destruct Ha as [<-|[]], Hb as [<-|[]]. apply (sq_refl L). }
  change (pairs (u :: v :: r)) with ((u, v) :: pairs (v :: r)).
  destruct (Qeq_dec (sq u v) 0) as [E|E].
  - assert (Hrep : forall c, In c (u :: v :: r) -> exists c', In c' (v :: r) /\ sq c c' == 0).
    { intros c [<-|Hc]; [exists v; split; [now left|auto]|exists c; split; auto; apply (sq_refl L)]. }
    destruct (Hrep a Ha) as (a' & Ha' & Ea). destruct (Hrep b Hb) as (b' & Hb' & Eb). destruct (Hrep x Hx) as (x' & Hx' & Ex).
    destruct IH with (x := x') as (s & S1 & S2 & S3); auto.
    { exists a', b'. repeat split; auto. intros K. apply Hab. rewrite (sq_same L a a' b b' Ea Eb). exact K. }
    exists s. split; [now right|]. split; auto. destruct S3; [left|right]; eapply (sq_zero_trans L); eauto.
  - destruct Hx as [<-|Hx].
    { exists (u, v). split; [now left|]. split; auto. left. apply (sq_refl L). }
    destruct (Qeq_dec (sq x v) 0) as [E'|E'].
    { exists (u, v). split; [now left|]. split; auto. }
    destruct IH with (x := x) as (s & S1 & S2 & S3); auto.
    { exists x, v. repeat split; auto. now left. }
    exists s. split; [now right|auto].
Qed.

Definition lattice (g : Q) (l : list V) : Prop := forall p1 p2 q1 q2, In p1 l -> In p2 l -> In q1 l -> In q2 l ->
  multiple g (dot (vsub p1 p2) (vsub q1 q2)).
Definition pair_cond (l : list V) (s1 s2 : seg) : Prop :=
  (In (fst s1) l /\ In (snd s1) l /\ In (fst s2) l /\ In (snd s2) l) /\
  (sq (V := V) (fst s2) (snd s2) == 0 -> sq (fst s1) (snd s1) == 0).
Lemma pair_cond_sound g l : 0 < g -> small <= g * g -> lattice g l -> sound_cond (pair_cond l).
Proof.
  intros Hg Hgg Hl s1 s2 ((A & B & C & D) & E). split; auto. unfold exact_pair. cbn zeta.
  apply (solve_exact g); auto; try (apply Hl; auto).
  pose proof (cauchy L (vsub (snd s1) (fst s1)) (vsub (snd s2) (fst s2))). lra.
Qed.

Lemma ordered_closest g tree l1 l2 : 0 < g -> small <= g * g -> lattice g (l1 ++ l2) -> query_ok tree bound_segment ->
  l1 <> [] -> proper l2 -> (length l1 <= length l2)%nat ->
  exists d x y, closest_ordered tree false l1 l2 = Ok (Some (d, (x, y))) /\ closest_pair (on_line l1) (on_line l2) x y.
Proof.
  intros Hg Hgg Hl Hq N1 Hprop Hlen.
  assert (N2 : l2 <> []) by (destruct l2; [destruct l1; [easy|cbn in Hlen; lia]|discriminate]).
  destruct (closest_ordered_ok (pair_cond (l1 ++ l2)) tree l1 l2 (pair_cond_sound g _ Hg Hgg Hl) Hq N1 N2 Hlen) as (d & [x y] & g1 & g2 & E & E1 & E2 & G).
  exists d, x, y. split; auto. destruct G as (-> & (s1 & s2 & Hin & O1 & O2) & Hopt).
  apply in_prod_iff in Hin. destruct Hin as [I1 I2].
  destruct (segments_ok l1 N1) as (g1' & E1' & _ & On1 & In1 & Sh1). rewrite E1 in E1'. injection E1' as <-.
  destruct (segments_ok l2 N2) as (g2' & E2' & _ & On2 & In2 & Sh2). rewrite E2 in E2'. injection E2' as <-.
  split; [apply On1; eauto|]. split; [apply On2; eauto|].
  intros x' y' X Y. apply On1 in X. apply On2 in Y. destruct X as (t1 & T1 & X). destruct Y as (t2 & T2 & Y).
  assert (exists t2', In t2' g2 /\ on_segment (fst t2') (snd t2') y' /\ (sq (fst t2') (snd t2') == 0 -> sq (fst t1) (snd t1) == 0)) as (t2' & T2' & Y' & Dg).
  { destruct (Qeq_dec (sq (fst t2) (snd t2)) 0) as [Z|Z]; [|exists t2; tauto].
    destruct Sh2 as [(a & -> & ->)|[Hl2 ->]].
    - exists t2. repeat split; auto. intros _. destruct l1 as [|c [|]]; [easy| |cbn in Hlen; lia].
      destruct Sh1 as [(c' & Ec & ->)|[Hc _]]; [|cbn in Hc; lia]. destruct T1 as [<-|[]]. apply (sq_refl L).
    - destruct Hprop as [Hp|Hp]; [lia|].
      destruct (proper_segment l2 Hp (fst t2)) as (s & S1 & S2 & S3); [apply In2; auto|].
      exists s. split; auto. split; [|tauto]. pose proof (on_degenerate L _ _ _ Z Y) as Yz.
      destruct S3 as [S3|S3].
      + apply (on_segment_same L) with (fst s); [|apply on_segment_start; auto]. rewrite (sq_sym L). eapply (sq_zero_trans L); eauto.
      + apply (on_segment_same L) with (snd s); [|apply on_segment_end; auto]. rewrite (sq_sym L). eapply (sq_zero_trans L); eauto. }
  apply Hopt with (s1 := t1) (s2 := t2'); auto.
  - apply in_prod_iff. auto.
  - split; auto. destruct (In1 _ T1), (In2 _ T2'). repeat split; apply in_or_app; auto.
Qed.

Lemma lattice_swap g (l1 l2 : list V) : lattice g (l1 ++ l2) -> lattice g (l2 ++ l1).
Proof. intros H p1 p2 q1 q2 A B C D. apply H; rewrite in_app_iff in *; tauto. Qed.
Theorem closest_points_ok g tree l1 l2 : 0 < g -> small <= g * g -> lattice g (l1 ++ l2) -> query_ok tree bound_segment ->
  proper l1 -> proper l2 ->
  exists x y, closest_points tree false l1 l2 = Ok (x, y) /\ closest_pair (on_line l1) (on_line l2) x y.
Proof.
  intros Hg Hgg Hl Hq P1 P2.
  assert (N : forall l : list V, proper l -> l <> []).
  { intros l [H|(a & b & H & _)] ->; [discriminate|destruct H]. }
  unfold closest_points. cbn zeta. destruct (length l1 <? length l2)%nat eqn:Len; cbn [negb].
  - apply Nat.ltb_lt in Len. destruct (ordered_closest g tree l1 l2) as (d & x & y & E & C); auto; [lia|].
    rewrite E. eauto.
  - apply Nat.ltb_ge in Len. destruct (ordered_closest g tree l2 l1) as (d & x & y & E & C); auto using lattice_swap.
    rewrite E. exists y, x. split; auto. destruct C as (A & B & C). split; [|split]; auto.
    intros x' y' X Y. rewrite (sq_sym L y x), (sq_sym L x' y'). auto.
Qed.

(** Without any condition on the coordinates the points lie on the line strings. *)
Theorem closest_points_on tree l1 l2 : query_ok tree bound_segment -> l1 <> [] -> l2 <> [] ->
  exists x y, closest_points tree false l1 l2 = Ok (x, y) /\ on_line l1 x /\ on_line l2 y.
Proof.
  intros Hq N1 N2.
  assert (O : forall l l', l <> [] -> l' <> [] -> (length l <= length l')%nat ->
    exists d x y, closest_ordered tree false l l' = Ok (Some (d, (x, y))) /\ on_line l x /\ on_line l' y).
  { intros l l' A B Hlen.
    destruct (closest_ordered_ok (fun _ _ => False) tree l l' ltac:(intros ? ? []) Hq A B Hlen) as (d & [x y] & g1 & g2 & E & E1 & E2 & _ & (s1 & s2 & Hin & O1 & O2) & _).
    exists d, x, y. apply in_prod_iff in Hin. destruct Hin as [I1 I2].
    destruct (segments_ok l A) as (g1' & E1' & _ & On1 & _). rewrite E1 in E1'. injection E1' as <-.
    destruct (segments_ok l' B) as (g2' & E2' & _ & On2 & _). rewrite E2 in E2'. injection E2' as <-.
    split; auto. split; [apply On1|apply On2]; eauto. }
  unfold closest_points. cbn zeta. destruct (length l1 <? length l2)%nat eqn:Len; cbn [negb].
  - apply Nat.ltb_lt in Len. destruct (O l1 l2) as (d & x & y & E & C); auto; [lia|]. rewrite E. eauto.
  - apply Nat.ltb_ge in Len. destruct (O l2 l1) as (d & x & y & E & C & D); auto. rewrite E. exists y, x. auto.
Qed.
End Line.

(** Coordinates on a grid. *)
Lemma grid2_lattice h (l : list p2) : Forall (on_grid2 h) l -> lattice (V := plane) (h * h) l.
Proof.
  intros H p1 p2 q1 q2 A B C D. rewrite Forall_forall in H.
  destruct (H _ A), (H _ B), (H _ C), (H _ D). cbn. apply multiple_add; apply multiple_mul; apply multiple_sub; auto.
Qed.
Lemma grid3_lattice h (l : list p3) : Forall (on_grid3 h) l -> lattice (V := solid) (h * h) l.
Proof.
  intros H p1 p2 q1 q2 A B C D. rewrite Forall_forall in H.
  destruct (H _ A) as (?&?&?), (H _ B) as (?&?&?), (H _ C) as (?&?&?), (H _ D) as (?&?&?).
  cbn. repeat apply multiple_add; apply multiple_mul; apply multiple_sub; auto.
Qed.
