From Coq Require Import List Bool Arith ZArith QArith Lqa Lia Sorting.Sorted Sorting.Permutation Setoid.
From Verif Require Import ClosestModel ClosestSpec ClosestProofs ClosestVec ClosestLine ClosestTree SideModel SideSpec.
Import ListNotations.
Local Open Scope Q_scope.

Lemma same_point_iff a b : same_point a b = true <-> sq (V := plane) a b == 0.
Proof.
  unfold same_point. rewrite andb_true_iff, !Qeq_bool_iff. unfold sq. cbn [plane dot vsub fst snd]. split.
  - intros [-> ->]. ring.
  - intros H. apply zero_parts in H. lra.
Qed.
Lemma point_left_iff a b p : point_left a b p = true <-> 0 < turn a b p.
Proof.
  unfold point_left. rewrite qlt_true. unfold cross, turn. cbn [plane vsub fst snd].
  split; intros H; (eapply Qlt_le_trans; [exact H|apply Qle_lteq; right; ring]).
Qed.

Lemma combined_solve a b c p s t : combined a b c p s t ->
  turn a b p == s * turn a b c /\ turn b c p == t * turn a b c.
Proof.
  destruct a as [ax ay], b as [bx b_y], c as [cx cy], p as [px py]. unfold combined, turn. cbn [fst snd]. intros [E F].
  assert (X : px == bx + (s * (cx - bx) + t * (ax - bx))) by lra.
  assert (Y : py == b_y + (s * (cy - b_y) + t * (ay - b_y))) by lra.
  rewrite X, Y. split; ring.
Qed.
Lemma combined_exists a b c p : ~ turn a b c == 0 -> combined a b c p (turn a b p / turn a b c) (turn b c p / turn a b c).
Proof.
  destruct a as [ax ay], b as [bx b_y], c as [cx cy], p as [px py]. unfold combined, turn. cbn [fst snd]. intros H.
  split; field; intros K; apply H; rewrite <- K; ring.
Qed.

Definition corner_side (a b c p : plane) : bool :=
  if negb (eqb (point_left a b p) (point_left b c p)) && eqb (point_left a b p) (point_left a b c) then negb (point_left a b p) else point_left a b p.

Lemma corner_side_iff a b c p : ~ sq (V := plane) a b == 0 ->
  ~ (turn a b c == 0 /\ 0 < dot (s := plane) (vsub a b) (vsub c b)) ->
  corner_side a b c p = true <-> left_of_corner a b c p.
Proof.
  intros Hab Hu. unfold left_of_corner.
  assert (S : forall q, 0 < q \/ q <= 0) by (intros q; destruct (Qlt_le_dec 0 q); auto).
  assert (NL : forall x y z, point_left x y z = false <-> turn x y z <= 0).
  { intros x y z. rewrite <- not_true_iff_false, point_left_iff. split; [apply Qnot_lt_le|intros K L; lra]. }
  destruct (Qlt_le_dec 0 (turn a b c)) as [T|T]; [|destruct (Qlt_le_dec (turn a b c) 0) as [T'|T']].
  - (* left turn: both *)
    assert (corner_side a b c p = point_left a b p && point_left b c p) as ->.
    { apply point_left_iff in T. unfold corner_side. rewrite T. destruct (point_left a b p), (point_left b c p); reflexivity. }
    rewrite andb_true_iff, !point_left_iff. split.
    + intros [A B]. left. split; auto. exists (turn a b p / turn a b c), (turn b c p / turn a b c).
      split; [apply Qlt_shift_div_l; lra|]. split; [apply Qlt_shift_div_l; lra|]. apply combined_exists. lra.
    + intros [(_ & s & t & A & B & C)|[[K _]|[K _]]]; [|lra|lra].
      apply combined_solve in C. destruct C as [C D]. rewrite C, D. split; apply Qmult_lt_0_compat; auto.
  - (* right turn: one of them *)
    assert (corner_side a b c p = point_left a b p || point_left b c p) as ->.
    { assert (point_left a b c = false) as F by (apply NL; lra). unfold corner_side. rewrite F. destruct (point_left a b p), (point_left b c p); reflexivity. }
    rewrite orb_true_iff, !point_left_iff. split.
    + intros H. right. left. split; auto. intros (s & t & A & B & C). apply combined_solve in C. destruct C as [C D].
      rewrite C, D in H. destruct H; nra.
    + intros [[K _]|[(_ & H)|[K _]]]; [lra| |lra].
      destruct (S (turn a b p)) as [A|A]; auto. destruct (S (turn b c p)) as [B|B]; auto. exfalso. apply H.
      exists (turn a b p / turn a b c), (turn b c p / turn a b c).
      assert (N : ~ turn a b c == 0) by lra.
      split; [|split; [|now apply combined_exists]].
      * setoid_replace (turn a b p / turn a b c) with ((- turn a b p) / (- turn a b c)) by (field; auto). apply Qle_shift_div_l; lra.
      * setoid_replace (turn b c p / turn a b c) with ((- turn b c p) / (- turn a b c)) by (field; auto). apply Qle_shift_div_l; lra.
  - (* straight on *)
    assert (Z : turn a b c == 0) by lra.
    assert (F : point_left a b c = false) by (apply NL; lra).
    assert (K : point_left b c p = true -> point_left a b p = true).
    { rewrite !point_left_iff. intros B.
      assert (D : dot (s := plane) (vsub a b) (vsub c b) <= 0) by (apply Qnot_lt_le; intros L; apply Hu; auto).
      revert Z B D Hab. destruct a as [ax ay], b as [bx b_y], c as [cx cy], p as [px py]. unfold turn, sq. cbn [plane dot vsub fst snd]. intros Z B D Hab.
      set (ux := bx - ax) in *. set (uy := b_y - ay) in *. set (vx := cx - bx) in *. set (vy := cy - b_y) in *.
      set (dx := px - bx). set (dy := py - b_y).
      assert (Z' : ux * vy == uy * vx) by lra.
      assert (D' : 0 <= ux * vx + uy * vy) by (unfold ux, uy, vx, vy in *; lra).
      assert (B' : 0 < vx * dy - vy * dx) by (unfold vx, vy, dx, dy in *; lra).
      assert (Hu2 : 0 < ux * ux + uy * uy).
      { assert (0 <= ux * ux + uy * uy) by nra. destruct (Qlt_le_dec 0 (ux * ux + uy * uy)); auto. exfalso. apply Hab. unfold ux, uy in *. lra. }
      change (0 < ux * dy - uy * dx).
      (* (u.u) v = (u.v) u *)
      assert (E : (ux * ux + uy * uy) * (vx * dy - vy * dx) == (ux * vx + uy * vy) * (ux * dy - uy * dx)).
      { setoid_replace ((ux * ux + uy * uy) * (vx * dy - vy * dx)) with
          (ux * vx * (ux * dy) + uy * (uy * vx) * dy - ux * (ux * vy) * dx - uy * vy * uy * dx) by ring.
        rewrite <- Z' at 1. rewrite Z' at 2. ring. }
      assert (0 < (ux * ux + uy * uy) * (vx * dy - vy * dx)) by (apply Qmult_lt_0_compat; auto).
      rewrite E in H. destruct (Qlt_le_dec 0 (ux * dy - uy * dx)) as [?|N]; auto. exfalso.
      assert ((ux * vx + uy * vy) * (ux * dy - uy * dx) <= 0); [|lra].
      setoid_replace ((ux * vx + uy * vy) * (ux * dy - uy * dx)) with (- ((ux * vx + uy * vy) * - (ux * dy - uy * dx))) by ring.
      assert (0 <= (ux * vx + uy * vy) * - (ux * dy - uy * dx)) by (apply Qmult_le_0_compat; lra). lra. }
    assert (corner_side a b c p = point_left a b p) as ->.
    { unfold corner_side. rewrite F. destruct (point_left a b p); [now destruct (point_left b c p)|].
      destruct (point_left b c p); [|reflexivity]. discriminate K. reflexivity. }
    rewrite point_left_iff. split; [auto|]. intros [[? _]|[[? _]|[_ ?]]]; auto; lra.
Qed.

(** * The first of the nearest segments *)
Definition seg_dist (p : plane) (s : plane * plane) : Q := sq (project_segment (V := plane) (fst s) (snd s) p) p.
Definition first_p (p : plane) (best : near_p (V := plane)) (segs : list (plane * plane)) : Prop :=
  match best with
  | None => segs = []
  | Some (d, s, x) => d = seg_dist p s /\ exists s1 s2, segs = s1 ++ s :: s2 /\ (forall t, In t s1 -> d < seg_dist p t)
  end.
Lemma update_first p best segs s : good_p p best segs -> first_p p best segs -> first_p p (fst (update_p p best s)) (segs ++ [s]).
Proof.
  unfold first_p, update_p, good_p. destruct best as [[[d s0] x]|].
  - intros (_ & -> & -> & Hopt) (_ & s1 & s2 & -> & Hs). cbn zeta. qcase; cbn [fst]; qhyps.
    + split; [reflexivity|]. exists (s1 ++ s0 :: s2), []. split; auto. intros t Ht.
      eapply Qlt_le_trans; [exact Heqb|]. apply (Hopt t); auto. apply (project_segment_on plane_lawful).
    + split; [reflexivity|]. exists s1, (s2 ++ [s]). split; [now rewrite <- app_assoc|auto].
  - intros -> _. cbn zeta. cbn [fst app]. split; [reflexivity|]. exists [], []. split; auto. easy.
Qed.
Lemma scan_first p l : forall best done, good_p p best done -> first_p p best done ->
  match scan (update_p p) l best with
  | None => done ++ l = []
  | Some (d, s, x) => d = seg_dist p s /\ exists s1 s2, done ++ l = s1 ++ s :: s2 /\ (forall t, In t s1 -> d < seg_dist p t)
  end.
Proof.
  induction l as [|s r IH]; intros best done G H; cbn [scan].
  - rewrite app_nil_r. exact H.
  - destruct (update_good plane_lawful p best done s G) as [G' (s0 & x & E)].
    pose proof (update_first p best done s G H) as H'.
    destruct (update_p p best s) as [best' d]. cbn [fst snd] in *. subst best'.
    replace (done ++ s :: r) with ((done ++ [s]) ++ r) by (rewrite <- app_assoc; auto).
    destruct (Qeq_bool d 0) eqn:Z.
    + destruct H' as (A & s1 & s2 & B & C). split; auto. exists s1, (s2 ++ r). rewrite B, <- app_assoc. auto.
    + now apply IH.
Qed.

Lemma pairs_split (l : list plane) s1 s s2 : pairs l = s1 ++ s :: s2 ->
  exists l1 l2, l = l1 ++ fst s :: snd s :: l2 /\ pairs (l1 ++ [fst s]) = s1.
Proof.
  revert s1. induction l as [|u [|v r] IH]; intros s1 E; cbn [pairs] in E; try (destruct s1; discriminate).
  destruct s1 as [|q s1]; cbn in E.
  - injection E as <- E. exists [], r. auto.
  - injection E as <- E. destruct (IH s1 E) as (l1 & l2 & F & G).
    destruct l1 as [|w l1]; cbn in F; injection F as -> F.
    + subst r. exists [u], l2. cbn in *. subst s1. auto.
    + exists (u :: w :: l1), l2. split; [cbn; now rewrite F|]. cbn in G |- *. rewrite <- G. reflexivity.
Qed.
Lemma pairs_in_seg (l : list plane) x y : In x l -> exists s, In s (pairs (l ++ [y])) /\ fst s = x.
Proof.
  intros H. apply in_split in H. destruct H as (l1 & l2 & ->). 
  destruct l2 as [|z l2]; [exists (x, y)|exists (x, z)]; (split; [|reflexivity]); apply pairs_in; cbn [fst snd].
  - exists l1, []. rewrite <- app_assoc. reflexivity.
  - exists l1, (l2 ++ [y]). rewrite <- app_assoc. reflexivity.
Qed.
Lemma find_point_app l1 x l2 p : (forall y, In y l1 -> ~ sq (V := plane) y p == 0) -> sq (V := plane) x p == 0 -> find_point (l1 ++ x :: l2) p = x :: l2.
Proof.
  intros H E. induction l1 as [|y l1 IH]; cbn.
  - apply same_point_iff in E. now rewrite E.
  - destruct (same_point y p) eqn:F; [apply same_point_iff in F; exfalso; apply (H y); cbn; auto|]. apply IH. intros z Hz. apply H. now right.
Qed.
Lemma seg_dist_le p s x : on_segment (V := plane) (fst s) (snd s) x -> seg_dist p s <= sq (V := plane) x p.
Proof. apply (project_segment_nearest plane_lawful). Qed.

Theorem side_ok tree ls p : (2 <= length ls)%nat -> (length ls < rtree_thres)%nat -> regular ls ->
  exists l x pl, signed_distance tree ls p = Ok (l, sq (V := plane) x p) /\ nearest_on ls p x /\ place_of ls x pl /\ (l = true <-> left_at pl p).
Proof.
  intros Hl Hs [Reg1 Reg2]. assert (Hne : ls <> []) by (destruct ls; [cbn in Hl; lia|discriminate]).
  destruct (segments_ok plane_lawful ls Hne) as (segs & Es & Hn & Hon & _ & Hsh).
  destruct Hsh as [(a & -> & _)|[_ ->]]; [cbn in Hl; lia|].
  pose proof (scan_good plane_lawful p (pairs ls) None [] eq_refl) as G. cbn [app] in G.
  pose proof (scan_first p (pairs ls) None [] eq_refl eq_refl) as F. cbn [app] in F.
  unfold signed_distance, closest_segment, closest_to_point. apply Nat.ltb_lt in Hs. rewrite Hs. unfold point_brute. rewrite Es.
  destruct (scan (update_p p) (pairs ls) None) as [[[d s] x]|]; [|easy].
  destruct G as (Hin & Ex & Ed & Hopt). destruct F as (Ed' & s1 & s2 & Esp & Hfirst).
  destruct (pairs_split _ _ _ _ Esp) as (l1 & l2 & El & Ep). destruct s as [a b]. cbn [fst snd] in *.
  rewrite <- Ex. change (@sqd plane) with (@sq plane).
  assert (Hx : on_segment a b x) by (rewrite Ex; apply (project_segment_on plane_lawful)).
  assert (Hnear : nearest_on ls p x).
  { split; [apply Hon; exists (a, b); auto|]. intros y Hy. apply Hon in Hy. destruct Hy as (t & T1 & T2). rewrite <- Ed. eauto. }
  assert (Hpre : forall y, In y l1 -> d < sq (V := plane) y p).
  { intros y Hy. destruct (pairs_in_seg l1 y a Hy) as (t & T1 & T2). rewrite Ep in T1. specialize (Hfirst t T1).
    eapply Qlt_le_trans; [exact Hfirst|]. apply seg_dist_le. rewrite <- T2. apply (on_segment_start plane_lawful). }
  assert (Hxa : l1 <> [] -> ~ sq (V := plane) x a == 0).
  { intros N K. destruct (exists_last N) as (l1' & z & ->). 
    assert (In (z, a) s1) as Hz. { rewrite <- Ep, <- app_assoc. apply pairs_in. exists l1', []. reflexivity. }
    specialize (Hfirst _ Hz). pose proof (seg_dist_le p (z, a) a (on_segment_end plane_lawful z a)) as Q1.
    rewrite <- (sq_same plane_lawful x a p p K (sq_refl plane_lawful p)) in Q1. rewrite Ed in Hfirst. lra. }
  assert (Hab : ~ sq (V := plane) a b == 0) by (eapply Reg1; eauto).
  unfold is_left. destruct (same_point b x) eqn:Sb.
  - apply same_point_iff in Sb.
    assert (find_point ls b = b :: l2) as ->.
    { rewrite El. replace (l1 ++ a :: b :: l2) with ((l1 ++ [a]) ++ b :: l2) by (rewrite <- app_assoc; reflexivity).
      apply find_point_app; [|apply (sq_refl plane_lawful)]. intros y Hy K. apply in_app_iff in Hy. destruct Hy as [Hy|[<-|[]]]; [|auto].
      specialize (Hpre y Hy). rewrite (sq_same plane_lawful y b p p K (sq_refl plane_lawful p)) in Hpre.
      rewrite (sq_same plane_lawful b x p p Sb (sq_refl plane_lawful p)) in Hpre. rewrite Ed in Hpre. lra. }
    destruct l2 as [|c l2].
    + exists (point_left a b p), x, (Inside a b). split; auto. split; auto. split; [exists l1, []; repeat split; auto; congruence|].
      apply point_left_iff.
    + exists (corner_side a b c p), x, (Corner a b c). split; [|split; [auto|split]].
      * unfold corner_side. destruct (negb _ && _); reflexivity.
      * split; [eauto|]. rewrite (sq_sym plane_lawful). exact Sb.
      * cbn. apply corner_side_iff; auto. eapply Reg2; eauto.
  - exists (point_left a b p), x, (Inside a b). split; auto. split; auto. split; [|apply point_left_iff].
    exists l1, l2. repeat split; auto. intros _ K. rewrite (sq_sym plane_lawful) in K. apply same_point_iff in K. congruence.
Qed.

(** * Line strings that are searched with a tree *)
Lemma nearest_same ls p x y : nearest_on ls p x -> on_line ls y -> sq (V := plane) x y == 0 -> nearest_on ls p y.
Proof.
  intros [A B] Hy E. split; auto. intros z Hz. rewrite <- (sq_same plane_lawful x y p p E (sq_refl plane_lawful p)). auto.
Qed.
Lemma on_line_vertex (ls : list plane) l1 v l2 : ls = l1 ++ v :: l2 -> on_line ls v.
Proof.
  intros ->. destruct l2 as [|w l2].
  - destruct l1 as [|u l1] using rev_ind.
    + left. exists v. split; auto. apply (sq_refl plane_lawful).
    + right. exists l1, u, v, []. rewrite <- app_assoc. split; auto. apply (on_segment_end plane_lawful).
  - right. exists l1, v, w, l2. split; auto. apply (on_segment_start plane_lawful).
Qed.
Lemma find_point_split ls b r : find_point ls b = r -> r <> [] -> exists l1 v l2, r = v :: l2 /\ ls = l1 ++ v :: l2 /\ sq (V := plane) v b == 0.
Proof.
  induction ls as [|x l IH]; cbn; intros E N; [congruence|]. destruct (same_point x b) eqn:S.
  - subst r. exists [], x, l. repeat split; auto. now apply same_point_iff.
  - destruct (IH E N) as (l1 & v & l2 & A & B & C). exists (x :: l1), v, l2. rewrite B. auto.
Qed.
Lemma find_point_some ls b : In b ls -> find_point ls b <> [].
Proof.
  induction ls as [|y r IH]; intros H; [destruct H|]. cbn. destruct (same_point y b) eqn:F; [discriminate|]. apply IH. destruct H as [<-|]; auto.
  assert (same_point y y = true) by (apply same_point_iff; apply (sq_refl plane_lawful)). congruence.
Qed.

Theorem side_clear tree ls p : query_ok (V := plane) tree bound_point -> (2 <= length ls)%nat -> off_corners ls p ->
  exists l x a b, signed_distance tree ls p = Ok (l, sq (V := plane) x p) /\ nearest_on ls p x /\ place_of ls x (Inside a b) /\ (l = true <-> 0 < turn a b p).
Proof.
  intros Hq Hl [Hin Hends]. assert (Hne : ls <> []) by (destruct ls; [cbn in Hl; lia|discriminate]).
  destruct (closest_to_point_ok plane_lawful tree ls p Hq Hne) as (d & [a b] & x & segs & E & Es & Hs & Ex & Ed & Hopt).
  destruct (segments_ok plane_lawful ls Hne) as (segs' & Es' & _ & Hon & _ & Hsh). rewrite Es in Es'. injection Es' as <-.
  destruct Hsh as [(z & -> & _)|[_ ->]]; [cbn in Hl; lia|].
  cbn [fst snd] in *. 
  assert (Hx : on_segment a b x) by (rewrite Ex; apply (project_segment_on plane_lawful)).
  assert (Hnear : nearest_on ls p x).
  { split; [apply Hon; exists (a, b); auto|]. intros y Hy. apply Hon in Hy. destruct Hy as (t & T1 & T2). rewrite <- Ed. eauto. }
  apply pairs_in in Hs. destruct Hs as (l1 & l2 & El). cbn [fst snd] in El.
  assert (Hxa : l1 <> [] -> ~ sq (V := plane) x a == 0).
  { intros N K. apply (Hin l1 a (b :: l2)); auto; [discriminate|]. eapply nearest_same; eauto. eapply on_line_vertex; eauto. }
  assert (Hxb : l2 <> [] -> ~ sq (V := plane) x b == 0).
  { intros N K. assert (El' : ls = (l1 ++ [a]) ++ b :: l2) by (rewrite <- app_assoc; auto).
    apply (Hin _ _ _ El'); auto; [destruct l1; discriminate|]. eapply nearest_same; eauto. eapply on_line_vertex; eauto. }
  exists (point_left a b p), x, a, b. split; [|split; [auto|split; [exists l1, l2; auto|apply point_left_iff]]].
  unfold signed_distance, closest_segment. rewrite E. cbn [fst snd]. rewrite <- Ex. change (@sqd plane) with (@sq plane).
  assert (is_left ls p (a, b) x = Ok (point_left a b p)) as ->; [|reflexivity].
  unfold is_left. destruct (same_point b x) eqn:Sb; [|reflexivity]. apply same_point_iff in Sb. rewrite (sq_sym plane_lawful) in Sb.
  assert (l2 = []) as ->. { destruct l2; auto. exfalso. apply Hxb; auto. discriminate. }
  assert (In b ls) as Hb by (rewrite El; apply in_or_app; cbn; auto).
  destruct (find_point ls b) as [|v r] eqn:F; [now apply find_point_some in F|].
  destruct (find_point_split _ _ _ F) as (m1 & v' & m2 & A & B & C); [discriminate|]. injection A as <- <-.
  destruct r as [|c r]; [reflexivity|]. exfalso. destruct m1 as [|u m1].
  - destruct (exists_last (l := c :: r)) as (r' & w & Er); [discriminate|]. rewrite Er in B.
    apply (Hends v r' w B). rewrite El in B. replace (l1 ++ [a; b]) with ((l1 ++ [a]) ++ [b]) in B by (rewrite <- app_assoc; auto).
    change (v :: r' ++ [w]) with ((v :: r') ++ [w]) in B. apply app_inj_tail in B. destruct B as [_ <-]. exact C.
  - apply (Hin _ _ _ B); try discriminate. apply nearest_same with x; auto; [eapply on_line_vertex; eauto|].
    apply (sq_zero_trans plane_lawful) with b; auto. rewrite (sq_sym plane_lawful). exact C.
Qed.
