From Coq Require Import List Bool Arith ZArith QArith Lqa Lia Setoid.
From Verif Require Import ClosestModel ClosestSpec ClosestProofs ClosestVec ClosestLine ClosestTree SideModel SideSpec SideProofs AlignModel AlignSpec.
Import ListNotations.
Local Open Scope Q_scope.

(** * Reversing *)
Lemma rev_split {A} (ls l1 : list A) a l2 : ls = l1 ++ a :: l2 -> rev ls = rev l2 ++ a :: rev l1.
Proof. intros ->. rewrite rev_app_distr. cbn. rewrite <- app_assoc. reflexivity. Qed.
Lemma rev_split2 {A} (ls l1 : list A) a b l2 : ls = l1 ++ a :: b :: l2 -> rev ls = rev l2 ++ b :: a :: rev l1.
Proof. intros ->. rewrite rev_app_distr. cbn. rewrite <- !app_assoc. reflexivity. Qed.
Lemma rev_split3 {A} (ls l1 : list A) a b c l2 : ls = l1 ++ a :: b :: c :: l2 -> rev ls = rev l2 ++ c :: b :: a :: rev l1.
Proof. intros ->. rewrite rev_app_distr. cbn. rewrite <- !app_assoc. reflexivity. Qed.
Lemma rev_nonempty {A} (l : list A) : rev l <> [] -> l <> [].
Proof. intros H ->. now apply H. Qed.

Lemma on_segment_rev (a b x : plane) : on_segment a b x -> on_segment b a x.
Proof.
  intros (t & A & B & C). exists (1 - t). split; [lra|]. split; [lra|]. rewrite <- C.
  destruct a, b, x. unfold sq, at_param. cbn [plane dot vsub vadd vscale fst snd]. ring.
Qed.
Lemma on_line_rev (ls : list plane) x : on_line ls x -> on_line (rev ls) x.
Proof.
  intros [(a & -> & H)|(l1 & a & b & l2 & E & H)]; [left; exists a; auto|].
  right. exists (rev l2), b, a, (rev l1). split; [now apply rev_split2|now apply on_segment_rev].
Qed.
Lemma nearest_on_rev (ls : list plane) p x : nearest_on ls p x -> nearest_on (rev ls) p x.
Proof. intros [A B]. split; [now apply on_line_rev|]. intros y Hy. apply on_line_rev in Hy. rewrite rev_involutive in Hy. auto. Qed.
Definition flip (pl : place) : place := match pl with Inside a b => Inside b a | Corner a b c => Corner c b a end.
Lemma place_of_rev ls x pl : place_of ls x pl -> place_of (rev ls) x (flip pl).
Proof.
  destruct pl as [a b|a b c]; cbn.
  - intros (l1 & l2 & E & H & A & B). exists (rev l2), (rev l1). split; [now apply rev_split2|].
    split; [now apply on_segment_rev|]. split; intros N; apply rev_nonempty in N; auto.
  - intros [(l1 & l2 & E) H]. split; auto. exists (rev l2), (rev l1). now apply rev_split3.
Qed.
Lemma turn_rev a b c : turn c b a == - turn a b c.
Proof. unfold turn. ring. Qed.
Lemma turn_swap a b p : turn b a p == - turn a b p.
Proof. unfold turn. ring. Qed.
Lemma regular_rev ls : regular ls -> regular (rev ls).
Proof.
  intros [A B]. split.
  - intros l1 a b l2 E K. apply rev_split2 in E. rewrite rev_involutive in E. apply (A _ _ _ _ E). rewrite (sq_sym plane_lawful). exact K.
  - intros l1 a b c l2 E [K L]. apply rev_split3 in E. rewrite rev_involutive in E. apply (B _ _ _ _ _ E). split.
    + rewrite turn_rev, K. reflexivity.
    + rewrite (dot_comm _ plane_lawful). exact L.
Qed.
Lemma off_corners_rev ls p : off_corners ls p -> off_corners (rev ls) p.
Proof.
  intros [A B]. split.
  - intros l1 v l2 E N1 N2 H. apply nearest_on_rev in H. rewrite rev_involutive in H. apply rev_split in E. rewrite rev_involutive in E.
    apply (A _ _ _ E); auto; intros K; apply (f_equal (@rev _)) in K; rewrite rev_involutive in K; cbn in K; auto.
  - intros v m w E K. assert (E' : ls = w :: rev m ++ [v]).
    { apply (f_equal (@rev _)) in E. rewrite rev_involutive in E. rewrite E. cbn. rewrite rev_app_distr. reflexivity. }
    apply (B _ _ _ E'). rewrite (sq_sym plane_lawful). exact K.
Qed.
Lemma clear_rev ls p : clear ls p -> clear (rev ls) p.
Proof. intros [A [[B C]|B]]; (split; [now rewrite rev_length|]); [left|right; now apply off_corners_rev]. rewrite rev_length. split; auto. now apply regular_rev. Qed.

(** * The two sides exclude each other *)
Lemma left_flip ls x pl p : (forall a b c, pl = Corner a b c -> regular ls) -> place_of ls x pl -> left_at pl p -> ~ left_at (flip pl) p.
Proof.
  destruct pl as [a b|a b c]; intros R P H K; cbn [flip left_at] in *; [rewrite turn_swap in K; lra|].
  destruct (R _ _ _ eq_refl) as [R1 R2]. destruct P as [(l1 & l2 & E) _].
  unfold left_of_corner in H, K. rewrite turn_rev in K.
  assert (C : forall s t, combined a b c p s t <-> combined c b a p t s).
  { intros s t. unfold combined. split; intros [U W]; split; [rewrite U|rewrite W|rewrite U|rewrite W]; ring. }
  destruct H as [(A & s & t & S & T & Co)|[(A & N)|(A & B)]].
  - destruct K as [(B & _)|[(_ & N)|(B & _)]]; [lra| |lra]. apply N. exists t, s. split; [lra|]. split; [lra|]. now apply C.
  - destruct K as [(_ & s & t & S & T & Co)|[(B & _)|(B & _)]]; [|lra|lra]. apply N. exists t, s. split; [lra|]. split; [lra|]. now apply C.
  - destruct K as [(D & _)|[(D & _)|(_ & D)]]; [lra|lra|].
    assert (D' : turn b c p < 0) by (rewrite turn_swap in D; lra).
    (* the corner is straight: as in [corner_side_iff] with p mirrored *)
    pose proof (R1 _ _ _ _ E) as Hab.
    assert (E2 : ls = (l1 ++ [a]) ++ b :: c :: l2) by (rewrite <- app_assoc; exact E).
    pose proof (R1 _ _ _ _ E2) as Hbc. specialize (R2 _ _ _ _ _ E).
    revert A B D' Hab Hbc R2. clear. destruct a as [ax ay], b as [bx b_y], c as [cx cy], p as [px py]. unfold turn, sq. cbn [plane dot vsub fst snd].
    intros A B D Hab Hbc R2.
    set (ux := bx - ax) in *. set (uy := b_y - ay) in *. set (vx := cx - bx) in *. set (vy := cy - b_y) in *.
    assert (D2 : 0 <= ux * vx + uy * vy).
    { apply Qnot_lt_le. intros L. apply R2. split; auto. unfold ux, uy, vx, vy in *. lra. }
    set (dx := px - bx) in *. set (dy := py - b_y) in *.
    set (ex := px - cx) in *. set (ey := py - cy) in *.
    assert (Q1 : vx * ey - vy * ex == vx * dy - vy * dx) by (unfold vx, vy, ex, ey, dx, dy; ring).
    assert (Hu2 : 0 < ux * ux + uy * uy).
    { assert (0 <= ux * ux + uy * uy) by nra. destruct (Qlt_le_dec 0 (ux * ux + uy * uy)); auto. exfalso. apply Hab. unfold ux, uy in *. lra. }
    assert (Z' : ux * vy == uy * vx) by lra.
    assert (E : (ux * ux + uy * uy) * (vx * dy - vy * dx) == (ux * vx + uy * vy) * (ux * dy - uy * dx)).
    { setoid_replace ((ux * ux + uy * uy) * (vx * dy - vy * dx)) with
        (ux * vx * (ux * dy) + uy * (uy * vx) * dy - ux * (ux * vy) * dx - uy * vy * uy * dx) by ring.
      rewrite <- Z' at 1. rewrite Z' at 2. ring. }
    rewrite Q1 in D.
    assert (0 <= (ux * vx + uy * vy) * (ux * dy - uy * dx)) by (apply Qmult_le_0_compat; lra).
    assert (0 < (ux * ux + uy * uy) * - (vx * dy - vy * dx)) by (apply Qmult_lt_0_compat; lra).
    lra.
Qed.

Lemma on_segment_turn (a b x : plane) : on_segment a b x -> turn a b x == 0.
Proof.
  intros (t & _ & _ & H). destruct a as [ax ay], b as [bx b_y], x as [xx xy]. unfold sq, at_param in H. cbn [plane dot vsub vadd vscale fst snd] in H.
  apply zero_parts in H. destruct H as [H1 H2]. unfold turn. cbn [fst snd].
  assert (X : xx == ax + t * (bx - ax)) by lra. assert (Y : xy == ay + t * (b_y - ay)) by lra. rewrite X, Y. ring.
Qed.
Lemma turn_same a b p q : sq (V := plane) p q == 0 -> turn a b p == turn a b q.
Proof.
  destruct p, q. unfold sq. cbn [plane dot vsub fst snd]. intros H. apply zero_parts in H. destruct H as [H1 H2]. unfold turn. cbn [fst snd].
  assert (X : q0 == q) by lra. assert (Y : q2 == q1) by lra. rewrite X, Y. reflexivity.
Qed.
Lemma left_apart ls x pl p : place_of ls x pl -> left_at pl p -> 0 < sq (V := plane) x p.
Proof.
  intros P H. destruct (Qlt_le_dec 0 (sq (V := plane) x p)) as [|L]; auto. exfalso.
  assert (Z : sq (V := plane) x p == 0) by (pose proof (sq_pos plane_lawful x p); lra). clear L.
  destruct pl as [a b|a b c]; cbn [left_at] in H.
  - destruct P as (l1 & l2 & _ & S & _). apply on_segment_turn in S. rewrite (turn_same _ _ _ _ Z) in S. lra.
  - destruct P as [_ B].
    assert (Bp : sq (V := plane) p b == 0) by (apply (sq_zero_trans plane_lawful) with x; auto; rewrite (sq_sym plane_lawful); auto).
    assert (T : turn a b p == 0) by (rewrite (turn_same _ _ _ _ Bp); unfold turn; ring).
    destruct H as [(A & s & t & S & U & Co)|[(A & N)|(A & K)]]; [| |lra].
    + apply combined_solve in Co. destruct Co as [Co _]. assert (0 < s * turn a b c) by (apply Qmult_lt_0_compat; auto). lra.
    + apply N. exists 0, 0. split; [lra|]. split; [lra|]. unfold combined. clear -Bp. destruct p, b. unfold sq in Bp. cbn [plane dot vsub fst snd] in *.
      apply zero_parts in Bp. destruct Bp. split; lra.
Qed.

(** * The sign of the distance *)
Lemma clear_side tree ls p : query_ok (V := plane) tree bound_point -> clear ls p ->
  exists l x pl, signed_distance tree ls p = Ok (l, sq (V := plane) x p) /\ nearest_on ls p x /\ place_of ls x pl /\ (l = true <-> left_at pl p) /\
    (forall a b c, pl = Corner a b c -> regular ls).
Proof.
  intros Hq [Hl [[Hs R]|O]].
  - destruct (side_ok tree ls p Hl Hs R) as (l & x & pl & A & B & C & D). exists l, x, pl.
    split; [exact A|]. split; [exact B|]. split; [exact C|]. split; [exact D|]. intros; exact R.
  - destruct (side_clear tree ls p Hq Hl O) as (l & x & a & b & A & B & C & D). exists l, x, (Inside a b).
    split; [exact A|]. split; [exact B|]. split; [exact C|]. split; [exact D|]. intros; discriminate.
Qed.
Lemma sign_left tree ls p : query_ok (V := plane) tree bound_point -> clear ls p -> left_of ls p ->
  exists d, signed_distance tree ls p = Ok d /\ positive d = true /\ negative d = false.
Proof.
  intros Hq Hc H. destruct (clear_side tree ls p Hq Hc) as (l & x & pl & A & B & C & D & _). eexists. split; [exact A|].
  specialize (H x pl B C). pose proof (left_apart _ _ _ _ C H) as P. apply D in H. subst l. unfold positive, negative. cbn [fst snd negb andb].
  apply qlt_true in P. auto.
Qed.
Lemma sign_right tree ls p : query_ok (V := plane) tree bound_point -> clear ls p -> right_of ls p ->
  exists d, signed_distance tree ls p = Ok d /\ positive d = false /\ negative d = true.
Proof.
  intros Hq Hc H. destruct (clear_side tree ls p Hq Hc) as (l & x & pl & A & B & C & D & R). eexists. split; [exact A|].
  specialize (H x (flip pl) (nearest_on_rev _ _ _ B) (place_of_rev _ _ _ C)).
  pose proof (left_apart _ _ _ _ (place_of_rev _ _ _ C) H) as P.
  assert (N : ~ left_at pl p) by (intros K; exact (left_flip _ _ _ _ R C K H)).
  assert (l = false) as -> by (destruct l; auto; exfalso; apply N, D; auto).
  unfold positive, negative. cbn [fst snd negb andb]. apply qlt_true in P. auto.
Qed.

(** * The middle *)
Lemma middle_in ls : ls <> [] -> in_middle ls (middle ls).
Proof.
  intros N. unfold middle. destruct (2 <? length ls)%nat eqn:L.
  - apply Nat.ltb_lt in L. right. split; [lia|].
    assert (K : (length ls / 2 < length ls)%nat) by (apply Nat.div_lt; lia).
    destruct (nth_split ls origin K) as (l1 & l2 & E & El). exists l1, l2. split; [exact E|].
    apply (f_equal (@length _)) in E. rewrite app_length in E. cbn [length] in E.
    pose proof (Nat.div_mod (length ls) 2 ltac:(lia)) as DM. pose proof (Nat.mod_upper_bound (length ls) 2 ltac:(lia)) as MB. lia.
  - apply Nat.ltb_ge in L. left. destruct ls as [|a [|b [|]]]; [easy| | |cbn in L; lia].
    + exists a, a. split; [right; auto|]. destruct a. cbn. split; ring.
    + exists a, b. split; [left; auto|]. destruct a, b. cbn. split; ring.
Qed.
Lemma in_middle_rev ls m : in_middle ls m -> in_middle (rev ls) m.
Proof.
  intros [(a & b & [->|[-> ->]] & A & B)|(L & l1 & l2 & E & H)].
  - left. exists b, a. split; [left; auto|]. rewrite A, B. split; ring.
  - left. exists a, a. split; [right; auto|]. auto.
  - right. rewrite rev_length. split; auto. exists (rev l2), (rev l1). split; [now apply rev_split|]. rewrite !rev_length. lia.
Qed.
Lemma either_middle ls ls' : ls <> [] -> either_way ls ls' -> in_middle ls (middle ls').
Proof.
  intros N [->| ->]; [now apply middle_in|]. rewrite <- (rev_involutive ls) at 1. apply in_middle_rev, middle_in. intros K. apply N.
  apply (f_equal (@rev _)) in K. now rewrite rev_involutive in K.
Qed.
Lemma either_length {A} (ls ls' : list A) : ls' = ls \/ ls' = rev ls -> length ls' = length ls.
Proof. intros [->| ->]; auto. apply rev_length. Qed.
Lemma either_single (ls ls' : list plane) : (length ls <= 1)%nat -> either_way ls ls' -> ls' = ls.
Proof. intros L [->| ->]; auto. destruct ls as [|? [|]]; auto. cbn in L. lia. Qed.

Lemma signed_total tree ls p : query_ok (V := plane) tree bound_point -> ls <> [] -> exists d, signed_distance tree ls p = Ok d.
Proof.
  intros Hq Hne. destruct (closest_to_point_ok plane_lawful tree ls p Hq Hne) as (d & [a b] & x & segs & E & Es & Hin & Ex & Ed & Hopt).
  destruct (segments_ok plane_lawful ls Hne) as (segs' & Es' & _ & Hon & Hmem & _). rewrite Es in Es'. injection Es' as <-.
  unfold signed_distance, closest_segment. rewrite E. cbn [fst snd].
  assert (exists l, is_left ls p (a, b) (project_segment a b p) = Ok l) as (l & ->); [|eauto].
  unfold is_left. destruct (same_point b _); eauto. destruct (Hmem _ Hin) as [_ Hb]. cbn in Hb. apply find_point_some in Hb.
  destruct (find_point ls b) as [|? [|]]; [easy|eauto|]. destruct (negb _ && _); eauto.
Qed.

Theorem align_ok tree left right l r : query_ok (V := plane) tree bound_point -> bounds left right -> either_way left l -> either_way right r ->
  align tree l r = Ok (left, right).
Proof.
  intros Hq (Nl & Nr & Hl & Hr) El Er.
  pose proof (either_length _ _ El) as Ll. pose proof (either_length _ _ Er) as Lr.
  assert (Pl : (0 < length left)%nat) by (destruct left; [easy|cbn; lia]).
  assert (Pr : (0 < length right)%nat) by (destruct right; [easy|cbn; lia]).
  unfold align. rewrite Ll, Lr.
  destruct (((length left <=? 1)%nat && (length right <=? 1)%nat) || (length right =? 0)%nat || (length left =? 0)%nat) eqn:D.
  - rewrite !orb_true_iff, andb_true_iff, !Nat.leb_le, !Nat.eqb_eq in D. assert (length left <= 1 /\ length right <= 1)%nat as [S1 S2] by lia.
    rewrite (either_single left l S1 El), (either_single right r S2 Er). reflexivity.
  - clear D.
    assert (exists d, signed_distance tree l (middle r) = Ok d /\ (if negb (negative d) && (1 <? length left)%nat then rev l else l) = left) as (d & -> & E).
    { destruct (1 <? length left)%nat eqn:S.
      - apply Nat.ltb_lt in S. destruct (Hl ltac:(lia) (middle r) (either_middle _ _ Nr Er)) as [C R]. destruct El as [->| ->].
        + destruct (sign_right tree left _ Hq C R) as (d & E & _ & F). exists d. split; auto. rewrite F. reflexivity.
        + destruct (sign_left tree (rev left) _ Hq (clear_rev _ _ C) R) as (d & E & _ & F). exists d. split; auto. rewrite F. cbn. apply rev_involutive.
      - apply Nat.ltb_ge in S. rewrite (either_single left l S El). destruct (signed_total tree left (middle r) Hq Nl) as (d & E). exists d. split; auto.
        now rewrite andb_false_r. }
    cbn zeta. rewrite E.
    assert (exists e, signed_distance tree r (middle left) = Ok e /\ (if negb (positive e) && (1 <? length right)%nat then rev r else r) = right) as (e & -> & F); [|now rewrite F].
    destruct (1 <? length right)%nat eqn:S.
    + apply Nat.ltb_lt in S. destruct (Hr ltac:(lia) (middle left) (middle_in _ Nl)) as [C L]. destruct Er as [->| ->].
      * destruct (sign_left tree right _ Hq C L) as (e & F & G & _). exists e. split; auto. rewrite G. reflexivity.
      * assert (R : right_of (rev right) (middle left)) by (unfold right_of; now rewrite rev_involutive).
        destruct (sign_right tree (rev right) _ Hq (clear_rev _ _ C) R) as (e & F & G & _). exists e. split; auto. rewrite G. cbn. apply rev_involutive.
    + apply Nat.ltb_ge in S. rewrite (either_single right r S Er). destruct (signed_total tree right (middle left) Hq Nr) as (e & F). exists e. split; auto.
      now rewrite andb_false_r.
Qed.

Theorem align_total tree left right : query_ok (V := plane) tree bound_point ->
  exists l r, align tree left right = Ok (l, r) /\ either_way left l /\ either_way right r.
Proof.
  intros Hq. unfold align, either_way.
  destruct (((length left <=? 1)%nat && (length right <=? 1)%nat) || (length right =? 0)%nat || (length left =? 0)%nat) eqn:D; [eauto 10|].
  rewrite !orb_false_iff, !Nat.eqb_neq in D. destruct D as [[_ Nr] Nl].
  assert (left <> []) by (destruct left; [easy|discriminate]). assert (right <> []) by (destruct right; [easy|discriminate]).
  destruct (signed_total tree left (middle right) Hq) as (d & ->); auto. cbn zeta.
  set (l := if negb (negative d) && (1 <? length left)%nat then rev left else left).
  destruct (signed_total tree right (middle l) Hq) as (e & ->); auto. eexists _, _. split; [reflexivity|].
  unfold l. split; [destruct (negb (negative d) && _)|destruct (negb (positive e) && _)]; auto.
Qed.

(** * A sufficient condition *)
Lemma all_left ls p : (forall l1 a b l2, ls = l1 ++ a :: b :: l2 -> 0 < turn a b p) -> regular ls /\ left_of ls p.
Proof.
  intros H. assert (R : regular ls).
  { split.
    - intros l1 a b l2 E K. specialize (H _ _ _ _ E). clear E. destruct a as [ax ay], b as [bx b_y], p as [px py].
      unfold sq in K. cbn [plane dot vsub fst snd] in K. apply zero_parts in K. destruct K as [K1 K2]. unfold turn in H. cbn [fst snd] in H.
      assert (X : bx == ax) by lra. assert (Y : b_y == ay) by lra. rewrite X, Y in H. lra.
    - intros l1 a b c l2 E [K D]. pose proof (H _ _ _ _ E) as A.
      assert (E2 : ls = (l1 ++ [a]) ++ b :: c :: l2) by (rewrite <- app_assoc; exact E). pose proof (H _ _ _ _ E2) as B. clear E E2 H.
      revert K D A B. destruct a as [ax ay], b as [bx b_y], c as [cx cy], p as [px py]. unfold turn. cbn [plane dot vsub fst snd]. intros K D A B.
      set (ux := bx - ax) in *. set (uy := b_y - ay) in *. set (vx := cx - bx) in *. set (vy := cy - b_y) in *.
      set (dx := px - bx) in *. set (dy := py - b_y) in *.
      assert (Q1 : vx * (py - cy) - vy * (px - cx) == vx * dy - vy * dx) by (unfold vx, vy, dx, dy; ring). rewrite Q1 in B.
      assert (D' : ux * vx + uy * vy < 0) by (unfold ux, uy, vx, vy in *; lra).
      assert (Z' : ux * vy == uy * vx) by lra.
      assert (E : (ux * ux + uy * uy) * (vx * dy - vy * dx) == (ux * vx + uy * vy) * (ux * dy - uy * dx)).
      { setoid_replace ((ux * ux + uy * uy) * (vx * dy - vy * dx)) with
          (ux * vx * (ux * dy) + uy * (uy * vx) * dy - ux * (ux * vy) * dx - uy * vy * uy * dx) by ring.
        rewrite <- Z' at 1. rewrite Z' at 2. ring. }
      assert (0 <= ux * ux + uy * uy) by nra.
      assert (0 <= (ux * ux + uy * uy) * (vx * dy - vy * dx)) by (apply Qmult_le_0_compat; lra).
      assert (0 < - (ux * vx + uy * vy) * (ux * dy - uy * dx)) by (apply Qmult_lt_0_compat; lra). lra. }
  split; auto. intros x [a b|a b c] _ P; cbn [left_at].
  - destruct P as (l1 & l2 & E & _). eauto.
  - destruct P as [(l1 & l2 & E) _]. assert (E2 : ls = (l1 ++ [a]) ++ b :: c :: l2) by (rewrite <- app_assoc; exact E).
    destruct R as [R1 R2]. apply corner_side_iff; eauto. unfold corner_side.
    pose proof (H _ _ _ _ E) as A. pose proof (H _ _ _ _ E2) as B. apply point_left_iff in A, B. rewrite A, B. reflexivity.
Qed.
Lemma all_right ls p : (forall l1 a b l2, ls = l1 ++ a :: b :: l2 -> turn a b p < 0) -> regular ls /\ right_of ls p.
Proof.
  intros H. destruct (all_left (rev ls) p) as [A B].
  - intros l1 a b l2 E. apply rev_split2 in E. rewrite rev_involutive in E. apply H in E. rewrite turn_swap in E. lra.
  - split; auto. apply regular_rev in A. now rewrite rev_involutive in A.
Qed.
Lemma bounds_of left right : (2 <= length left < 50)%nat -> (2 <= length right < 50)%nat ->
  (forall m, in_middle right m -> forall l1 a b l2, left = l1 ++ a :: b :: l2 -> turn a b m < 0) ->
  (forall m, in_middle left m -> forall l1 a b l2, right = l1 ++ a :: b :: l2 -> 0 < turn a b m) -> bounds left right.
Proof.
  intros Ll Lr Hl Hr. split; [intros ->; cbn in Ll; lia|]. split; [intros ->; cbn in Lr; lia|]. split; intros _ m Hm.
  - destruct (all_right left m (Hl m Hm)) as [A B]. split; auto. split; [lia|]. left. split; [lia|auto].
  - destruct (all_left right m (Hr m Hm)) as [A B]. split; auto. split; [lia|]. left. split; [lia|auto].
Qed.
