(** Proofs about the relations of lanelets and areas. *)
From Coq Require Import List Bool Arith Lia.
From Verif Require Import LineModel LineSpec PathModel PathSpec RelateModel RelateSpec.
From Verif Require CompoundProofs.
Import ListNotations.

(** * Edges *)
Lemma after_first_iff f l x z : after_first f l x = Some z <->
  exists l1 l2, l = l1 ++ x :: l2 /\ ~ In x l1 /\ z = hd f l2.
Proof.
  revert z. induction l as [|y r IH]; intros z; cbn [after_first].
  - split; [discriminate|]. intros (l1 & l2 & E & _). destruct l1; discriminate.
  - destruct (Nat.eqb_spec y x) as [->|N].
    + split.
      * intros H. injection H as <-. exists [], r. repeat split; auto.
      * intros (l1 & l2 & E & NI & ->). destruct l1 as [|w l1].
        -- injection E as ->. destruct l2; reflexivity.
        -- injection E as <- _. exfalso. apply NI. left. reflexivity.
    + rewrite IH. split.
      * intros (l1 & l2 & -> & NI & ->). exists (y :: l1), l2. repeat split; auto. intros [?|?]; auto.
      * intros (l1 & l2 & E & NI & ->). destruct l1 as [|w l1]; [injection E as ? _; contradiction|].
        injection E as -> ->. exists l1, l2. repeat split; auto. intros ?; apply NI; right; auto.
Qed.

Lemma next_of_sound l x z : next_of l x = Some z -> x <> z -> edge l x z.
Proof.
  unfold next_of. destruct l as [|y r]; [discriminate|]. rewrite after_first_iff.
  intros (l1 & l2 & E & _ & ->) N. destruct l2 as [|w l2]; cbn [hd] in *.
  - destruct l1 as [|v l1]; [injection E as -> _; contradiction|]. injection E as -> ->.
    right. exists l1. reflexivity.
  - left. exists l1, l2. exact E.
Qed.
Lemma removelast_app' {A} (l1 : list A) x y l2 : removelast (l1 ++ x :: y :: l2) = l1 ++ x :: removelast (y :: l2).
Proof. rewrite removelast_app by discriminate. reflexivity. Qed.
Lemma next_of_complete l x z : simple l -> x <> z -> edge l x z -> next_of l x = Some z.
Proof.
  intros S N E. unfold next_of. destruct l as [|y r].
  - destruct E as [(l1 & l2 & E)|(m & E)]; [destruct l1|]; discriminate.
  - apply after_first_iff. destruct E as [(l1 & l2 & E)|(m & E)].
    + exists l1, (z :: l2). split; [exact E|]. split; [|reflexivity].
      destruct S as [D|(a & m & E2 & D)].
      * rewrite E in D. apply NoDup_remove_2 in D. intros I. apply D. apply in_or_app. auto.
      * assert (R : removelast (y :: r) = a :: m).
        { rewrite E2. change (a :: m ++ [a]) with ((a :: m) ++ [a]). apply removelast_last. }
        rewrite E, removelast_app' in R. rewrite <- R in D. apply NoDup_remove_2 in D. intros I. apply D. apply in_or_app. auto.
    + injection E as -> ->. exists (z :: m), []. split; [reflexivity|]. split; [|reflexivity].
      destruct S as [D|(a & m' & E2 & D)].
      * change (z :: m ++ [x]) with ((z :: m) ++ [x]) in D. apply NoDup_remove_2 in D. rewrite app_nil_r in D. exact D.
      * exfalso. injection E2 as -> E2. apply app_inj_tail in E2. destruct E2 as [_ E2]. congruence.
Qed.
Lemma next_of_self l x : simple l -> (exists p q, p <> q /\ In p l /\ In q l) -> next_of l x <> Some x.
Proof.
  intros S (p & q & N & Ip & Iq) H. unfold next_of in H. destruct l as [|y r]; [discriminate|].
  apply after_first_iff in H. destruct H as (l1 & l2 & E & NI & H).
  destruct l2 as [|w l2]; cbn [hd] in H.
  - subst y. destruct l1 as [|v l1].
    + rewrite E in Ip, Iq. destruct Ip as [<-|[]], Iq as [<-|[]]. congruence.
    + injection E as <- _. apply NI. left. reflexivity.
  - subst w. destruct S as [D|(a & m & E2 & D)].
    + rewrite E in D. apply NoDup_remove_2 in D. apply D. apply in_or_app. right. left. reflexivity.
    + assert (R : removelast (y :: r) = a :: m).
      { rewrite E2. change (a :: m ++ [a]) with ((a :: m) ++ [a]). apply removelast_last. }
      rewrite E, removelast_app' in R. destruct l2 as [|w l2].
      * cbn [removelast] in R. rewrite E in E2. change (l1 ++ [x; x]) with (l1 ++ [x] ++ [x]) in E2. rewrite app_assoc in E2.
        change (a :: m ++ [a]) with ((a :: m) ++ [a]) in E2. apply app_inj_tail in E2. destruct E2 as [E2 <-].
        destruct l1 as [|v l1].
        -- rewrite E in Ip, Iq. destruct Ip as [<-|[<-|[]]], Iq as [<-|[<-|[]]]; congruence.
        -- injection E2 as <- _. apply NI. left. reflexivity.
      * change (removelast (x :: w :: l2)) with (x :: removelast (w :: l2)) in R. rewrite <- R in D. apply NoDup_remove_2 in D.
        apply D. apply in_or_app. right. left. reflexivity.
Qed.

(** * Segments *)
Lemma segment_done l i : i < length l -> exists a b, segment l i = Done (a, b).
Proof.
  intros L. unfold segment. destruct (nth_error l i) as [a|] eqn:E1; [|apply nth_error_None in E1; lia].
  destruct (nth_error l (if Nat.eqb (S i) (length l) then 0 else S i)) as [b|] eqn:E2; [eauto|].
  apply nth_error_None in E2. destruct (Nat.eqb_spec (S i) (length l)); lia.
Qed.
Lemma segment_edge l i a b : segment l i = Done (a, b) -> a <> b -> edge l a b.
Proof.
  unfold segment. destruct (nth_error l i) as [a'|] eqn:E1; [|discriminate].
  destruct (nth_error l (if Nat.eqb (S i) (length l) then 0 else S i)) as [b'|] eqn:E2; [|discriminate]. intros H N. injection H as -> ->.
  destruct (nth_error_split _ _ E1) as (l1 & l2 & -> & <-).
  rewrite app_length in E2. cbn [length] in E2. destruct l2 as [|c l2].
  - rewrite (proj2 (Nat.eqb_eq _ _)) in E2 by (cbn; lia). destruct l1 as [|d l1]; cbn in E2; [congruence|].
    injection E2 as ->. right. exists l1. reflexivity.
  - rewrite (proj2 (Nat.eqb_neq _ _)) in E2 by (cbn; lia).
    rewrite nth_error_app2 in E2 by lia. replace (S (length l1) - length l1) with 1 in E2 by lia. cbn in E2. injection E2 as ->.
    left. exists l1, l2. reflexivity.
Qed.
Lemma edge_segment l a b : edge l a b -> exists i, i < length l /\ segment l i = Done (a, b).
Proof.
  intros [(l1 & l2 & ->)|(m & ->)].
  - exists (length l1). rewrite app_length. cbn [length]. split; [lia|]. unfold segment.
    rewrite nth_error_app2, Nat.sub_diag by lia. cbn [nth_error].
    rewrite app_length. cbn [length]. rewrite (proj2 (Nat.eqb_neq _ _)) by lia.
    rewrite nth_error_app2 by lia. replace (S (length l1) - length l1) with 1 by lia. reflexivity.
  - exists (S (length m)). cbn [length]. rewrite app_length. cbn [length]. split; [lia|]. unfold segment. cbn [length].
    rewrite app_length. cbn [length]. rewrite (proj2 (Nat.eqb_eq _ _)) by lia.
    cbn [nth_error]. rewrite nth_error_app2, Nat.sub_diag by lia. reflexivity.
Qed.
Lemma touch_loop_ok l1 l2 n : forall i, i + n <= length l1 ->
  exists r, touch_loop l1 l2 n i = Done r /\
    (r = true <-> exists j a b, i <= j < i + n /\ segment l1 j = Done (a, b) /\ next_of l2 b = Some a).
Proof.
  induction n as [|n IH]; intros i L; cbn [touch_loop].
  - exists false. split; [reflexivity|]. split; [discriminate|]. intros (j & a & b & J & _). lia.
  - destruct (segment_done l1 i) as (a & b & E); [lia|]. rewrite E. cbn [bind fst snd].
    destruct (IH (S i)) as (r & Er & Hr); [lia|].
    assert (G : next_of l2 b <> Some a -> r = true <-> exists j a b, i <= j < i + S n /\ segment l1 j = Done (a, b) /\ next_of l2 b = Some a).
    { intros N. rewrite Hr. split.
      - intros (j & a' & b' & J & X). exists j, a', b'. split; [lia|exact X].
      - intros (j & a' & b' & J & S & X). exists j, a', b'. split; [|auto]. assert (j <> i); [|lia].
        intros ->. rewrite E in S. injection S as <- <-. contradiction. }
    destruct (next_of l2 b) as [z|] eqn:Ez.
    + destruct (Nat.eqb_spec z a) as [->|N].
      * exists true. split; [reflexivity|]. split; [|auto]. intros _. exists i, a, b. split; [lia|auto].
      * exists r. split; [exact Er|]. apply G. congruence.
    + exists r. split; [exact Er|]. apply G. discriminate.
Qed.
Definition two_points (l : list nat) : Prop := exists p q, p <> q /\ In p l /\ In q l.
Lemma loop_shares l1 l2 : simple l2 -> two_points l2 ->
  (exists j a b, 0 <= j < 0 + length l1 /\ segment l1 j = Done (a, b) /\ next_of l2 b = Some a) <-> share_edge l1 l2.
Proof.
  intros S T. split.
  - intros (j & a & b & _ & E & N). assert (D : a <> b).
    { intros ->. revert N. apply next_of_self; assumption. }
    exists a, b. repeat split; [exact D|eapply segment_edge; eauto|apply next_of_sound; auto].
  - intros (a & b & D & E1 & E2). destruct (edge_segment _ _ _ E1) as (j & J & E). exists j, a, b.
    split; [lia|]. split; [exact E|]. apply next_of_complete; auto.
Qed.
Lemma touches_ok compound l1 l2 : (compound = true -> l1 <> []) -> simple l2 -> two_points l2 ->
  exists r, touches_2d compound l1 l2 = Done r /\ (r = true <-> share_edge l1 l2).
Proof.
  intros NE S T. unfold touches_2d, num_segments.
  assert (G : exists r, touch_loop l1 l2 (length l1) 0 = Done r /\ (r = true <-> share_edge l1 l2)).
  { destruct (touch_loop_ok l1 l2 (length l1) 0) as (r & E & H); [lia|]. exists r. split; [exact E|].
    rewrite H. apply loop_shares; assumption. }
  destruct compound.
  - destruct l1 as [|x l1]; [exfalso; apply NE; reflexivity|]. replace (Nat.max 1 (length (x :: l1))) with (length (x :: l1)) by (cbn [length]; lia).
    exact G.
  - destruct (Nat.ltb_spec (length l1) 2) as [L|L]; [|exact G].
    exists false. split; [reflexivity|]. split; [discriminate|]. intros (a & b & N & E & _). exfalso.
    destruct E as [(m & m' & ->)|(m & ->)].
    + rewrite app_length in L. cbn [length] in L. lia.
    + cbn [length] in L. rewrite app_length in L. cbn [length] in L. lia.
Qed.

(** * Areas *)
Section areas.
Variable data : nat -> list nat.
Lemma outer_polygon_eq ar : outer_polygon data ar = Done (dedup Nat.eqb (concat (map (seen data) ar))).
Proof.
  unfold outer_polygon. rewrite (CompoundProofs.points_spec Nat.eqb Nat.eqb_eq). cbn [view].
  reflexivity.
Qed.

Lemma dedup_head x r : exists m, dedup Nat.eqb (x :: r) = x :: m.
Proof.
  revert x. induction r as [|y r IH]; intros x; cbn [dedup]; [eauto|].
  destruct (Nat.eqb_spec x y) as [->|]; [apply IH|eauto].
Qed.
Lemma dedup_pair l1 x y l2 : x <> y -> exists m1 m2, dedup Nat.eqb (l1 ++ x :: y :: l2) = m1 ++ x :: y :: m2.
Proof.
  intros N. induction l1 as [|z l1 IH].
  - cbn [app]. destruct (dedup_head y l2) as (m & E). exists [], m. cbn [dedup] in *. rewrite (proj2 (Nat.eqb_neq _ _) N), E. reflexivity.
  - destruct IH as (m1 & m2 & E). cbn [app]. remember (l1 ++ x :: y :: l2) as t eqn:Et. destruct t as [|w t]; [destruct l1; discriminate|].
    cbn [dedup] in *. destruct (Nat.eqb z w); [exists m1, m2; exact E|]. exists (z :: m1), m2. cbn [app]. rewrite <- E. reflexivity.
Qed.
Lemma line_eqb_iff a b : line_eqb a b = true <-> a = b.
Proof.
  unfold line_eqb. destruct a as [a i], b as [b j]. cbn. rewrite andb_true_iff, Nat.eqb_eq, eqb_true_iff. split.
  - intros [-> ->]. reflexivity.
  - intros H. injection H as -> ->. auto.
Qed.
Lemma linv_turned l : linv l = turned l. Proof. reflexivity. Qed.
Lemma turned_twice l : turned (turned l) = l.
Proof. destruct l as [d i]. unfold turned. cbn. rewrite negb_involutive. reflexivity. Qed.
Lemma turned_seen l : seen data (turned l) = rev (seen data l).
Proof. unfold seen, turned. cbn. destruct (l_inv l); cbn; [rewrite rev_involutive|]; reflexivity. Qed.
Lemma outer_edge ar b s1 x y s2 : In b ar -> seen data b = s1 ++ x :: y :: s2 -> x <> y ->
  edge (dedup Nat.eqb (concat (map (seen data) ar))) x y.
Proof.
  intros I E N. apply in_split in I. destruct I as (a1 & a2 & ->). rewrite map_app, concat_app. cbn [map concat]. rewrite E.
  rewrite <- !app_assoc. cbn [app]. rewrite app_assoc. left. apply dedup_pair. exact N.
Qed.
Lemma edge_in l a b : edge l a b -> In a l /\ In b l.
Proof.
  intros [(l1 & l2 & ->)|(m & ->)].
  - split; apply in_or_app; right; cbn; auto.
  - split; [right; apply in_or_app; right|]; left; reflexivity.
Qed.
Lemma adjacent_ok ar1 ar2 l1 l2 : outer_polygon data ar1 = Done l1 -> outer_polygon data ar2 = Done l2 ->
  l1 <> [] -> simple l2 -> two_points l2 ->
  exists r, adjacent_areas data ar1 ar2 = Done r /\ (r = true <-> share_edge l1 l2).
Proof.
  intros E1 E2 N S T. unfold adjacent_areas. rewrite E1, E2. cbn [bind].
  apply (touches_ok true); auto.
Qed.
Lemma common_areas_iff ar1 ar2 b : common_areas ar1 ar2 = Some b -> In b ar1 /\ In (turned b) ar2.
Proof.
  intros H. apply find_some in H. destruct H as [I H]. split; [exact I|].
  apply existsb_exists in H. destruct H as (c & Ic & E). apply line_eqb_iff in E. subst c. exact Ic.
Qed.
Lemma common_areas_none ar1 ar2 b : common_areas ar1 ar2 = None -> In b ar1 -> ~ In (turned b) ar2.
Proof.
  intros H I J. apply (find_none _ _ H) in I. apply not_true_iff_false in I. apply I. apply existsb_exists.
  exists (turned b). split; [exact J|]. apply line_eqb_iff. reflexivity.
Qed.
Lemma common_adjacent ar1 ar2 b l2 s1 x y s2 : common_areas ar1 ar2 = Some b -> seen data b = s1 ++ x :: y :: s2 -> x <> y ->
  outer_polygon data ar2 = Done l2 -> simple l2 -> adjacent_areas data ar1 ar2 = Done true.
Proof.
  intros C E N E2 S. apply common_areas_iff in C. destruct C as [I J].
  assert (A : edge (dedup Nat.eqb (concat (map (seen data) ar1))) x y) by (eapply outer_edge; eauto).
  assert (B : edge l2 y x).
  { rewrite outer_polygon_eq in E2. injection E2 as <-. apply (outer_edge _ (turned b) (rev s2) y x (rev s1)); auto.
    rewrite turned_seen, E. rewrite rev_app_distr. cbn [rev]. rewrite <- !app_assoc. reflexivity. }
  destruct (adjacent_ok ar1 ar2 _ l2 (outer_polygon_eq ar1) E2) as (r & Er & H).
  - intros Z. rewrite Z in A. apply edge_in in A. destruct A as [[] _].
  - exact S.
  - apply edge_in in B. exists y, x. split; [auto|]. tauto.
  - rewrite Er. f_equal. apply H. exists x, y. auto.
Qed.
End areas.

(** * Lanelets and areas *)
Section both.
Variable data : nat -> list nat.
Lemma front_iff l a : front data l = Done a <-> starts_with data l a.
Proof.
  unfold front, starts_with. change (pts data l) with (seen data l). destruct (seen data l) as [|x r].
  - split; [discriminate|]. intros (r & E). discriminate.
  - split.
    + intros H. injection H as ->. eauto.
    + intros (r' & E). injection E as -> _. reflexivity.
Qed.
Lemma back_iff l a : back data l = Done a <-> ends_with data l a.
Proof.
  unfold back, ends_with. change (pts data l) with (seen data l). destruct (rev (seen data l)) as [|x r] eqn:E.
  - split; [discriminate|]. intros (r & E'). rewrite E' in E. rewrite rev_app_distr in E. discriminate.
  - assert (E1 : seen data l = rev r ++ [x]) by (rewrite <- (rev_involutive (seen data l)), E; reflexivity). split.
    + intros H. injection H as ->. eauto.
    + intros (r' & E'). rewrite E1 in E'. apply app_inj_tail in E'. destruct E' as [_ ->]. reflexivity.
Qed.
Lemma drawn_ends l : drawn data l -> exists a b, front data l = Done a /\ back data l = Done b.
Proof.
  unfold drawn. intros N. unfold front, back. change (pts data l) with (seen data l).
  destruct (seen data l) as [|x r] eqn:E; [contradiction|].
  destruct (rev (x :: r)) as [|y s] eqn:E2; [|eauto].
  apply (f_equal (@length nat)) in E2. rewrite rev_length in E2. discriminate.
Qed.
Lemma runs_iff l a b : runs data l a b <-> front data l = Done a /\ back data l = Done b.
Proof.
  rewrite front_iff, back_iff. unfold runs, from_to, starts_with, ends_with. split.
  - intros (r & r' & E1 & E2). eauto.
  - intros [(r & E1) (r' & E2)]. eauto.
Qed.
Lemma starts_turned l a : starts_with data (turned l) a <-> ends_with data l a.
Proof.
  unfold starts_with, ends_with. rewrite turned_seen. split; intros (r & E).
  - exists (rev r). rewrite <- (rev_involutive (seen data l)), E. reflexivity.
  - exists (rev r). rewrite E, rev_app_distr. reflexivity.
Qed.
Lemma ends_turned l a : ends_with data (turned l) a <-> starts_with data l a.
Proof. rewrite <- starts_turned, turned_twice. reflexivity. Qed.
Lemma drawn_turned l : drawn data l -> drawn data (turned l).
Proof. unfold drawn. rewrite turned_seen. intros N E. apply N. rewrite <- (rev_involutive (seen data l)), E. reflexivity. Qed.
Lemma runs_turned l a b : runs data (turned l) a b <-> runs data l b a.
Proof. rewrite !runs_iff, !front_iff, !back_iff, starts_turned, ends_turned. tauto. Qed.
Lemma ends_fun l a b : ends_with data l a -> ends_with data l b -> a = b.
Proof. intros A B. apply back_iff in A, B. congruence. Qed.
Lemma starts_fun l a b : starts_with data l a -> starts_with data l b -> a = b.
Proof. intros A B. apply front_iff in A, B. congruence. Qed.

Lemma first_none {A} (P : A -> Prop) : first_with P [] None.
Proof. intros y []. Qed.
Lemma first_here {A} (P : A -> Prop) x l : P x -> first_with P (x :: l) (Some x).
Proof. intros H. split; [exact H|]. exists [], l. split; [reflexivity|]. intros y []. Qed.
Lemma first_later {A} (P : A -> Prop) x l r : ~ P x -> first_with P l r -> first_with P (x :: l) r.
Proof.
  intros N. destruct r as [z|]; cbn.
  - intros (H & l1 & l2 & -> & F). split; [exact H|]. exists (x :: l1), l2. split; [reflexivity|].
    intros y [<-|I]; auto.
  - intros F y [<-|I]; auto.
Qed.
Lemma first_iff {A} (P Q : A -> Prop) l r : (forall x, In x l -> P x <-> Q x) -> first_with P l r -> first_with Q l r.
Proof.
  intros E. destruct r as [z|]; cbn.
  - intros (H & l1 & l2 & -> & F). split; [apply E; [apply in_or_app; right; left; reflexivity|exact H]|].
    exists l1, l2. split; [reflexivity|]. intros y I. rewrite <- E; [auto|apply in_or_app; auto].
  - intros F y I. rewrite <- E; auto.
Qed.
Lemma first_find {A} (f : A -> bool) l : first_with (fun x => f x = true) l (find f l).
Proof.
  induction l as [|x l IH]; cbn [find]; [apply first_none|].
  destruct (f x) eqn:E; [apply first_here; exact E|apply first_later; [congruence|exact IH]].
Qed.

Lemma find_ends_ok p1 p2 ar : all_drawn data ar -> exists r, find_ends data p1 p2 ar = Done r /\ first_with (fun b => runs data b p2 p1) ar r.
Proof.
  induction ar as [|b ar IH]; intros D; cbn [find_ends].
  - exists None. split; [reflexivity|apply first_none].
  - destruct (drawn_ends b) as (f & e & Ef & Ee); [apply D; left; reflexivity|].
    destruct IH as (r & Er & H); [intros c Ic; apply D; right; exact Ic|].
    assert (R : runs data b p2 p1 <-> f = p2 /\ e = p1).
    { rewrite runs_iff, Ef, Ee. split; [intros [X Y]; injection X; injection Y; auto|intros [-> ->]; auto]. }
    rewrite Ee, Ef. cbn [bind].
    destruct (Nat.eqb_spec e p1) as [->|N]; [destruct (Nat.eqb_spec f p2) as [->|N]|].
    + exists (Some b). split; [reflexivity|]. apply first_here, R. auto.
    + exists r. split; [exact Er|]. apply first_later; [rewrite R; tauto|exact H].
    + exists r. split; [exact Er|]. apply first_later; [rewrite R; tauto|exact H].
Qed.
Lemma find_either_ok p1 p2 p3 p4 ar : all_drawn data ar ->
  exists r, find_either data p1 p2 p3 p4 ar = Done r /\ first_with (fun b => runs data b p1 p2 \/ runs data b p4 p3) ar r.
Proof.
  induction ar as [|b ar IH]; intros D; cbn [find_either].
  - exists None. split; [reflexivity|apply first_none].
  - destruct (drawn_ends b) as (f & e & Ef & Ee); [apply D; left; reflexivity|].
    destruct IH as (r & Er & H); [intros c Ic; apply D; right; exact Ic|].
    rewrite Ee, Ef. cbn [bind].
    assert (R : forall u v, runs data b u v <-> f = u /\ e = v).
    { intros u v. rewrite runs_iff, Ef, Ee. split; [intros [X Y]; injection X; injection Y; auto|intros [-> ->]; auto]. }
    destruct ((e =? p2) && (f =? p1) || (e =? p3) && (f =? p4)) eqn:B.
    + exists (Some b). split; [reflexivity|]. apply first_here. rewrite !R.
      apply orb_true_iff in B. rewrite !andb_true_iff, !Nat.eqb_eq in B. tauto.
    + exists r. split; [exact Er|]. apply first_later; [|exact H]. rewrite !R. intros X. apply not_true_iff_false in B. apply B.
      apply orb_true_iff. rewrite !andb_true_iff, !Nat.eqb_eq. tauto.
Qed.
Lemma any_ends_ok p1 p2 ar : all_drawn data ar ->
  exists r, any_ends data p1 p2 ar = Done r /\ (r = true <-> exists b, In b ar /\ (runs data b p1 p2 \/ runs data b p2 p1)).
Proof.
  induction ar as [|b ar IH]; intros D; cbn [any_ends].
  - exists false. split; [reflexivity|]. split; [discriminate|]. intros (b & [] & _).
  - destruct (drawn_ends b) as (f & e & Ef & Ee); [apply D; left; reflexivity|].
    destruct IH as (r & Er & H); [intros c Ic; apply D; right; exact Ic|].
    rewrite Ee, Ef. cbn [bind].
    assert (R : forall u v, runs data b u v <-> f = u /\ e = v).
    { intros u v. rewrite runs_iff, Ef, Ee. split; [intros [X Y]; injection X; injection Y; auto|intros [-> ->]; auto]. }
    destruct ((f =? p1) && (e =? p2) || (f =? p2) && (e =? p1)) eqn:B.
    + exists true. split; [reflexivity|]. split; [|auto]. intros _. exists b. split; [left; reflexivity|]. rewrite !R.
      apply orb_true_iff in B. rewrite !andb_true_iff, !Nat.eqb_eq in B. tauto.
    + exists r. split; [exact Er|]. rewrite H. split.
      * intros (c & I & X). exists c. split; [right; exact I|exact X].
      * intros (c & [<-|I] & X); [|eauto]. exfalso. rewrite !R in X. apply not_true_iff_false in B. apply B.
        apply orb_true_iff. rewrite !andb_true_iff, !Nat.eqb_eq. tauto.
Qed.

Lemma front_closed l p q b : ends_with data (left_bound l) p -> ends_with data (right_bound l) q -> closes_front data l b <-> runs data b q p.
Proof.
  intros P Q. split.
  - intros (p' & q' & P' & Q' & R). rewrite (ends_fun _ _ _ P P'), (ends_fun _ _ _ Q Q'). exact R.
  - intros R. exists p, q. auto.
Qed.
Lemma rear_closed l p q b : starts_with data (left_bound l) p -> starts_with data (right_bound l) q -> closes_rear data l b <-> runs data b p q.
Proof.
  intros P Q. split.
  - intros (p' & q' & P' & Q' & R). rewrite (starts_fun _ _ _ P P'), (starts_fun _ _ _ Q Q'). exact R.
  - intros R. exists p, q. auto.
Qed.
Lemma lane_ends l : lane_drawn data l -> exists lf lb rf rb,
  front data (left_bound l) = Done lf /\ back data (left_bound l) = Done lb /\ front data (right_bound l) = Done rf /\ back data (right_bound l) = Done rb.
Proof.
  intros [A B]. destruct (drawn_ends _ A) as (lf & lb & ? & ?). destruct (drawn_ends _ B) as (rf & rb & ? & ?).
  exists lf, lb, rf, rb. auto.
Qed.
Lemma preceding_ok l ar : lane_drawn data l -> all_drawn data ar ->
  exists r, common_preceding data l ar = Done r /\ first_with (closes_front data l) ar r.
Proof.
  intros L D. destruct (lane_ends l L) as (lf & lb & rf & rb & E1 & E2 & E3 & E4).
  unfold common_preceding. rewrite E2, E4. cbn [bind]. destruct (find_ends_ok lb rb ar D) as (r & Er & H). exists r. split; [exact Er|].
  revert H. apply first_iff. intros b _. symmetry. apply front_closed; apply back_iff; assumption.
Qed.
Lemma invert_drawn l : lane_drawn data l -> lane_drawn data (invert l).
Proof. intros [A B]. split; apply (drawn_turned _); assumption. Qed.
Lemma invert_closes l b : closes_front data (invert l) b <-> closes_rear data l b.
Proof.
  unfold closes_front, closes_rear, invert. cbn [left_bound right_bound]. rewrite !linv_turned. split.
  - intros (p & q & P & Q & R). apply (proj1 (ends_turned _ _)) in P. apply (proj1 (ends_turned _ _)) in Q. exists q, p. auto.
  - intros (p & q & P & Q & R). exists q, p. rewrite !ends_turned. auto.
Qed.
Lemma following_ok l ar : lane_drawn data l -> all_drawn data ar ->
  exists r, common_following data ar l = Done r /\ first_with (closes_rear data l) ar r.
Proof.
  intros L D. unfold common_following. destruct (preceding_ok (invert l) ar (invert_drawn _ L) D) as (r & E & H). exists r. split; [exact E|].
  revert H. apply first_iff. intros b _. apply invert_closes.
Qed.
Lemma either_ok l ar : lane_drawn data l -> all_drawn data ar ->
  exists r, common_either data ar l = Done r /\ first_with (fun b => closes_front data l b \/ closes_rear data l b) ar r.
Proof.
  intros L D. destruct (lane_ends l L) as (lf & lb & rf & rb & E1 & E2 & E3 & E4).
  unfold common_either. rewrite E1, E2, E3, E4. cbn [bind].
  destruct (find_either_ok lf rf lb rb ar D) as (r & Er & H). exists r. split; [exact Er|].
  revert H. apply first_iff. intros b _.
  rewrite (front_closed l lb rb) by (apply back_iff; assumption). rewrite (rear_closed l lf rf) by (apply front_iff; assumption). tauto.
Qed.
Lemma follows_ok l ar : lane_drawn data l -> all_drawn data ar ->
  exists r, follows_area data l ar = Done r /\ (r = true <-> exists b, In b ar /\ (closes_front data l b \/ closes_front data l (turned b))).
Proof.
  intros L D. destruct (lane_ends l L) as (lf & lb & rf & rb & E1 & E2 & E3 & E4).
  unfold follows_area. rewrite E2, E4. cbn [bind]. destruct (any_ends_ok lb rb ar D) as (r & Er & H). exists r. split; [exact Er|].
  rewrite H. apply back_iff in E2, E4. split; intros (b & I & X); exists b; (split; [exact I|]).
  - rewrite !(front_closed l lb rb), runs_turned by assumption. tauto.
  - rewrite !(front_closed l lb rb), runs_turned in X by assumption. tauto.
Qed.
Lemma left_of_ar_ok l ar : left_of_ar l ar = true <-> exists b, In b ar /\ along_left l b.
Proof.
  unfold left_of_ar, along_left. rewrite existsb_exists. split; intros (b & I & E); exists b; (split; [exact I|]).
  - apply line_eqb_iff in E. rewrite linv_turned in E. rewrite <- E, turned_twice. reflexivity.
  - apply line_eqb_iff. rewrite linv_turned, E, turned_twice. reflexivity.
Qed.
Lemma right_of_ar_ok l ar : right_of_ar l ar = true <-> exists b, In b ar /\ along_right l b.
Proof.
  unfold right_of_ar. rewrite left_of_ar_ok. unfold along_left, along_right, invert. cbn [left_bound]. change (linv (right_bound l)) with (turned (right_bound l)).
  rewrite turned_twice. reflexivity.
Qed.
Lemma common_right_ok l ar : first_with (along_right l) ar (common_right l ar).
Proof.
  unfold common_right. eapply first_iff; [|apply first_find]. intros b _. unfold along_right. cbn. apply line_eqb_iff.
Qed.
Lemma common_right_cases l ar : (common_right l ar = Some (right_bound l) /\ In (right_bound l) ar) \/ (common_right l ar = None /\ ~ In (right_bound l) ar).
Proof.
  pose proof (common_right_ok l ar) as H. destruct (common_right l ar) as [b|]; cbn in H.
  - left. destruct H as (H & l1 & l2 & -> & _). unfold along_right in H. subst b. split; [reflexivity|]. apply in_or_app. right. left. reflexivity.
  - right. split; [reflexivity|]. intros I. exact (H _ I eq_refl).
Qed.
Lemma common_left_cases l ar : (common_left l ar = Some (left_bound l) /\ In (turned (left_bound l)) ar) \/ (common_left l ar = None /\ ~ In (turned (left_bound l)) ar).
Proof.
  unfold common_left. destruct (common_right_cases (invert l) ar) as [[E I]|[E I]]; rewrite E; unfold invert in *; cbn [right_bound] in *; change linv with turned in *; rewrite ?turned_twice.
  - left. auto.
  - right. auto.
Qed.
Lemma sideways_ar_ok l ar : first_with (fun b => along_left l b \/ along_right l b) ar (common_sideways_ar ar l).
Proof.
  unfold common_sideways_ar. eapply first_iff; [|apply first_find]. intros b _. cbn. rewrite orb_true_iff, !line_eqb_iff. reflexivity.
Qed.
Lemma anywhere_eq l ar r : common_either data ar l = Done r ->
  common_anywhere data ar l = Done match r with Some b => Some b | None => common_sideways_ar ar l end.
Proof. intros E. unfold common_anywhere. rewrite E. cbn [bind]. destruct r; reflexivity. Qed.
Lemma first_in {A} (P : A -> Prop) l x : first_with P l (Some x) -> In x l /\ P x.
Proof. intros (H & l1 & l2 & -> & _). split; [apply in_or_app; right; left; reflexivity|exact H]. Qed.
Lemma first_unique {A} (P : A -> Prop) l r s : first_with P l r -> first_with P l s -> r = s.
Proof.
  revert r s. induction l as [|x l IH]; intros r s H K.
  - destruct r as [y|]; [destruct (first_in _ _ _ H) as [[] _]|]. destruct s as [y|]; [destruct (first_in _ _ _ K) as [[] _]|]. reflexivity.
  - assert (G : forall r, first_with P (x :: l) r -> (r = Some x /\ P x) \/ (~ P x /\ first_with P l r)).
    { clear. intros [y|]; cbn.
      - intros (Hy & l1 & l2 & E & F). destruct l1 as [|z l1].
        + injection E as -> _. left. auto.
        + injection E as <- ->. right. split; [apply F; left; reflexivity|]. split; [exact Hy|].
          exists l1, l2. split; [reflexivity|]. intros w I. apply F. right. exact I.
      - intros F. right. split; [apply F; left; reflexivity|]. intros w I. apply F. right. exact I. }
    destruct (G _ H) as [[-> X]|[X H']], (G _ K) as [[-> Y]|[Y K']]; try contradiction; auto.
Qed.
End both.
