(** Cyclic lists *)
From Coq Require Import List Bool Arith Sorted Permutation Lia.
From Verif Require Import PartitionModel PartitionSpec.
Import ListNotations.

Lemma turned_turned e : turned (turned e) = e. Proof. destruct e; reflexivity. Qed.
Definition path (l : list nat) : list (nat * nat) := combine l (tl l).
Lemma path_cons a b l : path (a :: b :: l) = (a, b) :: path (b :: l). Proof. reflexivity. Qed.
Lemma path_app l1 x l2 : path (l1 ++ x :: l2) = path (l1 ++ [x]) ++ path (x :: l2).
Proof.
  induction l1 as [|a [|b l1] IH]; [reflexivity..|]. cbn [app] in *. rewrite !path_cons, IH. reflexivity.
Qed.
Lemma edges_path x l : edges (x :: l) = path (x :: l ++ [x]).
Proof.
  unfold edges, path. cbn [tl firstn]. cut (forall y z, combine (z :: l) (l ++ [y]) = combine (z :: l ++ [y]) (l ++ [y])); [intros H; apply H|].
  intros y. induction l as [|a l IH]; intros z; [reflexivity|]. cbn [app combine]. f_equal. apply IH.
Qed.
Lemma segments_eq l : segments l = edges l. Proof. destruct l; reflexivity. Qed.
Lemma edges_fst l : map fst (edges l) = l.
Proof.
  unfold edges. assert (H : length (tl l ++ firstn 1 l) = length l) by (destruct l; cbn; rewrite ?app_length; cbn; lia). revert H. generalize (tl l ++ firstn 1 l) as m.
  induction l as [|x l IH]; intros [|y m] H; cbn in *; try discriminate; auto. f_equal. apply IH. lia.
Qed.
Lemma edges_snd l : map snd (edges l) = tl l ++ firstn 1 l.
Proof.
  unfold edges. assert (H : length (tl l ++ firstn 1 l) = length l) by (destruct l; cbn; rewrite ?app_length; cbn; lia). revert H. generalize (tl l ++ firstn 1 l) as m.
  induction l as [|x l IH]; intros [|y m] H; cbn in *; try discriminate; auto. f_equal. apply IH. lia.
Qed.
Lemma edges_snd_perm l : Permutation (map snd (edges l)) l.
Proof. rewrite edges_snd. destruct l as [|x l]; cbn; auto. symmetry. apply Permutation_cons_append. Qed.
Lemma edges_in_l l a b : In (a, b) (edges l) -> In a l.
Proof. intros H. apply (in_map fst) in H. rewrite edges_fst in H. auto. Qed.
Lemma edges_in_r l a b : In (a, b) (edges l) -> In b l.
Proof. intros H. apply (in_map snd) in H. apply (Permutation_in _ (edges_snd_perm l)) in H. auto. Qed.

Definition rot {A} (l l' : list A) : Prop := exists a b, l = a ++ b /\ l' = b ++ a.
Lemma rot_refl {A} (l : list A) : rot l l. Proof. exists [], l. rewrite app_nil_r. auto. Qed.
Lemma rot_sym {A} (l l' : list A) : rot l l' -> rot l' l. Proof. intros (a & b & -> & ->). exists b, a. auto. Qed.
Lemma rot_perm {A} (l l' : list A) : rot l l' -> Permutation l l'. Proof. intros (a & b & -> & ->). apply Permutation_app_comm. Qed.
Lemma app_split {A} (a b c d : list A) : a ++ b = c ++ d -> (exists m, a = c ++ m /\ d = m ++ b) \/ (exists m, c = a ++ m /\ b = m ++ d).
Proof.
  revert c; induction a as [|x a IH]; intros c E.
  - right. exists c. auto.
  - destruct c as [|y c]; cbn in E; [left; exists (x :: a); auto|]. injection E as -> E. destruct (IH _ E) as [(m & -> & ->)|(m & -> & ->)]; [left|right]; exists m; auto.
Qed.
Lemma rot_trans {A} (l l' l'' : list A) : rot l l' -> rot l' l'' -> rot l l''.
Proof.
  intros (a & b & -> & ->) (c & d & E & ->). apply app_split in E. destruct E as [(m & -> & ->)|(m & -> & ->)].
  - exists (a ++ c), m. rewrite !app_assoc. auto.
  - exists m, (d ++ b). rewrite <- !app_assoc. auto.
Qed.
Lemma edges_rot l l' : rot l l' -> Permutation (edges l) (edges l').
Proof.
  intros (a & b & -> & ->). destruct a as [|x a]; [rewrite app_nil_r; auto|]. destruct b as [|y b]; [rewrite app_nil_r; auto|].
  cbn [app]. rewrite !edges_path. rewrite <- !app_assoc. cbn [app].
  change (x :: a ++ y :: b ++ [x]) with ((x :: a) ++ y :: (b ++ [x])). change (y :: b ++ x :: a ++ [y]) with ((y :: b) ++ x :: (a ++ [y])).
  rewrite (path_app (x :: a)), (path_app (y :: b)). cbn [app]. apply Permutation_app_comm.
Qed.
(** An edge is inside the list or leads from the last to the first element. *)
Lemma edges_cases l a b : In (a, b) (edges l) -> (exists l1 l2, l = l1 ++ a :: b :: l2) \/ (exists m, l = b :: m ++ [a]) \/ l = [a] /\ a = b.
Proof.
  destruct l as [|x l]; [intros []|]. rewrite edges_path. destruct (exists_last (l := x :: l)) as (m & z & E); [discriminate|].
  assert (Ec : x :: l ++ [x] = m ++ z :: [x]) by (change (x :: l ++ [x]) with ((x :: l) ++ [x]); rewrite E, <- app_assoc; reflexivity).
  rewrite Ec, path_app. intros H. apply in_app_or in H. destruct H as [H|[H|[]]].
  - left. rewrite E. clear E Ec l x. revert H. induction m as [|y m IH]; [intros []|]. destruct m as [|w m].
    + intros [H|[]]. injection H as <- <-. exists [], []. reflexivity.
    + intros [H|H]; [injection H as <- <-; exists [], (m ++ [z]); reflexivity|]. destruct (IH H) as (l1 & l2 & E). exists (y :: l1), l2. cbn in *. rewrite E. reflexivity.
  - right. injection H as <- <-. destruct m as [|y m]; cbn in E; injection E as -> ->; [right; auto|left]. exists m. reflexivity.
Qed.
Lemma edges_at l1 l2 a b : In (a, b) (edges (l1 ++ a :: b :: l2)).
Proof.
  apply (Permutation_in _ (edges_rot (a :: b :: l2 ++ l1) (l1 ++ a :: b :: l2) ltac:(exists (a :: b :: l2), l1; auto))). rewrite edges_path. left. reflexivity.
Qed.
Lemma edges_wrap m a b : In (a, b) (edges (b :: m ++ [a])).
Proof.
  apply (Permutation_in _ (edges_rot (a :: b :: m) (b :: m ++ [a]) ltac:(exists [a], (b :: m); auto))). rewrite edges_path. left. reflexivity.
Qed.
(** With an edge (a, b) the list can be turned so that it ends with [a] and starts with [b], and so that it starts with both. *)
Lemma edges_rot_end l a b : 2 <= length l -> In (a, b) (edges l) -> exists m, rot l (b :: m ++ [a]).
Proof.
  intros Hl H. apply edges_cases in H. destruct H as [(l1 & l2 & ->)|[(m & ->)|[-> ->]]].
  - exists (l2 ++ l1), (l1 ++ [a]), (b :: l2). rewrite <- !app_assoc. auto.
  - exists m. apply rot_refl.
  - cbn in Hl. lia.
Qed.
Lemma edges_rot_start l a b : 2 <= length l -> In (a, b) (edges l) -> exists m, rot l (a :: b :: m).
Proof. intros Hl H. destruct (edges_rot_end l a b Hl H) as (m & R). exists m. apply (rot_trans _ _ _ R). exists (b :: m), [a]. auto. Qed.

Lemma nodup_edges l : NoDup l -> NoDup (edges l).
Proof. intros H. apply (NoDup_map_inv fst). rewrite edges_fst. auto. Qed.
Lemma edges_next_unique l a b b' : NoDup l -> In (a, b) (edges l) -> In (a, b') (edges l) -> b = b'.
Proof.
  intros Hn. rewrite <- (edges_fst l) in Hn. generalize dependent (edges l). intros E Hn H H'. induction E as [|[x y] E IH]; [easy|].
  cbn in Hn. inversion Hn as [|? ? N1 N2]; subst. destruct H as [H|H], H' as [H'|H']; try congruence; auto.
  - injection H as -> ->. destruct N1. apply (in_map fst) in H'. auto.
  - injection H' as -> ->. destruct N1. apply (in_map fst) in H. auto.
Qed.
Lemma edges_prev_unique l a a' b : NoDup l -> In (a, b) (edges l) -> In (a', b) (edges l) -> a = a'.
Proof.
  intros Hn. apply (Permutation_NoDup (Permutation_sym (edges_snd_perm l))) in Hn. generalize dependent (edges l). intros E Hn H H'. induction E as [|[x y] E IH]; [easy|].
  cbn in Hn. inversion Hn as [|? ? N1 N2]; subst. destruct H as [H|H], H' as [H'|H']; try congruence; auto.
  - injection H as -> ->. destruct N1. apply (in_map snd) in H'. auto.
  - injection H' as -> ->. destruct N1. apply (in_map snd) in H. auto.
Qed.

(** * The cyclic order *)
Section Order.
Variable n : nat.
(** The distance from [x] to [y] in the direction of the polygon *)
Definition key (x y : nat) : nat := if y <? x then y + n - x else y - x.
Lemma key_cases x y : key x y = if y <? x then y + n - x else y - x. Proof. reflexivity. Qed.
Lemma key_spec x y : y < x /\ key x y = y + n - x \/ x <= y /\ key x y = y - x.
Proof. unfold key. destruct (Nat.ltb_spec y x); auto. Qed.
Ltac keys := cbn beta in *; repeat match goal with
  | |- context [key ?x ?y] => pose proof (key_spec x y); generalize dependent (key x y); intros
  | H : context [key ?x ?y] |- _ => pose proof (key_spec x y); generalize dependent (key x y); intros
  end; lia.
Lemma key_inj a x y : a < n -> x < n -> y < n -> key a x = key a y -> x = y.
Proof. intros. keys. Qed.
Lemma key_lt a x : a < n -> x < n -> key a x < n.
Proof. intros. keys. Qed.
Lemma key_shift a x y : a < n -> x < n -> y < n -> key x y = if key a y <? key a x then key a y + n - key a x else key a y - key a x.
Proof. intros. destruct (Nat.ltb_spec (key a y) (key a x)); keys. Qed.
Definition by_key x := StronglySorted (fun a b => key x a < key x b).
Lemma sorted_app {A} (R : A -> A -> Prop) l1 l2 : StronglySorted R (l1 ++ l2) <-> StronglySorted R l1 /\ StronglySorted R l2 /\ forall a b, In a l1 -> In b l2 -> R a b.
Proof.
  induction l1 as [|x l1 IH]; cbn.
  - split; [intros H; split; [constructor|split; [auto|intros ? ? []]]|tauto].
  - split.
    + intros H. inversion H as [|? ? S F]; subst. apply IH in S. destruct S as (S1 & S2 & S3). apply Forall_app in F. destruct F as [F1 F2].
      split; [constructor; auto|]. split; auto. intros a b [<-|Ha] Hb; [rewrite Forall_forall in F2; auto|auto].
    + intros (S1 & S2 & S3). inversion S1 as [|? ? S F]; subst. constructor; [apply IH; auto|]. apply Forall_app. split; auto. apply Forall_forall. auto.
Qed.
Lemma sorted_impl {A} (R S : A -> A -> Prop) l : (forall a b, In a l -> In b l -> R a b -> S a b) -> StronglySorted R l -> StronglySorted S l.
Proof.
  intros HI H. induction H as [|x l H IH F]; constructor.
  - apply IH. intros. apply HI; cbn; auto.
  - apply Forall_forall. intros y Hy. rewrite Forall_forall in F. apply HI; cbn; auto.
Qed.
Lemma sorted_nodup l : StronglySorted lt l -> NoDup l.
Proof.
  intros H. induction H as [|x l H IH F]; constructor; auto. intros K. rewrite Forall_forall in F. specialize (F _ K). lia.
Qed.
(** Sorted from one point on means sorted from every point on. *)
Lemma inside_from l x r : inside n l -> rot l (x :: r) -> by_key x (x :: r).
Proof.
  intros (Hl & Hn & l1 & l2 & E & S) R. assert (Hn' : forall y, In y (x :: r) -> y < n) by (intros y Hy; apply Hn; eapply Permutation_in; [symmetry; apply (rot_perm _ _ R)|auto]).
  assert (R' : rot (l2 ++ l1) (x :: r)) by (apply rot_trans with l; [exists l2, l1; auto|auto]). clear Hl Hn R E.
  assert (R2 : exists a b, l2 ++ l1 = a ++ x :: b /\ r = b ++ a).
  { destruct R' as (a & b & E1 & E2). destruct b as [|z b]; cbn in E2.
    - exists [], r. rewrite app_nil_r in *. rewrite E1, E2. auto.
    - injection E2 as -> ->. exists a, b. auto. }
  clear R'. destruct R2 as (a & b & E1 & ->). rewrite E1 in S. apply sorted_app in S. destruct S as (Sa & Sb & Sab).
  change (x :: b ++ a) with ((x :: b) ++ a). assert (Hx : forall y, In y a -> y < x) by (intros y Hy; apply Sab; cbn; auto).
  assert (Hb : forall y, In y (x :: b) -> x <= y).
  { intros y [<-|Hy]; auto. inversion Sb as [|? ? _ F]; subst. rewrite Forall_forall in F. specialize (F _ Hy). lia. }
  assert (Hbn : forall y, In y (x :: b) -> y < n) by (intros y Hy; apply Hn'; change (x :: b ++ a) with ((x :: b) ++ a); apply in_or_app; auto).
  apply sorted_app. split; [|split].
  - eapply sorted_impl; [|exact Sb]. cbn beta. intros y z Hy Hz L. pose proof (Hb _ Hy). pose proof (Hb _ Hz). keys.
  - eapply sorted_impl; [|exact Sa]. cbn beta. intros y z Hy Hz L. pose proof (Hx _ Hy). pose proof (Hx _ Hz). pose proof (Hbn x (or_introl eq_refl)). keys.
  - intros y z Hy Hz. pose proof (Hb _ Hy). pose proof (Hx _ Hz). pose proof (Hbn _ Hy). keys.
Qed.
Lemma from_inside l x r : 3 <= length l -> (forall y, In y l -> y < n) -> rot l (x :: r) -> by_key x (x :: r) -> inside n l.
Proof.
  intros Hl Hn R S. assert (Hn' : forall y, In y (x :: r) -> y < n) by (intros y Hy; apply Hn; eapply Permutation_in; [symmetry; apply (rot_perm _ _ R)|auto]).
  split; auto. split; auto.
  assert (Hs : exists a b, r = b ++ a /\ (forall y, In y a -> y < x) /\ (forall y, In y b -> x < y)).
  { inversion S as [|? ? S1 F1]; subst. assert (Hn2 : forall y, In y r -> y < n) by (intros; apply Hn'; cbn; auto). assert (Hxn : x < n) by (apply Hn'; cbn; auto).
    clear -S1 F1 Hn2 Hxn. induction r as [|z r IH]; [exists [], []; cbn; intuition|].
    inversion S1 as [|? ? S2 F2]; inversion F1 as [|? ? Kz F3]; subst. destruct (IH S2 F3) as (a & b & -> & Ha & Hb); [intros; apply Hn2; cbn; auto|].
    destruct (Nat.ltb_spec z x) as [L|L].
    - (* everything behind is smaller *)
      exists (z :: b ++ a), []. split; auto. split; [|intros ? []]. intros y [<-|Hy]; auto. apply in_app_or in Hy. destruct Hy as [Hy|Hy]; auto.
      exfalso. specialize (Hb _ Hy). rewrite Forall_forall in F2. assert (K : key x z < key x y) by (apply F2, in_or_app; auto).
      assert (y < n) by (apply Hn2; right; apply in_or_app; auto). keys.
    - exists a, (z :: b). split; auto. split; auto. intros y [<-|Hy]; auto. keys. }
  destruct Hs as (a & b & -> & Ha & Hb). assert (R' : rot l (a ++ x :: b)) by (apply (rot_trans _ _ _ R); exists (x :: b), a; auto).
  destruct R' as (l1 & l2 & -> & E2). exists l1, l2. split; auto. rewrite <- E2. change (x :: b ++ a) with ((x :: b) ++ a) in S. apply sorted_app in S.
  destruct S as (Sb & Sa & _). apply sorted_app. split; [|split].
  - eapply sorted_impl; [|exact Sa]. cbn beta. intros y z Hy Hz L. pose proof (Ha _ Hy). pose proof (Ha _ Hz). assert (y < n) by (apply Hn'; right; apply in_or_app; auto).
    assert (z < n) by (apply Hn'; right; apply in_or_app; auto). keys.
  - eapply sorted_impl; [|exact Sb]. cbn beta. intros y z Hy Hz L. assert (x <= y) by (destruct Hy as [<-|Hy]; [lia|specialize (Hb _ Hy); lia]).
    assert (x <= z) by (destruct Hz as [<-|Hz]; [lia|specialize (Hb _ Hz); lia]). keys.
  - intros y z Hy Hz. specialize (Ha _ Hy). destruct Hz as [<-|Hz]; [auto|]. specialize (Hb _ Hz). lia.
Qed.
Lemma inside_nodup l : inside n l -> NoDup l.
Proof.
  intros (_ & _ & l1 & l2 & -> & S). apply (Permutation_NoDup (Permutation_app_comm l2 l1)), sorted_nodup. auto.
Qed.
Lemma inside_rot l l' : rot l l' -> inside n l -> inside n l'.
Proof.
  intros R (Hl & Hn & l1 & l2 & E & S). pose proof (rot_perm _ _ R) as P. split; [rewrite <- (Permutation_length P); auto|].
  split; [intros x Hx; apply Hn; eapply Permutation_in; [symmetry; apply P|auto]|].
  assert (R' : rot l' (l2 ++ l1)) by (apply rot_trans with l; [apply rot_sym; auto|exists l1, l2; auto]).
  destruct R' as (a & b & -> & E2). exists a, b. split; auto. rewrite <- E2. auto.
Qed.

(** An edge of a polygon inside: no other point lies between its ends. *)
Lemma edge_gap l a b y : inside n l -> In (a, b) (edges l) -> In y l -> y <> a -> key a b <= key a y.
Proof.
  intros Hi He Hy Hya. destruct (edges_rot_start l a b) as (m & R); [destruct Hi; lia|auto|].
  pose proof (inside_from _ _ _ Hi R) as S. apply (Permutation_in _ (rot_perm _ _ R)) in Hy. inversion S as [|? ? S1 _]; subst. inversion S1 as [|? ? _ F]; subst.
  destruct Hy as [<-|[<-|Hy]]; [easy|auto|]. rewrite Forall_forall in F. specialize (F _ Hy). lia.
Qed.
(** On the other side of an edge all points lie between its ends. *)
Lemma edge_span l a b y : inside n l -> In (b, a) (edges l) -> In y l -> key a y <= key a b.
Proof.
  intros Hi He Hy. destruct (edges_rot_end l b a) as (m & R); [destruct Hi; lia|auto|].
  pose proof (inside_from _ _ _ Hi R) as S. apply (Permutation_in _ (rot_perm _ _ R)) in Hy. change (a :: m ++ [b]) with ((a :: m) ++ [b]) in *.
  apply sorted_app in S. destruct S as (_ & _ & S). apply in_app_or in Hy. destruct Hy as [Hy|[<-|[]]]; [|auto]. specialize (S y b Hy). cbn in S. specialize (S (or_introl eq_refl)). lia.
Qed.
Lemma edge_distinct l a b : inside n l -> In (a, b) (edges l) -> a <> b.
Proof.
  intros Hi He <-. destruct (edges_rot_start l a a) as (m & R); [destruct Hi; lia|auto|]. apply inside_nodup in Hi.
  apply (Permutation_NoDup (rot_perm _ _ R)) in Hi. inversion Hi as [|? ? K _]; subst. apply K. left. auto.
Qed.
Lemma inside_lt l x : inside n l -> In x l -> x < n. Proof. intros (_ & H & _). auto. Qed.
(** Three points *)
Lemma inside_third l a b : inside n l -> exists y, In y l /\ y <> a /\ y <> b.
Proof.
  intros Hi. pose proof (inside_nodup _ Hi) as Hd. destruct Hi as (Hl & _).
  destruct l as [|x [|y [|z l]]]; cbn in Hl; try lia.
  inversion Hd as [|? ? N1 D1]; subst. inversion D1 as [|? ? N2 D2]; subst. cbn in *.
  destruct (Nat.eq_dec x a), (Nat.eq_dec x b), (Nat.eq_dec y a), (Nat.eq_dec y b); subst; try (exists x; auto; fail); try (exists y; auto; fail);
  exists z; (split; [auto|split; intros ->; tauto]) || idtac.
Qed.
Lemma no_both l a b : inside n l -> In (a, b) (edges l) -> ~ In (b, a) (edges l).
Proof.
  intros Hi H K. destruct (inside_third l a b Hi) as (y & Hy & Ha & Hb). pose proof (edge_gap _ _ _ _ Hi H Hy Ha) as G. pose proof (edge_span _ _ _ _ Hi K Hy) as S.
  pose proof (inside_lt _ _ Hi Hy). pose proof (inside_lt _ _ Hi (edges_in_l _ _ _ H)). pose proof (inside_lt _ _ Hi (edges_in_r _ _ _ H)). keys.
Qed.
(** The other edges of the polygon behind (a, b) are shorter and lie between [a] and [b]. *)
Lemma edge_deeper l a b p q : inside n l -> In (b, a) (edges l) -> In (p, q) (edges l) -> (p, q) <> (b, a) ->
  key p q < key a b /\ (forall y, y < n -> key p y <= key p q -> key a y <= key a b).
Proof.
  intros Hi H K Hne. pose proof (edge_distinct _ _ _ Hi K) as Hpq. pose proof (edge_distinct _ _ _ Hi H) as Hab.
  pose proof (inside_lt _ _ Hi (edges_in_l _ _ _ H)). pose proof (inside_lt _ _ Hi (edges_in_r _ _ _ H)).
  pose proof (inside_lt _ _ Hi (edges_in_l _ _ _ K)). pose proof (inside_lt _ _ Hi (edges_in_r _ _ _ K)).
  pose proof (edge_span _ _ _ _ Hi H (edges_in_l _ _ _ K)) as Sp. pose proof (edge_span _ _ _ _ Hi H (edges_in_r _ _ _ K)) as Sq.
  destruct (Nat.eq_dec p b) as [->|Hpb].
  { destruct Hne. f_equal. apply (edges_next_unique l b q a); auto. apply inside_nodup; auto. }
  assert (Hba : key p q <= key p b) by (apply (edge_gap l p q b Hi K); [apply (edges_in_l _ _ _ H)|auto]).
  assert (Hqa : q <> a).
  { intros ->. apply Hpb. symmetry. apply (edges_prev_unique l b p a); auto. apply inside_nodup; auto. }
  destruct (inside_third l p q Hi) as (w & Hw & Hwp & Hwq). pose proof (inside_lt _ _ Hi Hw) as Hwn.
  pose proof (edge_span _ _ _ _ Hi H Hw) as Sw. pose proof (edge_gap _ _ _ _ Hi K Hw Hwp) as Gw.
  assert (Npb : key a p <> key a b) by (intros E; apply key_inj in E; auto).
  assert (Npq : key a p <> key a q) by (intros E; apply key_inj in E; auto).
  assert (Nqw : key a w <> key a q) by (intros E; apply key_inj in E; auto).
  rewrite (key_shift a p q), (key_shift a p b) in Hba by auto. rewrite (key_shift a p q), (key_shift a p w) in Gw by auto.
  pose proof (key_lt a q ltac:(auto) ltac:(auto)). pose proof (key_lt a b ltac:(auto) ltac:(auto)). pose proof (key_lt a w ltac:(auto) ltac:(auto)).
  split.
  - rewrite (key_shift a p q) by auto. generalize dependent (key a p). generalize dependent (key a q). generalize dependent (key a b). generalize dependent (key a w). intros.
    repeat match goal with K : context [?x <? ?y] |- _ => destruct (Nat.ltb_spec x y) in K | |- context [?x <? ?y] => destruct (Nat.ltb_spec x y) end; lia.
  - intros y Hy Ky. rewrite (key_shift a p q), (key_shift a p y) in Ky by auto. pose proof (key_lt a y ltac:(auto) ltac:(auto)).
    generalize dependent (key a p). generalize dependent (key a q). generalize dependent (key a b). generalize dependent (key a w). generalize dependent (key a y). intros.
    repeat match goal with K : context [?x <? ?y] |- _ => destruct (Nat.ltb_spec x y) in K end; lia.
Qed.
(** A point between the ends of two different edges of the polygon is an end of the first. *)
Lemma edges_disjoint l a b p q y : inside n l -> In (a, b) (edges l) -> In (p, q) (edges l) -> (a, b) <> (p, q) -> y < n ->
  key a y <= key a b -> key p y <= key p q -> y = a \/ y = b.
Proof.
  intros Hi H K Hne Hy Ha Hp. pose proof (edge_distinct _ _ _ Hi K) as Hpq. pose proof (edge_distinct _ _ _ Hi H) as Hab.
  pose proof (inside_lt _ _ Hi (edges_in_l _ _ _ H)). pose proof (inside_lt _ _ Hi (edges_in_r _ _ _ H)).
  pose proof (inside_lt _ _ Hi (edges_in_l _ _ _ K)). pose proof (inside_lt _ _ Hi (edges_in_r _ _ _ K)).
  assert (Hpa : p <> a) by (intros ->; apply Hne; f_equal; apply (edges_next_unique l a b q); auto; apply inside_nodup; auto).
  pose proof (edge_gap _ _ _ _ Hi H (edges_in_l _ _ _ K) Hpa) as G1.
  assert (G2 : key p q <= key p a) by (apply (edge_gap l p q a Hi K); [apply (edges_in_l _ _ _ H)|auto]).
  destruct (Nat.eq_dec y a) as [|Nya]; auto. destruct (Nat.eq_dec y b) as [|Nyb]; auto. exfalso.
  assert (Kyb : key a y <> key a b) by (intros E; apply key_inj in E; auto).
  rewrite (key_shift a p q), (key_shift a p a) in G2 by auto. rewrite (key_shift a p y), (key_shift a p q) in Hp by auto.
  assert (Kpa : key a p <> key a a) by (intros E; apply key_inj in E; auto). assert (Kya : key a y <> key a a) by (intros E; apply key_inj in E; auto).
  assert (K0 : key a a = 0) by (unfold key; rewrite Nat.ltb_irrefl; lia). rewrite K0 in *.
  pose proof (key_lt a q ltac:(auto) ltac:(auto)). pose proof (key_lt a b ltac:(auto) ltac:(auto)). pose proof (key_lt a p ltac:(auto) ltac:(auto)). pose proof (key_lt a y ltac:(auto) ltac:(auto)).
  generalize dependent (key a p). generalize dependent (key a q). generalize dependent (key a b). generalize dependent (key a y). intros.
  repeat match goal with K : context [?x <? ?y] |- _ => destruct (Nat.ltb_spec x y) in K end; lia.
Qed.
End Order.
