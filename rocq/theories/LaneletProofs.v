(** Proofs about lanelets. *)
From Coq Require Import List Arith ZArith Bool Lia.
From Verif Require Import LineModel LineSpec LaneletModel LaneletSpec.
Import ListNotations.

Lemma mirror_invert l : ls_invert l = mirror l. Proof. reflexivity. Qed.
Lemma mirror_mirror l : mirror (mirror l) = l.
Proof. destruct l; unfold mirror; simpl. rewrite negb_involutive. auto. Qed.
Lemma ls_eqb_eq a b : ls_eqb a b = true <-> a = b.
Proof.
  destruct a as [x i], b as [y j]. unfold ls_eqb; simpl. rewrite andb_true_iff, Nat.eqb_eq, Bool.eqb_true_iff.
  split; [intros [-> ->]|intros E; injection E as -> ->]; auto.
Qed.
Lemma ll_eqb_eq a b : ll_eqb a b = true <-> a = b.
Proof.
  destruct a as [x i], b as [y j]. unfold ll_eqb; simpl. rewrite andb_true_iff, Nat.eqb_eq, Bool.eqb_true_iff.
  split; [intros [-> ->]|intros E; injection E as -> ->]; auto.
Qed.

Section P.
Context {P : Type}.
Variable compute : list P -> list P -> option (list P).
Implicit Types (w : world P) (os : list (op P)).

Lemma upd_eq {A} (f : nat -> A) k v : upd f k v k = v.
Proof. unfold upd. rewrite Nat.eqb_refl. auto. Qed.
Lemma upd_neq {A} (f : nat -> A) k j v : k <> j -> upd f k v j = f j.
Proof. intros. unfold upd. destruct (Nat.eqb_spec k j); congruence. Qed.

Notation step := (step compute). Notation run := (run compute).

(** The bounds after one operation. *)
Lemma reset_bounds x w y :
  d_left (w_ll (reset_cache x w) y) = d_left (w_ll w y) /\ d_right (w_ll (reset_cache x w) y) = d_right (w_ll w y).
Proof.
  unfold reset_cache. destruct (has_custom w x); auto. unfold put_ll; simpl.
  unfold upd. destruct (Nat.eqb_spec x y) as [->|]; auto.
Qed.
Lemma set_left_bounds x b w y :
  d_left (w_ll (data_set_left x b w) y) = (if Nat.eqb x y then b else d_left (w_ll w y)) /\
  d_right (w_ll (data_set_left x b w) y) = d_right (w_ll w y).
Proof.
  unfold data_set_left. destruct (ls_eqb b (d_left (w_ll w x))) eqn:E.
  - apply ls_eqb_eq in E. destruct (Nat.eqb_spec x y) as [->|]; auto.
  - cbv zeta. unfold put_ll; simpl. unfold upd. destruct (Nat.eqb_spec x y) as [->|]; simpl; [|apply reset_bounds].
    split; auto. apply reset_bounds.
Qed.
Lemma set_right_bounds x b w y :
  d_right (w_ll (data_set_right x b w) y) = (if Nat.eqb x y then b else d_right (w_ll w y)) /\
  d_left (w_ll (data_set_right x b w) y) = d_left (w_ll w y).
Proof.
  unfold data_set_right. destruct (ls_eqb b (d_right (w_ll w x))) eqn:E.
  - apply ls_eqb_eq in E. destruct (Nat.eqb_spec x y) as [->|]; auto.
  - cbv zeta. unfold put_ll; simpl. unfold upd. destruct (Nat.eqb_spec x y) as [->|]; simpl.
    + split; auto. apply reset_bounds.
    + split; apply reset_bounds.
Qed.
Lemma centerline_bounds x w c w' y : data_centerline compute x w = Some (c, w') ->
  d_left (w_ll w' y) = d_left (w_ll w y) /\ d_right (w_ll w' y) = d_right (w_ll w y).
Proof.
  unfold data_centerline. destruct (d_center (w_ll w x)).
  - intros E; injection E as <- <-; auto.
  - destruct (compute _ _); [|discriminate]. intros E; injection E as <- <-. simpl. unfold upd.
    destruct (Nat.eqb_spec x y) as [->|]; auto.
Qed.

Lemma step_left o w w' h : step o w = Some w' ->
  left_bound w' h = match last_left h [o] with Some b => b | None => left_bound w h end /\
  right_bound w' h = match last_right h [o] with Some b => b | None => right_bound w h end.
Proof.
  intros E. unfold left_bound, right_bound. destruct h as [y i]. destruct o as [g b|g b|g l|g|g|l pts|l z]; simpl in *.
  1,2: injection E as <-; unfold set_left, set_right; destruct g as [x j]; simpl;
    destruct j; (destruct (set_left_bounds x b w y) as [-> ->] || destruct (set_right_bounds x b w y) as [-> ->]
      || destruct (set_left_bounds x (ls_invert b) w y) as [-> ->] || destruct (set_right_bounds x (ls_invert b) w y) as [-> ->]);
    destruct (Nat.eqb_spec x y) as [->|N]; destruct i; simpl; auto;
    rewrite ?mirror_invert, ?mirror_mirror; auto.
  - injection E as <-. unfold set_center, data_set_center. simpl. unfold upd.
    destruct (Nat.eqb_spec (ll_data g) y) as [<-|]; auto.
  - injection E as <-. destruct (reset_bounds (ll_data g) w y) as [-> ->]. auto.
  - unfold centerline in E. destruct (data_centerline compute (ll_data g) w) as [[c w2]|] eqn:D; [|discriminate].
    injection E as <-. destruct (centerline_bounds _ _ _ _ y D) as [-> ->]. auto.
  - injection E as <-. auto.
  - injection E as <-. auto.
Qed.

Lemma last_left_cons h o r : last_left h (o :: r) = match last_left (P:=P) h [o] with Some b => Some b | None => last_left h r end.
Proof. destruct o as [g b|g b|g l|g|g|l pts|l z]; simpl; try reflexivity; destruct (Nat.eqb _ _ && _); auto. Qed.
Lemma last_right_cons h o r : last_right h (o :: r) = match last_right (P:=P) h [o] with Some b => Some b | None => last_right h r end.
Proof. destruct o as [g b|g b|g l|g|g|l pts|l z]; simpl; try reflexivity; destruct (Nat.eqb _ _ && _); auto. Qed.

Lemma run_app os1 os2 w : run (os1 ++ os2) w = match run os1 w with Some w' => run os2 w' | None => None end.
Proof. revert w. induction os1 as [|o r IH]; intros w; simpl; auto. destruct (LaneletModel.step compute o w); auto. Qed.

Lemma run_bounds os : forall w w' h, run os w = Some w' ->
  left_bound w' h = match last_left h (rev os) with Some b => b | None => left_bound w h end /\
  right_bound w' h = match last_right h (rev os) with Some b => b | None => right_bound w h end.
Proof.
  induction os as [|o os IH] using rev_ind; intros w w' h R.
  - injection R as <-. auto.
  - rewrite run_app in R. destruct (run os w) as [w1|] eqn:R1; [|discriminate]. cbn [LaneletModel.run] in R.
    destruct (step o w1) as [w2|] eqn:S1; [|discriminate]. injection R as <-.
    destruct (step_left _ _ _ h S1) as [-> ->]. destruct (IH _ _ h R1) as [-> ->].
    rewrite rev_app_distr. cbn [rev app]. rewrite (last_left_cons h o (rev os)), (last_right_cons h o (rev os)).
    split; [destruct (last_left h [o])|destruct (last_right h [o])]; auto.
Qed.

(** ** The centerline cache *)
Definition init w := forall x, d_center (w_ll w x) = None.
Definition bounds_of w (x : nat) : list nat :=
  [ls_data (d_left (w_ll w x)); ls_data (d_right (w_ll w x))].
(** What the cache of a lanelet without custom centerline may contain. *)
Definition coherent w (x : nat) : Prop :=
  match d_center (w_ll w x) with
  | None => True
  | Some (Cust _) => False
  | Some (Comp _ q) => compute (line_pts w (d_left (w_ll w x))) (line_pts w (d_right (w_ll w x))) = Some q
  end.

Lemma last_center_cons h o r : last_center h (o :: r) = match last_center (P:=P) h [o] with Some b => Some b | None => last_center h r end.
Proof. destruct o as [g b|g b|g l|g|g|l pts|l z]; simpl; try reflexivity; destruct (Nat.eqb _ _); auto. Qed.

(** Ids stay valid. *)
Lemma step_ids o w w' l : step o w = Some w' -> (forall z, o <> OSetId l z) -> ls_id (w_ls w' l) = ls_id (w_ls w l).
Proof.
  assert (RC : forall x w, w_ls (reset_cache x w) = w_ls w).
  { intros. unfold reset_cache. destruct (has_custom _ _); auto. }
  intros E N. destruct o as [g b|g b|g k|g|g|k pts|k z]; simpl in E.
  - injection E as <-. unfold set_left, data_set_left, data_set_right. destruct (ll_inv g).
    + destruct (ls_eqb _ _); auto. cbv zeta. unfold put_ll. cbn [w_ls]. rewrite RC. auto.
    + destruct (ls_eqb _ _); auto. cbv zeta. unfold put_ll. cbn [w_ls]. rewrite RC. auto.
  - injection E as <-. unfold set_right, data_set_left, data_set_right. destruct (ll_inv g).
    + destruct (ls_eqb _ _); auto. cbv zeta. unfold put_ll. cbn [w_ls]. rewrite RC. auto.
    + destruct (ls_eqb _ _); auto. cbv zeta. unfold put_ll. cbn [w_ls]. rewrite RC. auto.
  - injection E as <-. auto.
  - injection E as <-. rewrite RC. auto.
  - unfold centerline in E. destruct (data_centerline compute (ll_data g) w) as [[c w2]|] eqn:D; [|discriminate].
    injection E as <-. unfold data_centerline in D. destruct (d_center _).
    + injection D as <- <-; auto.
    + destruct (compute _ _); [|discriminate]. injection D as <- <-. auto.
  - injection E as <-. simpl. unfold upd. destruct (Nat.eqb_spec k l) as [->|]; auto.
  - injection E as <-. simpl. unfold upd. destruct (Nat.eqb_spec k l) as [->|]; auto. exfalso. apply (N z). auto.
Qed.

(** After [os]: with a custom centerline the cache holds it; otherwise it is coherent, if
    the program notifies. *)
Definition good w0 os w (x : nat) : Prop :=
  match last_center (Ll x false) (rev os) with
  | Some l => d_center (w_ll w x) = Some (Cust l) /\ ls_id (w_ls w (ls_data l)) <> 0%Z
  | None =>
    match d_center (w_ll w x) with Some (Cust _) => False | _ => True end /\
    (notified (fun a y => match run a w0 with Some v => bounds_of v y | None => [] end) x os -> coherent w x)
  end.

Lemma has_custom_false w x : match d_center (w_ll w x) with Some (Cust _) => False | _ => True end -> has_custom w x = false.
Proof. unfold has_custom. destruct (d_center _) as [[]|]; tauto. Qed.

Lemma reset_other x w y : x <> y -> w_ll (reset_cache x w) y = w_ll w y.
Proof. intros. unfold reset_cache. destruct (has_custom _ _); auto. simpl. apply upd_neq. auto. Qed.
Lemma reset_ls x w : w_ls (reset_cache x w) = w_ls w.
Proof. unfold reset_cache. destruct (has_custom _ _); auto. Qed.
Lemma reset_keep x w : has_custom w x = true -> reset_cache x w = w.
Proof. unfold reset_cache. intros ->. auto. Qed.
Lemma reset_drop x w : has_custom w x = false -> d_center (w_ll (reset_cache x w) x) = None.
Proof. unfold reset_cache. intros ->. simpl. rewrite upd_eq. auto. Qed.

Lemma set_left_other x b w y : x <> y -> w_ll (data_set_left x b w) y = w_ll w y.
Proof. intros. unfold data_set_left. destruct (ls_eqb _ _); auto. cbv zeta. unfold put_ll. cbn [w_ll]. rewrite upd_neq, reset_other; auto. Qed.
Lemma set_right_other x b w y : x <> y -> w_ll (data_set_right x b w) y = w_ll w y.
Proof. intros. unfold data_set_right. destruct (ls_eqb _ _); auto. cbv zeta. unfold put_ll. cbn [w_ll]. rewrite upd_neq, reset_other; auto. Qed.
Lemma set_left_ls x b w : w_ls (data_set_left x b w) = w_ls w.
Proof. unfold data_set_left. destruct (ls_eqb _ _); auto. cbv zeta. unfold put_ll. cbn [w_ls]. apply reset_ls. Qed.
Lemma set_right_ls x b w : w_ls (data_set_right x b w) = w_ls w.
Proof. unfold data_set_right. destruct (ls_eqb _ _); auto. cbv zeta. unfold put_ll. cbn [w_ls]. apply reset_ls. Qed.
(** Either nothing changed or the cache was dropped (unless custom). *)
Lemma set_left_cache x b w :
  (data_set_left x b w = w) \/
  (d_center (w_ll (data_set_left x b w) x) = if has_custom w x then d_center (w_ll w x) else None).
Proof.
  unfold data_set_left. destruct (ls_eqb _ _); auto. right. cbv zeta. unfold put_ll. cbn [w_ll]. rewrite upd_eq. cbn [d_center].
  destruct (has_custom w x) eqn:H; [rewrite reset_keep; auto|apply reset_drop; auto].
Qed.
Lemma set_right_cache x b w :
  (data_set_right x b w = w) \/
  (d_center (w_ll (data_set_right x b w) x) = if has_custom w x then d_center (w_ll w x) else None).
Proof.
  unfold data_set_right. destruct (ls_eqb _ _); auto. right. cbv zeta. unfold put_ll. cbn [w_ll]. rewrite upd_eq. cbn [d_center].
  destruct (has_custom w x) eqn:H; [rewrite reset_keep; auto|apply reset_drop; auto].
Qed.

Lemma notified_prefix (f : list (op P) -> nat -> list nat) x os o :
  ~ is_reset x o -> notified f x (os ++ [o]) -> notified f x os.
Proof.
  intros NR N a l pts b E I. subst os. rewrite <- app_assoc in N. cbn [app] in N.
  assert (H := N a l pts (b ++ [o]) eq_refl I). apply Exists_app in H as [H|H]; auto.
  inversion H as [? ? H1|? ? H1]; subst; [contradiction|inversion H1].
Qed.

Lemma custom_has w x l : d_center (w_ll w x) = Some (Cust l) -> ls_id (w_ls w (ls_data l)) <> 0%Z -> has_custom w x = true.
Proof. intros H N. unfold has_custom. rewrite H. destruct (Z.eqb_spec (ls_id (w_ls w (ls_data l))) 0); auto; contradiction. Qed.

Lemma coherent_ext w w' x : w_ll w' x = w_ll w x -> (forall l, In l (bounds_of w x) -> ls_pts (w_ls w' l) = ls_pts (w_ls w l)) ->
  coherent w x -> coherent w' x.
Proof.
  intros E B. unfold coherent. rewrite E. destruct (d_center (w_ll w x)) as [[l|n q]|]; auto.
  unfold line_pts. rewrite (B (ls_data (d_left (w_ll w x)))), (B (ls_data (d_right (w_ll w x)))); auto; simpl; auto.
Qed.

Lemma good_bound w0 os w w' x y (o : op P) :
  (last_center (Ll x false) [o] = None) -> ~ is_reset x o ->
  good w0 os w x -> w_ls w' = w_ls w -> (y <> x -> w_ll w' x = w_ll w x) ->
  (w' = w \/ d_center (w_ll w' y) = if has_custom w y then d_center (w_ll w y) else None) ->
  good w0 (os ++ [o]) w' x.
Proof.
  intros L NR G EL EO C. unfold good in *. rewrite rev_app_distr. cbn [rev app]. rewrite (last_center_cons (Ll x false) o (rev os)), L.
  destruct (Nat.eq_dec y x) as [->|N].
  - destruct C as [->|C].
    + destruct (last_center (Ll x false) (rev os)); auto. destruct G as [G1 G2]. split; auto.
      intros NF. apply G2. eapply notified_prefix; eauto.
    + destruct (last_center (Ll x false) (rev os)) as [l|].
      * destruct G as [G1 G2]. rewrite (custom_has _ _ _ G1 G2) in C. rewrite EL. split; congruence.
      * destruct G as [G1 G2]. rewrite (has_custom_false _ _ G1) in C. unfold coherent. rewrite C. auto.
  - specialize (EO N). rewrite EL, EO. destruct (last_center (Ll x false) (rev os)); auto. destruct G as [G1 G2]. split; auto.
    intros NF. apply (coherent_ext w); auto. { intros; rewrite EL; auto. } apply G2. eapply notified_prefix; eauto.
Qed.

Lemma run_good w0 os : forall w x, init w0 -> valid_ids (fun l => ls_id (w_ls w0 l)) os -> run os w0 = Some w ->
  good w0 os w x /\ (forall l, ~ (exists z, In (OSetId l z) os) -> ls_id (w_ls w l) = ls_id (w_ls w0 l)) /\
  (forall l, ls_id (w_ls w0 l) <> 0%Z -> ls_id (w_ls w l) <> 0%Z).
Proof.
  induction os as [|o os IH] using rev_ind; intros w x I V R.
  - injection R as <-. split; [|auto]. unfold good. simpl. rewrite I. split; auto. intros _. unfold coherent. rewrite I. auto.
  - rewrite run_app in R. destruct (run os w0) as [w1|] eqn:R1; [|discriminate]. cbn [LaneletModel.run] in R.
    destruct (step o w1) as [w2|] eqn:S1; [|discriminate]. injection R as <-.
    assert (V1 : valid_ids (fun l => ls_id (w_ls w0 l)) os).
    { destruct V as [Va Vb]. split; [intros h l H; apply (Va h)|intros l H; apply (Vb l)]; apply in_or_app; auto. }
    destruct (IH w1 x I V1 eq_refl) as (G & K1 & K2).
    split; [|split].
    2: { intros l N. rewrite (step_ids _ _ _ l S1). { apply K1. intros (z & H). apply N. exists z. apply in_or_app. auto. }
         intros z ->. apply N. exists z. apply in_or_app; right; left; auto. }
    2: { intros l N. destruct (match o with OSetId k _ => Nat.eqb k l | _ => false end) eqn:O.
         - destruct o; try discriminate. apply Nat.eqb_eq in O. subst l0. injection S1 as <-. simpl. rewrite upd_eq. simpl.
           intros ->. destruct V as [_ Vb]. apply (Vb l). apply in_or_app; right; left; auto.
         - rewrite (step_ids _ _ _ l S1); auto. intros z ->. rewrite Nat.eqb_refl in O. discriminate. }
    assert (O := S1).
    destruct o as [g b|g b|g k|g|g|k pts|k z]; cbn [LaneletModel.step] in O.
    + injection O as <-. unfold set_left. destruct (ll_inv g).
      * apply (good_bound w0 os w1 _ x (ll_data g)); auto; [apply set_right_ls|intros; apply set_right_other; auto|apply set_right_cache].
      * apply (good_bound w0 os w1 _ x (ll_data g)); auto; [apply set_left_ls|intros; apply set_left_other; auto|apply set_left_cache].
    + injection O as <-. unfold set_right. destruct (ll_inv g).
      * apply (good_bound w0 os w1 _ x (ll_data g)); auto; [apply set_left_ls|intros; apply set_left_other; auto|apply set_left_cache].
      * apply (good_bound w0 os w1 _ x (ll_data g)); auto; [apply set_right_ls|intros; apply set_right_other; auto|apply set_right_cache].
    + injection O as <-. unfold good. rewrite rev_app_distr. cbn [rev app last_center ll_data ll_inv].
      unfold set_center, data_set_center, put_ll. cbn [w_ll w_ls].
      destruct (Nat.eqb_spec (ll_data g) x) as [<-|N].
      * rewrite upd_eq. cbn [d_center]. split. { destruct (ll_inv g); auto. }
        assert (Z0 : ls_id (w_ls w1 (ls_data k)) <> 0%Z).
        { apply K2. destruct V as [Va _]. apply (Va g). apply in_or_app; right; left; auto. }
        destruct (ll_inv g); simpl; auto.
      * rewrite upd_neq by auto. unfold good in G. destruct (last_center _ (rev os)); auto. destruct G as [G1 G2].
        split; auto. intros NF. apply (coherent_ext w1); auto. { cbn [w_ll]. rewrite upd_neq; auto. }
        apply G2. eapply notified_prefix; [|exact NF]; simpl; auto.
    + injection O as <-. destruct (Nat.eq_dec (ll_data g) x) as [<-|N].
      * unfold good in *. rewrite rev_app_distr. cbn [rev app last_center]. rewrite reset_ls.
        destruct (last_center _ (rev os)) as [l|].
        { destruct G as [G1 G2]. rewrite (reset_keep _ _ (custom_has _ _ _ G1 G2)). auto. }
        destruct G as [G1 G2]. assert (D := reset_drop _ _ (has_custom_false _ _ G1)). unfold coherent. rewrite D. auto.
      * apply (good_bound w0 os w1 _ x (ll_data g)); auto; [apply reset_ls|intros; apply reset_other; auto|].
        right. destruct (has_custom w1 (ll_data g)) eqn:H; [rewrite reset_keep; auto|apply reset_drop; auto].
    + unfold centerline in O. destruct (data_centerline compute (ll_data g) w1) as [[c w3]|] eqn:D; [|discriminate].
      injection O as ->. unfold data_centerline in D. unfold good in *. rewrite rev_app_distr. cbn [rev app last_center].
      destruct (d_center (w_ll w1 (ll_data g))) eqn:DC.
      { injection D as <- <-. destruct (last_center _ (rev os)); auto. destruct G as [G1 G2]. split; auto.
        intros NF. apply G2. eapply notified_prefix; [|exact NF]; simpl; auto. }
      destruct (compute _ _) as [q|] eqn:CQ; [|discriminate]. injection D as <- <-. cbn [w_ll w_ls].
      destruct (Nat.eqb_spec (ll_data g) x) as [<-|N].
      * rewrite upd_eq. cbn [d_center]. rewrite DC in G. destruct (last_center _ (rev os)); [destruct G; discriminate|].
        split; auto. intros _. unfold coherent. cbn [w_ll]. rewrite upd_eq. cbn [d_center d_left d_right]. auto.
      * rewrite upd_neq by auto. destruct (last_center _ (rev os)); auto. destruct G as [G1 G2]. split; auto.
        intros NF. apply (coherent_ext w1); auto. { cbn [w_ll]. rewrite upd_neq; auto. }
        apply G2. eapply notified_prefix; [|exact NF]; simpl; auto.
    + injection O as <-. unfold good in *. rewrite rev_app_distr. cbn [rev app last_center w_ll w_ls].
      destruct (last_center _ (rev os)) as [l|].
      { destruct G as [G1 G2]. split; auto. unfold upd. destruct (Nat.eqb_spec k (ls_data l)) as [->|]; auto. }
      destruct G as [G1 G2]. split; auto. intros NF.
      assert (NB : ~ In k (bounds_of w1 x)).
      { intros HB. assert (H := NF os k pts [] eq_refl). cbv beta in H. rewrite R1 in H. specialize (H HB). inversion H. }
      apply (coherent_ext w1); auto.
      { intros l HL. cbn [w_ls]. rewrite upd_neq; auto. intros ->. auto. }
      apply G2. eapply notified_prefix; [|exact NF]. simpl. auto.
    + injection O as <-. unfold good in *. rewrite rev_app_distr. cbn [rev app last_center w_ll w_ls].
      destruct (last_center _ (rev os)) as [l|].
      { destruct G as [G1 G2]. split; auto. unfold upd. destruct (Nat.eqb_spec k (ls_data l)) as [->|]; auto. simpl.
        intros ->. destruct V as [_ Vb]. apply (Vb (ls_data l)). apply in_or_app; right; left; auto. }
      destruct G as [G1 G2]. split; auto. intros NF. apply (coherent_ext w1); auto.
      { intros l HL. cbn [w_ls]. unfold upd. destruct (Nat.eqb_spec k l) as [->|]; auto. }
      apply G2. eapply notified_prefix; [|exact NF]; simpl; auto.
Qed.

Lemma last_center_inv x r : last_center (P:=P) (Ll x true) r = option_map mirror (last_center (Ll x false) r).
Proof.
  induction r as [|o r IH]; auto. destruct o; cbn [last_center]; auto. cbn [ll_data ll_inv].
  destruct (Nat.eqb (ll_data h) x); auto. destruct (ll_inv h); simpl; rewrite ?mirror_mirror; auto.
Qed.
Lemma line_pts_mirror w l : line_pts w (mirror l) = rev (line_pts w l).
Proof. unfold line_pts, mirror; simpl. destruct (ls_inv l); simpl; auto. rewrite rev_involutive; auto. Qed.

(** ** Threads *)
Variables (lpts rpts : list P) (ids : nat -> Z).
Notation tstep := (tstep compute lpts rpts ids). Notation trun := (trun compute lpts rpts ids).

Lemma nth_tset i t (l : list (@thread P)) j : (i < length l)%nat -> nth_error (tset i t l) j = if Nat.eqb i j then Some t else nth_error l j.
Proof.
  intros L. unfold tset. destruct (Nat.eqb_spec i j) as [<-|N].
  - rewrite nth_error_app2; rewrite firstn_length_le by lia; auto. rewrite Nat.sub_diag. auto.
  - destruct (Nat.lt_ge_cases j i).
    + rewrite nth_error_app1 by (rewrite firstn_length_le; lia).
      rewrite <- (firstn_skipn i l) at 2. rewrite nth_error_app1; auto. rewrite firstn_length_le; lia.
    + rewrite nth_error_app2 by (rewrite firstn_length_le; lia). rewrite firstn_length_le by lia.
      rewrite <- (firstn_skipn (S i) l) at 2. rewrite nth_error_app2 by (rewrite firstn_length_le; lia).
      rewrite firstn_length_le by lia. replace (j - i)%nat with (S (j - S i)) by lia. auto.
Qed.

(** The value every reader has to return: the custom line, or what [compute] gives. *)
Definition cache_ok (custom : option ls) (c : option (cl P)) : Prop :=
  match custom, c with
  | Some l, Some (Cust l') => l' = l
  | Some _, _ => False
  | None, None => True
  | None, Some (Comp _ q) => compute lpts rpts = Some q
  | None, Some (Cust _) => False
  end.
Definition thread_ok (custom : option ls) (t : @thread P) : Prop :=
  match t with
  | RLoad | CLoad | CDone => True
  | RCalc => custom = None
  | RStore c => custom = None /\ cache_ok None (Some c)
  | RDone c => cache_ok custom (Some c)
  | CStore => custom = None
  end.
Definition cinv (custom : option ls) (s : @cstate P) : Prop :=
  cache_ok custom (c_cache s) /\ (forall i t, nth_error (c_thr s) i = Some t -> thread_ok custom t).
Lemma tstep_inv custom s i s' : (forall l, custom = Some l -> ids (ls_data l) <> 0%Z) -> cinv custom s -> tstep i s = Some s' -> cinv custom s'.
Proof.
  intros CV [C T] E. unfold LaneletModel.tstep in E. destruct (nth_error (c_thr s) i) as [t|] eqn:N.
  2: { injection E as <-. split; auto. }
  assert (L : (i < length (c_thr s))%nat) by (apply nth_error_Some; congruence).
  assert (TI := T i t N).
  assert (UPD : forall t', thread_ok custom t' -> forall j u, nth_error (tset i t' (c_thr s)) j = Some u -> thread_ok custom u).
  { intros t' HT j u Hj. rewrite nth_tset in Hj by auto. destruct (Nat.eqb i j); [injection Hj as <-; auto|eauto]. }
  destruct t.
  - destruct (c_cache s) as [c|] eqn:CC; injection E as <-; split; simpl; auto; apply UPD; simpl; auto.
    destruct custom; auto. simpl in C. contradiction.
  - simpl in TI. destruct (compute lpts rpts) as [q|] eqn:CQ; [|discriminate]. injection E as <-. split; simpl; auto. apply UPD. simpl; auto.
  - injection E as <-. destruct TI as [-> TI]. split; simpl; auto. apply UPD. auto.
  - injection E as <-. split; auto.
  - injection E as <-. split; simpl; auto. apply UPD. destruct (is_custom ids (c_cache s)) eqn:IC; simpl; auto.
    destruct custom as [l|]; auto. exfalso. unfold cache_ok in C. destruct (c_cache s) as [[l'|]|]; try contradiction. subst l'.
    simpl in IC. specialize (CV l eq_refl). destruct (Z.eqb_spec (ids (ls_data l)) 0); [contradiction|discriminate].
  - injection E as <-. simpl in TI. subst custom. split; simpl; auto. apply UPD. simpl; auto.
  - injection E as <-. split; auto.
Qed.
Lemma trun_inv custom sched : forall s s', (forall l, custom = Some l -> ids (ls_data l) <> 0%Z) -> cinv custom s -> trun sched s = Some s' -> cinv custom s'.
Proof.
  induction sched as [|i r IH]; intros s s' CV I E; cbn [LaneletModel.trun] in E.
  - injection E as <-. auto.
  - destruct (tstep i s) as [s1|] eqn:S1; [|discriminate]. eapply IH; [| |exact E]; auto. eapply tstep_inv; eauto.
Qed.

(** Steps left for a thread. *)
Definition left (t : @thread P) : nat :=
  match t with RLoad => 3 | RCalc => 2 | RStore _ => 1 | CLoad => 2 | CStore => 1 | RDone _ | CDone => 0 end.
Definition reader (t : @thread P) : bool := match t with CLoad | CStore | CDone => false | _ => true end.
Lemma tstep_left i s s' t : tstep i s = Some s' -> nth_error (c_thr s) i = Some t ->
  exists t', nth_error (c_thr s') i = Some t' /\ (left t' <= left t - 1)%nat /\ reader t' = reader t.
Proof.
  intros E N. unfold LaneletModel.tstep in E. rewrite N in E.
  assert (L : (i < length (c_thr s))%nat) by (apply nth_error_Some; congruence).
  destruct t; [destruct (c_cache s)|destruct (compute lpts rpts); [|discriminate]| | | | |]; injection E as <-; cbn [c_thr];
    try (rewrite nth_tset by auto; rewrite Nat.eqb_refl; eexists; split; [reflexivity|]; simpl; auto; fail);
    try (eexists; split; [exact N|]; simpl; auto; fail).
  rewrite nth_tset by auto; rewrite Nat.eqb_refl; eexists; split; [reflexivity|]. destruct (is_custom _ _); simpl; auto.
Qed.
Lemma tstep_other i j s s' : tstep i s = Some s' -> i <> j -> nth_error (c_thr s') j = nth_error (c_thr s) j.
Proof.
  intros E N. unfold LaneletModel.tstep in E. destruct (nth_error (c_thr s) i) eqn:NI; [|injection E as <-; auto].
  assert (L : (i < length (c_thr s))%nat) by (apply nth_error_Some; congruence).
  destruct t; [destruct (c_cache s)|destruct (compute lpts rpts); [|discriminate]| | | | |]; injection E as <-; cbn [c_thr]; auto;
    rewrite nth_tset by auto; destruct (Nat.eqb_spec i j); congruence.
Qed.
Lemma trun_left sched : forall s s' i t, trun sched s = Some s' -> nth_error (c_thr s) i = Some t ->
  exists t', nth_error (c_thr s') i = Some t' /\ (left t' <= left t - count_occ Nat.eq_dec sched i)%nat /\ reader t' = reader t.
Proof.
  induction sched as [|j r IH]; intros s s' i t E N; cbn [LaneletModel.trun] in E.
  - injection E as <-. exists t. simpl. split; [|split]; auto. lia.
  - destruct (tstep j s) as [s1|] eqn:S1; [|discriminate]. cbn [count_occ]. destruct (Nat.eq_dec j i) as [->|NE].
    + destruct (tstep_left _ _ _ _ S1 N) as (t1 & N1 & L1 & K1). destruct (IH _ _ _ _ E N1) as (t2 & N2 & L2 & K2). exists t2. split; [|split]; auto; [lia|congruence].
    + rewrite <- (tstep_other _ _ _ _ S1 NE) in N. eauto.
Qed.
End P.
