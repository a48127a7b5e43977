(** Proofs about looking for ids in primitives and for parameters of regulatory elements. *)
From Coq Require Import List Bool ZArith String Sorted Lia.
From Verif Require Import LineModel LineSpec MemberModel MemberSpec OsmProofs.
From Verif Require CompoundProofs.
Import ListNotations.
Local Open Scope Z_scope.

Lemma in_dedup l x : In x (dedup Nat.eqb l) <-> In x l.
Proof.
  induction l as [|a r IH]; [tauto|]. cbn [dedup].
  destruct r as [|y r']; [reflexivity|]. destruct (Nat.eqb a y) eqn:E.
  - apply Nat.eqb_eq in E. subst y. rewrite IH. cbn [In]. tauto.
  - cbn [In] in *. rewrite IH. tauto.
Qed.

Section Ids.
Variable pid : nat -> Z.

Lemma has_line_spec l i : has_line pid l i = true <-> a_point_of pid l i.
Proof.
  unfold has_line, a_point_of. rewrite existsb_exists. split; intros [p [H E]]; exists p; split; auto.
  - apply Z.eqb_eq; auto.
  - apply Z.eqb_eq; auto.
Qed.

Lemma has_compound_spec ls i :
  exists b, has_compound pid ls i = Some b /\ (b = true <-> exists l, In l ls /\ a_point_of pid l i).
Proof.
  unfold has_compound. rewrite (CompoundProofs.points_spec Nat.eqb Nat.eqb_eq). cbn [option_map view].
  eexists. split; [reflexivity|]. rewrite existsb_exists. split.
  - intros [p [H E]]. apply Z.eqb_eq in E. rewrite in_dedup in H. apply in_concat in H. destruct H as [s [Hs Hp]].
    apply in_map_iff in Hs. destruct Hs as [l [<- Hl]]. exists l. split; auto. exists p. auto.
  - intros [l [Hl [p [Hp E]]]]. exists p. split; [|apply Z.eqb_eq; auto].
    apply in_dedup. apply in_concat. exists (l_pts l). split; auto. apply in_map. auto.
Qed.

Lemma has_lanelet_spec l i : has_lanelet pid l i = true <-> member_of_lanelet pid l i.
Proof.
  unfold has_lanelet. rewrite !orb_true_iff, !has_line_spec, existsb_exists. split.
  - intros [[H|H]|[r [H E]]]; [apply left_point; auto|apply right_point; auto|]. apply Z.eqb_eq in E. subst r. apply its_rule; auto.
  - intros [H|H|H]; auto. right. exists i. split; auto. apply Z.eqb_refl.
Qed.

Lemma has_area_spec a i : exists b, has_area pid a i = Some b /\ (b = true <-> outer_member pid a i).
Proof. apply has_compound_spec. Qed.

Lemma has_sequence_spec ls i :
  exists b, has_sequence pid ls i = Some b /\
    (b = true <-> exists l, In l ls /\ (a_point_of pid (ll_left l) i \/ a_point_of pid (ll_right l) i)).
Proof.
  unfold has_sequence. destruct (has_compound_spec (map ll_left ls) i) as [b [E H]].
  destruct (has_compound_spec (map ll_right ls) i) as [b' [E' H']]. rewrite E.
  destruct b.
  - exists true. split; auto. split; auto. intros _. destruct (proj1 H eq_refl) as [l [Hl Hp]]. apply in_map_iff in Hl.
    destruct Hl as [x [<- Hx]]. eauto.
  - exists b'. split; auto. rewrite H'. split.
    + intros [l [Hl Hp]]. apply in_map_iff in Hl. destruct Hl as [x [<- Hx]]. eauto.
    + intros [l [Hl [Hp|Hp]]].
      * exfalso. assert (false = true); [|discriminate]. apply H. exists (ll_left l). split; auto. apply in_map. auto.
      * exists (ll_right l). split; auto. apply in_map. auto.
Qed.

Lemma visit_id_spec i p : exists b, visit_id pid i p = Some b /\ (b = true <-> has_id pid p i \/ has_member pid p i).
Proof.
  destruct p as [p|l|l|[l|]|[a|]]; cbn [visit_id].
  - eexists. split; [reflexivity|]. rewrite Z.eqb_eq. split.
    + intros <-. left. constructor.
    + intros [H|H]; inversion H; auto.
  - eexists. split; [reflexivity|]. rewrite orb_true_iff, Z.eqb_eq, has_line_spec. split.
    + intros [<-|H]; [left|right]; constructor; auto.
    + intros [H|H]; inversion H; auto.
  - eexists. split; [reflexivity|]. rewrite orb_true_iff, Z.eqb_eq, has_line_spec. split.
    + intros [<-|H]; [left|right]; constructor; auto.
    + intros [H|H]; inversion H; auto.
  - eexists. split; [reflexivity|]. rewrite orb_true_iff, Z.eqb_eq, has_lanelet_spec. split.
    + intros [<-|H]; [left|right]; constructor; auto.
    + intros [H|H]; inversion H; auto.
  - exists false. split; auto. split; [discriminate|]. intros [H|H]; inversion H.
  - destruct (Z.eqb (ar_id a) i) eqn:E.
    + apply Z.eqb_eq in E. exists true. split; auto. split; auto. intros _. left. rewrite <- E. constructor.
    + destruct (has_area_spec a i) as [b [Eb H]]. exists b. split; auto. rewrite H. split.
      * intros K. right. constructor. auto.
      * intros [K|K]; inversion K; subst; auto. rewrite Z.eqb_refl in E. discriminate.
  - exists false. split; auto. split; [discriminate|]. intros [H|H]; inversion H.
Qed.

Lemma visit_params_spec i ps : forall f,
  exists b, visit_params pid i ps f = Some b /\
    (b = true <-> f = true \/ exists p, In p ps /\ (has_id pid p i \/ has_member pid p i)).
Proof.
  induction ps as [|p r IH]; intros f; cbn [visit_params].
  - exists f. split; auto. split; auto. intros [H|[p [[] _]]]; auto.
  - destruct (visit_id_spec i p) as [b [E H]]. rewrite E. destruct (IH (f || b)) as [b' [E' H']]. exists b'. split; auto.
    rewrite H', orb_true_iff, H. split.
    + intros [[K|K]|[q [K L]]]; auto; right; [exists p|exists q]; cbn [In]; auto.
    + intros [K|[q [[<-|K] L]]]; auto. right. exists q. auto.
Qed.

Lemma has_reg_spec r i :
  exists b, has_reg pid r i = Some b /\
    (b = true <-> exists p, parameter_of (re_params r) p /\ (has_id pid p i \/ has_member pid p i)).
Proof.
  unfold has_reg. assert (G : forall m f, exists b, visit_roles pid i m f = Some b /\
    (b = true <-> f = true \/ exists p, parameter_of m p /\ (has_id pid p i \/ has_member pid p i))).
  { induction m as [|[k ps] m IH]; intros f; cbn [visit_roles].
    - exists f. split; auto. split; auto. intros [H|[p [(? & ? & [] & _) _]]]; auto.
    - destruct (visit_params_spec i ps f) as [b [E H]]. rewrite E. destruct (IH b) as [b' [E' H']]. exists b'. split; auto.
      rewrite H', H. split.
      + intros [[K|[p [K L]]]|[p [(k' & ps' & K & K') L]]]; auto; right; exists p; split; auto.
        * exists k, ps. cbn [In]. auto.
        * exists k', ps'. cbn [In]. auto.
      + intros [K|[p [(k' & ps' & [K|K] & K') L]]]; auto.
        * inversion K; subst. left. right. eauto.
        * right. exists p. split; auto. exists k', ps'. auto. }
  destruct (G (re_params r) false) as [b [E H]]. exists b. split; auto. rewrite H. split; auto. intros [K|K]; auto. discriminate.
Qed.

Lemma usages_reg_spec layer i :
  exists u, usages_reg pid layer i = Some u /\
    (forall r, In r u <-> In r layer /\ exists p, parameter_of (re_params r) p /\ (has_id pid p i \/ has_member pid p i)) /\
    (NoDup (map re_id layer) -> NoDup (map re_id u)).
Proof.
  induction layer as [|r l [u (E & H & N)]]; cbn [usages_reg].
  - exists []. split; auto. split; [|auto]. intros r. cbn [In]. tauto.
  - destruct (has_reg_spec r i) as [b [Eb Hb]]. rewrite Eb, E. destruct b.
    + exists (r :: u). split; auto. split.
      * intros x. cbn [In]. rewrite H. split.
        -- intros [<-|[K L]]; split; auto. apply Hb. auto.
        -- intros [[<-|K] L]; auto.
      * cbn [map]. intros K. inversion K; subst. constructor; auto. intros C. apply H2. apply in_map_iff in C. destruct C as [x [Ex Cx]].
        apply H in Cx. rewrite <- Ex. apply in_map. apply Cx.
    + exists u. split; auto. split.
      * intros x. rewrite H. cbn [In]. split; [tauto|]. intros [[<-|K] L]; auto. apply Hb in L. discriminate.
      * cbn [map]. intros K. inversion K; auto.
Qed.

Lemma usages_spec {T} (has : T -> Z -> bool) (member : T -> Z -> Prop) (name : T -> Z) layer i :
  (forall x, has x i = true <-> member x i) ->
  (forall x, In x (usages has layer i) <-> In x layer /\ member x i) /\
  (NoDup (map name layer) -> NoDup (map name (usages has layer i))).
Proof.
  intros H. unfold usages. split.
  - intros x. rewrite filter_In, H. reflexivity.
  - induction layer as [|x l IH]; intros N; cbn [filter map]; [auto|]. cbn [map] in N. inversion N; subst.
    destruct (has x i); auto. cbn [map]. constructor; auto. intros C. apply H2. apply in_map_iff in C. destruct C as [y [E K]].
    apply filter_In in K. rewrite <- E. apply in_map. apply K.
Qed.

(** ** find *)

Lemma hit_spec w i p : (w <> WAny \/ i <> 0) -> hit pid w i p = true <-> of_kind w p /\ has_id pid p i.
Proof.
  intros N.
  destruct w, p as [p|l|l|[l|]|[a|]]; cbn [hit get_id]; rewrite ?Z.eqb_eq;
    (split; [intros H; first [discriminate|subst i; split; constructor|idtac]|intros [H K]; inversion H; inversion K; auto]);
    exfalso; destruct N; congruence.
Qed.

Lemma find_in_spec t ps p : find_in t ps = Some p -> first_with (fun x => t x = true) ps p.
Proof.
  induction ps as [|x r IH]; cbn [find_in]; [discriminate|]. destruct (t x) eqn:E.
  - intros H. inversion H; subst. exists [], r. split; [reflexivity|]. split; [assumption|]. intros q [].
  - intros H. destruct (IH H) as (l1 & l2 & -> & K & L). exists (x :: l1), l2. split; auto. split; auto.
    intros q [<-|Q]; auto. congruence.
Qed.
Lemma find_in_none t ps : find_in t ps = None -> forall q, In q ps -> t q = false.
Proof.
  induction ps as [|x r IH]; cbn [find_in]; [intros _ q []|]. destruct (t x) eqn:E; [discriminate|]. intros H q [<-|Q]; auto.
Qed.
Lemma find_param_flat w i m : find_param pid w i m = find_in (hit pid w i) (in_order m).
Proof.
  induction m as [|[k ps] m IH]; cbn [find_param in_order flat_map snd]; auto. rewrite IH. clear IH. fold (in_order m).
  induction ps as [|p r IH]; cbn [find_in app]; auto. destruct (hit pid w i p); auto.
Qed.

Lemma find_spec w i m : (w <> WAny \/ i <> 0) ->
  match find_param pid w i m with
  | Some p => first_with (fun x => of_kind w x /\ has_id pid x i) (in_order m) p
  | None => forall p, In p (in_order m) -> ~ (of_kind w p /\ has_id pid p i)
  end.
Proof.
  intros N. rewrite find_param_flat. destruct (find_in _ _) eqn:E.
  - apply find_in_spec in E. destruct E as (l1 & l2 & -> & K & L). exists l1, l2. split; auto. split; [apply hit_spec; auto|].
    intros q Q C. apply (L q Q). apply hit_spec; auto.
  - intros q Q C. assert (H := find_in_none _ _ E q Q). apply hit_spec in C; auto. congruence.
Qed.
End Ids.

(** ** getParameters and addParameter *)

Lemma lookup_in r m ps : ordered m -> lookup r m = Some ps <-> In (r, ps) m.
Proof.
  intros O. induction m as [|[k v] m IH]; cbn [lookup In]; [split; [discriminate|tauto]|].
  unfold ordered in *. cbn [map fst] in O. inversion O as [|? ? O' F]; subst. specialize (IH O'). destruct (String.eqb k r) eqn:E.
  - apply String.eqb_eq in E. subst k. split.
    + intros H. inversion H; auto.
    + intros [H|H]; [inversion H; auto|]. exfalso. rewrite Forall_forall in F. assert (C := F r (in_map fst _ _ H)). rewrite sirr in C. discriminate.
  - rewrite IH. split; auto. intros [H|H]; auto. inversion H; subst. rewrite String.eqb_refl in E. discriminate.
Qed.

Lemma lookup_none r m : lookup r m = None <-> ~ In r (map fst m).
Proof.
  induction m as [|[k v] m IH]; cbn [lookup map fst In]; [tauto|]. destruct (String.eqb k r) eqn:E.
  - apply String.eqb_eq in E. subst. split; [discriminate|tauto].
  - rewrite IH. apply String.eqb_neq in E. tauto.
Qed.

Lemma variant_spec w p : w <> WAny -> variant w p = true <-> of_kind w p.
Proof.
  intros N. destruct w, p as [p|l|l|[l|]|[a|]]; cbn [variant];
    (split; [intros H; first [discriminate|constructor|congruence]|intros H; inversion H; auto; congruence]).
Qed.

Lemma picked_filter w ps : w <> WAny -> picked (of_kind w) ps (filter (variant w) ps).
Proof.
  intros N. induction ps as [|p r IH]; cbn [filter]; [constructor|]. destruct (variant w p) eqn:E.
  - constructor; auto. apply variant_spec; auto.
  - constructor; auto. intros C. apply variant_spec in C; auto. congruence.
Qed.

Lemma add_roles r p m x : In x (map fst (add_parameter r p m)) <-> x = r \/ In x (map fst m).
Proof.
  induction m as [|[k v] m IH]; cbn [add_parameter map fst In]; [intuition congruence|].
  destruct (String.eqb k r) eqn:E; [|destruct (String.ltb r k)]; cbn [map fst In].
  - apply String.eqb_eq in E. subst. intuition congruence.
  - intuition congruence.
  - rewrite IH. tauto.
Qed.

Lemma add_ordered r p m : ordered m -> ordered (add_parameter r p m).
Proof.
  unfold ordered. induction m as [|[k v] m IH]; cbn [add_parameter map fst]; intros O.
  - constructor; [constructor|constructor].
  - inversion O as [|? ? O' F]; subst. destruct (String.eqb k r) eqn:E; [|destruct (String.ltb r k) eqn:L]; cbn [map fst].
    + constructor; auto.
    + constructor; [constructor; auto|]. constructor; auto. rewrite Forall_forall in *. intros x X. apply (stra _ _ _ L). auto.
    + constructor; auto. rewrite Forall_forall in *. intros x X. apply add_roles in X. destruct X as [->|X]; auto.
      destruct (String.ltb k r) eqn:K; auto. rewrite (stot k r K L), String.eqb_refl in E. discriminate.
Qed.

Lemma add_lookup r p m x : ordered m ->
  lookup x (add_parameter r p m) =
    if String.eqb x r then Some (match lookup r m with Some ps => ps ++ [p] | None => [p] end) else lookup x m.
Proof.
  unfold ordered. induction m as [|[k v] m IH]; cbn [add_parameter map fst lookup]; intros O.
  - rewrite (String.eqb_sym r x). reflexivity.
  - inversion O as [|? ? O' F]; subst. specialize (IH O'). destruct (String.eqb k r) eqn:E; [|destruct (String.ltb r k) eqn:L]; cbn [lookup].
    + apply String.eqb_eq in E. subst k. rewrite (String.eqb_sym r x). destruct (String.eqb x r); auto.
    + rewrite (String.eqb_sym r x). destruct (String.eqb x r); auto.
      assert (lookup r m = None) as ->; auto. apply lookup_none. intros C. rewrite Forall_forall in F. assert (D := F r C).
      assert (B := stra _ _ _ L D). rewrite sirr in B. discriminate.
    + rewrite IH. destruct (String.eqb x r) eqn:X; auto. apply String.eqb_eq in X. subst x. rewrite E. reflexivity.
Qed.
