From Coq Require Import List Arith Bool String Ascii Lia.
From Verif Require Import TrafficModel TrafficSpec.
Import ListNotations.
Local Open Scope string_scope.

Lemma prefix_app a b : prefix a (a ++ b) = true.
Proof. induction a as [|c a IH]; [destruct b; auto|]. cbn. destruct (ascii_dec c c); congruence. Qed.
Lemma prefix_exists a s : prefix a s = true -> exists b, s = a ++ b.
Proof.
  revert s. induction a as [|c a IH]; intros s; [intros _; exists s; auto|]. destruct s as [|d s]; [discriminate|].
  cbn. destruct (ascii_dec c d) as [->|]; [|discriminate]. intros H. destruct (IH s H) as (b & ->). eauto.
Qed.
Lemma prefix_cancel a s t : prefix (a ++ s) (a ++ t) = prefix s t.
Proof. induction a as [|c a IH]; auto. cbn. destruct (ascii_dec c c); congruence. Qed.
Lemma append_cancel a s t : (a ++ s = a ++ t)%string -> s = t.
Proof. induction a as [|c a IH]; auto. cbn. intros E. apply IH. congruence. Qed.
Lemma append_assoc (a b c : string) : ((a ++ b) ++ c = a ++ (b ++ c))%string.
Proof. induction a as [|x a IH]; cbn; congruence. Qed.
Lemma length_append (a b : string) : String.length (a ++ b) = String.length a + String.length b.
Proof. induction a as [|x a IH]; cbn; congruence. Qed.
Lemma append_empty (a : string) : (a ++ "")%string = a.
Proof. induction a as [|x a IH]; cbn; congruence. Qed.

(** For documented names a name is a prefix of another only as a level above it. *)
Definition coversb (q p : string) : bool := String.eqb q p || prefix (q ++ ":") p.
Lemma coversb_iff q p : coversb q p = true <-> covers q p.
Proof.
  unfold coversb, covers. rewrite orb_true_iff, String.eqb_eq. split; intros [H|H]; auto.
  - right. destruct (prefix_exists _ _ H) as (b & ->). exists b. apply append_assoc.
  - right. destruct H as (r & ->). rewrite <- append_assoc. apply prefix_app.
Qed.
Lemma known_prefix q p : In q known_participants -> In p known_participants -> prefix q p = true <-> covers q p.
Proof.
  intros Q P. rewrite <- coversb_iff.
  assert (A : forallb (fun q => forallb (fun p => Bool.eqb (prefix q p) (coversb q p)) known_participants) known_participants = true)
    by (vm_compute; reflexivity).
  rewrite forallb_forall in A. specialize (A q Q). rewrite forallb_forall in A. specialize (A p P).
  apply eqb_prop in A. rewrite A. tauto.
Qed.
Lemma known_vehicle p : In p known_participants -> prefix "vehicle" p = true <-> covers "vehicle" p.
Proof. intros P. apply known_prefix; auto. cbn. auto. Qed.

Section Proofs.
Context {V : Type}.
Variable as_string : V -> string.
Variable as_bool : V -> option bool.
Implicit Types a : list (string * V).

Lemma afind_some a k v : afind a k = Some v -> entry a k v.
Proof.
  unfold afind, entry. destruct (find _ a) as [[k' v']|] eqn:F; [|discriminate]. intros E. inversion E; subst.
  apply find_some in F as [I E']. apply String.eqb_eq in E'. cbn in E'. congruence.
Qed.
Lemma afind_none a k : afind a k = None <-> absent a k.
Proof.
  unfold afind, absent. destruct (find _ a) as [[k' v']|] eqn:F.
  - split; [discriminate|]. intros H. apply find_some in F as [I E']. apply String.eqb_eq in E'. cbn in E'. subst.
    destruct (H _ I).
  - split; auto. intros _ v I. apply (find_none _ _ F) in I. cbn in I. rewrite String.eqb_refl in I. discriminate.
Qed.
Lemma unique_entry a k v w : unique a -> entry a k v -> entry a k w -> v = w.
Proof.
  unfold unique, entry. induction a as [|[k' v'] a IH]; [intros _ []|]. intros N. inversion N as [|? ? NI N']; subst.
  assert (C : forall x, In (k', x) a -> False).
  { intros x I. apply NI. cbn [fst]. change k' with (fst (k', x)). apply in_map. auto. }
  intros [E|I] [E'|I'].
  - congruence.
  - inversion E; subst. destruct (C _ I').
  - inversion E'; subst. destruct (C _ I).
  - apply IH; auto.
Qed.
Lemma entry_afind a k v : unique a -> entry a k v <-> afind a k = Some v.
Proof.
  intros U. split; [|apply afind_some]. intros E. destruct (afind a k) as [w|] eqn:F.
  - f_equal. eapply unique_entry; eauto. apply afind_some. auto.
  - apply afind_none in F. destruct (F _ E).
Qed.
Lemma tag_attr a k s : unique a -> tag_is as_string a k s <-> attr_string as_string a k "" = s.
Proof.
  intros U. unfold tag_is, attr_string. destruct (afind a k) as [v|] eqn:F.
  - split.
    + intros [(w & E & <-)|[A _]].
      * apply entry_afind in E; auto. congruence.
      * apply afind_some in F. destruct (A _ F).
    + intros <-. left. exists v. split; auto. apply afind_some. auto.
  - assert (A := F). apply afind_none in A. split.
    + intros [(w & E & <-)|[_ ->]]; auto. destruct (A _ E).
    + intros <-. auto.
Qed.

(** Overrides. *)
Lemma get_override_gen {T} (conv : V -> option T) a pre pr p d :
  unique a -> In p known_participants -> good_overrides pre p a ->
  (pr = pre ++ ":" \/ (pr = pre /\ only_overrides pre a)) ->
  forall x, get_override conv a pr (pre ++ ":" ++ p) d = x <->
    (exists v, overridden pre p a v /\ (conv v = Some x \/ conv v = None /\ x = d)) \/
    ((forall v, ~ overridden pre p a v) /\ x = d).
Proof.
  intros U KP [G1 G2] PR x. unfold get_override.
  set (f := fun e : string * V => if Nat.ltb (String.length (fst e)) (String.length pr) then false
       else startswith (pre ++ ":" ++ p) (fst e)).
  assert (FI : forall k v, entry a k v -> f (k, v) = true <-> exists q, covers q p /\ k = pre ++ ":" ++ q).
  { intros k v E. subst f. cbn [fst]. unfold startswith. split.
    - destruct (Nat.ltb _ _) eqn:L; [discriminate|]. apply Nat.ltb_ge in L. intros H.
      destruct (prefix_exists _ _ H) as (b & B).
      assert (Q : prefix (pre ++ ":") k = true).
      { assert (P : prefix pr k = true).
        { assert (B' : exists t, pr ++ t = k ++ b).
          { destruct PR as [->|[-> _]]; rewrite <- B; eexists; [rewrite append_assoc|]; reflexivity. }
          destruct B' as (t & B'). clear -L B'. revert k L B'. induction pr as [|c pr IH]; intros k L B'; [destruct k; auto|].
          destruct k as [|c' k]; [cbn in L; lia|]. cbn in *. inversion B'; subst. destruct (ascii_dec c' c'); [|congruence].
          apply IH; [lia|auto]. }
        destruct PR as [->|[-> OO]]; eauto. }
 destruct (G1 k v E Q) as (q & KQ & ->). exists q. split; auto.
      apply known_prefix; auto. rewrite prefix_cancel in H. cbn in H. exact H.
    - intros (q & C & ->).
      assert (KQ : In q known_participants).
      { destruct (G1 _ v E) as (q' & K' & E'); [rewrite <- append_assoc; apply prefix_app|].
        apply append_cancel in E'. cbn in E'. injection E' as ->. auto. }
      destruct (Nat.ltb _ _) eqn:L.
      + apply Nat.ltb_lt in L. rewrite length_append in L. destruct PR as [->|[-> _]]; rewrite ?length_append in L; cbn in L; lia.
      + rewrite prefix_cancel. cbn. apply known_prefix; auto. }
  destruct (find f a) as [[k v]|] eqn:F.
  - apply find_some in F as [I F]. apply FI in F; auto. destruct F as (q & C & ->).
    assert (OV : overridden pre p a v) by (exists q; auto).
    assert (OU : forall w, overridden pre p a w -> w = v).
    { intros w (r & CR & E). assert (q = r) by (eapply G2; eauto). subst r. eapply unique_entry; eauto. }
    split.
    + intros H. left. exists v. split; auto. destruct (conv v); [left|right]; subst; auto.
    + intros [(w & W & H)|[N _]]; [|destruct (N _ OV)]. apply OU in W. subst w.
      destruct H as [->|[-> ->]]; auto.
  - assert (N : forall v, ~ overridden pre p a v).
    { intros v (q & C & E). apply (find_none _ _ F) in E as E'. assert (f (pre ++ ":" ++ q, v) = true) by (apply FI; eauto).
      congruence. }
    split; [intros <-; auto|]. intros [(w & W & _)|[_ ->]]; auto. destruct (N _ W).
Qed.

Lemma get_override_spec {T} (conv : V -> option T) a pre p d :
  unique a -> In p known_participants -> good_overrides pre p a -> only_overrides pre a ->
  forall x, get_override conv a pre (pre ++ ":" ++ p) d = x <->
    (exists v, overridden pre p a v /\ (conv v = Some x \/ conv v = None /\ x = d)) \/
    ((forall v, ~ overridden pre p a v) /\ x = d).
Proof. intros U K G O. apply get_override_gen; auto. Qed.

(** The key without participant, if it is not combined with one that matches. *)
Lemma get_override_base {T} (conv : V -> option T) a pre p d v :
  unique a -> In p known_participants -> good_overrides pre p a ->
  (forall k w, entry a k w -> prefix pre k = true -> k = pre \/ prefix (pre ++ ":") k = true \/ prefix (pre ++ "_") k = true) ->
  entry a pre v -> (forall w, ~ overridden pre p a w) ->
  get_override conv a pre (pre ++ ":" ++ p) d = match conv v with Some x => x | None => d end.
Proof.
  intros U KP [G1 G2] OO E N. unfold get_override.
  destruct (find _ a) as [[k w]|] eqn:F.
  - apply find_some in F as [I F]. cbn [fst] in F. destruct (Nat.ltb _ _) eqn:L; [discriminate|]. apply Nat.ltb_ge in L.
    unfold startswith in F. destruct (prefix_exists _ _ F) as (b & B).
    assert (P : prefix pre k = true).
    { clear -L B. revert k L B. induction pre as [|c pr IH]; intros k L B; [destruct k; auto|].
      destruct k as [|c' k]; [cbn in L; lia|]. cbn in *. inversion B; subst. destruct (ascii_dec c' c'); [|congruence].
      apply IH; [lia|auto]. }
    destruct (OO k w I P) as [->|[Q|Q]].
    + rewrite (unique_entry a _ _ _ U I E). auto.
    + destruct (G1 k w I Q) as (q & KQ & ->). rewrite prefix_cancel in F. cbn in F. exfalso. apply (N w). exists q. split; auto.
      apply known_prefix; auto.
    + destruct (prefix_exists _ _ Q) as (c & ->). rewrite !append_assoc, prefix_cancel in F. discriminate F.
  - apply (find_none _ _ F) in E. cbn [fst] in E. rewrite Nat.ltb_irrefl in E. unfold startswith in E.
    rewrite prefix_app in E. discriminate.
Qed.

Lemma has_override_iff a pre : has_override a pre = true <-> exists k v, entry a k v /\ prefix pre k = true.
Proof.
  unfold has_override. rewrite existsb_exists. split.
  - intros ([k v] & I & H). eauto.
  - intros (k & v & I & H). exists (k, v). auto.
Qed.

Lemma pass_type_spec p s : In p known_participants -> s <> "bus_lane" ->
  (match pass_type p s with Some b => b | None => false end = true) <-> inferred s p.
Proof.
  intros K NB. unfold pass_type.
  assert (VP := known_vehicle p K).
  assert (EP : prefix "vehicle:emergency" p = true <-> p = "vehicle:emergency").
  { split; [|intros ->; reflexivity]. intros H. cbn in K.
    repeat (destruct K as [<-|K]; [try reflexivity; discriminate H|]). destruct K. }
  assert (BP : prefix "bicycle" p = true <-> p = "bicycle").
  { split; [|intros ->; reflexivity]. intros H. cbn in K.
    repeat (destruct K as [<-|K]; [try reflexivity; discriminate H|]). destruct K. }
  assert (PP : prefix "pedestrian" p = true <-> p = "pedestrian").
  { split; [|intros ->; reflexivity]. intros H. cbn in K.
    repeat (destruct K as [<-|K]; [try reflexivity; discriminate H|]). destruct K. }
  unfold inferred. unfold participants_table. cbn [find fst].
  repeat (match goal with |- context [String.eqb ?x s] => destruct (String.eqb_spec x s) as [<-|?] end;
   [unfold startswith; cbn [existsb]; rewrite ?orb_false_r, ?orb_true_iff, ?VP, ?EP, ?BP, ?PP; cbn [In];
    intuition (try discriminate; try congruence)|]).
  cbn [In]. intuition (try discriminate; try congruence).
Qed.

Lemma pass_attrs_spec p a :
  unique a -> In p known_participants -> good_overrides "participant" p a -> only_overrides "participant" a ->
  attr_string as_string a "subtype" "" <> "bus_lane" ->
  pass_attrs as_string as_bool p a = true <-> may_use as_string as_bool p a.
Proof.
  intros U K G O NB. unfold pass_attrs, may_use.
  destruct (has_override a "participant") eqn:H.
  - apply has_override_iff in H as (k & v & E & P). assert (P' := O k v E P).
    destruct (prefix_exists _ _ P') as (q & ->). rewrite append_assoc in E.
    assert (X := get_override_spec as_bool a "participant" p false U K G O true).
    change ("participant" ++ ":" ++ p) with ("participant:" ++ p) in X. rewrite X. split.
    + intros [(w & W & [B|[_ B]])|[_ B]]; try discriminate. left. split; [exists q, v; exact E|eauto].
    + intros [[_ (w & W & B)]|[A _]]; eauto. destruct (A q v). exact E.
  - assert (A : forall q, absent a ("participant:" ++ q)).
    { intros q v E. assert (has_override a "participant" = true); [|congruence].
      apply has_override_iff. exists ("participant:" ++ q), v. split; auto. }
    rewrite pass_type_spec by auto. split.
    + intros I. right. split; auto. exists (attr_string as_string a "subtype" ""). split; auto. apply tag_attr; auto.
    + intros [[(q & v & E) _]|[_ (s & T & I)]]; [destruct (A q v E)|]. apply tag_attr in T; auto. subst s. auto.
Qed.

(** Lines. *)
Definition allowed (c : change) (d : crossing) : bool :=
  match d with LeftToRight => to_right c | RightToLeft => to_left c end.
Definition opposite (d : crossing) : crossing := match d with LeftToRight => RightToLeft | RightToLeft => LeftToRight end.

Lemma table_vehicle t s d : allowed (vehicle_change t s) d = true <->
  ((t = "line_thin" \/ t = "line_thick") /\
   (s = "dashed" \/ (s = "dashed_solid" /\ d = LeftToRight) \/ (s = "solid_dashed" /\ d = RightToLeft))).
Proof.
  unfold vehicle_change, table_change. cbn [find fst snd].
  repeat (match goal with |- context [String.eqb ?x t] => destruct (String.eqb_spec x t) as [<-|?] end; cbn [andb]);
  repeat (match goal with |- context [String.eqb ?x s] => destruct (String.eqb_spec x s) as [<-|?] end; cbn [andb]);
  destruct d; cbn; intuition (try discriminate; try congruence).
Qed.
Lemma table_pedestrian t s d : allowed (pedestrian_change t s) d = true <-> (t = "curbstone" /\ s = "low").
Proof.
  unfold pedestrian_change, table_change. cbn [find fst snd].
  destruct (String.eqb_spec "curbstone" t) as [<-|?], (String.eqb_spec "low" s) as [<-|?]; destruct d; cbn;
    intuition (try discriminate; try congruence).
Qed.
Lemma vehicle_none t s : vehicle_change t s = NoChange -> forall d, allowed (vehicle_change t s) d = false.
Proof. intros ->. destruct d; auto. Qed.

Lemma bicycle_change t s d :
  allowed (match vehicle_change t s with NoChange => pedestrian_change t s | c => c end) d =
  allowed (vehicle_change t s) d || allowed (pedestrian_change t s) d.
Proof.
  unfold vehicle_change, pedestrian_change, table_change. cbn [find fst snd].
  destruct (String.eqb_spec "curbstone" t) as [<-|N].
  - cbn. destruct (String.eqb "low" s), d; reflexivity.
  - cbn [andb]. destruct (String.eqb "line_thin" t), (String.eqb "line_thick" t), (String.eqb "dashed" s),
      (String.eqb "dashed_solid" s), (String.eqb "solid_dashed" s), d; reflexivity.
Qed.
Lemma change_type_spec p t s d : In p known_participants ->
  allowed (change_type t s p) d = true <-> marking_allows p t s d.
Proof.
  intros K. unfold change_type, marking_allows, startswith. assert (VP := known_vehicle p K).
  destruct (prefix "vehicle" p) eqn:PV.
  - rewrite table_vehicle. assert (covers "vehicle" p) by (apply VP; auto).
    assert (p <> "pedestrian" /\ p <> "bicycle") by (split; intros ->; discriminate). tauto.
  - assert (NV : ~ covers "vehicle" p) by (rewrite <- VP; discriminate).
    destruct (String.eqb_spec p "pedestrian") as [->|NP].
    + rewrite table_pedestrian. intuition (try discriminate; try congruence).
    + destruct (String.eqb_spec p "bicycle") as [->|NB].
      * rewrite bicycle_change, orb_true_iff, table_vehicle, table_pedestrian. tauto.
      * cbn. destruct d; cbn; intuition (try discriminate; try congruence).
Qed.

Lemma allowed_turn c d :
  allowed (match c with ToLeft => ToRight | ToRight => ToLeft | _ => c end) d = allowed c (opposite d).
Proof. destruct c, d; reflexivity. Qed.

Lemma hardcoded_spec a : unique a -> complete_override a -> forall d,
  match hardcoded_change as_bool a with
  | Some c => allowed c d = true <->
      (exists v, entry a "lane_change" v /\ as_bool v = Some true) \/
      (absent a "lane_change" /\ exists vl vr, entry a "lane_change:left" vl /\ entry a "lane_change:right" vr /\
        as_bool (match d with RightToLeft => vl | LeftToRight => vr end) = Some true)
  | None => absent a "lane_change" /\ absent a "lane_change:left" /\ absent a "lane_change:right"
  end /\ (hardcoded_change as_bool a <> None -> (exists v, entry a "lane_change" v) \/ (exists v, entry a "lane_change:right" v)).
Proof.
  intros U CO d. unfold hardcoded_change, has_attr, attr_bool.
  destruct (afind a "lane_change") as [v|] eqn:F.
  - assert (E := F). apply entry_afind in E; auto. split; [|eauto].
    assert (X : allowed (if match as_bool v with Some b => b | None => false end then Both else NoChange) d = true <-> as_bool v = Some true).
    { destruct (as_bool v) as [[|]|], d; cbn; split; congruence. }
    rewrite X. split.
    + intros B. left. eauto.
    + intros [(w & W & B)|[A _]]; [|destruct (A _ E)]. rewrite (unique_entry a _ v w U E W). auto.
  - apply afind_none in F. assert (NL : ~ exists v, entry a "lane_change" v) by (intros (v & E); destruct (F _ E)).
    destruct CO as [C|CO]; [tauto|].
    destruct (afind a "lane_change:left") as [vl|] eqn:FL.
    + assert (EL := FL). apply entry_afind in EL; auto. destruct (proj1 CO (ex_intro _ _ EL)) as (vr & ER).
      assert (FR := ER). apply entry_afind in FR; auto. rewrite FR.
      assert (X : forall c, (forall d, allowed c d = true <-> as_bool (match d with RightToLeft => vl | LeftToRight => vr end) = Some true) ->
         allowed c d = true <-> (exists v, entry a "lane_change" v /\ as_bool v = Some true) \/
          (absent a "lane_change" /\ exists vl vr, entry a "lane_change:left" vl /\ entry a "lane_change:right" vr /\
          as_bool (match d with RightToLeft => vl | LeftToRight => vr end) = Some true)).
      { intros c H. rewrite H. split.
        - intros B. right. split; auto. exists vl, vr. auto.
        - intros [(w & W & B)|[_ (l' & r' & L' & R' & B)]]; [exfalso; eauto|].
          rewrite (unique_entry a _ vl l' U EL L'), (unique_entry a _ vr r' U ER R'). auto. }
      cbn [andb]. destruct (as_bool vl) as [[|]|] eqn:BL, (as_bool vr) as [[|]|] eqn:BR; cbn [andb]; split; eauto;
        apply X; intros d'; destruct d'; cbn; rewrite ?BL, ?BR; split; congruence.
    + apply afind_none in FL. destruct (afind a "lane_change:right") as [vr|] eqn:FR.
      * apply entry_afind in FR; auto. destruct (proj2 CO (ex_intro _ _ FR)) as (vl & EL). destruct (FL _ EL).
      * apply afind_none in FR. cbn [andb]. split; auto. congruence.
Qed.

Variable lines : nat -> @ldata V.
Definition along (l : line) (d : crossing) : crossing := if l_inv l then opposite d else d.

Lemma lane_change_spec p l virt d :
  unique (lattrs lines l) -> complete_override (lattrs lines l) -> In p known_participants ->
  allowed (lane_change_type as_string as_bool lines p l virt) d = true <->
  line_allows as_string as_bool p virt (lattrs lines l) (along l d).
Proof.
  intros U CO K. unfold lane_change_type.
  assert (HS := hardcoded_spec (lattrs lines l) U CO (along l d)).
  assert (T : forall c, allowed (if l_inv l then match c with ToLeft => ToRight | ToRight => ToLeft | _ => c end else c) d =
                        allowed c (along l d)).
  { intros c. unfold along. destruct (l_inv l); [apply allowed_turn|auto]. }
  destruct (hardcoded_change as_bool (lattrs lines l)) as [c|].
  - destruct HS as [HS HN]. rewrite T, HS. unfold line_allows. split; [tauto|]. intros [H|[H|(A & B & C & _)]]; auto.
    destruct HN as [(v & E)|(v & E)]; [discriminate|destruct (A _ E)|destruct (C _ E)].
  - destruct HS as [(A & B & C) _]. set (t := attr_string as_string (lattrs lines l) "type" "").
    assert (LA : line_allows as_string as_bool p virt (lattrs lines l) (along l d) <->
      (marking_allows p t (attr_string as_string (lattrs lines l) "subtype" "") (along l d) \/ (virt = true /\ t = "virtual"))).
    { unfold line_allows. split.
      - intros [(v & E & _)|[(_ & l' & r' & E & _)|(_ & _ & _ & type & sub & T1 & T2 & H)]]; [destruct (A _ E)|destruct (B _ E)|].
        apply tag_attr in T1; auto. apply tag_attr in T2; auto. subst type sub. auto.
      - intros H. right. right. repeat (split; auto). exists t, (attr_string as_string (lattrs lines l) "subtype" "").
        repeat split; auto; apply tag_attr; auto. }
    rewrite LA. destruct (virt && String.eqb t "virtual") eqn:VT.
    + apply andb_true_iff in VT as [-> VT]. apply String.eqb_eq in VT. destruct d; cbn; tauto.
    + rewrite T, change_type_spec by auto. split; auto. intros [H|[-> H]]; auto.
      rewrite H in VT. discriminate.
Qed.

Lemma line_eqb_iff (x y : line) : line_eqb x y = true <-> x = y.
Proof.
  unfold line_eqb. rewrite andb_true_iff, Nat.eqb_eq. destruct x as [dx ix], y as [dy iy]. cbn. split.
  - intros [-> H]. apply eqb_prop in H. congruence.
  - intros E. inversion E. split; auto. apply eqb_reflx.
Qed.
Lemma linv_linv l : linv (linv l) = l.
Proof. destruct l as [d i]. unfold linv. cbn. rewrite negb_involutive. auto. Qed.
Lemma linvert_linvert (l : @lanelet V) : linvert (linvert l) = l.
Proof. destruct l. unfold linvert. cbn. rewrite negb_involutive. auto. Qed.
Lemma left_linvert (l : @lanelet V) : left_bound (linvert l) = linv (right_bound l).
Proof. unfold left_bound, right_bound. destruct l as [a b c d [|]]; cbn; rewrite ?linv_linv; auto. Qed.
Lemma right_linvert (l : @lanelet V) : right_bound (linvert l) = linv (left_bound l).
Proof. unfold left_bound, right_bound. destruct l as [a b c d [|]]; cbn; rewrite ?linv_linv; auto. Qed.
Lemma lct_linv p l virt :
  lane_change_type as_string as_bool lines p (linv l) virt =
  match lane_change_type as_string as_bool lines p l virt with ToLeft => ToRight | ToRight => ToLeft | c => c end.
Proof.
  unfold lane_change_type, linv, lattrs. cbn [l_data l_inv].
  destruct (hardcoded_change _ _) as [c|]; [destruct (l_inv l), c; reflexivity|].
  destruct (_ && _); auto. destruct (l_inv l), (change_type _ _ p); reflexivity.
Qed.
End Proofs.
