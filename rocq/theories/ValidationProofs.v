(** Proofs about the checks of a map. *)
From Coq Require Import List Arith Bool String Ascii ZArith Reals Lia Lra Sorting.Sorted OrderedTypeEx.
From Verif Require Import AttrModel ValidationModel ValidationSpec.
Import ListNotations.
Open Scope string_scope.
Open Scope list_scope.

(** * Strings *)

Lemma prefix_begins w s : prefix w s = true <-> begins s w.
Proof.
  split.
  - revert s. induction w as [|c w IH]; intros s H.
    + exists s. reflexivity.
    + destruct s as [|d s]; [discriminate|]. cbn in H.
      destruct (ascii_dec c d) as [->|]; [|discriminate].
      destruct (IH _ H) as [r ->]. exists r. reflexivity.
  - intros [r ->]. induction w as [|c w IH]; [now destruct r|]. cbn.
    destruct (ascii_dec c c); [exact IH|contradiction].
Qed.

Lemma existsb_begins s l : existsb (fun k => starts_with s k) l = true <-> exists w, In w l /\ begins s w.
Proof.
  rewrite existsb_exists. split; intros (w & Hw & H); exists w; split; auto; now apply prefix_begins.
Qed.

Lemma string_lt_spec a b : string_lt a b = true <-> String_as_OT.lt a b.
Proof.
  rewrite <- String_as_OT.cmp_lt. unfold string_lt, String_as_OT.cmp.
  destruct (String.compare a b); split; congruence.
Qed.

Lemma string_lt_irrefl a : string_lt a a = false.
Proof. destruct (string_lt a a) eqn:E; auto. apply string_lt_spec in E. exfalso.
  exact (String_as_OT.lt_not_eq _ _ E eq_refl). Qed.

Lemma string_lt_trans a b c : string_lt a b = true -> string_lt b c = true -> string_lt a c = true.
Proof. rewrite !string_lt_spec. apply String_as_OT.lt_trans. Qed.

Lemma string_lt_total a b : string_lt a b = false -> string_lt b a = false -> a = b.
Proof.
  unfold string_lt. rewrite (String.compare_antisym b a).
  destruct (String.compare a b) eqn:E; cbn; try congruence. intros _ _. now apply String.compare_eq_iff.
Qed.

(** * Binary search *)

Fixpoint ascending (l : list string) : bool :=
  match l with
  | a :: ((b :: _) as r) => string_lt a b && ascending r
  | _ => true
  end.

Lemma ascending_nth l : ascending l = true ->
  forall i j, i < j -> j < List.length l -> string_lt (nth i l "") (nth j l "") = true.
Proof.
  induction l as [|a l IH]; intros H i j Hij Hj; [cbn in Hj; lia|].
  destruct l as [|b l]; [cbn in Hj; lia|].
  cbn [ascending] in H. apply andb_true_iff in H. destruct H as [Hab H].
  specialize (IH H).
  destruct j as [|j]; [lia|]. cbn in Hj.
  destruct i as [|i].
  - destruct j as [|j]; [exact Hab|].
    apply string_lt_trans with b; [exact Hab|].
    apply (IH 0 (S j)); cbn; lia.
  - apply (IH i j); cbn; lia.
Qed.

(** The position delivered: everything before is smaller, everything from there on in
    the range is not. *)
Lemma lower_bound_spec v l : ascending l = true ->
  forall fuel first len, len <= fuel -> first + len <= List.length l ->
  let i := lower_bound fuel first len v l in
  first <= i <= first + len
  /\ (forall k, first <= k < i -> string_lt (nth k l "") v = true)
  /\ (forall k, i <= k < first + len -> string_lt (nth k l "") v = false).
Proof.
  intros Hl. induction fuel as [|f IH]; intros first len Hf Hlen.
  - cbn. repeat split; intros; lia.
  - cbn [lower_bound]. destruct len as [|len].
    + repeat split; intros; lia.
    + assert (Hh : Nat.div2 (S len) < S len) by (apply Nat.lt_div2; lia).
      set (h := Nat.div2 (S len)) in *.
      destruct (string_lt (nth (first + h) l "") v) eqn:E.
      * destruct (IH (S (first + h)) (S len - h - 1)) as (H1 & H2 & H3); [lia|lia|].
        set (i := lower_bound f (S (first + h)) (S len - h - 1) v l) in *. cbn zeta.
        split; [lia|]. split.
        -- intros k Hk. destruct (Nat.lt_ge_cases (first + h) k); [apply H2; lia|].
           destruct (Nat.eq_dec k (first + h)) as [->|]; [exact E|].
           eapply string_lt_trans; [|exact E]. apply ascending_nth; auto; lia.
        -- intros k Hk. apply H3; lia.
      * destruct (IH first h) as (H1 & H2 & H3); [lia|lia|].
        set (i := lower_bound f first h v l) in *. cbn zeta.
        split; [lia|]. split; [exact H2|].
        intros k Hk. destruct (Nat.lt_ge_cases k (first + h)); [apply H3; lia|].
        destruct (Nat.eq_dec k (first + h)) as [->|]; [exact E|].
        destruct (string_lt (nth k l "") v) eqn:E'; [|reflexivity].
        rewrite <- E. symmetry. eapply string_lt_trans; [|exact E']. apply ascending_nth; auto; lia.
Qed.

Lemma binary_search_in v l : ascending l = true -> binary_search v l = true <-> In v l.
Proof.
  intros Hl. unfold binary_search.
  destruct (lower_bound_spec v l Hl (List.length l) 0 (List.length l)) as (H1 & H2 & H3); [lia|lia|].
  set (i := lower_bound (List.length l) 0 (List.length l) v l) in *.
  rewrite andb_true_iff, Nat.ltb_lt, negb_true_iff. split.
  - intros [Hi Hv]. rewrite <- (string_lt_total _ _ (H3 i ltac:(lia)) Hv). now apply nth_In.
  - intros Hin. destruct (In_nth _ _ "" Hin) as (k & Hk & <-).
    assert (Hik : i <= k).
    { destruct (Nat.lt_ge_cases k i) as [Hki|]; [|assumption].
      specialize (H2 k ltac:(lia)). rewrite string_lt_irrefl in H2. discriminate. }
    split; [lia|].
    destruct (Nat.eq_dec i k) as [->|]; [apply string_lt_irrefl|].
    exfalso. assert (E := ascending_nth l Hl i k ltac:(lia) Hk).
    rewrite (H3 i ltac:(lia)) in E. discriminate.
Qed.

(** * Tags *)

Lemma in_unless {A} (b : bool) (x y : A) : In x (if b then [] else [y]) <-> b = false /\ y = x.
Proof. destruct b; cbn; intuition congruence. Qed.

Lemma unknown_tags_in m i : In i (unknown_tags m) <->
  exists p e k v, In e (of_kind p m) /\ In (k, v) (t_attrs e)
    /\ (forall w, In w (key_words p) -> ~ begins k w)
    /\ i = Issue Warning p (t_id e) ("attribute " ++ k ++ " is not a known lanelet2 tag.")%string.
Proof.
  assert (G : forall p l, In i (flat_map (fun e => check_known_tags (t_attrs e) (key_words p) (t_id e) p) l) <->
    exists e k v, In e l /\ In (k, v) (t_attrs e) /\ (forall w, In w (key_words p) -> ~ begins k w)
      /\ i = Issue Warning p (t_id e) ("attribute " ++ k ++ " is not a known lanelet2 tag.")%string).
  { intros p l. rewrite in_flat_map. split.
    - intros (e & He & H). unfold check_known_tags in H. apply in_flat_map in H.
      destruct H as ([k v] & Hkv & H). apply in_unless in H. destruct H as [H <-]. cbn [fst] in *.
      exists e, k, v. repeat split; auto. intros w Hw Hb.
      assert (existsb (fun k0 => starts_with k k0) (key_words p) = true) by (apply existsb_begins; eauto). congruence.
    - intros (e & k & v & He & Hkv & Hw & ->). exists e. split; [exact He|].
      unfold check_known_tags. apply in_flat_map. exists (k, v). split; [exact Hkv|].
      apply in_unless. split; [|reflexivity]. cbn [fst].
      destruct (existsb _ _) eqn:E; [|reflexivity]. apply existsb_begins in E.
      destruct E as (w & Hin & Hb). exfalso. eapply Hw; eauto. }
  unfold unknown_tags. rewrite !in_app_iff.
  rewrite (G PPoint (m_points m)), (G PLineString (m_lines m)), (G PLanelet (m_lanelets m)),
    (G PArea (m_areas m)), (G PRegulatoryElement (m_regelems m)).
  split.
  - intros [H|[H|[H|[H|H]]]]; destruct H as (e & k & v & H).
    + now exists PPoint, e, k, v.
    + now exists PLineString, e, k, v.
    + now exists PLanelet, e, k, v.
    + now exists PArea, e, k, v.
    + now exists PRegulatoryElement, e, k, v.
  - intros (p & e & k & v & H). destruct p; cbn [of_kind] in H; try (now destruct H as [[] _]); eauto 10.
Qed.

Lemma find_attr_tag k a : find_attr k a = tag k a.
Proof.
  unfold tag. induction a as [|[k' v] a IH]; [reflexivity|].
  cbn. destruct (String.eqb k k'); [reflexivity|exact IH].
Qed.

Lemma tag_none k a : tag k a = None <-> forall v, ~ In (k, v) a.
Proof.
  unfold tag. induction a as [|[k' v'] a IH]; cbn; [intuition|].
  destruct (String.eqb_spec k k') as [->|Hk]; cbn.
  - split; [discriminate|]. intros H. exfalso. apply (H v'). now left.
  - rewrite IH. split.
    + intros H v [E|E]; [inversion E; congruence|now apply (H v)].
    + intros H v Hv. apply (H v). now right.
Qed.

Lemma mandatory_tags_in m i : In i (mandatory_tags m) <->
  exists p e k, In e (of_kind p m) /\ In k (required p) /\ (forall v, ~ In (k, v) (t_attrs e))
    /\ i = Issue Warning p (t_id e) ("should have a " ++ k ++ " attribute.")%string.
Proof.
  assert (G : forall p l, In i (flat_map (fun e => check_mandatory_tags (t_attrs e) (required p) (t_id e) p) l) <->
    exists e k, In e l /\ In k (required p) /\ (forall v, ~ In (k, v) (t_attrs e))
      /\ i = Issue Warning p (t_id e) ("should have a " ++ k ++ " attribute.")%string).
  { intros p l. rewrite in_flat_map. split.
    - intros (e & He & H). unfold check_mandatory_tags in H. apply in_flat_map in H.
      destruct H as (k & Hk & H). rewrite find_attr_tag in H.
      destruct (tag k (t_attrs e)) eqn:E; [destruct H|]. destruct H as [<-|[]].
      exists e, k. repeat split; auto. now apply tag_none.
    - intros (e & k & He & Hk & Hv & ->). exists e. split; [exact He|].
      unfold check_mandatory_tags. apply in_flat_map. exists k. split; [exact Hk|].
      rewrite find_attr_tag, (proj2 (tag_none _ _) Hv). now left. }
  unfold mandatory_tags. rewrite !in_app_iff.
  rewrite (G PLineString (m_lines m)), (G PLanelet (m_lanelets m)), (G PArea (m_areas m)),
    (G PRegulatoryElement (m_regelems m)).
  split.
  - intros [H|[H|[H|H]]]; destruct H as (e & k & H).
    + now exists PLineString, e, k.
    + now exists PLanelet, e, k.
    + now exists PArea, e, k.
    + now exists PRegulatoryElement, e, k.
  - intros (p & e & k & H). destruct p; cbn [of_kind] in H; try (now destruct H as [[] _]); eauto 10.
    now destruct H as (_ & [] & _).
Qed.

(** ** Truth values *)

Lemma zeros_then_spec s b : zeros_then s = Some b <-> exists n, s = (zeros n ++ if b then "1" else "0")%string.
Proof.
  split.
  - revert b. induction s as [|c s IH]; intros b H; [discriminate|].
    destruct s as [|c' s].
    + cbn in H. destruct (Ascii.eqb_spec c "1") as [->|].
      * inversion H. now exists 0.
      * destruct (Ascii.eqb_spec c "0") as [->|]; inversion H. now exists 0.
    + change (zeros_then (String c (String c' s)))
        with (if Ascii.eqb c "0" then zeros_then (String c' s) else None) in H.
      destruct (Ascii.eqb_spec c "0") as [->|]; [|discriminate].
      destruct (IH _ H) as [n ->]. now exists (S n).
  - intros [n ->]. induction n as [|n IH]; [now destruct b|].
    cbn [zeros]. change ((String "0" (zeros n) ++ (if b then "1" else "0"))%string)
      with (String "0" (zeros n ++ (if b then "1" else "0"))).
    destruct (zeros n ++ (if b then "1" else "0"))%string as [|c r] eqn:E.
    + destruct n; destruct b; discriminate.
    + exact IH.
Qed.

Lemma lex_bool_spec s : (exists b, lex_bool s = Some b) <->
  exists n, In s [(zeros n ++ "0")%string; (zeros n ++ "1")%string; ("+" ++ zeros n ++ "0")%string;
                  ("+" ++ zeros n ++ "1")%string; ("-" ++ zeros n ++ "0")%string].
Proof.
  assert (Z : forall b n, exists c r, (zeros n ++ if b : bool then "1" else "0")%string = String c r
              /\ c <> "+"%char /\ c <> "-"%char).
  { intros b [|n]; destruct b; cbn; eexists; eexists; repeat split; congruence. }
  split.
  - intros [b H]. destruct s as [|c s]; [discriminate|].
    assert (D : (c = "+"%char /\ zeros_then s = Some b) \/ (c = "-"%char /\ zeros_then s = Some false)
                \/ zeros_then (String c s) = Some b).
    { destruct (ascii_dec c "+") as [->|Hp].
      - left. split; [reflexivity|]. destruct s; [discriminate|exact H].
      - destruct (ascii_dec c "-") as [->|Hm].
        + right; left. split; [reflexivity|]. destruct s as [|d s]; [discriminate|].
          cbn [lex_bool] in H. destruct (zeros_then (String d s)) as [[]|]; try discriminate. reflexivity.
        + right; right. clear - H Hp Hm. unfold lex_bool in H.
          destruct c as [[] [] [] [] [] [] [] []]; try exact H; exfalso; (now apply Hp) || (now apply Hm). }
    destruct D as [[-> D]|[[-> D]|D]]; apply zeros_then_spec in D; destruct D as [n D].
    + exists n. subst s. destruct b; cbn; auto 10.
    + exists n. subst s. cbn. auto 10.
    + exists n. rewrite D. destruct b; cbn; auto.
  - intros [n [<-|[<-|[<-|[<-|[<-|[]]]]]]].
    + exists false. destruct (Z false n) as (c & r & E & H1 & H2). cbn in E.
      assert (T := proj2 (zeros_then_spec _ false) (ex_intro _ n eq_refl)). cbn in T. rewrite E in *.
      unfold lex_bool. destruct c as [[] [] [] [] [] [] [] []]; try exact T; exfalso; (now apply H1) || (now apply H2).
    + exists true. destruct (Z true n) as (c & r & E & H1 & H2). cbn in E.
      assert (T := proj2 (zeros_then_spec _ true) (ex_intro _ n eq_refl)). cbn in T. rewrite E in *.
      unfold lex_bool. destruct c as [[] [] [] [] [] [] [] []]; try exact T; exfalso; (now apply H1) || (now apply H2).
    + exists false. assert (T := proj2 (zeros_then_spec _ false) (ex_intro _ n eq_refl)). cbn in T.
      destruct (Z false n) as (c & r & E & _). cbn in E. cbn [append]. rewrite E in *. exact T.
    + exists true. assert (T := proj2 (zeros_then_spec _ true) (ex_intro _ n eq_refl)). cbn in T.
      destruct (Z true n) as (c & r & E & _). cbn in E. cbn [append]. rewrite E in *. exact T.
    + exists false. assert (T := proj2 (zeros_then_spec _ false) (ex_intro _ n eq_refl)). cbn in T.
      destruct (Z false n) as (c & r & E & _). cbn in E. cbn [append]. rewrite E in *.
      cbn [lex_bool]. now rewrite T.
Qed.

Lemma conv_bool_spec s : (exists b, conv_bool s = Some b) <-> truth_value s.
Proof.
  unfold truth_value. rewrite <- lex_bool_spec. unfold conv_bool. split.
  - intros [b H]. destruct (lex_bool s) eqn:E; [right; eauto|left].
    destruct (String.eqb_spec s "true"); [cbn; auto|]. destruct (String.eqb_spec s "yes"); [cbn; auto|].
    destruct (String.eqb_spec s "false"); [cbn; auto 6|]. destruct (String.eqb_spec s "no"); [cbn; auto 6|].
    discriminate.
  - intros [H|[b ->]]; [|eauto].
    destruct H as [<-|[<-|[<-|[<-|[]]]]]; cbn; eauto.
Qed.

Lemma bool_tags_in m i : In i (bool_tags m) <->
  exists p e k v, p <> PPoint /\ In e (of_kind p m) /\ In (k, v) (t_attrs e)
    /\ (exists w, In w yes_no_words /\ begins k w) /\ ~ truth_value v
    /\ i = Issue Warning p (t_id e)
             ("attribute " ++ k ++ ": " ++ v ++ " should be convertible to bool, but isn't.")%string.
Proof.
  assert (G : forall p l, In i (flat_map (fun e => check_attribute (t_attrs e) (t_id e) p) l) <->
    exists e k v, In e l /\ In (k, v) (t_attrs e)
      /\ (exists w, In w yes_no_words /\ begins k w) /\ ~ truth_value v
      /\ i = Issue Warning p (t_id e)
               ("attribute " ++ k ++ ": " ++ v ++ " should be convertible to bool, but isn't.")%string).
  { intros p l. rewrite in_flat_map. split.
    - intros (e & He & H). unfold check_attribute in H. apply in_flat_map in H.
      destruct H as ([k v] & Hkv & H). cbn [fst snd] in H.
      destruct (existsb _ _) eqn:E; [|destruct H]. apply existsb_begins in E.
      destruct (conv_bool v) eqn:B; [destruct H|]. destruct H as [<-|[]].
      exists e, k, v. repeat split; auto. rewrite <- conv_bool_spec. intros [b Hb]. congruence.
    - intros (e & k & v & He & Hkv & Hw & Hb & ->). exists e. split; [exact He|].
      unfold check_attribute. apply in_flat_map. exists (k, v). split; [exact Hkv|]. cbn [fst snd].
      rewrite (proj2 (existsb_begins k bool_attributes) Hw).
      destruct (conv_bool v) eqn:B; [|now left]. exfalso. apply Hb, conv_bool_spec. eauto. }
  unfold bool_tags. rewrite !in_app_iff, !G.
  split.
  - intros [H|[H|[H|H]]]; destruct H as (e & k & v & H).
    + exists PLineString, e, k, v. split; [discriminate|exact H].
    + exists PLanelet, e, k, v. split; [discriminate|exact H].
    + exists PArea, e, k, v. split; [discriminate|exact H].
    + exists PRegulatoryElement, e, k, v. split; [discriminate|exact H].
  - intros (p & e & k & v & Hp & H). destruct p; cbn [of_kind] in H; try (now destruct H as [[] _]); eauto 10.
    contradiction.
Qed.

(** ** Values *)

(** The values restricted by a table as the model stores it. *)
Lemma check_values_in known p a id combine i :
  (forall k l, find_values k known = Some l -> ascending l = true) ->
  In i (check_known_tag_values a known id p combine) <->
  exists k v l, In (k, v) a
    /\ find_values (if combine && String.eqb k "subtype" && (if tag "type" a then true else false)
                    then "typesubtype" else k) known = Some l
    /\ ~ In v l
    /\ i = Issue Warning p id ("value " ++ v ++ " is not a known value for " ++ k)%string.
Proof.
  intros Hs. unfold check_known_tag_values. rewrite find_attr_tag, in_flat_map.
  assert (K : forall k, match (match tag "type" a with Some _ => Some "type" | None => None end) with
                        | Some t => if combine && String.eqb k "subtype" then (t ++ k)%string else k
                        | None => k end
              = (if combine && String.eqb k "subtype" && (if tag "type" a then true else false)
                 then "typesubtype" else k)).
  { intros k. destruct (tag "type" a); [|now rewrite andb_false_r]. rewrite andb_true_r.
    destruct combine; [|reflexivity]. cbn. destruct (String.eqb_spec k "subtype") as [->|]; reflexivity. }
  split.
  - intros ([k v] & Hkv & H). cbn [fst snd] in H. rewrite K in H.
    destruct (find_values _ known) as [l|] eqn:E; [|destruct H].
    apply in_unless in H. destruct H as [H <-]. exists k, v, l. repeat split; auto.
    intros Hin. apply (binary_search_in v l) in Hin; [congruence|]. eapply Hs, E.
  - intros (k & v & l & Hkv & E & Hv & ->). exists (k, v). split; [exact Hkv|]. cbn [fst snd]. rewrite K, E.
    apply in_unless. split; [|reflexivity].
    destruct (binary_search v l) eqn:B; [|reflexivity]. apply binary_search_in in B; [contradiction|eapply Hs, E].
Qed.

Ltac tables :=
  let k := fresh in let l := fresh in intros k l; cbn [find_values];
  repeat (destruct (String.eqb k _); [intros E; inversion E; subst; reflexivity|]); discriminate.

(** For the kinds other than line strings the stored tables are the allowed values. *)
Definition stored (p : primitive) : value_map :=
  match p with
  | PPoint => known_point_values | PLanelet => known_lanelet_values | PArea => known_area_values
  | PRegulatoryElement => known_regelem_values | PLineString => known_line_string_values | _ => []
  end.

Lemma stored_ascending p k l : find_values k (stored p) = Some l -> ascending l = true.
Proof.
  destruct p; cbn [stored]; revert k l; try discriminate;
    unfold known_point_values, known_lanelet_values, known_area_values, known_regelem_values,
      known_line_string_values, line_subtypes; tables.
Qed.

Lemma stored_allowed p t k : p <> PLineString ->
  (forall l, find_values k (stored p) = Some l -> exists l', allowed_values p t k = Some l' /\ forall v, In v l <-> In v l')
  /\ (forall l', allowed_values p t k = Some l' -> exists l, find_values k (stored p) = Some l /\ forall v, In v l <-> In v l').
Proof.
  intros Hp. destruct p; try contradiction; cbn [stored allowed_values];
    unfold known_point_values, known_lanelet_values, known_area_values, known_regelem_values; cbn [find_values];
    repeat match goal with |- context [String.eqb k ?s] => destruct (String.eqb k s) end;
    split; intros l H; inversion H; subst; eexists; split; try reflexivity; intros v; cbn; tauto.
Qed.

Lemma unknown_values_split m i : In i (unknown_tag_values m) <->
  exists p e, In e (of_kind p m)
    /\ In i (check_known_tag_values (t_attrs e) (stored p) (t_id e) p
               match p with PLineString => true | _ => false end).
Proof.
  unfold unknown_tag_values. rewrite !in_app_iff, !in_flat_map. split.
  - intros [H|[H|[H|[H|H]]]]; destruct H as (e & He & H).
    + now exists PPoint, e.
    + now exists PLineString, e.
    + now exists PLanelet, e.
    + now exists PArea, e.
    + now exists PRegulatoryElement, e.
  - intros (p & e & He & H). destruct p; cbn [of_kind stored] in *; try contradiction; eauto 10.
Qed.

Lemma unknown_values_in m i : i_primitive i <> PLineString ->
  (In i (unknown_tag_values m) <->
   exists p e k v, In e (of_kind p m) /\ bad_value p e k v
     /\ i = Issue Warning p (t_id e) ("value " ++ v ++ " is not a known value for " ++ k)%string).
Proof.
  intros Hi. rewrite unknown_values_split. split.
  - intros (p & e & He & H).
    apply check_values_in in H; [|apply stored_ascending].
    destruct H as (k & v & l & Hkv & E & Hv & ->). cbn [i_primitive] in Hi.
    assert (E' : find_values k (stored p) = Some l) by (destruct p; try exact E; contradiction).
    destruct (proj1 (stored_allowed p (tag "type" (t_attrs e)) k Hi) l E') as (l' & A & Hl).
    exists p, e, k, v. split; [exact He|]. split; [|reflexivity].
    split; [exact Hkv|]. exists l'. split; [exact A|]. rewrite <- Hl. exact Hv.
  - intros (p & e & k & v & He & (Hkv & l' & A & Hv) & ->). cbn [i_primitive] in Hi.
    destruct (proj2 (stored_allowed p (tag "type" (t_attrs e)) k Hi) l' A) as (l & E & Hl).
    exists p, e. split; [exact He|]. apply check_values_in; [apply stored_ascending|].
    exists k, v, l. split; [exact Hkv|]. split; [destruct p; try exact E; contradiction|].
    split; [now rewrite Hl|reflexivity].
Qed.

(** The values of line strings: only the type is looked at. *)
Definition plain_keys (e : tagged) : Prop :=
  forall t v, In ((t ++ "subtype")%string, v) (t_attrs e) -> t = "".

Lemma unknown_line_values m i : i_primitive i = PLineString ->
  (forall e, In e (m_lines m) -> plain_keys e) ->
  (In i (unknown_tag_values m) <->
   exists e v, In e (m_lines m) /\ bad_value PLineString e "type" v
     /\ i = Issue Warning PLineString (t_id e) ("value " ++ v ++ " is not a known value for type")%string).
Proof.
  intros Hi Hm. rewrite unknown_values_split. split.
  - intros (p & e & He & H).
    apply check_values_in in H; [|apply stored_ascending].
    destruct H as (k & v & l & Hkv & E & Hv & ->). cbn [i_primitive] in Hi. subst p. cbn [of_kind] in He.
    assert (T : k = "type" /\ Some l = allowed_values PLineString (tag "type" (t_attrs e)) "type").
    { destruct (String.eqb_spec k "subtype") as [->|Hk].
      - exfalso. destruct (tag "type" (t_attrs e)) eqn:T; cbn in E; discriminate.
      - cbn [andb] in E. cbn [stored] in E.
        unfold known_line_string_values in E. cbn [find_values] in E.
        destruct (String.eqb_spec k "type") as [->|].
        + split; [reflexivity|]. rewrite <- E. reflexivity.
        + exfalso.
          repeat match type of E with
            (if String.eqb k (?t ++ "subtype")%string then _ else _) = _ =>
              let K := fresh in
              destruct (String.eqb_spec k (t ++ "subtype")%string) as [K|];
              [rewrite K in Hkv; apply (Hm e He) in Hkv; discriminate|] end.
          discriminate. }
    destruct T as [-> T]. exists e, v. split; [exact He|]. split; [|reflexivity].
    split; [exact Hkv|]. exists l. split; [now rewrite <- T|exact Hv].
  - intros (e & v & He & (Hkv & l & A & Hv) & ->). exists PLineString, e. split; [exact He|].
    apply check_values_in; [apply stored_ascending|].
    exists "type", v, l. split; [exact Hkv|]. split; [exact A|]. split; [exact Hv|reflexivity].
Qed.
