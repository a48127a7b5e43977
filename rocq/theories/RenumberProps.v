(** C116: the script make_ids_positive.py. *)
From Coq Require Import List Bool String Ascii ZArith QArith Permutation Sorted Lia.
From Verif Require Import AttrModel OsmModel BoundaryModel BoundarySpec BoundaryProofs BoundaryProps OsmSpec OsmMapModel OsmMapSpec OsmTripSpec OsmRelProofs OsmProps OsmMapProps OsmTripProofs OsmTripProps IoModel IoSpec IoProofs IoProofs2 IoProps
  RenumberModel RenumberSpec RenumberProofs.
Import ListNotations.
Local Open Scope string_scope.
Local Open Scope list_scope.

(** * New ids *)
Lemma renumber_steps {P} order (m : @mmap P) c m' c' : (forall l, Permutation (order l) l) -> distinct m -> renumber order m c = (m', c') ->
  exists s c1 c2 c3 c4 c5, m' = seen s m /\
    moved (c_points s) (map fst (m_points m)) c c1 /\ moved (c_lines s) (map fst (m_lines m)) c1 c2 /\ moved (c_polys s) (map fst (m_polys m)) c2 c3 /\
    moved (c_lanelets s) (map fst (m_lanelets m)) c3 c4 /\ moved (c_areas s) (map fst (m_areas m)) c4 c5 /\ moved (c_regs s) (map fst (m_regs m)) c5 c'.
Proof.
  intros O (D1 & D2 & D3 & D4 & D5 & D6) H. unfold renumber in H.
  destruct (make_positive (order (map fst (m_points m))) c) as [s1 c1] eqn:E1. destruct (make_positive (order (map fst (m_lines m))) c1) as [s2 c2] eqn:E2.
  destruct (make_positive (order (map fst (m_polys m))) c2) as [s3 c3] eqn:E3. destruct (make_positive (order (map fst (m_lanelets m))) c3) as [s4 c4] eqn:E4.
  destruct (make_positive (order (map fst (m_areas m))) c4) as [s5 c5] eqn:E5. destruct (make_positive (order (map fst (m_regs m))) c5) as [s6 c6] eqn:E6.
  injection H as <- <-. exists (Changes s1 s2 s3 s4 s5 s6), c1, c2, c3, c4, c5. split; [reflexivity|]. cbn [c_points c_lines c_polys c_lanelets c_areas c_regs].
  split; [|split; [|split; [|split; [|split]]]]; eapply make_positive_ok; eauto.
Qed.
(** In whatever order the layers are iterated: the map stays the same but for the ids, elements without a negative id keep theirs, and the others get consecutive numbers from the
    counter, every number once; afterwards no layer has two elements with the same id, and the counter is still above all of them. *)
Theorem C116_renumber : forall {P} order (m : @mmap P) c m' c',
  (forall l, Permutation (order l) l) -> distinct m -> closed m -> below m c -> renumber order m c = (m', c') ->
  same_but_ids m m' /\ (forall i j, In (i, j) (all_pairs m m') -> 0 <= i -> j = i)%Z /\
  (c <= c')%Z /\ Permutation (new_ids m m') (numbers c (Z.to_nat (c' - c))) /\ distinct m' /\ below m' c'.
Proof.
  intros P order m c m' c' O D C B H. destruct (renumber_steps _ _ _ _ _ O D H) as (s & c1 & c2 & c3 & c4 & c5 & -> & M1 & M2 & M3 & M4 & M5 & M6).
  assert (L := steps _ _ _ _ _ _ _ _ _ M1 M2 M3 M4 M5 M6).
  split; [apply seen_same; auto|]. split; [intros i j; eapply seen_kept; eauto|]. split; [lia|]. split; [eapply seen_new; eauto|]. split.
  - eapply seen_distinct; eauto.
  - eapply seen_below; eauto.
Qed.
Print Assumptions C116_renumber.

(** * The script *)
Section Osm.
Context {P D B : Type}.
Variables (zero_d : D) (is_zero : D -> bool) (print_id : Z -> string) (parse_id : string -> Z) (fmt : bool -> D -> string) (parse_d : string -> D).
Variables (reloc : list nat -> nat -> list nat) (origin : P) (align : list P -> list P -> bool * bool) (ring_valid : list P -> bool).
Variables (make : string -> @mreg -> bool) (locale_ok : bool) (show : error -> string) (show_load : lerror -> string) (creatable : string -> bool).
Notation oparse := (@osm_parse P D B zero_d parse_id parse_d reloc origin align ring_valid make locale_ok show show_load).
Notation owrite := (@osm_write P D B is_zero print_id fmt reloc locale_ok show creatable).

Lemma load_osm ps (w w1 : world xml B) f pr cfg m t : world_ok w -> has_extension f ".osm" -> last_for ext_of ps ".osm" oparse ->
  load (registered ps) w f pr None cfg = (Ok m, t, w1) -> files w1 = files w /\ (next_id w <= next_id w1)%Z /\ below m (next_id w1).
Proof.
  intros W E LP H. apply extension_spec in E. destruct (registered_ok ps) as (_ & _ & _ & RP). unfold load in H.
  destruct (negb (file_exists w f)); [discriminate|].
  rewrite E, (proj2 (RP ".osm" oparse) (conj (fun H : ".osm" = "" => ltac:(discriminate H)) LP)) in H. unfold load_with in H.
  destruct (oparse pr cfg w f []) as [r w'] eqn:O. destruct r as [[m0 errs]|e| |]; try discriminate.
  destruct (handle_errors ParseError errs None); try discriminate. injection H as -> _ <-.
  destruct (sget f (files w)) as [[doc|b|]|] eqn:S; try (unfold osm_parse in O; rewrite S in O; discriminate).
  destruct (C107_ids zero_d is_zero print_id parse_id fmt parse_d reloc origin align ring_valid make locale_ok show show_load creatable pr cfg w w' f doc [] m errs W
                (proj1 (content_get w f (Document doc) W) S) O)
    as (A1 & A2 & A3 & A4 & _).
  split; [auto|]. split; [auto|]. intros i I. apply A3, A4. unfold map_id. unfold key_of in I. tauto.
Qed.
Lemma seen_texts s (m : @mmap P) c c1 c2 c3 c4 c5 c' : texts_ok print_id parse_id m ->
  moved (c_points s) (map fst (m_points m)) c c1 -> moved (c_lines s) (map fst (m_lines m)) c1 c2 -> moved (c_polys s) (map fst (m_polys m)) c2 c3 ->
  moved (c_lanelets s) (map fst (m_lanelets m)) c3 c4 -> moved (c_areas s) (map fst (m_areas m)) c4 c5 -> moved (c_regs s) (map fst (m_regs m)) c5 c' ->
  (forall i, c <= i < c' -> id_ok print_id parse_id i)%Z -> texts_ok print_id parse_id (seen s m).
Proof.
  intros (T1 & T2 & T3 & T4 & T5 & T6) M1 M2 M3 M4 M5 M6 N. assert (L := steps _ _ _ _ _ _ _ _ _ M1 M2 M3 M4 M5 M6).
  assert (K : forall t keys a b k x, moved t keys a b -> (c <= a /\ b <= c')%Z -> In k keys -> text_ok print_id parse_id k x -> text_ok print_id parse_id (id_of t k) x).
  { intros t keys a b k x M R I (Q1 & Q2). split; auto. destruct (moved_cases _ _ _ _ M k I) as [[_ ->]|[_ J]]; auto. apply N. lia. }
  unfold texts_ok. cbn [m_points m_lines m_polys m_lanelets m_areas m_regs seen].
  split; [|split; [|split; [|split; [|split]]]]; intros k x I; apply seen_in in I; destruct I as (i & y & -> & -> & I).
  - eapply K; eauto; try lia. eapply in_key; eauto.
  - eapply K; eauto; try lia; [eapply in_key; eauto|apply (T2 _ _ I)].
  - eapply K; eauto; try lia; [eapply in_key; eauto|apply (T3 _ _ I)].
  - eapply K; eauto; try lia; [eapply in_key; eauto|apply (T4 _ _ I)].
  - eapply K; eauto; try lia; [eapply in_key; eauto|apply (T5 _ _ I)].
  - destruct (T6 _ _ I) as (Q1 & Q2). split.
    + eapply K; eauto; try lia. eapply in_key; eauto.
    + intros role l J. cbn in J. apply in_map_iff in J. destruct J as ([role0 l0] & [= <- <-] & J). eapply Q2; eauto.
Qed.
Lemma filter_length_le {A} (g : A -> bool) l : (List.length (filter g l) <= List.length l)%nat.
Proof. induction l as [|x l IH]; cbn; auto. destruct (g x); cbn; lia. Qed.
Lemma layer_ids {X} (same : X -> X -> Prop) l l' i : same_layer same l l' -> In i (map fst l') -> In i (map fst l).
Proof. intros (Pm & _) I. eapply Permutation_in; [apply Permutation_sym; exact Pm|auto]. Qed.
Lemma same_map_ids (m m' : @mmap P) i : same_map m m' -> map_id m' i -> map_id m i.
Proof.
  intros (A1 & A2 & A3 & A4 & A5 & A6) [I|[I|[I|[I|[I|I]]]]]; unfold map_id;
    [left|right; left|do 2 right; left|do 3 right; left|do 4 right; left|do 5 right]; eapply layer_ids; eauto.
Qed.

(** If the file can be loaded, the script writes a map that differs from it only in the ids: those which were not negative are kept, for the others there are new numbers, all different. Any
    process that loads the result gets this map, and none of its ids is negative. Only the output changes. Partial, as C34: the loaded map has to be one that can be written ([map_ok], [texts_ok]). *)
Theorem C116_script_partial : forall order ps ws (w w1 : world xml B) f out pr cfg m,
  (forall l, Permutation (order l) l) ->
  world_ok w -> (0 < next_id w)%Z -> let o := match out with None => f | Some o => o end in
  has_extension f ".osm" -> has_extension o ".osm" -> last_for ext_of ps ".osm" oparse -> last_for ext_of ws ".osm" owrite -> creatable o = true ->
  reloc_ok reloc -> is_default pr = false -> blind make ->
  load (registered ps) w f pr None cfg = (Ok m, None, w1) ->
  map_ok (fun p => option_map (as_text zero_d is_zero fmt parse_d (josm cfg)) (reverse pr p)) (forward pr) align ring_valid make m ->
  texts_ok print_id parse_id m ->
  (forall i, next_id w1 <= i < next_id w1 + Z.of_nat (List.length (all_pairs m m)) -> id_ok print_id parse_id i)%Z ->
  exists m' w' c, script order (registered ps) (registered ws) cfg w f out pr = (Ok tt, w') /\
    same_but_ids m m' /\ (forall i j, In (i, j) (all_pairs m m') -> 0 <= i -> j = i)%Z /\
    (next_id w1 <= next_id w')%Z /\ Permutation (new_ids m m') (numbers (next_id w1) (Z.to_nat (next_id w' - next_id w1))) /\
    content_is w' o c /\ only_file o w w' /\ world_ok w' /\
    forall w2 t2 cfg', world_ok w2 -> content_is w2 o c -> exists m'' w3,
      load (registered ps) w2 o pr t2 cfg' = (Ok m'', option_map (fun _ => []) t2, w3) /\ same_map m' m'' /\ (forall i, map_id m'' i -> 0 <= i)%Z.
Proof.
  intros order ps ws w w1 f out pr cfg m O W Z0 o EF EO LP LW CR RO DF BL H MO TO N.
  destruct (load_osm ps w w1 f pr cfg m None W EF LP H) as (F & LE & BE).
  assert (DI := ok_distinct _ _ _ _ _ _ MO). assert (C := ok_closed _ _ _ _ _ _ MO).
  destruct (renumber order m (next_id w1)) as [m' c'] eqn:R.
  destruct (C116_renumber order m (next_id w1) m' c' O DI C BE R) as (A1 & A2 & A3 & A4 & A5 & A6).
  destruct (renumber_steps _ _ _ _ _ O DI R) as (s & c1 & c2 & c3 & c4 & c5 & -> & M1 & M2 & M3 & M4 & M5 & M6).
  assert (NN : (c' <= next_id w1 + Z.of_nat (List.length (all_pairs m m)))%Z).
  { apply Permutation_length in A4. assert (Q : forall c n, List.length (numbers c n) = n) by (intros a n; revert a; induction n; cbn; auto).
    rewrite Q in A4. unfold new_ids in A4. rewrite map_length in A4. assert (G := filter_length_le (fun p : Z * Z => (fst p <? 0)%Z) (all_pairs m (seen s m))).
    assert (E : List.length (all_pairs m (seen s m)) = List.length (all_pairs m m)).
    { unfold all_pairs, pairs. cbn [m_points m_lines m_polys m_lanelets m_areas m_regs seen]. rewrite !seen_keys, !app_length, !combine_length, !map_length. reflexivity. }
    lia. }
  assert (MO' : map_ok (fun p => option_map (as_text zero_d is_zero fmt parse_d (josm cfg)) (reverse pr p)) (forward pr) align ring_valid make (seen s m)).
  { eapply seen_ok with (c := next_id w1); eauto. lia. }
  assert (TO' : texts_ok print_id parse_id (seen s m)).
  { eapply seen_texts; eauto. intros i I. apply N. lia. }
  set (wc := World (files w1) c').
  assert (Wc : world_ok wc) by (unfold world_ok, wc; cbn [files]; rewrite F; exact W).
  destruct (C107_osm_partial zero_d is_zero print_id parse_id fmt parse_d reloc origin align ring_valid make locale_ok show show_load creatable
              ps ws wc o pr pr cfg cfg (seen s m) None Wc EO LP LW CR RO DF MO' TO') as (w' & cc & B1 & B2 & B3 & B4 & B5 & B6).
  exists (seen s m), w', cc.
  split; [unfold script; rewrite H, R; fold o; fold wc; rewrite B1; reflexivity|].
  split; [exact A1|]. split; [exact A2|]. rewrite B5. cbn [next_id wc]. split; [exact A3|]. split; [exact A4|]. split; [exact B3|].
  split; [intros g x G; rewrite (B4 g x G); unfold content_is, wc; cbn [files]; rewrite F; reflexivity|]. split; [exact B2|].
  intros w2 t2 cfg' W2 C2.
  destruct (C107_osm_partial zero_d is_zero print_id parse_id fmt parse_d reloc origin align ring_valid make locale_ok show show_load creatable
              ps ws wc o pr pr cfg cfg' (seen s m) None Wc EO LP LW CR RO DF MO' TO') as (w'' & cc' & B1' & _ & B3' & _ & _ & B6').
  rewrite B1 in B1'. injection B1' as <-.
  assert (cc' = cc) as -> by (apply content_get in B3; auto; apply content_get in B3'; auto; congruence).
  destruct (B6' w2 t2 W2 C2) as (m'' & w3 & L1 & L2 & _). exists m'', w3. split; [exact L1|]. split; [exact L2|].
  intros i I. apply (same_map_ids _ _ _ L2) in I. unfold map_id in I. cbn [m_points m_lines m_polys m_lanelets m_areas m_regs seen] in I. rewrite !seen_keys, !in_map_iff in I.
  assert (L := steps _ _ _ _ _ _ _ _ _ M1 M2 M3 M4 M5 M6).
  assert (K : forall t keys a b k, moved t keys a b -> (next_id w1 <= a)%Z -> In k keys -> (0 <= id_of t k)%Z).
  { intros t keys a b k M Q J. destruct (moved_cases _ _ _ _ M k J) as [[? ?]|[? ?]]; lia. }
  destruct I as [I|[I|[I|[I|[I|I]]]]]; destruct I as (k & <- & I); eapply K; eauto; lia.
Qed.
(** If the input cannot be loaded, or only with errors, the script fails and no file is changed. *)
Theorem C116_failure : forall order ps ws (w w1 : world xml B) f out pr cfg r t,
  world_ok w -> has_extension f ".osm" -> last_for ext_of ps ".osm" oparse ->
  load (registered ps) w f pr None cfg = (r, t, w1) -> (forall m, r <> Ok m) ->
  exists r' w', script order (registered ps) ws cfg w f out pr = (r', w') /\ r' <> Ok tt /\ files w' = files w.
Proof.
  intros order ps ws w w1 f out pr cfg r t W E LP H N.
  assert (F : files w1 = files w).
  { apply extension_spec in E. destruct (registered_ok ps) as (_ & _ & _ & RP). unfold load in H.
    destruct (negb (file_exists w f)); [congruence|].
    rewrite E, (proj2 (RP ".osm" oparse) (conj (fun H : ".osm" = "" => ltac:(discriminate H)) LP)) in H. unfold load_with in H.
    assert (FF : files (snd (oparse pr cfg w f [])) = files w).
    { unfold osm_parse. repeat match goal with |- context [match ?x with _ => _ end] => destruct x; try reflexivity end. }
    destruct (oparse pr cfg w f []) as [x w'] eqn:O. cbn [snd] in FF.
    destruct x as [[m0 errs]|e| |]; try congruence.
    destruct (handle_errors ParseError errs None); congruence. }
  unfold script. rewrite H. destruct r as [m|e| |]; [now destruct (N m)| | |]; do 2 eexists; (split; [reflexivity|]); (split; [discriminate|exact F]).
Qed.
End Osm.
Print Assumptions C116_failure.
Print Assumptions C116_script_partial.

(** * A map *)
Definition at_abs (i : Z) : zpos := at_xy (Z.abs i).
Definition minus_with (inner : list (Z * bool)) : @mmap zpos :=
  MMap (map (fun i => (i, MPoint (if Z.eqb i (-4) then [("type", "bulb")] else []) (at_abs i))) [-4; -1; 2; 3; 5; 6]%Z)
       [(-11, MLine [("area", "no")] [3; 2] false); (-10, MLine [("type", "curb")] [-1; 2] false); (12, MLine [] [3; -1] false);
        (13, MLine [] [5; -4] false); (14, MLine [] [-4; 6; 5] false); (15, MLine [] [-4; 5] false)]%Z
       [(-20, MPoly [("area", "yes"); ("type", "x")] [-1; 2; 3])]%Z
       [(-30, MLanelet [("one_way", "no"); ("type", "lanelet")] (Bound (-10) false) (Bound 13 true) (Some (Bound 15 false)) [41; -40])]%Z
       [(-31, MArea [("type", "multipolygon")] [(-10, false); (-11, true); (12, false)] [inner] [-40])]%Z
       [(-40, MReg [("subtype", "light"); ("type", "regulatory_element")]
                   [("ref_line", [PLine 15 false; PLine (-11) false]); ("refers", [PLanelet (Some (-30)); PPoly (-20); PArea (Some (-31)); PPoint 6])]);
        (41, MReg [("subtype", "light"); ("type", "regulatory_element")] [])]%Z.
Definition minus := minus_with [(13, true); (14, true)]%Z.
Lemma minus_at l ps : positions minus l ps -> ps = map at_abs l.
Proof.
  intros F. induction F as [|j p l ps (q & Hq & <-) F IH]; auto. cbn [map]. f_equal; auto.
  cbn in Hq. repeat (destruct Hq as [[= <- <-]|Hq]; [reflexivity|]). contradiction.
Qed.
Lemma minus_ring r : In r [[LS (-10) [-1; 2] false; LS (-11) [3; 2] true; LS 12 [3; -1] false]; [LS 13 [5; -4] true; LS 14 [-4; 6; 5] true]]%Z -> ring_ok clockwise minus r.
Proof.
  intros H. split.
  - destruct H as [<-|[<-|[]]]; (split; [discriminate|]); eexists; repeat (eapply walk_cons; [reflexivity|reflexivity|]); apply walk_nil.
  - intros s t ps Rot Rev. apply rotations in Rot. destruct Rot as (k & Hk & ->). apply reversed_unique in Rev. subst t.
    split; intros Hp; apply minus_at in Hp; subst ps;
    (destruct H as [<-|[<-|[]]]; cbn in Hk; do 4 (destruct k as [|k]; [vm_compute; auto|]); lia).
Qed.
Lemma minus_ok : map_ok (fun p => option_map (as_text (0 # 1) q_zero q_fmt q_parse false) (reverse here p)) (forward here) dirs clockwise OsmTripProps.make minus.
Proof.
  unfold map_ok.
  split; [|split; [|split; [|split; [|split; [|split; [|split; [|split]]]]]]].
  - split; [|split]; cbn; try nodup. intros k x H. each H. cbn. sorted1.
  - split; [|split]; intros k x H; cbn in H; each H; cbn; sorted1.
  - cbn. nodup.
  - intros k x H. cbn in H. each H; eexists; (split; [vm_compute; reflexivity|vm_compute; reflexivity]).
  - intros k x H. cbn in H. each H; (split; [discriminate|]); (split; [intros i Hi; cbn in Hi; intuition (subst; member)|]); (split; [cbn; sorted1|]);
      intros v Hv; cbn in Hv; (repeat (destruct Hv as [Hv|Hv]; [first [discriminate Hv|injection Hv as <-; vm_compute; discriminate]|])); contradiction.
  - intros k x H. cbn in H. each H; (split; [discriminate|]); (split; [intros i Hi; cbn in Hi; intuition (subst; member)|]).
    intros v Hv. cbn in Hv. destruct Hv as [[= <-]|[[=]|[]]]. reflexivity.
  - intros k x H. cbn in H. each H. split; [|split; [|split]].
    + intros w Hw. cbn in Hw. destruct Hw as [[=]|[[= <-]|[]]]. reflexivity.
    + intros i Hi. cbn in Hi. intuition (subst; member).
    + exists (-10)%Z, false, 13%Z, true. split; auto. split; auto. split; [member|]. split; [member|].
      intros pl pr (l & Hl & Pl) (r & Hr & Pr). apply minus_at in Pl. apply minus_at in Pr. subst.
      cbn in Hl, Hr. repeat (destruct Hl as [Hl|Hl]; [try discriminate|]); [|contradiction]. injection Hl as <-.
      repeat (destruct Hr as [Hr|Hr]; [try discriminate|]); [|contradiction]. injection Hr as <-. reflexivity.
    + intros c [= <-]. exists 15%Z. split; auto. split; [discriminate|member].
  - intros k x H. cbn in H. each H. split; [|split; [|split]].
    + intros w Hw. cbn in Hw. destruct Hw as [[= <-]|[]]. reflexivity.
    + intros i Hi. cbn in Hi. intuition (subst; member).
    + exists [LS (-10) [-1; 2] false; LS (-11) [3; 2] true; LS 12 [3; -1] false]%Z. split; [|split].
      * repeat first [apply Forall2_nil|apply Forall2_cons]; eexists; (split; [cbn; eauto 10|reflexivity]).
      * apply minus_ring. cbn. auto.
      * cbn. nodup.
    + exists [[LS 13 [5; -4] true; LS 14 [-4; 6; 5] true]]%Z. split; [|split].
      * repeat first [apply Forall2_nil|apply Forall2_cons]; eexists; (split; [cbn; eauto 10|reflexivity]).
      * intros r [<-|[]]. apply minus_ring. cbn. auto.
      * cbn. nodup.
  - intros k x H. cbn in H. each H; (split; [|split; [|split; [|split]]]).
    + intros w Hw. cbn in Hw. destruct Hw as [[=]|[[= <-]|[]]]. auto.
    + exists "light". split; [cbn; auto|]. intros. reflexivity.
    + cbn. sorted1.
    + intros role l Hl. cbn in Hl. each Hl; discriminate.
    + intros role l p Hl Hp. cbn in Hl. each Hl; cbn in Hp; repeat (destruct Hp as [<-|Hp]; [cbn; eauto 12|]); contradiction.
    + intros w Hw. cbn in Hw. destruct Hw as [[=]|[[= <-]|[]]]. reflexivity.
    + exists "light". split; [cbn; auto|]. intros. reflexivity.
    + cbn. sorted1.
    + intros role l [].
    + intros role l p [].
Qed.
Lemma minus_texts : texts_ok print_Z z_parse minus.
Proof.
  assert (forall k a, id_ok print_Z z_parse k -> attrs_ok a -> text_ok print_Z z_parse k a) as T by (split; auto).
  assert (forall a, StronglySorted (fun x y => String.ltb x y = true) (map fst a) -> (forall k v, In (k, v) a -> k <> "ele" /\ no_nul k /\ no_nul v) -> attrs_ok a) as A by (split; auto).
  split; [|split; [|split; [|split; [|split]]]]; intros k x H; cbn in H; each H; try (apply T; [vm_compute; auto|]);
    try (apply A; [cbn; repeat constructor|intros a b Hab; cbn in Hab; each Hab; (split; [discriminate|split; reflexivity])]).
  all: split; [apply T; [vm_compute; auto|]; apply A; [cbn; repeat constructor|intros a b Hab; cbn in Hab; each Hab; (split; [discriminate|split; reflexivity])]|].
  all: intros role l Hl; cbn in Hl; each Hl; reflexivity.
Qed.
(** The file of this map (the loader enters the inner ring at its last line string), in a process that has given no id yet *)
Definition disk : world xml unit := snd (write (registered (osm_writers true everywhere)) (World [] 1000) "map.osm" (minus_with [(14, true); (13, true)]%Z) here None (Config false false)).
Definition positive (order : list Z -> list Z) (w : world xml unit) (f : string) (out : option string) :=
  script order (registered (osm_parsers true q_parse)) (registered (osm_writers true everywhere)) (Config false false) w f out here.
Definition load_from (w : world xml unit) (f : string) := fst (fst (load (registered (osm_parsers true q_parse)) w f here None (Config false false))).
(** Its ids are replaced in every place, in the file itself. *)
Example C116_nonvacuous : exists w1 w' m',
  load (registered (osm_parsers true q_parse)) disk "map.osm" here None (Config false false) = (Ok minus, None, w1) /\ world_ok disk /\ next_id w1 = 1000%Z /\
  blind OsmTripProps.make /\ reloc_ok deque_reloc /\ (forall l : list Z, Permutation (rev l) l) /\
  map_ok (fun p => option_map (as_text (0 # 1) q_zero q_fmt q_parse false) (reverse here p)) (forward here) dirs clockwise OsmTripProps.make minus /\
  texts_ok print_Z z_parse minus /\ (forall i, 1000 <= i < 1000 + Z.of_nat (List.length (all_pairs minus minus)) -> id_ok print_Z z_parse i)%Z /\
  positive (@rev Z) disk "map.osm" None = (Ok tt, w') /\ next_id w' = 1008%Z /\ load_from w' "map.osm" = Ok m' /\
  map fst (m_points m') = [2; 3; 5; 6; 1000; 1001]%Z /\ m_polys m' = [(1004, MPoly [("area", "yes"); ("type", "x")] [1000; 2; 3])]%Z /\
  m_lanelets m' = [(1005, MLanelet [("one_way", "no"); ("type", "lanelet")] (Bound 1002 false) (Bound 13 true) (Some (Bound 15 false)) [41; 1007])]%Z /\
  map (fun e => ar_outer (snd e)) (m_areas m') = [[(1002, false); (1003, true); (12, false)]]%Z /\
  map (fun e => re_params (snd e)) (m_regs m') =
    [[]; [("ref_line", [PLine 15 false; PLine 1003 false]); ("refers", [PLanelet (Some 1005); PPoly 1004; PArea (Some 1006); PPoint 6])]]%Z.
Proof.
  eexists. eexists. eexists. split; [vm_compute; reflexivity|]. split; [vm_compute; repeat constructor|]. split; [reflexivity|].
  split; [intros st a p p' _; reflexivity|]. split; [exact deque_reloc_ok|]. split; [intros l; apply Permutation_sym, Permutation_rev|].
  split; [exact minus_ok|]. split; [exact minus_texts|].
  split.
  { intros i I. change (Z.of_nat (List.length (all_pairs minus minus))) with 17%Z in I. assert (J : In i (numbers 1000 17)) by (apply numbers_in; lia).
    cbn in J. repeat (destruct J as [<-|J]; [vm_compute; reflexivity|]). contradiction. }
  split; [vm_compute; reflexivity|]. split; [reflexivity|]. split; [vm_compute; reflexivity|]. repeat split.
Qed.

(** * Findings *)
Definition one_doc (l : list xml) : world xml unit := World [("map.osm", Document (Elem "" [] [Elem "osm" [("version", "0.6")] l]))] 1000.
Definition rel_types (w : world xml unit) : list string :=
  match sget "map.osm" (files w) with
  | Some (Document d) => List.concat (map (fun o => List.concat (map (fun r => List.concat (map (fun t => if String.eqb (attr_value "k" t) "type" then [attr_value "v" t] else [])
                           (xall "tag" r))) (xall "relation" o))) (xall "osm" d))
  | _ => []
  end.
(** The ids need not be positive afterwards: an element with the id 0, which marks invalid ids, keeps it; so does one without an id. *)
Theorem C116_zero_refuted : exists w w' m', w = one_doc [Elem "node" [("lat", "1"); ("lon", "2")] []] /\
  positive (fun l => l) w "map.osm" None = (Ok tt, w') /\ load_from w' "map.osm" = Ok m' /\ map fst (m_points m') = [0]%Z.
Proof. eexists. eexists. eexists. split; [reflexivity|]. split; [vm_compute; reflexivity|]. split; vm_compute; reflexivity. Qed.
Print Assumptions C116_zero_refuted.
Example C116_failure_nonvacuous : fst (positive (@rev Z) disk "none.osm" None) = Throws FileNotFound /\
  files (snd (positive (@rev Z) disk "none.osm" (Some "map.osm"))) = files disk.
Proof. split; vm_compute; reflexivity. Qed.

(** The option -i is not safe: relations of types that the loader does not know are removed from the file, without a message; so are the other attributes of elements. *)
Theorem C116_inplace_refuted : exists w w', rel_types w = ["route"] /\ positive (fun l => l) w "map.osm" None = (Ok tt, w') /\ rel_types w' = [].
Proof.
  exists (one_doc [Elem "node" [("id", "-1"); ("lat", "1"); ("lon", "2"); ("user", "somebody")] [];
                   Elem "relation" [("id", "-2")] [Elem "member" [("type", "node"); ("ref", "-1"); ("role", "stop")] []; Elem "tag" [("k", "type"); ("v", "route")] []]]).
  eexists. split; [reflexivity|]. split; vm_compute; reflexivity.
Qed.
Print Assumptions C116_inplace_refuted.
