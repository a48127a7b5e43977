(** Properties of loading and writing maps by file name (C106, C107). *)
From Coq Require Import List Arith Bool String Ascii ZArith QArith Sorted Lia.
From Verif Require Import AttrModel OsmModel BoundaryModel OsmSpec OsmRelProofs OsmProps OsmMapModel OsmMapSpec OsmTripSpec OsmTripProofs OsmTripProps.
From Verif Require Import IoModel IoSpec IoProofs IoProofs2.
From Verif Require ArchiveModel ArchiveSpec ArchiveProps.
Import ListNotations.
Local Open Scope string_scope.
Local Open Scope list_scope.

(** * C106: the handler of a file *)

(** Every path has one extension, and that is the one which is looked up. *)
Theorem C106_extension : forall path e, has_extension path e <-> extension path = e.
Proof. exact extension_spec. Qed.
Print Assumptions C106_extension.

(** load: the last parser that was registered for the extension, which must not be empty, reads the file *)
Theorem C106_load : forall {X B M Pr Cfg} (ps : list (string * string * parser X B M Pr Cfg)) w f e pr t cfg, world_ok w -> has_extension f e ->
  let l := load (registered ps) w f pr t cfg in
  ((forall c, ~ content_is w f c) -> l = (Throws FileNotFound, t, w)) /\
  ((exists c, content_is w f c) -> e = "" \/ (forall p, ~ last_for ext_of ps e p) -> l = (Throws UnsupportedExtension, t, w)) /\
  (forall p, (exists c, content_is w f c) -> e <> "" -> last_for ext_of ps e p ->
     let '(r, t', w') := l in reports ParseError (fun m => m) (fst (p pr cfg w f [])) t r t' /\ w' = snd (p pr cfg w f [])).
Proof.
  intros X B M Pr Cfg ps w f e pr t cfg W E. apply extension_spec in E. subst e. cbn zeta. pose proof (file_exists_ok w f W) as FE.
  destruct (registered_ok ps) as (_ & _ & _ & R). unfold load. split; [|split].
  - intros H. destruct (file_exists w f); [destruct (proj1 FE eq_refl) as (c & C); destruct (H c C)|auto].
  - intros H N. apply FE in H. rewrite H. cbn [negb]. destruct (create_from_extension (registered ps) (extension f)) as [p|] eqn:C; [|auto].
    apply R in C as [C1 C2]. destruct N as [N|N]; [contradiction|destruct (N p C2)].
  - intros p H N L. apply FE in H. rewrite H. cbn [negb]. rewrite (proj2 (R _ p) (conj N L)). apply load_with_reports.
Qed.
Print Assumptions C106_load.
Theorem C106_load_by : forall {X B M Pr Cfg} (ps : list (string * string * parser X B M Pr Cfg)) w f n pr t cfg, world_ok w ->
  let l := load_by (registered ps) w f n pr t cfg in
  ((forall c, ~ content_is w f c) -> l = (Throws FileNotFound, t, w)) /\
  ((exists c, content_is w f c) -> (forall p, ~ last_for name_of ps n p) -> l = (Throws UnsupportedHandler, t, w)) /\
  (forall p, (exists c, content_is w f c) -> last_for name_of ps n p ->
     let '(r, t', w') := l in reports ParseError (fun m => m) (fst (p pr cfg w f [])) t r t' /\ w' = snd (p pr cfg w f [])).
Proof.
  intros X B M Pr Cfg ps w f n pr t cfg W. cbn zeta. pose proof (file_exists_ok w f W) as FE.
  destruct (registered_ok ps) as (_ & _ & R & _). unfold load_by. split; [|split].
  - intros H. destruct (file_exists w f); [destruct (proj1 FE eq_refl) as (c & C); destruct (H c C)|auto].
  - intros H N. apply FE in H. rewrite H. cbn [negb]. destruct (create (registered ps) n) as [p|] eqn:C; [|auto]. apply R in C. destruct (N p C).
  - intros p H L. apply FE in H. rewrite H. cbn [negb]. rewrite (proj2 (R _ p) L). apply load_with_reports.
Qed.
Print Assumptions C106_load_by.
(** write: whether there is a file of that name does not matter *)
Theorem C106_write : forall {X B M Pr Cfg} (ws : list (string * string * writer X B M Pr Cfg)) w f e m pr t cfg, has_extension f e ->
  let l := write (registered ws) w f m pr t cfg in
  (e = "" \/ (forall p, ~ last_for ext_of ws e p) -> l = (Throws UnsupportedExtension, t, w)) /\
  (forall p, e <> "" -> last_for ext_of ws e p ->
     let '(r, t', w') := l in reports WriteError (fun u => u) (no_value (fst (p pr cfg w f m []))) t r t' /\ w' = snd (p pr cfg w f m [])).
Proof.
  intros X B M Pr Cfg ws w f e m pr t cfg E. apply extension_spec in E. subst e. cbn zeta.
  destruct (registered_ok ws) as (_ & _ & _ & R). unfold write. split.
  - intros N. destruct (create_from_extension (registered ws) (extension f)) as [p|] eqn:C; [|auto]. apply R in C as [C1 C2].
    destruct N as [N|N]; [contradiction|destruct (N p C2)].
  - intros p N L. rewrite (proj2 (R _ p) (conj N L)). apply write_with_reports.
Qed.
Print Assumptions C106_write.
Theorem C106_write_by : forall {X B M Pr Cfg} (ws : list (string * string * writer X B M Pr Cfg)) w f n m pr t cfg,
  let l := write_by (registered ws) w f m n pr t cfg in
  ((forall p, ~ last_for name_of ws n p) -> l = (Throws UnsupportedHandler, t, w)) /\
  (forall p, last_for name_of ws n p ->
     let '(r, t', w') := l in reports WriteError (fun u => u) (no_value (fst (p pr cfg w f m []))) t r t' /\ w' = snd (p pr cfg w f m [])).
Proof.
  intros X B M Pr Cfg ws w f n m pr t cfg. cbn zeta. destruct (registered_ok ws) as (_ & _ & R & _). unfold write_by. split.
  - intros N. destruct (create (registered ws) n) as [p|] eqn:C; [|auto]. apply R in C. destruct (N p C).
  - intros p L. rewrite (proj2 (R _ p) L). apply write_with_reports.
Qed.
Print Assumptions C106_write_by.
(** supportedParsers, supportedParserExtensions, supportedWriters, supportedWriterExtensions *)
Theorem C106_available : forall {F} (l : list (string * string * F)),
  sorted_list (fun s => exists x, In x l /\ name_of x = s) (available (registered l)) /\
  sorted_list (fun s => s <> "" /\ exists x, In x l /\ ext_of x = s) (available_extensions (registered l)).
Proof. intros F l. split; [apply available_ok|apply available_extensions_ok]. Qed.
Print Assumptions C106_available.

(** Three parsers; the last one replaces the first for .osm, and the one without an extension is only found by its name. *)
Definition saying (s : string) (errs : errors) : parser unit unit string unit unit := fun _ _ w _ _ => (Ok (s, errs), w).
Definition three := [("osm_handler", ".osm", saying "osm" []); ("nameless", "", saying "none" ["e"]); ("mine", ".osm", saying "mine" ["a"; "b"]);
                     ("bin_handler", ".bin", fun _ _ w _ _ => (Throws OtherError, w))].
Definition some_files : world unit unit := World [("a", Other); ("maps.osm/a", Other); ("maps/a.b.osm", Other); ("maps/a.bin", Other); ("maps/a.txt", Other)] 7.
Example C106_nonvacuous :
  world_ok some_files /\
  map (fun f => fst (load (registered three) some_files f tt (Some ["old"]) tt)) ["a"; "maps.osm/a"; "maps/a.b.osm"; "maps/a.bin"; "maps/a.txt"; "b.osm"] =
    [(Throws UnsupportedExtension, Some ["old"]); (Throws UnsupportedExtension, Some ["old"]); (Ok "mine", Some ["a"; "b"]); (Throws OtherError, Some ["old"]);
     (Throws UnsupportedExtension, Some ["old"]); (Throws FileNotFound, Some ["old"])] /\
  fst (load (registered three) some_files "maps/a.b.osm" tt None tt) = (Throws (ParseError ["a"; "b"]), None) /\
  map (fun n => fst (load_by (registered three) some_files "a" n tt None tt)) ["osm_handler"; "nameless"; "osm"; ""] =
    [(Ok "osm", None); (Throws (ParseError ["e"]), None); (Throws UnsupportedHandler, None); (Throws UnsupportedHandler, None)] /\
  available (registered three) = ["bin_handler"; "mine"; "nameless"; "osm_handler"] /\ available_extensions (registered three) = [".bin"; ".osm"] /\
  map extension ["/a.b/c"; "/a.b/c."; ".osm"; ".."; "a/."; "a.osm/"; "a.OSM"; "x.tar.gz"] = [""; "."; ".osm"; ""; ""; ""; ".OSM"; ".gz"].
Proof. split; [repeat constructor|]. repeat split. Qed.

(** * C107: files of type .osm and .bin *)

(** What a writer leaves behind after it was called by write *)
Section Osm.
Context {P D B : Type}.
Variables (zero_d : D) (is_zero : D -> bool) (print_id : Z -> string) (parse_id : string -> Z) (fmt : bool -> D -> string) (parse_d : string -> D).
Variables (reloc : list nat -> nat -> list nat) (origin : P) (align : list P -> list P -> bool * bool) (ring_valid : list P -> bool).
Variables (make : string -> @mreg -> bool) (locale_ok : bool) (show : error -> string) (show_load : lerror -> string) (creatable : string -> bool).
Notation oparse := (@osm_parse P D B zero_d parse_id parse_d reloc origin align ring_valid make locale_ok show show_load).
Notation owrite := (@osm_write P D B is_zero print_id fmt reloc locale_ok show creatable).

(** A well-formed map that is written to a file of type .osm and loaded from it, in the same or in another process, comes back (see C34); no other
    file changes. Partial, as C34: what [map_ok] asks for. *)
Theorem C107_osm_partial : forall ps ws (w : world xml B) f pr pr' cfg cfg' m t,
  world_ok w -> has_extension f ".osm" -> last_for ext_of ps ".osm" oparse -> last_for ext_of ws ".osm" owrite -> creatable f = true ->
  reloc_ok reloc -> is_default pr' = false ->
  map_ok (fun p => option_map (as_text zero_d is_zero fmt parse_d (josm cfg)) (reverse pr p)) (forward pr') align ring_valid make m ->
  texts_ok print_id parse_id m ->
  exists w' c, write (registered ws) w f m pr t cfg = (Ok tt, option_map (fun _ => []) t, w') /\
    world_ok w' /\ content_is w' f c /\ only_file f w w' /\ next_id w' = next_id w /\
    forall w2 t2, world_ok w2 -> content_is w2 f c -> exists m' w3,
      load (registered ps) w2 f pr' t2 cfg' = (Ok m', option_map (fun _ => []) t2, w3) /\ same_map m m' /\ files w3 = files w2.
Proof.
  intros ps ws w f pr pr' cfg cfg' m t W E LP LW CR RO DF MO TO.
  destruct (C34_file_partial zero_d is_zero print_id parse_id fmt parse_d (reverse pr) (forward pr') origin align ring_valid make reloc (upload cfg) (josm cfg) m RO MO TO)
    as (fl & doc & f' & m' & A1 & A2 & A3 & A4 & A5).
  apply extension_spec in E. destruct (registered_ok ps) as (_ & _ & _ & RP). destruct (registered_ok ws) as (_ & _ & _ & RW).
  destruct (save_ok w f (Document doc) (next_id w) W) as (S1 & S2 & S3).
  exists (World (sset f (Document doc) (files w)) (next_id w)), (Document doc). split; [|split; [exact S1|split; [exact S2|split; [exact S3|split; [reflexivity|]]]]].
  - unfold write. rewrite E, (proj2 (RW ".osm" owrite) (conj (fun H : ".osm" = "" => ltac:(discriminate H)) LW)).
    unfold write_with, osm_write, to_osm_file. rewrite A1. cbn [build_write_message]. rewrite A2, CR. unfold handle_errors, save. destruct t; reflexivity.
  - intros w2 t2 W2 C2. exists m', (World (files w2) (register_ids (f_rels f') (register_ids (f_ways f') (register_ids (f_nodes f') (next_id w2))))).
    split; [|auto]. unfold load. rewrite (proj2 (file_exists_ok w2 f W2) (ex_intro _ _ C2)). cbn [negb].
    rewrite E, (proj2 (RP ".osm" oparse) (conj (fun H : ".osm" = "" => ltac:(discriminate H)) LP)).
    unfold load_with, osm_parse, osm_read, from_osm_file. apply content_get in C2; [|auto]. rewrite C2, A3, DF, A4. cbn [map app build_message].
    unfold handle_errors. destruct t2; reflexivity.
Qed.

(** No id of the document, and hence none of the loaded map, is issued again. The counter of the process is only raised as far as necessary. *)
Theorem C107_ids : forall pr cfg (w w' : world xml B) f doc errs m errs', world_ok w -> content_is w f (Document doc) ->
  oparse pr cfg w f errs = (Ok (m, errs'), w') ->
  files w' = files w /\ (next_id w <= next_id w')%Z /\ (forall i, document_id parse_id doc i -> i < next_id w')%Z /\ (forall i, map_id m i -> document_id parse_id doc i) /\
  (next_id w' = next_id w \/ document_id parse_id doc (next_id w' - 1)).
Proof.
  intros pr cfg w w' f doc errs m errs' W C H. unfold osm_parse in H. apply content_get in C; [|auto]. rewrite C in H.
  unfold osm_read in H. destruct (read zero_d parse_id parse_d true reloc doc) as [[fl es]|] eqn:R; [|discriminate].
  unfold from_osm_file in H. destruct (is_default pr); [discriminate|].
  destruct (load_map (forward pr) origin align ring_valid make fl) as [[m' es']| |] eqn:L; try discriminate. injection H as <- <- <-. cbn [files next_id].
  apply read_keyed in R. cbn zeta in R. set (osm := match xall "osm" doc with x :: _ => x | [] => Elem "" [] [] end) in R.
  destruct R as ((S1 & I1 & K1) & (S2 & I2 & K2) & (S3 & I3 & K3)).
  assert (DOC : forall i, document_id parse_id doc i <-> In i (map fst (f_nodes fl)) \/ In i (map fst (f_ways fl)) \/ In i (map fst (f_rels fl))).
  { intros i. rewrite K1, K2, K3. unfold document_id, elem_id, elems, attr_id. 
    assert (DE : forall e, negb (deleted e) = true <-> attr "action" e <> Some "delete").
    { intros e. unfold deleted. destruct (attr "action" e) as [v|]; [|split; [discriminate|auto]].
      destruct (String.eqb_spec v "delete"); cbn; split; congruence. }
    assert (ID : forall e, (match attr "id" e with Some v => parse_id v | None => 0%Z end = i) <-> match attr "id" e with Some v => parse_id v = i | None => i = 0%Z end).
    { intros e. destruct (attr "id" e); [tauto|]. split; auto. }
    split.
    - intros (o & e & t & (r & O) & T & In1 & A & EQ). unfold osm. rewrite O. apply ID in EQ. apply DE in A.
      destruct T as [<-|[<-|[<-|[]]]]; [left|right; left|right; right]; exists e; rewrite filter_In; auto.
    - intros HH. destruct (xall "osm" doc) as [|o r] eqn:O.
      + exfalso. unfold osm in HH. cbn in HH. destruct HH as [(x & [] & _)|[(x & [] & _)|(x & [] & _)]].
      + unfold osm in HH. destruct HH as [(x & X & Q)|[(x & X & Q)|(x & X & Q)]]; apply filter_In in X as [X Y]; apply ID in Q; apply DE in Y;
          [exists o, x, "node"|exists o, x, "way"|exists o, x, "relation"]; (split; [eauto|]); (split; [cbn; auto|]); auto. }
  destruct (register_ids_ok (f_nodes fl) (next_id w) S1) as (G1 & L1 & E1). set (c1 := register_ids (f_nodes fl) (next_id w)) in *.
  destruct (register_ids_ok (f_ways fl) c1 S2) as (G2 & L2 & E2). set (c2 := register_ids (f_ways fl) c1) in *.
  destruct (register_ids_ok (f_rels fl) c2 S3) as (G3 & L3 & E3). set (c3 := register_ids (f_rels fl) c2) in *.
  split; [auto|]. split; [lia|]. split; [|split].
  - intros i H. apply DOC in H as [H|[H|H]]; [apply L1 in H|apply L2 in H|apply L3 in H]; lia.
  - intros i H. apply (load_ids _ _ _ _ _ _ _ _ L) in H. apply DOC.
    destruct H as [H|[H|H]]; apply in_map_iff in H as ((k & x) & <- & H); cbn [snd]; [left; rewrite (I1 _ _ H)|right; left; rewrite (I2 _ _ H)|right; right; rewrite (I3 _ _ H)];
      apply in_map_iff; exists (k, x); auto.
  - rewrite DOC. destruct E3 as [E3|E3]; [|auto]. rewrite E3. destruct E2 as [E2|E2]; [|auto]. rewrite E2. destruct E1 as [E1|E1]; auto.
Qed.

(** Every problem of the document and of the elements in it is reported, and nothing else. *)
Theorem C107_messages : forall pr cfg (w w' : world xml B) f doc errs m errs', world_ok w -> content_is w f (Document doc) ->
  oparse pr cfg w f errs = (Ok (m, errs'), w') ->
  exists fl es es', read zero_d parse_id parse_d true reloc doc = Some (fl, es) /\ load_map (forward pr) origin align ring_valid make fl = Done (m, es') /\
    (errs' = [] <-> es = [] /\ es' = []) /\
    (forall s, In s (tl errs') <-> (exists e, In e es /\ s = ("	- " ++ show e)%string) \/ (exists e, In e es' /\ s = ("	- " ++ show_load e)%string)).
Proof.
  intros pr cfg w w' f doc errs m errs' W C H. unfold osm_parse in H. apply content_get in C; [|auto]. rewrite C in H.
  unfold osm_read in H. destruct (read zero_d parse_id parse_d true reloc doc) as [[fl es]|] eqn:R; [|discriminate].
  unfold from_osm_file in H. destruct (is_default pr); [discriminate|].
  destruct (load_map (forward pr) origin align ring_valid make fl) as [[m' es']| |] eqn:L; try discriminate. injection H as <- <- <-.
  exists fl, es, es'. split; [auto|]. split; [auto|]. destruct (build_message_ok "Errors ocurred while parsing Lanelet Map:" (map show es ++ map show_load es')) as [M1 M2]. split.
  - rewrite M1. destruct es as [|e es], es' as [|e' es']; cbn; split; try discriminate; try tauto; intros [A B']; discriminate.
  - intros s. rewrite M2, map_app, !map_map, in_app_iff, !in_map_iff. split; (intros [(e & A & I)|(e & A & I)]; [left|right]; exists e; auto).
Qed.
End Osm.
Print Assumptions C107_osm_partial.
Print Assumptions C107_ids.
Print Assumptions C107_messages.

(** The same for binary files, see C97; the counter of the writing process is taken over. *)
Theorem C107_bin : forall {X Pr Cfg} rules creatable ps ws (w : world X (list ArchiveModel.token)) f (pr pr' : Pr) (cfg cfg' : Cfg) m t,
  world_ok w -> has_extension f ".bin" -> last_for ext_of ps ".bin" (bin_parse rules) -> last_for ext_of ws ".bin" (bin_write creatable) -> creatable f = true ->
  ArchiveSpec.good_heap (heap m) -> ArchiveSpec.good_layers (heap m) (source m) -> ArchiveSpec.held (heap m) (source m) -> Forall (ArchiveSpec.constructible rules (heap m)) (heap m) ->
  exists w' c, write (registered ws) w f m pr t cfg = (Ok tt, option_map (fun _ => []) t, w') /\
    world_ok w' /\ content_is w' f c /\ only_file f w w' /\ (next_id w < next_id w')%Z /\
    forall w2 t2, world_ok w2 -> content_is w2 f c -> exists m' w3,
      load (registered ps) w2 f pr' t2 cfg' = (Ok m', option_map (fun _ => []) t2, w3) /\ ArchiveSpec.copied (heap m) (source m) (objects m') (layers m') /\
      files w3 = files w2 /\ (next_id w2 <= next_id w3)%Z /\ (next_id w < next_id w3)%Z.
Proof.
  intros X Pr Cfg rules creatable ps ws w f pr pr' cfg cfg' m t W E LP LW CR G L H F.
  apply extension_spec in E. destruct (registered_ok ps) as (_ & _ & _ & RP). destruct (registered_ok ws) as (_ & _ & _ & RW).
  assert (A := fun c' => ArchiveProps.C97_round_trip (heap m) rules (source m) (next_id w) c' G L H F).
  destruct (A 0%Z) as (u & _ & _ & A1 & _).
  destruct (save_ok w f (Archive u) (next_id w + 1)%Z W) as (S1 & S2 & S3).
  exists (World (sset f (Archive u) (files w)) (next_id w + 1)), (Archive u). split; [|split; [exact S1|split; [exact S2|split; [exact S3|split; [cbn [next_id files]; lia|]]]]].
  - unfold write. rewrite E, (proj2 (RW ".bin" _) (conj (fun H : ".bin" = "" => ltac:(discriminate H)) LW)). unfold write_with, bin_write. rewrite CR, A1.
    unfold handle_errors. destruct t; reflexivity.
  - intros w2 t2 W2 C2. destruct (A (next_id w2)) as (u' & os & l' & A1' & A2 & A3). rewrite A1 in A1'. injection A1' as <-.
    exists (BMap os l'), (World (files w2) (Z.max (next_id w2) (next_id w + 1))). split; [|split; [auto|cbn [next_id files]; split; [reflexivity|lia]]].
    unfold load. rewrite (proj2 (file_exists_ok w2 f W2) (ex_intro _ _ C2)). cbn [negb].
    rewrite E, (proj2 (RP ".bin" _) (conj (fun H : ".bin" = "" => ltac:(discriminate H)) LP)). unfold load_with, bin_parse. apply content_get in C2; [|auto]. rewrite C2, A2.
    unfold handle_errors. destruct t2; reflexivity.
Qed.
Print Assumptions C107_bin.

(** * Examples and findings *)
Notation q_parse_osm := (@osm_parse zpos Q unit (0 # 1) z_parse).
Notation q_write_osm := (@osm_write zpos Q unit q_zero print_Z q_fmt deque_reloc).
Definition say (e : error) : string := "error".
Definition say_load (e : lerror) : string := match e with LProjection _ => "projection" | _ => "load error" end.
Definition here : projector zpos Q := Projector fgeo tgeo false.
Definition everywhere (s : string) : bool := true.
Definition osm_parsers locale parse := [("osm_handler", ".osm", q_parse_osm parse deque_reloc (0, 0, 0)%Z dirs clockwise make locale say say_load)].
Definition osm_writers locale (creatable : string -> bool) := [("osm_handler", ".osm", q_write_osm locale say creatable)].
Definition one_file : world xml unit := World [("other.osm", Other)] 5.

(** The map of C34 is written and loaded; the ids are registered. *)
Example C107_nonvacuous : exists w' w3,
  world_ok one_file /\ reloc_ok deque_reloc /\
  map_ok (fun p => option_map (as_text (0 # 1) q_zero q_fmt q_parse false) (reverse here p)) (forward here) dirs clockwise make trip_map /\
  texts_ok print_Z z_parse trip_map /\
  write (registered (osm_writers true everywhere)) one_file "a/map.osm" trip_map here None (Config false false) = (Ok tt, None, w') /\
  map fst (files w') = ["a/map.osm"; "other.osm"] /\
  load (registered (osm_parsers true q_parse)) w' "a/map.osm" here None (Config false false) = (Ok trip_map', None, w3) /\
  next_id w3 = 42%Z /\
  load (registered (osm_parsers true q_parse)) w' "other.osm" here None (Config false false) =
    (Throws (ParseError ["Errors occured while parsing osm file"]), None, w') /\
  load (registered (osm_parsers true q_parse)) w' "a/map.osm" (Projector (fun g => let '(x, y, z) := g in if Qle_bool 5 y then None else fgeo g) tgeo false) (Some []) (Config false false) =
    (let '(r, _, w) := load (registered (osm_parsers true q_parse)) w' "a/map.osm" (Projector (fun g => let '(x, y, z) := g in if Qle_bool 5 y then None else fgeo g) tgeo false) (Some []) (Config false false)
     in (r, Some ("Errors ocurred while parsing Lanelet Map:" :: repeat "	- projection" 1 ++ repeat "	- load error" 6), w)).
Proof.
  eexists. eexists. split; [repeat constructor|]. split; [exact deque_reloc_ok|]. destruct C34_nonvacuous as (_ & _ & A & B & _). split; [exact A|]. split; [exact B|].
  split; [vm_compute; reflexivity|]. split; [reflexivity|]. split; [vm_compute; reflexivity|]. split; [reflexivity|]. split; [vm_compute; reflexivity|]. vm_compute. reflexivity.
Qed.

(** The warning about the decimal point of the locale is lost: osm::read assigns its own errors to the list that holds it, and buildErrorMessage clears
    it. With a comma, 1.125 is read as 1: the map is loaded with wrong coordinates, and neither load nor write has a message or throws. *)
Definition comma (s : string) : Q :=
  q_parse ((fix until s := match s with EmptyString => EmptyString | String c r => if Ascii.eqb c "." then EmptyString else String c (until r) end) s).
Definition two_points (x : Z) : @mmap zpos := MMap [(1, MPoint [] (8, 0, 3)); (2, MPoint [] (x, 1, 3))]%Z [(10%Z, MLine [] [1; 2]%Z false)] [] [] [] [].
Theorem C107_locale_refuted : exists w' w3,
  write (registered (osm_writers false everywhere)) one_file "a/map.osm" (two_points 15) here None (Config false false) = (Ok tt, None, w') /\
  load (registered (osm_parsers false comma)) w' "a/map.osm" here None (Config false false) = (Ok (two_points 8), None, w3).
Proof. eexists. eexists. split; vm_compute; reflexivity. Qed.
Print Assumptions C107_locale_refuted.

(** Without a pointer for messages write throws WriteError, if something could not be written, but only after the file was replaced by what could be written. *)
Definition half : projector zpos Q := Projector fgeo (fun p => let '(x, y, z) := p in if Z.ltb 3 x then None else tgeo p) false.
Theorem C107_replaced_refuted : exists e w', let w := World [("map.osm", Document (Elem "" [] []))] 5 in
  write (registered (osm_writers true everywhere)) w "map.osm" trip_map half None (Config false false) = (Throws (WriteError e), None, w') /\
  ~ content_is w' "map.osm" (Document (Elem "" [] [])).
Proof. eexists. eexists. split; [vm_compute; reflexivity|]. intros H. cbn in H. destruct H as [H|[]]. discriminate H. Qed.
Print Assumptions C107_replaced_refuted.

(** A file that can not be created is reported as an error of parsing, by both writers. *)
Theorem C107_class_refuted : exists e e',
  write (registered (osm_writers true (fun _ => false))) one_file "map.osm" trip_map here None (Config false false) = (Throws (ParseError e), None, one_file) /\
  forall (w : world xml (list ArchiveModel.token)) m, write (registered [("bin_handler", ".bin", @bin_write xml unit unit (fun _ => false))]) w "map.bin" m tt None tt = (Throws (ParseError e'), None, w).
Proof. eexists. eexists. split; [vm_compute; reflexivity|]. intros w m. reflexivity. Qed.
Print Assumptions C107_class_refuted.

(** With a default origin nothing is loaded from a document, but the error is not the documented one; the writer does not mind, nor does anything the binary format. *)
Theorem C107_origin_refuted : exists w', let nowhere := Projector fgeo tgeo true in
  write (registered (osm_writers true everywhere)) one_file "map.osm" trip_map nowhere None (Config false false) = (Ok tt, None, w') /\
  load (registered (osm_parsers true q_parse)) w' "map.osm" nowhere None (Config false false) = (Throws IOError, None, w').
Proof. eexists. split; [vm_compute; reflexivity|]. vm_compute. reflexivity. Qed.
Print Assumptions C107_origin_refuted.
