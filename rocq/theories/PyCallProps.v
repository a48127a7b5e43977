(** C122: a call from Python by keywords means what the declared signature says. *)
From Coq Require Import String List Bool Arith Lia.
From Verif Require Import PyCallModel PyCallSpec PyCallProofs.
Import ListNotations.
Local Open Scope nat_scope.
Local Open Scope list_scope.

(** For every binding and every declaration that tells the same: if the parameters in front of the keywords are given
    by position (for a method this is [self]), then the C++ function gets exactly the values that the rules of Python
    give to the parameters, and it is not called exactly if the call is illegal. *)
Theorem C122_keywords : forall {V} (sig : signature V) front (b : binding V), tells sig front b ->
  forall pos kws, front <= List.length pos -> NoDup (map fst kws) ->
    bind b pos kws <> Undefined /\
    forall slots, bind b pos kws = Bound slots <-> python_call sig pos kws slots.
Proof.
  intros V sig front b T pos kws F N. split.
  - now apply (bind_tells_defined sig front b T).
  - intros slots. now apply (bind_python sig front b T).
Qed.
Print Assumptions C122_keywords.

Ltac distinct := repeat (constructor; [cbn; intuition discriminate|]); constructor.

Lemma declared_tells : Forall (fun e => let '(_, (front, b, sig)) := e in tells sig front b) declared.
Proof.
  unfold declared. repeat (constructor; [split; [reflexivity|split; [reflexivity|cbn [map fst]; distinct]]|]). constructor.
Qed.

(** The bindings of the table behave as lanelet2_python/typings declares them. *)
Theorem C122_declared : forall name front b sig, In (name, (front, b, sig)) declared ->
  forall pos kws, front <= List.length pos -> NoDup (map fst kws) ->
    bind b pos kws <> Undefined /\
    forall slots, bind b pos kws = Bound slots <-> python_call sig pos kws slots.
Proof.
  intros name front b sig H. pose proof (proj1 (Forall_forall _ _) declared_tells _ H) as T. cbn beta iota in T.
  now apply C122_keywords.
Qed.
Print Assumptions C122_declared.

(** Values given by position only, one for each parameter, reach the C++ function unchanged, whatever the keywords. *)
Theorem C122_positional : forall {V} (b : binding V) pos, List.length pos = b_arity b -> bind b pos [] = Bound pos.
Proof. intros V. apply bind_positional. Qed.
Print Assumptions C122_positional.

(** Refuted for Origin (io.cpp:73): the third keyword is "lon" again. A call with lat and lon sets the altitude to the
    longitude, and a call with lat, lon and alt ignores alt and does the same. *)
Theorem C122_origin_refuted : forall self lat lon alt : pyval,
  bind origin_numbers [self] [("lat", lat); ("lon", lon)]%string = Bound [self; lat; lon; lon] /\
  python_call d_origin [self] [("lat", lat); ("lon", lon)]%string [self; lat; lon; Num 0] /\
  bind origin_numbers [self] [("lat", lat); ("lon", lon); ("alt", alt)]%string = Bound [self; lat; lon; lon] /\
  python_call d_origin [self] [("lat", lat); ("lon", lon); ("alt", alt)]%string [self; lat; lon; alt] /\
  bind origin_numbers [self] [("alt", alt)]%string = Refused.
Proof.
  intros s lat lon alt.
  assert (tells d_origin 1 (Binding 4 [opt "lat" (Num 0); opt "lon" (Num 0); opt "alt" (Num 0)])) as T
    by (split; [reflexivity|split; [reflexivity|cbn [map fst]; distinct]]).
  split; [reflexivity|]. split; [|split; [reflexivity|split; [|reflexivity]]].
  - apply (bind_python _ _ _ T); [cbn; lia|cbn [map fst]; distinct|reflexivity].
  - apply (bind_python _ _ _ T); [cbn; lia|cbn [map fst]; distinct|reflexivity].
Qed.
Print Assumptions C122_origin_refuted.

(** Refuted for possiblePaths and possiblePathsTowards by cost (routing.cpp:297-305): five keywords for four parameters
    also name [self], so each name stands for the parameter before. The parameters are self, lanelet, minimum cost,
    cost id, lane changes. *)
Theorem C122_possible_paths_refuted : forall graph llt cost x : pyval,
  (* allowLaneChanges sets the cost id *)
  bind possible_paths [graph; llt; cost] [("allowLaneChanges", x)]%string = Bound [graph; llt; cost; x; Num 0] /\
  python_call d_possible_paths [graph; llt; cost] [("allowLaneChanges", x)]%string [graph; llt; cost; Num 0; x] /\
  (* routingCostId sets the lane changes *)
  bind possible_paths [graph; llt; cost] [("routingCostId", x)]%string = Bound [graph; llt; cost; Bool false; x] /\
  python_call d_possible_paths [graph; llt; cost] [("routingCostId", x)]%string [graph; llt; cost; x; Bool false] /\
  (* the minimum cost can be left out *)
  bind possible_paths [graph; llt] [] = Bound [graph; llt; Num 0; Bool false; Num 0] /\
  (forall slots, ~ python_call d_possible_paths [graph; llt] [] slots) /\
  (* and cannot be given by its name *)
  bind possible_paths [graph] [("lanelet", llt); ("minRoutingCost", cost)]%string = Refused /\
  python_call d_possible_paths [graph] [("lanelet", llt); ("minRoutingCost", cost)]%string
              [graph; llt; cost; Num 0; Bool false].
Proof.
  intros g llt cost x.
  assert (tells d_possible_paths 1
            (Binding 5 [req "lanelet"; req "minRoutingCost"; opt "routingCostId" (Num 0); opt "allowLaneChanges" (Bool false)]))
    as T by (split; [reflexivity|split; [reflexivity|cbn [map fst]; distinct]]).
  split; [reflexivity|]. split; [apply (bind_python _ _ _ T); [cbn; lia|cbn [map fst]; distinct|reflexivity]|].
  split; [reflexivity|]. split; [apply (bind_python _ _ _ T); [cbn; lia|cbn [map fst]; distinct|reflexivity]|].
  split; [reflexivity|]. split.
  - intros slots H. apply (bind_python _ _ _ T) in H; [discriminate H|cbn; lia|constructor].
  - split; [reflexivity|]. apply (bind_python _ _ _ T); [cbn; lia|cbn [map fst]; distinct|reflexivity].
Qed.
Print Assumptions C122_possible_paths_refuted.

(** Refuted for loadRobust (io.cpp:78): one keyword for two parameters names the second one. The call by both names is
    undefined behaviour, the projector cannot be left out, and "filename" sets the projector. *)
Theorem C122_load_robust_refuted : forall file proj : pyval,
  bind load_robust [] [("filename", file); ("projector", proj)]%string = Undefined /\
  python_call d_load_robust [] [("filename", file); ("projector", proj)]%string [file; proj] /\
  bind load_robust [file] [] = Refused /\
  python_call d_load_robust [file] [] [file; Obj "DefaultProjector()"] /\
  bind load_robust [file] [("filename", proj)]%string = Bound [file; proj].
Proof.
  intros f p.
  assert (tells d_load_robust 0 load_projector) as T by (split; [reflexivity|split; [reflexivity|cbn [map fst]; distinct]]).
  split; [reflexivity|]. split; [apply (bind_python _ _ _ T); [cbn; lia|cbn [map fst]; distinct|reflexivity]|].
  split; [reflexivity|]. split; [apply (bind_python _ _ _ T); [cbn; lia|constructor|reflexivity]|reflexivity].
Qed.
Print Assumptions C122_load_robust_refuted.

(** Refuted for SpeedLimitInformation (traffic_rules.cpp:56-59): the function behind [__init__] does not take [self],
    so no call with an argument is accepted, whatever can be converted as long as the object itself is no number. *)
Theorem C122_speed_limit_refuted : forall (converts : list pyval -> bool) (any : list pyval -> bool) text pos kws,
  (forall rest, converts (Obj text :: rest) = false) ->
  (pos <> [] \/ kws <> []) ->
  call [(speed_limit, converts); (speed_limit_default, any)] (Obj text :: pos) kws = ArgumentError.
Proof.
  intros conv any t pos kws C N. unfold call. cbn [call_from].
  assert (bind speed_limit_default (Obj t :: pos) kws = Refused) as D.
  { unfold bind, speed_limit_default. cbn [b_arity b_keywords keyword_values filter List.length].
    replace (S (List.length pos) + List.length kws <=? 1) with false.
    - now rewrite andb_false_r.
    - symmetry. apply Nat.leb_gt. destruct pos; destruct kws; cbn [List.length]; try lia. now destruct N. }
  rewrite D. destruct (bind speed_limit (Obj t :: pos) kws) as [slots| |] eqn:E.
  - destruct (bind_prefix _ _ _ _ E) as [vs ->]. cbn [app]. now rewrite C.
  - reflexivity.
  - apply bind_undefined in E; [|cbn; lia]. destruct E as [_ [E _]]. cbn in E. lia.
Qed.
Print Assumptions C122_speed_limit_refuted.

(** Refuted for intersects3d of line strings (geometry.cpp:371-377): the tolerance cannot be left out. The overloads in
    the order in which they are tried. *)
Theorem C122_intersects3d_refuted : forall (lanelets compounds hybrids boxes lines : list pyval -> bool) a b,
  lanelets [a; b; Num 3] = false -> boxes [a; b] = false ->
  call [(intersects3d_lanelets, lanelets); (intersects3d_lines, compounds); (intersects3d_lines, hybrids);
        (intersects3d_boxes, boxes); (intersects3d_lines, lines)] [a; b] [] = ArgumentError /\
  python_call d_intersects3d_lines [a; b] [] [a; b; Num 3].
Proof.
  intros ll cs hs bs ls a b L B. split.
  - unfold call. cbn. now rewrite L, B.
  - assert (tells d_intersects3d_lines 0 (Binding 3 [req "ls1"; req "ls2"; opt "heightTolerance" (Num 3)])) as T
      by (split; [reflexivity|split; [reflexivity|cbn [map fst]; distinct]]).
    apply (bind_python _ _ _ T); [cbn; lia|constructor|reflexivity].
Qed.
Print Assumptions C122_intersects3d_refuted.

Lemma misnamed_facts : Forall (fun e => let '(_, (b, sig, k)) := e in
  NoDup (map kw_name (b_keywords b)) /\ ~ In k (map kw_name (b_keywords b)) /\ In k (map fst sig)) misnamed.
Proof.
  unfold misnamed.
  repeat (constructor; [split; [cbn [b_keywords map kw_name]; distinct|split; cbn; intuition discriminate]|]). constructor.
Qed.

(** Refuted for the names in the table: the declaration has a parameter of this name, and no call with this keyword is
    accepted by the binding. *)
Theorem C122_names_refuted : forall name b sig k, In (name, (b, sig, k)) misnamed ->
  (exists i default, nth_error sig i = Some (k, default)) /\
  forall pos kws v slots, NoDup (map fst kws) -> In (k, v) kws -> bind b pos kws <> Bound slots.
Proof.
  intros name b sig k H. pose proof (proj1 (Forall_forall _ _) misnamed_facts _ H) as F. cbn beta iota in F.
  destruct F as [N [U I]]. split.
  - apply in_map_iff in I as [[n d] [<- I]]. apply In_nth_error in I as [i I]. now exists i, d.
  - intros pos kws v slots NK K. now apply (bind_unknown b pos kws slots k v).
Qed.
Print Assumptions C122_names_refuted.

(** But for the names nine of these tell the same: with the names of the binding, or by position, the values reach the
    declared parameters. *)
Theorem C122_renamed : forall name front b sig names, In (name, (front, b, sig, names)) but_for_names ->
  forall pos kws, front <= List.length pos -> NoDup (map fst kws) ->
    bind b pos kws <> Undefined /\
    forall slots, bind b pos kws = Bound slots <-> python_call (renamed names sig) pos kws slots.
Proof.
  intros name front b sig names H.
  assert (Forall (fun e => let '(_, (front, b, sig, names)) := e in tells (renamed names sig) front b) but_for_names) as A.
  { unfold but_for_names. repeat (constructor; [split; [reflexivity|split; [reflexivity|cbn; distinct]]|]). constructor. }
  pose proof (proj1 (Forall_forall _ _) A _ H) as T. cbn beta iota in T. now apply C122_keywords.
Qed.
Print Assumptions C122_renamed.

(** Every declared call of nearest is understood as declared; besides, the number may be left out and is then 1. *)
Theorem C122_nearest : forall pos kws slots, 1 <= List.length pos -> NoDup (map fst kws) ->
  (python_call d_layer_nearest pos kws slots -> bind layer_nearest pos kws = Bound slots) /\
  (forall layer point, bind layer_nearest [layer; point] [] = Bound [layer; point; Num 1]).
Proof.
  intros pos kws slots P N. split; [|reflexivity]. intros (L & S & G & K).
  assert (tells [self; need "point"; may "n" (Num 1)] 1 layer_nearest) as T
    by (split; [reflexivity|split; [reflexivity|cbn [map fst]; distinct]]).
  apply (C122_keywords _ _ _ T pos kws P N). split; [exact L|]. split; [exact S|]. split.
  - intros i s H. destruct (G i s H) as (name & default & E & C).
    destruct i as [|[|[|i]]]; cbn in E; [| | |destruct i; discriminate]; injection E as <- <-.
    + exists "self"%string, None. split; [reflexivity|exact C].
    + exists "point"%string, None. split; [reflexivity|exact C].
    + exists "n"%string, (Some (Num 1)). split; [reflexivity|].
      destruct C as [C|[C|[_ [_ C]]]]; [left; exact C|right; left; exact C|discriminate C].
  - intros k v H. destruct (K k v H) as (i & default & I & E). exists i.
    destruct i as [|[|[|i]]]; cbn in E |- *; [| | |destruct i; discriminate]; injection E as <- <-; eexists; (split; [exact I|reflexivity]).
Qed.
Print Assumptions C122_nearest.

(** Exactly when a call is undefined behaviour: the numbers of values fit, and not all parameters in front of the
    keywords have got a value by their position. *)
Theorem C122_undefined : forall {V} (b : binding V) pos kws, List.length (b_keywords b) <= b_arity b ->
  (bind b pos kws = Undefined <->
   b_keywords b <> [] /\ List.length pos + List.length (b_keywords b) < b_arity b /\
   b_arity b <= List.length pos + List.length kws + keyword_values b /\
   List.length pos + List.length kws <= b_arity b).
Proof. intros V. apply bind_undefined. Qed.
Print Assumptions C122_undefined.

(** [graph.following(lanelet=llt)], [graph.possiblePathsMinLen(llt, 3, routingCostId=1)], [load("m.osm", projector=p)];
    an unknown name, a name that is given twice and a missing value are refused; [RoutingGraph.following(lanelet=l,
    withLaneChanges=c)] without a graph is undefined behaviour. *)
Example C122_nonvacuous :
  let graph := Obj "graph" in let llt := Obj "llt" in
  In ("RoutingGraph.following"%string, (1, llt_and_lc, d_llt_and_lc)) declared /\
  bind llt_and_lc [graph] [("lanelet"%string, llt)] = Bound [graph; llt; Bool false] /\
  python_call d_llt_and_lc [graph] [("lanelet"%string, llt)] [graph; llt; Bool false] /\
  bind possible_paths_min_len [graph; llt; Num 3] [("routingCostId"%string, Num 1)] =
    Bound [graph; llt; Num 3; Bool false; Num 1] /\
  bind load_projector [Obj "m.osm"] [("projector"%string, Obj "p")] = Bound [Obj "m.osm"; Obj "p"] /\
  bind llt_and_lc [graph; llt] [("withLaneChange"%string, Bool true)] = Refused /\
  bind llt_and_lc [graph; llt] [("lanelet"%string, llt)] = Refused /\
  bind llt_and_lc [graph] [] = Refused /\
  bind llt_and_lc [] [("lanelet", llt); ("withLaneChanges", Bool true)]%string = Undefined /\
  call [(load_origin, fun vs => match vs with [_; Obj "origin"%string] => true | _ => false end);
        (load_projector, fun _ => true)] [Obj "m.osm"] [] = Called 1 [Obj "m.osm"; Obj "DefaultProjector()"].
Proof.
  cbv zeta. split; [cbn; tauto|]. split; [reflexivity|]. split.
  - apply (C122_declared "RoutingGraph.following" 1 llt_and_lc); [cbn; tauto|cbn; lia|cbn [map fst]; distinct|reflexivity].
  - repeat split; reflexivity.
Qed.
