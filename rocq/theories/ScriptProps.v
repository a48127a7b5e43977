(** C125: the scripts that print ids and write the debug map. *)
From Coq Require Import List Bool ZArith String Sorted Permutation Lia.
From Verif Require Import TrafficModel ScriptModel ScriptSpec ScriptProofs.
Import ListNotations.
Local Open Scope string_scope.

Lemma all_told has_id m : asked has_id = None -> tells_all m (print_ids has_id m).
Proof.
  intros A. unfold print_ids. rewrite A, loop_all. unfold tells_all. cbn [fst snd]. split; [reflexivity|]. split; [|split].
  - intros name ids H. apply layer_named in H. exists (sorted_ids ids). split; [|apply sorted_lists].
    apply in_map_iff. exists (name, ids). split; [reflexivity|exact H].
  - intros l H. apply in_map_iff in H. destruct H as ([name ids] & <- & H). apply layer_named in H.
    exists name, ids, (sorted_ids ids). split; [exact H|]. split; [apply sorted_lists|reflexivity].
  - reflexivity.
Qed.

(** Without an id all ids are told, layer by layer, ... *)
Theorem C125_all m : tells m None (print_ids None m).
Proof. apply all_told. reflexivity. Qed.
Print Assumptions C125_all.

(** ... the same lines for every order in which the layers list their elements. *)
Theorem C125_order a b : same_ids a b -> print_ids None a = print_ids None b.
Proof.
  intros S. unfold print_ids. cbn.
  rewrite (sorted_perm _ _ (S _ _ _ (in_points a) (in_points b))),
    (sorted_perm _ _ (S _ _ _ (in_line_strings a) (in_line_strings b))), (sorted_perm _ _ (S _ _ _ (in_polygons a) (in_polygons b))),
    (sorted_perm _ _ (S _ _ _ (in_lanelets a) (in_lanelets b))), (sorted_perm _ _ (S _ _ _ (in_areas a) (in_areas b))),
    (sorted_perm _ _ (S _ _ _ (in_regulatory a) (in_regulatory b))). reflexivity.
Qed.
Print Assumptions C125_order.

(** An id other than 0 that is in the map is found. *)
Theorem C125_found_partial m n : n <> 0%Z -> (exists name, has m n name) -> tells m (Some n) (print_ids (Some n) m).
Proof.
  intros N (name & ids & H & I). left. unfold print_ids, asked.
  destruct (Z.eqb_spec n 0) as [E|_]; [contradiction|].
  destruct (loop_id n (named m)) as [(name' & ids' & H1 & H2 & H3)|[H1 _]].
  - exists name'. split; [|exact H3]. exists ids'. split; [apply layer_named; exact H1|exact H2].
  - exfalso. apply layer_named in H. exact (H1 _ _ H I).
Qed.
Print Assumptions C125_found_partial.

(** For an id that is not in the map the script raises instead of telling so. *)
Theorem C125_missing_refuted m n : n <> 0%Z -> (forall name, ~ has m n name) ->
  print_ids (Some n) m = ([], TypeError) /\ ~ tells m (Some n) (print_ids (Some n) m).
Proof.
  intros N H. assert (E : print_ids (Some n) m = ([], TypeError)).
  { unfold print_ids, asked. destruct (Z.eqb_spec n 0) as [E|_]; [contradiction|].
    destruct (loop_id n (named m)) as [(name & ids & H1 & H2 & _)|[_ H2]]; [|exact H2].
    exfalso. apply (H name). exists ids. split; [apply layer_named; exact H1|exact H2]. }
  split; [exact E|]. rewrite E. intros [(name & _ & X)|[_ X]]; discriminate X.
Qed.
Print Assumptions C125_missing_refuted.

(** The id 0, which the readers accept, cannot be asked for: all ids are told instead. *)
Theorem C125_zero_refuted m : tells_all m (print_ids (Some 0%Z) m) /\ ~ tells m (Some 0%Z) (print_ids (Some 0%Z) m).
Proof.
  assert (A := all_told (Some 0%Z) m eq_refl). split; [exact A|]. destruct A as (_ & _ & _ & L).
  intros [(name & _ & X)|[_ X]]; rewrite X in L; discriminate L.
Qed.
Print Assumptions C125_zero_refuted.

(** Only one layer is told for an id that several layers have. *)
Theorem C125_layers_refuted : exists m n, has m n "Points" /\ has m n "Lanelets" /\
  print_ids (Some n) m = ([FoundId n "Points"], Exit0).
Proof.
  exists (Layers [1; 7] [2] [] [7] [] [])%Z, 7%Z. split; [|split; [|reflexivity]].
  - exists [1; 7]%Z. split; [constructor|right; left; reflexivity].
  - exists [7]%Z. split; [constructor|left; reflexivity].
Qed.
Print Assumptions C125_layers_refuted.

(** The debug map is that of the graph for the participant, if the participant is given and is no train: *)
Theorem C125_debug_partial {M G D} (load : option M) (build : M -> kind -> string -> option G) (debug_map : G -> D) p d :
  create_debug load build debug_map (Some p) = Writes d <->
  In p documented /\ p <> "train" /\
  exists m k g, load = Some m /\ rules_for p = Some k /\ build m k p = Some g /\ d = debug_map g.
Proof.
  unfold create_debug. split.
  - destruct load as [m|]; [|discriminate]. unfold rules_map.
    destruct (String.eqb_spec p "vehicle") as [->|_]; [|destruct (String.eqb_spec p "bicycle") as [->|_];
      [|destruct (String.eqb_spec p "pedestrian") as [->|_]; [|destruct (String.eqb_spec p "train") as [->|_]]]];
      try (cbn; discriminate); cbn [rules_for String.eqb Ascii.eqb Bool.eqb];
      (destruct (build m _ _) as [g|] eqn:B; [|discriminate]); intros E; injection E as <-;
      (split; [cbn; auto|]); (split; [discriminate|]); eexists m, _, g; (split; [reflexivity|]); (split; [reflexivity|]);
      (split; [exact B|reflexivity]).
  - intros (H & T & m & k & g & -> & R & B & ->).
    assert (rules_map p = Some p) as ->.
    { destruct H as [<-|[<-|[<-|[<-|[]]]]]; try reflexivity. }
    rewrite R, B. reflexivity.
Qed.
Print Assumptions C125_debug_partial.

(** a train has no rules, and without the option the default is not used, although both are documented. *)
Theorem C125_debug_refuted {M G D} (m : M) (build : M -> kind -> string -> option G) (debug_map : G -> D) :
  In "train" documented /\ create_debug (Some m) build debug_map (Some "train") = NoRules /\
  create_debug (Some m) build debug_map None = Usage /\ In (in_effect None) documented.
Proof.
  split; [cbn; auto|]. split; [reflexivity|]. split; [reflexivity|]. cbn; auto.
Qed.
Print Assumptions C125_debug_refuted.

Example C125_nonvacuous :
  let m := (Layers [3; 1; 2] [5; 4] [] [9; 6] [] [8])%Z in
  print_ids None m = ([Ids "Points" [1; 2; 3]; Ids "Line Strings" [4; 5]; Ids "Polygons" []; Ids "Lanelets" [6; 9]; Ids "Areas" [];
                       Ids "Regulatory Elements" [8]], End)%Z /\
  print_ids (Some 9%Z) m = ([FoundId 9 "Lanelets"], Exit0)%Z /\ print_ids (Some 7%Z) m = ([], TypeError)%Z /\
  create_debug (M := nat) (Some 5) (fun m k p => Some (m, k, p)) (fun g => g) (Some "bicycle") = Writes (5, Bicycle, "bicycle").
Proof. cbn. repeat split; reflexivity. Qed.
