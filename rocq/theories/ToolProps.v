(** C112: what lanelet2_validate prints and with which code it exits. *)
From Coq Require Import List Arith Bool String Ascii ZArith NArith Lia.
From Coq Require RIneq.
From Verif Require CostAlg GraphModel GraphProofs GraphProofs2 GraphSpec BuilderModel BuilderSpec BuilderProps ValidityModel ValiditySpec ValidityProps TrafficModel.
From Verif Require Import AttrModel ValidationModel ValidationSpec ValidationProofs ValidationProofs2 AttrProofs ToolModel ToolSpec ToolProofs.
Import ListNotations.
Open Scope string_scope.
Open Scope list_scope.

Lemma append_cancel a b s : (a ++ s)%string = (b ++ s)%string -> a = b.
Proof.
  intros H. apply (f_equal list_ascii_of_string) in H.
  assert (K : forall x y, list_ascii_of_string (x ++ y)%string = list_ascii_of_string x ++ list_ascii_of_string y).
  { induction x as [|c x IH]; intros y; [reflexivity|]. cbn. now rewrite IH. }
  rewrite !K in H. apply app_inv_tail in H. rewrite <- (string_of_list_ascii_of_string a), <- (string_of_list_ascii_of_string b). now rewrite H.
Qed.

Section Props.
Context {M G Rule : Type} (regex_ok : string -> bool) (matches : string -> string -> bool) (map_names rule_names graph_names : list string)
  (load : string -> loaded M) (create : string -> string -> option Rule) (rule_text : Rule -> string) (build : M -> Rule -> building G)
  (run_map : M -> string -> run (list issue)) (run_rules : M -> list Rule -> string -> run (list issue)) (run_graph : G -> Rule -> string -> run (list issue)).
Notation FILE := (validate_file regex_ok matches map_names rule_names graph_names load create rule_text build run_map run_rules run_graph).
Notation RUN := (run_from_config regex_ok matches map_names rule_names graph_names load create rule_text build run_map run_rules run_graph).
Notation CONTENT := (content_with matches map_names rule_names graph_names load create build run_map run_rules run_graph).

(** If the program ends by itself, the code is 0 exactly if only help or names were asked for or nothing was found in the file, and 1 otherwise. *)
Theorem C112_exit_code c f : RUN c = Value f ->
  (f_code f = 0 \/ f_code f = 1) /\
  (f_code f = 0 <-> c_help c = true \/ c_print c = true \/ (c_file c <> "" /\ CONTENT c)).
Proof.
  unfold run_from_config. destruct (c_help c); [intros [= <-]; cbn; tauto|]. destruct (c_print c).
  { intros H. apply seq_value in H as (x & _ & [= <-]). cbn. tauto. }
  destruct (String.eqb_spec (c_file c) "") as [E|E].
  - intros [= <-]. cbn. split; [auto|]. split; [discriminate|]. intros [|[|[]]]; congruence.
  - intros H. apply seq_value in H as (l & Hl & [= <-]). cbn. apply file_empty in Hl. split; [destruct l; auto|].
    rewrite <- Hl. split.
    + destruct l; [auto|discriminate].
    + intros [|[|[_ ->]]]; [discriminate|discriminate|reflexivity].
Qed.
(** The lines it prints for a file: one for each error and one for each warning, and at the end their number. *)
Theorem C112_lines c f : RUN c = Value f -> c_help c = false -> c_print c = false -> c_file c <> "" ->
  exists l, FILE c = Value l /\
    (forall t, In t (f_err f) <-> exists d i, In d l /\ In i (d_issues d) /\ i_severity i = Error /\ t = (build_text i ++ " [" ++ d_check d ++ "]")%string) /\
    exists w n, f_out f = w ++ [(print_Z (Z.of_nat n) ++ " issues found.")%string] /\ n = List.length (f_err f) + List.length w /\
    forall t, In t w <-> exists d i, In d l /\ In i (d_issues d) /\ i_severity i = Warning /\ t = (build_text i ++ " [" ++ d_check d ++ "]")%string.
Proof.
  unfold run_from_config. intros H Hh Hp Hf. rewrite Hh, Hp in H. destruct (String.eqb_spec (c_file c) ""); [congruence|]. apply seq_value in H as (l & Hl & [= <-]).
  exists l. split; [exact Hl|]. cbn [f_err f_out print_all fst snd]. destruct (report_counts l) as [E1 E2]. split.
  - intros t. rewrite E1, in_flat_map. split.
    + intros (d & Hd & Ht). apply in_map_iff in Ht as (i & <- & Hi). unfold errors in Hi. apply filter_In in Hi as [Hi S].
      exists d, i. split; [exact Hd|]. split; [exact Hi|]. split; [destruct (i_severity i); congruence|reflexivity].
    + intros (d & i & Hd & Hi & S & ->). exists d. split; [exact Hd|]. apply in_map_iff. exists i. split; [reflexivity|]. unfold errors. apply filter_In. rewrite S. auto.
  - exists (snd (build_report l)), (List.length (snd (build_report l)) + List.length (fst (build_report l))). split; [reflexivity|]. split; [lia|].
    intros t. rewrite E2, in_flat_map. split.
    + intros (d & Hd & Ht). apply in_map_iff in Ht as (i & <- & Hi). unfold warnings in Hi. apply filter_In in Hi as [Hi S].
      exists d, i. split; [exact Hd|]. split; [exact Hi|]. split; [destruct (i_severity i); congruence|reflexivity].
    + intros (d & i & Hd & Hi & S & ->). exists d. split; [exact Hd|]. apply in_map_iff. exists i. split; [reflexivity|]. unfold warnings. apply filter_In. rewrite S. auto.
Qed.
(** If no check gives issues of severity Info, the code tells whether the number is 0. *)
Theorem C112_agree_partial c f : RUN c = Value f -> c_help c = false -> c_print c = false -> c_file c <> "" ->
  (forall l i, In i l -> (exists m n, run_map m n = Value l) \/ (exists m rs n, run_rules m rs n = Value l) \/ (exists g r n, run_graph g r n = Value l) ->
     i_severity i <> Info) ->
  (f_code f = 0 <-> last (f_out f) "" = "0 issues found.").
Proof.
  unfold run_from_config. intros H Hh Hp Hf Hinfo. rewrite Hh, Hp in H. destruct (String.eqb_spec (c_file c) ""); [congruence|]. apply seq_value in H as (l & Hl & [= <-]).
  cbn [f_code f_out print_all snd]. rewrite last_last. split.
  - destruct l; [reflexivity|discriminate].
  - intros E. assert (K : l = []); [|rewrite K; reflexivity]. apply report_empty.
    + intros d Hd. destruct (file_issues _ _ _ _ _ _ _ _ _ _ _ _ _ _ _ Hl Hd) as [N K]. split; [exact N|]. intros i Hi.
      destruct K as [K|[K|[K|K]]]; [eapply Hinfo; eauto|eapply Hinfo; eauto|eapply Hinfo; eauto|]. rewrite K; [discriminate|exact Hi].
    + set (k := List.length (snd (build_report l)) + List.length (fst (build_report l))) in *.
      change "0 issues found." with (print_Z 0 ++ " issues found.")%string in E. apply append_cancel in E.
      assert (K : lex_Z 0 (Z.of_nat k) (print_Z (Z.of_nat k)) = Some (Z.of_nat k)) by (apply lex_print; lia).
      rewrite E, lex_print in K by lia. injection K as K. lia.
Qed.
(** It ends by itself if the pieces of the filter are regular expressions and all parts that it calls return. *)
Theorem C112_returns_partial c : forallb regex_ok (parse_filter (c_filter c)) = true -> c_origin_ok c = true ->
  match load (c_file c) with
  | LoadThrows => False
  | LoadError _ => True
  | Loaded m _ => exists rules,
      Forall2 (fun p r => create (c_location c) p = Some r) (c_participants c) rules /\
      (forall n, In n map_names -> selected matches (c_filter c) n -> returns (run_map m n)) /\
      (forall n, In n rule_names -> selected matches (c_filter c) n -> returns (run_rules m rules n)) /\
      (forall n r, In n graph_names -> selected matches (c_filter c) n -> In r rules ->
         build m r <> BuildCrash /\ forall g, build m r = Built g -> returns (run_graph g r n))
  end -> returns (RUN c).
Proof.
  intros Hre Ho H. unfold run_from_config. destruct (c_help c); [eexists; reflexivity|].
  destruct (c_print c); [unfold parse_checked; rewrite Hre; eexists; reflexivity|].
  destruct (String.eqb (c_file c) ""); [eexists; reflexivity|].
  assert (K : returns (FILE c)); [|destruct K as [l ->]; eexists; reflexivity].
  unfold validate_file, parse_checked. rewrite Hre, Ho. cbn [seq negb].
  destruct (load (c_file c)) as [m errs|what|]; [|eexists; reflexivity|destruct H].
  destruct H as (rules & Hru & H1 & H2 & H3).
  destruct (validate_returns regex_ok matches map_names rule_names graph_names create rule_text build run_map run_rules run_graph m c rules Hre Hru H1 H2 H3) as [l E].
  rewrite E. eexists. reflexivity.
Qed.
End Props.
Print Assumptions C112_exit_code.
Print Assumptions C112_lines.
Print Assumptions C112_agree_partial.
Print Assumptions C112_returns_partial.

(** * The program with the checks of the repository *)

Lemma warn_all {T} (f : T -> list issue) l i : In i (flat_map f l) -> (forall x, In i (f x) -> i_severity i <> Info) -> i_severity i <> Info.
Proof. intros H K. apply in_flat_map in H as (x & _ & H). eauto. Qed.
Lemma known_severity a k id p i : In i (check_known_tags a k id p) -> i_severity i <> Info.
Proof. intros H. apply (warn_all _ _ _ H). intros x. destruct (existsb _ _); [intros []|]. intros [<-|[]]. discriminate. Qed.
Lemma mandatory_severity a k id p i : In i (check_mandatory_tags a k id p) -> i_severity i <> Info.
Proof. intros H. apply (warn_all _ _ _ H). intros x. destruct (find_attr _ _); [intros []|]. intros [<-|[]]. discriminate. Qed.
Lemma values_severity a k id p b i : In i (check_known_tag_values a k id p b) -> i_severity i <> Info.
Proof.
  intros H. apply (warn_all _ _ _ H). intros x. cbv zeta. destruct (find_values _ _); [|intros []]. destruct (binary_search _ _); [intros []|].
  intros [<-|[]]. discriminate.
Qed.
Lemma attribute_severity a id p i : In i (check_attribute a id p) -> i_severity i <> Info.
Proof.
  intros H. apply (warn_all _ _ _ H). intros x. destruct (existsb _ _); [|intros []]. destruct (conv_bool _); [intros []|]. intros [<-|[]]. discriminate.
Qed.
Lemma curvature_severity id l i : In i (check_curvature id l) -> i_severity i <> Info.
Proof.
  induction l as [|p1 r IH]; [intros []|]. destruct r as [|p2 [|p3 r]]; try (intros []; fail). intros H. change (In i ((if too_curved p1 p2 p3
       then [Issue Warning PLanelet id ("Curvature at point " ++ print_Z (p_id p2) ++ " is bigger than 0.5. This can confuse algorithms using this map.")%string]
       else []) ++ check_curvature id (p2 :: p3 :: r))) in H. apply in_app_iff in H as [H|H]; [|auto].
  destruct (too_curved p1 p2 p3); [|destruct H]. destruct H as [<-|[]]. discriminate.
Qed.
(** They give no issues of severity Info. *)
Lemma own_severity m n l i : own_run_map m n = Value l -> In i l -> i_severity i <> Info.
Proof.
  unfold own_run_map. intros [= <-].
  destruct (String.eqb n _); [|destruct (String.eqb n _); [|destruct (String.eqb n _); [|destruct (String.eqb n _); [|destruct (String.eqb n _); [|destruct (String.eqb n _); [|destruct (String.eqb n _); [|intros []]]]]]]]; intros H.
  - unfold bool_tags in H. rewrite !in_app_iff in H. destruct H as [H|[H|[H|H]]]; apply (warn_all _ _ _ H); intros; eapply attribute_severity; eauto.
  - apply (warn_all _ _ _ H). intros x Hx. apply in_app_iff in Hx as [Hx|Hx]; eapply curvature_severity; eauto.
  - unfold duplicated_points in H. rewrite in_app_iff in H. destruct H as [H|H]; apply (warn_all _ _ _ H); intros x; destruct (has_duplicates _); try (intros []; fail); intros [<-|[]]; discriminate.
  - unfold mandatory_tags in H. rewrite !in_app_iff in H. destruct H as [H|[H|[H|H]]]; apply (warn_all _ _ _ H); intros; eapply mandatory_severity; eauto.
  - apply (warn_all _ _ _ H). intros x. destruct (tm_nearest m x) as [|a [|b [|]]]; try (intros []; fail). cbv zeta. destruct (RIneq.Rlt_dec _ _); [|intros []].
    intros [<-|[]]. discriminate.
  - unfold unknown_tag_values in H. rewrite !in_app_iff in H. destruct H as [H|[H|[H|[H|H]]]]; apply (warn_all _ _ _ H); intros; eapply values_severity; eauto.
  - unfold unknown_tags in H. rewrite !in_app_iff in H. destruct H as [H|[H|[H|[H|H]]]]; apply (warn_all _ _ _ H); intros; eapply known_severity; eauto.
Qed.

Section Own.
Context {A : CostAlg.CostAlg} (one : CostAlg.cost A) (costs : list (@BuilderModel.module A))
  (order : list (BuilderModel.lref * BuilderModel.lref) -> list (BuilderModel.lref * BuilderModel.lref))
  (rules_of : tool_map -> TrafficModel.kind -> BuilderModel.rules) (negative_text : string) (flaw_text : GraphModel.elem * ValidityModel.flaw -> string)
  (regex_ok : string -> bool) (matches : string -> string -> bool) (load : string -> loaded tool_map) (rule_text : TrafficModel.kind -> string).
Notation PROGRAM := (own_program one costs order rules_of negative_text flaw_text regex_ok matches load rule_text).

(** With the checks of the repository, the code tells whether issues are counted. *)
Theorem C112_own_agree fuel c f : PROGRAM fuel c = Value f -> c_help c = false -> c_print c = false -> c_file c <> "" ->
  (f_code f = 0 <-> last (f_out f) "" = "0 issues found.").
Proof.
  intros H Hh Hp Hf. apply (C112_agree_partial _ _ _ _ _ _ _ _ _ _ _ _ _ _ H Hh Hp Hf). intros l i Hi [(m & n & E)|[(m & rs & n & E)|(g & r & n & E)]].
  - eapply own_severity; eauto.
  - injection E as <-. destruct Hi.
  - unfold own_run_graph in E. destruct (ValidityModel.check_validity g false fuel) as [[e|]|]; try discriminate. injection E as <-.
    apply in_map_iff in Hi as (x & <- & _). discriminate.
Qed.
(** A map as it should be: the bounds have points, each lanelet has at most one lanelet on each side, and lanes do not form rings. *)
Definition well_drawn (w : BuilderModel.world) (ru : BuilderModel.rules) : Prop :=
  BuilderSpec.setting w ru one order /\ (forall l, BuilderSpec.usable w ru l -> BuilderSpec.drawn w (fst l)) /\
  forall s, BuilderSpec.regular w ru s /\ ValiditySpec.no_map_ring w ru s.
(** On such maps the program ends by itself, and it is content if the file was read without errors and no selected check of the map finds anything. *)
Theorem C112_own_plain_partial c m errs : forallb regex_ok (parse_filter (c_filter c)) = true -> c_origin_ok c = true ->
  load (c_file c) = Loaded m errs -> c_location c = "de" -> (forall p, In p (c_participants c) -> TrafficModel.rules_for p <> None) ->
  (forall k, well_drawn (tm_world m) (rules_of m k)) -> costs <> [] -> (forall x, In x costs -> BuilderSpec.unsigned_module x) ->
  exists enough, forall fuel, enough <= fuel -> exists f, PROGRAM fuel c = Value f /\
    (f_code f = 0 <-> c_help c = true \/ c_print c = true \/
       (c_file c <> "" /\ errs = [] /\ forall n, In n own_map_names -> selected matches (c_filter c) n -> own_run_map m n = Value [])).
Proof.
  intros Hre Ho Hl Hloc Hp Hm Hne Hun.
  assert (Hg : forall k, exists g, BuilderModel.build one (tm_world m) (rules_of m k) costs order = BuilderModel.Ok g /\
     forall fuel, List.length (GraphModel.g_verts g) < fuel -> ValidityModel.check_validity g false fuel = GraphModel.Ret (Some [])).
  { intros k. destruct (Hm k) as (Hs & Hd & Hr). destruct (BuilderProps.C56_build_total A one _ _ costs order Hs Hd Hun) as [g Hg]. exists g. split; [exact Hg|].
    intros fuel Hf. apply (ValidityProps.C64_built_valid A one _ _ costs order Hs g Hg Hne Hun (fun s => proj1 (Hr s)) (fun s => proj2 (Hr s)) fuel false Hf). }
  destruct (Hg TrafficModel.Vehicle) as (g1 & B1 & V1). destruct (Hg TrafficModel.Pedestrian) as (g2 & B2 & V2). destruct (Hg TrafficModel.Bicycle) as (g3 & B3 & V3). clear Hg.
  exists (S (List.length (GraphModel.g_verts g1) + List.length (GraphModel.g_verts g2) + List.length (GraphModel.g_verts g3))). intros fuel Hf.
  assert (Hb : forall k, exists g, own_build one costs order rules_of negative_text m k = Built g /\ forall n, own_run_graph flaw_text fuel g k n = Value []).
  { intros k. unfold own_build, own_run_graph. destruct k.
    - exists g1. rewrite B1, V1 by lia. auto. - exists g2. rewrite B2, V2 by lia. auto. - exists g3. rewrite B3, V3 by lia. auto. }
  assert (Hru : exists rules, Forall2 (fun p r => own_create (c_location c) p = Some r) (c_participants c) rules).
  { rewrite Hloc. clear - Hp. unfold own_create. cbn [String.eqb Ascii.eqb Bool.eqb]. induction (c_participants c) as [|p ps IH]; [exists []; constructor|].
    destruct IH as [rs IH]; [intros; apply Hp; now right|]. destruct (TrafficModel.rules_for p) as [k|] eqn:E; [|destruct (Hp p (or_introl eq_refl) E)].
    exists (k :: rs). constructor; auto. }
  destruct Hru as [rules Hru].
  destruct (C112_returns_partial regex_ok matches own_map_names own_rule_names own_graph_names load own_create rule_text
    (own_build one costs order rules_of negative_text) own_run_map (fun _ _ _ => Value []) (own_run_graph flaw_text fuel) c Hre Ho) as [f Hf'].
  { rewrite Hl. exists rules. split; [exact Hru|]. split; [intros; eexists; reflexivity|]. split; [intros; eexists; reflexivity|].
    intros n k _ _ _. destruct (Hb k) as (g & -> & V). split; [discriminate|]. intros g' [= <-]. rewrite V. eexists. reflexivity. }
  exists f. split; [exact Hf'|]. destruct (C112_exit_code _ _ _ _ _ _ _ _ _ _ _ _ _ _ Hf') as [_ ->]. unfold content_with.
  split; intros [|[|[Hfi H]]]; auto; right; right; (split; [exact Hfi|]).
  - destruct H as (m' & Hl' & F & _). rewrite Hl in Hl'. injection Hl' as <- ->. auto.
  - destruct H as [-> H]. exists m. split; [exact Hl|]. split; [exact H|]. exists rules. split; [exact Hru|]. split; [reflexivity|].
    intros n k _ _ _. destruct (Hb k) as (g & -> & V). exists g. auto.
Qed.
(** If the program is content with a map and the filter excludes nothing, then the file was read without errors, none of the checks of
    the repository finds anything in the map, and the graph of each participant can be built and is valid. *)
Theorem C112_own_all fuel c f : PROGRAM fuel c = Value f -> f_code f = 0 -> c_help c = false -> c_print c = false ->
  (forall n, selected matches (c_filter c) n) ->
  exists m, load (c_file c) = Loaded m [] /\
    bool_tags (tm_tags m) = [] /\ mandatory_tags (tm_tags m) = [] /\ unknown_tags (tm_tags m) = [] /\ unknown_tag_values (tm_tags m) = [] /\
    curvature_too_big (tm_lanelets m) = [] /\ duplicated_points (tm_line_points m) (tm_polygon_points m) = [] /\
    points_too_close (tm_nearest m) (tm_points m) = [] /\
    forall p, In p (c_participants c) -> exists k g, c_location c = "de" /\ TrafficModel.rules_for p = Some k /\
      BuilderModel.build one (tm_world m) (rules_of m k) costs order = BuilderModel.Ok g /\
      ValidityModel.check_validity g false fuel = GraphModel.Ret (Some []).
Proof.
  intros H H0 Hh Hp Hs. destruct (C112_exit_code _ _ _ _ _ _ _ _ _ _ _ _ _ _ H) as [_ E]. apply E in H0. clear E.
  destruct H0 as [?|[?|(_ & m & Hl & F & rules & Hr & _ & Fg)]]; try congruence. exists m. split; [exact Hl|].
  assert (K : forall n, In n own_map_names -> own_run_map m n = Value []) by auto. unfold own_run_map in K.
  repeat match goal with |- _ /\ _ => split end.
  1: specialize (K "mapping.bool_tags"). 2: specialize (K "mapping.mandatory_tags"). 3: specialize (K "mapping.unknown_tags").
  4: specialize (K "mapping.unknown_tag_value"). 5: specialize (K "mapping.curvature_too_big"). 6: specialize (K "mapping.duplicated_points").
  7: specialize (K "mapping.points_too_close").
  1-7: cbn [String.eqb Ascii.eqb Bool.eqb] in K; enough (E : forall l : list issue, Value l = Value [] -> l = []) by (apply E, K; cbn; tauto); now intros l [= ->].
  intros p Hin. assert (exists r, In r rules /\ own_create (c_location c) p = Some r) as (k & Hk & Ek).
  { clear - Hr Hin. induction Hr; [destruct Hin|]. destruct Hin as [<-|Hin]; [eexists; split; [now left|assumption]|].
    destruct (IHHr Hin) as (r & ? & ?). exists r. split; [now right|assumption]. }
  destruct (Fg "routing.graph_is_valid" k) as (g & Bg & Vg); [now left|apply Hs|exact Hk|].
  unfold own_create in Ek. destruct (String.eqb_spec (c_location c) "de") as [Ed|]; [|discriminate]. exists k, g. split; [exact Ed|]. split; [exact Ek|].
  unfold own_build in Bg. destruct (BuilderModel.build _ _ _ _ _); try discriminate. injection Bg as ->. split; [reflexivity|].
  unfold own_run_graph in Vg. destruct (ValidityModel.check_validity g false fuel) as [[[|]|]|]; try discriminate. reflexivity.
Qed.
End Own.
Print Assumptions C112_own_all.
Print Assumptions C112_own_agree.
Print Assumptions C112_own_plain_partial.

(** * Examples *)
Definition plain_map (tags : tag_map) (w : BuilderModel.world) : tool_map := ToolMap tags [] [] [] (fun _ => []) [] w.
Definition no_tags : tag_map := TagMap [] [] [] [] [].
(** A point with a tag that is not known *)
Definition odd_tags : tag_map := TagMap [Tagged 7 [("colour", "red")]] [] [] [] [].
Definition any_config (participants : list string) : tool_config := ToolConfig false false "map.osm" "" "de" participants true.
Definition example_program (m : tool_map) (ru : BuilderModel.rules) (fuel : nat) (c : tool_config) : run finished :=
  own_program BuilderProps.o1 [BuilderProps.ex_module] BuilderProps.id_order (fun _ _ => ru) "" (fun _ => "flaw")
    (fun _ => true) (fun _ _ => true) (fun _ => Loaded m []) (fun _ => "rules") fuel c.

(** The map of C56, without and with an unknown tag *)
Example C112_nonvacuous :
  example_program (plain_map no_tags BuilderProps.ex_world) BuilderProps.ex_rules 20 (any_config ["vehicle"; "bicycle"])
    = Value (Finished 0 [] ["0 issues found."]) /\
  example_program (plain_map odd_tags BuilderProps.ex_world) BuilderProps.ex_rules 20 (any_config ["vehicle:car"])
    = Value (Finished 1 [] ["Warning: point 7 attribute colour is not a known lanelet2 tag. [mapping.unknown_tags]"; "1 issues found."]).
Proof. split; vm_compute; reflexivity. Qed.

(** Lanelets side by side on which the check of the graph complains (C64_fork_refuted) *)
Example C112_nonvacuous_graph :
  example_program (plain_map no_tags (BuilderProps.toy BuilderProps.fork_points BuilderProps.fork_left BuilderProps.fork_right [1; 2; 3]%N false))
    (BuilderProps.toy_rules false) 10 (any_config ["vehicle"]) = Value (Finished 1 ["Error: flaw [routing.graph_is_valid]"] ["1 issues found."]).
Proof. vm_compute. reflexivity. Qed.

(** A participant for which there are no rules: the program is terminated by an exception, and what was found before is not printed. *)
Theorem C112_participant_refuted : exists m ru, unknown_tags (tm_tags m) <> [] /\
  forall fuel, example_program m ru fuel (any_config ["vehicle"; "tram"]) = Uncaught (NoRules "de" "tram").
Proof. exists (plain_map odd_tags BuilderProps.ex_world), BuilderProps.ex_rules. split; [discriminate|]. intros fuel. vm_compute. reflexivity. Qed.

(** A lanelet whose bounds have no points: instead of a report there is undefined behaviour. *)
Theorem C112_empty_bound_refuted : exists m ru, BuilderSpec.setting (tm_world m) ru BuilderProps.o1 BuilderProps.id_order /\
  forall fuel, example_program m ru fuel (any_config ["vehicle"]) = Crash.
Proof.
  exists (plain_map no_tags (BuilderProps.toy (fun _ => []) (fun _ => 0) (fun _ => 1) [1%N] false)), (BuilderProps.toy_rules false). split.
  - apply BuilderProps.toy_setting; [repeat constructor; simpl; auto|intros; apply Permutation.Permutation_refl].
  - intros fuel. vm_compute. reflexivity.
Qed.

(** Lanes that lead outwards from a place on all sides, each beside the next: the check of the graph does not end. *)
Definition star_points (d : nat) : list nat := [2 * d; 2 * d + 1].
Definition star : BuilderModel.world :=
  BuilderProps.toy star_points (fun d => match d with 4%N => 1 | _ => N.to_nat d + 1 end) (fun d => N.to_nat d) [1; 2; 3; 4]%N false.
Definition star_graph : GraphModel.graph CostAlg.ZCost := Eval vm_compute in
  match BuilderModel.build BuilderProps.o1 star (BuilderProps.toy_rules false) [BuilderProps.ex_module] BuilderProps.id_order with
  | BuilderModel.Ok g => g
  | _ => GraphModel.Graph [] [] [] 0
  end.
Lemma star_built : BuilderModel.build BuilderProps.o1 star (BuilderProps.toy_rules false) [BuilderProps.ex_module] BuilderProps.id_order = BuilderModel.Ok star_graph.
Proof. vm_compute. reflexivity. Qed.
Lemma star_endless fuel : ValidityModel.check_validity star_graph false fuel = GraphModel.Ret None.
Proof.
  assert (Hr : ValidityModel.relations star_graph BuilderModel.SRight (GraphModel.ELanelet 2 false) 0 fuel = GraphModel.Ret None).
  { unfold ValidityModel.relations. destruct fuel as [|f]; [reflexivity|]. cbn [ValidityModel.relations_from].
    replace (GraphModel.neighbours_until_end (ValidityModel.change_view BuilderModel.SRight) star_graph (GraphModel.ELanelet 2 false) 0 (S f))
      with (GraphModel.Ret (Some (@nil GraphModel.elem))) by reflexivity. cbn [List.last].
    rewrite (GraphProofs2.neighbours_diverge star_graph); [reflexivity|reflexivity|].
    do 3 (eapply GraphSpec.nr_more; [reflexivity|]). apply GraphSpec.nr_one. reflexivity. }
  assert (Hcs : ValidityModel.check_side star_graph BuilderModel.SLeft (GraphModel.ELanelet 1 false) 0 fuel = GraphModel.Ret None).
  { unfold ValidityModel.check_side.
    change (GraphModel.get_filtered star_graph (ValidityModel.change_view BuilderModel.SLeft) 0) with (Some (GraphModel.GView star_graph 0 (GraphModel.view_mask GraphModel.VLeft))).
    change (GraphModel.get_filtered star_graph (ValidityModel.adjacent_view BuilderModel.SLeft) 0) with (Some (GraphModel.GView star_graph 0 (GraphModel.view_mask GraphModel.VAdjacentLeft))).
    cbv beta iota.
    change (ValidityModel.look (GraphModel.GView star_graph 0 (GraphModel.view_mask GraphModel.VLeft)) (ValidityModel.change_view BuilderModel.SLeft) 0)
      with (@None GraphModel.elem, @nil ValidityModel.flaw).
    change (ValidityModel.look (GraphModel.GView star_graph 0 (GraphModel.view_mask GraphModel.VAdjacentLeft)) (ValidityModel.adjacent_view BuilderModel.SLeft) 0)
      with (Some (GraphModel.ELanelet 2 false), @nil ValidityModel.flaw).
    cbv beta iota zeta. unfold ValidityModel.check_back. cbn [ValidityModel.opposite]. rewrite Hr. reflexivity. }
  unfold ValidityModel.check_validity.
  change (GraphModel.g_lookup star_graph) with [(GraphModel.ELanelet 1 false, 0); (GraphModel.ELanelet 2 false, 1); (GraphModel.ELanelet 3 false, 2); (GraphModel.ELanelet 4 false, 3)].
  cbn [ValidityModel.check_all]. rewrite Hcs. reflexivity.
Qed.
Theorem C112_ring_refuted : exists m ru, BuilderSpec.setting (tm_world m) ru BuilderProps.o1 BuilderProps.id_order /\
  (forall l, BuilderSpec.usable (tm_world m) ru l -> BuilderSpec.drawn (tm_world m) (fst l)) /\
  forall fuel, example_program m ru fuel (any_config ["vehicle"]) = Endless.
Proof.
  exists (plain_map no_tags star), (BuilderProps.toy_rules false). split; [|split].
  - apply BuilderProps.toy_setting; [repeat constructor; simpl; intuition discriminate|intros; apply Permutation.Permutation_refl].
  - intros l _. split; discriminate.
  - intros fuel. unfold example_program, own_program, run_from_config. cbn [any_config c_help c_print c_file].
    change (String.eqb "map.osm" "") with false. cbv iota. unfold validate_file, validate, parse_checked.
    change (parse_filter (c_filter (any_config ["vehicle"]))) with (@nil string). cbn [forallb seq negb any_config c_origin_ok c_location c_participants match_validators].
    change (run_each own_map_names (own_run_map (plain_map no_tags star))) with (Value (@nil detected)). cbn [seq].
    change (create_all own_create "de" ["vehicle"]) with (Value [TrafficModel.Vehicle]). cbn [seq own_rule_names run_each].
    unfold run_graphs, own_graph_names. cbn [graph_loop]. unfold own_build. cbn [plain_map tm_world]. rewrite star_built. cbn [run_each].
    unfold own_run_graph. rewrite star_endless. reflexivity.
Qed.

(** A check of one's own with an issue of severity Info: the code is 1, but no issue is counted. *)
Theorem C112_info_refuted : exists run_map : unit -> string -> run (list issue),
  run_from_config (G := unit) (Rule := unit) (fun _ => true) (fun _ _ => true) ["own"] [] [] (fun _ => Loaded tt []) (fun _ _ => Some tt) (fun _ => "")
    (fun _ _ => Built tt) run_map (fun _ _ _ => Value []) (fun _ _ _ => Value []) (any_config ["vehicle"]) = Value (Finished 1 [] ["0 issues found."]).
Proof. exists (fun _ _ => Value [Issue Info PLanelet 5 "looks good"]). vm_compute. reflexivity. Qed.
Print Assumptions C112_participant_refuted.
Print Assumptions C112_empty_bound_refuted.
Print Assumptions C112_ring_refuted.
Print Assumptions C112_info_refuted.
