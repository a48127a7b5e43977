(** C110: ids of members are found where they are, parameters of regulatory elements by role, kind and id. *)
From Coq Require Import List Bool ZArith String Sorted Lia.
From Verif Require Import MemberModel MemberSpec MemberProofs.
Import ListNotations.
Local Open Scope Z_scope.

(** Line strings, polygons, and what is composed of them: an id is found if and only if it is that of a point. The iteration over compounds
    leaves out doubled points, but no id. *)
Theorem C110_lines pid i :
  (forall l, has_line pid l i = true <-> a_point_of pid l i) /\
  (forall ls, exists b, has_compound pid ls i = Some b /\ (b = true <-> exists l, In l ls /\ a_point_of pid l i)) /\
  (forall ls, exists b, has_sequence pid ls i = Some b /\
    (b = true <-> exists l, In l ls /\ (a_point_of pid (ll_left l) i \/ a_point_of pid (ll_right l) i))).
Proof.
  split; [intros l; apply has_line_spec|]. split; [intros ls; apply has_compound_spec|intros ls; apply has_sequence_spec].
Qed.
Print Assumptions C110_lines.

(** Lanelets: points of the bounds and regulatory elements, as documented. *)
Theorem C110_lanelets pid l i : has_lanelet pid l i = true <-> member_of_lanelet pid l i.
Proof. apply has_lanelet_spec. Qed.
Print Assumptions C110_lanelets.

(** Areas: the points of the outer bound and nothing else. *)
Theorem C110_areas_partial pid a i :
  exists b, has_area pid a i = Some b /\ (b = true <-> outer_member pid a i) /\ (b = true -> member_of_area pid a i).
Proof.
  destruct (has_area_spec pid a i) as [b [E H]]. exists b. split; auto. split; auto. intros K. apply H in K. destruct K as [l [L P]].
  apply (outer_point pid a i l L P).
Qed.
Print Assumptions C110_areas_partial.

(** Regulatory elements: ids and members of the parameters that still exist. *)
Theorem C110_rules pid r i :
  exists b, has_reg pid r i = Some b /\
    (b = true <-> exists p, parameter_of (re_params r) p /\ (has_id pid p i \/ has_member pid p i)).
Proof. apply has_reg_spec. Qed.
Print Assumptions C110_rules.

(** findUsages of a layer by id: the primitives of the layer that have the id among their members, each once. *)
Theorem C110_usages pid i :
  (forall layer : list line,
     (forall l, In l (usages (has_line pid) layer i) <-> In l layer /\ a_point_of pid l i) /\
     (NoDup (map l_id layer) -> NoDup (map l_id (usages (has_line pid) layer i)))) /\
  (forall layer : list lanelet,
     (forall l, In l (usages (has_lanelet pid) layer i) <-> In l layer /\ member_of_lanelet pid l i) /\
     (NoDup (map ll_id layer) -> NoDup (map ll_id (usages (has_lanelet pid) layer i)))) /\
  (forall layer, exists u, usages_reg pid layer i = Some u /\
     (forall r, In r u <-> In r layer /\ exists p, parameter_of (re_params r) p /\ (has_id pid p i \/ has_member pid p i)) /\
     (NoDup (map re_id layer) -> NoDup (map re_id u))).
Proof.
  split; [|split].
  - intros layer. apply usages_spec. intros l. apply has_line_spec.
  - intros layer. apply usages_spec. intros l. apply has_lanelet_spec.
  - intros layer. apply usages_reg_spec.
Qed.
Print Assumptions C110_usages.

(** find: the first parameter, by the order of roles, of the kind and with the id that exists; nothing if there is none. Missing: any kind with
    the id 0. *)
Theorem C110_find_partial pid w i m : (w <> WAny \/ i <> 0) ->
  match find_param pid w i m with
  | Some p => first_with (fun x => of_kind w x /\ has_id pid x i) (in_order m) p
  | None => forall p, In p (in_order m) -> ~ (of_kind w p /\ has_id pid p i)
  end.
Proof. apply find_spec. Qed.
Print Assumptions C110_find_partial.

(** getParameters: of the parameters of the role those of the kind that exist, in their order. *)
Theorem C110_parameters w m r : ordered m -> w <> WAny ->
  (forall ps, In (r, ps) m -> picked (of_kind w) ps (get_parameters w r m)) /\
  (~ In r (roles m) -> get_parameters w r m = []) /\ NoDup (roles m).
Proof.
  intros O N. unfold get_parameters, roles. split; [|split].
  - intros ps H. apply (lookup_in r m ps O) in H. rewrite H. apply picked_filter; auto.
  - intros H. apply lookup_none in H. rewrite H. reflexivity.
  - unfold ordered in O. induction O as [|x l O IH F]; constructor; auto. intros C. rewrite Forall_forall in F. assert (D := F x C).
    rewrite OsmProofs.sirr in D. discriminate.
Qed.
Print Assumptions C110_parameters.

(** addParameter: the parameter comes last in its role; other roles keep theirs. *)
Theorem C110_add r p m : ordered m ->
  ordered (add_parameter r p m) /\
  (forall x, In x (roles (add_parameter r p m)) <-> x = r \/ In x (roles m)) /\
  (forall x ps, x <> r -> In (x, ps) (add_parameter r p m) <-> In (x, ps) m) /\
  (exists old, In (r, old ++ [p]) (add_parameter r p m) /\ (In (r, old) m \/ (old = [] /\ ~ In r (roles m)))).
Proof.
  intros O. assert (O' := add_ordered r p m O). split; [exact O'|]. split; [intros x; apply add_roles|]. split.
  - intros x ps N. rewrite <- (lookup_in _ _ _ O'), <- (lookup_in _ _ _ O), (add_lookup r p m x O). apply String.eqb_neq in N. rewrite N.
    reflexivity.
  - assert (E := add_lookup r p m r O). rewrite String.eqb_refl in E. apply (lookup_in _ _ _ O') in E.
    destruct (lookup r m) as [old|] eqn:L.
    + exists old. split; auto. left. apply lookup_in; auto.
    + exists []. split; auto. right. split; auto. apply lookup_none; auto.
Qed.
Print Assumptions C110_add.

(** The factory: what it returns implements the rule of the name (the generic one without a name) and has it as its subtype; it exists exactly
    if the rule is registered and its constructor accepts the data with this subtype. *)
Theorem C110_create attrs (set_subtype : string -> attrs -> attrs) (subtype : attrs -> option string) registry name t rule t' :
  (forall s u, subtype (set_subtype s u) = Some s) ->
  create attrs set_subtype registry name t = (Element rule, t') <->
  subtype t' = Some rule /\ t' = set_subtype rule t /\ rule <> ""%string /\ (rule = name \/ (name = ""%string /\ rule = "regulatory_element"%string)) /\
  exists accepts, registry rule = Some accepts /\ accepts t' = true.
Proof.
  intros S. unfold create. destruct (String.eqb name "") eqn:E.
  - apply String.eqb_eq in E. subst name. split.
    + destruct (registry "regulatory_element"%string) as [acc|] eqn:R; [|discriminate].
      destruct (acc (set_subtype "regulatory_element"%string t)) eqn:A; [|discriminate].
      intros H. injection H as <- <-. split; [apply S|]. split; auto. split; [discriminate|]. split; auto. exists acc. auto.
    + intros (_ & -> & N & [->|[_ ->]] & acc & R & A); [congruence|]. rewrite R, A. reflexivity.
  - apply String.eqb_neq in E. split.
    + destruct (registry name) as [acc|] eqn:R; [|discriminate].
      destruct (acc (set_subtype name t)) eqn:A; [|discriminate].
      intros H. injection H as <- <-. split; [apply S|]. split; auto. split; auto. split; auto. exists acc. auto.
    + intros (_ & -> & N & [->|[C _]] & acc & R & A); [|congruence]. rewrite R, A. reflexivity.
Qed.
Print Assumptions C110_create.

(** * Where the comments are wrong *)

Definition same_id (p : nat) : Z := Z.of_nat p.
(** A square with a triangular hole; rule 90 applies to it. *)
Definition square := Area 50 [Line 51 [1; 2; 3]%nat; Line 52 [3; 4; 1]%nat] [[Line 53 [5; 6; 7; 5]%nat]] [90].

(** The rule of an area and the points of its holes are members of it that are not found, whatever the area. *)
Theorem C110_areas_refuted :
  (exists a, In 90 (ar_regs a) /\ member_of_area same_id a 90 /\ has_area same_id a 90 = Some false) /\
  (exists a h l, In h (ar_inner a) /\ In l h /\ a_point_of same_id l 6 /\ member_of_area same_id a 6 /\ has_area same_id a 6 = Some false) /\
  (exists a r, re_params r = [("refers"%string, [PArea (Some a)])] /\ member_of_area same_id a 90 /\ has_reg same_id r 90 = Some false).
Proof.
  assert (M : member_of_area same_id square 90) by (apply area_rule; simpl; auto). split; [|split].
  - exists square. split; [simpl; auto|]. split; [exact M|vm_compute; reflexivity].
  - exists square, [Line 53 [5; 6; 7; 5]%nat], (Line 53 [5; 6; 7; 5]%nat).
    assert (P : a_point_of same_id (Line 53 [5; 6; 7; 5]%nat) 6) by (exists 6%nat; split; [simpl; auto|reflexivity]).
    split; [simpl; auto|]. split; [simpl; auto|]. split; [exact P|]. split; [|vm_compute; reflexivity].
    apply (inner_point same_id square 6 [Line 53 [5; 6; 7; 5]%nat] (Line 53 [5; 6; 7; 5]%nat)); simpl; auto.
  - exists square, (Reg 60 [("refers"%string, [PArea (Some square)])]). split; [reflexivity|]. split; [exact M|vm_compute; reflexivity].
Qed.
Print Assumptions C110_areas_refuted.

Definition lane := Lanelet 10 (Line 11 [1; 2]%nat) (Line 12 [3; 4]%nat) [90; 91].

(** The line strings a lanelet consists of are not found in it, so that by id the layer of lanelets has no usages of line strings at all, unless
    another member has the same id. *)
Theorem C110_bounds_refuted :
  exists layer l, In l layer /\ usages (has_lanelet same_id) layer (l_id (ll_left l)) = [] /\
                  usages (has_lanelet same_id) layer (l_id (ll_right l)) = [] /\ usages (has_lanelet same_id) layer 90 = [l].
Proof. exists [lane], lane. vm_compute. auto. Qed.
Print Assumptions C110_bounds_refuted.

(** Searched for the id 0, which no primitive of a map has, find returns a parameter that does not exist any more. *)
Theorem C110_find_refuted :
  exists m p, find_param same_id WAny 0 m = Some p /\ (forall q, In q (in_order m) -> ~ has_id same_id q 0).
Proof.
  exists [("refers"%string, [PLine (Line 11 [1; 2]%nat); PLanelet None])], (PLanelet None). split; [vm_compute; reflexivity|].
  intros q [<-|[<-|[]]] H; inversion H.
Qed.
Print Assumptions C110_find_refuted.

(** A rule that is not registered: there is no generic regulatory element, though the comment above RegisterRegulatoryElement promises one, but
    an exception; the data of the caller has lost its subtype all the same. *)
Theorem C110_create_refuted :
  exists (registry : string -> option (option string -> bool)) name (old : option string),
    registry "regulatory_element"%string <> None /\ old <> Some name /\
    create (option string) (fun s _ => Some s) registry name old = (InvalidInput, Some name).
Proof.
  exists (fun r => if String.eqb r "regulatory_element" then Some (fun _ => true) else None), "traffic_lihgt"%string, (Some "traffic_light"%string).
  split; [vm_compute; discriminate|]. split; [discriminate|vm_compute; reflexivity].
Qed.
Print Assumptions C110_create_refuted.

(** A rule with a line, an expired lanelet, two lanelets with the same id and an area *)
Definition sample : params :=
  add_parameter "yield" (PLanelet (Some lane))
  (add_parameter "refers" (PPoint 8)
  (add_parameter "refers" (PLine (Line 20 [8; 9]%nat))
  (add_parameter "yield" (PLanelet None)
  (add_parameter "right_of_way" (PLanelet (Some (Lanelet 10 (Line 13 [1; 4]%nat) (Line 14 [3; 2]%nat) [])))
  (add_parameter "refers" (PArea (Some square)) []))))).

Example C110_nonvacuous :
  ordered sample /\ roles sample = ["refers"; "right_of_way"; "yield"]%string /\
  get_parameters WLanelet "yield" sample = [PLanelet (Some lane)] /\
  find_param same_id WLanelet 10 sample = Some (PLanelet (Some (Lanelet 10 (Line 13 [1; 4]%nat) (Line 14 [3; 2]%nat) []))) /\
  find_param same_id WArea 10 sample = None /\ find_param same_id WAny 20 sample = Some (PLine (Line 20 [8; 9]%nat)) /\
  has_reg same_id (Reg 90 sample) 9 = Some true /\ has_reg same_id (Reg 90 sample) 3 = Some true /\
  has_reg same_id (Reg 90 sample) 91 = Some true /\ has_reg same_id (Reg 90 sample) 13 = Some false /\
  has_area same_id square 1 = Some true /\ has_area same_id square 51 = Some false /\
  has_sequence same_id [lane; lane] 4 = Some true /\
  usages_reg same_id [Reg 90 sample; Reg 92 []; Reg 93 [("refers", [PPoint 8])]]%string 8 = Some [Reg 90 sample; Reg 93 [("refers", [PPoint 8])]]%string.
Proof.
  split; [repeat (apply add_ordered); constructor|]. vm_compute. repeat split.
Qed.
