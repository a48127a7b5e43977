(** Property C121: the text that [repr] returns for a primitive is an expression whose value is the primitive. *)
From Coq Require Import NArith ZArith List Bool String Ascii Lia.
From Verif Require Import AttrModel DotSpec DotProofs ReprModel ReprSpec ReprProofs.
Import ListNotations.
Open Scope string_scope.

Section Props.
Context {N : Type} (finite : N -> Prop) (show : N -> string) (num : string -> option N) (back : N -> N)
  (quote : string -> string) (unquote : string -> option (string * string)) (zero : N).
Hypothesis C : contracts finite show num back quote unquote.
Notation result := (evaluate unquote num zero).

(** An attribute map comes back. *)
Theorem C121_attributes a : keys_once a -> result (attribute_map_repr quote a) = Value (VAttrs a).
Proof.
  intros K. rewrite (map_text quote). rewrite (evaluates finite show num back quote unquote zero C) by apply wf_map.
  now rewrite ev_map.
Qed.

(** Points, line strings and polygons come back but for the rounding of the coordinates. *)
Theorem C121_point p : fine_pt finite p -> result (point3d_repr show quote "Point3d" p) = Value (VPoint (back_pt back p)).
Proof.
  intros F. rewrite (point3_text finite show num back quote unquote C "Point3d" (plain show)) by reflexivity.
  rewrite (evaluates finite show num back quote unquote zero C).
  - now rewrite (ev_point3 finite show num back quote unquote zero C).
  - eapply wf_point3; eauto. split; [reflexivity|do 2 eexists; split; reflexivity].
Qed.

Theorem C121_line l : fine_ln finite l -> result (line3d_repr show quote l) = Value (VLine (back_ln back l)) /\
  result (polygon3d_repr show quote l) = Value (VPolygon (back_ln back l)).
Proof.
  intros F. split.
  - rewrite (line_text finite show num back quote unquote C) by auto. rewrite (evaluates finite show num back quote unquote zero C).
    + now rewrite (ev_line finite show num back quote unquote zero C).
    + now apply (wf_line finite show num back quote unquote C).
  - rewrite (polygon_text finite show num back quote unquote C) by auto. rewrite (evaluates finite show num back quote unquote zero C).
    + now rewrite (ev_polygon finite show num back quote unquote zero C).
    + now apply (wf_polygon finite show num back quote unquote C).
Qed.

(** Lanelets and areas without regulatory elements come back likewise. *)
Theorem C121_lanelet l : fine_lane finite l -> result (lanelet_repr show quote l []) = Value (VLanelet (back_lane back l) []).
Proof.
  intros F. unfold lanelet_repr. rewrite (lane_text finite show num back quote unquote C l _ []) by (auto; apply w_empty, w_nil).
  rewrite (evaluates finite show num back quote unquote zero C).
  - now rewrite (ev_lane finite show num back quote unquote zero C).
  - apply (wf_lane finite show num back quote unquote C); [exact F|constructor].
Qed.

Theorem C121_area a : fine_area finite a -> result (area_repr show quote a []) = Value (VArea (back_area back a) []).
Proof.
  intros F. unfold area_repr. rewrite (area_text finite show num back quote unquote C a _ []) by (auto; apply w_empty, w_nil).
  rewrite (evaluates finite show num back quote unquote zero C).
  - now rewrite (ev_area finite show num back quote unquote zero C).
  - apply (wf_area finite show num back quote unquote C); [exact F|constructor].
Qed.

(** So lanelets that are written alike are alike but for the rounding. *)
Theorem C121_distinct l m : fine_lane finite l -> fine_lane finite m ->
  lanelet_repr show quote l [] = lanelet_repr show quote m [] -> back_lane back l = back_lane back m.
Proof.
  intros Hl Hm E. assert (K := C121_lanelet l Hl). rewrite E, (C121_lanelet m Hm) in K. congruence.
Qed.

(** No text of a regulatory element can be evaluated: the parameters and the attributes stand where the constructor wants the
    attributes and the parts. *)
Theorem C121_regulatory_refuted r : fine_reg finite r -> result (reg_repr show quote r) = Raises.
Proof.
  intros F. destruct (reg_text finite show num back quote unquote C r F) as [-> W].
  rewrite (evaluates finite show num back quote unquote zero C) by exact W. now rewrite (ev_reg show num zero).
Qed.

(** Hence no text of a lanelet or area that has any. *)
Theorem C121_with_regulatory_refuted l a regs : regs <> [] -> Forall (fine_reg finite) regs ->
  (fine_lane finite l -> result (lanelet_repr show quote l regs) = Raises) /\
  (fine_area finite a -> result (area_repr show quote a regs) = Raises).
Proof.
  intros H G. split; intros F.
  - unfold lanelet_repr. rewrite (lane_text finite show num back quote unquote C l _ (ast_regs show regs))
      by (auto; now apply (writes_regs finite show num back quote unquote C)).
    rewrite (evaluates finite show num back quote unquote zero C).
    + now rewrite (ev_lane_regs show num zero).
    + apply (wf_lane finite show num back quote unquote C); [exact F|now apply (wf_regs finite show num back quote unquote C)].
  - unfold area_repr. rewrite (area_text finite show num back quote unquote C a _ (ast_regs show regs))
      by (auto; now apply (writes_regs finite show num back quote unquote C)).
    rewrite (evaluates finite show num back quote unquote zero C).
    + now rewrite (ev_area_regs show num zero).
    + apply (wf_area finite show num back quote unquote C); [exact F|now apply (wf_regs finite show num back quote unquote C)].
Qed.

(** A 2D point comes back without its height when it has no attributes; with attributes they stand where the height should be.
    A 2D line string or polygon with a point never comes back, as the constructors want 3D points. *)
Theorem C121_flat_point_partial p : fine_pt finite p -> pt_attrs p = [] ->
  result (point2d_repr show quote "Point2d" p) = Value (VPoint2 (Pt (pt_id p) (back (pt_x p)) (back (pt_y p)) zero [])).
Proof.
  intros F E. rewrite (point2_text finite show num back quote unquote C "Point2d" (plain show)) by reflexivity.
  rewrite (evaluates finite show num back quote unquote zero C).
  - now rewrite (ev_point2_plain finite show num back quote unquote zero C).
  - eapply wf_point2; eauto. split; [reflexivity|do 2 eexists; split; reflexivity].
Qed.

Theorem C121_flat_refuted p l : (fine_pt finite p -> pt_attrs p <> [] -> result (point2d_repr show quote "Point2d" p) = Raises) /\
  (fine_ln finite l -> ln_pts l <> [] ->
    result (line2d_repr show quote l) = Raises /\ result (polygon2d_repr show quote l) = Raises).
Proof.
  assert (W : word "Point2d") by (split; [reflexivity|do 2 eexists; split; reflexivity]).
  split.
  - intros F E. rewrite (point2_text finite show num back quote unquote C "Point2d" (plain show)) by reflexivity.
    rewrite (evaluates finite show num back quote unquote zero C).
    + now rewrite (ev_point2_attrs show num zero).
    + eapply wf_point2; eauto.
  - intros F E. destruct l as [i [|q r] a]; [easy|]. split.
    + rewrite (line2_text finite show num back quote unquote C) by auto. rewrite (evaluates finite show num back quote unquote zero C).
      * unfold ast_line2, ast_seq. cbn [ln_pts map ln_id ln_attrs]. rewrite (seq2_raises show num zero) by auto. reflexivity.
      * eapply wf_seq; [split; [reflexivity|do 2 eexists; split; reflexivity]|eapply wf_points2; eauto].
    + rewrite (polygon2_text finite show num back quote unquote C) by auto. rewrite (evaluates finite show num back quote unquote zero C).
      * unfold ast_polygon2, ast_seq. cbn [ln_pts map ln_id ln_attrs]. rewrite (seq2_raises show num zero) by auto. reflexivity.
      * eapply wf_seq; [split; [reflexivity|do 2 eexists; split; reflexivity]|eapply wf_points2; eauto].
Qed.

(** The text of an immutable lanelet cannot be evaluated, its bounds are no LineString3d. *)
Theorem C121_const_refuted l regs : fine_lane finite l -> Forall (fine_reg finite) regs ->
  result (const_lanelet_repr show quote l regs) = Raises.
Proof.
  intros F G. destruct (const_lane_text finite show num back quote unquote C l regs F G) as [-> W].
  rewrite (evaluates finite show num back quote unquote zero C) by exact W. now rewrite (ev_const_lane show num zero).
Qed.

(** Nor that of a point whose coordinate is not finite. *)
Theorem C121_not_finite_refuted p : show (pt_x p) = "nan" \/ show (pt_x p) = "inf" -> finite (pt_y p) -> finite (pt_z p) ->
  result (point3d_repr show quote "Point3d" p) = Raises.
Proof.
  intros X Y Z.
  pose (tok := fun x => if String.eqb (show x) "nan" || String.eqb (show x) "inf" then EName (show x) else ENum (show x)).
  assert (T : forall x, render quote (tok x) = show x) by (intros x; unfold tok; destruct (_ || _); reflexivity).
  rewrite (point3_text finite show num back quote unquote C "Point3d" tok) by exact T.
  assert (V : tok (pt_x p) = EName (show (pt_x p))) by (unfold tok; destruct X as [-> | ->]; reflexivity).
  assert (K : forall x, finite x -> wf (tok x)).
  { intros x Fx. unfold tok. destruct (show_token _ _ _ _ _ _ C x Fx) as (c & r & E & S).
    destruct (String.eqb_spec (show x) "nan") as [E1|_]; [rewrite E1 in E; injection E as <- _; discriminate|].
    destruct (String.eqb_spec (show x) "inf") as [E1|_]; [rewrite E1 in E; injection E as <- _; discriminate|].
    cbn. now apply (token_show finite show num back quote unquote C). }
  rewrite (evaluates finite show num back quote unquote zero C).
  - rewrite (ev_point3_word num zero p tok _ V); [reflexivity|]. destruct X as [-> | ->]; discriminate.
  - cbn. split; [split; [reflexivity|do 2 eexists; split; reflexivity]|]. rewrite app_nil_r. split; [apply token_id|].
    split; [|split; [now apply K|split; [now apply K|apply fold_wf, wf_attrs]]].
    rewrite V. destruct X as [-> | ->]; split; try reflexivity; do 2 eexists; split; reflexivity.
Qed.

(** Coordinates that are written alike cannot both come back. *)
Theorem C121_rounding p q : show (pt_x p) = show (pt_x q) -> pt_x p <> pt_x q -> pt_id p = pt_id q -> pt_y p = pt_y q ->
  pt_z p = pt_z q -> pt_attrs p = pt_attrs q ->
  ~ (result (point3d_repr show quote "Point3d" p) = Value (VPoint p) /\ result (point3d_repr show quote "Point3d" q) = Value (VPoint q)).
Proof.
  intros S D E1 E2 E3 E4 [A B]. unfold point3d_repr in *. rewrite S, E1, E2, E3, E4 in A. rewrite A in B. injection B as B. now rewrite B in D.
Qed.
End Props.
Print Assumptions C121_attributes.
Print Assumptions C121_point.
Print Assumptions C121_line.
Print Assumptions C121_lanelet.
Print Assumptions C121_area.
Print Assumptions C121_distinct.
Print Assumptions C121_regulatory_refuted.
Print Assumptions C121_with_regulatory_refuted.
Print Assumptions C121_flat_point_partial.
Print Assumptions C121_flat_refuted.
Print Assumptions C121_const_refuted.
Print Assumptions C121_not_finite_refuted.

(** * Instances *)
(** String literals in single quotes, a backslash before a quote and before a backslash. *)
Fixpoint escaped (s : string) : string :=
  match s with
  | EmptyString => EmptyString
  | String c r => if Ascii.eqb c "'" || Ascii.eqb c "\" then String "\" (String c (escaped r)) else String c (escaped r)
  end.
Definition quote1 (s : string) : string := "'" ++ escaped s ++ "'".
Fixpoint body (s : string) : option (string * string) :=
  match s with
  | EmptyString => None
  | String c r =>
    if Ascii.eqb c "'" then Some ("", r)
    else if Ascii.eqb c "\" then
      match r with
      | EmptyString => None
      | String d r' => match body r' with Some (t, u) => Some (String d t, u) | None => None end
      end
    else match body r with Some (t, u) => Some (String c t, u) | None => None end
  end.
Definition unquote1 (s : string) : option (string * string) :=
  match s with String c r => if Ascii.eqb c "'" then body r else None | EmptyString => None end.

Lemma body_escaped s rest : body (escaped s ++ String "'" rest) = Some (s, rest).
Proof.
  induction s as [|c s IH]; [reflexivity|]. cbn [escaped].
  destruct (Ascii.eqb c "'") eqn:E1; [cbn [orb append body]; change (Ascii.eqb "\" "'") with false; change (Ascii.eqb "\" "\") with true; cbn iota; now rewrite IH|].
  destruct (Ascii.eqb c "\") eqn:E2; [cbn [orb append body]; change (Ascii.eqb "\" "'") with false; change (Ascii.eqb "\" "\") with true; cbn iota; now rewrite IH|].
  cbn [orb append body]. rewrite E1, E2. now rewrite IH.
Qed.

(** Integral coordinates below a million are written exactly. *)
Lemma integral : contracts (fun _ : Z => True) print_Z number (fun z => z) quote1 unquote1.
Proof.
  split.
  - intros x _. apply print_nonempty.
  - intros x _ c pre post E. assert (K := print_sign x). rewrite E in K. apply numeric_sign.
    clear E. induction pre as [|d pre IH]; cbn [append allc] in K; apply andb_true_iff in K as [K1 K2]; auto.
  - intros x _. apply number_print.
  - intros s. exists "'"%char, (escaped s ++ "'"). split; reflexivity.
  - intros s rest. unfold quote1. rewrite app_assoc_s. cbn [append unquote1]. change (Ascii.eqb "'" "'") with true. cbn iota.
    rewrite app_assoc_s. apply body_escaped.
Qed.

Definition p1 : pt Z := Pt 1 10%Z (-20)%Z 3%Z [("key", "it's")].
Definition p2 : pt Z := Pt 2 11%Z 0%Z 0%Z [].
Definition lane1 : lane Z := Lane 9 (Ln 3 [p1; p2] []) (Ln 4 [] [("type", "curbstone")]) [("one_way", "no"); ("subtype", "road")].
Definition light1 : reg Z := Reg KTrafficLight 8 [("refers", [PLine (Ln 5 [p2] [])])] [].

Example C121_nonvacuous :
  fine_lane (fun _ => True) lane1 /\ fine_reg (fun _ => True) light1 /\
  point3d_repr print_Z quote1 "Point3d" p1 = "Point3d(1, 10, -20, 3, AttributeMap({'key': 'it\'s'}))" /\
  lanelet_repr print_Z quote1 lane1 [] =
    "Lanelet(9, LineString3d(3, [Point3d(1, 10, -20, 3, AttributeMap({'key': 'it\'s'})), Point3d(2, 11, 0, 0)]), "
    ++ "LineString3d(4, [], AttributeMap({'type': 'curbstone'})), AttributeMap({'one_way': 'no', 'subtype': 'road'}))" /\
  evaluate unquote1 number 0%Z (lanelet_repr print_Z quote1 lane1 []) = Value (VLanelet lane1 []) /\
  reg_repr print_Z quote1 light1 = "TrafficLight(8, {'refers': [LineString3d(5, [Point3d(2, 11, 0, 0)])]})" /\
  evaluate unquote1 number 0%Z (reg_repr print_Z quote1 light1) = Raises /\
  evaluate unquote1 number 0%Z (lanelet_repr print_Z quote1 lane1 [light1]) = Raises /\
  evaluate unquote1 number 0%Z "TrafficLight(8, AttributeMap({}), [LineString3d(5, [Point3d(2, 11, 0, 0)])])"
    = Value (VLight 8 [] [VLine (Ln 5 [p2] [])] VNone) /\
  point2d_repr print_Z quote1 "Point2d" p1 = "Point2d(1, 10, -20, AttributeMap({'key': 'it\'s'}))" /\
  evaluate unquote1 number 0%Z (point2d_repr print_Z quote1 "Point2d" p1) = Raises.
Proof.
  split; [|split].
  - split; [|split]; [split| split|]; cbn; repeat constructor; cbn; intuition congruence.
  - split; [|split]; cbn; repeat constructor; cbn; intuition congruence.
  - repeat (split; [vm_compute; reflexivity|]). vm_compute. reflexivity.
Qed.

(** [ostream << double] of a value from 1000 to 9999.99 given in thousandths: six digits, so two behind the point,
    without zeros at the end. *)
Definition show_six (z : Z) : string :=
  let h := ((z + 5) / 10)%Z in
  print_Z (h / 100) ++
  (if Z.eqb (h mod 100) 0 then "" else
   "." ++ print_Z (h mod 100 / 10) ++ if Z.eqb (h mod 10) 0 then "" else print_Z (h mod 10)).

(** The witness: two points a millimetre apart are written alike, so no reading brings back both. *)
Theorem C121_precision_refuted : exists p q : pt Z, pt_x q = (pt_x p + 1)%Z /\
  point3d_repr show_six quote1 "Point3d" p = "Point3d(1, 1234.57, 2000, 1000.5)" /\
  forall num unquote zero,
  ~ (evaluate unquote num zero (point3d_repr show_six quote1 "Point3d" p) = Value (VPoint p) /\
     evaluate unquote num zero (point3d_repr show_six quote1 "Point3d" q) = Value (VPoint q)).
Proof.
  exists (Pt 1 1234567%Z 2000000%Z 1000500%Z []), (Pt 1 1234568%Z 2000000%Z 1000500%Z []). split; [reflexivity|]. split; [vm_compute; reflexivity|].
  intros num unquote zero. apply C121_rounding; try reflexivity. discriminate.
Qed.
Print Assumptions C121_precision_refuted.
