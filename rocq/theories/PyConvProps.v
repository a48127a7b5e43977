(** C129: conversions between Python objects and C++ values. *)
From Coq Require Import List Bool Arith ZArith Lia.
Import ListNotations.
From Verif Require Import PyConvModel PyConvSpec PyConvProofs.

(** A conversion gives a value exactly if the object stands for it: the items of an iterable in their order, each
    converted; nothing for None and the converted object otherwise for an Optional; the two items of a tuple. In every
    other case there is a Python exception. *)
Theorem C129_extract :
  forall (O L V : Type) items tuple_items is_none (leaf : L -> O -> option V) t o v,
    extract items tuple_items is_none leaf t o = Some v <-> represents items tuple_items is_none leaf t o v.
Proof. intros. apply extract_iff. Qed.
Print Assumptions C129_extract.

(** An overloaded function is only ever called with values that the arguments stand for at the types of the overload
    taken, and no overload defined later has parameters that could take them. If no parameter has one of these
    converters, a call fails only if no overload takes the arguments. *)
Theorem C129_call :
  forall (O L V F : Type) items tuple_items is_none (leaf : L -> O -> option V) (overloads : list (F * list (type L))) os,
    (forall f vs, call items tuple_items is_none leaf overloads os = Some (f, vs) ->
       exists later ts earlier, overloads = later ++ (f, ts) :: earlier /\
         arguments items tuple_items is_none leaf ts os vs /\
         forall g us ws, In (g, us) later -> ~ arguments items tuple_items is_none leaf us os ws) /\
    ((forall f ts t, In (f, ts) overloads -> In t ts -> is_leaf t) ->
       (call items tuple_items is_none leaf overloads os = None <->
        forall f ts vs, In (f, ts) overloads -> ~ arguments items tuple_items is_none leaf ts os vs)).
Proof.
  intros O L V F items tuple_items is_none leaf overloads os.
  induction overloads as [|[f ts] rest [IH1 IH2]]; cbn.
  - split; [discriminate|]. intros _. split; [intros _ ? ? ? []|reflexivity].
  - destruct (arguments_convertible items tuple_items leaf ts os) eqn:C.
    + split.
      * intros g vs H. destruct (construct_all items tuple_items is_none leaf ts os) as [ws|] eqn:K; [|discriminate].
        injection H as <- <-. exists [], ts, rest. split; [reflexivity|]. split; [now apply construct_all_iff|intros ? ? ? []].
      * intros K. destruct (leaves_convertible items tuple_items is_none leaf ts os) as [vs A];
          [intros t I; exact (K f ts t (or_introl eq_refl) I)|exact C|].
        pose proof A as B. apply construct_all_iff in B; [|exact C]. rewrite B. split; [discriminate|].
        intros N. destruct (N f ts vs (or_introl eq_refl) A).
    + assert (N : forall vs, ~ arguments items tuple_items is_none leaf ts os vs).
      { intros vs A. apply arguments_convertible_ok in A. congruence. }
      split.
      * intros g vs H. destruct (IH1 g vs H) as (later & us & earlier & -> & A & Q).
        exists ((f, ts) :: later), us, earlier. split; [reflexivity|]. split; [exact A|].
        intros h u' ws [[= <- <-]|I]; [apply N|eauto].
      * intros K. rewrite IH2 by (intros; eapply K; [right; eassumption|assumption]). split.
        -- intros Q g us vs [[= <- <-]|I]; [apply N|eauto].
        -- intros Q g us vs I. eauto.
Qed.
Print Assumptions C129_call.

(** Exactly when a call succeeds and with which overload: it is the one defined last that takes the arguments by their
    outermost shape, and they have to stand for values at its types. *)
Theorem C129_choice :
  forall (O L V F : Type) items tuple_items is_none (leaf : L -> O -> option V) (overloads : list (F * list (type L))) os f vs,
    call items tuple_items is_none leaf overloads os = Some (f, vs) <->
    exists later ts earlier, overloads = later ++ (f, ts) :: earlier /\
      (forall g us, In (g, us) later -> ~ Forall2 (takes items tuple_items leaf) us os) /\
      arguments items tuple_items is_none leaf ts os vs.
Proof.
  intros O L V F items tuple_items is_none leaf overloads os f vs.
  induction overloads as [|[g us] rest IH]; cbn.
  - split; [discriminate|]. intros ([|? ?] & ts & earlier & E & _); discriminate.
  - destruct (arguments_convertible items tuple_items leaf us os) eqn:C.
    + split.
      * intros H. destruct (construct_all items tuple_items is_none leaf us os) as [ws|] eqn:K; [|discriminate].
        injection H as <- <-. exists [], us, rest. split; [reflexivity|]. split; [intros ? ? []|now apply construct_all_iff].
      * intros ([|[h u'] later] & ts & earlier & E & N & A).
        -- injection E as -> -> ->. apply construct_all_iff in A; [|exact C]. now rewrite A.
        -- injection E as -> -> ->. destruct (N h u' (or_introl eq_refl)). now apply arguments_convertible_takes.
    + rewrite IH. split.
      * intros (later & ts & earlier & -> & N & A). exists ((g, us) :: later), ts, earlier. split; [reflexivity|].
        split; [|exact A]. intros h u' [[= <- <-]|I]; [|exact (N h u' I)].
        intros T. enough (arguments_convertible items tuple_items leaf us os = true) by congruence.
        now apply arguments_convertible_takes.
      * intros ([|[h u'] later] & ts & earlier & E & N & A).
        -- injection E as -> -> ->. apply arguments_convertible_ok in A. congruence.
        -- injection E as -> -> ->. exists later, ts, earlier. split; [reflexivity|]. split; [|exact A].
           intros h' w I. apply (N h' w). now right.
Qed.
Print Assumptions C129_choice.

(** distanceToLines: the second branch never gives a distance. It is reached only for an object that is no iterable. *)
Theorem C129_distance_to_lines :
  forall (O L V D : Type) items tuple_items is_none (leaf : L -> O -> option V) const_ls ls (distance : value V -> D) o d,
    distance_to_lines items tuple_items is_none leaf const_ls ls distance o = Some d <->
    exists v, represents items tuple_items is_none leaf (Vec (Leaf const_ls)) o v /\ d = distance v.
Proof.
  intros O L V D items tuple_items is_none leaf const_ls ls distance o d. unfold distance_to_lines.
  assert (E : convertible items tuple_items leaf (Vec (Leaf const_ls)) o = convertible items tuple_items leaf (Vec (Leaf ls)) o)
    by reflexivity.
  destruct (convertible items tuple_items leaf (Vec (Leaf const_ls)) o) eqn:C.
  - destruct (extract items tuple_items is_none leaf (Vec (Leaf const_ls)) o) as [v|] eqn:X; cbn [option_map].
    + split; [intros [= <-]; exists v; split; [now apply extract_iff|reflexivity]|].
      intros (w & R & ->). apply extract_iff in R. congruence.
    + split; [discriminate|]. intros (w & R & _). apply extract_iff in R. congruence.
  - unfold extract at 1. rewrite <- E. split; [discriminate|].
    intros (w & R & _). apply represents_convertible in R. congruence.
Qed.
Print Assumptions C129_distance_to_lines.

(** A value given to Python and back is the same value, if that holds of the types without these converters and none of
    their values is given as None. *)
Theorem C129_round_trip :
  forall (O L V : Type) items tuple_items is_none (leaf : L -> O -> option V) of_leaf new_list new_tuple none (ok : L -> V -> Prop),
    (forall l, items (new_list l) = Some (l, true)) -> (forall l, tuple_items (new_tuple l) = Some l) ->
    is_none none = true -> (forall l, is_none (new_list l) = false) -> (forall l, is_none (new_tuple l) = false) ->
    (forall l v, ok l v -> leaf l (of_leaf v) = Some v /\ is_none (of_leaf v) = false) ->
    forall t v, typed ok t v ->
      extract items tuple_items is_none leaf t (to_python of_leaf new_list new_tuple none v) = Some v.
Proof.
  intros O L V items tuple_items is_none leaf of_leaf new_list new_tuple none ok HL HT HN NL NT HV t.
  induction t as [l|t IH|t IH|t IHt u IHu]; intros v T; inversion T; subst; apply extract_iff.
  - constructor. now apply HV.
  - cbn. econstructor; [apply HL|]. clear T. induction vs as [|w vs IHv]; cbn; constructor.
    + apply extract_iff, IH. cbn in *. auto.
    + apply IHv. cbn in *. auto.
  - now constructor.
  - cbn. constructor; [|now apply extract_iff, IH].
    match goal with K : forall u, t <> Opt u, W : typed ok t _ |- _ =>
      destruct W; cbn; try apply NL; try apply NT; [eapply HV; eassumption| |]; now destruct (K t)
    end.
  - cbn. econstructor; [apply HT|now apply extract_iff, IHt|now apply extract_iff, IHu].
Qed.
Print Assumptions C129_round_trip.

(** LaneletWithStopLine can be made of a lanelet and a line string, None or nothing, and of nothing else. *)
Theorem C129_stop_line :
  forall (O V : Type) items tuple_items is_none (leaf : cpp_type -> O -> option V) none lanelet stop_line vs,
    is_none none = true ->
    with_stop_line items tuple_items is_none leaf none LaneletWithStopLine lanelet stop_line =
      Some (LaneletWithStopLine, vs) <->
    exists l, leaf TLanelet lanelet = Some l /\
      ((stop_line = None \/ exists o, stop_line = Some o /\ is_none o = true) /\ vs = [VLeaf l; VOpt None] \/
       exists o s, stop_line = Some o /\ is_none o = false /\ leaf TLineString3d o = Some s /\
         vs = [VLeaf l; VOpt (Some (VLeaf s))]).
Proof.
  intros O V items tuple_items is_none leaf none lanelet stop_line vs N. unfold with_stop_line.
  cbn. destruct (leaf TLanelet lanelet) as [l|]; cbn.
  2: { split; [discriminate|]. intros (l & E & _). discriminate. }
  destruct stop_line as [o|].
  - destruct (is_none o) eqn:E; cbn.
    + split.
      * intros [= <-]. exists l. split; [reflexivity|]. left. eauto.
      * intros (l' & [= <-] & [[_ ->]|(o' & s & [= <-] & F & _)]); [reflexivity|congruence].
    + destruct (leaf TLineString3d o) as [s|] eqn:S; cbn.
      * split.
        -- intros [= <-]. exists l. split; [reflexivity|]. right. exists o, s. auto.
        -- intros (l' & [= <-] & [[[F|(o' & [= <-] & F)] _]|(o' & s' & [= <-] & _ & S' & ->)]); congruence.
      * split; [discriminate|].
        intros (l' & _ & [[[F|(o' & [= <-] & F)] _]|(o' & s' & [= <-] & _ & S' & _)]); congruence.
  - rewrite N. cbn. split.
    + intros [= <-]. exists l. split; [reflexivity|]. left. auto.
    + intros (l' & [= <-] & [[_ ->]|(o' & s & F & _)]); [reflexivity|discriminate].
Qed.
Print Assumptions C129_stop_line.

(** ConstLaneletWithStopLine cannot be made in Python: its constructor raises for all arguments, also without a stop
    line, as no conversion to the Optional of a ConstLineString3d is registered. *)
Theorem C129_const_stop_line_refuted :
  forall (O V : Type) items tuple_items is_none (leaf : cpp_type -> O -> option V) none lanelet stop_line,
    (forall o, leaf TUnregistered o = None) ->
    with_stop_line items tuple_items is_none leaf none ConstLaneletWithStopLine lanelet stop_line = None.
Proof.
  intros O V items tuple_items is_none leaf none lanelet stop_line U. unfold with_stop_line. cbn.
  rewrite U. destruct (leaf TLanelet lanelet); reflexivity.
Qed.
Print Assumptions C129_const_stop_line_refuted.

(** A small Python: numbers, None, lists, tuples, and a generator that raises after some items. The leaf type [b] takes
    even numbers (true) or odd ones (false). *)
Inductive ex_obj := Num (z : Z) | None_ | List_ (l : list ex_obj) | Tuple_ (l : list ex_obj) | Gen (l : list ex_obj).
Definition ex_items (o : ex_obj) := match o with List_ l | Tuple_ l => Some (l, true) | Gen l => Some (l, false) | _ => None end.
Definition ex_tuple (o : ex_obj) := match o with Tuple_ l => Some l | _ => None end.
Definition ex_none (o : ex_obj) := match o with None_ => true | _ => false end.
Definition ex_leaf (b : bool) (o : ex_obj) :=
  match o with Num z => if Bool.eqb (Z.even z) b then Some z else None | _ => None end.

(** A function overloaded for lists of different types: the overload defined later takes every iterable, so that a list
    for the other one raises. The same holds of a parameter that is an Optional, which takes every object. *)
Theorem C129_overloads_refuted :
  ~ (forall (O L V F : Type) items tuple_items is_none (leaf : L -> O -> option V) (overloads : list (F * list (type L))) os,
       call items tuple_items is_none leaf overloads os = None ->
       forall f ts vs, In (f, ts) overloads -> ~ arguments items tuple_items is_none leaf ts os vs) /\
  call ex_items ex_tuple ex_none ex_leaf [(0, [Vec (Leaf true)]); (1, [Vec (Leaf false)])] [List_ [Num 3]] = None /\
  call ex_items ex_tuple ex_none ex_leaf [(0, [Opt (Leaf true)]); (1, [Leaf false])] [Num 3] = None /\
  call ex_items ex_tuple ex_none ex_leaf [(1, [Leaf false]); (0, [Opt (Leaf true)])] [Num 3] = Some (1, [VLeaf 3%Z]).
Proof.
  split; [|repeat split]. intros H.
  refine (H _ _ _ _ ex_items ex_tuple ex_none ex_leaf [(0, [Vec (Leaf true)]); (1, [Vec (Leaf false)])] [List_ [Num 3]]
            eq_refl 1 [Vec (Leaf false)] [VVec [VLeaf 3%Z]] (or_intror (or_introl eq_refl)) _).
  repeat econstructor.
Qed.
Print Assumptions C129_overloads_refuted.

(** An Optional of an Optional does not come back: an Optional that holds an empty one is given as None. *)
Theorem C129_nested_optional_refuted :
  extract ex_items ex_tuple ex_none ex_leaf (Opt (Opt (Leaf true))) (to_python Num List_ Tuple_ None_ (VOpt (Some (VOpt None)))) =
    Some (VOpt None).
Proof. reflexivity. Qed.
Print Assumptions C129_nested_optional_refuted.

(** Lanelets are numbers up to 9, line strings the others. *)
Definition ex_stop (c : cpp_type) (o : ex_obj) : option Z :=
  match c, o with
  | TLanelet, Num z => if (z <? 10)%Z then Some z else None
  | (TLineString3d | TConstLineString3d), Num z => if (z <? 10)%Z then None else Some z
  | _, _ => None
  end.

(** Not vacuous. *)
Example C129_nonvacuous :
  let ex := extract ex_items ex_tuple ex_none ex_leaf in
  ex (Vec (Opt (Leaf true))) (List_ [Num 4; None_; Num 2]) =
    Some (VVec [VOpt (Some (VLeaf 4%Z)); VOpt None; VOpt (Some (VLeaf 2%Z))]) /\
  ex (Vec (Leaf true)) (List_ [Num 4; Num 3]) = None /\
  ex (Vec (Leaf true)) (Gen [Num 4]) = None /\
  ex (Pair (Leaf true) (Leaf false)) (Tuple_ [Num 4; Num 3]) = Some (VPair (VLeaf 4%Z) (VLeaf 3%Z)) /\
  ex (Pair (Leaf true) (Leaf false)) (List_ [Num 4; Num 3]) = None /\
  ex (Pair (Leaf true) (Leaf false)) (Tuple_ [Num 4; Num 3; Num 3]) = None /\
  distance_to_lines ex_items ex_tuple ex_none ex_leaf true false (fun v => v) (List_ [Num 3]) = None /\
  distance_to_lines ex_items ex_tuple ex_none ex_leaf true false (fun v => v) (Tuple_ [Num 2]) = Some (VVec [VLeaf 2%Z]) /\
  to_python Num List_ Tuple_ None_ (VVec [VPair (VLeaf 4%Z) (VOpt None); VPair (VLeaf 2%Z) (VOpt (Some (VLeaf 3%Z)))]) =
    List_ [Tuple_ [Num 4; None_]; Tuple_ [Num 2; Num 3]] /\
  (let make := with_stop_line ex_items ex_tuple ex_none ex_stop None_ in
   make LaneletWithStopLine (Num 3) (Some (Num 12)) = Some (LaneletWithStopLine, [VLeaf 3%Z; VOpt (Some (VLeaf 12%Z))]) /\
   make LaneletWithStopLine (Num 3) None = Some (LaneletWithStopLine, [VLeaf 3%Z; VOpt None]) /\
   make LaneletWithStopLine (Num 3) (Some (Num 4)) = None /\
   make ConstLaneletWithStopLine (Num 3) (Some (Num 12)) = None) /\
  typed (fun b z => Z.even z = b) (Vec (Pair (Leaf true) (Opt (Leaf false))))
    (VVec [VPair (VLeaf 4%Z) (VOpt None); VPair (VLeaf 2%Z) (VOpt (Some (VLeaf 3%Z)))]).
Proof.
  cbv zeta. repeat (split; [reflexivity|]). split; [repeat split|]. constructor. intros v [<-|[<-|[]]]; repeat constructor. discriminate.
Qed.
