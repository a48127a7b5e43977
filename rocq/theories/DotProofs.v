(** Proofs about the export of the routing graph. *)
From Coq Require Import NArith ZArith List Bool String Ascii Lia DecimalString Decimal DecimalZ.
From Verif Require Import CostAlg GraphModel AttrModel AttrProofs DotModel DotSpec.
Import ListNotations.
Open Scope string_scope.

(** * Strings *)
Fixpoint allc (p : ascii -> bool) (s : string) : bool :=
  match s with EmptyString => true | String c r => p c && allc p r end.
Definition stops (p : ascii -> bool) (s : string) : bool := match s with EmptyString => true | String c _ => negb (p c) end.

Lemma app_assoc_s (a b c : string) : (a ++ b) ++ c = a ++ b ++ c.
Proof. induction a as [|x a IH]; [reflexivity|]. cbn. now rewrite IH. Qed.

Lemma length_app a b : String.length (a ++ b) = String.length a + String.length b.
Proof. induction a as [|x a IH]; [reflexivity|]. cbn. now rewrite IH. Qed.

Lemma take_app p a s : allc p a = true -> stops p s = true -> take p (a ++ s) = (a, s).
Proof.
  induction a as [|c a IH]; cbn; intros Ha Hs.
  - destruct s as [|c s]; [reflexivity|]. cbn in *. now destruct (p c).
  - apply andb_true_iff in Ha as [H1 H2]. rewrite H1, IH; auto.
Qed.

Lemma behind_app l s : behind l (l ++ s) = Some s.
Proof. induction l as [|c l IH]; [reflexivity|]. cbn. now rewrite Ascii.eqb_refl. Qed.

(** * Numbers *)
Lemma digits_digit u : allc is_digit (NilZero.string_of_uint u) = true.
Proof.
  assert (K : forall u, allc is_digit (NilEmpty.string_of_uint u) = true).
  { clear. induction u; cbn; auto. }
  destruct u; try reflexivity; apply (K (_ u)).
Qed.

Lemma allc_weaken (p q : ascii -> bool) s : (forall c, p c = true -> q c = true) -> allc p s = true -> allc q s = true.
Proof.
  intros H. induction s as [|c s IH]; cbn; auto. intros K. apply andb_true_iff in K as [K1 K2].
  now rewrite (H _ K1), IH.
Qed.

Lemma print_sign z : allc is_sign (print_Z z) = true.
Proof.
  unfold print_Z. destruct (Z.to_int z) as [u|u]; cbn.
  - eapply allc_weaken; [|apply digits_digit]. intros c H. unfold is_sign. now rewrite H.
  - eapply allc_weaken; [|apply digits_digit]. intros c H. unfold is_sign. now rewrite H.
Qed.

Lemma print_digit n : allc is_digit (print_nat n) = true.
Proof. unfold print_nat, print_Z. destruct n; cbn [Z.of_nat Z.to_int]; apply digits_digit. Qed.

Lemma number_print z : number (print_Z z) = Some z.
Proof.
  unfold number, print_Z. destruct (to_int_nz z) as [N1 N2]. rewrite NilZero.isi by auto. cbn. now rewrite DecimalZ.of_to.
Qed.

Lemma print_cons n : exists c r, print_nat n = String c r /\ is_digit c = true.
Proof.
  assert (H := print_digit n). destruct (print_nat n) as [|c r] eqn:E.
  - exfalso. assert (K := number_print (Z.of_nat n)). unfold print_nat in E. rewrite E in K. discriminate.
  - exists c, r. split; auto. cbn in H. now apply andb_true_iff in H.
Qed.

Lemma index_print n s : stops is_digit s = true -> index (print_nat n ++ s) = Some (n, s).
Proof.
  intros H. unfold index. rewrite take_app; auto using print_digit. cbn. unfold print_nat. rewrite number_print. cbn.
  now rewrite Nat2Z.id.
Qed.

Lemma integer_print z s : stops is_sign s = true -> integer (print_Z z ++ s) = Some (z, s).
Proof. intros H. unfold integer. rewrite take_app; auto using print_sign. cbn. now rewrite number_print. Qed.

Lemma sign_not_quote s : allc is_sign s = true -> allc not_quote s = true.
Proof.
  apply allc_weaken. intros c H. unfold not_quote. destruct (Ascii.eqb_spec c """"); auto. subst. discriminate.
Qed.

Lemma print_nonempty z : exists c r, print_Z z = String c r /\ is_sign c = true.
Proof.
  assert (H := print_sign z). destruct (print_Z z) as [|c r] eqn:E.
  - exfalso. assert (K := number_print z). rewrite E in K. discriminate.
  - exists c, r. split; auto. cbn in H. now apply andb_true_iff in H.
Qed.

(** * The texts of lanelets and areas *)
Definition thing_of (d : described) : thing :=
  match d with
  | DLanelet i inv l li r ri => ALanelet i inv (l, li) (r, ri)
  | DArea i o ii => AnArea i o ii
  end.

Lemma numbers_copied l s fuel : List.length l < fuel -> numbers fuel (copied l ++ "]" ++ s) = Some (l, s).
Proof.
  revert fuel. induction l as [|z l IH]; intros fuel H; (destruct fuel as [|f]; [cbn in H; lia|]); cbn [numbers copied].
  - reflexivity.
  - destruct (print_nonempty z) as (c & r & E & Hc).
    assert (B : behind "]" ((print_Z z ++ "," ++ copied l) ++ "]" ++ s) = None).
    { rewrite E. cbn. destruct c as [[] [] [] [] [] [] [] []]; try reflexivity; discriminate. }
    rewrite B. rewrite app_assoc_s, integer_print by reflexivity. rewrite app_assoc_s, behind_app.
    rewrite IH by (cbn in H; lia). reflexivity.
Qed.

Lemma copied_length l : List.length l <= String.length (copied l).
Proof. induction l as [|z l IH]; cbn [copied List.length]; [apply le_n|]. rewrite !length_app. cbn. lia. Qed.

Lemma lists_copied l s fuel : List.length l < fuel -> behind "[" s = None ->
  lists fuel (copied_rings l ++ s) = Some (l, s).
Proof.
  revert fuel. induction l as [|x l IH]; intros fuel H Hs; (destruct fuel as [|f]; [cbn in H; lia|]); cbn [lists copied_rings].
  - change ("" ++ s) with s. now rewrite Hs.
  - rewrite app_assoc_s, behind_app, !app_assoc_s.
    rewrite numbers_copied by (rewrite !length_app; cbn; assert (K := copied_length x); lia).
    rewrite IH by (auto; cbn in H; lia). reflexivity.
Qed.

Lemma rings_length l : List.length l <= String.length (copied_rings l).
Proof. induction l as [|z l IH]; cbn [copied_rings List.length]; [apply le_n|]. rewrite !length_app. cbn. lia. Qed.

Lemma bound_print z (i : bool) s : stops is_sign s = true -> behind " (inverted)" s = None ->
  bound (print_Z z ++ (if i then " (inverted)" else "") ++ s) = Some ((z, i), s).
Proof.
  intros H1 H2. unfold bound. rewrite integer_print by (destruct i; auto). unfold optional.
  destruct i; [now rewrite behind_app|]. change ("" ++ s) with s. now rewrite H2.
Qed.

Lemma read_described d : read_thing (described_text d) = Some (thing_of d).
Proof.
  unfold read_thing. destruct d as [i inv l li r ri|i outer inner]; cbn [described_text thing_of]; rewrite behind_app.
  - rewrite integer_print by (destruct inv; reflexivity). unfold optional at 1.
    assert (E : match behind ", inverted" ((if inv then ", inverted" else "") ++ ", left id: " ++ print_Z l ++
                   (if li then " (inverted)" else "") ++ ", right id: " ++ print_Z r ++ (if ri then " (inverted)" else "") ++ "]") with
                | Some r0 => (true, r0)
                | None => (false, (if inv then ", inverted" else "") ++ ", left id: " ++ print_Z l ++
                   (if li then " (inverted)" else "") ++ ", right id: " ++ print_Z r ++ (if ri then " (inverted)" else "") ++ "]")
                end = (inv, ", left id: " ++ print_Z l ++
                   (if li then " (inverted)" else "") ++ ", right id: " ++ print_Z r ++ (if ri then " (inverted)" else "") ++ "]")).
    { destruct inv; [now rewrite behind_app|reflexivity]. }
    rewrite E. rewrite behind_app, bound_print by reflexivity. rewrite behind_app, bound_print by reflexivity. reflexivity.
  - rewrite integer_print by (destruct outer, inner; reflexivity).
    assert (E : optional ", inverted" (match outer with [] => "" | _ => " outer: [" ++ copied outer ++ "]" end ++
                  match inner with [] => "" | _ => " inner: " ++ copied_rings inner end ++ "]") =
                (false, match outer with [] => "" | _ => " outer: [" ++ copied outer ++ "]" end ++
                  match inner with [] => "" | _ => " inner: " ++ copied_rings inner end ++ "]"))
      by (destruct outer, inner; reflexivity).
    rewrite E. clear E.
    assert (E : behind ", left id: " (match outer with [] => "" | _ => " outer: [" ++ copied outer ++ "]" end ++
                  match inner with [] => "" | _ => " inner: " ++ copied_rings inner end ++ "]") = None)
      by (destruct outer, inner; reflexivity).
    rewrite E. clear E.
    set (rest := match inner with [] => "" | _ => " inner: " ++ copied_rings inner end ++ "]").
    assert (E : match behind " outer: [" (match outer with [] => "" | _ => " outer: [" ++ copied outer ++ "]" end ++ rest) with
                | Some r => numbers (String.length r) r
                | None => Some ([], match outer with [] => "" | _ => " outer: [" ++ copied outer ++ "]" end ++ rest)
                end = Some (outer, rest)).
    { destruct outer as [|z o]; [unfold rest; destruct inner; reflexivity|].
      set (oo := z :: o). rewrite app_assoc_s, behind_app, app_assoc_s. apply numbers_copied.
      rewrite !length_app. cbn [String.length]. assert (K := copied_length oo). lia. }
    rewrite E. unfold rest.
    destruct inner as [|x inner]; [reflexivity|].
    set (ii := x :: inner). rewrite app_assoc_s, behind_app.
    rewrite lists_copied; [reflexivity| |reflexivity].
    rewrite length_app. cbn [String.length]. assert (K := rings_length ii). lia.
Qed.

(** * Statements *)
Section Dot.
Context {A : CostAlg}.
Variable describe : elem -> described.
Variable show : cost A -> string.
Hypothesis show_ok : forall c, allc not_quote (show c) = true.

Definition node_stmt (n : nat) (e : elem) : statement :=
  let t := print_Z (described_id (describe e)) in Node n [("label", t); ("lanelet", t)].
Definition arrow_attrs (i : einfo A) : list attribute :=
  [("label", relation_text (ei_rel i)); ("color", relation_color (ei_rel i))] ++
  (if reachable (ei_rel i) then [("weight", show (ei_cost i))] else []) ++
  [("routingCostId", print_Z (Z.of_N (ei_costid i)))].
Definition arrow_stmt (e : edge A) : statement := Arrow (e_src e) (e_tgt e) (arrow_attrs (e_info e)).

(** One attribute. *)
Lemma attr_last key value s f : allc is_letter key = true -> allc not_quote value = true ->
  attributes (S f) (key ++ "=""" ++ value ++ """]" ++ s) = Some ([(key, value)], s).
Proof.
  intros H1 H2. cbn [attributes]. rewrite take_app by auto. rewrite behind_app, take_app by auto.
  rewrite behind_app. reflexivity.
Qed.
Lemma attr_more key value s f l r : allc is_letter key = true -> allc not_quote value = true ->
  attributes f s = Some (l, r) ->
  attributes (S f) (key ++ "=""" ++ value ++ """ " ++ s) = Some ((key, value) :: l, r).
Proof.
  intros H1 H2 H3. cbn [attributes]. rewrite take_app by auto. rewrite behind_app, take_app by auto.
  rewrite behind_app, H3. reflexivity.
Qed.

Lemma relation_text_ok r : allc not_quote (relation_text r) = true.
Proof. now destruct r. Qed.
Lemma relation_color_ok r : allc not_quote (relation_color r) = true.
Proof. now destruct r. Qed.

Lemma edge_text_read (i : einfo A) s f : 4 <= f ->
  exists r, edge_text show i ++ s = "[" ++ r /\ 4 <= String.length r /\ attributes f r = Some (arrow_attrs i, s).
Proof.
  intros Hf. destruct f as [|[|[|[|f]]]]; try lia. unfold edge_text, arrow_attrs.
  set (w := print_Z (Z.of_N (ei_costid i))).
  assert (W : allc not_quote w = true) by (apply sign_not_quote, print_sign).
  assert (L : forall f, attributes (S f) ("routingCostId" ++ "=""" ++ w ++ """]" ++ s) = Some ([("routingCostId", w)], s))
    by (intros; apply attr_last; auto).
  destruct (reachable (ei_rel i)) eqn:R.
  - exists ("label" ++ "=""" ++ relation_text (ei_rel i) ++ """ " ++ "color" ++ "=""" ++ relation_color (ei_rel i) ++ """ " ++
            "weight" ++ "=""" ++ show (ei_cost i) ++ """ " ++ "routingCostId" ++ "=""" ++ w ++ """]" ++ s).
    split; [|split].
    + rewrite ?app_assoc_s.
      replace (negb (relation_eqb (ei_rel i) AdjacentLeft) && negb (relation_eqb (ei_rel i) AdjacentRight) &&
               negb (relation_eqb (ei_rel i) Conflicting)) with true by (destruct (ei_rel i); try discriminate; reflexivity).
      rewrite ?app_assoc_s. reflexivity.
    + rewrite length_app. cbn. lia.
    + apply attr_more; auto using relation_text_ok. apply attr_more; auto using relation_color_ok. apply attr_more; auto.
  - exists ("label" ++ "=""" ++ relation_text (ei_rel i) ++ """ " ++ "color" ++ "=""" ++ relation_color (ei_rel i) ++ """ " ++
            "routingCostId" ++ "=""" ++ w ++ """]" ++ s).
    split; [|split].
    + rewrite ?app_assoc_s.
      replace (negb (relation_eqb (ei_rel i) AdjacentLeft) && negb (relation_eqb (ei_rel i) AdjacentRight) &&
               negb (relation_eqb (ei_rel i) Conflicting)) with false by (destruct (ei_rel i); try discriminate; reflexivity).
      reflexivity.
    + rewrite length_app. cbn. lia.
    + apply attr_more; auto using relation_text_ok. apply attr_more; auto using relation_color_ok.
Qed.

Lemma not_end n s : behind ("}" ++ String "010" "") (print_nat n ++ s) = None.
Proof.
  destruct (print_cons n) as (c & r & E & H). rewrite E. cbn.
  destruct c as [[] [] [] [] [] [] [] []]; try reflexivity; discriminate.
Qed.

Lemma edge_lines_read es : forall fuel, List.length es < fuel ->
  statements fuel (edge_lines show es ++ "}" ++ newline) = Some (map arrow_stmt es).
Proof.
  induction es as [|e es IH]; intros fuel H; (destruct fuel as [|f]; [cbn in H; lia|]); cbn [statements edge_lines map].
  - reflexivity.
  - unfold edge_line. rewrite ?app_assoc_s, not_end, index_print by reflexivity.
    rewrite behind_app, index_print by reflexivity.
    set (rest := ";" ++ newline ++ edge_lines show es ++ "}" ++ newline).
    destruct (edge_text_read (e_info e) rest 4 (le_n 4)) as (r & E & Lr & _). rewrite E.
    change (" " ++ "[" ++ r) with (" [" ++ r). rewrite behind_app. cbn [option_map].
    destruct (edge_text_read (e_info e) rest (String.length r) Lr) as (r' & E' & _ & K).
    assert (r = r') as <-. { rewrite E in E'. cbn in E'. now injection E'. }
    rewrite K. unfold rest. change (";" ++ newline ++ edge_lines show es ++ "}" ++ newline)
      with ((";" ++ String "010" "") ++ edge_lines show es ++ "}" ++ newline).
    rewrite behind_app, IH by (cbn in H; lia). reflexivity.
Qed.

Fixpoint node_stmts (n : nat) (l : list elem) : list statement :=
  match l with [] => [] | e :: r => node_stmt n e :: node_stmts (S n) r end.

Lemma vertex_lines_read es vs : forall n fuel, List.length vs + List.length es < fuel ->
  statements fuel (vertex_lines describe n vs ++ edge_lines show es ++ "}" ++ newline) =
  Some (node_stmts n vs ++ map arrow_stmt es)%list.
Proof.
  induction vs as [|e vs IH]; intros n fuel H.
  - cbn [vertex_lines node_stmts app]. apply edge_lines_read. exact H.
  - destruct fuel as [|f]; [cbn in H; lia|]. cbn [statements vertex_lines node_stmts].
    unfold vertex_line. cbv zeta. set (id := print_Z (described_id (describe e))).
    assert (W : allc not_quote id = true) by (apply sign_not_quote, print_sign).
    rewrite ?app_assoc_s, not_end, index_print by reflexivity.
    set (rest := ";" ++ newline ++ vertex_lines describe (S n) vs ++ edge_lines show es ++ "}" ++ newline).
    set (r := "label" ++ "=""" ++ id ++ """ " ++ "lanelet" ++ "=""" ++ id ++ """]" ++ rest).
    assert (E : "[label=""" ++ id ++ """ lanelet=""" ++ id ++ """]" ++ rest = "[" ++ r) by reflexivity.
    rewrite E. assert (B : behind "->" ("[" ++ r) = None) by reflexivity. rewrite B, behind_app. cbn [option_map].
    assert (K : exists f, String.length r = S (S f)).
    { unfold r. rewrite length_app. cbn [String.length]. eexists. cbn. reflexivity. }
    destruct K as (k & K). rewrite K.
    assert (X : attributes (S (S k)) r = Some ([("label", id); ("lanelet", id)], rest)).
    { apply attr_more; auto. apply attr_last; auto. }
    rewrite X. unfold rest. change (";" ++ newline ++ vertex_lines describe (S n) vs ++ edge_lines show es ++ "}" ++ newline)
      with ((";" ++ String "010" "") ++ vertex_lines describe (S n) vs ++ edge_lines show es ++ "}" ++ newline).
    rewrite behind_app, IH by (cbn in H; lia). reflexivity.
Qed.

Lemma lines_length es n vs : List.length vs + List.length es <
  String.length (vertex_lines describe n vs ++ edge_lines show es ++ "}" ++ newline).
Proof.
  revert n. induction vs as [|e vs IH]; intros n; cbn [vertex_lines List.length].
  - change ("" ++ edge_lines show es ++ "}" ++ newline) with (edge_lines show es ++ "}" ++ newline).
    induction es as [|x es IH]; cbn [edge_lines List.length]; [cbn; lia|].
    rewrite app_assoc_s, length_app. unfold edge_line. rewrite !length_app in *. cbn in *. lia.
  - specialize (IH (S n)). rewrite app_assoc_s, length_app. unfold vertex_line. cbv zeta. rewrite !length_app in *. cbn in *. lia.
Qed.

Lemma read_written costid mask (g : graph A) :
  read_dot (write_graphviz describe show costid mask g) =
  Some (node_stmts 0 (g_verts g) ++ map arrow_stmt (passing costid mask g))%list.
Proof.
  unfold read_dot, write_graphviz.
  change ("digraph G {" ++ newline ++ vertex_lines describe 0 (g_verts g) ++ edge_lines show (passing costid mask g) ++ "}" ++ newline)
    with (("digraph G {" ++ String "010" "") ++ vertex_lines describe 0 (g_verts g) ++ edge_lines show (passing costid mask g) ++ "}" ++ newline).
  rewrite behind_app. apply vertex_lines_read, lines_length.
Qed.

Lemma node_stmts_nth vs : forall n k e, nth_error vs k = Some e -> nth_error (node_stmts n vs) k = Some (node_stmt (n + k) e).
Proof.
  induction vs as [|x vs IH]; intros n [|k] e H; try discriminate; cbn in *.
  - injection H as ->. now rewrite Nat.add_0_r.
  - rewrite (IH (S n) k e H). f_equal. f_equal. lia.
Qed.
Lemma node_stmts_length vs : forall n, List.length (node_stmts n vs) = List.length vs.
Proof. induction vs as [|x vs IH]; intros n; cbn; auto. Qed.

Lemma named r : named_relation r (relation_text r) (relation_color r).
Proof. destruct r; constructor. Qed.

Lemma drawn_written g es : drawn (fun e => described_id (describe e)) show g es (node_stmts 0 (g_verts g) ++ map arrow_stmt es)%list.
Proof.
  exists (node_stmts 0 (g_verts g)), (map arrow_stmt es). split; auto. split; [apply node_stmts_length|]. split.
  - intros n e H. exists (node_stmt n e). split; [now apply (node_stmts_nth _ 0)|].
    exists (print_Z (described_id (describe e))). split; auto using number_print.
  - induction es as [|e es IH]; constructor; auto.
    exists (relation_text (ei_rel (e_info e))), (relation_color (ei_rel (e_info e))), (print_Z (Z.of_N (ei_costid (e_info e)))).
    split; [apply named|]. split; [apply number_print|reflexivity].
Qed.

(** * Which edges *)
Lemma passes_wanted exclude costid (e : edge A) :
  edge_passes costid (mask_and all_relations (mask_not exclude)) (e_info e) = true <-> wanted_edge exclude costid e.
Proof.
  unfold edge_passes, wanted_edge.
  assert (T : forall k, N.testbit (mask_and all_relations (mask_not exclude)) k =
              N.testbit all_relations k && negb (N.testbit exclude k)).
  { intros k. unfold mask_and, mask_not. rewrite N.land_spec, N.lxor_spec. unfold all_relations.
    destruct (N.ltb_spec k 7).
    - assert (k = 0 \/ k = 1 \/ k = 2 \/ k = 3 \/ k = 4 \/ k = 5 \/ k = 6)%N as D by lia.
      destruct D as [-> | [-> | [-> | [-> | [-> | [-> | ->]]]]]]; destruct (N.testbit exclude _); reflexivity.
    - change 127%N with (N.ones 7). now rewrite N.ones_spec_high. }
  assert (B : forall r, r <> RNone -> exists j, (j < 7)%N /\ forall k, N.testbit (bits r) k = N.eqb k j).
  { intros r Hn. assert (P : forall j k, N.testbit (2 ^ j) k = N.eqb k j).
    { intros j k. rewrite N.pow2_bits_eqb. apply N.eqb_sym. }
    destruct r; try congruence;
      [exists 0%N|exists 1%N|exists 2%N|exists 3%N|exists 4%N|exists 5%N|exists 6%N]; (split; [lia|]); intros k; rewrite <- P; reflexivity. }
  rewrite andb_true_iff, N.eqb_eq. apply and_iff_compat_l.
  destruct (relation_eqb (ei_rel (e_info e)) RNone) eqn:Hr.
  { assert (ei_rel (e_info e) = RNone) as -> by (destruct (ei_rel (e_info e)); try discriminate; reflexivity).
    change (bits RNone) with 0%N. unfold mask_and at 2. rewrite N.land_0_r. change (negb (0 =? 0)%N) with false. rewrite orb_false_r.
    rewrite N.eqb_eq. split.
    - intros E k Hk. destruct (N.leb_spec 7 k) as [|Lk]; auto. exfalso. assert (X := T k). rewrite E, Hk, andb_false_r in X.
      change all_relations with (N.ones 7) in X. rewrite N.ones_spec_low in X by auto. discriminate.
    - intros H. apply N.bits_inj. intros k. rewrite T. destruct (N.testbit exclude k) eqn:E; [|now rewrite andb_true_r].
      rewrite andb_false_r. change all_relations with (N.ones 7). symmetry. apply N.ones_spec_high. auto. }
  assert (ei_rel (e_info e) <> RNone) as Hn by (intros E; rewrite E in Hr; discriminate).
  destruct (B _ Hn) as (j & Hj & Bj).
  replace (forall k, N.testbit exclude k = true ->
    match ei_rel (e_info e) with RNone => (7 <= k)%N | r => N.testbit (bits r) k = false end) with
    (forall k, N.testbit exclude k = true -> N.testbit (bits (ei_rel (e_info e))) k = false)
    by (destruct (ei_rel (e_info e)); congruence || reflexivity).
  assert (Aj : N.testbit all_relations j = true).
  { change all_relations with (N.ones 7). now rewrite N.ones_spec_low. }
  assert (M : N.eqb (mask_and (mask_and all_relations (mask_not exclude)) (bits (ei_rel (e_info e)))) 0 = N.testbit exclude j).
  { destruct (N.testbit exclude j) eqn:E.
    - apply N.eqb_eq, N.bits_inj. intros k. unfold mask_and at 1. rewrite N.land_spec, T, Bj, N.bits_0.
      destruct (N.eqb_spec k j) as [->|]; [|now rewrite andb_false_r]. now rewrite E, andb_false_r.
    - apply N.eqb_neq. intros K. apply (f_equal (fun m => N.testbit m j)) in K. unfold mask_and at 1 in K.
      rewrite N.land_spec, T, Bj, N.bits_0, N.eqb_refl, Aj, E in K. discriminate. }
  rewrite M. split.
  - intros H k Hk. rewrite Bj. destruct (N.eqb_spec k j) as [->|]; auto. exfalso.
    apply orb_true_iff in H as [H|H]; [|now rewrite Hk in H].
    apply N.eqb_eq in H. assert (X := T j). rewrite H, Aj, Hk in X. discriminate.
  - intros H. destruct (N.testbit exclude j) eqn:E; [|now rewrite orb_true_r].
    specialize (H j E). rewrite Bj, N.eqb_refl in H. discriminate.
Qed.

Lemma picked_filter {T} (P : T -> Prop) (f : T -> bool) l : (forall x, In x l -> f x = true <-> P x) -> picked P l (filter f l).
Proof.
  induction l as [|x l IH]; intros H; cbn; [constructor|].
  assert (K : picked P l (filter f l)) by (apply IH; intros y Hy; apply H; now right).
  assert (Hx := H x (or_introl eq_refl)). destruct (f x) eqn:E.
  - apply p_take; auto. now apply Hx.
  - apply p_leave; auto. intros HP. apply Hx in HP. congruence.
Qed.

Lemma picked_passing exclude costid (g : graph A) :
  picked (wanted_edge exclude costid) (g_edges g) (passing costid (mask_and all_relations (mask_not exclude)) g).
Proof. apply picked_filter. intros e He. apply passes_wanted. Qed.
End Dot.
