(** C117: the files written by exportGraphViz and exportGraphML. *)
From Coq Require Import NArith ZArith List Bool String Ascii Lia.
From Verif Require Import CostAlg GraphModel GraphProofs GraphProps AttrModel DotModel DotSpec DotProofs.
Import ListNotations.
Open Scope string_scope.

Section Props.
Context {A : CostAlg}.
Variable describe : elem -> described.
(** The text of a cost: any text without quotation mark. *)
Variable show : cost A -> string.
Hypothesis show_ok : forall c, snd (take not_quote (show c)) = "".
Variable opens : string -> bool.

Lemma show_quote c : allc not_quote (show c) = true.
Proof.
  assert (K : forall s, snd (take not_quote s) = "" -> allc not_quote s = true).
  { induction s as [|x s IH]; cbn; auto. destruct (not_quote x); [|discriminate]. destruct (take not_quote s). auto. }
  auto.
Qed.

(** A file is written if there is a name, a cost module of that number and the name can be opened, otherwise
    the errors are told apart. A reader of DOT gets from the file all vertices, by number and with the id, and
    of the edges exactly those of the cost module with a relation that was not excluded, in order, with
    relation, colour, number of the module and - if one can drive over it - the printed cost.
    Missing from the full property: the labels do not identify the vertices, see the refutation. *)
Theorem C117_graphviz_partial name exclude costid (g : graph A) :
  match export_graphviz describe show opens name exclude costid g with
  | InvalidInput _ => name = "" \/ (g_numcosts g <= costid)%N
  | ExportFails _ => name <> "" /\ (costid < g_numcosts g)%N /\ opens name = false
  | Wrote t => name <> "" /\ (costid < g_numcosts g)%N /\ opens name = true /\
      exists es l, picked (wanted_edge exclude costid) (g_edges g) es /\ read_dot t = Some l /\
        drawn (fun e => described_id (describe e)) show g es l
  end.
Proof.
  unfold export_graphviz, export. destruct name as [|c name]; [now left|].
  destruct (N.leb_spec (g_numcosts g) costid); [now right|]. cbv zeta.
  destruct (opens (String c name)); [|split; [discriminate|auto]].
  split; [discriminate|]. split; [auto|]. split; [auto|].
  exists (passing costid (mask_and all_relations (mask_not exclude)) g). eexists.
  split; [apply picked_passing|]. split; [apply read_written; apply show_quote|]. apply drawn_written.
Qed.

(** In the file of a graph that was built with its interface both ends of every arrow are declared vertices. *)
Theorem C117_declared n (ops : list (gop A)) name exclude costid t l :
  export_graphviz describe show opens name exclude costid (gbuild n ops) = Wrote t -> read_dot t = Some l ->
  forall u v a, In (Arrow u v a) l -> (exists b, In (Node u b) l) /\ (exists b, In (Node v b) l).
Proof.
  intros E R u v a H. assert (W := C117_graphviz_partial name exclude costid (gbuild n ops)). rewrite E in W.
  destruct W as (_ & _ & _ & es & l' & P & R' & vs & ar & -> & Lv & Hv & Ha). rewrite R in R'. injection R' as ->.
  assert (I : In (Arrow u v a) ar).
  { apply in_app_or in H as [H|H]; auto. exfalso. apply In_nth_error in H as (k & Hk).
    assert (k < List.length (g_verts (gbuild n ops))) as Lk.
    { rewrite <- Lv. apply nth_error_Some. congruence. }
    destruct (nth_error (g_verts (gbuild n ops)) k) as [x|] eqn:Ex; [|apply nth_error_None in Ex; lia].
    destruct (Hv k x Ex) as (s & Hs & t' & _ & ->). congruence. }
  assert (S : forall e, In e es -> In e (g_edges (gbuild n ops))).
  { clear - P. induction P; intros y Hy; auto; [|right; auto]. destruct Hy as [->|Hy]; [now left|right; auto]. }
  assert (D : exists e, In e es /\ e_src e = u /\ e_tgt e = v).
  { clear - Ha I. induction Ha as [|e s es ar K _ IH]; [destruct I|]. destruct I as [->|I].
    - destruct K as (? & ? & ? & _ & _ & K). injection K as -> -> _. exists e. cbn. auto.
    - destruct (IH I) as (e' & ? & ?). exists e'. cbn. auto. }
  destruct D as (e & He & <- & <-). destruct (go_edges _ (gbuild_ok n ops) e (S e He)) as (L1 & L2 & _).
  assert (N : forall k, k < List.length (g_verts (gbuild n ops)) -> exists b, In (Node k b) (vs ++ ar)%list).
  { intros k Lk. destruct (nth_error (g_verts (gbuild n ops)) k) as [x|] eqn:Ex; [|apply nth_error_None in Ex; lia].
    destruct (Hv k x Ex) as (s & Hs & t' & _ & ->). eexists. apply in_or_app. left. eapply nth_error_In; eauto. }
  split; auto.
Qed.

(** The GraphML document has a node for every vertex, from whose text the lanelet or area can be read with
    its direction and its bounds, and the same edges as the DOT file, all of them with a cost. *)
Theorem C117_graphml name exclude costid (g : graph A) :
  match export_graphml describe show opens name exclude costid g with
  | InvalidInput _ => name = "" \/ (g_numcosts g <= costid)%N
  | ExportFails _ => name <> "" /\ (costid < g_numcosts g)%N /\ opens name = false
  | Wrote d => name <> "" /\ (costid < g_numcosts g)%N /\ opens name = true /\
      Forall2 (fun e s => read_thing s = Some match describe e with
                                              | DLanelet i inv l li r ri => ALanelet i inv (l, li) (r, ri)
                                              | DArea i o ii => AnArea i o ii
                                              end) (g_verts g) (ml_nodes d) /\
      exists es, picked (wanted_edge exclude costid) (g_edges g) es /\
        Forall2 (fun e x => exists label color, named_relation (ei_rel (e_info e)) label color /\
                   x = (e_src e, e_tgt e, label, show (ei_cost (e_info e)))) es (ml_edges d)
  end.
Proof.
  unfold export_graphml, export. destruct name as [|c name]; [now left|].
  destruct (N.leb_spec (g_numcosts g) costid); [now right|]. cbv zeta.
  destruct (opens (String c name)); [|split; [discriminate|auto]].
  split; [discriminate|]. split; [auto|]. split; [auto|]. split.
  - cbn [ml_nodes write_graphml]. induction (g_verts g) as [|e r IH]; constructor; auto. rewrite read_described. now destruct (describe e).
  - eexists. split; [apply picked_passing|]. cbn [ml_edges write_graphml].
    induction (passing costid _ g) as [|e r IH]; constructor; auto.
    exists (relation_text (ei_rel (e_info e))), (relation_color (ei_rel (e_info e))). split; [apply named|reflexivity].
Qed.

(** The DOT file tells nothing that the GraphML document and the number of the cost module do not tell:
    graphs with equal documents have equal files. *)
Theorem C117_graphml_determines name exclude costid (g g' : graph A) exclude' d :
  export_graphml describe show opens name exclude costid g = Wrote d ->
  export_graphml describe show opens name exclude' costid g' = Wrote d ->
  exists t, export_graphviz describe show opens name exclude costid g = Wrote t /\
            export_graphviz describe show opens name exclude' costid g' = Wrote t.
Proof.
  unfold export_graphml, export_graphviz, export. destruct name as [|c name]; [discriminate|]. cbv zeta.
  destruct (g_numcosts g <=? costid)%N eqn:E1; [discriminate|]. destruct (g_numcosts g' <=? costid)%N eqn:E2; [discriminate|].
  destruct (opens (String c name)); [|discriminate].
  intros H H'. assert (K : write_graphml describe show costid (mask_and all_relations (mask_not exclude)) g =
                            write_graphml describe show costid (mask_and all_relations (mask_not exclude')) g')
    by congruence. clear H H'.
  eexists. split; [reflexivity|]. f_equal. unfold write_graphviz.
  set (m := mask_and all_relations (mask_not exclude)) in *. set (m' := mask_and all_relations (mask_not exclude')) in *.
  unfold write_graphml in K. injection K as KN KE.
  assert (V : forall n, vertex_lines describe n (g_verts g') = vertex_lines describe n (g_verts g)).
  { clear KE. revert KN. generalize (g_verts g) (g_verts g'). induction l as [|e l IH]; intros [|e' l'] KN n; try discriminate; auto.
    cbn in KN. injection KN as K1 K2. cbn [vertex_lines]. rewrite (IH l' K2). f_equal. unfold vertex_line.
    assert (T : Some (thing_of (describe e)) = Some (thing_of (describe e'))) by (rewrite <- !read_described; congruence).
    assert (X : described_id (describe e) = described_id (describe e')).
    { destruct (describe e), (describe e'); cbn in *; congruence. }
    now rewrite X. }
  assert (P : forall mm (gg : graph A) e, In e (passing costid mm gg) -> ei_costid (e_info e) = costid).
  { intros mm gg e H. apply filter_In in H as [_ H]. apply andb_true_iff in H as [H _]. now apply N.eqb_eq. }
  assert (X : edge_lines show (passing costid m' g') = edge_lines show (passing costid m g)).
  { assert (P1 := P m g). assert (P2 := P m' g'). revert KE P1 P2. generalize (passing costid m g) (passing costid m' g').
    clear. induction l as [|e l IH]; intros [|e' l'] KE P1 P2; try discriminate; auto.
    cbn [map] in KE. injection KE as S1 S2 S3 S4 KE. cbn [edge_lines]. rewrite (IH l' KE); [|intros; apply P1; now right|intros; apply P2; now right].
    f_equal. unfold edge_line. rewrite S1, S2.
    assert (R : ei_rel (e_info e) = ei_rel (e_info e')) by (destruct (ei_rel (e_info e)), (ei_rel (e_info e')); try reflexivity; discriminate).
    unfold edge_text. rewrite R, S4, (P1 e (or_introl eq_refl)), (P2 e' (or_introl eq_refl)). reflexivity. }
  now rewrite V, X.
Qed.
End Props.
Print Assumptions C117_graphviz_partial.
Print Assumptions C117_declared.
Print Assumptions C117_graphml.
Print Assumptions C117_graphml_determines.

(** An example: the small graph of C16, written with integer costs. *)
Definition ex_describe (e : elem) : described :=
  match e with
  | ELanelet d inv => DLanelet (Z.of_N d) inv (Z.of_N (10 * d)) inv (Z.of_N (10 * d + 1)) inv
  | EArea d => DArea (Z.of_N d) [-5; 6]%Z [[7]; []]%Z
  end.
Definition ex_show (c : cost ZCost) : string := match c with Some z => print_Z z | None => "inf" end.
Definition ex_opens (s : string) : bool := String.eqb s "g.gv".
Lemma ex_show_ok c : snd (take not_quote (ex_show c)) = "".
Proof.
  assert (K : forall s, allc not_quote s = true -> snd (take not_quote s) = "").
  { induction s as [|x s IH]; cbn; auto. destruct (not_quote x); [|discriminate]. intros H. specialize (IH H). now destruct (take not_quote s). }
  apply K. destruct c as [z|]; [apply sign_not_quote, print_sign|reflexivity].
Qed.

Example C117_nonvacuous :
  (exists t, export_graphviz ex_describe ex_show ex_opens "g.gv" 2 0 ex_graph = Wrote t /\
     read_dot t = Some [Node 0 [("label", "1"); ("lanelet", "1")]; Node 1 [("label", "2"); ("lanelet", "2")];
                        Node 2 [("label", "3"); ("lanelet", "3")]; Node 3 [("label", "9"); ("lanelet", "9")];
                        Arrow 0 1 [("label", "Successor"); ("color", "green"); ("weight", "5"); ("routingCostId", "0")];
                        Arrow 2 0 [("label", "Right"); ("color", "magenta"); ("weight", "2"); ("routingCostId", "0")];
                        Arrow 1 2 [("label", "Conflicting"); ("color", "red"); ("routingCostId", "0")];
                        Arrow 0 3 [("label", "Area"); ("color", "yellow"); ("weight", "4"); ("routingCostId", "0")]]) /\
  export_graphml ex_describe ex_show ex_opens "g.gv" 65 0 ex_graph =
    Wrote (GraphML ["[id: 1, left id: 10, right id: 11]"; "[id: 2, left id: 20, right id: 21]";
                    "[id: 3, left id: 30, right id: 31]"; "[id: 9 outer: [-5,6,] inner: [7,][]]"]
                   [(0, 2, "Left", "2"); (2, 0, "Right", "2"); (1, 2, "Conflicting", "1")]) /\
  export_graphviz ex_describe ex_show ex_opens "" 0 5 ex_graph = InvalidInput "No filename passed" /\
  export_graphml ex_describe ex_show ex_opens "/none" 0 1 ex_graph =
    InvalidInput "Routing Cost ID is higher than the number of routing modules." /\
  export_graphml ex_describe ex_show ex_opens "/none" 0 0 ex_graph = ExportFails "Could not open file at /none." /\
  (forall c, snd (take not_quote (ex_show c)) = "").
Proof.
  split; [eexists; split; [reflexivity|vm_compute; reflexivity]|]. split; [vm_compute; reflexivity|].
  split; [reflexivity|]. split; [reflexivity|]. split; [reflexivity|]. exact ex_show_ok.
Qed.

(** Documented: "GraphViz … bears little more information than graphML export" (RoutingGraph.h:440). It bears
    less: the label of a vertex is only the id, the same for both directions of a lanelet. Two graphs in which
    one drives a lanelet in opposite directions have one DOT file, their GraphML documents differ. *)
Definition one_way (inv : bool) : graph ZCost :=
  gbuild 1 [OpVertex (ELanelet 1 inv); OpVertex (ll 2);
            OpEdge (ELanelet 1 inv) (ll 2) (EInfo (A := ZCost) (Some 5%Z) 0 Successor)].
Theorem C117_direction_refuted :
  export_graphviz ex_describe ex_show ex_opens "g.gv" 0 0 (one_way true) =
  export_graphviz ex_describe ex_show ex_opens "g.gv" 0 0 (one_way false) /\
  export_graphml ex_describe ex_show ex_opens "g.gv" 0 0 (one_way true) <>
  export_graphml ex_describe ex_show ex_opens "g.gv" 0 0 (one_way false) /\
  (exists t u v a, export_graphviz ex_describe ex_show ex_opens "g.gv" 0 0
       (gbuild 1 [OpVertex (ELanelet 1 false); OpVertex (ELanelet 1 true)]) = Wrote t /\
     read_dot t = Some [Node u a; Node v a] /\ u <> v).
Proof.
  split; [reflexivity|]. split; [vm_compute; discriminate|].
  do 4 eexists. split; [reflexivity|]. split; [vm_compute; reflexivity|discriminate].
Qed.
Print Assumptions C117_direction_refuted.
