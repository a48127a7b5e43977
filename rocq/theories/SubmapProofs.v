(** Proofs about submaps. *)
From Coq Require Import ZArith List Bool Lia.
From Verif Require Import MapModel MapSpec MapProofs MapProofs2 MapProofs3 SubmapModel SubmapSpec.
Import ListNotations.
Open Scope Z_scope.

(** * Only what is referenced is added *)
Section only.
Variable hp : heap.
Hypothesis HO : heap_ok hp.
Variable idf : nat -> Z.
Variable P : nat -> Prop.
Hypothesis closed : forall h k b, P (fst h) -> references hp idf h k b -> P b.

Definition only (s s' : mstate) : Prop := forall k i h, element s' k i h -> element s k i h \/ P (fst h).
Lemma only_refl s : only s s. Proof. intros k i h H. auto. Qed.
Lemma only_trans a b c : only a b -> only b c -> only a c.
Proof. intros A B k i h H. apply B in H as [H|H]; auto. Qed.
Lemma only_layers s s' : (forall k, m_layer s' k = m_layer s k) -> only s s'.
Proof. intros E k i h H. unfold element in *. rewrite E in H. auto. Qed.
Lemma only_layer_add k h s : P (h_addr h) -> only s (layer_add hp k h s).
Proof.
  intros Ph k' i x H. unfold element, layer_add in H. cbn in H. destruct (kind_eqb k' k) eqn:K; [|auto]. apply kind_eqb_true in K. subst k'.
  cbn in H. unfold insert_elem in H. destruct (lookup _ _); [auto|]. apply in_app_or in H as [H|[H|[]]]; [auto|]. injection H as _ <-. auto.
Qed.
Lemma only_begin k a s s1 : begin_add k a s = Some s1 -> only s s1.
Proof. intros E. apply only_layers. intros k'. eapply begin_layers; eauto. Qed.
Lemma only_point a s : P a -> only s (add_point hp a s).
Proof.
  intros Pa. unfold add_point. destruct (begin_add KPoint a s) eqn:E; [|apply only_refl].
  eapply only_trans; [eapply only_begin; eauto|]. apply only_layer_add. exact Pa.
Qed.
Lemma only_points l : forall s, (forall p, In p l -> P p) -> only s (add_points hp l s).
Proof.
  induction l as [|p l IH]; intros s H; [apply only_refl|]. unfold add_points. cbn [fold_left].
  eapply only_trans; [apply only_point; apply H; left; auto|]. apply IH. intros q Hq. apply H. right. auto.
Qed.
Lemma P_points h : P (h_addr h) -> forall p, In p (points_of hp h) -> P p.
Proof.
  intros Ph p Hp. unfold points_of in Hp. unfold h_addr in *. destruct (obj hp (fst h)) as [[]|] eqn:E; try contradiction.
  - apply (closed h KPoint); [exact Ph|]. eapply ref_line_point; [exact E|]. destruct (snd h); [apply in_rev|]; auto.
  - apply (closed h KPoint); [exact Ph|]. eapply ref_poly_point; eauto.
Qed.
Lemma only_line h s : P (h_addr h) -> only s (add_line hp h s).
Proof.
  intros Ph. unfold add_line. destruct (begin_add KLine (h_addr h) s) eqn:E; [|apply only_refl].
  eapply only_trans; [eapply only_begin; eauto|]. eapply only_trans; [apply only_points; apply P_points; exact Ph|]. apply only_layer_add. exact Ph.
Qed.
Lemma only_lines l : forall s, (forall h, In h l -> P (h_addr h)) -> only s (add_lines hp l s).
Proof.
  induction l as [|p l IH]; intros s H; [apply only_refl|]. unfold add_lines. cbn [fold_left].
  eapply only_trans; [apply only_line; apply H; left; auto|]. apply IH. intros q Hq. apply H. right. auto.
Qed.
Lemma only_poly a s : P a -> only s (add_poly hp a s).
Proof.
  intros Ph. unfold add_poly. destruct (begin_add KPoly a s) eqn:E; [|apply only_refl].
  eapply only_trans; [eapply only_begin; eauto|]. eapply only_trans; [apply only_points; apply (P_points (a, false)); exact Ph|]. apply (only_layer_add KPoly (a, false)). exact Ph.
Qed.
Definition below (s : mstate) : Prop := forall a, m_ids s a <> 0 -> idf a <> 0.
Lemma below_grows s s' : grows s s' -> below s' -> below s.
Proof. intros G B a N. apply B. rewrite (grows_ids s s' a G N). exact N. Qed.
Lemma only_fold {A} (f : A -> mstate -> option mstate) l : (forall x s s', In x l -> f x s = Some s' -> grows s s') ->
  (forall x s s', In x l -> f x s = Some s' -> below s' -> only s s') -> forall s s', fold_opt f l s = Some s' -> below s' -> only s s'.
Proof.
  intros G O. induction l as [|x l IH]; intros s s' E B; cbn [fold_opt] in E; [injection E as <-; apply only_refl|].
  destruct (f x s) as [s1|] eqn:E1; [|discriminate].
  assert (G1 : grows s1 s').
  { eapply (fold_opt_rel grows f) with (l := l); eauto using grows_refl, grows_trans. intros y u u' Hy. apply G. right. exact Hy. }
  eapply only_trans; [eapply O; eauto; [left; auto|eapply below_grows; eauto]|].
  apply IH; auto; intros y u u' Hy; [apply G|apply O]; right; auto.
Qed.
Theorem add_only fuel : forall t s s', target_ok hp t -> P (target_addr t) -> add hp fuel t s = Some s' -> below s' -> only s s'.
Proof.
  induction fuel as [|fuel IH]; [discriminate|]. intros t s s' T Pt E B. destruct t as [a|h|a|h|a|a]; cbn [add] in E; unfold target_ok, target_addr in *; cbn [target_kind target_handle fst] in *.
  - injection E as <-. apply only_point. exact Pt.
  - injection E as <-. apply only_line. exact Pt.
  - injection E as <-. apply only_poly. exact Pt.
  - destruct T as (o & Eo & Ko). destruct o as [| | |l r c regs| |]; try discriminate. unfold add_lanelet in E.
    destruct (begin_add KLanelet (h_addr h) s) as [s1|] eqn:Eb; [|injection E as <-; apply only_refl]. cbv zeta in E.
    set (s2 := add_line hp (left_of hp h) s1) in *. set (s3 := add_line hp (right_of hp h) s2) in *.
    set (s4 := match custom_center hp h s3 with Some c => add_line hp c s3 | None => s3 end) in *.
    set (s5 := assign_ids (regs_of hp (h_addr h)) s4) in *. set (s6 := layer_add hp KLanelet h s5) in *.
    assert (Er : regs_of hp (h_addr h) = regs) by (unfold regs_of, h_addr; rewrite Eo; reflexivity).
    assert (Pr : forall x, In x regs -> P x) by (intros x Hx; apply (closed h KReg); [exact Pt|eapply ref_ll_reg; eauto]).
    assert (G6 : grows s6 s').
    { eapply (fold_opt_rel grows) with (4 := E); eauto using grows_refl, grows_trans. intros x u u' _ Eu. eapply add_grows; eauto. }
    assert (G3 : grows s3 s6).
    { eapply grows_trans; [apply grows_center|]. eapply grows_trans; [apply grows_assigns|]. apply grows_layer_add. }
    assert (PL : forall b : bool, P (h_addr (if b then left_of hp h else right_of hp h))).
    { assert (Pl : P (fst l)) by (apply (closed h KLine); [exact Pt|eapply ref_left; eauto]).
      assert (Pr' : P (fst r)) by (apply (closed h KLine); [exact Pt|eapply ref_right; eauto]).
      intros [|]; unfold left_of, right_of, h_addr; rewrite Eo; destruct (snd h); cbn; assumption. }
    eapply only_trans; [eapply only_begin; eauto|]. eapply only_trans; [apply (only_line _ _ (PL true))|]. eapply only_trans; [apply (only_line _ _ (PL false))|].
    apply (only_trans _ s4).
    { unfold s4. destruct (custom_center hp h s3) as [c'|] eqn:Ec; [|apply only_refl]. apply only_line.
      unfold custom_center, center_of, h_addr in Ec. rewrite Eo in Ec. destruct c as [c|]; [|discriminate]. cbv beta iota in Ec. change h_addr with (@fst nat bool) in Ec.
      assert (Ef : m_ids s3 (fst c) <> 0 /\ fst c' = fst c).
      { destruct (snd h); unfold flip in Ec; cbn [fst] in Ec; destruct (Z.eqb_spec (m_ids s3 (fst c)) inval) as [|N]; try discriminate; injection Ec as <-; split; auto. }
      destruct Ef as [N Ef]. unfold h_addr. rewrite Ef.
      apply (closed h KLine); [exact Pt|]. eapply ref_center; [exact Eo|]. apply (below_grows s3 s'); [eapply grows_trans; eauto|exact B|exact N]. }
    apply (only_trans _ s5); [apply only_layers; intros k; apply assigns_layers|]. apply (only_trans _ s6); [apply only_layer_add; exact Pt|].
    rewrite Er in E. revert E B. apply only_fold; [intros x u u' _; apply add_grows|]. intros x u u' Hx Eu Bu. apply (IH (TReg x) u u'); auto.
    destruct (HO _ _ Eo) as (_ & _ & _ & K). apply K. exact Hx.
  - destruct T as (o & Eo & Ko). destruct o as [| | | |outer inner regs|]; try discriminate. unfold add_area in E.
    destruct (begin_add KArea a s) as [s1|] eqn:Eb; [|injection E as <-; apply only_refl]. cbv zeta in E.
    assert (Er : regs_of hp a = regs) by (unfold regs_of; rewrite Eo; reflexivity).
    assert (El : rings_of hp a = outer ++ concat inner) by (unfold rings_of; rewrite Eo; reflexivity). rewrite Er, El in E.
    eapply only_trans; [eapply only_begin; eauto|]. eapply only_trans; [apply (only_lines (outer ++ concat inner))|].
    { intros l Hl. apply in_app_or in Hl as [Hl|Hl].
      - apply (closed (a, false) KLine); [exact Pt|]. eapply ref_outer; eauto.
      - apply in_concat in Hl as (ring & H1 & H2). apply (closed (a, false) KLine); [exact Pt|]. eapply ref_inner; eauto. }
    eapply only_trans; [apply only_layers; intros k; apply (assigns_layers regs)|]. eapply only_trans; [apply (only_layer_add KArea (a, false)); exact Pt|].
    revert E B. apply only_fold; [intros x u u' _; apply add_grows|]. intros x u u' Hx Eu Bu. apply (IH (TReg x) u u'); auto.
    + destruct (HO _ _ Eo) as (_ & _ & K). apply K. exact Hx.
    + apply (closed (a, false) KReg); [exact Pt|]. eapply ref_ar_reg; eauto.
  - destruct T as (o & Eo & Ko). destruct o as [| | | | |ps]; try discriminate. unfold add_reg in E.
    destruct (begin_add KReg a s) as [s1|] eqn:Eb; [|injection E as <-; apply only_refl]. cbv zeta in E.
    assert (Ep : params_of hp a = ps) by (unfold params_of; rewrite Eo; reflexivity). rewrite Ep in E.
    eapply only_trans; [eapply only_begin; eauto|]. eapply only_trans; [apply only_layers; intros k; apply (assign_params_layers hp ps)|].
    eapply only_trans; [apply (only_layer_add KReg (a, false)); exact Pt|]. revert E B.
    destruct (HO _ _ Eo) as (K1 & K2 & K3).
    apply only_fold.
    + intros x u u' _ Eu. destruct x; cbn [add_param] in Eu; try (destruct (alive _ _ _); [eapply add_grows; eauto|]); injection Eu as <-;
        auto using grows_refl, grows_point, grows_line, grows_poly.
    + intros x u u' Hx Eu Bu. destruct x as [p|h|p|h|x]; cbn [add_param] in Eu.
      * injection Eu as <-. apply only_point. apply (closed (a, false) KPoint); [exact Pt|]. eapply ref_par_point; eauto.
      * injection Eu as <-. apply only_line. apply (closed (a, false) KLine); [exact Pt|]. eapply ref_par_line; eauto.
      * injection Eu as <-. apply only_poly. apply (closed (a, false) KPoly); [exact Pt|]. eapply ref_par_poly; eauto.
      * destruct (alive hp KLanelet (h_addr h)) eqn:Al; [|injection Eu as <-; apply only_refl]. apply alive_kind in Al.
        apply (IH (TLanelet h) u u'); auto. destruct Al as (o & Eh & Kh). destruct o; try discriminate. apply (closed (a, false) KLanelet); [exact Pt|]. eapply ref_par_lanelet; eauto.
      * destruct (alive hp KArea x) eqn:Al; [|injection Eu as <-; apply only_refl]. apply alive_kind in Al.
        apply (IH (TArea x) u u'); auto. destruct Al as (o & Eh & Kh). destruct o; try discriminate. apply (closed (a, false) KArea); [exact Pt|]. eapply ref_par_area; eauto.
Qed.
Theorem adds_only fuel ts s s' : (forall t, In t ts -> target_ok hp t /\ P (target_addr t)) -> add_all hp fuel ts s = Some s' -> below s' -> only s s'.
Proof.
  intros H. apply only_fold; [intros x u u' _; apply add_grows|]. intros t u u' Ht. apply add_only; apply H; exact Ht.
Qed.
End only.

(** * What createMap starts with *)
Definition start_elems (hp : heap) (lls : list handle) (ars : list nat) (s : mstate) (k : kind) : list (Z * handle) :=
  match k with
  | KPoint => to_map s (map (fun p => (p, false)) (flat_map (points_of hp) (all_lines hp s lls ars)))
  | KLine => to_map s (all_lines hp s lls ars)
  | KArea => to_map s (map (fun a => (a, false)) ars)
  | KLanelet => to_map s lls
  | _ => []
  end.
Definition start_regs (hp : heap) (lls : list handle) (ars : list nat) : list nat :=
  flat_map (fun h => regs_of hp (h_addr h)) lls ++ flat_map (regs_of hp) ars.
Lemma make_ids hp k m s : m_ids (make_layer hp k m s) = m_ids s.
Proof. apply make_layer_facts. Qed.
Lemma create_map_start hp fuel lls ars s s' : (forall k, l_elems (m_layer s k) = []) -> create_map hp fuel lls ars s = Some s' ->
  exists s4, m_ids s4 = m_ids s /\ (forall k, l_elems (m_layer s4 k) = start_elems hp lls ars s k) /\
    add_all hp fuel (map TReg (start_regs hp lls ars)) s4 = Some s'.
Proof.
  intros E0 E. unfold create_map in E. cbv zeta in E.
  match type of E with fold_opt _ _ ?x = _ => set (s4 := x) in * end. exists s4. split; [|split; [|exact E]].
  - unfold s4. rewrite !make_ids. reflexivity.
  - intros k. unfold s4. rewrite !make_layer_elems. destruct k; cbn; auto.
Qed.
Lemma points_ref hp ids h p : In p (points_of hp h) -> references hp ids h KPoint p.
Proof.
  unfold points_of, h_addr. destruct (obj hp (fst h)) as [[]|] eqn:E; try contradiction; intros I.
  - eapply ref_line_point; [exact E|]. destruct (snd h); [apply in_rev|]; exact I.
  - eapply ref_poly_point; eauto.
Qed.
Lemma lines_ref hp s lls ars l : (forall h, In h lls -> has_kind hp KLanelet (fst h)) -> (forall a, In a ars -> has_kind hp KArea a) ->
  In l (all_lines hp s lls ars) ->
  exists h, (In h lls \/ exists a, In a ars /\ h = (a, false)) /\ references hp (m_ids s) h KLine (fst l).
Proof.
  intros KL KA H. unfold all_lines in H. apply in_app_or in H as [H|H]; apply in_flat_map in H as (h & Hh & H).
  - destruct (KL h Hh) as (o & Eo & Ko). destruct o as [| | |x y c regs| |]; try discriminate. exists h. split; [left; exact Hh|].
    unfold lines_of_lanelet, left_of, right_of, custom_center, center_of, h_addr in H. rewrite Eo in H.
    destruct H as [H|[H|H]].
    + destruct (snd h); subst l; unfold flip; cbn [fst]; [eapply ref_right|eapply ref_left]; exact Eo.
    + destruct (snd h); subst l; unfold flip; cbn [fst]; [eapply ref_left|eapply ref_right]; exact Eo.
    + destruct c as [c|]; [|contradiction]. destruct (snd h); unfold flip in H; cbn [fst] in H;
        destruct (Z.eqb_spec (m_ids s (fst c)) inval) as [|N]; try contradiction; destruct H as [<-|[]]; cbn [fst]; eapply ref_center; eauto.
  - destruct (KA h Hh) as (o & Eo & Ko). destruct o as [| | | |outer inner regs|]; try discriminate. exists (h, false). split; [right; eauto|].
    unfold rings_of in H. rewrite Eo in H. apply in_app_or in H as [H|H]; [eapply ref_outer; eauto|].
    apply in_concat in H as (ring & H1 & H2). eapply ref_inner; eauto.
Qed.
Lemma regs_ref hp ids lls ars r : In r (start_regs hp lls ars) ->
  exists h, (In h lls \/ exists a, In a ars /\ h = (a, false)) /\ references hp ids h KReg r.
Proof.
  intros H. unfold start_regs in H. apply in_app_or in H as [H|H]; apply in_flat_map in H as (h & Hh & H).
  - exists h. split; [left; exact Hh|]. unfold regs_of, h_addr in H. destruct (obj hp (fst h)) as [[]|] eqn:E; try contradiction;
      [eapply ref_ll_reg|eapply ref_ar_reg]; eauto.
  - exists (h, false). split; [right; eauto|]. unfold regs_of in H. destruct (obj hp h) as [[]|] eqn:E; try contradiction;
      [eapply ref_ll_reg|eapply ref_ar_reg]; cbn [fst]; eauto.
Qed.
Lemma create_map_only hp (P : nat -> Prop) idf fuel lls ars s s' : heap_ok hp -> (forall k, l_elems (m_layer s k) = []) ->
  (forall h k b, P (fst h) -> references hp idf h k b -> P b) ->
  (forall h, In h lls -> has_kind hp KLanelet (fst h) /\ P (fst h)) -> (forall a, In a ars -> has_kind hp KArea a /\ P a) ->
  create_map hp fuel lls ars s = Some s' -> below idf s' -> forall k i h, element s' k i h -> P (fst h).
Proof.
  intros HO E0 C HL HA E B. destruct (create_map_start _ _ _ _ _ _ E0 E) as (s4 & I4 & L4 & A4).
  assert (G : grows s4 s') by (eapply add_all_grows; exact A4).
  assert (B0 : below idf s). { intros a N. apply (below_grows idf s4 s' G B). rewrite I4. exact N. }
  assert (up : forall h k b, references hp (m_ids s) h k b -> references hp idf h k b).
  { intros h k b R. apply (references_ids hp (m_ids s) idf h k b R). destruct (Z.eq_dec (m_ids s b) 0); auto. }
  assert (PR : forall x k b, (In x lls \/ exists a, In a ars /\ x = (a, false)) -> references hp idf x k b -> P b).
  { intros x k b [Hx|(a & Ha & ->)] R; (eapply C; [|exact R]); [apply HL; exact Hx|apply (HA a Ha)]. }
  assert (PL : forall l, In l (all_lines hp s lls ars) -> P (fst l)).
  { intros l Hl. destruct (lines_ref hp s lls ars l) as (h & Hh & R); auto; [intros x Hx; apply HL; exact Hx|intros x Hx; apply HA; exact Hx|].
    eapply PR; eauto. }
  assert (O : only P s4 s').
  { eapply (adds_only hp HO idf P C); [|exact A4|exact B]. intros t Ht. apply in_map_iff in Ht as (r & <- & Hr).
    destruct (regs_ref hp idf lls ars r Hr) as (h & Hh & R). split; [eapply (references_kind hp idf h KReg); eauto|eapply PR; eauto]. }
  intros k i h H. apply O in H as [H|H]; [|exact H]. unfold element in H. rewrite L4 in H.
  destruct k; cbn [start_elems] in H; try contradiction; apply (proj1 (proj2 (to_map_facts s _))) in H as [_ H].
  - apply in_map_iff in H as (p & <- & Hp). apply in_flat_map in Hp as (l & Hl & Hp). cbn [fst].
    apply (C l KPoint); [apply PL; exact Hl|]. apply points_ref. exact Hp.
  - apply PL. exact H.
  - apply HL. exact H.
  - apply in_map_iff in H as (a & <- & Ha). apply HA. exact Ha.
Qed.
