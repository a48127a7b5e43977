(** Proofs about the binary format of a map: objects, layers and files. *)
From Coq Require Import List Bool Arith ZArith String Lia.
From Verif Require Import ArchiveModel ArchiveSpec ArchiveProofs ArchiveRead ArchiveSim.
Import ListNotations.
Local Arguments bind : simpl never.

Section Files.
Variable heap : list (obj nat).
Hypothesis G : good_heap heap.
Variable registry : string -> option (attributes -> list (string * list view) -> bool).
Hypothesis CON : Forall (constructible registry heap) heap.
Notation inv := (inv heap).
Notation sim := (sim heap).

Definition kind_is (k : kind) (o : obj nat) : Prop :=
  match k, o with KPoint, Point _ _ _ _ _ | KLine, Line _ _ _ | KLanelet, Lanelet _ _ _ _ _ _ | KArea, Area _ _ _ _ _ | KReg, Reg _ _ _ => True | _, _ => False end.
Lemma kind_at k a : of_kind heap k a -> exists o, nth_error heap a = Some o /\ kind_is k o.
Proof. destruct k; cbn [of_kind]; unfold is_point, is_line, is_lanelet, is_area, is_reg; intros H; decompose [ex] H; eexists; (split; [eassumption|exact I]). Qed.
Lemma not_line k a o : nth_error heap a = Some o -> kind_is k o -> k <> KLine -> ~ is_line heap a.
Proof. intros E K N (i & t & ps & H). rewrite E in H. injection H as ->. destruct k; cbn [kind_is] in K; auto. Qed.

Lemma repeat_nth {T} (x y : T) n i : nth_error (repeat x n) i = Some y -> y = x.
Proof. intros E. apply nth_error_In in E. eapply repeat_spec; eauto. Qed.

Section Objects.
Variable N : nat.
Variable pw : nat -> writes.
Variable pg : kind -> reads nat.
Hypothesis PT : pointers heap N pw pg.
Local Opaque put_list put_ref get_list get_ref.

Ltac step W L EI u1 s1 u2 W1 := apply seq_inv in W as (u1 & s1 & u2 & W1 & W & ->); rewrite app_length in L; rewrite <- app_assoc in EI.

Lemma members k o a n s u s' l rest P Q : inv s l P Q -> P n = Some Raw -> num (seen s) a n -> nth_error heap a = Some o -> kind_is k o ->
  ready heap k a P Q (seen s) -> put_members heap pw o s = Done (u, s') -> List.length u <= N -> input l = u ++ rest ->
  exists l', get_members registry pg k n l = Done (tt, l') /\ input l' = rest /\ extends s s' /\ inv s' l' (upd P n None) Q.
Proof.
  intros I PN NA Eo K RD W L EI. pose proof (good_at heap G _ _ Eo) as GO.
  assert (GE : forall i t w, put_members heap pw o = seq_ (put (TInt i)) (seq_ (put (TAttrs t)) w) ->
    exists u1 u2 l1, u = TInt i :: TAttrs t :: u2 /\ w s = Done (u2, s') /\ List.length u2 <= N /\ u1 = u2 ++ rest /\ input l1 = u1 /\ inv s l1 P Q /\
      forall T (h : Z -> attributes -> reads T), (do (i, l) <- get_int l; do (t, l) <- get_attrs l; h i t l) = h i t l1).
  { intros i t w EQ. rewrite EQ in W. apply seq_inv in W as (v1 & s1 & v2 & W1 & W & ->). unfold put in W1. injection W1 as <- <-.
    apply seq_inv in W as (v1 & s1 & v3 & W1 & W & ->). unfold put in W1. injection W1 as <- <-. simpl in L, EI.
    exists (v3 ++ rest), v3, (RState (v3 ++ rest) (objs l) (pending l)). split; [reflexivity|]. split; [auto|]. split; [lia|]. split; [reflexivity|]. split; [reflexivity|]. split; [now apply inv_input|].
    intros T h. rewrite (get_int_eq _ _ _ EI), bind_done. unfold get_attrs, next at 1. cbn [input]. rewrite !bind_done. reflexivity. }
  destruct o as [i t x y z|i t ps|i t lft rgt rs c|i t ins out rs|i t ps]; destruct k; cbn [kind_is] in K; try contradiction; clear K.
  - destruct (GE i t _ eq_refl) as (u1 & u2 & l1 & -> & W' & L' & -> & E1 & I1 & R). unfold get_members. rewrite R. clear GE R I L W EI l.
    rename W' into W, E1 into EI, I1 into I, l1 into l, L' into L.
    step W L EI v1 s1 v2 W1. unfold put in W1. injection W1 as <- <-. step W L EI v1 s1 v3 W1. unfold put in W1. injection W1 as <- <-. unfold put in W. injection W as <- <-.
    simpl in EI. rewrite (get_int_eq _ _ _ EI), bind_done. rewrite (get_int_eq y (TInt z :: rest)), bind_done by reflexivity. rewrite (get_int_eq z rest), bind_done by reflexivity. cbn [objs pending].
    eexists. split; [reflexivity|]. split; [reflexivity|]. split; [apply extends_refl|].
    eapply inv_construct; [apply inv_input; exact I|exact NA|exact Eo|exact PN|discriminate|]. cbn [obj_ok]. eexists. split; [reflexivity|]. cbn [same regs_of]. split; [auto|]. intros [|] ? ? H; discriminate.
  - destruct (GE i t _ eq_refl) as (u1 & u2 & l1 & -> & W' & L' & -> & E1 & I1 & R). unfold get_members. rewrite R. clear GE R I L W EI l.
    rename W' into W, E1 into EI, I1 into I, l1 into l, L' into L.
    destruct (sim_list heap N P Q s pw (pg KPoint) num ps num_app) with (s := s) (u := u2) (s' := s') (l := l) (rest := rest) as (ps' & l1 & A1 & A2 & A3 & A4 & A5); auto using extends_refl.
    { intros p Hp. apply PT; [|exact Logic.I]. cbn [good_obj] in GO. rewrite Forall_forall in GO. apply GO. exact Hp. }
    rewrite A1, bind_done. eexists. split; [reflexivity|]. split; [exact A2|]. split; [auto|].
    assert (NA' : num (seen s') a n) by (destruct A4 as [e ->]; now apply num_app).
    eapply inv_construct; [exact A3|exact NA'|exact Eo|exact PN|discriminate|]. cbn [obj_ok]. eexists. split; [reflexivity|]. cbn [same regs_of]. split; [auto|]. intros [|] ? ? H; discriminate.
  - destruct (GE i t _ eq_refl) as (u1 & u2 & l1 & -> & W' & L' & -> & E1 & I1 & R). unfold get_members. rewrite R. clear GE R I L W EI l.
    rename W' into W, E1 into EI, I1 into I, l1 into l, L' into L. cbn [ready good_obj] in RD, GO. destruct GO as (G1 & G2 & G3 & G4).
    step W L EI v1 s1 v2 W1. destruct (sim_ref heap N pw pg PT P Q s KLine lft (or_introl eq_refl) G1 s v1 s1 l _ (extends_refl _) W1 ltac:(lia) I EI) as (lft' & l1 & A1 & A2 & A3 & A4 & A5).
    rewrite A1, bind_done. clear A1 EI I.
    step W L A2 v3 s2 v4 W2. destruct (sim_ref heap N pw pg PT P Q s1 KLine rgt (or_introl eq_refl) G2 s1 v3 s2 l1 _ (extends_refl _) W2 ltac:(lia) A3 A2) as (rgt' & l2 & B1 & B2 & B3 & B4 & B5).
    rewrite B1, bind_done. clear B1 A2 A3.
    step W L B2 v5 s3 v6 W3. Local Transparent put_list. unfold put_list in W3. Local Opaque put_list. step W3 L B2 v7 s4 v8 W4. unfold put in W4. injection W4 as <- <-.
    simpl in B2. unfold get_size, next. rewrite B2, !bind_done.
    assert (NA2 : num (seen s2) a n) by (destruct A4 as [e1 X1], B4 as [e2 X2]; rewrite X2, X1; apply num_app; now apply num_app).
    assert (ND : ~ is_line heap a) by (eapply (not_line KLanelet); [exact Eo|exact Logic.I|discriminate]).
    assert (C2 : calm heap P (seen s2)) by (eapply calm_extends; [eapply extends_trans; [exact A4|exact B4]|exact RD]).
    assert (IS : inv s2 (set_obj n (Lanelet i t lft' rgt' (repeat None (List.length rs)) None) (RState (v8 ++ v6 ++ rest) (objs l2) (pending l2))) (upd P n (Some (Slots 0))) Q).
    { eapply inv_construct; [apply inv_input; exact B3|exact NA2|exact Eo|exact PN|discriminate|]. cbn [obj_ok]. eexists. split; [reflexivity|]. cbn [same regs_of]. split.
      - split; [auto|]. split; [auto|]. split; [destruct B4 as [e ->]; now apply num_ref_app|]. split; [auto|]. split; [now rewrite repeat_length|auto].
      - intros j r v Hr Hv. split; [lia|]. intros _. eapply repeat_nth; eauto. }
    destruct (slots_all heap G registry CON N pw pg PT rs s2 v8 s3 _ (v6 ++ rest) _ Q n 0 a _ IS (calm_upd heap P (seen s2) n a _ C2 NA2 ND) NA2 ND Eo (upd_same _ _ _)) as (l3 & D1 & D2 & D3 & D4);
      [intros j r J; exact J|exact G3|exact W3|simpl in L; rewrite ?app_length in L; lia|cbn [set_obj input]; reflexivity|].
    rewrite D1, bind_done. clear D1.
    assert (NA3 : num (seen s3) a n) by (destruct D3 as [e ->]; now apply num_app).
    assert (D4' : inv s3 l3 (upd P n (Some (Slots (List.length rs)))) Q) by (eapply inv_stages; [|exact D4]; intros m; unfold upd; destruct (Nat.eqb m n); auto). clear D4.
    assert (FIN : forall s4 l4 c', inv s4 l4 (upd P n (Some (Slots (List.length rs)))) Q -> extends s3 s4 -> match c, c' with None, None => True | Some c, Some c' => num_ref (seen s4) c c' | _, _ => False end ->
      exists rs', nth_error (objs l4) n = Some (Some (Lanelet i t lft' rgt' rs' None)) /\ inv s4 (set_obj n (Lanelet i t lft' rgt' rs' c') l4) (upd P n None) Q).
    { intros s4 l4 c' I4 X4 HC. assert (NA4 : num (seen s4) a n) by (destruct X4 as [e ->]; now apply num_app).
      destruct (i_objs heap _ _ _ _ I4 n a NA4) as (o & e & O1 & O2 & O3). rewrite Eo in O1. injection O1 as <-. rewrite upd_same in O3. destruct O3 as (o' & -> & O4 & O5).
      destruct o' as [| |i4 t4 l4' r4 rs4 c4| |]; cbn [same] in O4; try contradiction. destruct O4 as (<- & <- & O6 & O7 & O8 & ->).
      assert (XX : extends s1 s4) by (eapply extends_trans; [exact B4|eapply extends_trans; eauto]).
      assert (U1 : l4' = lft').
      { destruct O6 as [Y1 Y2], A5 as [Z1 Z2]. destruct l4', lft'. cbn [fst snd] in *. f_equal; [congruence|]. eapply num_fun; [apply (i_nodup heap _ _ _ _ I4)|exact Y2|]. destruct XX as [e ->]. now apply num_app. }
      assert (U2 : r4 = rgt').
      { destruct O7 as [Y1 Y2], B5 as [Z1 Z2]. destruct r4, rgt'. cbn [fst snd] in *. f_equal; [congruence|]. eapply num_fun; [apply (i_nodup heap _ _ _ _ I4)|exact Y2|].
        assert (extends s2 s4) as [e ->] by (eapply extends_trans; eauto). now apply num_app. }
      subst l4' r4. exists rs4. split; [exact O2|]. eapply inv_stages; [|eapply inv_finish with (k := List.length rs); [exact I4|exact NA4|exact Eo|apply upd_same|cbn [regs_of]; lia|exact O2|reflexivity|]].
      - intros m. unfold upd. destruct (Nat.eqb m n); auto.
      - cbn [same]. repeat (split; [solve [auto]|]). auto. }
    assert (XS : extends s s3) by (eapply extends_trans; [exact A4|eapply extends_trans; eauto]).
    destruct c as [c|].
    + apply seq_inv in W as (w1 & s5 & w2 & W5 & W & ->). unfold put in W5. injection W5 as <- <-. simpl in D2. unfold get_bool, next. rewrite D2, !bind_done.
      assert (I3' : inv s3 (RState (w2 ++ rest) (objs l3) (pending l3)) (upd P n (Some (Slots (List.length rs)))) Q) by now apply inv_input.
      destruct (sim_ref heap N pw pg PT _ Q s3 KLine c (or_introl eq_refl) G4 s3 w2 s' _ rest (extends_refl _) W ltac:(rewrite !app_length in L; simpl in L; lia) I3' eq_refl) as (c' & l4 & F1 & F2 & F3 & F4 & F5).
      cbn match. rewrite F1, bind_done. destruct (FIN s' l4 (Some c') F3 F4 F5) as (rs' & H1 & H2). rewrite H1. eexists. split; [reflexivity|]. split; [exact F2|]. split; [eapply extends_trans; eauto|exact H2].
    + unfold put in W. injection W as <- <-. simpl in D2. unfold get_bool, next. rewrite D2, !bind_done. cbn match.
      assert (I3' : inv s3 (RState rest (objs l3) (pending l3)) (upd P n (Some (Slots (List.length rs)))) Q) by now apply inv_input.
      destruct (FIN s3 _ None I3' (extends_refl _) Logic.I) as (rs' & H1 & H2). eexists. split; [reflexivity|]. split; [reflexivity|]. split; [exact XS|].
      assert (RS : set_obj n (Lanelet i t lft' rgt' rs' None) (RState rest (objs l3) (pending l3)) = RState rest (objs l3) (pending l3)); [|now rewrite RS in H2].
      unfold set_obj. cbn [input objs pending] in *. f_equal. clear -H1. revert n H1. generalize (objs l3). intros os. induction os as [|x os IH]; intros [|n] H; cbn [replace nth_error] in *; try discriminate; [congruence|]. f_equal. auto.
  - destruct (GE i t _ eq_refl) as (u1 & u2 & l1 & -> & W' & L' & -> & E1 & I1 & R). unfold get_members. rewrite R. clear GE R I L W EI l.
    rename W' into W, E1 into EI, I1 into I, l1 into l, L' into L. cbn [ready good_obj] in RD, GO. destruct GO as (G1 & G2 & G3).
    assert (SR : forall s1 r, is_line heap (snd r) -> sim N P Q s1 (put_ref pw r) (get_ref pg KLine) (fun sn => num_ref sn r)) by (intros s1 r X; apply sim_ref; auto).
    assert (SO : forall s1 rs, Forall (fun r => is_line heap (snd r)) rs -> sim N P Q s1 (put_list (put_ref pw) rs) (get_list (get_ref pg KLine)) (fun sn => Forall2 (num_ref sn) rs)).
    { intros s1 ls X. apply (sim_list heap N P Q s1 _ _ num_ref ls num_ref_app). intros r Hr. apply SR. rewrite Forall_forall in X. auto. }
    step W L EI v1 s1 v2 W1.
    destruct (sim_list heap N P Q s (put_list (put_ref pw)) (get_list (get_ref pg KLine)) (fun sn => Forall2 (num_ref sn)) ins) with (s := s) (u := v1) (s' := s1) (l := l) (rest := v2 ++ rest) as (ins' & l1 & A1 & A2 & A3 & A4 & A5);
      [intros sn e x y X; eapply Forall2_weaken; [|exact X]; intros; now apply num_ref_app|intros x X; apply SO; rewrite Forall_forall in G1; auto|apply extends_refl|exact W1|lia|exact I|exact EI|].
    rewrite A1, bind_done. clear A1 EI I.
    step W L A2 v3 s2 v4 W2. destruct (SO s1 out G2 s1 v3 s2 l1 _ (extends_refl _) W2 ltac:(lia) A3 A2) as (out' & l2 & B1 & B2 & B3 & B4 & B5).
    rewrite B1, bind_done. clear B1 A2 A3.
    Local Transparent put_list. unfold put_list in W. Local Opaque put_list. step W L B2 v7 s4 v8 W4. unfold put in W4. injection W4 as <- <-.
    simpl in B2. unfold get_size, next. rewrite B2, !bind_done.
    assert (NA2 : num (seen s2) a n) by (destruct A4 as [e1 X1], B4 as [e2 X2]; rewrite X2, X1; apply num_app; now apply num_app).
    assert (ND : ~ is_line heap a) by (eapply (not_line KArea); [exact Eo|exact Logic.I|discriminate]).
    assert (C2 : calm heap P (seen s2)) by (eapply calm_extends; [eapply extends_trans; [exact A4|exact B4]|exact RD]).
    assert (IS : inv s2 (set_obj n (Area i t ins' out' (repeat None (List.length rs))) (RState (v8 ++ rest) (objs l2) (pending l2))) (upd P n (Some (Slots 0))) Q).
    { eapply inv_construct; [apply inv_input; exact B3|exact NA2|exact Eo|exact PN|discriminate|]. cbn [obj_ok]. eexists. split; [reflexivity|]. cbn [same regs_of]. split.
      - split; [auto|]. split; [auto|]. split.
        + destruct B4 as [e ->]. eapply Forall2_weaken; [|exact A5]. intros x y X. eapply Forall2_weaken; [|exact X]. intros. now apply num_ref_app.
        + split; [auto|]. now rewrite repeat_length.
      - intros j r v Hr Hv. split; [lia|]. intros _. eapply repeat_nth; eauto. }
    destruct (slots_all heap G registry CON N pw pg PT rs s2 v8 s' _ rest _ Q n 0 a _ IS (calm_upd heap P (seen s2) n a _ C2 NA2 ND) NA2 ND Eo (upd_same _ _ _)) as (l3 & D1 & D2 & D3 & D4);
      [intros j r J; exact J|exact G3|exact W|simpl in L; lia|reflexivity|].
    rewrite D1. exists l3. split; [reflexivity|]. split; [exact D2|]. split; [eapply extends_trans; [exact A4|eapply extends_trans; eauto]|].
    assert (NA3 : num (seen s') a n) by (destruct D3 as [e ->]; now apply num_app).
    destruct (i_objs heap _ _ _ _ D4 n a NA3) as (o & e & O1 & O2 & O3). rewrite Eo in O1. injection O1 as <-. rewrite upd_same in O3. destruct O3 as (o' & -> & O4 & O5).
    assert (O4' : same (seen s') Q true (Area i t ins out rs) o') by (destruct o'; cbn [same] in *; auto; contradiction).
    assert (RS : set_obj n o' l3 = l3).
    { destruct l3 as [a3 b3 c3]. unfold set_obj. cbn [input objs pending] in *. f_equal. clear -O2. revert n O2. induction b3 as [|x os IH]; intros [|n] H; cbn [replace nth_error] in *; try discriminate; [congruence|]. f_equal. auto. }
    eapply inv_stages; [|rewrite <- RS; eapply inv_finish with (k := List.length rs); [exact D4|exact NA3|exact Eo|now rewrite upd_same|cbn [regs_of]; lia|exact O2|reflexivity|exact O4']].
    intros m. unfold upd. destruct (Nat.eqb m n); auto.
  - destruct (GE i t _ eq_refl) as (u1 & u2 & l1 & -> & W' & L' & -> & E1 & I1 & R). unfold get_members. rewrite R. clear GE R I L W EI l.
    rename W' into W, E1 into EI, I1 into I, l1 into l, L' into L. cbn [ready good_obj] in RD, GO. destruct RD as (CA & i' & t' & ps0 & RD1 & RD2). rewrite Eo in RD1. injection RD1 as <- <- <-.
    destruct (sim_params heap N pw pg PT P Q s ps CA GO s u2 s' l rest (extends_refl _) W L I EI) as (ps' & l1 & A1 & A2 & A3 & A4 & A5).
    rewrite A1, bind_done. eexists. split; [reflexivity|]. split; [exact A2|]. split; [auto|].
    assert (NA' : num (seen s') a n) by (destruct A4 as [e ->]; now apply num_app).
    eapply inv_construct; [exact A3|exact NA'|exact Eo|exact PN|discriminate|]. cbn [obj_ok]. eexists. split; [reflexivity|]. cbn [same regs_of]. split.
    + split; [auto|]. split; [auto|]. split; [intros X; contradiction|exact A5].
    + intros [|] ? ? H; discriminate.
Qed.
End Objects.

Lemma pointers_ok k : forall f, pointers heap f (put_ptr heap k) (get_ptr registry f).
Proof.
  induction k as [|k IH]; intros f P Q s0 kd a O RD s u s' l rest X W L I EI.
  - cbn [put_ptr] in W. destruct (index_of a (seen s)) as [n|] eqn:IX; [|discriminate]. injection W as <- <-. simpl in L, EI. destruct f as [|f]; [lia|].
    pose proof (index_some _ _ _ IX) as NA. assert (LN : n < List.length (objs l)) by (rewrite (i_length heap _ _ _ _ I); apply nth_error_Some; congruence).
    cbn [get_ptr]. unfold next. rewrite EI, bind_done. cbn [objs]. apply Nat.ltb_lt in LN. rewrite LN. eexists _, _. split; [reflexivity|]. split; [reflexivity|]. split; [now apply inv_input|]. split; [apply extends_refl|exact NA].
  - cbn [put_ptr] in W. destruct (index_of a (seen s)) as [n|] eqn:IX.
    + injection W as <- <-. simpl in L, EI. destruct f as [|f]; [lia|].
      pose proof (index_some _ _ _ IX) as NA. assert (LN : n < List.length (objs l)) by (rewrite (i_length heap _ _ _ _ I); apply nth_error_Some; congruence).
      cbn [get_ptr]. unfold next. rewrite EI, bind_done. cbn [objs]. apply Nat.ltb_lt in LN. rewrite LN. eexists _, _. split; [reflexivity|]. split; [reflexivity|]. split; [now apply inv_input|]. split; [apply extends_refl|exact NA].
    + destruct (kind_at _ _ O) as (o & Eo & K). rewrite Eo in W. apply seq_inv in W as (u1 & s1 & u2 & W1 & W & ->). unfold put in W1. injection W1 as <- <-.
      simpl in L, EI. destruct f as [|f]; [lia|]. cbn [get_ptr]. unfold next. rewrite EI, bind_done. cbn [objs input pending].
      pose proof (i_length heap _ _ _ _ I) as LE. replace (List.length (seen s) <? List.length (objs l)) with false by (symmetry; apply Nat.ltb_ge; lia). cbv zeta.
      assert (RD' : ready heap kd a P Q (seen s)).
      { destruct kd; cbn [ready] in *; auto; [eapply calm_extends; eauto|eapply calm_extends; eauto|]. destruct RD as [R1 R2]. split; [eapply calm_extends; eauto|auto]. }
      assert (IP : inv (WState (seen s ++ [a]) (sent s)) (RState (u2 ++ rest) (objs l ++ [None]) (pending l)) (upd P (List.length (objs l)) (Some Raw)) Q).
      { apply (inv_input heap _ (RState (input l) (objs l ++ [None]) (pending l))). apply (inv_push heap s l P Q a o I (index_none _ _ IX) Eo).
        intros i t ps ->. destruct kd; cbn [kind_is ready] in *; try contradiction. destruct RD as (_ & i' & t' & ps' & R1 & R2). rewrite Eo in R1. injection R1 as <- <- <-. auto. }
      assert (NA : num (seen s ++ [a]) a (List.length (objs l))) by (unfold num; rewrite LE; apply nth_last).
      destruct (members f (put_ptr heap k) (get_ptr registry f) (IH f) kd o a (List.length (objs l)) _ u2 s' _ rest _ Q IP (upd_same _ _ _) NA Eo K) as (l' & A1 & A2 & A3 & A4).
      * cbn [seen]. assert (CU : kd <> KLine -> calm heap P (seen s) -> calm heap (upd P (List.length (objs l)) (Some Raw)) (seen s ++ [a])).
        { intros KN C. apply calm_upd with a; [now apply calm_app|exact NA|]. eapply not_line; eauto. }
        destruct kd; cbn [ready] in *; auto; [apply CU; [discriminate|auto]|apply CU; [discriminate|auto]|]. destruct RD' as [R1 R2]. split; [apply CU; [discriminate|auto]|auto].
      * exact W.
      * lia.
      * reflexivity.
      * rewrite A1, bind_done. eexists _, _. split; [reflexivity|]. split; [exact A2|]. split; [|split].
        -- eapply inv_stages; [|exact A4]. intros m. unfold upd. destruct (Nat.eqb_spec m (List.length (objs l))) as [->|D]; [|auto].
           destruct (P (List.length (objs l))) as [st|] eqn:PS; [|auto]. exfalso. assert (List.length (objs l) < List.length (seen s)) by (apply (i_stage heap _ _ _ _ I); congruence). lia.
        -- destruct A3 as [e A3]. exists ([a] ++ e). cbn [seen] in A3. rewrite A3. now rewrite app_assoc.
        -- destruct A3 as [e A3]. cbn [seen] in A3. rewrite A3. apply num_app. exact NA.
Qed.
End Files.
