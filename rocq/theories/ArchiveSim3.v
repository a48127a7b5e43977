(** Proofs about the binary format of a map: the layers and the round trip. *)
From Coq Require Import List Bool Arith ZArith String Lia.
From Verif Require Import ArchiveModel ArchiveSpec ArchiveProofs ArchiveRead ArchiveSim ArchiveSim2.
Import ListNotations.
Local Arguments bind : simpl never.

Section Maps.
Variable heap : list (obj nat).
Hypothesis G : good_heap heap.
Variable registry : string -> option (attributes -> list (string * list view) -> bool).
Hypothesis CON : Forall (constructible registry heap) heap.
Notation inv := (inv heap).
Notation sim := (sim heap).
Definition idle : nat -> option stage := fun _ => None.

Lemma calm_idle sn : calm heap idle sn. Proof. intros n H. now elim H. Qed.
Lemma same_id sn Q full o o' : same sn Q full o o' -> id_of o' = id_of o.
Proof. destruct o, o'; cbn [same id_of]; intros H; try contradiction; symmetry; tauto. Qed.
Lemma idle_obj s l a n : inv s l idle [] -> num (seen s) a n -> exists o o', nth_error heap a = Some o /\ nth_error (objs l) n = Some (Some o') /\ id_of o' = id_of o.
Proof. intros I NA. destruct (i_objs heap _ _ _ _ I n a NA) as (o & e & A & B & C). destruct C as (o' & -> & C1 & _). exists o, o'. split; [auto|]. split; [auto|]. eapply same_id; eauto. Qed.

(** A layer keeps all elements, since their ids differ. *)
Lemma layer_all {T} N (f : T -> writes) (g : reads T) (key : T -> nat) (R : list nat -> T -> T -> Prop) :
  (forall sn e x y, R sn x y -> R (sn ++ e) x y) -> (forall sn x y, R sn x y -> num sn (key x) (key y)) ->
  forall xs s0 before acc, (forall x, In x xs -> sim N idle [] s0 (f x) g (fun sn => R sn x)) -> unique_ids heap (map key (before ++ xs)) -> Forall2 (R (seen s0)) before acc ->
  sim N idle [] s0 (put_all f xs) (get_layer g key (List.length xs) acc) (fun sn ys => Forall2 (R sn) (before ++ xs) ys).
Proof.
  intros M1 M2. induction xs as [|x xs IH]; intros s0 before acc H U F s u s' l rest X W L I EI.
  - cbn [put_all] in W. unfold skip in W. injection W as <- <-. exists acc, l. split; [reflexivity|]. split; [exact EI|]. split; [auto|]. split; [apply extends_refl|].
    rewrite app_nil_r. destruct X as [e ->]. eapply Forall2_weaken; [|exact F]. intros. now apply M1.
  - cbn [put_all] in W. apply seq_inv in W as (u1 & s1 & u2 & W1 & W & ->). rewrite app_length in L. rewrite <- app_assoc in EI.
    destruct (H x (or_introl eq_refl) s u1 s1 l (u2 ++ rest) X W1 ltac:(lia) I EI) as (y & l1 & A1 & A2 & A3 & A4 & A5).
    assert (X1 : extends s0 s1) by (eapply extends_trans; eauto).
    assert (F1 : Forall2 (R (seen s1)) before acc) by (destruct X1 as [e ->]; eapply Forall2_weaken; [|exact F]; intros; now apply M1).
    destruct (idle_obj _ _ _ _ A3 (M2 _ _ _ A5)) as (o & o' & O1 & O2 & O3).
    assert (KN : existsb (fun z => match nth_error (objs l1) (key z) with Some (Some p) => Z.eqb (id_of o') (id_of p) | _ => false end) acc = false).
    { apply not_true_is_false. intros K. apply existsb_exists in K as (z & Z1 & Z2).
      apply In_nth_error in Z1 as (j & Z1). assert (exists b, nth_error before j = Some b /\ R (seen s1) b z) as (b & B1 & B2).
      { clear -F1 Z1. revert j Z1. induction F1 as [|b z' bs zs H F IH]; intros [|j] Z1; simpl in *; try discriminate; [injection Z1 as <-; eauto|auto]. }
      destruct (idle_obj _ _ _ _ A3 (M2 _ _ _ B2)) as (p & p' & P1 & P2 & P3). rewrite P2 in Z2. apply Z.eqb_eq in Z2.
      unfold unique_ids in U. rewrite !map_app in U. cbn [map] in U. apply NoDup_remove_2 in U. apply U. apply in_or_app. left. rewrite O1. cbn [option_map]. rewrite <- O3, Z2, P3.
      apply in_map_iff. exists (key b). rewrite P1. split; [reflexivity|]. apply in_map. eapply nth_error_In; eauto. }
    assert (H1 : forall x, In x xs -> sim N idle [] s1 (f x) g (fun sn => R sn x)) by (intros z Hz; apply sim_later with s0; [auto|apply H; right; auto]).
    assert (U1 : unique_ids heap (map key ((before ++ [x]) ++ xs))) by (rewrite <- app_assoc; exact U).
    destruct (IH s1 (before ++ [x]) (acc ++ [y]) H1 U1) with (s := s1) (u := u2) (s' := s') (l := l1) (rest := rest) as (ys & l2 & B1 & B2 & B3 & B4 & B5); auto using extends_refl; [apply Forall2_app; auto|lia|].
    exists ys, l2. cbn [List.length get_layer]. rewrite A1, bind_done, O2. cbv zeta. rewrite KN. split; [exact B1|]. split; [auto|]. split; [auto|]. split; [eapply extends_trans; eauto|].
    rewrite <- app_assoc in B5. exact B5.
Qed.
Lemma layer_ok {T} N (f : T -> writes) (g : reads T) (key : T -> nat) (R : list nat -> T -> T -> Prop) xs s0 :
  (forall sn e x y, R sn x y -> R (sn ++ e) x y) -> (forall sn x y, R sn x y -> num sn (key x) (key y)) ->
  (forall x, In x xs -> sim N idle [] s0 (f x) g (fun sn => R sn x)) -> unique_ids heap (map key xs) ->
  sim N idle [] s0 (put_list f xs) (fun l => do (n, l) <- get_size l; get_layer g key n [] l) (fun sn ys => Forall2 (R sn) xs ys).
Proof.
  intros M1 M2 H U. unfold put_list.
  apply (sim_bind heap N idle [] s0 (put (TSize (List.length xs))) (put_all f xs) get_size (fun n l => get_layer g key n [] l) (fun _ y => y = List.length xs)); [apply sim_size|].
  intros s1 n E1 ->. apply (layer_all N f g key R M1 M2 xs s1 [] []); [|exact U|constructor]. intros x X. apply sim_later with s0; auto.
Qed.
(** Regulatory elements of the map *)
Lemma reg_ok N pw pg s0 r : pointers heap N pw pg -> is_reg heap r ->
  sim N idle [] s0 (put_reg heap pw r) (fun l => do (v, l) <- get_reg registry pg None l; match v with Some r => Done (r, l) | None => Undef end) (fun sn n => num sn r n).
Proof.
  intros PT (id & t & ps & E) s u s' l rest X W L I EI. destruct (put_reg_cases heap pw _ _ _ _ _ _ _ E W) as (u' & -> & H). simpl in L. rewrite <- app_comm_cons in EI.
  unfold get_reg. rewrite (get_int_eq _ _ _ EI), bind_done. cbn [pending input objs].
  pose proof (i_entries heap _ _ _ _ I r id t ps E) as IE. destruct (find_entry id (pending l)) as [[[m|] qs]|] eqn:F.
  - destruct IE as (A & B & C & D). destruct H as [(H1 & -> & ->)|[H1 _]]; [|contradiction]. rewrite bind_done. eexists _, _. split; [reflexivity|]. split; [reflexivity|]. split; [now apply inv_input|].
    split; [apply extends_refl|exact C].
  - destruct IE as (A & [] & C).
  - destruct IE as (A & B & C). destruct H as [(H1 & _)|[_ H]]; [contradiction|].
    assert (I' : inv s (RState (u' ++ rest) (objs l) (pending l)) idle []) by now apply inv_input.
    destruct (fresh_reg heap G registry CON N pw pg PT s u' s' _ rest idle [] r id t ps I' (calm_idle _) E F H ltac:(lia) eq_refl) as (k & l1 & R1 & l2 & R2 & o' & qs & R3 & R4 & R5 & R6 & R7 & R8 & R9).
    cbn [objs pending input] in R1. rewrite R1, bind_done, R2, bind_done, R3, R4, R5, bind_done. eexists _, _. split; [reflexivity|]. auto.
Qed.

Lemma inv_start u : inv (WState [] []) (RState u [] []) idle [].
Proof.
  constructor; cbn [seen sent objs pending].
  - reflexivity.
  - constructor.
  - intros n H. now elim H.
  - intros [|n] a H; discriminate.
  - intros r i t ps E. cbn [find_entry]. auto.
Qed.

Lemma map_ok m u s' rest : good_layers heap m -> put_map heap m (WState [] []) = Done (u, s') ->
  exists m' l', get_map registry (RState (u ++ rest) [] []) = Done (m', l') /\ input l' = rest /\ inv s' l' idle [] /\
    Forall2 (num (seen s')) (points_ m) (points_ m') /\ Forall2 (num_ref (seen s')) (lines m) (lines m') /\ Forall2 (num_ref (seen s')) (polygons m) (polygons m') /\
    Forall2 (num (seen s')) (areas m) (areas m') /\ Forall2 (num_ref (seen s')) (lanelets m) (lanelets m') /\ Forall2 (num (seen s')) (regs_ m) (regs_ m').
Proof.
  intros (G1 & G2 & G3 & G4 & G5 & G6) W. unfold put_map in W. cbv zeta in W. unfold get_map. cbv zeta. cbn [input].
  set (N := List.length (u ++ rest)). assert (LN : List.length u <= N) by (unfold N; rewrite app_length; lia).
  pose proof (pointers_ok heap G registry CON (List.length heap) N) as PT. set (pw := put_ptr heap (List.length heap)) in *. set (pg := get_ptr registry N) in *.
  assert (LP : forall xs k s0, (k = KPoint \/ k = KArea) -> Forall (of_kind heap k) xs -> unique_ids heap xs ->
    sim N idle [] s0 (put_list pw xs) (fun l => do (n, l) <- get_size l; get_layer (pg k) (fun a => a) n [] l) (fun sn ys => Forall2 (num sn) xs ys)).
  { intros xs k s0 K F U. apply layer_ok; [intros; now apply num_app|auto| |now rewrite map_id]. intros x Hx. rewrite Forall_forall in F. apply PT; [auto|].
    destruct K as [->| ->]; cbn [ready]; [auto|apply calm_idle]. }
  assert (LR : forall xs k s0, (k = KLine \/ k = KLanelet) -> Forall (of_kind heap k) (map snd xs) -> unique_ids heap (map snd xs) ->
    sim N idle [] s0 (put_list (put_ref pw) xs) (fun l => do (n, l) <- get_size l; get_layer (get_ref pg k) snd n [] l) (fun sn ys => Forall2 (num_ref sn) xs ys)).
  { intros xs k s0 K F U. apply layer_ok; [intros; now apply num_ref_app|intros sn x y [_ H]; exact H| |exact U]. intros x Hx. rewrite Forall_forall in F.
    apply (sim_ref heap N pw pg PT); [destruct K as [->| ->]; [auto|right; split; [auto|apply calm_idle]]|]. apply F. now apply in_map. }
  assert (LG : forall s0, sim N idle [] s0 (put_list (put_reg heap pw) (regs_ m)) (fun l => do (n, l) <- get_size l; get_layer (fun l => do (v, l) <- get_reg registry pg None l; match v with Some r => Done (r, l) | None => Undef end) (fun a => a) n [] l)
    (fun sn ys => Forall2 (num sn) (regs_ m) ys)).
  { intros s0. apply layer_ok; [intros; now apply num_app|auto| |rewrite map_id; apply G6]. intros x Hx. destruct G6 as [G6 _]. rewrite Forall_forall in G6. apply reg_ok; auto. }
  clearbody N. assert (EI : input (RState (u ++ rest) [] []) = u ++ rest) by reflexivity. pose proof (inv_start (u ++ rest)) as I0. revert EI I0. generalize (RState (u ++ rest) [] []). intros l EI I0.
  apply seq_inv in W as (u1 & s1 & v1 & W1 & W & ->). rewrite app_length in LN. rewrite <- app_assoc in EI.
  destruct (LP (points_ m) KPoint _ (or_introl eq_refl) (proj1 G1) (proj2 G1) _ u1 s1 l _ (extends_refl _) W1 ltac:(lia) I0 EI) as (ps & l1 & A1 & E1 & I1 & X1 & R1).
  apply seq_inv in W as (u2 & s2 & v2 & W2 & W & ->). rewrite app_length in LN. rewrite <- app_assoc in E1.
  destruct (LR (lines m) KLine _ (or_introl eq_refl) (proj1 G2) (proj2 G2) _ u2 s2 l1 _ (extends_refl _) W2 ltac:(lia) I1 E1) as (ls & l2 & A2 & E2 & I2 & X2 & R2).
  apply seq_inv in W as (u3 & s3 & v3 & W3 & W & ->). rewrite app_length in LN. rewrite <- app_assoc in E2.
  destruct (LR (polygons m) KLine _ (or_introl eq_refl) (proj1 G3) (proj2 G3) _ u3 s3 l2 _ (extends_refl _) W3 ltac:(lia) I2 E2) as (gs & l3 & A3 & E3 & I3 & X3 & R3).
  apply seq_inv in W as (u4 & s4 & v4 & W4 & W & ->). rewrite app_length in LN. rewrite <- app_assoc in E3.
  destruct (LP (areas m) KArea _ (or_intror eq_refl) (proj1 G4) (proj2 G4) _ u4 s4 l3 _ (extends_refl _) W4 ltac:(lia) I3 E3) as (ars & l4 & A4 & E4 & I4 & X4 & R4).
  apply seq_inv in W as (u5 & s5 & v5 & W5 & W & ->). rewrite app_length in LN. rewrite <- app_assoc in E4.
  destruct (LR (lanelets m) KLanelet _ (or_intror eq_refl) (proj1 G5) (proj2 G5) _ u5 s5 l4 _ (extends_refl _) W5 ltac:(lia) I4 E4) as (lls & l5 & A5 & E5 & I5 & X5 & R5).
  destruct (LG _ _ v5 s' l5 rest (extends_refl _) W ltac:(lia) I5 E5) as (rs & l6 & A6 & E6 & I6 & X6 & R6).
  rewrite A1, bind_done, A2, bind_done, A3, bind_done, A4, bind_done, A5, bind_done, A6, bind_done. eexists _, l6. split; [reflexivity|]. split; [exact E6|]. split; [exact I6|].
  cbn [points_ lines polygons areas lanelets regs_].
  assert (Y5 : extends s5 s') by auto. assert (Y4 : extends s4 s') by (eapply extends_trans; eauto). assert (Y3 : extends s3 s') by (eapply extends_trans; eauto).
  assert (Y2 : extends s2 s') by (eapply extends_trans; eauto). assert (Y1 : extends s1 s') by (eapply extends_trans; eauto).
  assert (M1 : forall s xs ys, extends s s' -> Forall2 (num (seen s)) xs ys -> Forall2 (num (seen s')) xs ys) by (intros s xs ys [e ->] F; eapply Forall2_weaken; [|exact F]; intros; now apply num_app).
  assert (M2 : forall s xs ys, extends s s' -> Forall2 (num_ref (seen s)) xs ys -> Forall2 (num_ref (seen s')) xs ys) by (intros s xs ys [e ->] F; eapply Forall2_weaken; [|exact F]; intros; now apply num_ref_app).
  eauto 12.
Qed.

Lemma copied_ok s l m m' : inv s l idle [] ->
  Forall2 (num (seen s)) (points_ m) (points_ m') -> Forall2 (num_ref (seen s)) (lines m) (lines m') -> Forall2 (num_ref (seen s)) (polygons m) (polygons m') ->
  Forall2 (num (seen s)) (areas m) (areas m') -> Forall2 (num_ref (seen s)) (lanelets m) (lanelets m') -> Forall2 (num (seen s)) (regs_ m) (regs_ m') ->
  copied heap m (objs l) m'.
Proof.
  intros I R1 R2 R3 R4 R5 R6. pose proof (i_nodup heap _ _ _ _ I) as ND. set (rho := fun a => index_of a (seen s)). exists rho.
  assert (MV : forall a n, num (seen s) a n -> moved rho a n) by (intros a n H; unfold moved, rho; now apply index_nth).
  assert (MR : forall r r', num_ref (seen s) r r' -> moved_ref rho r r') by (intros r r' [A B]; split; auto).
  split; [|split; [|split]].
  - intros a b n A B. apply index_some in A. apply index_some in B. congruence.
  - intros n L. rewrite (i_length heap _ _ _ _ I) in L. destruct (nth_error (seen s) n) as [a|] eqn:E; [|apply nth_error_None in E; lia]. exists a. apply MV. exact E.
  - intros a n A. apply index_some in A. destruct (i_objs heap _ _ _ _ I n a A) as (o & e & E1 & E2 & (o' & -> & E3 & E4)). exists o, o'. split; [auto|]. split; [auto|].
    pose proof (good_at heap G _ _ E1) as GO.
    assert (SL : forall rs rs', Forall (is_reg heap) rs -> List.length rs = List.length rs' -> slots_ok heap (seen s) (pending l) n rs rs' None -> Forall2 (moved_reg rho) rs rs').
    { clear -I MV. intros rs rs' F LE H. assert (K : forall i r v, nth_error rs i = Some r -> nth_error rs' i = Some v -> moved_reg rho r v).
      { intros i r v Hr Hv. specialize (H i r v Hr Hv). cbn beta iota in H. destruct v as [k|]; cbn [slot_ok] in H; [exists k; split; [now apply MV|auto]|].
        exfalso. destruct H as (o & qs & H1 & H2 & _). rewrite Forall_forall in F. destruct (F r (nth_error_In _ _ Hr)) as (id & t & ps & F1). assert (o = Reg id t ps) by congruence. subst o. cbn [id_of] in H2.
        pose proof (i_entries heap _ _ _ _ I r id t ps F1) as IE. rewrite H2 in IE. destruct IE as (_ & [] & _). }
      clear -LE K. revert rs' LE K. induction rs as [|r rs IH]; intros [|v rs'] LE K; try discriminate; constructor; [apply (K 0); reflexivity|]. apply IH; [simpl in LE; lia|]. intros i. apply (K (S i)). }
    destruct o as [i t x y z|i t ps|i t lft rgt rs c|i t ins out rs|i t ps], o' as [i' t' x' y' z'|i' t' ps'|i' t' lft' rgt' rs' c'|i' t' ins' out' rs'|i' t' ps']; cbn [same copy good_obj regs_of] in *; try contradiction.
    + exact E3.
    + destruct E3 as (-> & -> & H). repeat split; auto. eapply Forall2_weaken; [|exact H]. auto.
    + destruct E3 as (-> & -> & H1 & H2 & H3 & H4). destruct GO as (_ & _ & G3 & _). repeat (split; [solve [auto]|]). destruct c, c'; auto.
    + destruct E3 as (-> & -> & H1 & H2 & H3). destruct GO as (_ & _ & G3). split; [auto|]. split; [auto|]. split; [|split; [|auto]].
      * eapply Forall2_weaken; [|exact H1]. intros x y H. eapply Forall2_weaken; [|exact H]. auto.
      * eapply Forall2_weaken; [|exact H2]. auto.
    + destruct E3 as (-> & _ & H1 & H2). split; [auto|]. split; [rewrite H1 by (intros []); apply completed_set|]. eapply Forall2_weaken; [|exact H2]. intros x y [X Y]. split; [auto|].
      eapply Forall2_weaken; [|exact Y]. intros p p' Hp. destruct p as [|?|?|[?|]|[?|]], p' as [|?|?|[?|]|[?|]]; cbn [num_param moved_param] in *; auto.
  - repeat (split; [solve [eapply Forall2_weaken; [|eassumption]; auto]|]). eapply Forall2_weaken; [|eassumption]; auto.
Qed.

Lemma settle_id m m' os : held heap m -> copied heap m os m' -> settle m' os = os.
Proof.
  intros H (rho & C1 & C2 & C3 & _ & _ & _ & C4 & C5 & _). unfold settle. rewrite <- (map_id os) at 2. apply map_ext_in. intros e X.
  apply In_nth_error in X as (n & X). assert (LN : n < List.length os) by (apply nth_error_Some; congruence). destruct (C2 n LN) as (a & A).
  destruct (C3 a n A) as (o & o' & O1 & O2 & O3). assert (e = Some o') by congruence. subst e. cbn [option_map]. f_equal.
  destruct o' as [| | | |i' t' ps']; auto. destruct o as [| | | |i t ps]; cbn [copy] in O3; try contradiction. destruct O3 as (_ & _ & O3).
  f_equal. rewrite <- (map_id ps') at 2. apply nth_error_In in O1.
  assert (K : forall p p', moved_param rho p p' -> held_param m p -> keep m' p' = p').
  { intros p p' P Q. destruct p as [|?|?|[r|]|[b|]], p' as [|?|?|[r'|]|[b'|]]; cbn [moved_param held_param keep] in *; try contradiction; auto.
    - destruct P as [_ P]. replace (existsb (Nat.eqb (snd r')) (map snd (lanelets m'))) with true; [auto|]. symmetry. apply existsb_exists. exists (snd r'). split; [|apply Nat.eqb_refl].
      clear -P Q C5. induction C5 as [|x y xs ys Y F IH]; cbn [map In] in *; [contradiction|]. destruct Q as [Q|Q]; [left|right; auto]. destruct Y as [_ Y]. unfold moved in *. congruence.
    - replace (existsb (Nat.eqb b') (areas m')) with true; [auto|]. symmetry. apply existsb_exists. exists b'. split; [|apply Nat.eqb_refl].
      clear -P Q C4. induction C4 as [|x y xs ys Y F IH]; cbn [In] in *; [contradiction|]. destruct Q as [Q|Q]; [left|right; auto]. unfold moved in *. congruence. }
  apply map_ext_in. intros e' E'. apply In_nth_error in E' as (j & E').
  assert (exists e, In e ps /\ fst e = fst e' /\ Forall2 (moved_param rho) (snd e) (snd e')) as (e & E1 & _ & E2).
  { clear -O3 E'. revert j E'. induction O3 as [|x y xs ys [Y1 Y2] F IH]; intros [|j] E'; cbn [nth_error] in E'; try discriminate.
    - injection E' as <-. exists x. split; [left; auto|]. auto.
    - destruct (IH j E') as (e & H1 & H2). exists e. split; [right; auto|auto]. }
  destruct e' as [r vs]. cbn [fst snd] in *. f_equal.
  assert (HP : forall p, In p (snd e) -> held_param m p) by (intros p Hp; eapply H; eauto).
  clear -E2 HP K. induction E2 as [|x y xs ys Y F IH]; cbn [map]; [auto|]. f_equal; [apply (K x); auto; apply HP; left; auto|]. apply IH. intros p Hp. apply HP. right. auto.
Qed.
Lemma round_trip m c c' : good_layers heap m -> held heap m ->
  exists u os m', write_file heap m c = Done (u, (c + 1)%Z) /\ read_file registry u c' = Done (os, m', Z.max c' (c + 1)) /\ copied heap m os m'.
Proof.
  intros GL HL. destruct (ends_map heap G m GL (WState [] [])) as (u & s' & W & _).
  { split; constructor. }
  { simpl. lia. }
  destruct (map_ok m u s' [TInt c] GL W) as (m' & l' & A1 & A2 & A3 & R1 & R2 & R3 & R4 & R5 & R6).
  assert (CP : copied heap m (objs l') m') by (eapply copied_ok; eauto).
  exists (u ++ [TInt c]), (objs l'), m'. unfold write_file, read_file. rewrite W, bind_done. split; [reflexivity|]. rewrite A1, bind_done, (get_int_eq c [] _ A2), bind_done. split; [|exact CP].
  rewrite (settle_id m m' (objs l') HL CP). f_equal. f_equal. unfold register. destruct (Z.ltb_spec c' (c + 1)); lia.
Qed.
End Maps.

(** * The registered constructors *)

Lemma shapes_views heap l vs : Forall2 (seen_as heap) l vs ->
  match shapes l with
  | [] => filter is_shape vs = []
  | r :: _ => exists o vs', nth_error heap (snd r) = Some o /\ (filter is_shape vs = VLine (attrs_of o) :: vs' \/ filter is_shape vs = VPolygon (attrs_of o) :: vs')
  end.
Proof.
  induction 1 as [|p v l vs P F IH]; cbn [shapes flat_map filter]; [auto|]. fold (shapes l).
  destruct p as [|r|r|?|?]; cbn [seen_as] in P; cbn [app].
  - subst v. exact IH.
  - destruct P as (o & P1 & ->). cbn [is_shape]. exists o. eauto.
  - destruct P as (o & P1 & ->). cbn [is_shape]. exists o. eauto.
  - subst v. exact IH.
  - subst v. exact IH.
Qed.
Lemma filter_exists {T} (f : T -> bool) l : filter f l <> [] -> existsb f l = true.
Proof. induction l as [|x l IH]; cbn [filter existsb]; [congruence|]. destruct (f x); [auto|]. auto. Qed.
Lemma lines_views heap l vs : Forall2 (seen_as heap) l vs -> List.length (filter is_vline vs) = List.length (just_lines l).
Proof.
  induction 1 as [|p v l vs P F IH]; [auto|]. unfold just_lines in *. cbn [flat_map filter]. destruct p as [|r|r|?|?]; cbn [seen_as] in P; [subst v|destruct P as (o & P1 & ->)|destruct P as (o & P1 & ->)|subst v|subst v]; cbn [is_vline app List.length]; auto.
Qed.
Lemma lanelets_views heap l vs : Forall2 (seen_as heap) l vs -> just_lanelets l <> [] -> existsb is_vlanelet vs = true.
Proof.
  induction 1 as [|p v l vs P F IH]; [intros H; now elim H|]. unfold just_lanelets in *. cbn [flat_map existsb]. destruct p as [|r|r|?|?]; cbn [seen_as] in P; [subst v|destruct P as (o & P1 & ->)|destruct P as (o & P1 & ->)|subst v|subst v]; cbn [is_vlanelet app orb]; auto.
Qed.
Lemma role_views heap r ps vs : Forall2 (fun e v => fst e = fst v /\ Forall2 (seen_as heap) (snd e) (snd v)) ps vs -> Forall2 (seen_as heap) (params_of r ps) (role r vs).
Proof.
  unfold params_of, role. induction 1 as [|e v ps vs [P1 P2] F IH]; cbn [find]; [constructor|]. rewrite <- P1. destruct (String.eqb r (fst e)); auto.
Qed.
Lemma Forall2_len {A B} (R : A -> B -> Prop) l l' : Forall2 R l l' -> List.length l = List.length l'.
Proof. induction 1; simpl; auto. Qed.
Lemma fits_constructible heap i t ps : fits heap t ps -> constructible builtin heap (Reg i t ps).
Proof.
  intros F t' vs (C1 & C2 & C3) H. pose proof (fun r => role_views heap r ps vs H) as RV.
  assert (SG : (match shapes (params_of "refers" ps) with r :: _ => exists o v, nth_error heap (snd r) = Some o /\ value "subtype" (attrs_of o) = Some v | [] => exists v, value "sign_type" t = Some v end) -> traffic_sign t' vs = true).
  { intros S. unfold traffic_sign. pose proof (shapes_views heap _ _ (RV "refers"%string)) as SV. destruct (shapes (params_of "refers" ps)) as [|r l].
    - rewrite SV. destruct S as [v S]. rewrite lookup_value, C2, S by discriminate. reflexivity.
    - destruct S as (o & v & S1 & S2). destruct SV as (o' & vs' & V1 & V2). assert (o' = o) by congruence. subst o'. destruct V2 as [-> | ->]; rewrite lookup_value, S2; reflexivity. }
  assert (D : forall rule, value "subtype" t = Some rule -> rule <> ""%string -> t' = t) by (intros rule E N; eapply C1; eauto).
  unfold fits in F. cbv zeta in F. destruct F as [F|[F|[F|[(F & F1 & F2)|[(F & F1 & F2)|[(F & F1)|[(F & F1)|(F & F1 & F2)]]]]]]].
  - exists "regulatory_element"%string. eexists. split; [apply C3; auto|]. split; reflexivity.
  - exists "regulatory_element"%string. eexists. split; [apply C3; auto|]. split; reflexivity.
  - exists "regulatory_element"%string. eexists. split; [rewrite (D _ F) by discriminate; auto|]. split; reflexivity.
  - exists "traffic_light"%string. eexists. split; [rewrite (D _ F) by discriminate; auto|]. split; [reflexivity|]. cbv beta. unfold traffic_light. apply andb_true_intro. split.
    + apply filter_exists. pose proof (shapes_views heap _ _ (RV "refers"%string)) as SV. destruct (shapes (params_of "refers" ps)); [now elim F1|]. destruct SV as (o & vs' & _ & [-> | ->]); discriminate.
    + apply Nat.leb_le. now rewrite (lines_views heap _ _ (RV "ref_line"%string)).
  - exists "right_of_way"%string. eexists. split; [rewrite (D _ F) by discriminate; auto|]. split; [reflexivity|]. cbv beta. unfold right_of_way. apply andb_true_intro. split; eapply lanelets_views; eauto.
  - exists "traffic_sign"%string. eexists. split; [rewrite (D _ F) by discriminate; auto|]. split; [reflexivity|]. auto.
  - exists "speed_limit"%string. eexists. split; [rewrite (D _ F) by discriminate; auto|]. split; [reflexivity|]. auto.
  - exists "all_way_stop"%string. eexists. split; [rewrite (D _ F) by discriminate; auto|]. split; [reflexivity|]. cbv beta. unfold all_way_stop. apply andb_true_intro.
    pose proof (Forall2_len _ _ _ (RV "right_of_way"%string)) as L1. pose proof (Forall2_len _ _ _ (RV "ref_line"%string)) as L2. pose proof (Forall2_len _ _ _ (RV "yield"%string)) as L3.
    rewrite <- L1, <- L2, <- L3, F1. split; [reflexivity|]. apply orb_true_intro. destruct F2 as [-> |F2]; [left; reflexivity|right; now apply Nat.eqb_eq].
Qed.
