(** Invariant of maps built by LaneletMap::add. *)
From Coq Require Import ZArith List Bool Lia ZifyBool ZifyNat.
From Verif Require Import MapModel MapSpec MapProofs.
Import ListNotations.
Open Scope Z_scope.

(** The hash of the key cannot change any more. *)
Definition settled (hp : heap) (s : mstate) (key : ukey) : Prop :=
  fst key = KReg \/
  ((fst key = KLanelet \/ fst key = KArea) /\ alive hp (fst key) (h_addr (snd key)) = false) \/
  m_ids s (h_addr (snd key)) <> 0.

Record wf (hp : heap) (s : mstate) : Prop := {
  wf_next : 0 < m_next s;
  wf_elem : forall k i h, element s k i h ->
    i = m_ids s (h_addr h) /\ i <> 0 /\ i < m_next s /\ has_kind hp k (h_addr h);
  wf_nodup : forall k, NoDup (map fst (l_elems (m_layer s k)));
  wf_usage : forall k,
    l_usage (m_layer s k) = flat_map (fun e => usage_entries hp s (snd e)) (l_elems (m_layer s k));
  wf_tree : forall k,
    l_tree (m_layer s k) = filter (in_tree hp k) (map snd (l_elems (m_layer s k)));
  wf_keys : forall k i h key, element s k i h -> In key (usage_keys hp h) -> settled hp s key
}.

(** Every reference of every element is resolved or still pending, and so is
    every object that received its id since the ids were [ids0]. *)
Definition comp (hp : heap) (ids0 : nat -> Z) (s : mstate) (P : nat -> Prop) : Prop :=
  (forall k i h ky b, element s k i h -> references hp (m_ids s) h ky b -> good s ky b \/ P b) /\
  (forall ky b, ids0 b = 0 -> m_ids s b <> 0 -> has_kind hp ky b -> good s ky b \/ P b).

Set Default Proof Using "Type".
Section Since.
(** The ids at some earlier time. *)
Variable ids0 : nat -> Z.

Lemma settled_grows hp s s' key : grows s s' -> settled hp s key -> settled hp s' key.
Proof.
  intros G [H|[H|H]]; [left; auto|right; left; auto|right; right].
  rewrite (grows_ids _ _ _ G H); auto.
Qed.

Lemma settled_hash hp s s' key : grows s s' -> settled hp s key -> hash hp s' key = hash hp s key.
Proof.
  intros G [H|[[H A]|H]]; unfold hash.
  - rewrite H; auto.
  - destruct H as [H|H]; rewrite H in *; rewrite A; auto.
  - assert (E := grows_ids _ _ _ G H). rewrite E. auto.
Qed.

Lemma entries_grows hp s s' h : grows s s' ->
  (forall key, In key (usage_keys hp h) -> settled hp s key) ->
  usage_entries hp s' h = usage_entries hp s h.
Proof.
  intros G H. unfold usage_entries. apply map_ext_in. intros key Hk.
  rewrite (settled_hash hp s s'); auto.
Qed.

Lemma flat_map_ext_in {A B} (f g : A -> list B) l :
  (forall x, In x l -> f x = g x) -> flat_map f l = flat_map g l.
Proof.
  induction l as [|x l IH]; simpl; auto. intros H. rewrite (H x), IH; auto.
Qed.

(** Steps that only touch ids and counter. *)
Lemma wf_step hp s s' :
  grows s s' -> (forall k, m_layer s' k = m_layer s k) -> wf hp s -> wf hp s'.
Proof.
  intros G L W.
  assert (EL : forall k i h, element s' k i h -> element s k i h).
  { unfold element. intros k i h. rewrite L; auto. }
  split.
  - assert (H := g_next _ _ G). assert (H' := wf_next _ _ W). lia.
  - intros k i h E. apply EL in E. destruct (wf_elem _ _ W _ _ _ E) as (A & B & C & D).
    rewrite (grows_ids _ _ _ G) by congruence. assert (H := g_next _ _ G).
    repeat split; auto; lia.
  - intros k. rewrite L. apply (wf_nodup _ _ W).
  - intros k. rewrite L, (wf_usage _ _ W k). apply flat_map_ext_in.
    intros [i h] Hi. symmetry. apply entries_grows; auto.
    intros key Hk. apply (wf_keys _ _ W k i h); auto.
  - intros k. rewrite L. apply (wf_tree _ _ W).
  - intros k i h key E Hk. apply (settled_grows hp s); auto. apply EL in E.
    apply (wf_keys _ _ W k i h); auto.
Qed.

Lemma references_ids hp ids ids' h ky b :
  references hp ids h ky b -> ids b = 0 \/ ids' b <> 0 -> references hp ids' h ky b.
Proof.
  intros R H. inversion R; subst; try (econstructor; eauto; fail).
  eapply ref_center; eauto. destruct H; [contradiction|auto].
Qed.

Lemma comp_step hp s s' (P : nat -> Prop) :
  grows s s' -> (forall k, m_layer s' k = m_layer s k) -> comp hp ids0 s P ->
  comp hp ids0 s' (fun b => P b \/ (m_ids s b = 0 /\ m_ids s' b <> 0)).
Proof.
  intros G L [C D]. split.
  - intros k i h ky b E R. unfold element in E. rewrite L in E.
    destruct (Z.eq_dec (m_ids s b) 0) as [Z0|Z0].
    + destruct (Z.eq_dec (m_ids s' b) 0) as [Z1|Z1]; [|auto].
      assert (R' : references hp (m_ids s) h ky b) by (apply (references_ids hp (m_ids s')); auto).
      destruct (C _ _ _ _ _ E R') as [[X _]|X]; [contradiction|auto].
    + assert (R' : references hp (m_ids s) h ky b) by (apply (references_ids hp (m_ids s')); auto).
      destruct (C _ _ _ _ _ E R') as [X|X]; [left; apply (grows_good s); auto|auto].
  - intros ky b B0 B1 K. destruct (Z.eq_dec (m_ids s b) 0) as [Z0|Z0]; [auto|].
    destruct (D ky b B0 Z0 K); [left; apply (grows_good s); auto|auto].
Qed.

Lemma comp_weaken hp s (P Q : nat -> Prop) : comp hp ids0 s P -> (forall b, P b -> Q b) -> comp hp ids0 s Q.
Proof.
  intros [C D] H. split; [intros k i h ky b E R; destruct (C _ _ _ _ _ E R); auto|].
  intros ky b B0 B1 K. destruct (D ky b B0 B1 K); auto.
Qed.

Lemma references_kind hp ids h ky b : heap_ok hp -> references hp ids h ky b -> has_kind hp ky b.
Proof.
  intros H R.
  inversion R; subst;
    match goal with E : obj hp (fst h) = Some ?o |- _ => specialize (H _ _ E); simpl in H end;
    try solve [exact (proj1 H) | apply H; auto | eapply H; eauto | eapply (proj1 (proj2 H)); eauto
              | eexists; split; [eassumption|reflexivity]].
Qed.

Lemma comp_drop hp s (P Q : nat -> Prop) : heap_ok hp -> comp hp ids0 s (fun b => P b \/ Q b) ->
  (forall ky b, Q b -> has_kind hp ky b -> good s ky b) -> comp hp ids0 s P.
Proof.
  intros H [C C'] D. split.
  - intros k i h ky b E R. destruct (C _ _ _ _ _ E R) as [X|[X|X]]; auto.
    left. apply D; auto. eapply references_kind; eauto.
  - intros ky b B0 B1 K. destruct (C' ky b B0 B1 K) as [X|[X|X]]; auto.
Qed.

Lemma kind_unique hp k k' a : has_kind hp k a -> has_kind hp k' a -> k = k'.
Proof. intros [o [E K]] [o' [E' K']]. congruence. Qed.

(** * Facts about the pieces *)

Lemma begin_facts hp k a s s1 : wf hp s -> begin_add k a s = Some s1 ->
  (forall k', m_layer s1 k' = m_layer s k') /\
  m_ids s1 a <> 0 /\ m_ids s1 a < m_next s1 /\
  lookup (m_ids s1 a) (l_elems (m_layer s1 k)) = None /\
  (forall b, b <> a -> m_ids s1 b = m_ids s b).
Proof. clear ids0.
  intros W B. assert (P := wf_next _ _ W). assert (N := begin_nonzero _ _ _ _ P B).
  revert B. unfold begin_add, inval. destruct (m_ids s a =? 0) eqn:E.
  - intros H; inversion H; subst; clear H. simpl in *. rewrite Nat.eqb_refl in *.
    split; auto. split; [lia|]. split; [lia|]. split.
    + apply lookup_none. intros HI. apply in_map_iff in HI as [[i h] [X Y]]. simpl in X.
      destruct (wf_elem _ _ W k i h Y) as (_ & _ & Z0 & _). lia.
    + intros b Hb. destruct (Nat.eqb b a) eqn:F; auto. apply Nat.eqb_eq in F; contradiction.
  - destruct (exists_in k (m_ids s a) s) eqn:X; [discriminate|].
    intros H; inversion H; subst; clear H. simpl in *.
    split; auto. split; [lia|]. split; [destruct (m_next s <? m_ids s a + 1) eqn:Q; lia|].
    split; [|auto].
    unfold exists_in, inval in X. rewrite E in X. simpl in X.
    destruct (lookup (m_ids s a) (l_elems (m_layer s k))); [discriminate|auto].
Qed.

Lemma begin_exists hp k a s : wf hp s -> begin_add k a s = None -> good s k a.
Proof. clear ids0.
  intros W. unfold begin_add, inval. destruct (m_ids s a =? 0) eqn:E; [discriminate|].
  destruct (exists_in k (m_ids s a) s) eqn:X; [|discriminate]. intros _.
  split; [lia|]. unfold exists_in in X. apply andb_true_iff in X as [_ X].
  destruct (lookup (m_ids s a) (l_elems (m_layer s k))); [eauto|discriminate].
Qed.

Lemma insert_fresh i h l : lookup i l = None -> insert_elem i h l = l ++ [(i, h)].
Proof. unfold insert_elem. intros ->; auto. Qed.

Lemma NoDup_snoc {A} (l : list A) x : NoDup l -> ~ In x l -> NoDup (l ++ [x]).
Proof.
  intros ND. induction ND as [|y l Hy ND IH]; simpl; intros H.
  - constructor; [tauto|constructor].
  - constructor.
    + rewrite in_app_iff. simpl. intros [A1|[A1|[]]]; [auto|]. apply H; left; auto.
    + apply IH. intros A1; apply H; right; auto.
Qed.

Lemma flat_map_snoc {A B} (f : A -> list B) l x : flat_map f (l ++ [x]) = flat_map f l ++ f x.
Proof. rewrite flat_map_app. simpl. rewrite app_nil_r; auto. Qed.

Lemma wf_layer_add hp k h s :
  wf hp s -> m_ids s (h_addr h) <> 0 -> m_ids s (h_addr h) < m_next s ->
  has_kind hp k (h_addr h) ->
  lookup (m_ids s (h_addr h)) (l_elems (m_layer s k)) = None ->
  (forall key, In key (usage_keys hp h) -> settled hp s key) ->
  wf hp (layer_add hp k h s).
Proof.
  intros W N B K L S.
  assert (G := grows_layer_add hp k h s).
  assert (EL : forall k' i x, element (layer_add hp k h s) k' i x ->
    element s k' i x \/ (k' = k /\ i = m_ids s (h_addr h) /\ x = h)).
  { unfold element. intros k' i x. simpl. destruct (kind_eqb k' k) eqn:Q; [|auto].
    apply kind_eqb_true in Q; subst. simpl. rewrite insert_fresh by auto.
    intros HI. apply in_app_or in HI as [HI|[HI|[]]]; [auto|]. inversion HI; subst; auto. }
  split.
  - simpl. apply (wf_next _ _ W).
  - intros k' i x E. apply EL in E as [E|(-> & -> & ->)].
    + destruct (wf_elem _ _ W _ _ _ E) as (A1 & A2 & A3 & A4). auto.
    + auto.
  - intros k'. simpl. destruct (kind_eqb k' k) eqn:Q; [|apply (wf_nodup _ _ W)].
    simpl. rewrite insert_fresh by auto. rewrite map_app. simpl.
    apply NoDup_snoc; [apply (wf_nodup _ _ W)|]. apply lookup_none; auto.
  - intros k'. simpl. destruct (kind_eqb k' k) eqn:Q.
    + simpl. rewrite insert_fresh by auto. rewrite flat_map_snoc, (wf_usage _ _ W k). reflexivity.
    + apply (wf_usage _ _ W).
  - intros k'. simpl. destruct (kind_eqb k' k) eqn:Q.
    + apply kind_eqb_true in Q; subst. simpl. rewrite insert_fresh by auto.
      rewrite map_app, filter_app, (wf_tree _ _ W k). simpl. destruct (in_tree hp k h); auto.
    + apply (wf_tree _ _ W).
  - intros k' i x key E Hk. apply EL in E as [E|(-> & -> & ->)].
    + apply (wf_keys _ _ W _ _ _ _ E Hk).
    + apply (S _ Hk).
Qed.

Lemma comp_layer_add hp k h s P : comp hp ids0 s P ->
  (forall ky b, references hp (m_ids s) h ky b -> good s ky b \/ P b) ->
  comp hp ids0 (layer_add hp k h s) P.
Proof.
  intros [C C'] H. assert (G := grows_layer_add hp k h s). split.
  2:{ simpl. intros ky b B0 B1 K. destruct (C' ky b B0 B1 K); [left; apply (grows_good s); auto|auto]. }
  intros k' i x ky b E R. simpl in R.
  assert (D : element s k' i x \/ x = h).
  { unfold element in E. simpl in E. destruct (kind_eqb k' k) eqn:Q; [|auto].
    apply kind_eqb_true in Q; subst. simpl in E. unfold insert_elem in E.
    destruct (lookup (m_ids s (h_addr h)) (l_elems (m_layer s k))); [auto|].
    apply in_app_or in E as [E|[E|[]]]; [auto|]. inversion E; subst; auto. }
  destruct D as [D| ->].
  - destruct (C _ _ _ _ _ D R); [left; apply (grows_good s); auto|auto].
  - destruct (H _ _ R); [left; apply (grows_good s); auto|auto].
Qed.

(** The keys of the usage lookup are references or expired. *)
Lemma points_in hp h p : In p (points_of hp h) ->
  exists pts, (obj hp (fst h) = Some (OLine pts) \/ obj hp (fst h) = Some (OPoly pts)) /\ In p pts.
Proof. clear ids0.
  unfold points_of, h_addr. destruct (obj hp (fst h)) as [[]|]; simpl; try tauto.
  - intros H. exists pts. split; auto. destruct (snd h); auto. apply in_rev; auto.
  - eauto.
Qed.

Lemma usage_key_ref hp ids h key : In key (usage_keys hp h) ->
  ((fst key = KLanelet \/ fst key = KArea) /\ alive hp (fst key) (h_addr (snd key)) = false) \/
  references hp ids h (fst key) (h_addr (snd key)).
Proof.
  unfold usage_keys, h_addr. destruct (obj hp (fst h)) as [o|] eqn:E; [|simpl; tauto].
  destruct o as [|pts|pts|l r c regs|outer inner regs|ps]; simpl; try tauto.
  - intros H. apply in_map_iff in H as [p [<- H]]. right. simpl.
    apply points_in in H as [pts' [[X|X] Y]]; [eapply ref_line_point|eapply ref_poly_point]; eauto.
  - intros H. apply in_map_iff in H as [p [<- H]]. right. simpl.
    apply points_in in H as [pts' [[X|X] Y]]; [eapply ref_line_point|eapply ref_poly_point]; eauto.
  - intros [<-|[<-|H]]; simpl.
    + right. unfold left_of, h_addr. rewrite E. destruct (snd h); simpl;
        [eapply ref_right|eapply ref_left]; eauto.
    + right. unfold right_of, h_addr. rewrite E. destruct (snd h); simpl;
        [eapply ref_left|eapply ref_right]; eauto.
    + apply in_map_iff in H as [p [<- H]]. right; simpl. eapply ref_ll_reg; eauto.
  - intros H. apply in_app_or in H as [H|H]; apply in_map_iff in H as [p [<- H]]; right; simpl.
    + unfold rings_of in H. rewrite E in H. apply in_app_or in H as [H|H].
      * eapply ref_outer; eauto.
      * apply in_concat in H as [ring [X Y]]. eapply ref_inner; eauto.
    + eapply ref_ar_reg; eauto.
  - intros H. apply in_map_iff in H as [p [<- H]].
    destruct p as [p|l|p|l|b]; simpl.
    + right; eapply ref_par_point; eauto.
    + right; eapply ref_par_line; eauto.
    + right; eapply ref_par_poly; eauto.
    + destruct (alive hp KLanelet (fst l)) eqn:A; [right|left; auto].
      apply alive_kind in A as [o [A K]]. destruct o; try discriminate.
      eapply ref_par_lanelet; eauto.
    + destruct (alive hp KArea b) eqn:A; [right|left; auto].
      apply alive_kind in A as [o [A K]]. destruct o; try discriminate.
      eapply ref_par_area; eauto.
Qed.

Lemma keys_settled hp s h :
  (forall ky b, references hp (m_ids s) h ky b -> ky = KReg \/ m_ids s b <> 0) ->
  forall key, In key (usage_keys hp h) -> settled hp s key.
Proof.
  intros H key Hk. destruct (usage_key_ref hp (m_ids s) h key Hk) as [X|X].
  - right; left; auto.
  - destruct (H _ _ X); [left; auto|right; right; auto].
Qed.

(** Begin, some work that leaves the own layer alone, insertion. [R]: references
    whose insertion follows later. *)
Lemma insert_spec hp k h s s1 s2 (P R : nat -> Prop) :
  heap_ok hp -> wf hp s -> has_kind hp k (h_addr h) ->
  begin_add k (h_addr h) s = Some s1 -> grows s1 s2 -> m_layer s2 k = m_layer s1 k ->
  wf hp s2 -> comp hp ids0 s2 (fun b => (P b \/ R b) \/ b = h_addr h) ->
  (forall ky b, references hp (m_ids s2) h ky b -> good s2 ky b \/ (R b /\ m_ids s2 b <> 0)) ->
  wf hp (layer_add hp k h s2) /\
  comp hp ids0 (layer_add hp k h s2) (fun b => P b \/ R b) /\
  good (layer_add hp k h s2) k (h_addr h).
Proof.
  intros HO W K B G L W2 C H.
  destruct (begin_facts hp k (h_addr h) s s1 W B) as (_ & N1 & M1 & L1 & _).
  assert (I : m_ids s2 (h_addr h) = m_ids s1 (h_addr h)) by (apply grows_ids; auto).
  assert (GD : good (layer_add hp k h s2) k (h_addr h)).
  { split; [simpl; congruence|]. apply (layer_add_lookup hp k h s2). }
  split; [|split; [|exact GD]].
  - apply wf_layer_add; auto.
    + congruence.
    + rewrite I. assert (Q := g_next _ _ G). lia.
    + rewrite I, L. auto.
    + apply keys_settled. intros ky b X. right. destruct (H _ _ X) as [[Y _]|[_ Y]]; auto.
  - apply comp_drop with (Q := fun b => b = h_addr h); auto.
    + apply comp_layer_add; auto. intros ky b X. destruct (H _ _ X) as [Y|[Y _]]; auto.
    + intros ky b -> X. rewrite (kind_unique _ _ _ _ X K). exact GD.
Qed.

Lemma comp_begin hp k a s s1 (P : nat -> Prop) : wf hp s -> begin_add k a s = Some s1 -> comp hp ids0 s P ->
  comp hp ids0 s1 (fun b => P b \/ b = a).
Proof.
  intros W B C. destruct (begin_facts hp k a s s1 W B) as (L & _ & _ & _ & O).
  eapply comp_weaken; [apply (comp_step hp s); eauto using grows_begin|].
  intros b [X|[X Y]]; auto. right. destruct (Nat.eq_dec b a) as [->|D]; auto.
  exfalso. apply Y. rewrite O; auto.
Qed.

Lemma wf_begin hp k a s s1 : wf hp s -> begin_add k a s = Some s1 -> wf hp s1.
Proof.
  intros W B. destruct (begin_facts hp k a s s1 W B) as (L & _).
  apply (wf_step hp s); auto. eapply grows_begin; eauto.
Qed.

(** * Points, line strings, polygons *)

Lemma point_spec hp a s P : heap_ok hp -> wf hp s -> comp hp ids0 s P -> has_kind hp KPoint a ->
  wf hp (add_point hp a s) /\ comp hp ids0 (add_point hp a s) P /\ good (add_point hp a s) KPoint a /\
  (forall k, k <> KPoint -> m_layer (add_point hp a s) k = m_layer s k).
Proof.
  intros HO W C K. unfold add_point.
  destruct (begin_add KPoint a s) as [s1|] eqn:B.
  2:{ split; auto. split; auto. split; auto. eapply begin_exists; eauto. }
  assert (W1 := wf_begin _ _ _ _ _ W B). assert (C1 := comp_begin _ _ _ _ _ _ W B C).
  destruct (insert_spec hp KPoint (a, false) s s1 s1 P (fun _ => False)) as (X & Y & Z0);
    auto using grows_refl.
  - eapply comp_weaken; [exact C1|]. intros b [A|A]; [left; left; auto|right; auto].
  - intros ky b R. exfalso. destruct K as [o [Eo Ko]]. destruct o; try discriminate.
    inversion R; subst; simpl in *; congruence.
  - split; auto. split; [eapply comp_weaken; [exact Y|]; intros b [A|[]]; auto|].
    split; auto. intros k Hk. simpl. destruct (begin_facts _ _ _ _ _ W B) as (L & _).
    destruct (kind_eqb k KPoint) eqn:Q; [apply kind_eqb_true in Q; contradiction|auto].
Qed.

Lemma points_spec hp : forall pts s P, heap_ok hp -> wf hp s -> comp hp ids0 s P ->
  (forall p, In p pts -> has_kind hp KPoint p) ->
  wf hp (add_points hp pts s) /\ comp hp ids0 (add_points hp pts s) P /\
  (forall p, In p pts -> good (add_points hp pts s) KPoint p) /\
  (forall k, k <> KPoint -> m_layer (add_points hp pts s) k = m_layer s k).
Proof.
  unfold add_points. induction pts as [|p pts IH]; intros s P HO W C K; simpl.
  - split; auto. split; auto. split; [tauto|auto].
  - destruct (point_spec hp p s P) as (W1 & C1 & G1 & L1); auto; [apply K; left; auto|].
    destruct (IH (add_point hp p s) P) as (W2 & C2 & G2 & L2); auto.
    { intros q Hq; apply K; right; auto. }
    split; auto. split; auto. split.
    + intros q [<-|Hq]; auto. eapply grows_good; [|exact G1]. apply (grows_points hp pts).
    + intros k Hk. rewrite L2, L1; auto.
Qed.

Lemma points_kind hp h : heap_ok hp -> forall p, In p (points_of hp h) -> has_kind hp KPoint p.
Proof.
  intros HO p H. apply points_in in H as [pts [[X|X] Y]]; apply (HO _ _ X); auto.
Qed.

Lemma in_points hp h pts p :
  (obj hp (fst h) = Some (OLine pts) \/ obj hp (fst h) = Some (OPoly pts)) -> In p pts ->
  In p (points_of hp h).
Proof.
  intros [E|E] H; unfold points_of, h_addr; rewrite E; auto.
  destruct (snd h); auto. rewrite <- in_rev; auto.
Qed.

Lemma line_spec hp h s P : heap_ok hp -> wf hp s -> comp hp ids0 s P -> has_kind hp KLine (h_addr h) ->
  wf hp (add_line hp h s) /\ comp hp ids0 (add_line hp h s) P /\ good (add_line hp h s) KLine (h_addr h) /\
  (forall k, k <> KPoint -> k <> KLine -> m_layer (add_line hp h s) k = m_layer s k).
Proof.
  intros HO W C K. unfold add_line.
  destruct (begin_add KLine (h_addr h) s) as [s1|] eqn:B.
  2:{ split; auto. split; auto. split; auto. eapply begin_exists; eauto. }
  assert (W1 := wf_begin _ _ _ _ _ W B). assert (C1 := comp_begin _ _ _ _ _ _ W B C).
  destruct (points_spec hp (points_of hp h) s1 _ HO W1 C1 (points_kind hp h HO)) as (W2 & C2 & G2 & L2).
  assert (GP : grows s1 (add_points hp (points_of hp h) s1)) by apply grows_points.
  set (s2 := add_points hp (points_of hp h) s1) in *.
  destruct (insert_spec hp KLine h s s1 s2 P (fun _ => False)) as (X & Y & Z0);
    auto.
  - apply L2; discriminate.
  - eapply comp_weaken; [exact C2|]. intros b [A|A]; [left; left; auto|right; auto].
  - intros ky b R. left. destruct K as [o [Eo Ko]]. destruct o; try discriminate.
    unfold h_addr in Eo. inversion R; subst; try congruence.
    apply G2. eapply in_points; eauto.
  - split; auto. split; [eapply comp_weaken; [exact Y|]; intros b [A|[]]; auto|].
    split; auto. intros k Hk1 Hk2. simpl. destruct (begin_facts _ _ _ _ _ W B) as (L & _).
    destruct (kind_eqb k KLine) eqn:Q; [apply kind_eqb_true in Q; contradiction|].
    rewrite L2 by auto. auto.
Qed.

Lemma lines_spec hp : forall ls s P, heap_ok hp -> wf hp s -> comp hp ids0 s P ->
  (forall l, In l ls -> has_kind hp KLine (h_addr l)) ->
  wf hp (add_lines hp ls s) /\ comp hp ids0 (add_lines hp ls s) P /\
  (forall l, In l ls -> good (add_lines hp ls s) KLine (h_addr l)) /\
  (forall k, k <> KPoint -> k <> KLine -> m_layer (add_lines hp ls s) k = m_layer s k).
Proof.
  unfold add_lines. induction ls as [|p pts IH]; intros s P HO W C K; simpl.
  - split; auto. split; auto. split; [tauto|auto].
  - destruct (line_spec hp p s P) as (W1 & C1 & G1 & L1); auto; [apply K; left; auto|].
    destruct (IH (add_line hp p s) P) as (W2 & C2 & G2 & L2); auto.
    { intros q Hq; apply K; right; auto. }
    split; auto. split; auto. split.
    + intros q [<-|Hq]; auto. eapply grows_good; [|exact G1]. apply (grows_lines hp pts).
    + intros k Hk1 Hk2. rewrite L2, L1; auto.
Qed.

Lemma poly_spec hp a s P : heap_ok hp -> wf hp s -> comp hp ids0 s P -> has_kind hp KPoly a ->
  wf hp (add_poly hp a s) /\ comp hp ids0 (add_poly hp a s) P /\ good (add_poly hp a s) KPoly a.
Proof.
  intros HO W C K. unfold add_poly.
  destruct (begin_add KPoly a s) as [s1|] eqn:B.
  2:{ split; auto. split; auto. eapply begin_exists; eauto. }
  assert (W1 := wf_begin _ _ _ _ _ W B). assert (C1 := comp_begin _ _ _ _ _ _ W B C).
  destruct (points_spec hp (points_of hp (a, false)) s1 _ HO W1 C1 (points_kind hp _ HO))
    as (W2 & C2 & G2 & L2).
  assert (GP : grows s1 (add_points hp (points_of hp (a, false)) s1)) by apply grows_points.
  set (s2 := add_points hp (points_of hp (a, false)) s1) in *.
  destruct (insert_spec hp KPoly (a, false) s s1 s2 P (fun _ => False)) as (X & Y & Z0);
    auto.
  - apply L2; discriminate.
  - eapply comp_weaken; [exact C2|]. intros b [A|A]; [left; left; auto|right; auto].
  - intros ky b R. left. destruct K as [o [Eo Ko]]. destruct o; try discriminate.
    inversion R; subst; simpl in *; try congruence.
    apply G2. eapply in_points; eauto.
  - split; auto. split; [eapply comp_weaken; [exact Y|]; intros b [A|[]]; auto|auto].
Qed.

(** * Assigning ids in advance *)

Lemma assign_facts a s : 0 < m_next s ->
  (forall k, m_layer (assign_id a s) k = m_layer s k) /\ m_ids (assign_id a s) a <> 0 /\
  (forall b, b <> a -> m_ids (assign_id a s) b = m_ids s b).
Proof. clear ids0.
  intros P. unfold assign_id, inval. destruct (m_ids s a =? 0) eqn:E; simpl.
  - split; auto. rewrite Nat.eqb_refl. split; [lia|]. intros b Hb.
    destruct (Nat.eqb b a) eqn:F; auto. apply Nat.eqb_eq in F; contradiction.
  - split; auto. split; [lia|auto].
Qed.

(** A loop over id assignments, each touching at most the object [f x]. *)
Lemma assign_loop {A} hp (g : mstate -> A -> mstate) (tgt : A -> nat -> Prop) :
  (forall s x, 0 < m_next s -> grows s (g s x) /\ (forall k, m_layer (g s x) k = m_layer s k) /\
     (forall b, tgt x b -> m_ids (g s x) b <> 0) /\
     (forall b, ~ tgt x b -> m_ids (g s x) b = m_ids s b)) ->
  (forall x b, tgt x b \/ ~ tgt x b) ->
  forall l s P, wf hp s -> comp hp ids0 s P ->
  let s' := fold_left g l s in
  wf hp s' /\ comp hp ids0 s' (fun b => P b \/ exists x, In x l /\ tgt x b) /\ grows s s' /\
  (forall k, m_layer s' k = m_layer s k) /\
  (forall x b, In x l -> tgt x b -> m_ids s' b <> 0) /\
  (forall b, (forall x, In x l -> ~ tgt x b) -> m_ids s' b = m_ids s b).
Proof.
  intros Hg Dec. induction l as [|x l IH]; intros s P W C; simpl.
  - split; auto. split; [eapply comp_weaken; [exact C|auto]|]. split; [apply grows_refl|].
    split; [auto|]. split; [intros x b []|auto].
  - destruct (Hg s x (wf_next _ _ W)) as (G & L & N & O).
    assert (W1 : wf hp (g s x)) by (apply (wf_step hp s); auto).
    assert (C1 : comp hp ids0 (g s x) (fun b => P b \/ tgt x b)).
    { eapply comp_weaken; [apply (comp_step hp s); eauto|].
      intros b [X|[X Y]]; auto. right. destruct (Dec x b) as [D|D]; auto.
      exfalso. apply Y. rewrite O; auto. }
    destruct (IH (g s x) _ W1 C1) as (W2 & C2 & G2 & L2 & N2 & O2).
    split; auto. split.
    { eapply comp_weaken; [exact C2|]. intros b [[X|X]|[y [X Y]]]; eauto. }
    split; [eapply grows_trans; eauto|]. split; [intros k; rewrite L2; auto|]. split.
    + intros y b [<-|Hy] T; eauto. rewrite (grows_ids _ _ _ G2); auto.
    + intros b H. rewrite O2 by eauto. apply O. apply H; auto.
Qed.

Lemma assign_ids_spec hp l s (P : nat -> Prop) : wf hp s -> comp hp ids0 s P ->
  let s' := assign_ids l s in
  wf hp s' /\ comp hp ids0 s' (fun b => P b \/ In b l) /\ grows s s' /\
  (forall k, m_layer s' k = m_layer s k) /\
  (forall b, In b l -> m_ids s' b <> 0) /\ (forall b, ~ In b l -> m_ids s' b = m_ids s b).
Proof.
  intros W C.
  destruct (assign_loop hp (fun s a => assign_id a s) (fun x b => b = x)) with (l := l) (s := s) (P := P)
    as (A1 & A2 & A3 & A4 & A5 & A6); auto.
  - intros s0 x P0. destruct (assign_facts x s0 P0) as (L & N & O).
    split; [apply grows_assign|]. split; auto. split; [intros b ->; auto|auto].
  - intros x b. destruct (Nat.eq_dec b x); auto.
  - cbv zeta. split; auto. split; [eapply comp_weaken; [exact A2|]|].
    { intros b [X|[x [X ->]]]; auto. }
    split; auto. split; auto. split; [eauto|]. intros b Hb. apply A6. intros x Hx ->; contradiction.
Qed.

(** Objects a parameter gives an id to. *)
Definition param_target (hp : heap) (p : param) (b : nat) : Prop :=
  match p with
  | ParPoint a | ParPoly a => b = a
  | ParLine h => b = h_addr h
  | ParLanelet h => alive hp KLanelet (h_addr h) = true /\ b = h_addr h
  | ParArea a => alive hp KArea a = true /\ b = a
  end.

Lemma assign_params_spec hp l s (P : nat -> Prop) : wf hp s -> comp hp ids0 s P ->
  let s' := fold_left (fun s p => assign_param hp p s) l s in
  wf hp s' /\ comp hp ids0 s' (fun b => P b \/ exists p, In p l /\ param_target hp p b) /\ grows s s' /\
  (forall k, m_layer s' k = m_layer s k) /\
  (forall p b, In p l -> param_target hp p b -> m_ids s' b <> 0).
Proof.
  intros W C.
  destruct (assign_loop hp (fun s p => assign_param hp p s) (param_target hp)) with (l := l) (s := s) (P := P)
    as (A1 & A2 & A3 & A4 & A5 & A6); auto.
  - intros s0 x P0. split; [apply grows_assign_param|].
    assert (Q : forall a, (forall k, m_layer (assign_id a s0) k = m_layer s0 k) /\
        (forall b, b = a -> m_ids (assign_id a s0) b <> 0) /\
        (forall b, b <> a -> m_ids (assign_id a s0) b = m_ids s0 b)).
    { intros a. destruct (assign_facts a s0 P0) as (L & N & O). split; auto. split; auto.
      intros b ->; auto. }
    destruct x as [a|h|a|h|a]; simpl; auto.
    + destruct (alive hp KLanelet (h_addr h)).
      * destruct (Q (h_addr h)) as (L & N & O). split; auto. split; [intros b [_ X]; auto|].
        intros b Hb. apply O. intros ->; apply Hb; auto.
      * split; auto. split; [intros b [X _]; discriminate|auto].
    + destruct (alive hp KArea a).
      * destruct (Q a) as (L & N & O). split; auto. split; [intros b [_ X]; auto|].
        intros b Hb. apply O. intros ->; apply Hb; auto.
      * split; auto. split; [intros b [X _]; discriminate|auto].
  - intros x b. destruct x as [a|h|a|h|a]; simpl.
    + destruct (Nat.eq_dec b a); auto.
    + destruct (Nat.eq_dec b (h_addr h)); auto.
    + destruct (Nat.eq_dec b a); auto.
    + destruct (alive hp KLanelet (h_addr h)), (Nat.eq_dec b (h_addr h)); auto;
        right; intros [X Y]; auto; discriminate.
    + destruct (alive hp KArea a), (Nat.eq_dec b a); auto; right; intros [X Y]; auto; discriminate.
Qed.

(** * The recursive part *)

Lemma fold_opt_spec {A} hp (f : A -> mstate -> option mstate) (Q : A -> mstate -> Prop) :
  (forall x s s', Q x s -> grows s s' -> Q x s') ->
  forall l P s s',
  (forall x s s', In x l -> wf hp s -> comp hp ids0 s P -> f x s = Some s' ->
     wf hp s' /\ comp hp ids0 s' P /\ grows s s' /\ Q x s') ->
  wf hp s -> comp hp ids0 s P -> fold_opt f l s = Some s' ->
  wf hp s' /\ comp hp ids0 s' P /\ grows s s' /\ (forall x, In x l -> Q x s').
Proof.
  intros M. induction l as [|x l IH]; intros P s s' H W C E; simpl in E.
  - inversion E; subst. split; auto. split; auto. split; [apply grows_refl|simpl; tauto].
  - destruct (f x s) as [s1|] eqn:F; [|discriminate].
    destruct (H x s s1) as (W1 & C1 & G1 & Q1); auto; [left; auto|].
    destruct (IH P s1 s') as (W2 & C2 & G2 & Q2); auto.
    { intros y t t' Hy; apply H; right; auto. }
    split; auto. split; auto. split; [eapply grows_trans; eauto|].
    intros y [<-|Hy]; eauto.
Qed.

Theorem add_spec hp : heap_ok hp -> forall fuel t s s' P,
  wf hp s -> comp hp ids0 s P -> target_ok hp t -> add hp fuel t s = Some s' ->
  wf hp s' /\ comp hp ids0 s' P /\ good s' (target_kind t) (target_addr t).
Proof.
  intros HO. induction fuel as [|f IH]; intros t s s' P W C T E; [discriminate|].
  simpl in E. destruct t as [a|h|a|h|a|a].
  - inversion E; subst. destruct (point_spec hp a s P) as (A1 & A2 & A3 & _); auto.
  - inversion E; subst. destruct (line_spec hp h s P) as (A1 & A2 & A3 & _); auto.
  - inversion E; subst. destruct (poly_spec hp a s P) as (A1 & A2 & A3); auto.
  - (* lanelet *)
    unfold target_ok, target_addr in T. simpl in T |- *. unfold target_addr. simpl.
    change (fst h) with (h_addr h) in *.
    unfold add_lanelet in E. destruct (begin_add KLanelet (h_addr h) s) as [s1|] eqn:B.
    2:{ inversion E; subst. split; auto. split; auto. eapply begin_exists; eauto. }
    cbv zeta in E. assert (T' := T). destruct T' as [o [Eo Ko]]. destruct o as [| | |l r c regs| |]; try discriminate.
    assert (OK := HO _ _ Eo). simpl in OK. destruct OK as (KL & KR & KC & KG).
    assert (W1 := wf_begin _ _ _ _ _ W B). assert (C1 := comp_begin _ _ _ _ _ _ W B C).
    assert (HL : has_kind hp KLine (h_addr (left_of hp h))).
    { unfold left_of. rewrite Eo. destruct (snd h); auto. }
    assert (HR : has_kind hp KLine (h_addr (right_of hp h))).
    { unfold right_of. rewrite Eo. destruct (snd h); auto. }
    destruct (line_spec hp (left_of hp h) s1 _ HO W1 C1 HL) as (W2 & C2 & G2 & L2).
    set (s2 := add_line hp (left_of hp h) s1) in *.
    destruct (line_spec hp (right_of hp h) s2 _ HO W2 C2 HR) as (W3 & C3 & G3 & L3).
    assert (GG23 : grows s2 (add_line hp (right_of hp h) s2)) by apply grows_line.
    set (s3 := add_line hp (right_of hp h) s2) in *.
    set (s4 := match custom_center hp h s3 with Some c => add_line hp c s3 | None => s3 end) in *.
    assert (GG34 : grows s3 s4) by apply grows_center.
    assert (S4 : wf hp s4 /\ comp hp ids0 s4 (fun b => P b \/ b = h_addr h) /\
       (forall x, c = Some x -> m_ids s4 (h_addr x) <> 0 -> good s4 KLine (h_addr x)) /\
       (forall k, k <> KPoint -> k <> KLine -> m_layer s4 k = m_layer s3 k)).
    { unfold s4, custom_center, center_of. rewrite Eo. destruct c as [x|].
      - assert (KX : has_kind hp KLine (h_addr (if snd h then flip x else x))).
        { assert (Z0 := KC x eq_refl). destruct (snd h); auto. }
        destruct (m_ids s3 (h_addr (if snd h then flip x else x)) =? inval) eqn:Z0.
        + split; auto. split; auto. split; auto. intros y Hy N. inversion Hy; subst y. exfalso. apply N.
          unfold inval in Z0. assert (HH : h_addr (if snd h then flip x else x) = h_addr x) by (destruct (snd h); auto).
          rewrite HH in Z0. lia.
        + destruct (line_spec hp _ s3 _ HO W3 C3 KX) as (A1 & A2 & A3 & A4).
          split; auto. split; auto. split; auto.
          intros y Hy _. inversion Hy; subst y.
          assert (HH : h_addr (if snd h then flip x else x) = h_addr x) by (destruct (snd h); auto).
          rewrite HH in A3. auto.
      - split; auto. split; auto. split; [discriminate|auto]. }
    destruct S4 as (W4 & C4 & X4 & L4).
    assert (RG : regs_of hp (h_addr h) = regs) by (unfold regs_of; rewrite Eo; auto).
    rewrite RG in E.
    destruct (assign_ids_spec hp regs s4 _ W4 C4) as (W5 & C5 & GG45 & L5 & N5 & O5).
    set (s5 := assign_ids regs s4) in *.
    assert (G15 : grows s1 s5).
    { eapply grows_trans; [apply (grows_line hp (left_of hp h))|]. eapply grows_trans; [exact GG23|].
      eapply grows_trans; eauto. }
    assert (G25 : grows s2 s5) by (eapply grows_trans; [exact GG23|]; eapply grows_trans; eauto).
    assert (G35 : grows s3 s5) by (eapply grows_trans; eauto).
    destruct (insert_spec hp KLanelet h s s1 s5 P (fun b => In b regs)) as (W6 & C6 & G6); auto.
    + rewrite L5, L4, L3, L2 by discriminate. auto.
    + eapply comp_weaken; [exact C5|]. intros b [[X|X]|X]; auto.
    + intros ky b R. inversion R; subst; unfold h_addr in Eo; try congruence;
        match goal with H : obj hp (fst h) = Some _ |- _ => rewrite Eo in H; inversion H; subst; clear H end.
      * left. assert (Q : good s5 KLine (h_addr (left_of hp h))) by (apply (grows_good s2); auto).
        assert (Q' : good s5 KLine (h_addr (right_of hp h))) by (apply (grows_good s3); auto).
        unfold left_of, right_of, h_addr in Q, Q'. rewrite Eo in Q, Q'. destruct (snd h); auto.
      * left. assert (Q : good s5 KLine (h_addr (left_of hp h))) by (apply (grows_good s2); auto).
        assert (Q' : good s5 KLine (h_addr (right_of hp h))) by (apply (grows_good s3); auto).
        unfold left_of, right_of, h_addr in Q, Q'. rewrite Eo in Q, Q'. destruct (snd h); auto.
      * left. apply (grows_good s4); auto. apply X4; auto. unfold h_addr.
        match goal with H : m_ids s5 (fst ?y) <> 0 |- _ => rename H into NZ end.
        rewrite O5 in NZ; auto.
        intros HI. assert (K1 := KG _ HI). assert (K2 := KC _ eq_refl).
        assert (Q := kind_unique _ _ _ _ K1 K2). discriminate.
      * right. split; auto.
    + set (s6 := layer_add hp KLanelet h s5) in *.
      destruct (fold_opt_spec hp (fun r => add hp f (TReg r)) (fun r s => good s KReg r)) with
        (l := regs) (P := fun b => P b \/ In b regs) (s := s6) (s' := s') as (W7 & C7 & G7 & Q7); auto.
      * intros x t t' Hg Hgr; eapply grows_good; eauto.
      * intros x t t' Hx Wt Ct Et. destruct (IH (TReg x) t t' _ Wt Ct) as (Y1 & Y2 & Y3); auto.
        { unfold target_ok; simpl. apply KG; auto. }
        split; auto. split; auto. split; auto. eapply add_grows; eauto.
      * split; auto. split; [|eapply grows_good; eauto].
        apply comp_drop with (Q := fun b => In b regs); auto.
        intros ky b Hb Kb. rewrite (kind_unique _ _ _ _ Kb (KG _ Hb)). auto.
  - (* area *)
    unfold target_ok, target_addr in T. simpl in T |- *. unfold target_addr. simpl.
    unfold add_area in E. destruct (begin_add KArea a s) as [s1|] eqn:B.
    2:{ inversion E; subst. split; auto. split; auto. eapply begin_exists; eauto. }
    cbv zeta in E. assert (T' := T). destruct T' as [o [Eo Ko]].
    destruct o as [| | | |outer inner regs|]; try discriminate.
    assert (OK := HO _ _ Eo). simpl in OK. destruct OK as (KO & KI & KG).
    assert (W1 := wf_begin _ _ _ _ _ W B). assert (C1 := comp_begin _ _ _ _ _ _ W B C).
    assert (RI : rings_of hp a = outer ++ concat inner) by (unfold rings_of; rewrite Eo; auto).
    rewrite RI in E.
    assert (KLs : forall l, In l (outer ++ concat inner) -> has_kind hp KLine (h_addr l)).
    { intros l Hl. apply in_app_or in Hl as [Hl|Hl]; [apply KO; auto|].
      apply in_concat in Hl as [ring [X Y]]. eapply KI; eauto. }
    destruct (lines_spec hp _ s1 _ HO W1 C1 KLs) as (W2 & C2 & G2 & L2).
    assert (GG12 : grows s1 (add_lines hp (outer ++ concat inner) s1)) by apply grows_lines.
    set (s2 := add_lines hp (outer ++ concat inner) s1) in *.
    assert (RG : regs_of hp a = regs) by (unfold regs_of; rewrite Eo; auto).
    rewrite RG in E.
    destruct (assign_ids_spec hp regs s2 _ W2 C2) as (W5 & C5 & GG45 & L5 & N5 & O5).
    set (s5 := assign_ids regs s2) in *.
    destruct (insert_spec hp KArea (a, false) s s1 s5 P (fun b => In b regs)) as (W6 & C6 & G6); auto.
    + eapply grows_trans; eauto.
    + rewrite L5, L2 by discriminate. auto.
    + eapply comp_weaken; [exact C5|]. intros b [[X|X]|X]; auto.
    + intros ky b R. inversion R; subst; simpl in *; try congruence;
        match goal with H : obj hp a = Some _ |- _ => rewrite Eo in H; inversion H; subst; clear H end.
      * left. apply (grows_good s2); auto. apply (G2 l). apply in_or_app; auto.
      * left. apply (grows_good s2); auto. apply (G2 l). apply in_or_app; right.
        apply in_concat; eauto.
      * right. split; auto.
    + set (s6 := layer_add hp KArea (a, false) s5) in *.
      destruct (fold_opt_spec hp (fun r => add hp f (TReg r)) (fun r s => good s KReg r)) with
        (l := regs) (P := fun b => P b \/ In b regs) (s := s6) (s' := s') as (W7 & C7 & G7 & Q7); auto.
      * intros x t t' Hg Hgr; eapply grows_good; eauto.
      * intros x t t' Hx Wt Ct Et. destruct (IH (TReg x) t t' _ Wt Ct) as (Y1 & Y2 & Y3); auto.
        { unfold target_ok; simpl. apply KG; auto. }
        split; auto. split; auto. split; auto. eapply add_grows; eauto.
      * split; auto. split; [|eapply grows_good; eauto; exact G6].
        apply comp_drop with (Q := fun b => In b regs); auto.
        intros ky b Hb Kb. rewrite (kind_unique _ _ _ _ Kb (KG _ Hb)). auto.
  - (* regulatory element *)
    unfold target_ok, target_addr in T. simpl in T |- *. unfold target_addr. simpl.
    unfold add_reg in E. destruct (begin_add KReg a s) as [s1|] eqn:B.
    2:{ inversion E; subst. split; auto. split; auto. eapply begin_exists; eauto. }
    cbv zeta in E. assert (T' := T). destruct T' as [o [Eo Ko]].
    destruct o as [| | | | |ps]; try discriminate.
    assert (OK := HO _ _ Eo). simpl in OK. destruct OK as (KP & KL & KY).
    assert (W1 := wf_begin _ _ _ _ _ W B). assert (C1 := comp_begin _ _ _ _ _ _ W B C).
    assert (RI : params_of hp a = ps) by (unfold params_of; rewrite Eo; auto).
    rewrite RI in E.
    destruct (assign_params_spec hp ps s1 _ W1 C1) as (W5 & C5 & GG45 & L5 & N5).
    set (s5 := fold_left (fun s p => assign_param hp p s) ps s1) in *.
    set (R0 := fun b => exists p, In p ps /\ param_target hp p b).
    destruct (insert_spec hp KReg (a, false) s s1 s5 P R0) as (W6 & C6 & G6); auto.
    + eapply comp_weaken; [exact C5|]. unfold R0. intros b [[X|X]|X]; auto.
    + intros ky b R. right. assert (X : R0 b).
      { unfold R0. inversion R; subst; simpl in *; try congruence;
        match goal with H : obj hp a = Some _ |- _ => rewrite Eo in H; inversion H; subst; clear H end.
        - eexists; split; [eassumption|simpl; auto].
        - eexists; split; [eassumption|simpl; auto].
        - eexists; split; [eassumption|simpl; auto].
        - eexists; split; [eassumption|simpl; split; auto]. apply alive_kind.
          eexists; split; [eassumption|auto].
        - eexists; split; [eassumption|simpl; split; auto]. apply alive_kind.
          eexists; split; [eassumption|auto]. }
      split; auto. destruct X as [p [X Y]]. eapply N5; eauto.
    + set (s6 := layer_add hp KReg (a, false) s5) in *.
      set (Q := fun p s => forall ky b, param_target hp p b -> has_kind hp ky b -> good s ky b).
      destruct (fold_opt_spec hp (add_param hp (fun l => add hp f (TLanelet l)) (fun l => add hp f (TArea l))) Q)
        with (l := ps) (P := fun b => P b \/ R0 b) (s := s6) (s' := s') as (W7 & C7 & G7 & Q7); auto.
      * unfold Q. intros x t t' Hg Hgr ky b Hb Kb; eapply grows_good; eauto.
      * intros x t t' Hx Wt Ct Et. unfold add_param in Et.
        destruct x as [p|l|p|l|b]; unfold Q; simpl.
        -- inversion Et; subst. destruct (point_spec hp p t _ HO Wt Ct) as (Y1 & Y2 & Y3 & _); auto.
           split; auto. split; auto. split; [apply grows_point|].
           intros ky b -> Kb. rewrite (kind_unique _ _ _ _ Kb (KP _ Hx)). auto.
        -- inversion Et; subst. destruct (line_spec hp l t _ HO Wt Ct) as (Y1 & Y2 & Y3 & _).
           { apply KL; auto. }
           split; auto. split; auto. split; [apply grows_line|].
           intros ky b -> Kb. rewrite (kind_unique _ _ _ _ Kb (KL _ Hx)). auto.
        -- inversion Et; subst. destruct (poly_spec hp p t _ HO Wt Ct) as (Y1 & Y2 & Y3); auto.
           split; auto. split; auto. split; [apply grows_poly|].
           intros ky b -> Kb. rewrite (kind_unique _ _ _ _ Kb (KY _ Hx)). auto.
        -- destruct (alive hp KLanelet (h_addr l)) eqn:A.
           ++ assert (KA : has_kind hp KLanelet (h_addr l)) by (apply alive_kind; auto).
              destruct (IH (TLanelet l) t t' _ Wt Ct) as (Y1 & Y2 & Y3); auto.
              split; auto. split; auto. split; [eapply add_grows; eauto|].
              intros ky b [_ ->] Kb. rewrite (kind_unique _ _ _ _ Kb KA). auto.
           ++ inversion Et; subst. split; auto. split; auto. split; [apply grows_refl|].
              intros ky b [X _]; discriminate.
        -- destruct (alive hp KArea b) eqn:A.
           ++ assert (KA : has_kind hp KArea b) by (apply alive_kind; auto).
              destruct (IH (TArea b) t t' _ Wt Ct) as (Y1 & Y2 & Y3); auto.
              split; auto. split; auto. split; [eapply add_grows; eauto|].
              intros ky b' [_ ->] Kb. rewrite (kind_unique _ _ _ _ Kb KA). auto.
           ++ inversion Et; subst. split; auto. split; auto. split; [apply grows_refl|].
              intros ky b' [X _]; discriminate.
      * split; auto. split; [|eapply grows_good; eauto; exact G6].
        apply comp_drop with (Q := R0); auto.
        intros ky b [p [Hp Tp]] Kb. eapply Q7; eauto.
Qed.

Theorem add_all_spec hp : heap_ok hp -> forall fuel ts s s' P,
  (forall t, In t ts -> target_ok hp t) -> wf hp s -> comp hp ids0 s P ->
  add_all hp fuel ts s = Some s' ->
  wf hp s' /\ comp hp ids0 s' P /\ (forall t, In t ts -> good s' (target_kind t) (target_addr t)).
Proof.
  intros HO fuel ts s s' P HT W C E.
  destruct (fold_opt_spec hp (add hp fuel) (fun t s => good s (target_kind t) (target_addr t))) with
    (l := ts) (P := P) (s := s) (s' := s') as (A1 & A2 & A3 & A4); auto.
  - intros; eapply grows_good; eauto.
  - intros t u u' Ht Wu Cu Eu. destruct (add_spec hp HO fuel t u u' P Wu Cu (HT _ Ht) Eu) as (B1 & B2 & B3).
    split; auto. split; auto. split; auto. eapply add_grows; eauto.
Qed.

Lemma wf_empty hp ids next : 0 < next -> wf hp (empty_map ids next).
Proof.
  intros P. split; simpl; auto.
  - intros k i h [].
  - intros k; constructor.
  - intros k i h key [].
Qed.


Lemma comp_self_contained hp s : comp hp ids0 s (fun _ => False) -> self_contained hp s.
Proof.
  intros [C _] k i h ky b E R. destruct (C _ _ _ _ _ E R) as [[N [h' L]]|[]].
  split; auto. exists h'. unfold get, inval. destruct (m_ids s b =? 0) eqn:Z0; [lia|auto].
Qed.

End Since.

Lemma comp_empty hp ids next P : comp hp ids (empty_map ids next) P.
Proof. split; [intros k i h ky b []|]. intros ky b B0 B1. contradiction. Qed.

Lemma comp_restart hp ids0 s P : comp hp ids0 s P -> comp hp (m_ids s) s P.
Proof. intros [C _]. split; auto. intros ky b B0 B1. contradiction. Qed.
