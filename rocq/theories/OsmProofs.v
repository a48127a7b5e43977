(** Proofs about the OSM file layer. *)
From Coq Require Import List Arith Bool String Ascii ZArith Sorted Lia.
From Verif Require Import OsmModel OsmSpec.
Import ListNotations.
Local Open Scope string_scope.
Local Open Scope list_scope.

(** * Ordered maps *)
Section OMapProofs.
Context {K : Type}.
Variable ltb : K -> K -> bool.
Hypothesis irr : forall a, ltb a a = false.
Hypothesis tra : forall a b c, ltb a b = true -> ltb b c = true -> ltb a c = true.
Hypothesis tot : forall a b, ltb a b = false -> ltb b a = false -> a = b.
Notation sorted := (StronglySorted (fun a b => ltb a b = true)).

Lemma lt_asym a b : ltb a b = true -> ltb b a = false.
Proof. intros H. destruct (ltb b a) eqn:E; auto. rewrite <- (irr a). symmetry. eapply tra; eauto. Qed.

Lemma mget_In {V} (m : list (K * V)) k v : sorted (map fst m) -> (mget ltb k m = Some v <-> In (k, v) m).
Proof.
  induction m as [|[k0 v0] m IH]; intros S; simpl.
  - split; [discriminate|tauto].
  - apply StronglySorted_inv in S. destruct S as [S F].
    assert (forall w, In (k, w) m -> ltb k0 k = true) as G.
    { intros w Hw. rewrite Forall_forall in F. apply F. apply in_map_iff. exists (k, w). auto. }
    destruct (ltb k k0) eqn:E1.
    + split; [discriminate|]. intros [H|H].
      * injection H as -> ->. rewrite irr in E1. discriminate.
      * apply G in H. rewrite (lt_asym _ _ E1) in H. discriminate.
    + destruct (ltb k0 k) eqn:E2.
      * rewrite IH by auto. split; auto. intros [H|H]; auto. injection H as -> ->. rewrite irr in E2. discriminate.
      * assert (k = k0) as Ek by (apply tot; auto). subst k0. split.
        -- intros [= ->]. auto.
        -- intros [H|H]; [congruence|]. apply G in H. discriminate.
Qed.

Lemma mget_none {V} (m : list (K * V)) k : sorted (map fst m) -> (mget ltb k m = None <-> ~ In k (map fst m)).
Proof.
  intros S. split.
  - intros E H. apply in_map_iff in H. destruct H as ([k' v] & Ek & H). simpl in Ek. subst k'.
    apply mget_In in H; auto. congruence.
  - intros H. destruct (mget ltb k m) eqn:E; auto. exfalso. apply H. apply mget_In in E; auto.
    apply in_map_iff. exists (k, v). auto.
Qed.

Lemma mset_keys {V} (k : K) (v : V) m a : In a (map fst (mset ltb k v m)) <-> a = k \/ In a (map fst m).
Proof.
  induction m as [|[k0 v0] m IH]; simpl.
  - firstorder.
  - destruct (ltb k k0) eqn:E1; simpl; [firstorder|]. destruct (ltb k0 k) eqn:E2; simpl.
    + rewrite IH. firstorder.
    + assert (k = k0) as -> by (apply tot; auto). firstorder.
Qed.
Lemma memplace_keys {V} (k : K) (v : V) m a : In a (map fst (memplace ltb k v m)) <-> a = k \/ In a (map fst m).
Proof.
  induction m as [|[k0 v0] m IH]; simpl.
  - firstorder.
  - destruct (ltb k k0) eqn:E1; simpl; [firstorder|]. destruct (ltb k0 k) eqn:E2; simpl.
    + rewrite IH. firstorder.
    + assert (k = k0) as -> by (apply tot; auto). firstorder.
Qed.
Lemma mset_sorted {V} (k : K) (v : V) m : sorted (map fst m) -> sorted (map fst (mset ltb k v m)).
Proof.
  induction m as [|[k0 v0] m IH]; intros S; simpl.
  - repeat constructor.
  - pose proof S as S0. apply StronglySorted_inv in S. destruct S as [S F]. rewrite Forall_forall in F.
    destruct (ltb k k0) eqn:E1; simpl.
    + constructor; auto. constructor; auto. apply Forall_forall. intros a Ha. eapply tra; eauto. 
    + destruct (ltb k0 k) eqn:E2; simpl.
      * constructor; auto. apply Forall_forall. intros a Ha. apply mset_keys in Ha. destruct Ha as [->|Ha]; auto.
      * assert (k = k0) as -> by (apply tot; auto). exact S0.
Qed.
Lemma memplace_sorted {V} (k : K) (v : V) m : sorted (map fst m) -> sorted (map fst (memplace ltb k v m)).
Proof.
  induction m as [|[k0 v0] m IH]; intros S; simpl.
  - repeat constructor.
  - pose proof S as S0. apply StronglySorted_inv in S. destruct S as [S F]. rewrite Forall_forall in F.
    destruct (ltb k k0) eqn:E1; simpl.
    + constructor; auto. constructor; auto. apply Forall_forall. intros a Ha. eapply tra; eauto.
    + destruct (ltb k0 k) eqn:E2; simpl.
      * constructor; auto. apply Forall_forall. intros a Ha. apply memplace_keys in Ha. destruct Ha as [->|Ha]; auto.
      * exact S0.
Qed.

Lemma mget_mset {V} (k k' : K) (v : V) m :
  mget ltb k (mset ltb k' v m) = if (negb (ltb k k') && negb (ltb k' k))%bool then Some v else mget ltb k m.
Proof.
  induction m as [|[k0 v0] m IH]; simpl.
  - destruct (ltb k k') eqn:A, (ltb k' k) eqn:B; reflexivity.
  - destruct (ltb k' k0) eqn:E1; simpl.
    + destruct (ltb k k') eqn:A, (ltb k' k) eqn:B; simpl; auto; rewrite (tra _ _ _ A E1); reflexivity.
    + destruct (ltb k0 k') eqn:E2; simpl.
      * rewrite IH. destruct (ltb k k0) eqn:A; auto.
        -- rewrite (tra _ _ _ A E2). reflexivity.
        -- destruct (ltb k0 k) eqn:B; auto. assert (k = k0) as -> by (apply tot; auto). rewrite E2. reflexivity.
      * assert (k' = k0) as -> by (apply tot; auto).
        destruct (ltb k k0) eqn:A; auto. destruct (ltb k0 k) eqn:B; auto.
Qed.
Lemma mget_memplace {V} (k k' : K) (v : V) m : 
  mget ltb k (memplace ltb k' v m) =
  if (negb (ltb k k') && negb (ltb k' k))%bool then Some (match mget ltb k m with Some w => w | None => v end)
  else mget ltb k m.
Proof.
  induction m as [|[k0 v0] m IH]; simpl.
  - destruct (ltb k k') eqn:A, (ltb k' k) eqn:B; reflexivity.
  - destruct (ltb k' k0) eqn:E1; simpl.
    + destruct (ltb k k') eqn:A, (ltb k' k) eqn:B; simpl; auto; try (rewrite (tra _ _ _ A E1); reflexivity).
      assert (k = k') as -> by (apply tot; auto). rewrite E1. reflexivity.
    + destruct (ltb k0 k') eqn:E2; simpl.
      * rewrite IH. destruct (ltb k k0) eqn:A; auto.
        -- rewrite (tra _ _ _ A E2). reflexivity.
        -- destruct (ltb k0 k) eqn:B; auto. assert (k = k0) as -> by (apply tot; auto). rewrite E2. reflexivity.
      * assert (k' = k0) as -> by (apply tot; auto).
        destruct (ltb k k0) eqn:A; auto. destruct (ltb k0 k) eqn:B; auto.
Qed.

Lemma sorted_ext {V} (m m' : list (K * V)) : sorted (map fst m) -> sorted (map fst m') ->
  (forall k v, In (k, v) m <-> In (k, v) m') -> m = m'.
Proof.
  revert m'. induction m as [|[k v] m IH]; intros [|[k' v'] m'] S S' E; auto.
  - exfalso. apply (E k' v'). simpl. auto.
  - exfalso. apply (E k v). simpl. auto.
  - simpl in S, S'. apply StronglySorted_inv in S. apply StronglySorted_inv in S'. destruct S as [S F], S' as [S' F'].
    rewrite Forall_forall in F, F'.
    assert (forall w, In (k, w) m -> False) as N.
    { intros w H. specialize (F k). rewrite irr in F. discriminate F. apply in_map_iff. exists (k, w). auto. }
    assert (forall w, In (k', w) m' -> False) as N'.
    { intros w H. specialize (F' k'). rewrite irr in F'. discriminate F'. apply in_map_iff. exists (k', w). auto. }
    assert ((k, v) = (k', v')) as Eq.
    { destruct (E k v) as [H _]. destruct (E k' v') as [_ H'].
      destruct H as [H|H]; [simpl; auto|congruence|]. destruct H' as [H'|H']; [simpl; auto|congruence|].
      assert (ltb k' k = true) as A by (apply F'; apply in_map_iff; exists (k, v); auto).
      assert (ltb k k' = true) as B by (apply F; apply in_map_iff; exists (k', v'); auto).
      rewrite (lt_asym _ _ A) in B. discriminate. }
    injection Eq as <- <-. f_equal. apply IH; auto. intros a b. split; intros H.
    + destruct (E a b) as [G _]. destruct G as [G|G]; [simpl; auto| |auto]. injection G as <- <-. exfalso. eauto.
    + destruct (E a b) as [_ G]. destruct G as [G|G]; [simpl; auto| |auto]. injection G as <- <-. exfalso. eauto.
Qed.

Lemma mset_end {V} (k : K) (v : V) m : (forall a, In a (map fst m) -> ltb a k = true) -> mset ltb k v m = m ++ [(k, v)].
Proof.
  induction m as [|[k0 v0] m IH]; intros H; simpl; auto.
  assert (ltb k0 k = true) as E by (apply H; simpl; auto). rewrite (lt_asym _ _ E), E, IH; auto.
  intros a Ha. apply H. simpl. auto.
Qed.
Lemma sorted_app_inv {V} (a b : list (K * V)) : sorted (map fst (a ++ b)) ->
  forall x y, In x (map fst a) -> In y (map fst b) -> ltb x y = true.
Proof.
  induction a as [|e a IH]; simpl; intros S x y [].
  - subst x. intros H. apply StronglySorted_inv in S. destruct S as [_ F]. rewrite Forall_forall in F. apply F.
    rewrite map_app. apply in_or_app. auto.
  - intros. apply StronglySorted_inv in S. apply IH; tauto.
Qed.
(** Inserting the elements of a sorted list one after the other gives that list. *)
Lemma fold_mset {A V} (kf : A -> K) (vf : A -> V) (l : list A) acc :
  sorted (map fst (acc ++ map (fun x => (kf x, vf x)) l)) ->
  fold_left (fun m x => mset ltb (kf x) (vf x) m) l acc = acc ++ map (fun x => (kf x, vf x)) l.
Proof.
  revert acc. induction l as [|x l IH]; intros acc S; simpl; [rewrite app_nil_r; auto|].
  rewrite mset_end.
  - rewrite IH; rewrite <- app_assoc; simpl; auto.
  - intros a Ha. eapply sorted_app_inv; eauto. simpl. auto.
Qed.
(** General: the last one wins. *)
Lemma fold_mset_get {A V} (kf : A -> K) (vf : A -> V) (l : list A) acc k v :
  mget ltb k (fold_left (fun m x => mset ltb (kf x) (vf x) m) l acc) = Some v <->
  (exists a b x, l = a ++ x :: b /\ kf x = k /\ vf x = v /\ forall x', In x' b -> kf x' <> k) \/
  (mget ltb k acc = Some v /\ forall x, In x l -> kf x <> k).
Proof.
  revert acc. induction l as [|x l IH]; intros acc; simpl.
  - split; [auto|]. intros [(a & b & x & E & _)|[H _]]; auto. destruct a; discriminate.
  - rewrite IH, mget_mset. split.
    + intros [(a & b & y & -> & E & F & H)|[H N]].
      * left. exists (x :: a), b, y. auto.
      * destruct (negb (ltb k (kf x)) && negb (ltb (kf x) k))%bool eqn:Q.
        -- injection H as <-. apply andb_prop in Q. destruct Q as [Q1 Q2]. apply negb_true_iff in Q1, Q2.
           left. exists [], l, x. repeat split; auto.
        -- right. split; auto. intros y [<-|Hy]; auto. intros Ek. rewrite Ek, irr in Q. discriminate.
    + intros [(a & b & y & E & F & G & H)|[H N]].
      * destruct a as [|z a]; injection E as Ex El; subst.
        -- right. rewrite irr. simpl. auto.
        -- left. exists a, b, y. auto.
      * right. split; [|intros y Hy; apply N; auto].
        destruct (ltb k (kf x)) eqn:A1, (ltb (kf x) k) eqn:A2; simpl; auto.
        exfalso. apply (N x); auto.
Qed.
Lemma fold_mset_sorted {A V} (kf : A -> K) (vf : A -> V) (l : list A) acc :
  sorted (map fst acc) -> sorted (map fst (fold_left (fun m x => mset ltb (kf x) (vf x) m) l acc)).
Proof. revert acc. induction l as [|x l IH]; intros acc S; simpl; auto. apply IH. apply mset_sorted. auto. Qed.
Lemma fold_mset_is_map {A V} (kf : A -> K) (vf : A -> V) (l : list A) :
  is_map ltb (fold_left (fun m x => mset ltb (kf x) (vf x) m) l [])
    (fun k v => exists a b x, l = a ++ x :: b /\ kf x = k /\ vf x = v /\ forall x', In x' b -> kf x' <> k).
Proof.
  assert (sorted (map fst (fold_left (fun m x => mset ltb (kf x) (vf x) m) l []))) as S
    by (apply fold_mset_sorted; constructor).
  split; auto. intros k v. rewrite <- mget_In by auto. rewrite fold_mset_get. split; auto.
  intros [H|[H _]]; auto. discriminate.
Qed.
End OMapProofs.

Lemma zirr a : Z.ltb a a = false. Proof. apply Z.ltb_irrefl. Qed.
Lemma ztra a b c : Z.ltb a b = true -> Z.ltb b c = true -> Z.ltb a c = true.
Proof. rewrite !Z.ltb_lt. lia. Qed.
Lemma ztot a b : Z.ltb a b = false -> Z.ltb b a = false -> a = b.
Proof. rewrite !Z.ltb_ge. lia. Qed.
Lemma ascii_compare_N a b : Ascii.compare a b = N.compare (N_of_ascii a) (N_of_ascii b).
Proof. reflexivity. Qed.
Lemma slt_c a b : String.ltb a b = true <-> String.compare a b = Lt.
Proof. unfold String.ltb. destruct (String.compare a b); split; congruence. Qed.
Lemma sirr a : String.ltb a a = false.
Proof.
  assert (String.compare a a = Eq) as E.
  { induction a as [|x a IH]; simpl; auto. rewrite ascii_compare_N, N.compare_refl. auto. }
  unfold String.ltb. rewrite E. reflexivity.
Qed.
Lemma stra a b c : String.ltb a b = true -> String.ltb b c = true -> String.ltb a c = true.
Proof.
  rewrite !slt_c. revert b c. induction a as [|x a IH]; intros [|y b] [|z c]; simpl; try congruence.
  rewrite !ascii_compare_N.
  destruct (N.compare_spec (N_of_ascii x) (N_of_ascii y)) as [E|E|E], (N.compare_spec (N_of_ascii y) (N_of_ascii z)) as [F|F|F];
    try congruence; intros.
  - rewrite E, F, N.compare_refl. eapply IH; eauto.
  - rewrite E. apply N.compare_lt_iff in F. rewrite F. auto.
  - rewrite <- F. apply N.compare_lt_iff in E. rewrite E. auto.
  - assert (N_of_ascii x < N_of_ascii z)%N as G by lia. apply N.compare_lt_iff in G. rewrite G. auto.
Qed.
Lemma stot a b : String.ltb a b = false -> String.ltb b a = false -> a = b.
Proof.
  unfold String.ltb. rewrite (String.compare_antisym b a). destruct (String.compare a b) eqn:E; simpl; try discriminate.
  intros _ _. apply String.compare_eq_iff. auto.
Qed.

(** * Tags, nodes and ways *)
Lemma filter_split {A} (p : A -> bool) l a x b : filter p l = a ++ x :: b ->
  exists a' b', l = a' ++ x :: b' /\ filter p a' = a /\ filter p b' = b /\ p x = true.
Proof.
  revert a. induction l as [|y l IH]; intros a H; simpl in H.
  - destruct a; discriminate.
  - destruct (p y) eqn:E.
    + destruct a as [|z a]; injection H as Ex El; subst.
      * exists [], l. auto.
      * destruct (IH a El) as (a' & b' & -> & <- & <- & P). exists (z :: a'), b'. simpl. rewrite E. auto.
    + destruct (IH a H) as (a' & b' & -> & <- & <- & P). exists (y :: a'), b'. simpl. rewrite E. auto.
Qed.

Lemma tags_fold (l : list xml) acc :
  fold_left (fun a t => if String.eqb (attr_value "k" t) "ele" then a else sset (attr_value "k" t) (attr_value "v" t) a) l acc =
  fold_left (fun m x => mset String.ltb (attr_value "k" x) (attr_value "v" x) m)
    (filter (fun t => negb (String.eqb (attr_value "k" t) "ele")) l) acc.
Proof.
  revert acc. induction l as [|t l IH]; intros acc; [reflexivity|]. cbn [fold_left filter].
  destruct (String.eqb (attr_value "k" t) "ele"); cbn [negb fold_left]; apply IH.
Qed.

Lemma tags_is_map x : is_map String.ltb (tags x) (tag_is x).
Proof.
  unfold tags. rewrite tags_fold.
  destruct (fold_mset_is_map String.ltb sirr stra stot (attr_value "k") (attr_value "v")
     (filter (fun t => negb (String.eqb (attr_value "k" t) "ele")) (xall "tag" x))) as [S H].
  split; [exact S|]. intros k v. rewrite H. clear S H. unfold tag_is. split.
  - intros (a & b & t & E & Ek & Ev & N). apply filter_split in E. destruct E as (a' & b' & E & Ea & Eb & P).
    split; [intros ->; rewrite Ek in P; discriminate|].
    exists a', b', t. repeat split; auto. intros t' H' Ht'. apply (N t'); auto. rewrite <- Eb. apply filter_In. split; auto.
    rewrite Ht', <- Ek. exact P.
  - intros (Nk & l & r & t & E & Ek & Ev & N). rewrite E. exists (filter (fun t => negb (String.eqb (attr_value "k" t) "ele")) l),
      (filter (fun t => negb (String.eqb (attr_value "k" t) "ele")) r), t. repeat split; auto.
    + rewrite filter_app. f_equal. simpl. destruct (String.eqb_spec (attr_value "k" t) "ele"); [congruence|reflexivity].
    + intros t' H'. apply filter_In in H'. apply N. tauto.
Qed.

Lemma afind_In n l v : afind n l = Some v -> In (n, v) l.
Proof.
  induction l as [|[k w] l IH]; simpl; [discriminate|]. destruct (String.eqb_spec k n).
  - intros [= ->]. subst. auto.
  - auto.
Qed.
Lemma In_afind n l v : List.NoDup (map fst l) -> In (n, v) l -> afind n l = Some v.
Proof.
  induction l as [|[k w] l IH]; simpl; [tauto|]. intros N [H|H].
  - injection H as -> ->. rewrite String.eqb_refl. auto.
  - inversion N; subst. destruct (String.eqb_spec k n).
    + subst. exfalso. apply H2. apply in_map_iff. exists (n, v). auto.
    + auto.
Qed.
Lemma is_ele t : distinct_attrs t ->
  existsb (fun a => String.eqb (fst a) "k" && String.eqb (snd a) "ele") (xattrs t) = true <-> attr_value "k" t = "ele".
Proof.
  intros N. rewrite existsb_exists. unfold attr_value, attr. split.
  - intros ([k v] & H & E). apply andb_prop in E. destruct E as [E1 E2]. apply String.eqb_eq in E1, E2. simpl in *. subst.
    rewrite (In_afind _ _ _ N H). reflexivity.
  - destruct (afind "k" (xattrs t)) eqn:E; [|discriminate]. intros ->. apply afind_In in E. exists ("k", "ele"). auto.
Qed.

Lemma find_split {A} (p : A -> bool) l x : find p l = Some x -> exists a b, l = a ++ x :: b /\ p x = true /\ forall y, In y a -> p y = false.
Proof.
  induction l as [|y l IH]; simpl; [discriminate|]. destruct (p y) eqn:E.
  - intros [= ->]. exists [], l. simpl. tauto.
  - intros H. destruct (IH H) as (a & b & -> & P & N). exists (y :: a), b. simpl. split; auto. split; auto.
    intros z [<-|Hz]; auto.
Qed.

Section Reading.
Context {D : Type}.
Variable zero_d : D.
Variable parse_id : string -> Z.
Variable parse_d : string -> D.
Notation attr_id := (attr_id parse_id).
Notation attr_d := (attr_d zero_d parse_d).

Lemma ele_of_is x : (forall t, In t (xall "tag" x) -> distinct_attrs t) ->
  ele_is zero_d parse_d x (ele_of zero_d parse_d x).
Proof.
  intros N. unfold ele_of, ele_is. destruct (find _ (xall "tag" x)) as [t|] eqn:E.
  - apply find_split in E. destruct E as (l & r & E & P & H). left. exists l, r, t. split; auto.
    split; [apply is_ele; auto; apply N; rewrite E; apply in_or_app; simpl; auto|]. split; auto.
    intros t' Ht' K. assert (distinct_attrs t') as Q by (apply N; rewrite E; apply in_or_app; auto).
    apply is_ele in K; auto. rewrite (H t' Ht') in K. discriminate.
  - right. split; auto. intros t Ht K. apply is_ele in K; [|auto]. pose proof (find_none _ _ E t Ht) as K'. simpl in K'. 
    rewrite K in K'. discriminate.
Qed.

Variable osm : xml.
Hypothesis nodes_ok : forall x t, In x (elems "node" osm) -> In t (xall "tag" x) -> distinct_attrs t.
Notation nodes := (read_nodes zero_d parse_id parse_d osm).
Notation has := (has parse_id osm).

Lemma read_nodes_is : is_map Z.ltb nodes (fun k n => exists x, last_with parse_id osm "node" k x /\ node_is zero_d parse_id parse_d x n).
Proof.
  destruct (fold_mset_is_map Z.ltb zirr ztra ztot (attr_id "id") (read_node zero_d parse_id parse_d) (elems "node" osm)) as [S H].
  split; [exact S|]. intros k n. unfold read_nodes, zset. rewrite H. clear S H. unfold last_with, node_is. split.
  - intros (a & b & x & E & Ek & En & N). exists x. split; [exists a, b; auto|]. subst n. simpl.
    split; auto. split; [apply tags_is_map|]. split; auto. split; auto. apply ele_of_is. intros t Ht. apply (nodes_ok x t); auto.
    rewrite E. apply in_or_app. simpl. auto.
  - intros (x & (a & b & E & Ek & N) & Ei & Et & Ela & Elo & Eel). exists a, b, x. repeat split; auto.
    destruct n as [i at_ la lo el]. simpl in *. subst. unfold read_node. f_equal.
    + destruct (tags_is_map x) as [S1 H1], Et as [S2 H2]. apply (sorted_ext String.ltb sirr stra stot); [exact S1|exact S2|].
      intros k v. etransitivity; [apply H1|symmetry; apply H2].
    + assert (ele_is zero_d parse_d x (ele_of zero_d parse_d x)) as Q
        by (apply ele_of_is; intros t Ht; apply (nodes_ok x t); auto; rewrite E; apply in_or_app; simpl; auto).
      destruct Q as [(l & r & t & E1 & K1 & V1 & N1)|(V1 & N1)], Eel as [(l' & r' & t' & E2 & K2 & V2 & N2)|(V2 & N2)].
      * rewrite V1, V2. f_equal. rewrite E1 in E2. clear -E2 K1 K2 N1 N2. revert l' E2 N2. 
        induction l as [|u l IH]; intros [|u' l'] E2 N2; injection E2 as Eu El; subst; auto.
        -- exfalso. apply (N2 u'); simpl; auto.
        -- exfalso. apply (N1 t'); simpl; auto.
        -- apply (IH (fun t0 H0 => N1 t0 (or_intror H0)) l'); auto. intros t0 H0. apply N2. simpl. auto.
      * exfalso. apply (N2 t); auto. rewrite E1. apply in_or_app. simpl. auto.
      * exfalso. apply (N1 t'); auto. rewrite E2. apply in_or_app. simpl. auto.
      * congruence.
Qed.

Lemma has_In n i : has n i = true <-> exists x, In x (elems n osm) /\ attr_id "id" x = i.
Proof.
  unfold OsmSpec.has, ids. rewrite existsb_exists. split.
  - intros (j & H & E). apply Z.eqb_eq in E. subst j. apply in_map_iff in H. destruct H as (x & E & H). eauto.
  - intros (x & H & E). exists i. split; [apply in_map_iff; eauto|apply Z.eqb_refl].
Qed.

Lemma fold_zset_has {V} (vf : xml -> V) n i :
  (match zget i (fold_left (fun m x => zset (attr_id "id" x) (vf x) m) (elems n osm) []) with Some _ => true | None => false end) = has n i.
Proof.
  assert (forall l acc, (exists v, zget i (fold_left (fun m x => zset (attr_id "id" x) (vf x) m) l acc) = Some v) <->
            (exists x, In x l /\ attr_id "id" x = i) \/ exists v, zget i acc = Some v) as G.
  { induction l as [|x l IH]; intros acc; simpl; [firstorder|]. rewrite IH. unfold zget, zset.
    rewrite (mget_mset Z.ltb ztra ztot).
    destruct (Z.ltb_spec i (attr_id "id" x)), (Z.ltb_spec (attr_id "id" x) i); simpl.
    - lia.
    - split; [firstorder|]. intros [(y & [->|Hy] & Ey)|Hv]; [lia|eauto|auto].
    - split; [firstorder|]. intros [(y & [->|Hy] & Ey)|Hv]; [lia|eauto|auto].
    - assert (attr_id "id" x = i) by lia. split; [intros _; left; eauto|]. intros _. right. eauto. }
  specialize (G (elems n osm) []). destruct (zget i _) eqn:E.
  - symmetry. apply has_In. destruct G as [G _]. destruct G as [G|[v' Ev]]; eauto. discriminate.
  - destruct (has n i) eqn:F; auto. apply has_In in F. destruct G as [_ G]. destruct G as [v Ev]; auto. discriminate.
Qed.

Lemma nodes_has i : (match zget i nodes with Some _ => true | None => false end) = has "node" i.
Proof. apply fold_zset_has. Qed.

Lemma forallb_ext' {A} (f g : A -> bool) l : (forall x, In x l -> f x = g x) -> forallb f l = forallb g l.
Proof. induction l as [|x l IH]; simpl; intros H; auto. rewrite H, IH; auto. Qed.

Lemma read_way_eq x : read_way parse_id nodes x =
  (Way (attr_id "id" x) (tags x) (if complete_way parse_id osm x then map (attr_id "ref") (xall "nd" x) else []),
   if complete_way parse_id osm x then [] else [EWay (attr_id "id" x)]).
Proof.
  unfold read_way, complete_way.
  assert (forallb (fun i => match zget i nodes with Some _ => true | None => false end) (map (attr_id "ref") (xall "nd" x)) =
          forallb (fun m => has "node" (attr_id "ref" m)) (xall "nd" x)) as ->.
  { induction (xall "nd" x) as [|m l IH]; auto. cbn [map forallb]. rewrite IH. f_equal. apply nodes_has. }
  destruct (forallb _ _); reflexivity.
Qed.

Lemma read_ways_eq : read_ways parse_id nodes osm =
  (fold_left (fun m x => zset (attr_id "id" x) (fst (read_way parse_id nodes x)) m) (elems "way" osm) [], way_errors parse_id osm).
Proof.
  unfold read_ways, way_errors.
  assert (forall l m es, fold_left (fun me x => let '(m, es) := me in let '(w, e) := read_way parse_id nodes x in (zset (attr_id "id" x) w m, es ++ e)) l (m, es) =
    (fold_left (fun m x => zset (attr_id "id" x) (fst (read_way parse_id nodes x)) m) l m,
     es ++ flat_map (fun x => if complete_way parse_id osm x then [] else [EWay (attr_id "id" x)]) l)) as G.
  { induction l as [|x l IH]; intros m es; [simpl; rewrite app_nil_r; reflexivity|].
    cbn [fold_left]. rewrite read_way_eq at 1. cbn [flat_map]. rewrite IH, app_assoc. 
    rewrite read_way_eq. reflexivity. }
  rewrite G. reflexivity.
Qed.

Lemma read_ways_is : is_map Z.ltb (fst (read_ways parse_id nodes osm))
  (fun k w => exists x, last_with parse_id osm "way" k x /\ way_is parse_id osm x w).
Proof.
  rewrite read_ways_eq. simpl.
  destruct (fold_mset_is_map Z.ltb zirr ztra ztot (attr_id "id") (fun x => fst (read_way parse_id nodes x)) (elems "way" osm)) as [S H].
  split; [exact S|]. intros k n. unfold zset. rewrite H. clear S H. unfold last_with, way_is. split.
  - intros (a & b & x & E & Ek & En & N). exists x. split; [exists a, b; auto|]. rewrite read_way_eq in En. subst n. simpl.
    split; auto. split; [apply tags_is_map|auto].
  - intros (x & (a & b & E & Ek & N) & Ei & Et & Ew). exists a, b, x. repeat split; auto. rewrite read_way_eq.
    destruct n as [i at_ ns]. simpl in *. subst. f_equal. 
    destruct (tags_is_map x) as [S1 H1], Et as [S2 H2]. apply (sorted_ext String.ltb sirr stra stot); [exact S1|exact S2|].
    intros k v. etransitivity; [apply H1|symmetry; apply H2].
Qed.
Lemma ways_has i : (match zget i (fst (read_ways parse_id nodes osm)) with Some _ => true | None => false end) = has "way" i.
Proof. rewrite read_ways_eq. simpl. apply fold_zset_has. Qed.
End Reading.
