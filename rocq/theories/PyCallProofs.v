(** Proofs about calls from Python. *)
From Coq Require Import String List Bool Arith Lia.
From Verif Require Import PyCallModel PyCallSpec.
Import ListNotations.
Local Open Scope nat_scope.
Local Open Scope list_scope.

Section Proofs.
Context {V : Type}.
Implicit Types (ks : list (keyword V)) (kws : list (string * V)) (pos slots vs : list V).

Definition has_value (k : keyword V) : bool := match kw_default k with Some _ => true | None => false end.
Definition named kws (k : keyword V) : bool := match dict_get (kw_name k) kws with Some _ => true | None => false end.
Definition filled_by kws (k : keyword V) (v : V) : Prop :=
  dict_get (kw_name k) kws = Some v \/ (dict_get (kw_name k) kws = None /\ kw_default k = Some v).

Lemma dict_get_in : forall kws n v, dict_get n kws = Some v -> In (n, v) kws.
Proof.
  induction kws as [|[m w] r IH]; intros n v H; cbn in H; [discriminate|].
  destruct (String.eqb n m) eqn:E.
  - apply String.eqb_eq in E. injection H as <-. left. now rewrite E.
  - right. now apply IH.
Qed.

Lemma dict_get_none : forall kws n, dict_get n kws = None <-> ~ In n (map fst kws).
Proof.
  induction kws as [|[m w] r IH]; intros n; cbn; [tauto|].
  destruct (String.eqb n m) eqn:E.
  - apply String.eqb_eq in E. subst. split; [discriminate|]. intros H. exfalso. apply H. now left.
  - apply String.eqb_neq in E. rewrite IH. intuition congruence.
Qed.

Lemma in_dict_get : forall kws n v, NoDup (map fst kws) -> In (n, v) kws -> dict_get n kws = Some v.
Proof.
  induction kws as [|[m w] r IH]; intros n v ND H; [easy|].
  cbn in ND. inversion ND as [|? ? N1 N2]; subst. cbn. destruct H as [H|H].
  - injection H as -> ->. now rewrite String.eqb_refl.
  - destruct (String.eqb n m) eqn:E.
    + apply String.eqb_eq in E. subst. exfalso. apply N1. apply in_map_iff. now exists (m, v).
    + now apply IH.
Qed.

Lemma fill_forward : forall ks kws vs n, fill (map Some ks) kws = Filled vs n ->
  Forall2 (filled_by kws) ks vs /\ n = List.length (filter (named kws) ks).
Proof.
  induction ks as [|k r IH]; intros kws vs n H; cbn in H.
  - injection H as <- <-. split; constructor.
  - cbn [filter]. unfold named at 1. destruct (dict_get (kw_name k) kws) as [v|] eqn:E.
    + destruct (fill (map Some r) kws) as [ws m| |] eqn:F; try discriminate. injection H as <- <-.
      destruct (IH _ _ _ F) as [A ->]. split; [|reflexivity]. constructor; [now left|exact A].
    + destruct (kw_default k) as [d|] eqn:D; [|discriminate].
      destruct (fill (map Some r) kws) as [ws m| |] eqn:F; try discriminate. injection H as <- <-.
      destruct (IH _ _ _ F) as [A ->]. split; [|reflexivity]. constructor; [now right|exact A].
Qed.

Lemma fill_backward : forall ks kws vs, Forall2 (filled_by kws) ks vs ->
  fill (map Some ks) kws = Filled vs (List.length (filter (named kws) ks)).
Proof.
  induction 1 as [|k v ks vs H _ IH]; [reflexivity|].
  cbn [map fill filter]. unfold named at 1. destruct H as [H|[H D]]; rewrite H.
  - now rewrite IH.
  - now rewrite D, IH.
Qed.

Lemma fill_tuple : forall ks kws, fill (map Some ks) kws <> NotATuple.
Proof.
  induction ks as [|k r IH]; intros kws H; cbn in H; [discriminate|].
  destruct (dict_get _ _).
  - destruct (fill (map Some r) kws) eqn:F; try discriminate. now apply (IH kws).
  - destruct (kw_default k); [|discriminate].
    destruct (fill (map Some r) kws) eqn:F; try discriminate. now apply (IH kws).
Qed.

Lemma map_skipn : forall {A B} (f : A -> B) n l, map f (skipn n l) = skipn n (map f l).
Proof. induction n; destruct l; cbn; auto. Qed.

Lemma skipn_twice : forall {A} n m (l : list A), skipn n (skipn m l) = skipn (n + m) l.
Proof.
  intros A n m. revert n. induction m as [|m IH]; intros n l; [now rewrite Nat.add_0_r|].
  rewrite Nat.add_succ_r. destruct l; [now rewrite !skipn_nil|]. apply IH.
Qed.

Lemma filter_skipn_le : forall {A} (f : A -> bool) n (l : list A),
  List.length (filter f (skipn n l)) <= List.length (filter f l).
Proof.
  induction n; intros l; [cbn; lia|]. destruct l as [|a l]; cbn; [lia|].
  specialize (IHn l). destruct (f a); cbn; lia.
Qed.

Lemma NoDup_skipn : forall {A} n (l : list A), NoDup l -> NoDup (skipn n l).
Proof. induction n; intros l H; [exact H|]. destruct l; [exact H|]. inversion H; subst. now apply IHn. Qed.

Lemma NoDup_filter_map : forall {A B} (f : A -> B) p l, NoDup (map f l) -> NoDup (map f (filter p l)).
Proof.
  induction l as [|a l IH]; cbn; intros H; [constructor|]. inversion H as [|? ? N1 N2]; subst.
  destruct (p a); [|now apply IH]. cbn. constructor; [|now apply IH].
  intros C. apply N1. apply in_map_iff in C as [x [E C]]. apply filter_In in C as [C _]. apply in_map_iff. now exists x.
Qed.

(** How many places are filled from the keywords of the call. *)
Lemma named_le : forall ks kws, NoDup (map kw_name ks) -> List.length (filter (named kws) ks) <= List.length kws.
Proof.
  intros ks kws ND. rewrite <- (map_length kw_name), <- (map_length fst kws).
  apply NoDup_incl_length; [now apply NoDup_filter_map|].
  intros n H. apply in_map_iff in H as [k [<- H]]. apply filter_In in H as [_ H]. unfold named in H.
  destruct (dict_get (kw_name k) kws) as [v|] eqn:E; [|discriminate].
  apply in_map_iff. exists (kw_name k, v). split; [reflexivity|]. now apply dict_get_in.
Qed.

Lemma named_all : forall ks kws, NoDup (map kw_name ks) -> NoDup (map fst kws) ->
  (List.length kws <= List.length (filter (named kws) ks) <-> incl (map fst kws) (map kw_name ks)).
Proof.
  intros ks kws ND NK. split; intros H.
  - assert (incl (map fst kws) (map kw_name (filter (named kws) ks))) as I.
    { apply NoDup_length_incl.
      - now apply NoDup_filter_map.
      - rewrite !map_length. exact H.
      - intros n C. apply in_map_iff in C as [k [<- C]]. apply filter_In in C as [_ C]. unfold named in C.
        destruct (dict_get (kw_name k) kws) as [v|] eqn:E; [|discriminate].
        apply in_map_iff. exists (kw_name k, v). split; [reflexivity|]. now apply dict_get_in. }
    intros n C. apply I in C. apply in_map_iff in C as [k [<- C]]. apply filter_In in C as [C _].
    apply in_map_iff. now exists k.
  - rewrite <- (map_length fst kws), <- (map_length kw_name). apply NoDup_incl_length; [exact NK|].
    intros n C. pose proof (H n C) as D. apply in_map_iff in D as [k [<- D]].
    apply in_map_iff. exists k. split; [reflexivity|]. apply filter_In. split; [exact D|].
    unfold named. destruct (dict_get (kw_name k) kws) eqn:E; [reflexivity|].
    apply dict_get_none in E. contradiction.
Qed.

Lemma defaults_count : forall ks kws vs, Forall2 (filled_by kws) ks vs ->
  List.length ks <= List.length (filter (named kws) ks) + List.length (filter has_value ks).
Proof.
  induction 1 as [|k v ks vs H _ IH]; [cbn; lia|].
  cbn [filter List.length]. unfold named at 1, has_value at 1. destruct H as [H|[H D]]; rewrite H.
  - destruct (kw_default k); cbn [List.length]; lia.
  - rewrite D. cbn [List.length]. lia.
Qed.

Lemma Forall2_len : forall {A B} (R : A -> B -> Prop) l m, Forall2 R l m -> List.length l = List.length m.
Proof. induction 1; cbn; congruence. Qed.

Lemma filter_len : forall {A} (f : A -> bool) (l : list A), List.length (filter f l) <= List.length l.
Proof. induction l as [|a l IH]; cbn; [lia|]. destruct (f a); cbn; lia. Qed.

Section Tells.
Variables (sig : signature V) (front : nat) (b : binding V).
Hypothesis T : tells sig front b.

Definition pair_of (k : keyword V) : string * option V := (kw_name k, kw_default k).

Lemma front_len : List.length (b_keywords b) = List.length sig - front.
Proof.
  destruct T as [_ [E _]]. rewrite <- (skipn_length front sig), E. now rewrite map_length.
Qed.

Lemma rest_sig : forall pos, front <= List.length pos ->
  skipn (List.length pos) sig = map pair_of (skipn (List.length pos - front) (b_keywords b)).
Proof.
  intros pos F. destruct T as [_ [E _]]. unfold pair_of. rewrite map_skipn, <- E.
  replace (List.length pos) with ((List.length pos - front) + front) at 1 by lia. now rewrite skipn_twice.
Qed.

Lemma names_nodup : NoDup (map kw_name (b_keywords b)).
Proof.
  destruct T as [_ [E N]]. replace (map kw_name (b_keywords b)) with (skipn front (map fst sig)).
  - now apply NoDup_skipn.
  - rewrite <- map_skipn, E, map_map. reflexivity.
Qed.

Lemma rest_names : forall pos names, front <= List.length pos -> arg_names b = Some names ->
  skipn (List.length pos) names = map Some (skipn (List.length pos - front) (b_keywords b)).
Proof.
  intros pos names F H. pose proof front_len as L. destruct T as [A _]. unfold arg_names in H.
  destruct (b_keywords b) as [|k r] eqn:E; [discriminate|]. injection H as <-.
  rewrite map_skipn. cbn [List.length] in L.
  assert (b_arity b - S (List.length r) = front) as -> by lia.
  rewrite skipn_app, repeat_length. rewrite skipn_all2 by (rewrite repeat_length; lia). reflexivity.
Qed.

Definition rest pos := skipn (List.length pos - front) (b_keywords b).

Lemma rest_len : forall pos, front <= List.length pos -> List.length (rest pos) = List.length sig - List.length pos.
Proof. intros pos F. unfold rest. rewrite skipn_length, front_len. lia. Qed.

Lemma rest_nodup : forall pos, NoDup (map kw_name (rest pos)).
Proof. intros pos. unfold rest. rewrite map_skipn. apply NoDup_skipn, names_nodup. Qed.

Lemma bind_fill : forall pos kws slots, front <= List.length pos -> NoDup (map fst kws) ->
  bind b pos kws = Bound slots <->
  List.length pos <= List.length sig /\
  exists vs, Forall2 (filled_by kws) (rest pos) vs /\ slots = pos ++ vs /\
             List.length kws <= List.length (filter (named kws) (rest pos)).
Proof.
  intros pos kws slots F NK. pose proof (rest_len pos F) as L. pose proof (rest_nodup pos) as ND.
  pose proof (named_le (rest pos) kws ND) as NL.
  assert (b_arity b = List.length sig) as A by (destruct T as [A _]; exact A).
  unfold bind. split.
  - destruct ((b_arity b <=? _) && _) eqn:P; [|discriminate].
    apply andb_true_iff in P as [P1 P2]. apply Nat.leb_le in P1, P2.
    destruct ((0 <? _) || _) eqn:Q.
    + destruct (arg_names b) as [names|] eqn:N; [|discriminate].
      rewrite (rest_names pos names F N). fold (rest pos).
      destruct (fill (map Some (rest pos)) kws) as [vs n| |] eqn:E; try (intros X; discriminate X).
      destruct (List.length pos + _ <? List.length pos + _) eqn:C; [discriminate|]. apply Nat.ltb_ge in C. intros H. injection H as <-.
      destruct (fill_forward _ _ _ _ E) as [G ->].
      split; [lia|]. exists vs. repeat split; [exact G|lia].
    + apply orb_false_iff in Q as [Q1 Q2]. apply Nat.ltb_ge in Q1, Q2. intros H. injection H as <-.
      assert (rest pos = []) as R by (apply length_zero_iff_nil; lia).
      split; [lia|]. exists []. rewrite R, app_nil_r. cbn. repeat split; [constructor|lia].
  - intros [Lp [vs [G [-> C]]]].
    assert (List.length kws = List.length (filter (named kws) (rest pos))) as K by lia.
    pose proof (defaults_count _ _ _ G) as D.
    pose proof (filter_skipn_le has_value (List.length pos - front) (b_keywords b)) as S. fold (rest pos) in S.
    pose proof (filter_len (named kws) (rest pos)) as FL.
    assert (keyword_values b = List.length (filter has_value (b_keywords b))) as KV by reflexivity.
    replace (b_arity b <=? _) with true by (symmetry; apply Nat.leb_le; lia).
    replace (List.length pos + List.length kws <=? b_arity b) with true by (symmetry; apply Nat.leb_le; lia).
    cbn [andb]. destruct ((0 <? _) || _) eqn:Q.
    + destruct (arg_names b) as [names|] eqn:N.
      * rewrite (rest_names pos names F N). fold (rest pos). rewrite (fill_backward _ _ _ G).
        now replace (List.length pos + _ <? List.length pos + _) with false by (symmetry; apply Nat.ltb_ge; lia).
      * exfalso. unfold arg_names in N. unfold rest in *. destruct (b_keywords b); [|discriminate].
        rewrite skipn_nil in *. apply orb_true_iff in Q as [Q|Q]; apply Nat.ltb_lt in Q; cbn [filter List.length] in *; lia.
    + apply orb_false_iff in Q as [Q1 Q2]. apply Nat.ltb_ge in Q1, Q2.
      assert (rest pos = []) as R by (apply length_zero_iff_nil; lia).
      rewrite R in G. inversion G. now rewrite app_nil_r.
Qed.

Lemma bind_tells_defined : forall pos kws, front <= List.length pos -> bind b pos kws <> Undefined.
Proof.
  intros pos kws F. unfold bind. destruct (_ && _); [|discriminate]. destruct (_ || _); [|discriminate].
  destruct (arg_names b) as [names|] eqn:N; [|discriminate]. rewrite (rest_names pos names F N).
  destruct (fill _ kws) eqn:E; try (intros X; discriminate X).
  - destruct (List.length pos + _ <? _); discriminate.
  - now apply fill_tuple in E.
Qed.

Lemma nth_rest : forall pos j, front <= List.length pos ->
  nth_error sig (List.length pos + j) = option_map pair_of (nth_error (rest pos) j).
Proof.
  intros pos j F. rewrite <- nth_error_map. unfold rest. rewrite <- rest_sig by exact F.
  revert F. generalize (List.length pos) as n. intros n _. clear T. revert n. induction sig as [|a l IH]; intros n.
  - rewrite skipn_nil. now destruct (n + j), j.
  - destruct n; [reflexivity|]. cbn. apply IH.
Qed.

Lemma Forall2_nth : forall {A B} (R : A -> B -> Prop) l m,
  List.length l = List.length m ->
  (forall j a c, nth_error l j = Some a -> nth_error m j = Some c -> R a c) -> Forall2 R l m.
Proof.
  induction l as [|a l IH]; destruct m as [|c m]; cbn; intros L H; try discriminate; constructor.
  - now apply (H 0).
  - apply IH; [lia|]. intros j x y. apply (H (S j)).
Qed.

Lemma Forall2_nth_inv : forall {A B} (R : A -> B -> Prop) l m, Forall2 R l m ->
  forall j c, nth_error m j = Some c -> exists a, nth_error l j = Some a /\ R a c.
Proof.
  induction 1 as [|a c l m H _ IH]; intros j x E; destruct j; cbn in *; try discriminate.
  - injection E as <-. eauto.
  - apply IH, E.
Qed.

Lemma fill_python : forall pos kws slots, front <= List.length pos -> NoDup (map fst kws) ->
  (List.length pos <= List.length sig /\
   exists vs, Forall2 (filled_by kws) (rest pos) vs /\ slots = pos ++ vs /\
              List.length kws <= List.length (filter (named kws) (rest pos))) <->
  python_call sig pos kws slots.
Proof.
  intros pos kws slots F NK. pose proof (rest_len pos F) as L. pose proof (rest_nodup pos) as ND.
  split.
  - intros [Lp [vs [G [-> C]]]]. apply (proj1 (named_all _ _ ND NK)) in C.
    pose proof (Forall2_len _ _ _ G) as LV.
    split; [exact Lp|]. split; [rewrite app_length; lia|]. split.
    + intros i s H. destruct (lt_dec i (List.length pos)) as [I|I].
      * rewrite nth_error_app1 in H by exact I.
        destruct (nth_error sig i) as [[n d]|] eqn:E.
        -- exists n, d. split; [exact E|]. now left.
        -- apply nth_error_None in E. lia.
      * rewrite nth_error_app2 in H by lia. destruct (Forall2_nth_inv _ _ _ G _ _ H) as [k [Hk Fk]].
        exists (kw_name k), (kw_default k). split.
        -- replace i with (List.length pos + (i - List.length pos)) by lia.
           rewrite nth_rest by exact F. now rewrite Hk.
        -- right. destruct Fk as [Fk|[Fk Dk]].
           ++ left. split; [lia|]. now apply dict_get_in.
           ++ right. split; [lia|]. split; [|exact Dk]. intros v Hv. apply dict_get_none in Fk. apply Fk.
              apply in_map_iff. now exists (kw_name k, v).
    + intros k v H. assert (In k (map kw_name (rest pos))) as I by (apply C, in_map_iff; now exists (k, v)).
      apply in_map_iff in I as [x [<- I]]. apply In_nth_error in I as [j I].
      exists (List.length pos + j), (kw_default x). split; [lia|]. rewrite nth_rest by exact F. now rewrite I.
  - intros [Lp [Ls [Hs Hk]]]. split; [exact Lp|]. exists (skipn (List.length pos) slots).
    assert (slots = pos ++ skipn (List.length pos) slots) as E.
    { rewrite <- (firstn_skipn (List.length pos) slots) at 1. f_equal.
      assert (forall i s, i < List.length pos -> nth_error slots i = Some s -> nth_error pos i = Some s) as Q.
      { intros i s I H. destruct (Hs i s H) as [n [d [_ [[_ X]|[[X _]|[X _]]]]]]; [exact X|lia|lia]. }
      assert (List.length pos <= List.length slots) as Lq by lia.
      clear - Q Lq. revert slots Q Lq. induction pos as [|a p IH]; intros slots Q Lq; [reflexivity|].
      destruct slots as [|c m]; [cbn in Lq; lia|]. cbn [List.length firstn]. f_equal.
      - specialize (Q 0 c). cbn in Q. assert (Some a = Some c) as X by (apply Q; [lia|reflexivity]). congruence.
      - apply IH; [|cbn in Lq; lia]. intros i s I. apply (Q (S i)). cbn. lia. }
    split; [|split; [exact E|]].
    + apply Forall2_nth; [rewrite skipn_length; lia|].
      intros j k v Hj Hv. assert (nth_error slots (List.length pos + j) = Some v) as H.
      { rewrite E, nth_error_app2 by lia. rewrite <- Hv. f_equal. lia. }
      destruct (Hs _ _ H) as [n [d [S [[X _]|[[_ X]|[_ [X Y]]]]]]]; [lia| |];
        rewrite nth_rest, Hj in S by exact F; cbn in S; injection S as <- <-.
      * left. now apply in_dict_get.
      * right. split; [|exact Y]. apply dict_get_none. intros I. apply in_map_iff in I as [[m w] [M I]].
        cbn in M. subst m. now apply (X w).
    + apply (proj2 (named_all _ _ ND NK)). intros n H. apply in_map_iff in H as [[m v] [<- H]].
      destruct (Hk _ _ H) as [i [d [I S]]]. cbn.
      replace i with (List.length pos + (i - List.length pos)) in S by lia. rewrite nth_rest in S by exact F.
      destruct (nth_error (rest pos) (i - List.length pos)) as [k|] eqn:N; [|discriminate]. cbn in S.
      injection S as <- <-. apply in_map, (nth_error_In _ _ N).
Qed.

Theorem bind_python : forall pos kws slots, front <= List.length pos -> NoDup (map fst kws) ->
  (bind b pos kws = Bound slots <-> python_call sig pos kws slots).
Proof. intros pos kws slots F NK. rewrite bind_fill by assumption. now apply fill_python. Qed.
End Tells.

(** Only positions, all of them: the values are passed as they are, whatever the keywords of the binding. *)
Lemma bind_positional : forall (b : binding V) pos, List.length pos = b_arity b -> bind b pos [] = Bound pos.
Proof.
  intros b pos H. unfold bind. cbn [List.length]. rewrite Nat.add_0_r, <- H.
  replace (_ <=? _ + _) with true by (symmetry; apply Nat.leb_le; lia). now rewrite Nat.leb_refl, !Nat.ltb_irrefl.
Qed.

Lemma bind_prefix : forall (b : binding V) pos kws slots, bind b pos kws = Bound slots -> exists vs, slots = pos ++ vs.
Proof.
  intros b pos kws slots. unfold bind. destruct (_ && _); [|discriminate]. destruct (_ || _).
  - destruct (arg_names b); [|discriminate]. destruct (fill _ _); try (intros X; discriminate X).
    destruct (List.length pos + _ <? _); [discriminate|]. intros H. injection H as <-. eauto.
  - intros H. injection H as <-. exists []. now rewrite app_nil_r.
Qed.

(** A dictionary with an unknown name: fewer places are filled from it than it has entries (also if a name occurs
    twice in the binding this needs that the names are distinct). *)
Lemma fill_count : forall names kws vs n, fill names kws = Filled vs n ->
  exists ks, names = map Some ks /\ n = List.length (filter (named kws) ks).
Proof.
  induction names as [|[k|] r IH]; intros kws vs n H; cbn in H; [|  |discriminate].
  - injection H as <- <-. now exists [].
  - destruct (dict_get (kw_name k) kws) as [v|] eqn:E.
    + destruct (fill r kws) as [ws m| |] eqn:F; try discriminate. injection H as <- <-.
      destruct (IH _ _ _ F) as [ks [-> ->]]. exists (k :: ks). split; [reflexivity|].
      cbn [filter]. unfold named at 2. now rewrite E.
    + destruct (kw_default k) as [d|]; [|discriminate].
      destruct (fill r kws) as [ws m| |] eqn:F; try discriminate. injection H as <- <-.
      destruct (IH _ _ _ F) as [ks [-> ->]]. exists (k :: ks). split; [reflexivity|].
      cbn [filter]. unfold named at 2. now rewrite E.
Qed.

Lemma in_map_some : forall ks k, In (Some k) (map Some ks) -> In k ks.
Proof. intros ks k H. apply in_map_iff in H as [x [E H]]. congruence. Qed.

Lemma skipn_in : forall {A} n (l : list A) x, In x (skipn n l) -> In x l.
Proof. induction n; intros l x H; [exact H|]. destruct l; [exact H|]. right. now apply IHn. Qed.

Lemma bind_unknown : forall (b : binding V) pos kws slots k v,
  NoDup (map kw_name (b_keywords b)) -> NoDup (map fst kws) -> In (k, v) kws -> ~ In k (map kw_name (b_keywords b)) ->
  bind b pos kws <> Bound slots.
Proof.
  intros b pos kws slots k v ND NK H U. unfold bind.
  destruct (_ && _); [|discriminate].
  destruct ((0 <? _) || _) eqn:Q.
  - unfold arg_names. destruct (b_keywords b) as [|k0 r] eqn:E; [discriminate|]. rewrite <- E in *.
    destruct (fill _ kws) as [vs n| |] eqn:F; try (intros X; discriminate X).
    destruct (fill_count _ _ _ _ F) as [ks [S ->]].
    destruct (List.length pos + _ <? List.length pos + _) eqn:C; [discriminate|]. apply Nat.ltb_ge in C.
    assert (exists m, ks = skipn m (b_keywords b)) as [m M].
    {
      rewrite skipn_app, repeat_length in S.
      set (d := List.length pos - (b_arity b - List.length (b_keywords b))) in *.
      destruct (skipn (List.length pos) (repeat None (b_arity b - List.length (b_keywords b)))) as [|x xs] eqn:R.
      - exists d. cbn [app] in S. rewrite <- map_skipn in S. clear - S.
        revert ks S. generalize (skipn d (b_keywords b)). induction l as [|a l IH]; destruct ks; cbn; intros S; try discriminate.
        + reflexivity.
        + injection S as <- S. f_equal. now apply IH.
      - exfalso. assert (In x (repeat (@None (keyword V)) (b_arity b - List.length (b_keywords b)))) as I
          by (apply (skipn_in (List.length pos)); rewrite R; now left).
        apply repeat_spec in I. subst x. destruct ks; discriminate. }
    assert (NoDup (map kw_name ks)) as NS by (rewrite M, map_skipn; now apply NoDup_skipn).
    assert (List.length kws <= List.length (filter (named kws) ks)) as LE by lia.
    apply (proj1 (named_all ks kws NS NK)) in LE. exfalso. apply U.
    assert (In k (map kw_name ks)) as I by (apply LE, in_map_iff; now exists (k, v)).
    rewrite M, map_skipn in I. now apply skipn_in in I.
  - apply orb_false_iff in Q as [Q _]. apply Nat.ltb_ge in Q. destruct kws; [contradiction|cbn in Q; lia].
Qed.

(** When a call is undefined behaviour: it is plausible by numbers and not all parameters in front of the keywords
    are given by position. *)
Lemma bind_undefined : forall (b : binding V) pos kws, List.length (b_keywords b) <= b_arity b ->
  (bind b pos kws = Undefined <->
   b_keywords b <> [] /\ List.length pos + List.length (b_keywords b) < b_arity b /\
   b_arity b <= List.length pos + List.length kws + keyword_values b /\
   List.length pos + List.length kws <= b_arity b).
Proof.
  intros b pos kws L. unfold bind. split.
  - destruct ((b_arity b <=? _) && _) eqn:P; [|discriminate].
    apply andb_true_iff in P as [P1 P2]. apply Nat.leb_le in P1, P2.
    destruct (_ || _); [|discriminate].
    unfold arg_names. destruct (b_keywords b) as [|k r] eqn:E; [discriminate|]. rewrite <- E in *.
    destruct (le_lt_dec (b_arity b) (List.length pos + List.length (b_keywords b))) as [D|D].
    + rewrite skipn_app, skipn_all2 by (rewrite repeat_length; lia). cbn [app]. rewrite <- map_skipn.
      destruct (fill _ kws) eqn:F; try (intros X; discriminate X); [destruct (List.length pos + _ <? _); discriminate|]. now apply fill_tuple in F.
    + intros _. repeat split; [rewrite E; discriminate|exact D|exact P1|exact P2].
  - intros [N [D [P1 P2]]].
    replace (b_arity b <=? _) with true by (symmetry; apply Nat.leb_le; exact P1).
    replace (_ <=? b_arity b) with true by (symmetry; apply Nat.leb_le; exact P2). cbn [andb].
    assert (keyword_values b <= List.length (b_keywords b)) as KV by apply filter_len.
    replace (0 <? List.length kws) with true by (symmetry; apply Nat.ltb_lt; lia). cbn [orb].
    unfold arg_names. destruct (b_keywords b) as [|k r] eqn:E; [easy|]. rewrite <- E in *.
    rewrite skipn_app.
    destruct (skipn (List.length pos) (repeat None (b_arity b - List.length (b_keywords b)))) as [|x xs] eqn:R.
    + exfalso. apply (f_equal (@List.length _)) in R. rewrite skipn_length, repeat_length in R. cbn in R. lia.
    + assert (In x (repeat (@None (keyword V)) (b_arity b - List.length (b_keywords b)))) as I
        by (apply (skipn_in (List.length pos)); rewrite R; now left).
      apply repeat_spec in I. subst x. reflexivity.
Qed.
End Proofs.
