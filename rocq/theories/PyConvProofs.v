(** Lemmas on the conversions between Python and C++. *)
From Coq Require Import List Bool Arith.
Import ListNotations.
From Verif Require Import PyConvModel PyConvSpec.

Section Proofs.
Context {O L V : Type}.
Variable items : O -> option (list O * bool).
Variable tuple_items : O -> option (list O).
Variable is_none : O -> bool.
Variable leaf : L -> O -> option V.
Notation represents := (represents items tuple_items is_none leaf).
Notation all_represent := (all_represent items tuple_items is_none leaf).
Notation arguments := (arguments items tuple_items is_none leaf).
Notation convertible := (convertible items tuple_items leaf).
Notation construct := (construct items tuple_items is_none leaf).
Notation extract := (extract items tuple_items is_none leaf).

Lemma represents_convertible t o v : represents t o v -> convertible t o = true.
Proof.
  intros R. destruct R; cbn; try reflexivity.
  - now rewrite H.
  - now rewrite H.
  - now rewrite H.
Qed.

Lemma read_all_iff t (IH : forall o v, extract t o = Some v <-> represents t o v) :
  forall l vs, read_all (extract t) l = Some vs <-> all_represent t l vs.
Proof.
  induction l as [|o l IHl]; intros vs; cbn.
  - split; [intros [= <-]; constructor|intros R; inversion R; reflexivity].
  - split.
    + destruct (extract t o) as [v|] eqn:E; [|discriminate].
      destruct (read_all (extract t) l) as [ws|] eqn:F; [|discriminate]. intros [= <-].
      constructor; [now apply IH|now apply IHl].
    + intros R. inversion R as [|t' o' l' v ws Ro Rl]; subst. apply IH in Ro. apply IHl in Rl. now rewrite Ro, Rl.
Qed.

Lemma extract_iff t : forall o v, extract t o = Some v <-> represents t o v.
Proof.
  induction t as [l|t IH|t IH|t IHt u IHu]; intros o v.
  - unfold PyConvModel.extract; cbn. destruct (leaf l o) as [x|] eqn:E; cbn.
    + split; [intros [= <-]; now constructor|intros R; inversion R; congruence].
    + split; [discriminate|intros R; inversion R; congruence].
  - unfold PyConvModel.extract; cbn. destruct (items o) as [[l ends]|] eqn:E.
    + fold (extract t). change (fun x => if convertible t x then construct t x else None) with (extract t).
      destruct (read_all (extract t) l) as [vs|] eqn:F.
      * destruct ends; (split; [|intros R; inversion R as [|t' o' l' ws I A| | |]; subst]).
        -- intros [= <-]. econstructor; [exact E|]. now apply (read_all_iff t IH).
        -- rewrite E in I. injection I as <-. apply (read_all_iff t IH) in A. congruence.
        -- discriminate.
        -- congruence.
      * split; [discriminate|]. intros R; inversion R as [|t' o' l' ws I A| | |]; subst.
        rewrite E in I. injection I as <- _. apply (read_all_iff t IH) in A. congruence.
    + split; [discriminate|]. intros R; inversion R; congruence.
  - unfold PyConvModel.extract; cbn. destruct (is_none o) eqn:N.
    + split; [intros [= <-]; now constructor|intros R; inversion R; subst; congruence].
    + split.
      * intros H. destruct (convertible t o) eqn:C; [|discriminate]. destruct (construct t o) as [w|] eqn:K; [|discriminate].
        injection H as <-. constructor; [exact N|]. apply IH. unfold PyConvModel.extract. now rewrite C.
      * intros R; inversion R as [| |t' o' N'|t' o' w N' R'|]; subst; [congruence|].
        apply IH in R'. unfold PyConvModel.extract in R'. destruct (convertible t o); [|discriminate]. now rewrite R'.
  - unfold PyConvModel.extract; cbn. destruct (tuple_items o) as [l|] eqn:T.
    + destruct l as [|a [|b [|c l]]]; cbn;
        try (split; [discriminate|intros R; inversion R; congruence]).
      change (match extract t a, extract u b with Some v, Some w => Some (VPair v w) | _, _ => None end = Some v <->
              represents (Pair t u) o v).
      split.
      * destruct (extract t a) as [x|] eqn:A; [|discriminate]. destruct (extract u b) as [y|] eqn:B; [|discriminate].
        intros [= <-]. econstructor; [exact T|now apply IHt|now apply IHu].
      * intros R; inversion R as [| | | |t' u' o' a' b' x y T' A B]; subst. rewrite T in T'. injection T' as <- <-.
        apply IHt in A. apply IHu in B. now rewrite A, B.
    + split; [discriminate|intros R; inversion R; congruence].
Qed.

Lemma construct_iff t o v : convertible t o = true -> (construct t o = Some v <-> represents t o v).
Proof. intros C. rewrite <- extract_iff. unfold PyConvModel.extract. now rewrite C. Qed.

Lemma arguments_convertible_ok ts os vs :
  arguments ts os vs -> arguments_convertible items tuple_items leaf ts os = true.
Proof.
  unfold arguments_convertible. induction 1 as [|t ts o os v vs R A IH]; [reflexivity|].
  cbn. apply andb_true_iff in IH. destruct IH as [E F]. rewrite E, F. now rewrite (represents_convertible _ _ _ R).
Qed.

Lemma construct_all_iff ts : forall os vs,
  arguments_convertible items tuple_items leaf ts os = true ->
  (construct_all items tuple_items is_none leaf ts os = Some vs <-> arguments ts os vs).
Proof.
  unfold arguments_convertible. induction ts as [|t ts IH]; intros [|o os] vs C; cbn in *; try discriminate.
  - split; [intros [= <-]; constructor|intros A; inversion A; reflexivity].
  - apply andb_true_iff in C. destruct C as [E C]. apply andb_true_iff in C. destruct C as [C F].
    assert (G : Nat.eqb (length ts) (length os) && forallb (fun p => convertible (fst p) (snd p)) (combine ts os) = true)
      by now rewrite E, F.
    split.
    + destruct (construct t o) as [v|] eqn:K; [|discriminate].
      destruct (construct_all _ _ _ _ ts os) as [ws|] eqn:W; [|discriminate]. intros [= <-].
      constructor; [now apply (construct_iff t o v C)|now apply (IH os ws G)].
    + intros A; inversion A as [|t' ts' o' os' v ws R A']; subst.
      apply (construct_iff t o v C) in R. apply (IH os ws G) in A'. now rewrite R, A'.
Qed.

Lemma convertible_takes t o : convertible t o = true <-> takes items tuple_items leaf t o.
Proof.
  destruct t as [l|t|t|t u]; cbn.
  - destruct (leaf l o) as [v|] eqn:E; (split; [|intros T; inversion T; congruence]); [intros _; econstructor; eauto|discriminate].
  - destruct (items o) as [p|] eqn:E; (split; [|intros T; inversion T; congruence]); [intros _; econstructor; eauto|discriminate].
  - split; [constructor|reflexivity].
  - destruct (tuple_items o) as [l|] eqn:E.
    + split.
      * intros K. apply Nat.eqb_eq in K. destruct l as [|a [|b [|]]]; try discriminate. econstructor. eassumption.
      * intros T; inversion T as [| | |t' u' o' a b K]; subst. rewrite E in K. now injection K as ->.
    + split; [discriminate|intros T; inversion T; congruence].
Qed.

Lemma arguments_convertible_takes ts : forall os,
  arguments_convertible items tuple_items leaf ts os = true <-> Forall2 (takes items tuple_items leaf) ts os.
Proof.
  unfold arguments_convertible. induction ts as [|t ts IH]; intros [|o os]; cbn.
  - split; [constructor|reflexivity].
  - split; [discriminate|intros F; inversion F].
  - split; [discriminate|intros F; inversion F].
  - specialize (IH os). rewrite andb_true_iff in *. rewrite andb_true_iff, convertible_takes. split.
    + intros (E & T & F). constructor; [exact T|]. apply IH. auto.
    + intros F. inversion F as [|? ? ? ? T R]; subst. apply IH in R. tauto.
Qed.

Lemma leaves_convertible ts : forall os,
  (forall t, In t ts -> is_leaf t) -> arguments_convertible items tuple_items leaf ts os = true ->
  exists vs, arguments ts os vs.
Proof.
  unfold arguments_convertible. induction ts as [|t ts IH]; intros [|o os] K C; cbn in *; try discriminate.
  - exists []. constructor.
  - apply andb_true_iff in C. destruct C as [E C]. apply andb_true_iff in C. destruct C as [C F].
    destruct (IH os) as [vs A]; [auto|now rewrite E, F|].
    destruct (K t (or_introl eq_refl)) as [l ->]. cbn in C. destruct (leaf l o) as [x|] eqn:X; [|discriminate].
    exists (VLeaf x :: vs). constructor; [now constructor|exact A].
Qed.
End Proofs.
