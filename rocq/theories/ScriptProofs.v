(** Proofs for the scripts. *)
From Coq Require Import List Bool ZArith String Sorted Permutation Lia.
From Verif Require Import TrafficModel ScriptModel ScriptSpec.
Import ListNotations.
Local Open Scope string_scope.

Lemma insert_perm x l : Permutation (x :: l) (insert x l).
Proof.
  induction l as [|y l IH]; [reflexivity|]. cbn. destruct (x <=? y)%Z; [reflexivity|].
  rewrite perm_swap. apply perm_skip. exact IH.
Qed.
Lemma insert_sorted x l : StronglySorted Z.le l -> StronglySorted Z.le (insert x l).
Proof.
  induction 1 as [|y l S IH F]; cbn; [repeat constructor|]. destruct (x <=? y)%Z eqn:E.
  - apply Z.leb_le in E. constructor; [constructor; assumption|]. constructor; [exact E|].
    eapply Forall_impl; [|exact F]. intros a Ha. cbn in Ha. lia.
  - apply Z.leb_gt in E. constructor; [exact IH|]. rewrite Forall_forall in *. intros a Ha.
    apply (Permutation_in a (Permutation_sym (insert_perm x l))) in Ha. destruct Ha as [->|Ha]; [lia|apply F; exact Ha].
Qed.
Lemma sorted_lists l : lists l (sorted_ids l).
Proof.
  split.
  - induction l as [|x l IH]; [reflexivity|]. cbn. rewrite <- insert_perm. apply perm_skip. exact IH.
  - induction l as [|x l IH]; [constructor|]. cbn. apply insert_sorted. exact IH.
Qed.
Lemma sorted_unique : forall a b, Permutation a b -> StronglySorted Z.le a -> StronglySorted Z.le b -> a = b.
Proof.
  induction a as [|x a IH]; intros b P Sa Sb.
  - apply Permutation_nil in P. symmetry. exact P.
  - destruct b as [|y b]; [apply Permutation_sym, Permutation_nil in P; discriminate|].
    inversion Sa as [|? ? Sa' Fa]; inversion Sb as [|? ? Sb' Fb]; subst.
    assert (x = y) as ->.
    { assert (In x (y :: b)) as Hx by (apply (Permutation_in _ P); left; reflexivity).
      assert (In y (x :: a)) as Hy by (apply (Permutation_in _ (Permutation_sym P)); left; reflexivity).
      rewrite Forall_forall in Fa, Fb. destruct Hx as [<-|Hx]; [reflexivity|]. destruct Hy as [<-|Hy]; [reflexivity|].
      specialize (Fa _ Hy). specialize (Fb _ Hx). lia. }
    f_equal. apply IH; try assumption. exact (Permutation_cons_inv P).
Qed.
Lemma sorted_perm a b : Permutation a b -> sorted_ids a = sorted_ids b.
Proof.
  intros P. destruct (sorted_lists a) as [Pa Sa], (sorted_lists b) as [Pb Sb]. apply sorted_unique; try assumption.
  rewrite <- Pa, P. exact Pb.
Qed.

Lemma layer_named m name ids : layer_of m name ids <-> In (name, ids) (named m).
Proof.
  split.
  - intros []; cbn; [left|right; left|do 2 right; left|do 3 right; left|do 4 right; left|do 5 right; left]; reflexivity.
  - cbn. intros [E|[E|[E|[E|[E|[E|[]]]]]]]; inversion E; subst; constructor.
Qed.
Lemma loop_all ls : print_loop None ls = (map (fun x => Ids (fst x) (sorted_ids (snd x))) ls, End).
Proof. induction ls as [|[name ids] ls IH]; [reflexivity|]. cbn. rewrite IH. reflexivity. Qed.
Lemma loop_id n ls :
  (exists name ids, In (name, ids) ls /\ In n ids /\ print_loop (Some n) ls = ([FoundId n name], Exit0)) \/
  ((forall name ids, In (name, ids) ls -> ~ In n ids) /\ print_loop (Some n) ls = ([], TypeError)).
Proof.
  induction ls as [|[name ids] ls IH].
  - right. split; [intros ? ? []|reflexivity].
  - cbn. destruct (existsb (Z.eqb n) ids) eqn:E.
    + left. exists name, ids. apply existsb_exists in E. destruct E as (k & Hk & Ek). apply Z.eqb_eq in Ek. subst k.
      split; [left; reflexivity|]. split; [exact Hk|reflexivity].
    + assert (~ In n ids) as N.
      { intros H. enough (existsb (Z.eqb n) ids = true) by congruence. apply existsb_exists. exists n.
        split; [exact H|apply Z.eqb_refl]. }
      destruct IH as [(name' & ids' & H1 & H2 & H3)|[H1 H2]].
      * left. exists name', ids'. split; [right; exact H1|]. split; [exact H2|exact H3].
      * right. split; [|exact H2]. intros name' ids' [Eq|H]; [inversion Eq; subst; exact N|exact (H1 _ _ H)].
Qed.
