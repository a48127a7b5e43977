(** Proofs about the lanes of a route. *)
From Coq Require Import NArith List Bool Arith Lia ZifyBool ZifyNat Permutation.
From Verif Require Import CostAlg GraphModel GraphSpec GraphProofs GraphProofs2 RouteModel RouteSpec.
Import ListNotations.

Lemma NoDup_app_l {T} (l r : list T) : NoDup (l ++ r) -> NoDup l.
Proof.
  induction l as [|a l IH]; intros H; [constructor|]. inversion H as [|? ? Hn Hd]. constructor; auto.
  intros Hi. apply Hn, in_or_app. auto.
Qed.

Lemma NoDup_app_new {T} (l : list T) x : NoDup l -> ~ In x l -> NoDup (l ++ [x]).
Proof.
  intros H1 H2. apply (Permutation_NoDup (l := x :: l)); [|constructor; auto].
  change (x :: l) with ([x] ++ l). apply Permutation_app_comm.
Qed.

(** * Chains of an injective partial function *)
Section Chains.
Context {T : Type}.
Variable R : T -> T -> Prop.
Hypothesis Rfun : forall a b c, R a b -> R a c -> b = c.
Hypothesis Rinj : forall a b c, R a c -> R b c -> a = b.

Lemma linked_app l x y r : linked R (l ++ x :: y :: r) <-> linked R (l ++ [x]) /\ R x y /\ linked R (y :: r).
Proof.
  induction l as [|a [|b l] IH]; simpl in *; [tauto|tauto|]. rewrite IH. tauto.
Qed.
Lemma linked_tl a l : linked R (a :: l) -> linked R l.
Proof. destruct l; simpl; tauto. Qed.
Lemma linked_suffix p l : linked R (p ++ l) -> linked R l.
Proof. induction p as [|a p IH]; simpl; auto. intros H. apply IH. eapply linked_tl, H. Qed.
Lemma linked_prefix p l : linked R (p ++ l) -> linked R p.
Proof.
  induction p as [|a [|b p] IH]; simpl; auto. intros [H1 H2]. split; auto. apply IH. exact H2.
Qed.
Lemma linked_join p x q : linked R (p ++ [x]) -> linked R (x :: q) -> linked R (p ++ x :: q).
Proof.
  intros H1 H2. destruct q as [|y q]; auto. apply linked_app. simpl in H2. tauto.
Qed.
Lemma linked_rev l : linked R l -> linked (fun a b => R b a) (rev l).
Proof.
  induction l as [|a [|b l] IH]; simpl; auto. intros [H1 H2]. specialize (IH H2). simpl in IH.
  rewrite <- app_assoc. simpl. 
  assert (G : forall m x y, linked (fun a b => R b a) (m ++ [x]) -> R y x -> linked (fun a b => R b a) (m ++ [x; y])).
  { induction m as [|c [|d m] IHm]; simpl; auto. - tauto. - intros x y [H3 H4] H5. split; auto. apply IHm; auto. }
  apply G; auto.
Qed.
Lemma last_split (l : list T) z : hd_error (rev l) = Some z -> exists p, l = p ++ [z].
Proof.
  intros H. destruct (rev l) as [|y r] eqn:E; [discriminate|]. injection H as ->.
  exists (rev r). rewrite <- (rev_involutive l), E. auto.
Qed.
Lemma last_app (p : list T) z : hd_error (rev (p ++ [z])) = Some z.
Proof. rewrite rev_app_distr. auto. Qed.

(** The chain from a that goes as far as possible without repetition is unique. *)
Definition maximal (l : list T) : Prop :=
  exists a z, hd_error l = Some a /\ hd_error (rev l) = Some z /\ forall b, R z b -> b = a.
Lemma common l1 l2 : linked R l1 -> linked R l2 -> hd_error l1 = hd_error l2 ->
  exists p x y, l1 = p ++ x /\ l2 = p ++ y /\ (x = [] \/ y = []).
Proof.
  revert l2. induction l1 as [|a l1 IH]; intros [|b l2] H1 H2 E; try discriminate.
  - exists [], [], []. auto.
  - injection E as <-. destruct l1 as [|c l1].
    + exists [a], [], l2. auto.
    + destruct l2 as [|d l2]; [exists [a], (c :: l1), []; auto|].
      destruct H1 as [H1 H1']. destruct H2 as [H2 H2'].
      destruct (IH (d :: l2) H1' H2') as (p & x & y & E1 & E2 & E3).
      { simpl. f_equal. eauto. }
      exists (a :: p), x, y. simpl. rewrite <- E1, <- E2. auto.
Qed.
Lemma prefix_eq p y : linked R (p ++ y) -> NoDup (p ++ y) -> maximal p -> y = [].
Proof.
  intros Hl Hn (a & z & Ha & Hz & Hm). destruct y as [|b y]; auto. exfalso.
  destruct (last_split _ _ Hz) as [p' ->]. rewrite <- app_assoc in Hl. simpl in Hl. apply linked_app in Hl as (_ & Hr & _).
  apply Hm in Hr. subst b. apply NoDup_remove_2 in Hn. apply Hn, in_or_app. left.
  destruct p' as [|c p']; simpl in Ha; injection Ha as ->; left; auto.
Qed.
Lemma maximal_unique l1 l2 : linked R l1 -> linked R l2 -> NoDup l1 -> NoDup l2 -> maximal l1 -> maximal l2 ->
  hd_error l1 = hd_error l2 -> l1 = l2.
Proof.
  intros H1 H2 N1 N2 M1 M2 E. destruct (common l1 l2 H1 H2 E) as (p & x & y & -> & -> & [->| ->]).
  - rewrite app_nil_r in *. rewrite (prefix_eq p y); auto. rewrite app_nil_r. auto.
  - rewrite app_nil_r in *. rewrite (prefix_eq p x); auto. rewrite app_nil_r. auto.
Qed.

Definition wholeR (l : list T) : Prop := exists f z, hd_error l = Some f /\ hd_error (rev l) = Some z /\
    ((forall b, ~ R b f) /\ (forall b, ~ R z b) \/ R z f).
Definition circ (l : list T) : Prop := exists f z, hd_error l = Some f /\ hd_error (rev l) = Some z /\ R z f.

Lemma circ_rotate p s : s <> [] -> circ (p ++ s) -> linked R (p ++ s) -> linked R (s ++ p) /\ circ (s ++ p).
Proof.
  intros Hs (f & z & Hf & Hz & Hr) Hl. destruct s as [|x s]; [tauto|].
  destruct p as [|y p].
  { simpl in *. rewrite app_nil_r. split; [auto|]. exists f, z. auto. }
  injection Hf as ->. assert (Hz' : hd_error (rev (x :: s)) = Some z).
  { rewrite rev_app_distr in Hz. simpl. simpl in Hz. destruct (rev s); auto. }
  destruct (last_split _ _ Hz') as [m Em]. rewrite Em in *. split.
  - rewrite <- app_assoc. simpl. apply linked_app. split; [|split; auto].
    + eapply linked_suffix. exact Hl.
    + eapply linked_prefix. exact Hl.
  - assert (Hp : exists q t, f :: p = q ++ [t]). { exists (removelast (f :: p)), (last (f :: p) f). apply app_removelast_last. discriminate. }
    destruct Hp as (q & t & Ep). rewrite Ep in *. exists x, t. split; [|split].
    + rewrite <- Em. auto.
    + rewrite app_assoc. apply last_app.
    + rewrite <- Em in Hl. rewrite <- app_assoc in Hl. simpl in Hl. apply linked_app in Hl. tauto.
Qed.

Lemma whole_or l : wholeR l -> (maximal l /\ exists f z, hd_error l = Some f /\ hd_error (rev l) = Some z /\
    (forall b, ~ R b f) /\ (forall b, ~ R z b)) \/ circ l.
Proof.
  intros (f & z & Hf & Hz & [[H1 H2]|H]).
  - left. split; [exists f, z; repeat split; auto; intros b Hb; destruct (H2 _ Hb)|exists f, z; auto].
  - right. exists f, z. auto.
Qed.
Lemma rev_hd_suffix (p s : list T) x : hd_error (rev (p ++ x :: s)) = hd_error (rev (x :: s)).
Proof. rewrite rev_app_distr. simpl. destruct (rev s); auto. Qed.

(** The rest of a whole chain, and of a circle. *)
Lemma rest_of l r a p s : linked R l -> NoDup l -> wholeR l -> l = p ++ a :: s ->
  linked R r -> NoDup r -> maximal r -> hd_error r = Some a ->
  r = a :: s \/ circ l /\ r = a :: s ++ p.
Proof.
  intros Hl Hn Hw El Hr Hnr Hm Ha. subst l. destruct (whole_or _ Hw) as [[_ (f & z & Hf & Hz & H1 & H2)]|Hc].
  - left. apply maximal_unique; auto.
    + eapply linked_suffix. exact Hl.
    + revert Hn. clear. induction p; simpl; auto. intros H. inversion H; auto.
    + rewrite rev_hd_suffix in Hz. exists a, z. split; [auto|split; auto]. intros b Hb. destruct (H2 _ Hb).
  - right. split; auto. destruct (circ_rotate p (a :: s)) as [L (f & z & Hf & Hz & Hzf)]; auto; [discriminate|].
    apply maximal_unique; auto.
    + exact (Permutation_NoDup (Permutation_app_comm p (a :: s)) Hn).
    + exists f, z. split; [auto|split; auto]. intros b Hb. eauto.
Qed.
End Chains.

Section Unique.
Context {T : Type}.
Variable R : T -> T -> Prop.
Hypothesis Rfun : forall a b c, R a b -> R a c -> b = c.
Hypothesis Rinj : forall a b c, R a c -> R b c -> a = b.
Lemma circ_maximal l : circ R l -> maximal R l.
Proof. intros (f & z & Hf & Hz & H). exists f, z. repeat split; auto. intros b Hb. eauto. Qed.
Lemma whole_unique l1 l2 b : linked R l1 -> NoDup l1 -> wholeR R l1 -> linked R l2 -> NoDup l2 -> wholeR R l2 ->
  In b l1 -> In b l2 -> l1 = l2 \/ circ R l1 /\ circ R l2 /\ exists p s, l1 = p ++ s /\ l2 = s ++ p.
Proof.
  intros L1 N1 W1 L2 N2 W2 B1 B2. apply in_split in B1 as (p1 & s1 & E1). apply in_split in B2 as (p2 & s2 & E2).
  destruct (whole_or _ _ W2) as [[M2 (f2 & z2 & Hf2 & Hz2 & F2 & Z2)]|C2].
  - left. assert (Lr : linked R (b :: s2)) by (subst l2; eapply linked_suffix; eauto).
    assert (Nr : NoDup (b :: s2)). { subst l2. revert N2. clear. induction p2; simpl; auto. intros H. inversion H; auto. }
    assert (Mr : maximal R (b :: s2)).
    { subst l2. rewrite rev_hd_suffix in Hz2. exists b, z2. repeat split; auto. intros c Hc. destruct (Z2 _ Hc). }
    destruct (rest_of R Rfun l1 (b :: s2) b p1 s1 L1 N1 W1 E1 Lr Nr Mr eq_refl) as [E|[(f & z & Hf & Hz & C) E]].
    + injection E as ->. assert (Ep : rev (b :: rev p1) = rev (b :: rev p2)).
      { f_equal. assert (Ls : forall p, linked R (p ++ b :: s1) -> linked (fun x y => R y x) (b :: rev p)).
        { intros p H. assert (H' : linked R (p ++ [b])). { apply (linked_prefix R (p ++ [b]) s1). rewrite <- app_assoc. auto. }
          apply linked_rev in H'. rewrite rev_app_distr in H'. auto. }
        assert (Ns : forall p, NoDup (p ++ b :: s1) -> NoDup (b :: rev p)).
        { intros p H. assert (H' : NoDup (p ++ [b])). { apply NoDup_app_l with s1. rewrite <- app_assoc. auto. }
          apply NoDup_rev in H'. rewrite rev_app_distr in H'. auto. }
        assert (Hhd : forall p f, hd_error (p ++ b :: s1) = Some f -> hd_error (rev (b :: rev p)) = Some f).
        { intros p f. simpl. rewrite rev_involutive. destruct p; auto. }
        apply (maximal_unique (fun x y => R y x)); subst l1 l2; auto.
        - intros x y z H1 H2. eauto.
        - destruct W1 as (f & z & Hf & Hz & [[F Z]|C]).
          + exists b, f. repeat split; auto. intros c Hc. destruct (F _ Hc).
          + exfalso. rewrite rev_hd_suffix in Hz, Hz2. assert (z = z2) by congruence. subst z. apply (Z2 _ C).
        - exists b, f2. repeat split; auto. intros c Hc. destruct (F2 _ Hc). }
      simpl in Ep. rewrite !rev_involutive in Ep. apply app_inj_tail in Ep as [-> _]. congruence.
    + exfalso. injection E as E. destruct p1 as [|x p1].
      * rewrite app_nil_r in E. subst. simpl in Hz. simpl in Hf. rewrite rev_hd_suffix in Hz2. simpl in Hz2.
        assert (z = z2) by congruence. subst z. apply (Z2 _ C).
      * subst l1. assert (Q : exists q t, x :: p1 = q ++ [t]). { exists (removelast (x :: p1)), (last (x :: p1) x). apply app_removelast_last. discriminate. }
        destruct Q as (q & t & Eq). rewrite Eq in *. rewrite <- app_assoc in L1. apply linked_app in L1 as (_ & Ht & _).
        subst l2 s2. rewrite rev_hd_suffix in Hz2. assert (z2 = t).
        { simpl in Hz2. rewrite app_assoc, rev_app_distr in Hz2. simpl in Hz2. congruence. }
        subst z2. apply (Z2 _ Ht).
  - right. destruct (circ_rotate R p2 (b :: s2)) as [L C]; [discriminate|subst; auto|subst; auto|].
    assert (N : NoDup ((b :: s2) ++ p2)). { subst l2. exact (Permutation_NoDup (Permutation_app_comm p2 (b :: s2)) N2). }
    destruct (rest_of R Rfun l1 ((b :: s2) ++ p2) b p1 s1 L1 N1 W1 E1 L N (circ_maximal _ C) eq_refl) as [E|[C1 E]].
    + assert (C1 : circ R l1).
      { destruct W1 as (f & z & Hf & Hz & [[F Z]|C1]); [|exists f, z; auto]. exfalso.
        destruct C as (f' & z' & Hf' & Hz' & C'). rewrite E in Hz'. subst l1. rewrite rev_hd_suffix in Hz.
        assert (z = z') by congruence. subst z'. apply (Z _ C'). }
      split; [auto|split; [auto|]]. assert (p1 = []).
      { destruct p1 as [|x p1]; auto. exfalso. subst l1. destruct C1 as (f & z & Hf & Hz & C1). simpl in Hf. injection Hf as ->.
        destruct C as (f' & z' & Hf' & Hz' & C'). rewrite E in Hz'. rewrite rev_hd_suffix in Hz.
        assert (z = z') by congruence. subst z'. simpl in Hf'. injection Hf' as <-. assert (b = f) by eauto. subst f.
        inversion N1 as [|? ? Hn]. apply Hn, in_or_app. right; left; auto. }
      subst p1 l1 l2. injection E as <-. exists (b :: s2), p2. auto.
    + split; [auto|split; [auto|]]. injection E as E. subst l1 l2.
      apply app_eq_app in E as (m & [[E3 E4]|[E3 E4]]).
      * subst. exists m, (p2 ++ b :: s1). rewrite <- !app_assoc. auto.
      * subst. exists (p1 ++ b :: s2), m. rewrite <- !app_assoc. auto.
Qed.
End Unique.

(** * The walks *)
Section Walk.
Variable f : nat -> option nat.
Variable size : nat.
Hypothesis finj : forall a b c, f a = Some c -> f b = Some c -> a = b.
Hypothesis fsize : forall a b, f a = Some b -> b < size.
Fixpoint walk (fuel start v : nat) (acc : list nat) : option (list nat) :=
  match fuel with
  | 0 => None
  | S k => let acc' := acc ++ [v] in
           match f v with
           | Some v' => if Nat.eqb v' start then Some acc' else walk k start v' acc'
           | None => Some acc'
           end
  end.
Let R a b := f a = Some b.

Lemma new_vertex s acc v v' : hd_error (acc ++ [v]) = Some s -> NoDup (acc ++ [v]) -> linked R (acc ++ [v]) ->
  f v = Some v' -> v' <> s -> ~ In v' (acc ++ [v]).
Proof.
  intros Hs Hn Hl Hf Hv Hi. apply in_split in Hi as (p & q & E). destruct p as [|x p].
  { rewrite E in Hs. injection Hs as ->. auto. }
  assert (Q : exists u t, x :: p = u ++ [t]). { exists (removelast (x :: p)), (last (x :: p) x). apply app_removelast_last. discriminate. }
  destruct Q as (u & t & Eq). rewrite E, Eq, <- app_assoc in Hl. simpl in Hl. apply linked_app in Hl as (_ & Ht & _).
  assert (t = v) by (eapply finj; eauto). subst t. rewrite E, Eq, <- app_assoc in Hn. simpl in Hn.
  apply NoDup_remove_2 in Hn. apply Hn. apply in_or_app. right.
  assert (L : last (acc ++ [v]) 0 = v) by apply last_last. rewrite E in L.
  destruct q as [|y q]; [rewrite last_last in L; left; auto|].
  right. replace (x :: p) with (u ++ [v]) in L. 
  assert (Q : exists a t, y :: q = a ++ [t]). { exists (removelast (y :: q)), (last (y :: q) y). apply app_removelast_last. discriminate. }
  destruct Q as (a & t & Eq2). rewrite Eq2 in *.
  replace ((u ++ [v]) ++ v' :: a ++ [t]) with (((u ++ [v]) ++ v' :: a) ++ [t]) in L by (rewrite <- app_assoc; auto).
  rewrite last_last in L. subst t. apply in_or_app. right; left; auto.
Qed.

Lemma walk_ok fuel start : forall v acc, hd_error (acc ++ [v]) = Some start -> NoDup (acc ++ [v]) -> linked R (acc ++ [v]) ->
  Forall (fun x => x < size) (acc ++ [v]) -> size < fuel + length (acc ++ [v]) ->
  exists l, walk fuel start v acc = Some l /\ hd_error l = Some start /\ NoDup l /\ linked R l /\ Forall (fun x => x < size) l /\
    exists z, hd_error (rev l) = Some z /\ (f z = None \/ f z = Some start).
Proof.
  induction fuel as [|k IH]; intros v acc Hs Hn Hl Hb Hf.
  - exfalso. assert (length (acc ++ [v]) <= length (seq 0 size)).
    { apply NoDup_incl_length; auto. intros x Hx. apply in_seq. rewrite Forall_forall in Hb. specialize (Hb x Hx). lia. }
    rewrite seq_length in H. lia.
  - simpl. destruct (f v) as [v'|] eqn:E.
    + destruct (Nat.eqb_spec v' start) as [->|Hne].
      * eexists. split; [reflexivity|]. repeat split; auto. exists v. split; [apply last_app|]. auto.
      * apply IH.
        -- destruct acc; auto.
        -- apply NoDup_app_new. auto. eapply new_vertex; eauto.
        -- rewrite <- app_assoc. simpl. apply linked_app. simpl. auto.
        -- apply Forall_app. split; auto. constructor; [|constructor]. eapply fsize; eauto.
        -- rewrite app_length. simpl. lia.
    + eexists. split; [reflexivity|]. repeat split; auto. exists v. split; [apply last_app|]. auto.
Qed.
End Walk.

(** * The lanes of a route *)
Section Lanes.
Context {A : CostAlg}.
Variable g : graph A.
Hypothesis Hg : graph_ok g.
Hypothesis Hc : canonical g.
Let w := GView g 0%N (bits Successor).

Definition next (u : nat) : option nat :=
  match out_edges w u with
  | [e] => if Nat.eqb (length (in_edges w (e_tgt e))) 1 then Some (e_tgt e) else None
  | _ => None
  end.
Definition prev (v : nat) : option nat :=
  match in_edges w v with
  | [e] => if Nat.eqb (length (out_edges w (e_src e))) 1 then Some (e_src e) else None
  | _ => None
  end.
Definition bridge (u v : nat) : Prop := exists e, out_edges w u = [e] /\ in_edges w v = [e].

Lemma one {X} (l : list X) x : In x l -> length l = 1 -> l = [x].
Proof. destruct l as [|y [|z l]]; try discriminate. intros [->|[]]; auto. Qed.
Lemma next_bridge u v : next u = Some v <-> bridge u v.
Proof.
  unfold next, bridge. split.
  - destruct (out_edges w u) as [|e [|e' l]] eqn:E; try discriminate.
    destruct (Nat.eqb_spec (length (in_edges w (e_tgt e))) 1) as [H|]; [|discriminate]. intros [= <-].
    exists e. split; auto. apply one; auto. apply in_edges_in.
    assert (He : In e (out_edges w u)) by (rewrite E; left; auto). apply out_edges_in in He. tauto.
  - intros (e & E1 & E2). rewrite E1. assert (He : In e (in_edges w v)) by (rewrite E2; left; auto).
    apply in_edges_in in He as (_ & -> & _). rewrite E2. auto.
Qed.
Lemma prev_bridge u v : prev v = Some u <-> bridge u v.
Proof.
  unfold prev, bridge. split.
  - destruct (in_edges w v) as [|e [|e' l]] eqn:E; try discriminate.
    destruct (Nat.eqb_spec (length (out_edges w (e_src e))) 1) as [H|]; [|discriminate]. intros [= <-].
    exists e. split; auto. apply one; auto. apply out_edges_in.
    assert (He : In e (in_edges w v)) by (rewrite E; left; auto). apply in_edges_in in He. tauto.
  - intros (e & E1 & E2). rewrite E2. assert (He : In e (out_edges w u)) by (rewrite E1; left; auto).
    apply out_edges_in in He as (_ & -> & _). rewrite E1. auto.
Qed.
Lemma next_prev u v : next u = Some v <-> prev v = Some u.
Proof. rewrite next_bridge, prev_bridge. tauto. Qed.
Lemma next_inj a b c : next a = Some c -> next b = Some c -> a = b.
Proof. rewrite !next_prev. congruence. Qed.
Lemma prev_inj a b c : prev a = Some c -> prev b = Some c -> a = b.
Proof. rewrite <- !next_prev. congruence. Qed.
Lemma bridge_edge u v : bridge u v -> exists e, In e (g_edges g) /\ e_src e = u /\ e_tgt e = v.
Proof.
  intros (e & E1 & E2). exists e. assert (H1 : In e (out_edges w u)) by (rewrite E1; left; auto).
  assert (H2 : In e (in_edges w v)) by (rewrite E2; left; auto).
  apply out_edges_in in H1. apply in_edges_in in H2. tauto.
Qed.
Lemma next_size a b : next a = Some b -> b < length (g_verts g).
Proof. rewrite next_bridge. intros H. apply bridge_edge in H as (e & He & _ & <-). apply (go_edges _ Hg _ He). Qed.
Lemma prev_size a b : prev a = Some b -> b < length (g_verts g).
Proof. rewrite prev_bridge. intros H. apply bridge_edge in H as (e & He & <- & _). apply (go_edges _ Hg _ He). Qed.

Lemma remaining_walk k s : forall v acc, remaining_impl w k s v acc = walk next k s v acc.
Proof.
  induction k as [|k IH]; intros v acc; simpl; auto. unfold next.
  destruct (out_edges w v) as [|e [|e' l]]; auto.
  destruct (Nat.eqb (length (in_edges w (e_tgt e))) 1); simpl; auto.
  destruct (Nat.eqb (e_tgt e) s); auto.
Qed.
Lemma back_walk k s : forall v acc l, walk prev k s v acc = Some l ->
  exists z, hd_error (rev l) = Some z /\ back_impl w k s v = Some (match prev z with Some _ => s | None => z end).
Proof.
  induction k as [|k IH]; intros v acc l; simpl; [discriminate|].
  assert (Hv : prev v = match in_edges w v with
    | [e] => if Nat.eqb (length (out_edges w (e_src e))) 1 then Some (e_src e) else None | _ => None end) by reflexivity.
  destruct (in_edges w v) as [|e [|e' m]]; try rewrite Hv.
  - intros [= <-]. exists v. rewrite last_app, Hv. auto.
  - destruct (Nat.eqb (length (out_edges w (e_src e))) 1); simpl.
    + destruct (Nat.eqb_spec (e_src e) s) as [E|E]; auto.
      * intros [= <-]. exists v. rewrite last_app, Hv, E. auto.
      * apply IH.
    + intros [= <-]. exists v. rewrite last_app, Hv. auto.
  - intros [= <-]. exists v. rewrite last_app, Hv. auto.
Qed.

(** Vertices and lanelets *)
Lemma is_elem_vertex e a u : In e (g_edges g) -> get_vertex g a = Some u ->
  is_elem g (e_src e) a = Nat.eqb (e_src e) u /\ is_elem g (e_tgt e) a = Nat.eqb (e_tgt e) u.
Proof.
  intros He Ha. destruct (go_lookup _ Hg _ _ Ha) as [Hu _].
  assert (G : forall v, (exists x, get_vertex g x = Some v) -> is_elem g v a = Nat.eqb v u).
  { intros v [x Hx]. destruct (go_lookup _ Hg _ _ Hx) as [Hv _]. unfold is_elem. rewrite Hv.
    apply Bool.eq_iff_eq_true. rewrite elem_eqb_eq, Nat.eqb_eq. split; [intros ->; congruence|intros ->; congruence]. }
  destruct (Hc e He). split; apply G; auto.
Qed.
Lemma passes_succ (e : edge A) : edge_passes 0%N (bits Successor) (e_info e) = is_succ e.
Proof.
  unfold edge_passes, is_succ. destruct (N.eqb (ei_costid (e_info e)) 0); auto. simpl.
  destruct (ei_rel (e_info e)); reflexivity.
Qed.
Lemma leaving_out a u : get_vertex g a = Some u -> leaving g a = out_edges w u.
Proof.
  intros Ha. unfold leaving, out_edges. apply filter_ext_in. intros e He. simpl v_costid. simpl v_mask.
  rewrite passes_succ. f_equal. apply (is_elem_vertex e a u He Ha).
Qed.
Lemma entering_in a u : get_vertex g a = Some u -> entering g a = in_edges w u.
Proof.
  intros Ha. unfold entering, in_edges. apply filter_ext_in. intros e He. simpl v_costid. simpl v_mask.
  rewrite passes_succ. f_equal. apply (is_elem_vertex e a u He Ha).
Qed.
Lemma continues_next a b u v : get_vertex g a = Some u -> get_vertex g b = Some v ->
  (continues g a b <-> next u = Some v).
Proof.
  intros Ha Hb. rewrite next_bridge. unfold continues, bridge. rewrite (leaving_out _ _ Ha), (entering_in _ _ Hb). tauto.
Qed.
Lemma leaving_edge a e : In e (leaving g a) -> In e (g_edges g) /\ vertex_elem g (e_src e) = Some a.
Proof.
  unfold leaving, is_elem. rewrite filter_In, andb_true_iff. intros (H1 & H2 & _).
  destruct (vertex_elem g (e_src e)); [|discriminate]. apply elem_eqb_eq in H2. subst. auto.
Qed.
Lemma entering_edge a e : In e (entering g a) -> In e (g_edges g) /\ vertex_elem g (e_tgt e) = Some a.
Proof.
  unfold entering, is_elem. rewrite filter_In, andb_true_iff. intros (H1 & H2 & _).
  destruct (vertex_elem g (e_tgt e)); [|discriminate]. apply elem_eqb_eq in H2. subst. auto.
Qed.
Lemma continues_vertices a b : continues g a b -> exists u v, get_vertex g a = Some u /\ get_vertex g b = Some v.
Proof.
  intros (e & E1 & E2). destruct (leaving_edge a e) as [H1 H2]; [rewrite E1; left; auto|].
  destruct (entering_edge b e) as [H3 H4]; [rewrite E2; left; auto|].
  exists (e_src e), (e_tgt e). split; [apply (src_vertex g Hg Hc)|apply (tgt_vertex g Hg Hc)]; auto.
Qed.
Lemma continues_fun a b c : continues g a b -> continues g a c -> b = c.
Proof.
  intros H1 H2. destruct (continues_vertices _ _ H1) as (u & v & Hu & Hv). destruct (continues_vertices _ _ H2) as (u' & v' & Hu' & Hv').
  apply (continues_next _ _ _ _ Hu Hv) in H1. apply (continues_next _ _ _ _ Hu' Hv') in H2.
  assert (v = v') by congruence. subst v'. apply (go_lookup _ Hg) in Hv, Hv'. destruct Hv, Hv'. congruence.
Qed.
Lemma continues_inj a b c : continues g a c -> continues g b c -> a = b.
Proof.
  intros H1 H2. destruct (continues_vertices _ _ H1) as (u & v & Hu & Hv). destruct (continues_vertices _ _ H2) as (u' & v' & Hu' & Hv').
  apply (continues_next _ _ _ _ Hu Hv) in H1. apply (continues_next _ _ _ _ Hu' Hv') in H2.
  assert (v = v') by congruence. subst v'. assert (u = u') by (eapply next_inj; eauto). subst u'.
  apply (go_lookup _ Hg) in Hu, Hu'. destruct Hu, Hu'. congruence.
Qed.

Definition named (vs : list nat) (l : list elem) : Prop := Forall2 (fun v a => get_vertex g a = Some v) vs l.
Lemma all_elems_named vs l : named vs l -> all_elems g vs = Lane l.
Proof.
  induction 1 as [|v a vs l H _ IH]; simpl; auto. rewrite IH. apply (go_lookup _ Hg) in H as [-> _]. auto.
Qed.
Lemma named_exists vs : forall s a, hd_error vs = Some s -> get_vertex g a = Some s -> linked (fun u v => next u = Some v) vs ->
  exists l, named vs l /\ hd_error l = Some a.
Proof.
  induction vs as [|v vs IH]; intros s a; [discriminate|]. intros [= ->] Ha Hl. destruct vs as [|v' vs].
  - exists [a]. split; auto. repeat constructor; auto.
  - destruct Hl as [H1 H2]. apply next_bridge, bridge_edge in H1 as (e & He & _ & Et).
    destruct (Hc e He) as [_ [b Hb]]. rewrite Et in Hb. destruct (IH v' b eq_refl Hb H2) as (l & Hn & _).
    exists (a :: l). split; auto. constructor; auto.
Qed.
Lemma named_linked vs l : named vs l -> linked (fun u v => next u = Some v) vs -> linked (continues g) l.
Proof.
  induction 1 as [|v a vs l H F IH]; simpl; auto. destruct F as [|v' a' vs l H' F]; simpl; auto.
  intros [H1 H2]. split; [|apply IH; auto]. apply (continues_next _ _ _ _ H H'). auto.
Qed.
Lemma named_nodup vs l : named vs l -> NoDup vs -> NoDup l.
Proof.
  induction 1 as [|v a vs l H F IH]; intros Hn; [constructor|]. inversion Hn as [|? ? Hi Hd]. subst. constructor; auto.
  intros Ha. apply Hi. revert Ha. clear -H F. induction F as [|v' a' vs l H' F IH]; simpl; auto.
  intros [->|Ha]; [left; congruence|auto].
Qed.
Lemma named_last vs l z : named vs l -> hd_error (rev vs) = Some z -> exists b, hd_error (rev l) = Some b /\ get_vertex g b = Some z.
Proof.
  intros H E. destruct (last_split _ _ E) as [p ->]. apply Forall2_app_inv_l in H as (l1 & l2 & H1 & H2 & ->).
  inversion H2 as [|? b ? ? Hb H3]. subst. inversion H3. subst. exists b. rewrite last_app. auto.
Qed.

(** What remaining_lane computes *)
Lemma lane_of_ok a v : get_vertex g a = Some v ->
  exists l, lane_of g w v = Lane l /\ hd_error l = Some a /\ NoDup l /\ linked (continues g) l /\ maximal (continues g) l.
Proof.
  intros Ha. assert (Hv : v < length (g_verts g)) by apply (go_lookup _ Hg _ _ Ha).
  destruct (walk_ok next (length (g_verts g)) next_inj next_size (lane_fuel g) v v []) as (vs & E & Hh & Hn & Hl & _ & z & Hz & Hend);
    simpl; auto.
  { repeat constructor; auto. }
  { unfold lane_fuel. lia. }
  destruct (named_exists vs v a Hh Ha Hl) as (l & Hnm & Hhd). exists l. split.
  { unfold lane_of. rewrite remaining_walk, E. apply all_elems_named. auto. }
  split; [auto|split; [eapply named_nodup; eauto|split; [eapply named_linked; eauto|]]].
  destruct (named_last vs l z Hnm Hz) as (b & Hb & Hbz). exists a, b. split; [auto|split; [auto|]].
  intros c Hcon. destruct (continues_vertices _ _ Hcon) as (u & x & Hu & Hx).
  apply (continues_next _ _ _ _ Hbz Hx) in Hcon. destruct Hend as [Hend|Hend]; [congruence|].
  rewrite Hend in Hcon. injection Hcon as <-. apply (go_lookup _ Hg) in Ha, Hx. destruct Ha, Hx. congruence.
Qed.

Lemma full_of_ok a v : get_vertex g a = Some v ->
  exists b l, back_impl w (lane_fuel g) v v = Some b /\ lane_of g w b = Lane l /\ In a l /\ NoDup l /\ linked (continues g) l /\
    wholeR (continues g) l.
Proof.
  intros Ha. assert (Hv : v < length (g_verts g)) by apply (go_lookup _ Hg _ _ Ha).
  destruct (walk_ok prev (length (g_verts g)) prev_inj prev_size (lane_fuel g) v v []) as (vs & E & Hh & Hn & Hl & _ & z & Hz & Hend);
    simpl; auto.
  { repeat constructor; auto. }
  { unfold lane_fuel. lia. }
  destruct (back_walk _ _ _ _ _ E) as (z' & Hz' & Hb). assert (z' = z) by congruence. subst z'.
  assert (Hl' : linked (fun u v => next u = Some v) (rev vs)).
  { apply linked_rev in Hl. revert Hl. generalize (rev vs). clear.
    induction l as [|x [|y l] IH]; simpl; auto. intros [H1 H2]. split; [apply next_prev; auto|apply IH; auto]. }
  destruct Hend as [Hend|Hend]; rewrite Hend in Hb.
  - (* the first lanelet of the lane *)
    assert (Hza : exists az, get_vertex g az = Some z).
    { destruct (last_split _ _ Hz) as [p ->]. destruct p as [|x p].
      - injection Hh as ->. eauto.
      - rewrite rev_app_distr in Hl'. simpl in Hl'. destruct (rev p ++ [x]) as [|y r] eqn:Er; [destruct (rev p); discriminate|].
        destruct Hl' as [H1 _]. apply next_bridge, bridge_edge in H1 as (e & He & Es & _). destruct (Hc e He) as [[b Hb'] _]. rewrite Es in Hb'. eauto. }
    destruct Hza as [az Haz]. destruct (lane_of_ok az z Haz) as (l & E1 & Hhd & Hnd & Hlk & Hmx).
    exists z, l. split; [auto|split; [auto|]].
    destruct (named_exists (rev vs) z az Hz Haz Hl') as (l0 & Hnm & Hh0).
    assert (Hfirst : forall b, ~ continues g b az).
    { intros b Hcon. destruct (continues_vertices _ _ Hcon) as (u & x & Hu & Hx). apply (continues_next _ _ _ _ Hu Hx) in Hcon.
      assert (x = z) by congruence. subst x. apply next_prev in Hcon. congruence. }
    assert (Hin : In a l).
    { destruct (common (continues g) continues_fun l0 l) as (p & x & y & -> & -> & Hxy); auto.
      { eapply named_linked; eauto. }
      { congruence. }
      assert (Hpa : In a (p ++ x)).
      { assert (Hr : hd_error (rev (rev vs)) = Some v) by (rewrite rev_involutive; auto).
        destruct (named_last (rev vs) _ v Hnm Hr) as (b & Hb1 & Hb2). 
        assert (b = a). { apply (go_lookup _ Hg) in Hb2, Ha. destruct Hb2, Ha. congruence. }
        subst b. destruct (last_split _ _ Hb1) as [q Hq]. rewrite Hq. apply in_or_app. right; left; auto. }
      destruct Hxy as [->| ->].
      - rewrite app_nil_r in Hpa. apply in_or_app. auto.
      - rewrite app_nil_r in *. assert (x = []).
        { destruct x as [|c x]; auto. exfalso. destruct Hmx as (f & t & Hf & Ht & Hm). destruct (last_split _ _ Ht) as [q ->].
          assert (L0 : linked (continues g) ((q ++ [t]) ++ c :: x)) by (eapply named_linked; eauto).
          rewrite <- app_assoc in L0. apply linked_app in L0 as (_ & Htc & _). pose proof (Hm _ Htc). subst c.
          assert (f = az) by congruence. subst f. apply (Hfirst _ Htc). }
        subst x. rewrite app_nil_r in Hpa. auto. }
    split; [auto|split; [auto|split; [auto|]]]. destruct Hmx as (f & t & Hf & Ht & Hm). exists f, t. split; [auto|split; [auto|]].
    assert (f = az) by congruence. subst f. left. split; auto. intros b Hb'. pose proof (Hm _ Hb'). subst b. apply (Hfirst _ Hb').
  - (* a circle *)
    destruct (lane_of_ok a v Ha) as (l & E1 & Hhd & Hnd & Hlk & Hmx). exists v, l. split; [auto|split; [auto|]].
    assert (Hin : In a l) by (destruct l; [discriminate|injection Hhd as ->; left; auto]).
    split; [auto|split; [auto|split; [auto|]]]. destruct Hmx as (f & t & Hf & Ht & Hm). exists f, t. split; [auto|split; [auto|]].
    assert (f = a) by congruence. subst f. right.
    (* the chain back from v, turned round, is the same chain from the successor of v on *)
    assert (Hnv : next v = Some z) by (apply next_prev; auto).
    assert (Hza : exists az, get_vertex g az = Some z).
    { apply next_bridge, bridge_edge in Hnv as (e & He & _ & Et). destruct (Hc e He) as [_ [b Hb']]. rewrite Et in Hb'. eauto. }
    destruct Hza as [az Haz]. destruct (named_exists (rev vs) z az Hz Haz Hl') as (l0 & Hnm & Hh0).
    assert (Hr : hd_error (rev (rev vs)) = Some v) by (rewrite rev_involutive; auto).
    destruct (named_last (rev vs) _ v Hnm Hr) as (b & Hb1 & Hb2).
    assert (b = a). { apply (go_lookup _ Hg) in Hb2, Ha. destruct Hb2, Ha. congruence. } subst b.
    assert (L0 : linked (continues g) l0) by (eapply named_linked; eauto).
    assert (N0 : NoDup l0) by (eapply named_nodup; [exact Hnm|apply NoDup_rev; auto]).
    assert (C0 : circ (continues g) l0). { exists az, a. split; [auto|split; [auto|]]. apply (continues_next _ _ _ _ Ha Haz). auto. }
    destruct (last_split _ _ Hb1) as [m ->]. destruct (circ_rotate (continues g) m [a]) as [L1 C1]; auto; [discriminate|].
    assert (l = [a] ++ m).
    { apply (maximal_unique (continues g) continues_fun); auto.
      - exact (Permutation_NoDup (Permutation_app_comm m [a]) N0).
      - exists a, t. auto.
      - apply circ_maximal; auto. apply continues_fun. }
    subst l. destruct C1 as (f & z1 & Hf1 & Hz1 & Hcc). assert (f = a) by congruence. assert (z1 = t) by congruence. subst. auto.
Qed.
End Lanes.

(** * Lanelets of a built graph *)
Section Built.
Context {A : CostAlg}.
Lemma add_vertex_known (g : graph A) a x :
  (exists v, get_vertex (add_vertex g a) x = Some v) <-> x = a \/ exists v, get_vertex g x = Some v.
Proof.
  split.
  - unfold get_vertex, add_vertex. simpl. destruct (assoc a (g_lookup g)) eqn:E; [eauto|].
    rewrite assoc_app. destruct (assoc x (g_lookup g)); [eauto|]. destruct (elem_eqb x a) eqn:Ex; [|intros [v Hv]; discriminate].
    apply elem_eqb_eq in Ex. auto.
  - intros [->|[v Hv]]; [|exists v; apply get_vertex_mono; auto].
    unfold get_vertex, add_vertex. simpl. destruct (assoc a (g_lookup g)) eqn:E; [eauto|].
    rewrite assoc_app, E. rewrite (proj2 (elem_eqb_eq a a) eq_refl). eauto.
Qed.
Lemma add_edge_vertex (g : graph A) a b i x : get_vertex (fst (add_edge g a b i)) x = get_vertex g x.
Proof.
  unfold add_edge. destruct (get_vertex g a); auto. destruct (get_vertex g b); auto.
  unfold add_edge_v. destruct (negb _); auto. destruct (cltb _ _ _); auto.
Qed.
Lemma on_route n (ops : list (gop A)) a : (exists v, get_vertex (gbuild n ops) a = Some v) <-> In (OpVertex a) ops.
Proof.
  unfold gbuild. assert (G : forall g : graph A, (exists v, get_vertex (fold_left gstep ops g) a = Some v) <->
     In (OpVertex a) ops \/ exists v, get_vertex g a = Some v).
  { induction ops as [|o ops IH]; intros g; simpl; [tauto|]. rewrite IH. destruct o as [b|b c i]; simpl.
    - rewrite add_vertex_known. split; [intros [H|[->|H]]|intros [[[= ->]|H]|H]]; auto.
    - rewrite add_edge_vertex. split; [intros [H|H]|intros [[H|H]|H]]; auto. discriminate. }
  rewrite G. split; auto. intros [H|[v Hv]]; auto. discriminate.
Qed.
End Built.

(** * The shortest path *)
Lemma index_of_spec a p : match index_of a p with
  | Some i => exists l r, p = l ++ a :: r /\ length l = i /\ ~ In a l
  | None => ~ In a p
  end.
Proof.
  induction p as [|b p IH]; simpl; [tauto|]. destruct (elem_eqb b a) eqn:E.
  - apply elem_eqb_eq in E. subst. exists [], p. auto.
  - assert (b <> a) by (intros ->; rewrite (proj2 (elem_eqb_eq a a) eq_refl) in E; discriminate).
    destruct (index_of a p) as [i|]; simpl.
    + destruct IH as (l & r & -> & <- & Hn). exists (b :: l), r. simpl. intuition.
    + intuition.
Qed.
Lemma skipn_at {T} (l r : list T) : skipn (length l) (l ++ r) = r.
Proof. induction l; auto. Qed.
Lemma firstn_at {T} (l r : list T) : firstn (length l) (l ++ r) = l.
Proof. induction l; simpl; auto. f_equal. auto. Qed.
Lemma remaining_path_open p s a : ~ In a p -> hd_error (p ++ a :: s) <> hd_error (rev (a :: s)) ->
  remaining_path (p ++ a :: s) a = a :: s.
Proof.
  intros Hn Hh. unfold remaining_path. pose proof (index_of_spec a (p ++ a :: s)) as H.
  destruct (index_of a (p ++ a :: s)) as [i|].
  2: { exfalso. apply H, in_or_app. right; left; auto. }
  destruct H as (l & r & E & <- & Hl).
  assert (l = p /\ r = s) as [-> ->].
  { apply app_eq_app in E as (m & [[E1 E2]|[E1 E2]]).
    - destruct m as [|x m]; simpl in E2; [rewrite app_nil_r in E1; injection E2 as <-; auto|].
      injection E2 as <- E2. subst. exfalso. apply Hn, in_or_app. right; left; auto.
    - destruct m as [|x m]; simpl in E2; [rewrite app_nil_r in E1; injection E2 as <-; auto|].
      injection E2 as <- E2. subst. exfalso. apply Hl, in_or_app. right; left; auto. }
  rewrite skipn_at. rewrite <- (rev_hd_suffix p s a) in Hh. destruct (p ++ a :: s) as [|f q] eqn:Eq; [destruct p; discriminate|].
  destruct (rev (f :: q)) as [|b q']; auto. destruct (elem_eqb f b) eqn:Ef; auto.
  apply elem_eqb_eq in Ef. subst. destruct Hh. auto.
Qed.
Lemma remaining_path_circle p s a f : ~ In a p -> hd_error (p ++ a :: s) = Some f ->
  remaining_path ((p ++ a :: s) ++ [f]) a = a :: s ++ p.
Proof.
  intros Hn Hh. unfold remaining_path. pose proof (index_of_spec a ((p ++ a :: s) ++ [f])) as H.
  destruct (index_of a ((p ++ a :: s) ++ [f])) as [i|].
  2: { exfalso. apply H, in_or_app. left. apply in_or_app. right; left; auto. }
  destruct H as (l & r & E & <- & Hl). rewrite <- app_assoc in E. simpl in E.
  assert (l = p /\ r = s ++ [f]) as [-> ->].
  { apply app_eq_app in E as (m & [[E1 E2]|[E1 E2]]).
    - destruct m as [|x m]; simpl in E2; [rewrite app_nil_r in E1; injection E2 as <-; auto|].
      injection E2 as <- E2. subst. exfalso. apply Hn, in_or_app. right; left; auto.
    - destruct m as [|x m]; simpl in E2; [rewrite app_nil_r in E1; injection E2 as <-; auto|].
      injection E2 as <- E2. subst. exfalso. apply Hl, in_or_app. right; left; auto. }
  destruct ((p ++ a :: s) ++ [f]) as [|f' q] eqn:Eq; [destruct p; discriminate|].
  assert (f' = f). { destruct p; simpl in *; congruence. } subst f'. rewrite <- Eq.
  rewrite rev_app_distr. simpl. rewrite (proj2 (elem_eqb_eq f f) eq_refl). rewrite removelast_last.
  rewrite skipn_at, firstn_at. auto.
Qed.

(** * Neighbours *)
Section Sides.
Context {A : CostAlg}.
Variable w : gview A.
Definition beside (v : nat) : option nat := match out_edges w v with [] => None | e :: _ => Some (e_tgt e) end.
Lemma side_loop_until k : forall v, match side_loop w k v with
  | Lane l => until_end beside k v = Some (map fst l)
  | OutOfFuel => until_end beside k v = None
  | _ => False
  end.
Proof.
  induction k as [|k IH]; intros v; simpl; auto. unfold beside at 1 3. destruct (out_edges w v) as [|e r]; auto.
  specialize (IH (e_tgt e)). destruct (side_loop w k (e_tgt e)) as [l| | |]; simpl; try tauto; rewrite IH; auto.
Qed.
End Sides.
