(** Proofs about the binary format of a map: writing ends. *)
From Coq Require Import List Bool Arith ZArith String Lia.
From Verif Require Import ArchiveModel ArchiveSpec.
Import ListNotations.
Local Arguments bind : simpl never.

Lemma index_some a l n : index_of a l = Some n -> nth_error l n = Some a.
Proof.
  revert n. induction l as [|b l IH]; intros n; cbn [index_of]; [discriminate|]. destruct (Nat.eqb_spec a b) as [->|N].
  - intros [= <-]. reflexivity.
  - destruct (index_of a l) as [m|]; [|discriminate]. intros [= <-]. simpl. auto.
Qed.
Lemma index_none a l : index_of a l = None -> ~ In a l.
Proof.
  induction l as [|b l IH]; cbn [index_of]; intros E; [intros []|]. destruct (Nat.eqb_spec a b) as [->|N]; [discriminate|].
  destruct (index_of a l); [discriminate|]. intros [X|X]; [congruence|]. now apply IH.
Qed.
Lemma index_nth l n a : NoDup l -> nth_error l n = Some a -> index_of a l = Some n.
Proof.
  revert n. induction l as [|b l IH]; intros n D E; [destruct n; discriminate|]. apply NoDup_cons_iff in D as [D1 D2]. cbn [index_of]. destruct n as [|n].
  - injection E as ->. now rewrite Nat.eqb_refl.
  - simpl in E. destruct (Nat.eqb_spec a b) as [->|N]; [exfalso; apply D1; eapply nth_error_In; eauto|]. now rewrite (IH n D2 E).
Qed.

Section Write.
Variable heap : list (obj nat).
Hypothesis G : good_heap heap.

Definition fine (s : wstate) : Prop := NoDup (seen s) /\ Forall (fun a => a < List.length heap) (seen s).
Definition extends (s s' : wstate) : Prop := exists e, seen s' = seen s ++ e.
Lemma extends_refl s : extends s s. Proof. exists []. now rewrite app_nil_r. Qed.
Lemma extends_trans s s1 s2 : extends s s1 -> extends s1 s2 -> extends s s2.
Proof. intros [e E] [e' E']. exists (e ++ e'). now rewrite E', E, app_assoc. Qed.
Lemma extends_length s s' : extends s s' -> List.length (seen s) <= List.length (seen s').
Proof. intros [e ->]. rewrite app_length. lia. Qed.

(** Writing succeeds if at most [k] objects are left. *)
Definition ends (k : nat) (w : writes) : Prop := forall s, fine s -> List.length heap <= k + List.length (seen s) ->
  exists u s', w s = Done (u, s') /\ fine s' /\ extends s s'.
Lemma ends_put k t : ends k (put t).
Proof. intros s F L. exists [t], s. split; [reflexivity|]. split; [auto|]. apply extends_refl. Qed.
Lemma ends_skip k : ends k skip.
Proof. intros s F L. exists [], s. split; [reflexivity|]. split; [auto|]. apply extends_refl. Qed.
Lemma ends_seq k w w' : ends k w -> ends k w' -> ends k (seq_ w w').
Proof.
  intros A B s F L. destruct (A s F L) as (u & s1 & E & F1 & X). pose proof (extends_length _ _ X).
  destruct (B s1 F1) as (u' & s2 & E' & F2 & X'); [lia|].
  exists (u ++ u'), s2. unfold seq_. rewrite E. unfold bind. rewrite E'. split; [auto|]. split; [auto|]. eapply extends_trans; eauto.
Qed.
Lemma ends_all {T} k (f : T -> writes) l : (forall x, In x l -> ends k (f x)) -> ends k (put_all f l).
Proof.
  induction l as [|x l IH]; intros A; [apply ends_skip|]. cbn [put_all]. apply ends_seq; [apply A; left; auto|]. apply IH. intros y I. apply A. right. auto.
Qed.
Lemma ends_list {T} k (f : T -> writes) l : (forall x, In x l -> ends k (f x)) -> ends k (put_list f l).
Proof. intros A. apply ends_seq; [apply ends_put|]. now apply ends_all. Qed.
Lemma ends_reg k ptr a : (exists o, nth_error heap a = Some o) -> ends k (ptr a) -> ends k (put_reg heap ptr a).
Proof.
  intros [o E] A s F L. unfold put_reg. rewrite E. revert s F L. apply ends_seq.
  - apply ends_put.
  - intros s1 F1 L1. destruct (existsb (Z.eqb (id_of o)) (sent s1)); [apply (ends_skip k); auto|].
    destruct (A (WState (seen s1) (id_of o :: sent s1))) as (u & s2 & E2 & F2 & X); [auto|auto|]. exists u, s2. auto.
Qed.
Lemma ends_ref k ptr (r : sref) : ends k (ptr (snd r)) -> ends k (put_ref ptr r).
Proof. intros A. apply ends_seq; [apply ends_put|auto]. Qed.

Local Opaque put_list put_ref.
Definition exists_ (a : nat) : Prop := exists o, nth_error heap a = Some o.
Lemma point_exists a : is_point heap a -> exists_ a. Proof. intros (i & t & x & y & z & E). eexists. eauto. Qed.
Lemma line_exists a : is_line heap a -> exists_ a. Proof. intros (i & t & x & E). eexists. eauto. Qed.
Lemma lanelet_exists a : is_lanelet heap a -> exists_ a. Proof. intros (i & t & l & r & rs & c & E). eexists. eauto. Qed.
Lemma area_exists a : is_area heap a -> exists_ a. Proof. intros (i & t & l & r & rs & E). eexists. eauto. Qed.
Lemma reg_exists a : is_reg heap a -> exists_ a. Proof. intros (i & t & x & E). eexists. eauto. Qed.
Hint Resolve point_exists line_exists lanelet_exists area_exists reg_exists : core.

Lemma ends_members k ptr o : (forall a, exists_ a -> ends k (ptr a)) -> good_obj heap o -> ends k (put_members heap ptr o).
Proof.
  intros A GO. destruct o as [i t x y z|i t ps|i t l r rs c|i t ins out rs|i t ps]; cbn [put_members good_obj] in *;
    repeat (apply ends_seq; [apply ends_put|]); try apply ends_put.
  - apply ends_list. rewrite Forall_forall in GO. auto.
  - destruct GO as (Gl & Gr & Gs & Gc). apply ends_seq; [apply ends_ref; auto|]. apply ends_seq; [apply ends_ref; auto|]. apply ends_seq.
    + apply ends_list. rewrite Forall_forall in Gs. intros a I. apply ends_reg; [apply reg_exists|]; auto.
    + destruct c as [c|]; [apply ends_seq; [apply ends_put|]; apply ends_ref; auto|apply ends_put].
  - destruct GO as (Gi & Go & Gs). rewrite Forall_forall in Gi, Go, Gs. apply ends_seq; [|apply ends_seq].
    + apply ends_list. intros ring I. apply ends_list. specialize (Gi ring I). rewrite Forall_forall in Gi. intros r Ir. apply ends_ref. auto.
    + apply ends_list. intros r Ir. apply ends_ref. auto.
    + apply ends_list. intros a I. apply ends_reg; [apply reg_exists|]; auto.
  - rewrite Forall_forall in GO. apply ends_list. intros e I. specialize (GO e I). rewrite Forall_forall in GO. apply ends_seq; [apply ends_put|]. apply ends_list.
    intros p Ip. specialize (GO p Ip). destruct p as [a|r|r|[r|]|[a|]]; cbn [put_param good_param] in *; try (exfalso; exact GO);
      (apply ends_seq; [apply ends_put|]); try (apply ends_ref); auto.
Qed.
Lemma bounded l n : NoDup l -> Forall (fun a => a < n) l -> List.length l <= n.
Proof.
  intros D F. rewrite <- (seq_length n 0). apply NoDup_incl_length; [auto|]. intros a I. rewrite Forall_forall in F. apply in_seq. specialize (F a I). lia.
Qed.
Lemma ends_ptr k a : exists_ a -> ends k (put_ptr heap k a).
Proof.
  revert a. induction k as [|k IH]; intros a [o Eo] s F L.
  - cbn [put_ptr]. destruct (index_of a (seen s)) as [n|] eqn:E; [exists [TObj n], s; split; [auto|]; split; [auto|apply extends_refl]|].
    exfalso. destruct F as [F1 F2]. apply index_none in E. assert (a < List.length heap) by (apply nth_error_Some; congruence).
    assert (B : List.length (a :: seen s) <= List.length heap) by (apply bounded; constructor; auto). simpl in B. lia.
  - cbn [put_ptr]. destruct (index_of a (seen s)) as [n|] eqn:E; [exists [TObj n], s; split; [auto|]; split; [auto|apply extends_refl]|].
    rewrite Eo. assert (La : a < List.length heap) by (apply nth_error_Some; congruence). apply index_none in E. destruct F as [F1 F2].
    assert (GO : good_obj heap o) by (destruct G as [G1 _]; rewrite Forall_forall in G1; apply G1; eapply nth_error_In; eauto).
    destruct (ends_seq k (put (TObj (List.length (seen s)))) (put_members heap (put_ptr heap k) o) (ends_put _ _)
               (ends_members k (put_ptr heap k) o IH GO) (WState (seen s ++ [a]) (sent s))) as (u & s' & E' & F' & X).
    + split; cbn [seen].
      * rewrite <- (rev_involutive (seen s ++ [a])). apply NoDup_rev. rewrite rev_app_distr. simpl. constructor.
        -- rewrite <- in_rev. auto.
        -- now apply NoDup_rev.
      * apply Forall_app. auto.
    + cbn [seen]. rewrite app_length. simpl. lia.
    + exists u, s'. split; [auto|]. split; [auto|]. apply extends_trans with (WState (seen s ++ [a]) (sent s)); [exists [a]; reflexivity|auto].
Qed.
Lemma ends_map m : good_layers heap m -> ends (List.length heap) (put_map heap m).
Proof.
  intros ((G1 & _) & (G2 & _) & (G3 & _) & (G4 & _) & (G5 & _) & G6 & _). unfold put_map.
  rewrite Forall_map in G2, G3, G5. rewrite Forall_forall in G1, G2, G3, G4, G5, G6.
  repeat apply ends_seq; apply ends_list; intros x I; try apply ends_ref; try (apply ends_ptr; auto).
  apply ends_reg; [apply reg_exists; auto|]. apply ends_ptr. auto.
Qed.
End Write.
