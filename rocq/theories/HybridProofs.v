(** Proofs about HybridMap. *)
From Coq Require Import List Arith Bool String Ascii NArith Lia Sorting.Sorted.
From stdpp Require Import gmap strings sorting.
From Verif Require Import HybridModel HybridSpec.
Import ListNotations.
Local Open Scope nat_scope.

Lemma c_str_id k : no_nul k = true -> c_str k = k.
Proof.
  induction k as [|c k IH]; simpl; auto. rewrite andb_true_iff, negb_true_iff.
  intros [E H]. rewrite E, IH; auto.
Qed.

(** * The order of keys *)
Definition slt (a b : string) : Prop := String.ltb a b = true.

Lemma slt_compare a b : slt a b <-> String.compare a b = Lt.
Proof. unfold slt, String.ltb. destruct (String.compare a b); split; congruence. Qed.

Lemma ascii_compare_spec a b : Ascii.compare a b = N.compare (N_of_ascii a) (N_of_ascii b).
Proof. reflexivity. Qed.

Lemma slt_trans a b c : slt a b -> slt b c -> slt a c.
Proof.
  rewrite !slt_compare. revert b c. induction a as [|x a IH]; intros [|y b] [|z c]; simpl; try congruence.
  rewrite !ascii_compare_spec.
  destruct (N.compare_spec (N_of_ascii x) (N_of_ascii y)), (N.compare_spec (N_of_ascii y) (N_of_ascii z)),
    (N.compare_spec (N_of_ascii x) (N_of_ascii z)); try lia; try congruence; eauto.
Qed.

Lemma slt_irrefl a : ~ slt a a.
Proof.
  rewrite slt_compare. induction a as [|x a IH]; simpl; try congruence.
  rewrite ascii_compare_spec, N.compare_refl. auto.
Qed.

Lemma slt_total a b : slt a b \/ a = b \/ slt b a.
Proof.
  rewrite !slt_compare. rewrite (String.compare_antisym b a). destruct (String.compare a b) eqn:E; auto.
  all: simpl; try (apply String.compare_eq_iff in E); auto.
Qed.

Section Hybrid.
Context {V : Type} `{EqDecision V}.
Implicit Types m : list (HybridModel.node V).
Variable dflt : V.
Variable veqb : V -> V -> bool.
Hypothesis veqb_eq : forall a b, veqb a b = true <-> a = b.
Variable table : list (string * nat).
Notation node := (node V). Notation hmap := (hmap V). Notation world := (world V).

Definition name (e : nat) : option string := option_map fst (find_value table e).

(** Names and enum values of the table are unique, names have no NUL. *)
Fixpoint nodupb {A} (eqb : A -> A -> bool) (l : list A) : bool :=
  match l with [] => true | x :: r => negb (existsb (eqb x) r) && nodupb eqb r end.
Definition table_ok : bool :=
  forallb (fun p => no_nul (fst p)) table && nodupb String.eqb (map fst table) && nodupb Nat.eqb (map snd table).
Hypothesis TOK : table_ok = true.

Lemma nodupb_spec {A} (eqb : A -> A -> bool) (E : forall x y, eqb x y = true <-> x = y) l :
  nodupb eqb l = true -> List.NoDup l.
Proof.
  induction l as [|x l IH]; simpl; [constructor|]. rewrite andb_true_iff, negb_true_iff. intros [N H].
  constructor; auto. intros I. assert (existsb (eqb x) l = true); [|congruence].
  apply existsb_exists. exists x. split; auto. apply E. auto.
Qed.

Lemma table_names : List.NoDup (map fst table).
Proof.
  unfold table_ok in TOK. apply andb_true_iff in TOK as [H _]. apply andb_true_iff in H as [_ H].
  eapply nodupb_spec; eauto. apply String.eqb_eq.
Qed.
Lemma table_enums : List.NoDup (map snd table).
Proof.
  unfold table_ok in TOK. apply andb_true_iff in TOK as [_ H].
  eapply nodupb_spec; eauto. apply Nat.eqb_eq.
Qed.
Lemma table_nul p : In p table -> no_nul (fst p) = true.
Proof.
  unfold table_ok in TOK. apply andb_true_iff in TOK as [H _]. apply andb_true_iff in H as [H _].
  rewrite forallb_forall in H. apply H.
Qed.

Lemma nodup_map_inj {A B} (f : A -> B) l a b : List.NoDup (map f l) -> In a l -> In b l -> f a = f b -> a = b.
Proof.
  induction l as [|c l IH]; simpl; [tauto|]. intros N Ha Hb E. inversion N as [|? ? N1 N2]; subst.
  destruct Ha as [->|Ha], Hb as [->|Hb]; auto; exfalso; apply N1.
  - rewrite E. apply in_map. auto.
  - rewrite <- E. apply in_map. auto.
Qed.

Lemma name_in e k : name e = Some k <-> In (k, e) table.
Proof.
  unfold name, find_value. split.
  - destruct (find _ table) as [[k' e']|] eqn:F; simpl; [|discriminate]. intros [= <-].
    apply find_some in F as [I E]. simpl in E. apply Nat.eqb_eq in E. subst. auto.
  - intros I. destruct (find (fun p => Nat.eqb (snd p) e) table) as [[k' e']|] eqn:F; simpl.
    + apply find_some in F as [I' E]. simpl in E. apply Nat.eqb_eq in E. subst e'.
      assert (X : (k', e) = (k, e)) by (eapply nodup_map_inj; eauto using table_enums; auto).
      inversion X; auto.
    + exfalso. eapply find_none in F; eauto. simpl in F. rewrite Nat.eqb_refl in F. discriminate.
Qed.

Lemma name_inj e e' k : name e = Some k -> name e' = Some k -> e = e'.
Proof.
  rewrite !name_in. intros A B.
  assert (X : (k, e) = (k, e')) by (eapply nodup_map_inj; eauto using table_names; auto). inversion X; auto.
Qed.

Lemma find_name_spec k : no_nul k = true ->
  match find_name table k with
  | Some (_, e) => name e = Some k
  | None => forall e, name e <> Some k
  end.
Proof.
  intros NN. unfold find_name. rewrite c_str_id by auto.
  destruct (find _ table) as [[k' e]|] eqn:F.
  - apply find_some in F as [I E]. simpl in E. apply String.eqb_eq in E. subst. apply name_in. auto.
  - intros e N. apply name_in in N. eapply find_none in F; eauto. simpl in F.
    rewrite String.eqb_refl in F. discriminate.
Qed.

(** * Lists of nodes *)
Definition pairs (m : list node) : list (string * V) := map (fun n => (n_key n, n_val n)) m.
Definition content (m : list node) : gmap string V := list_to_map (pairs m).

Record mok (nxt : nat) (m : list node) : Prop := {
  mk_sorted : StronglySorted slt (map n_key m);
  mk_ids : List.NoDup (map n_id m);
  mk_lt : forall n, In n m -> n_id n < nxt }.

Lemma sorted_nodup (l : list string) : StronglySorted slt l -> List.NoDup l.
Proof.
  induction 1 as [|a l S IH F]; constructor; auto. intros I.
  rewrite List.Forall_forall in F. apply F in I. eapply slt_irrefl; eauto.
Qed.

Lemma mk_keys nxt m : mok nxt m -> List.NoDup (map n_key m).
Proof. intros [S _ _]. apply sorted_nodup. auto. Qed.

Lemma mfind_in x m n : List.NoDup (map n_key m) -> In n m -> mfind x m (n_key n) = INode (n_id n).
Proof.
  induction m as [|a m IH]; simpl; [tauto|]. intros N I. inversion N as [|? ? N1 N2]; subst.
  destruct (String.eqb (n_key a) (n_key n)) eqn:E.
  - apply String.eqb_eq in E. destruct I as [->|I]; auto. exfalso. apply N1. rewrite E. apply in_map. auto.
  - destruct I as [->|I]; auto. rewrite String.eqb_refl in E. discriminate.
Qed.

Lemma mfind_cases x m k : (exists n, In n m /\ n_key n = k /\ mfind x m k = INode (n_id n)) \/
  (~ In k (map n_key m) /\ mfind x m k = IEnd x).
Proof.
  induction m as [|a m IH]; simpl; auto.
  destruct (String.eqb (n_key a) k) eqn:E.
  - apply String.eqb_eq in E. left. exists a. auto.
  - apply String.eqb_neq in E. destruct IH as [(n & I & K & F)|[N F]].
    + left. exists n. auto.
    + right. split; auto. intros [A|A]; auto.
Qed.

Lemma mderef_in m n : List.NoDup (map n_id m) -> In n m -> mderef m (INode (n_id n)) = Some n.
Proof.
  intros N I. simpl. destruct (find _ m) as [n'|] eqn:F.
  - apply find_some in F as [I' E]. apply Nat.eqb_eq in E. f_equal. eapply nodup_map_inj; eauto.
  - eapply find_none in F; eauto. simpl in F. rewrite Nat.eqb_refl in F. discriminate.
Qed.

Lemma pairs_fst m : map fst (pairs m) = map n_key m.
Proof. unfold pairs. rewrite map_map. auto. Qed.

Lemma NoDup_fst m : List.NoDup (map n_key m) -> NoDup (pairs m).*1.
Proof. rewrite <- pairs_fst. intros H. apply NoDup_ListNoDup. exact H. Qed.

Lemma content_in nxt m n : mok nxt m -> In n m -> content m !! n_key n = Some (n_val n).
Proof.
  intros M I. unfold content. apply elem_of_list_to_map_1.
  - apply NoDup_fst. eapply mk_keys; eauto.
  - apply elem_of_list_In. unfold pairs. apply in_map_iff. exists n. auto.
Qed.

Lemma content_none m k : ~ In k (map n_key m) -> content m !! k = None.
Proof.
  intros N. apply not_elem_of_list_to_map_1. rewrite <- pairs_fst in N. intros E. apply N.
  apply elem_of_list_In. exact E.
Qed.

(** The two ways of finding agree with the contents. *)
Lemma find_content nxt x m k : mok nxt m ->
  (exists n, In n m /\ n_key n = k /\ mfind x m k = INode (n_id n) /\ mderef m (mfind x m k) = Some n /\
     content m !! k = Some (n_val n)) \/
  (mfind x m k = IEnd x /\ content m !! k = None /\ ~ In k (map n_key m)).
Proof.
  intros M. destruct (mfind_cases x m k) as [(n & I & K & F)|[N F]].
  - left. exists n. split; auto. split; auto. split; auto. split.
    + rewrite F. apply mderef_in; auto. apply M.
    + subst k. eapply content_in; eauto.
  - right. split; auto. split; auto. apply content_none; auto.
Qed.

(** * Insertion *)
Lemma minsert_in (n : node) m a : In a (minsert n m) <-> a = n \/ In a m.
Proof.
  induction m as [|b m IH]; simpl; [intuition|].
  destruct (String.ltb (n_key n) (n_key b)); simpl; [intuition|]. rewrite IH. intuition.
Qed.

Lemma minsert_keys_in (n : node) m k : In k (map n_key (minsert n m)) <-> k = n_key n \/ In k (map n_key m).
Proof.
  rewrite !in_map_iff. split.
  - intros (a & <- & I). apply minsert_in in I as [->|I]; auto. right. eauto.
  - intros [->|(a & <- & I)]; eexists; (split; [reflexivity|]); apply minsert_in; auto.
Qed.

Lemma minsert_sorted (n : node) m : StronglySorted slt (map n_key m) -> ~ In (n_key n) (map n_key m) ->
  StronglySorted slt (map n_key (minsert n m)).
Proof.
  induction m as [|b m IH]; simpl; intros S N.
  - constructor; constructor.
  - inversion S as [|? ? S1 S2]; subst. destruct (String.ltb (n_key n) (n_key b)) eqn:E.
    + simpl. constructor; auto. constructor; auto. rewrite List.Forall_forall in *. intros k I.
      eapply slt_trans; [exact E|]. auto.
    + simpl. constructor; [apply IH; auto|]. rewrite List.Forall_forall in *. intros k I.
      apply minsert_keys_in in I as [->|I]; auto.
      destruct (slt_total (n_key n) (n_key b)) as [C|[C|C]]; auto.
      * unfold slt in C. congruence.
      * exfalso. apply N. auto.
Qed.

Lemma minsert_ids (n : node) m : List.NoDup (map n_id m) -> ~ In (n_id n) (map n_id m) -> List.NoDup (map n_id (minsert n m)).
Proof.
  induction m as [|b m IH]; simpl; intros S N.
  - constructor; auto.
  - inversion S as [|? ? S1 S2]; subst. destruct (String.ltb (n_key n) (n_key b)); simpl.
    + constructor; auto.
    + constructor; [|apply IH; auto]. intros I. apply in_map_iff in I as (a & E & I).
      apply minsert_in in I as [->|I]; auto. apply S1. rewrite <- E. apply in_map. auto.
Qed.

Lemma minsert_mok nxt m k v : mok nxt m -> ~ In k (map n_key m) -> mok (S nxt) (minsert (Node k nxt v) m).
Proof.
  intros [S I L] N. constructor.
  - apply minsert_sorted; auto.
  - apply minsert_ids; auto. simpl. intros A. apply in_map_iff in A as (a & E & A). apply L in A. lia.
  - intros n A. apply minsert_in in A as [->|A]; simpl; [lia|]. apply L in A. lia.
Qed.

Lemma content_ext nxt m g : mok nxt m ->
  (forall k, match g !! k with
             | Some v => exists n, In n m /\ n_key n = k /\ n_val n = v
             | None => ~ In k (map n_key m)
             end) -> content m = g.
Proof.
  intros M H. apply map_eq. intros k. specialize (H k). destruct (g !! k) as [v|].
  - destruct H as (n & I & <- & <-). eapply content_in; eauto.
  - apply content_none; auto.
Qed.

Lemma content_insert nxt m k v : mok nxt m -> ~ In k (map n_key m) ->
  content (minsert (Node k nxt v) m) = <[k := v]> (content m).
Proof.
  intros M N. eapply content_ext; [apply minsert_mok; eauto|]. intros k'.
  destruct (decide (k = k')) as [<-|D].
  - rewrite lookup_insert. exists (Node k nxt v). rewrite minsert_in. auto.
  - rewrite lookup_insert_ne by auto. destruct (find_content nxt 0 m k' M) as [(n & I & K & _ & _ & C)|(_ & C & NI)].
    + rewrite C. exists n. rewrite minsert_in. auto.
    + rewrite C. rewrite minsert_keys_in. simpl. intros [E|E]; auto.
Qed.

Lemma mfind_insert nxt x m k v k' : mok nxt m -> ~ In k (map n_key m) ->
  mfind x (minsert (Node k nxt v) m) k' = if String.eqb k k' then INode nxt else mfind x m k'.
Proof.
  intros M N. assert (M' := minsert_mok nxt m k v M N). assert (KD := mk_keys _ _ M').
  destruct (String.eqb k k') eqn:E.
  - apply String.eqb_eq in E. subst k'. apply (mfind_in x _ (Node k nxt v)); auto. apply minsert_in. auto.
  - apply String.eqb_neq in E. destruct (mfind_cases x m k') as [(n & I & <- & F)|[NI F]]; rewrite F.
    + apply mfind_in; auto. apply minsert_in. auto.
    + destruct (mfind_cases x (minsert (Node k nxt v) m) k') as [(n & I & K & F')|[_ F']]; auto.
      exfalso. apply minsert_in in I as [->|I]; simpl in K; auto. apply NI. subst k'. apply in_map. auto.
Qed.

(** * Removal *)
Definition drop (i : nat) (m : list node) : list node := List.filter (fun a => negb (Nat.eqb (n_id a) i)) m.

Lemma drop_in i m a : In a (drop i m) <-> In a m /\ n_id a <> i.
Proof. unfold drop. rewrite filter_In, negb_true_iff, Nat.eqb_neq. tauto. Qed.

Lemma drop_mok nxt i m : mok nxt m -> mok nxt (drop i m).
Proof.
  intros [S I L]. constructor.
  - clear -S. induction m as [|a m IH]; simpl; [constructor|]. inversion S as [|? ? S1 S2]; subst.
    destruct (negb (Nat.eqb (n_id a) i)); auto. simpl. constructor; auto.
    rewrite List.Forall_forall in *. intros k K. apply S2. apply in_map_iff in K as (b & <- & B).
    apply drop_in in B as [B _]. apply in_map. auto.
  - clear -I. induction m as [|a m IH]; simpl; [constructor|]. inversion I as [|? ? S1 S2]; subst.
    destruct (negb (Nat.eqb (n_id a) i)); auto. simpl. constructor; auto.
    intros K. apply S1. apply in_map_iff in K as (b & E & B). rewrite <- E. apply drop_in in B as [B _]. apply in_map; auto.
  - intros n A. apply drop_in in A as [A _]. auto.
Qed.

Lemma drop_key nxt m n k : mok nxt m -> In n m -> In k (map n_key (drop (n_id n) m)) <-> In k (map n_key m) /\ k <> n_key n.
Proof.
  intros M I. assert (KD := mk_keys _ _ M). rewrite !in_map_iff. split.
  - intros (a & <- & A). apply drop_in in A as [A B]. split; [eauto|]. intros E. apply B.
    f_equal. eapply nodup_map_inj; eauto.
  - intros [(a & <- & A) B]. exists a. split; auto. apply drop_in. split; auto. intros E. apply B. f_equal.
    eapply (nodup_map_inj n_id); eauto. apply M.
Qed.

Lemma content_drop nxt m n : mok nxt m -> In n m -> content (drop (n_id n) m) = delete (n_key n) (content m).
Proof.
  intros M I. eapply content_ext; [apply drop_mok; eauto|]. intros k.
  destruct (decide (n_key n = k)) as [<-|D].
  - rewrite lookup_delete. rewrite (drop_key nxt) by auto. tauto.
  - rewrite lookup_delete_ne by auto. destruct (find_content nxt 0 m k M) as [(a & A & K & _ & _ & C)|(_ & C & NI)]; rewrite C.
    + exists a. split; auto. apply drop_in. split; auto. intros E. apply D. rewrite <- K. f_equal.
      symmetry. eapply (nodup_map_inj n_id); eauto. apply M.
    + rewrite (drop_key nxt) by auto. tauto.
Qed.

Lemma mfind_drop nxt x m n k : mok nxt m -> In n m ->
  mfind x (drop (n_id n) m) k = if String.eqb (n_key n) k then IEnd x else mfind x m k.
Proof.
  intros M I. assert (M' := drop_mok nxt (n_id n) m M). assert (KD := mk_keys _ _ M').
  destruct (mfind_cases x (drop (n_id n) m) k) as [(a & A & K & F)|[N F]]; rewrite F.
  - apply drop_in in A as [A B]. destruct (String.eqb (n_key n) k) eqn:E.
    + apply String.eqb_eq in E. exfalso. apply B. f_equal. apply (nodup_map_inj n_key m a n); eauto using mk_keys; congruence.
    + subst k. symmetry. apply mfind_in; auto. eapply mk_keys; eauto.
  - destruct (String.eqb (n_key n) k) eqn:E; auto. apply String.eqb_neq in E.
    destruct (mfind_cases x m k) as [(a & A & K & F')|[_ F']]; auto.
    exfalso. apply N. rewrite (drop_key nxt) by auto. split; auto. subst k. apply in_map. auto.
Qed.

(** * Assignment *)
Definition assign (i : nat) (v : V) (m : list node) : list node :=
  map (fun a => if Nat.eqb (n_id a) i then Node (n_key a) (n_id a) v else a) m.
Lemma assign_keys i v m : map n_key (assign i v m) = map n_key m.
Proof. unfold assign. rewrite map_map. apply map_ext. intros a. destruct (Nat.eqb (n_id a) i); auto. Qed.
Lemma assign_ids i v m : map n_id (assign i v m) = map n_id m.
Proof. unfold assign. rewrite map_map. apply map_ext. intros a. destruct (Nat.eqb (n_id a) i); auto. Qed.
Lemma assign_mok nxt i v m : mok nxt m -> mok nxt (assign i v m).
Proof.
  intros [S I L]. constructor; rewrite ?assign_keys, ?assign_ids; auto.
  intros n A. apply in_map_iff in A as (a & <- & A). apply L in A. destruct (Nat.eqb (n_id a) i); auto.
Qed.
Lemma mfind_assign x i v m k : mfind x (assign i v m) k = mfind x m k.
Proof.
  induction m as [|a m IH]; simpl; auto.
  destruct (Nat.eqb (n_id a) i); simpl; destruct (String.eqb (n_key a) k); auto.
Qed.
Lemma content_assign nxt m n v : mok nxt m -> In n m -> content (assign (n_id n) v m) = <[n_key n := v]> (content m).
Proof.
  intros M I. eapply content_ext; [apply assign_mok; eauto|]. intros k.
  destruct (decide (n_key n = k)) as [<-|D].
  - rewrite lookup_insert. exists (Node (n_key n) (n_id n) v). split; auto. unfold assign. apply in_map_iff.
    exists n. rewrite Nat.eqb_refl. auto.
  - rewrite lookup_insert_ne by auto. destruct (find_content nxt 0 m k M) as [(a & A & K & _ & _ & C)|(_ & C & NI)]; rewrite C.
    + exists a. split; auto. unfold assign. apply in_map_iff. exists a. split; auto.
      assert (Nat.eqb (n_id a) (n_id n) = false) as ->; auto. apply Nat.eqb_neq. intros E. apply D. rewrite <- K. f_equal.
      symmetry. eapply (nodup_map_inj n_id); eauto. apply M.
    + rewrite assign_keys. auto.
Qed.

(** * Copies *)
Lemma copy_keys i m : map n_key (copy_nodes (V:=V) i m) = map n_key m.
Proof. revert i. induction m as [|a m IH]; intros i; simpl; auto. rewrite IH. auto. Qed.
Lemma copy_pairs i m : pairs (copy_nodes (V:=V) i m) = pairs m.
Proof. revert i. induction m as [|a m IH]; intros i; simpl; auto. rewrite IH. auto. Qed.
Lemma copy_content i m : content (copy_nodes (V:=V) i m) = content m.
Proof. unfold content. rewrite copy_pairs. auto. Qed.
Lemma copy_bounds i m n : In n (copy_nodes (V:=V) i m) -> i <= n_id n < i + List.length m.
Proof.
  revert i. induction m as [|a m IH]; intros i; simpl; [tauto|]. intros [<-|I]; simpl; [lia|].
  apply IH in I. lia.
Qed.
Lemma copy_mok i m : StronglySorted slt (map n_key m) -> mok (i + List.length m) (copy_nodes i m).
Proof.
  intros S. constructor.
  - rewrite copy_keys. auto.
  - clear S. revert i. induction m as [|a m IH]; intros i; simpl; constructor; auto.
    intros I. apply in_map_iff in I as (b & E & I). apply copy_bounds in I. lia.
  - intros n I. apply copy_bounds in I. lia.
Qed.

Lemma mok_le a b m : a <= b -> mok a m -> mok b m.
Proof. intros L [S I K]. constructor; auto. intros n A. apply K in A. lia. Qed.

(** * The vector of iterators *)
Definition vok (x : nat) (h : hmap) : Prop :=
  forall e, nth e (h_v h) (IEnd x) = match name e with Some k => mfind x (h_m h) k | None => IEnd x end.

Definition hok (nxt x : nat) (h : hmap) : Prop := mok nxt (h_m h) /\ vok x h.
Definition wok (w : world) : Prop := forall x, hok (w_next w) x (w_obj w x).
Definition rep (w : world) (s : smaps) : Prop := forall x, content (h_m (w_obj w x)) = s x.

Lemma itr_eqb_iff a b : itr_eqb a b = true <-> a = b.
Proof. destruct a, b; simpl; rewrite ?Nat.eqb_eq; split; congruence. Qed.

Lemma nth_vput it fill : forall v i e, nth e (vput v i it fill) fill = if Nat.eqb e i then it else nth e v fill.
Proof.
  intros v i. revert v. induction i as [|i IH]; intros v e.
  - destruct v as [|a v]; destruct e as [|e]; simpl; auto. destruct e; auto.
  - destruct v as [|a v]; destruct e as [|e]; simpl; auto; rewrite IH; auto. destruct e; auto.
Qed.

Lemma update_v_ok x h k it m' : no_nul k = true -> vok x h ->
  (forall k', mfind x m' k' = if String.eqb k k' then it else mfind x (h_m h) k') ->
  vok x (HMap m' (update_v table x k it (h_v h))).
Proof.
  intros NN V' F e. cbn [h_v h_m]. unfold update_v. assert (S := find_name_spec k NN).
  destruct (find_name table k) as [[k0 i]|].
  - rewrite nth_vput. destruct (Nat.eqb e i) eqn:E.
    + apply Nat.eqb_eq in E. subst i. rewrite S, F, String.eqb_refl. auto.
    + rewrite V'. destruct (name e) as [k'|] eqn:N; auto. rewrite F.
      destruct (String.eqb k k') eqn:Q; auto. apply String.eqb_eq in Q. subst k'.
      assert (e = i) by (eapply name_inj; eauto). subst. rewrite Nat.eqb_refl in E. discriminate.
  - rewrite V'. destruct (name e) as [k'|] eqn:N; auto. rewrite F.
    destruct (String.eqb k k') eqn:Q; auto. apply String.eqb_eq in Q. subst k'. exfalso. eapply S; eauto.
Qed.

Lemma nth_vclear it fin : forall v,
  (forall e e', e < List.length v -> e' < List.length v -> nth e v fin = it -> nth e' v fin = it -> e = e') ->
  forall e, nth e (vclear v it fin) fin = if itr_eqb (nth e v fin) it then fin else nth e v fin.
Proof.
  induction v as [|a v IH]; intros U e.
  - destruct e; simpl; destruct (itr_eqb fin it); auto.
  - cbn [vclear]. destruct (itr_eqb a it) eqn:A.
    + apply itr_eqb_iff in A. subst a. destruct e as [|e]; simpl.
      * rewrite (proj2 (itr_eqb_iff it it) eq_refl). auto.
      * destruct (itr_eqb (nth e v fin) it) eqn:B; auto. apply itr_eqb_iff in B.
        destruct (Nat.lt_ge_cases e (List.length v)) as [L|L].
        -- exfalso. assert (0 = S e) by (apply U; simpl; auto; lia). lia.
        -- rewrite nth_overflow; auto.
    + destruct e as [|e]; simpl.
      * rewrite A. auto.
      * apply IH. intros e1 e2 L1 L2 E1 E2. assert (S e1 = S e2) by (apply U; simpl; auto; lia). lia.
Qed.

Lemma copy_iterators_ok nxt x y m m' : mok nxt m -> map n_key m' = map n_key m -> forall v f,
  (forall e, nth e v (IEnd y) = match f e with Some k => mfind y m k | None => IEnd y end) ->
  exists v', copy_iterators y x m m' v = Some v' /\
    forall e, nth e v' (IEnd x) = match f e with Some k => mfind x m' k | None => IEnd x end.
Proof.
  intros M KM. assert (KD := mk_keys _ _ M).
  assert (TR : forall k, mfind y m k = IEnd y -> mfind x m' k = IEnd x).
  { intros k E. destruct (mfind_cases y m k) as [(n & I & K & F)|[N F]]; [congruence|].
    destruct (mfind_cases x m' k) as [(n & I & K & F')|[_ F']]; auto.
    exfalso. apply N. rewrite <- KM. subst k. apply in_map. auto. }
  induction v as [|it v IH]; intros f H.
  - exists []. split; auto. intros e. specialize (H e). destruct (f e) as [k|]; [|destruct e; auto].
    transitivity (IEnd x); [destruct e; auto|]. symmetry. apply TR. rewrite <- H. destruct e; auto.
  - destruct (IH (fun e => f (S e))) as (v' & E & H').
    { intros e. exact (H (S e)). }
    cbn [copy_iterators]. rewrite E. assert (H0 := H 0). cbn [nth] in H0.
    destruct (itr_eqb it (IEnd y)) eqn:Q.
    + apply itr_eqb_iff in Q. eexists. split; [reflexivity|]. intros [|e]; cbn [nth]; auto.
      destruct (f 0) as [k|]; auto. symmetry. apply TR. congruence.
    + destruct (f 0) as [k|] eqn:F0.
      * destruct (find_content nxt y m k M) as [(n & I & K & F & D & _)|(F & _)].
        -- rewrite H0, D. eexists. split; [reflexivity|]. intros [|e]; cbn [nth]; auto. rewrite F0, K. auto.
        -- exfalso. rewrite H0, F in Q. rewrite (proj2 (itr_eqb_iff _ _) eq_refl) in Q. discriminate.
      * exfalso. rewrite H0 in Q. rewrite (proj2 (itr_eqb_iff _ _) eq_refl) in Q. discriminate.
Qed.

Lemma nth_replace x y : forall v e, nth e (replace_iterator v (IEnd y) (IEnd x)) (IEnd x) =
  if itr_eqb (nth e v (IEnd y)) (IEnd y) then IEnd x else nth e v (IEnd y).
Proof.
  induction v as [|a v IH]; intros [|e]; simpl; auto; rewrite Nat.eqb_refl; auto.
Qed.

Lemma mfind_other x y m k : mfind x m k = match mfind y m k with INode i => INode i | IEnd _ => IEnd x end.
Proof. induction m as [|a m IH]; simpl; auto. destruct (String.eqb (n_key a) k); auto. Qed.

(** * Single calls *)
Lemma wok_put w x h nxt : wok w -> w_next w <= nxt -> hok nxt x h -> wok (World (w_obj (put x h w)) nxt).
Proof.
  intros W L H y. cbn [w_obj w_next put]. destruct (Nat.eqb x y) eqn:E.
  - apply Nat.eqb_eq in E. subst. auto.
  - destruct (W y) as [A B]. split; auto. eapply mok_le; eauto.
Qed.

Lemma rep_put w s x h nxt g : rep w s -> content (h_m h) = g -> rep (World (w_obj (put x h w)) nxt) (sput x g s).
Proof. intros R E y. cbn [w_obj put]. unfold sput. destruct (Nat.eqb x y); auto. Qed.

Lemma hempty_ok nxt x : hok nxt x hempty.
Proof.
  split; [constructor; simpl; try constructor; tauto|]. intros e. simpl. destruct (name e); destruct e; auto.
Qed.

Lemma hinsert_ok w s x k v : wok w -> rep w s -> no_nul k = true ->
  exists w' it b, hinsert table w x k v = (w', (it, b)) /\ wok w' /\
    b = (match s x !! k with Some _ => false | None => true end) /\
    rep w' (match s x !! k with Some _ => s | None => sput x (<[k := v]> (s x)) s end) /\
    it = hfind w' x k /\ exists n, In n (h_m (w_obj w' x)) /\ n_key n = k /\ it = INode (n_id n).
Proof.
  intros W R NN. destruct (W x) as [M V']. unfold hinsert, hfind.
  destruct (find_content (w_next w) x (h_m (w_obj w x)) k M) as [(n & I & K & F & D & C)|(F & C & N)].
  - rewrite F. do 3 eexists. split; [reflexivity|]. split; auto.
    rewrite <- R, C. split; auto. split; auto. split; auto. exists n. auto.
  - rewrite F. do 3 eexists. split; [reflexivity|].
    assert (M' := minsert_mok _ _ k v M N).
    split.
    { apply wok_put; auto. split; auto. apply update_v_ok; auto. intros k'. apply mfind_insert; auto. }
    rewrite <- R, C. split; auto. split.
    { apply rep_put; auto. cbn [h_m]. rewrite <- ?(R x). apply content_insert; auto. }
    cbn [w_obj put]. rewrite Nat.eqb_refl. cbn [h_m]. split.
    + rewrite (mfind_insert (w_next w)) by auto. rewrite String.eqb_refl. auto.
    + exists (Node k (w_next w) v). split; auto. apply minsert_in. auto.
Qed.

Lemma hfind_enum_ok w x e : wok w ->
  hfind_enum w x e = match name e with Some k => hfind w x k | None => IEnd x end.
Proof. intros W. destruct (W x) as [_ V']. apply V'. Qed.

Lemma herase_ok w s x k : wok w -> rep w s ->
  match s x !! k with
  | Some _ => exists w', herase_it w x (hfind w x k) = Some w' /\ wok w' /\ rep w' (sput x (delete k (s x)) s) /\
                itr_eqb (hfind w x k) (IEnd x) = false
  | None => herase_it w x (hfind w x k) = None /\ hfind w x k = IEnd x
  end.
Proof.
  intros W R. destruct (W x) as [M V']. unfold herase_it, hfind. rewrite <- R.
  destruct (find_content (w_next w) x (h_m (w_obj w x)) k M) as [(n & I & K & F & D & C)|(F & C & N)].
  - rewrite C, D. eexists. split; [reflexivity|]. split; [|split].
    + apply wok_put; auto. split; [apply drop_mok; auto|]. intros e. cbn [h_v h_m].
      fold (drop (n_id n) (h_m (w_obj w x))). rewrite nth_vclear.
      * rewrite !V'. destruct (name e) as [k'|].
        -- rewrite (mfind_drop (w_next w)) by auto. rewrite F.
           destruct (itr_eqb (mfind x (h_m (w_obj w x)) k') (INode (n_id n))) eqn:Q.
           ++ apply itr_eqb_iff in Q. destruct (mfind_cases x (h_m (w_obj w x)) k') as [(a & A & KA & FA)|[_ FA]]; [|congruence].
              assert (a = n). { eapply (nodup_map_inj n_id); eauto; [apply M|congruence]. }
              subst a. rewrite KA, String.eqb_refl. auto.
           ++ destruct (String.eqb (n_key n) k') eqn:E; auto. apply String.eqb_eq in E. exfalso.
              rewrite <- E, K, F in Q. rewrite (proj2 (itr_eqb_iff _ _) eq_refl) in Q. discriminate.
        -- rewrite F. destruct (itr_eqb (IEnd x) (INode (n_id n))); auto.
      * intros e1 e2 _ _ E1 E2. rewrite V' in E1, E2. rewrite F in E1, E2.
        destruct (name e1) as [k1|] eqn:N1; [|discriminate]. destruct (name e2) as [k2|] eqn:N2; [|discriminate].
        destruct (mfind_cases x (h_m (w_obj w x)) k1) as [(a & A & KA & FA)|[_ FA]]; [|congruence].
        destruct (mfind_cases x (h_m (w_obj w x)) k2) as [(b & B & KB & FB)|[_ FB]]; [|congruence].
        assert (a = b). { eapply (nodup_map_inj n_id); eauto; [apply M|congruence]. }
        subst b. eapply name_inj; eauto. congruence.
    + apply rep_put; auto. cbn [h_m]. subst k. eapply content_drop; eauto.
    + rewrite F. auto.
  - rewrite C, F. simpl. auto.
Qed.

Lemma hset_ok w s x k v : wok w -> rep w s -> (exists n, In n (h_m (w_obj w x)) /\ n_key n = k) ->
  exists w', hset w x (hfind w x k) v = Some w' /\ wok w' /\ rep w' (sput x (<[k := v]> (s x)) s).
Proof.
  intros W R (n & I & K). destruct (W x) as [M V']. unfold hset, hfind. rewrite <- R.
  subst k. rewrite (mfind_in x) by (eauto using mk_keys). rewrite mderef_in by (auto; apply M).
  eexists. split; [reflexivity|].
  fold (assign (n_id n) v (h_m (w_obj w x))). split.
  - apply wok_put; auto. split; [apply assign_mok; auto|]. intros e. cbn [h_v h_m]. rewrite V'.
    destruct (name e); auto. rewrite mfind_assign. auto.
  - apply rep_put; auto. cbn [h_m]. eapply content_assign; eauto.
Qed.

Lemma hcopy_ok w s x y : wok w -> rep w s ->
  exists w', hcopy w x y = Some w' /\ wok w' /\ rep w' (sput x (s y) s).
Proof.
  intros W R. destruct (W y) as [M V']. unfold hcopy. cbv zeta.
  set (m' := if Nat.eqb x y then h_m (w_obj w y) else copy_nodes (w_next w) (h_m (w_obj w y))).
  assert (MK : map n_key m' = map n_key (h_m (w_obj w y))) by (unfold m'; destruct (Nat.eqb x y); auto using copy_keys).
  assert (MM : mok (w_next w + List.length (h_m (w_obj w y))) m').
  { unfold m'. destruct (Nat.eqb x y); [eapply mok_le; [|eauto]; lia|]. apply copy_mok. apply M. }
  assert (MC : content m' = s y).
  { rewrite <- R. unfold m'. destruct (Nat.eqb x y); auto using copy_content. }
  destruct (copy_iterators_ok (w_next w) x y (h_m (w_obj w y)) m' M MK (h_v (w_obj w y)) name V') as (v' & -> & H).
  eexists. split; [reflexivity|]. split.
  - apply wok_put; auto; [lia|]. split; auto.
  - apply rep_put; auto.
Qed.

Lemma hmove_ok w s x y : wok w -> rep w s -> x <> y ->
  exists w', hmove w x y = Some w' /\ wok w' /\ rep w' (sput y ∅ (sput x (s y) s)).
Proof.
  intros W R N. unfold hmove. rewrite (proj2 (Nat.eqb_neq x y) N). destruct (W y) as [M V'].
  eexists. split; [reflexivity|]. split.
  - apply (wok_put (put x _ w) y hempty (w_next w)); cbn [put w_next]; auto; [|apply hempty_ok].
    apply (wok_put w x _ (w_next w)); auto. split; auto. intros e. cbn [h_v h_m]. rewrite nth_replace, !V'.
    destruct (name e) as [k|].
    + rewrite (mfind_other x y). destruct (mfind_cases y (h_m (w_obj w y)) k) as [(n & I & K & F)|[_ F]]; rewrite F; simpl; auto.
      rewrite Nat.eqb_refl. auto.
    + simpl. rewrite Nat.eqb_refl. auto.
  - apply (rep_put (put x _ w) (sput x (s y) s) y hempty (w_next w) ∅); auto.
    apply (rep_put w s x _ (w_next w)); auto. apply R.
Qed.

(** Equality of maps is equality of contents. *)
Lemma meqb_iff : forall m m', meqb veqb m m' = true <-> pairs m = pairs m'.
Proof.
  induction m as [|a m IH]; intros [|b m']; simpl; try (split; congruence).
  rewrite !andb_true_iff, String.eqb_eq, veqb_eq, IH. split; [intros [[-> ->] ->]; auto|].
  intros E. inversion E; auto.
Qed.

Lemma sorted_content nxt nxt' m m' : mok nxt m -> mok nxt' m' -> content m = content m' -> pairs m = pairs m'.
Proof.
  intros M M' E.
  assert (P : pairs m ≡ₚ pairs m').
  { apply list_to_map_inj; auto; apply NoDup_fst; eapply mk_keys; eauto. }
  assert (SP : forall l : list (string * V), StronglySorted slt (map fst l) -> StronglySorted (fun a b => slt (fst a) (fst b)) l).
  { clear. induction l as [|a l IH]; simpl; intros S; constructor; inversion S as [|? ? S1 S2]; subst; auto.
    rewrite List.Forall_forall in *. intros b B. apply S2. apply in_map. auto. }
  assert (S1 := mk_sorted _ _ M). assert (S2 := mk_sorted _ _ M'). rewrite <- pairs_fst in S1, S2.
  apply SP in S1. apply SP in S2.
  assert (AS : AntiSymm (=) (fun a b : string * V => slt (fst a) (fst b))).
  { intros a b A B. exfalso. eapply slt_irrefl. eapply slt_trans; eauto. }
  eapply (StronglySorted_unique (fun a b => slt (fst a) (fst b))); eauto.
Qed.

Lemma content_size nxt m : mok nxt m -> size (content m) = List.length m.
Proof.
  intros M. unfold content. assert (K := NoDup_fst _ (mk_keys _ _ M)).
  assert (L : List.length m = List.length (pairs m)) by (unfold pairs; rewrite map_length; auto).
  rewrite L. clear -K. induction (pairs m) as [|[k v] l IH]; [reflexivity|].
  cbn [list_to_map foldr] in *. rewrite fmap_cons in K. apply NoDup_cons in K as [N K]. simpl.
  rewrite map_size_insert_None; [rewrite IH; auto|]. apply not_elem_of_list_to_map_1. exact N.
Qed.

(** * Histories *)
Definition run_op (o : hop V) (w : world) : option (world * hout V) :=
  match o with
  | HInsert x k v => let '(w', (_, b)) := hinsert table w x k v in Some (w', RBool b)
  | HInsertHint x k v => Some (fst (hinsert_hint table w x k v), RNone)
  | HErase x k => match herase w x k with Some (w', n) => Some (w', RNat n) | None => None end
  | HEraseFound x k => match herase_it w x (hfind w x k) with Some w' => Some (w', RNone) | None => None end
  | HEraseFoundEnum x e => match herase_it w x (hfind_enum w x e) with Some w' => Some (w', RNone) | None => None end
  | HSet x k v =>
    let '(w1, it) := hindex dflt table w x k in
    match hset w1 x it v with Some w' => Some (w', RNone) | None => None end
  | HSetEnum x e v =>
    match hindex_enum dflt table w x e with
    | None => None
    | Some (w1, it) => match hset w1 x it v with Some w' => Some (w', RNone) | None => None end
    end
  | HAt x k => match hat w x k with Some r => Some (w, RVal r) | None => None end
  | HAtEnum x e => match hat_enum w x e with Some r => Some (w, RVal r) | None => None end
  | HClear x => Some (hclear w x, RNone)
  | HCopy x y => match hcopy w x y with Some w' => Some (w', RNone) | None => None end
  | HMove x y => match hmove w x y with Some w' => Some (w', RNone) | None => None end
  | HEqual x y => Some (w, RBool (heqb veqb w x y))
  | HSize x => Some (w, RNat (hsize w x))
  end.

Fixpoint run_ops (os : list (hop V)) (w : world) : option (world * list (hout V)) :=
  match os with
  | [] => Some (w, [])
  | o :: r =>
    match run_op o w with
    | None => None
    | Some (w', x) => match run_ops r w' with None => None | Some (w'', xs) => Some (w'', x :: xs) end
    end
  end.

Lemma hat_ok w s x k : wok w -> rep w s -> hat_it w x (hfind w x k) = Some (s x !! k).
Proof.
  intros W R. destruct (W x) as [M _]. unfold hat_it, hfind. rewrite <- R.
  destruct (find_content (w_next w) x (h_m (w_obj w x)) k M) as [(n & I & K & F & D & C)|(F & C & N)].
  - rewrite D, C, F. auto.
  - rewrite C, F. simpl. rewrite Nat.eqb_refl. auto.
Qed.

Lemma sput_id s x : forall y, sput (V:=V) x (s x) s y = s y.
Proof. intros y. unfold sput. destruct (Nat.eqb x y) eqn:E; auto. apply Nat.eqb_eq in E. subst; auto. Qed.

Lemma index_set w s x k v : wok w -> rep w s -> no_nul k = true ->
  exists w', (let '(w1, it) := hindex dflt table w x k in hset w1 x it v) = Some w' /\
    wok w' /\ rep w' (sput x (<[k := v]> (s x)) s).
Proof.
  intros W R NN. unfold hindex. destruct (W x) as [M _].
  destruct (find_content (w_next w) x (h_m (w_obj w x)) k M) as [(n & I & K & F & D & C)|(F & C & N)].
  - assert (itr_eqb (hfind w x k) (IEnd x) = false) as -> by (unfold hfind; rewrite F; auto).
    apply hset_ok; eauto.
  - assert (itr_eqb (hfind w x k) (IEnd x) = true) as -> by (unfold hfind; rewrite F; simpl; apply Nat.eqb_refl).
    destruct (hinsert_ok w s x k dflt W R NN) as (w1 & it & b & -> & W1 & _ & R1 & -> & n & I & K & _).
    rewrite <- (R x) in R1 at 1. rewrite C in R1.
    destruct (hset_ok w1 _ x k v W1 R1) as (w' & E & W' & R'); [eauto|].
    exists w'. split; auto. split; auto. intros y. rewrite (R' y). unfold sput. rewrite Nat.eqb_refl.
    destruct (Nat.eqb x y); auto. apply insert_insert.
Qed.

Lemma run_op_ok o w s : wok w -> rep w s -> (forall k, hop_key o = Some k -> no_nul k = true) ->
  match spec_op name o s with
  | None => run_op o w = None
  | Some (s', r) => exists w', run_op o w = Some (w', r) /\ wok w' /\ rep w' s'
  end.
Proof.
  intros W R NN. destruct o as [x k v|x k v|x k|x k|x e|x k v|x e v|x k|x e|x|x y|x y|x y|x]; cbn [spec_op run_op hop_key] in *.
  - destruct (hinsert_ok w s x k v W R (NN k eq_refl)) as (w' & it & b & -> & W' & -> & R' & _).
    destruct (s x !! k); eauto.
  - unfold hinsert_hint. destruct (W x) as [M V'].
    destruct (find_content (w_next w) x (h_m (w_obj w x)) k M) as [(n & I & K & F & D & C)|(F & C & N)].
    + rewrite F. rewrite <- (R x), C. cbn [fst]. eexists. split; [reflexivity|]. split.
      * apply (wok_put w x _ (w_next w)); auto. split; auto. apply update_v_ok; auto.
        intros k'. destruct (String.eqb k k') eqn:E; auto. apply String.eqb_eq in E. subst k'. auto.
      * intros y. cbn [put w_obj]. destruct (Nat.eqb x y) eqn:E; auto. apply Nat.eqb_eq in E. subst y. apply R.
    + rewrite F. destruct (hinsert_ok w s x k v W R (NN k eq_refl)) as (w' & it & b & -> & W' & _ & R' & _).
      rewrite <- (R x) in R'. rewrite C in R'. rewrite <- (R x), C. cbn [fst]. rewrite (R x) in *. eauto.
  - unfold herase. assert (H := herase_ok w s x k W R). destruct (s x !! k).
    + destruct H as (w' & E & W' & R' & NE). rewrite NE, E. eauto.
    + destruct H as [_ ->]. simpl. rewrite Nat.eqb_refl. eauto.
  - assert (H := herase_ok w s x k W R). destruct (s x !! k).
    + destruct H as (w' & E & W' & R' & NE). rewrite E. eauto.
    + destruct H as [-> _]. auto.
  - rewrite hfind_enum_ok by auto. destruct (name e) as [k|]; [|auto].
    assert (H := herase_ok w s x k W R). destruct (s x !! k).
    + destruct H as (w' & E & W' & R' & NE). rewrite E. eauto.
    + destruct H as [-> _]. auto.
  - destruct (index_set w s x k v W R (NN k eq_refl)) as (w' & E & W' & R').
    destruct (hindex dflt table w x k) as [w1 it]. rewrite E. eauto.
  - unfold hindex_enum. rewrite hfind_enum_ok by auto. cbv zeta. assert (NE : name e = option_map fst (find_value table e)) by reflexivity. rewrite NE.
    destruct (find_value table e) as [[k e0]|] eqn:FV; cbn [option_map fst].
    + assert (NK : no_nul k = true).
      { apply (table_nul (k, e)). apply name_in. unfold name. rewrite FV. auto. }
      destruct (index_set w s x k v W R NK) as (w' & E & W' & R'). unfold hindex in E.
      destruct (itr_eqb (hfind w x k) (IEnd x)).
      * destruct (hinsert table w x k dflt) as [w1 [it b]]. rewrite E. eauto.
      * rewrite E. eauto.
    + simpl. rewrite Nat.eqb_refl. auto.
  - unfold hat. rewrite (hat_ok w s) by auto. eauto.
  - unfold hat_enum. rewrite hfind_enum_ok by auto. destruct (name e) as [k|].
    + rewrite (hat_ok w s) by auto. eauto.
    + unfold hat_it. simpl. rewrite Nat.eqb_refl. eauto.
  - eexists. split; [reflexivity|]. split.
    + apply (wok_put w x hempty (w_next w)); auto. apply hempty_ok.
    + apply (rep_put w s x hempty (w_next w)); auto.
  - destruct (hcopy_ok w s x y W R) as (w' & -> & W' & R'). eauto.
  - destruct (Nat.eqb x y) eqn:E.
    + unfold hmove. rewrite E. auto.
    + apply Nat.eqb_neq in E. destruct (hmove_ok w s x y W R E) as (w' & -> & W' & R'). eauto.
  - exists w. split; auto. unfold heqb. do 3 f_equal.
    destruct (meqb veqb (h_m (w_obj w x)) (h_m (w_obj w y))) eqn:Q; symmetry.
    + apply bool_decide_eq_true. apply meqb_iff in Q. rewrite <- !R. unfold content. rewrite Q. auto.
    + apply bool_decide_eq_false. intros E. rewrite <- !R in E.
      destruct (W x) as [Mx _], (W y) as [My _].
      assert (P : pairs (h_m (w_obj w x)) = pairs (h_m (w_obj w y))) by (eapply sorted_content; eauto).
      apply meqb_iff in P. congruence.
  - exists w. split; auto. unfold hsize. rewrite <- R. destruct (W x) as [M _].
    rewrite (content_size _ _ M). auto.
Qed.

Lemma wok_world0 : wok world0.
Proof. intros x. apply hempty_ok. Qed.
Lemma rep_world0 : rep world0 (fun _ => ∅).
Proof. intros x. reflexivity. Qed.

Theorem run_ops_ok os : (forall o k, In o os -> hop_key o = Some k -> no_nul k = true) ->
  forall w s, wok w -> rep w s ->
  match spec_ops name os s with
  | None => run_ops os w = None
  | Some (s', rs) => exists w', run_ops os w = Some (w', rs) /\ wok w' /\ rep w' s'
  end.
Proof.
  induction os as [|o os IH]; intros NN w s W R; cbn [spec_ops run_ops].
  - eauto.
  - assert (H := run_op_ok o w s W R (fun k => NN o k (or_introl eq_refl))).
    destruct (spec_op name o s) as [[s' r]|].
    + destruct H as (w' & -> & W' & R').
      assert (H := IH (fun o' k I => NN o' k (or_intror I)) w' s' W' R').
      destruct (spec_ops name os s') as [[s'' rs]|].
      * destruct H as (w'' & -> & W'' & R''). eauto.
      * rewrite H. auto.
    + rewrite H. auto.
Qed.

(** In any reachable state. *)
Theorem world_facts w s x : wok w -> rep w s ->
  (forall e k, In (k, e) table -> hfind_enum w x e = hfind w x k) /\
  (forall e, ~ In e (map snd table) -> hfind_enum w x e = IEnd x) /\
  (forall k v, s x !! k = Some v <-> In (k, v) (hlist w x)) /\
  StronglySorted slt (map fst (hlist w x)).
Proof.
  intros W R. destruct (W x) as [M V']. split; [|split; [|split]].
  - intros e k I. rewrite hfind_enum_ok by auto. apply name_in in I. rewrite I. auto.
  - intros e N. rewrite hfind_enum_ok by auto. destruct (name e) as [k|] eqn:E; auto.
    apply name_in in E. exfalso. apply N. apply in_map_iff. exists (k, e). auto.
  - intros k v. rewrite <- R. unfold hlist. fold (pairs (h_m (w_obj w x))).
    rewrite <- elem_of_list_In. unfold content. split.
    + apply elem_of_list_to_map_2.
    + apply elem_of_list_to_map_1. apply NoDup_fst. eapply mk_keys; eauto.
  - unfold hlist. fold (pairs (h_m (w_obj w x))). rewrite pairs_fst. apply M.
Qed.
End Hybrid.
