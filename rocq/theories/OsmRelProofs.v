(** Proofs about the members of relations: placeholders, their removal and resolution. *)
From Coq Require Import List Arith Bool String Ascii ZArith Sorted Lia.
From Verif Require Import OsmModel OsmSpec OsmProofs.
Import ListNotations.
Local Open Scope string_scope.
Local Open Scope list_scope.

Definition nulls (s : list slot) : list nat := map fst (filter (fun x : slot => is_null (snd (snd x))) s).
(** Slots with the null pointers replaced in order. *)
Fixpoint expected (ex : Z -> bool) (s : list (string * ref)) (p : list Z) : list (string * ref) :=
  match s with
  | [] => []
  | x :: r =>
    if is_null (snd x) then
      match p with
      | [] => x :: expected ex r []
      | i :: q => if ex i then (fst x, RRel i) :: expected ex r q else expected ex r q
      end
    else x :: expected ex r p
  end.
Definition pend (k : Z) (un : list unresolved) : list unresolved := filter (fun u => Z.eqb (u_rel u) k) un.
Definition good ex (s : list slot) (p : list unresolved) (t : list (string * ref)) : Prop :=
  List.NoDup (map fst s) /\ nulls s = map u_loc p /\ expected ex (map snd s) (map u_ref p) = t.
(** Erasing an element of a deque leaves the others at distinct addresses. *)
Definition reloc_ok (reloc : list nat -> nat -> list nat) : Prop :=
  forall a i, List.NoDup a -> i < List.length a -> List.NoDup (reloc a i) /\ S (List.length (reloc a i)) = List.length a.

Lemma nulls_app s t : nulls (s ++ t) = nulls s ++ nulls t.
Proof. unfold nulls. rewrite filter_app, map_app. reflexivity. Qed.
Lemma nulls_cons x s : nulls (x :: s) = (if is_null (snd (snd x)) then [fst x] else []) ++ nulls s.
Proof. unfold nulls. simpl. destruct (is_null _); reflexivity. Qed.

Lemma nulls_head s a l : nulls s = a :: l -> exists pre role post,
  s = pre ++ (a, (role, RNull)) :: post /\ nulls pre = [] /\ nulls post = l.
Proof.
  induction s as [|[b [ro r]] s IH]; [discriminate|]. rewrite nulls_cons. simpl. destruct (is_null r) eqn:E; simpl.
  - intros [= -> H]. destruct r; try discriminate. exists [], ro, s. auto.
  - intros H. destruct (IH H) as (pre & role & post & -> & H1 & H2). exists ((b, (ro, r)) :: pre), role, post.
    rewrite nulls_cons. simpl. rewrite E. auto.
Qed.

Lemma expected_pre ex pre s p : nulls pre = [] -> expected ex (map snd (pre ++ s)) p = map snd pre ++ expected ex (map snd s) p.
Proof.
  induction pre as [|x pre IH]; auto. rewrite nulls_cons. simpl. destruct (is_null (snd (snd x))); [discriminate|]. simpl.
  intros H. rewrite IH; auto.
Qed.
Lemma expected_none ex s : nulls s = [] -> expected ex (map snd s) [] = map snd s.
Proof. intros H. rewrite <- (app_nil_r s) at 1. rewrite expected_pre; auto. simpl. apply app_nil_r. Qed.
Lemma expected_snoc ex s p x : List.length (nulls s) = List.length p ->
  (is_null (snd (snd x)) = false -> expected ex (map snd (s ++ [x])) p = expected ex (map snd s) p ++ [snd x]) /\
  (is_null (snd (snd x)) = true -> forall i, expected ex (map snd (s ++ [x])) (p ++ [i]) =
     expected ex (map snd s) p ++ (if ex i then [(fst (snd x), RRel i)] else [])).
Proof.
  revert p. induction s as [|y s IH]; intros p; simpl.
  - intros H. destruct p; [|discriminate]. split; intros E; rewrite E; auto.
  - rewrite nulls_cons. destruct (is_null (snd (snd y))); simpl; intros H.
    + destruct p as [|j p]; [discriminate|]. injection H as H. destruct (IH p H) as [I1 I2]. split; intros E; simpl.
      * destruct (ex j); rewrite I1; auto.
      * intros i. destruct (ex j); rewrite I2; auto.
    + destruct (IH p H) as [I1 I2]. split; intros E; simpl.
      * rewrite I1; auto.
      * intros i. rewrite I2; auto.
Qed.

Lemma slot_idx_app (a : nat) x (pre post : list slot) : List.NoDup (map fst (pre ++ (a, x) :: post)) ->
  slot_idx a (pre ++ (a, x) :: post) = Some (List.length pre).
Proof.
  induction pre as [|y pre IH]; simpl.
  - rewrite Nat.eqb_refl. reflexivity.
  - intros N. inversion N; subst. destruct (Nat.eqb_spec (fst y) a).
    + exfalso. apply H1. rewrite map_app. apply in_or_app. right. simpl. auto.
    + rewrite IH; auto.
Qed.

Lemma write_slot_app (a : nat) x y (pre post : list slot) : List.NoDup (map fst (pre ++ (a, (x, y)) :: post)) ->
  forall r, write_slot a r (pre ++ (a, (x, y)) :: post) = Some (pre ++ (a, (x, r)) :: post).
Proof.
  intros N r. unfold write_slot. rewrite slot_idx_app by auto. f_equal.
  assert (forall l : list slot, ~ In a (map fst l) ->
    map (fun x : slot => if Nat.eqb (fst x) a then (fst x, (fst (snd x), r)) else x) l = l) as G.
  { induction l as [|z l IH]; simpl; auto. intros H. destruct (Nat.eqb_spec (fst z) a); [exfalso; auto|]. rewrite IH; auto. }
  rewrite map_app in N. simpl in N. apply NoDup_remove_2 in N. rewrite map_app. cbn [map fst snd]. rewrite Nat.eqb_refl.
  rewrite !G; auto; intros H; apply N; apply in_or_app; auto.
Qed.

Section Remove.
Variable reloc : list nat -> nat -> list nat.
Hypothesis rok : reloc_ok reloc.

Fixpoint nloc (i : nat) (s : list slot) : list (nat * nat) :=
  match s with
  | [] => []
  | x :: r => (if is_null (snd (snd x)) then [(i, fst x)] else []) ++ nloc (S i) r
  end.
Lemma pl_pre sh i rem pre s : nulls pre = [] -> placeholder_locs sh i rem (pre ++ s) = placeholder_locs sh (i + List.length pre) rem s.
Proof.
  revert i. induction pre as [|x pre IH]; intros i; simpl; [rewrite Nat.add_0_r; auto|].
  rewrite nulls_cons. destruct (is_null (snd (snd x))); [discriminate|]. simpl. intros H. rewrite IH by auto.
  f_equal. lia.
Qed.
Lemma pl_post i rem s : rem < i -> placeholder_locs true i rem s = nloc (i - 1) s.
Proof.
  revert i. induction s as [|x s IH]; intros i H; simpl; auto. rewrite IH by lia.
  destruct (Nat.eqb_spec i rem); [lia|]. rewrite andb_true_r. destruct (Nat.ltb_spec rem i); [|lia].
  f_equal. f_equal. lia.
Qed.

Lemma combine_snd (s : list slot) (na : list nat) : List.length na = List.length s -> map snd (combine na (map snd s)) = map snd s.
Proof. revert na. induction s as [|x s IH]; intros [|n na]; simpl; intros H; auto; try discriminate. rewrite IH; auto. Qed.
Lemma combine_fst {A} (s : list A) (na : list nat) : List.length na = List.length s -> map fst (combine na s) = na.
Proof. revert na. induction s as [|x s IH]; intros [|n na]; simpl; intros H; auto; try discriminate. rewrite IH; auto. Qed.

Lemma nulls_length (s : list slot) (na : list nat) : List.length na = List.length s ->
  List.length (nulls (combine na (map snd s))) = List.length (nulls s).
Proof.
  revert na. induction s as [|x s IH]; intros [|n na]; simpl; intros H; auto; try discriminate.
  rewrite !nulls_cons. simpl. rewrite !app_length, IH by auto. destruct (is_null _); reflexivity.
Qed.
Lemma nulls_none_combine (s : list slot) (na : list nat) : nulls s = [] -> nulls (combine na (map snd s)) = [].
Proof.
  revert na. induction s as [|x s IH]; intros [|n na]; simpl; auto.
  rewrite !nulls_cons. simpl. destruct (is_null (snd (snd x))); [discriminate|]. simpl. auto.
Qed.

Lemma new_locs_nloc post : forall (q : list slot) (na : list nat), List.length na = List.length post ->
  new_locs (q ++ combine na (map snd post)) (nloc (List.length q) post) =
  Some (combine (nulls post) (nulls (combine na (map snd post)))).
Proof.
  induction post as [|x post IH]; intros q [|n na] H; try discriminate; auto.
  cbn [map combine nloc]. rewrite !nulls_cons. cbn [snd fst]. injection H as H.
  assert (new_locs (q ++ (n, snd x) :: combine na (map snd post)) (nloc (S (List.length q)) post) =
          Some (combine (nulls post) (nulls (combine na (map snd post))))) as E.
  { specialize (IH (q ++ [(n, snd x)]) na H). rewrite <- app_assoc in IH. rewrite app_length in IH. simpl in IH.
    rewrite Nat.add_1_r in IH. exact IH. }
  destruct (is_null (snd (snd x))); [|exact E].
  unfold new_locs in *. cbn [map app all_some fold_right fst snd].
  change (fold_right _ (Some []) ?l) with (all_some l). rewrite E.
  rewrite nth_error_app2 by lia. rewrite Nat.sub_diag. reflexivity.
Qed.

Lemma lookup_combine L : forall M, List.NoDup L -> List.length M = List.length L -> forall i a, nth_error L i = Some a -> lookup_nat a (combine L M) = nth_error M i.
Proof.
  induction L as [|b L IH]; intros [|m M] N H i a E; try discriminate; [destruct i; discriminate|].
  inversion N; subst. destruct i as [|i]; simpl in *.
  - injection E as ->. rewrite Nat.eqb_refl. reflexivity.
  - destruct (Nat.eqb_spec b a).
    + subst. exfalso. apply H2. eapply nth_error_In; eauto.
    + apply IH; auto.
Qed.

Lemma remove_nth_app {A} (pre post : list A) x : remove_nth (List.length pre) (pre ++ x :: post) = pre ++ post.
Proof. induction pre as [|y pre IH]; simpl; auto. rewrite IH. reflexivity. Qed.

Lemma nulls_sub s a : In a (nulls s) -> In a (map fst s).
Proof. unfold nulls. rewrite !in_map_iff. intros (x & E & H). apply filter_In in H. exists x. tauto. Qed.
Lemma nulls_NoDup s : List.NoDup (map fst s) -> List.NoDup (nulls s).
Proof.
  induction s as [|x s IH]; simpl; intros N; [constructor|]. inversion N; subst. rewrite nulls_cons.
  destruct (is_null _); simpl; auto. constructor; auto. intros H. apply H1. apply nulls_sub. auto.
Qed.

Lemma NoDup_skip {A} (a b : list A) : List.NoDup (a ++ b) -> List.NoDup b.
Proof. induction a as [|x a IH]; simpl; auto. intros N. inversion N; auto. Qed.

Definition fixed (rel : Z) (nl : list (nat * nat)) (u : unresolved) : unresolved :=
  if Z.eqb (u_rel u) rel
  then match lookup_nat (u_loc u) nl with Some v => Unres (u_rel u) (u_ref u) v | None => u end
  else u.
Lemma fixed_rel rel nl u : u_rel (fixed rel nl u) = u_rel u.
Proof. unfold fixed. destruct (Z.eqb _ _); auto. destruct (lookup_nat _ _); auto. Qed.
Lemma fixed_ref rel nl u : u_ref (fixed rel nl u) = u_ref u.
Proof. unfold fixed. destruct (Z.eqb _ _); auto. destruct (lookup_nat _ _); auto. Qed.
Lemma pend_fixed rel nl k un : pend k (map (fixed rel nl) un) = map (fixed rel nl) (pend k un).
Proof.
  induction un as [|u un IH]; simpl; auto. rewrite fixed_rel. destruct (Z.eqb _ _); simpl; rewrite IH; auto.
Qed.
Lemma pend_fixed_other rel nl k un : k <> rel -> pend k (map (fixed rel nl) un) = pend k un.
Proof.
  intros N. rewrite pend_fixed. unfold pend. induction un as [|u un IH]; simpl; auto.
  destruct (Z.eqb_spec (u_rel u) k); simpl; rewrite IH; auto. f_equal. unfold fixed. destruct (Z.eqb_spec (u_rel u) rel); congruence.
Qed.
Lemma map_fixed_locs rel M : forall p pre L M0, (forall u, In u p -> u_rel u = rel) -> map u_loc p = L -> 
  List.NoDup (pre ++ L) -> List.length M = List.length L -> List.length M0 = List.length pre ->
  map u_loc (map (fixed rel (combine (pre ++ L) (M0 ++ M))) p) = M.
Proof.
  induction M as [|m M IH]; intros p pre L M0 R E N H H0.
  - destruct L; [|discriminate]. destruct p; [reflexivity|discriminate].
  - destruct L as [|l L]; [discriminate|]. destruct p as [|u p]; [discriminate|]. simpl in E. injection E as E1 E2.
    cbn [map]. f_equal.
    + unfold fixed. rewrite (R u) by (simpl; auto). rewrite Z.eqb_refl. 
      rewrite (lookup_combine (pre ++ l :: L) (M0 ++ m :: M) N) with (i := List.length pre).
      * rewrite <- H0, nth_error_app2, Nat.sub_diag by lia. reflexivity.
      * rewrite !app_length. lia.
      * rewrite nth_error_app2, Nat.sub_diag by lia. simpl. congruence.
    + specialize (IH p (pre ++ [l]) L (M0 ++ [m])). rewrite <- !app_assoc in IH. simpl in IH. apply IH; auto.
      * intros v Hv. apply R. simpl. auto.
      * rewrite !app_length. simpl. lia.
Qed.

(** The corrected version moves every other placeholder of the relation along. *)
Lemma remove_fix_good ex rel u s rest t : good ex s (u :: pend rel rest) t -> ex (u_ref u) = false ->
  exists s' nl, remove_fix true reloc rel (u_loc u) s rest = Some (s', map (fixed rel nl) rest) /\
    good ex s' (pend rel (map (fixed rel nl) rest)) t.
Proof.
  intros (N & L & E) X. simpl in L, E. destruct (nulls_head _ _ _ L) as (pre & role & post & -> & Hpre & Hpost).
  unfold remove_fix. rewrite slot_idx_app by auto.
  rewrite pl_pre by auto. cbn [placeholder_locs]. rewrite Nat.eqb_refl, andb_false_r. cbn [app].
  rewrite Nat.add_0_l. rewrite pl_post by lia. cbn [Nat.sub]. rewrite Nat.sub_0_r.
  rewrite remove_nth_app. 
  set (na := reloc _ _).
  destruct (rok (map fst (pre ++ (u_loc u, (role, RNull)) :: post)) (List.length pre)) as [Nn Ln]; [auto|rewrite map_length, app_length; simpl; lia|].
  change (List.NoDup na) in Nn. change (S (List.length na) = List.length (map fst (pre ++ (u_loc u, (role, RNull)) :: post))) in Ln.
  rewrite map_length, app_length in Ln. simpl in Ln.
  assert (exists n1 n2, na = n1 ++ n2 /\ List.length n1 = List.length pre /\ List.length n2 = List.length post) as (n1 & n2 & En & L1 & L2).
  { exists (firstn (List.length pre) na), (skipn (List.length pre) na). rewrite firstn_skipn, firstn_length, skipn_length. 
    repeat split; lia. }
  clearbody na. subst na.
  assert (combine (n1 ++ n2) (map snd (pre ++ post)) = combine n1 (map snd pre) ++ combine n2 (map snd post)) as EC.
  { rewrite map_app. clear -L1. revert n1 L1. induction pre as [|y pre IH]; intros [|a n1] L1; try discriminate; auto.
    cbn [map app combine]. rewrite IH; auto. }
  rewrite EC.
  assert (List.length pre = List.length (combine n1 (map snd pre))) as Lq by (rewrite combine_length, map_length; lia).
  rewrite Lq. rewrite (new_locs_nloc post (combine n1 (map snd pre)) n2 L2).
  exists (combine n1 (map snd pre) ++ combine n2 (map snd post)), (combine (nulls post) (nulls (combine n2 (map snd post)))).
  split; [reflexivity|]. split; [|split].
  - rewrite <- EC, combine_fst. 
    + auto.
    + rewrite app_length, map_length, app_length. lia.
  - rewrite nulls_app, nulls_none_combine by auto. rewrite pend_fixed. simpl. symmetry.
    apply (map_fixed_locs rel (nulls (combine n2 (map snd post))) (pend rel rest) [] (nulls post) []); auto.
    + intros v Hv. apply filter_In in Hv. apply Z.eqb_eq. tauto.
    + simpl. rewrite map_app in N. apply NoDup_skip in N. inversion N; subst. apply nulls_NoDup. auto.
    + apply nulls_length. auto.
  - rewrite pend_fixed. rewrite map_map. rewrite (map_ext _ u_ref) by (intros; apply fixed_ref).
    rewrite map_app, !combine_snd by auto. rewrite <- map_app, expected_pre by auto. 
    rewrite expected_pre in E by auto. simpl in E. rewrite X in E. exact E.
Qed.

(** The other version is right if there is no other placeholder in the relation. *)
Lemma pl_none sh i rem s : nulls s = [] -> placeholder_locs sh i rem s = [].
Proof.
  revert i. induction s as [|x s IH]; intros i; auto. rewrite nulls_cons. cbn [placeholder_locs].
  destruct (is_null (snd (snd x))); [discriminate|]. cbn [andb app]. apply IH.
Qed.
Lemma remove_fix_last sh ex rel u s rest t : good ex s (u :: pend rel rest) t -> ex (u_ref u) = false -> pend rel rest = [] ->
  exists s' nl, remove_fix sh reloc rel (u_loc u) s rest = Some (s', map (fixed rel nl) rest) /\
    good ex s' (pend rel (map (fixed rel nl) rest)) t.
Proof.
  intros G X P. destruct (remove_fix_good ex rel u s rest t G X) as (s' & nl & E & G').
  destruct G as (N & L & _). rewrite P in L. simpl in L. destruct (nulls_head _ _ _ L) as (pre & role & post & -> & Hpre & Hpost).
  exists s', nl. split; auto. rewrite <- E. unfold remove_fix. rewrite slot_idx_app by auto.
  rewrite !(pl_pre _ 0) by auto. cbn [placeholder_locs]. rewrite Nat.add_0_l, Nat.eqb_refl, andb_false_r. cbn [app].
  rewrite !pl_none by auto. reflexivity.
Qed.

Lemma write_slot_good ex rel u s rest t : good ex s (u :: pend rel rest) t -> ex (u_ref u) = true ->
  exists s', write_slot (u_loc u) (RRel (u_ref u)) s = Some s' /\ good ex s' (pend rel rest) t.
Proof.
  intros (N & L & E) X. simpl in L, E. destruct (nulls_head _ _ _ L) as (pre & role & post & -> & Hpre & Hpost).
  rewrite write_slot_app by auto. eexists. split; [reflexivity|]. split; [|split].
  - rewrite map_app in *. exact N.
  - rewrite nulls_app, nulls_cons, Hpre. simpl. auto.
  - rewrite expected_pre in * by auto. simpl in *. rewrite X in E. exact E.
Qed.

(** ** The second pass *)
Lemma zget_mupdate {V} (k k' : Z) (f : V -> V) m :
  zget k (mupdate k' f m) = if Z.eqb k k' then option_map f (zget k m) else zget k m.
Proof.
  unfold zget, mupdate. induction m as [|[k0 v] m IH]; simpl; [destruct (Z.eqb k k'); auto|].
  destruct (Z.eqb_spec k0 k'); simpl; rewrite IH.
  - destruct (Z.ltb_spec k k0), (Z.ltb_spec k0 k), (Z.eqb_spec k k'); try lia; auto.
  - destruct (Z.ltb_spec k k0), (Z.ltb_spec k0 k), (Z.eqb_spec k k'); try lia; auto.
Qed.
Lemma mupdate_keys {V} (k : Z) (f : V -> V) m : map fst (mupdate k f m) = map fst m.
Proof. unfold mupdate. rewrite map_map. apply map_ext. intros [a b]. simpl. destruct (Z.eqb a k); auto. Qed.

Definition rel_error (ex : Z -> bool) (u : unresolved) : list error :=
  if ex (u_ref u) then [] else [ERelation (u_rel u) (u_ref u)].
Definition rels_ok (ex : Z -> bool) (rels : list (Z * wrel)) (un : list unresolved) (tgt : Z -> list (string * ref)) : Prop :=
  (forall k, ex k = match zget k rels with Some _ => true | None => false end) /\
  forall k, match zget k rels with None => pend k un = [] | Some r => good ex (wr_slots r) (pend k un) (tgt k) end.

Lemma pend_cons k u un : pend k (u :: un) = if Z.eqb (u_rel u) k then u :: pend k un else pend k un.
Proof. reflexivity. Qed.
Lemma fixed_errors ex rel nl un : flat_map (rel_error ex) (map (fixed rel nl) un) = flat_map (rel_error ex) un.
Proof. induction un as [|u un IH]; simpl; auto. rewrite IH. unfold rel_error. rewrite fixed_rel, fixed_ref. reflexivity. Qed.

(** Placeholders are corrected, or every missing relation is the last placeholder of its
    relation. *)
Definition late (sh : bool) (ex : Z -> bool) (un : list unresolved) : Prop :=
  sh = true \/ forall a u b, un = a ++ u :: b -> ex (u_ref u) = false -> pend (u_rel u) b = [].
Lemma late_tail sh ex u un : late sh ex (u :: un) -> late sh ex un.
Proof. intros [H|H]; [left; auto|right]. intros a v b E. apply (H (u :: a) v b). rewrite E. reflexivity. Qed.
Lemma late_fixed sh ex rel nl un : late sh ex un -> late sh ex (map (fixed rel nl) un).
Proof.
  intros [H|H]; [left; auto|right]. intros a u b E X.
  destruct (map_eq_app _ _ _ _ E) as (a' & b' & Eu & <- & Eb). destruct b' as [|u' b']; [discriminate|]. cbn [map] in Eb. injection Eb as <- <-.
  rewrite fixed_ref in X. rewrite fixed_rel, pend_fixed, (H a' u' b'); auto.
Qed.

Lemma resolve_ok sh ex tgt n : forall un rels errs, late sh ex un -> List.length un = n -> rels_ok ex rels un tgt ->
  exists rels', resolve sh reloc un n rels errs = Some (rels', errs ++ flat_map (rel_error ex) un) /\
    map fst rels' = map fst rels /\
    forall k, match zget k rels, zget k rels' with
              | None, None => True
              | Some r, Some r' => wr_id r' = wr_id r /\ wr_attrs r' = wr_attrs r /\ map snd (wr_slots r') = tgt k
              | _, _ => False
              end.
Proof.
  induction n as [|n IH]; intros un rels errs Lt Ln (X & G).
  - destruct un; [|discriminate]. exists rels. simpl. rewrite app_nil_r. repeat split; auto. intros k. specialize (G k).
    destruct (zget k rels); auto. destruct G as (_ & G1 & G2). simpl in G1, G2. rewrite expected_none in G2 by auto. auto.
  - destruct un as [|u rest]; [discriminate|]. injection Ln as Ln. cbn [resolve].
    pose proof (G (u_rel u)) as Gu. rewrite pend_cons, Z.eqb_refl in Gu.
    destruct (zget (u_rel u) rels) as [r|] eqn:Er; [|discriminate].
    pose proof (X (u_ref u)) as Xu.
    assert (forall s' rest', good ex s' (pend (u_rel u) rest') (tgt (u_rel u)) ->
              (forall k, k <> u_rel u -> pend k rest' = pend k rest) -> rels_ok ex (set_slots (u_rel u) s' rels) rest' tgt) as K.
    { intros s' rest' Gs Go. split; intros k.
      - unfold set_slots. rewrite zget_mupdate, X. destruct (Z.eqb k (u_rel u)); auto. destruct (zget k rels); auto.
      - unfold set_slots. rewrite zget_mupdate. specialize (G k). destruct (Z.eqb_spec k (u_rel u)).
        + subst k. rewrite Er. simpl. exact Gs.
        + rewrite Go by auto. rewrite pend_cons in G. destruct (Z.eqb_spec (u_rel u) k); [congruence|]. exact G. }
    assert (forall s' rels', map fst rels' = map fst (set_slots (u_rel u) s' rels) ->
       (forall k, match zget k (set_slots (u_rel u) s' rels), zget k rels' with
              | None, None => True
              | Some r, Some r' => wr_id r' = wr_id r /\ wr_attrs r' = wr_attrs r /\ map snd (wr_slots r') = tgt k
              | _, _ => False end) ->
       map fst rels' = map fst rels /\ forall k, match zget k rels, zget k rels' with
              | None, None => True
              | Some r, Some r' => wr_id r' = wr_id r /\ wr_attrs r' = wr_attrs r /\ map snd (wr_slots r') = tgt k
              | _, _ => False
              end) as Fin.
    { intros s' rels' Ek H. split; [rewrite Ek; apply mupdate_keys|]. intros k. specialize (H k). revert H.
      unfold set_slots. rewrite zget_mupdate. destruct (Z.eqb k (u_rel u)); auto. destruct (zget k rels); auto. }
    destruct (zget (u_ref u) rels) as [rr|] eqn:Ert.
    + destruct (write_slot_good ex (u_rel u) u (wr_slots r) rest (tgt (u_rel u)) Gu Xu) as (s' & -> & Gs).
      destruct (IH rest (set_slots (u_rel u) s' rels) errs (late_tail _ _ _ _ Lt) Ln) as (rels' & -> & Ek & H).
      { apply K; auto. }
      destruct (Fin s' rels' Ek H) as [F1 F2]. exists rels'. split; auto.
      assert (rel_error ex u = []) as Eu by (unfold rel_error; rewrite Xu; reflexivity). cbn [flat_map]. rewrite Eu. reflexivity.
    + assert (exists s' nl, remove_fix sh reloc (u_rel u) (u_loc u) (wr_slots r) rest = Some (s', map (fixed (u_rel u) nl) rest) /\
        good ex s' (pend (u_rel u) (map (fixed (u_rel u) nl) rest)) (tgt (u_rel u))) as (s' & nl & -> & Gs).
      { destruct Lt as [->|Lt]; [apply remove_fix_good; auto|apply remove_fix_last; auto]. apply (Lt [] u rest); auto. }
      destruct (IH (map (fixed (u_rel u) nl) rest) (set_slots (u_rel u) s' rels) (errs ++ [ERelation (u_rel u) (u_ref u)]))
        as (rels' & -> & Ek & H).
      { apply late_fixed, (late_tail _ _ _ _ Lt). }
      { rewrite map_length. auto. }
      { apply K; auto. intros k Nk. apply pend_fixed_other. auto. }
      destruct (Fin s' rels' Ek H) as [F1 F2]. exists rels'. split; auto. rewrite fixed_errors.
      assert (rel_error ex u = [ERelation (u_rel u) (u_ref u)]) as Eu by (unfold rel_error; rewrite Xu; reflexivity).
      cbn [flat_map]. rewrite Eu, <- app_assoc. reflexivity.
Qed.
End Remove.

(** * The first pass *)
Lemma NoDup_snoc {A} (l : list A) a : List.NoDup l -> ~ In a l -> List.NoDup (l ++ [a]).
Proof.
  induction l as [|x l IH]; simpl; intros N H; [repeat constructor; auto|]. inversion N; subst. constructor; auto.
  intros G. apply in_app_or in G. simpl in G. destruct G as [G|[->|[]]]; auto.
Qed.
Lemma good_snoc ex (s : list slot) p t a ro r : good ex s p t -> ~ In a (map fst s) ->
  (is_null r = false -> good ex (s ++ [(a, (ro, r))]) p (t ++ [(ro, r)])) /\
  (is_null r = true -> forall k i, good ex (s ++ [(a, (ro, r))]) (p ++ [Unres k i a]) (t ++ if ex i then [(ro, RRel i)] else [])).
Proof.
  intros (N & L & E) F. unfold good. rewrite !map_app. cbn [map fst snd u_loc u_ref].
  assert (List.length (nulls s) = List.length (map u_ref p)) as Ln by (rewrite L, !map_length; auto).
  destruct (expected_snoc ex s (map u_ref p) (a, (ro, r)) Ln) as [E1 E2]. cbn [fst snd] in E1, E2. rewrite map_app in E1, E2. 
  cbn [map snd] in E1, E2. split.
  - intros Hr. split; [apply NoDup_snoc; auto|]. split.
    + rewrite nulls_app, nulls_cons. simpl. rewrite Hr. simpl. rewrite app_nil_r. auto.
    + rewrite E1, E; auto.
  - intros Hr k i. split; [apply NoDup_snoc; auto|]. split.
    + rewrite nulls_app, nulls_cons, map_app. simpl. rewrite Hr. simpl. rewrite L. auto.
    + rewrite map_app. simpl. rewrite E2, E; auto.
Qed.

(** ** Adding relations and members *)
Definition inv (ex : Z -> bool) (st : rstate) (att : Z -> option attributes) (tgt : Z -> list (string * ref)) : Prop :=
  StronglySorted (fun a b => Z.ltb a b = true) (map fst (rs_rels st)) /\
  forall k, match zget k (rs_rels st) with
            | None => att k = None /\ pend k (rs_un st) = []
            | Some r => wr_id r = k /\ att k = Some (wr_attrs r) /\ good ex (wr_slots r) (pend k (rs_un st)) (tgt k) /\
                        forall a, In a (map fst (wr_slots r)) -> a < rs_next st
            end.

Lemma pend_app k a b : pend k (a ++ b) = pend k a ++ pend k b.
Proof. apply filter_app. Qed.

Definition upd (id : Z) (l : list (string * ref)) (tgt : Z -> list (string * ref)) : Z -> list (string * ref) :=
  fun k => if Z.eqb k id then tgt k ++ l else tgt k.

Section Machine.
Variable ex : Z -> bool.
Notation inv := (inv ex).
Lemma inv_same st att tgt id : inv st att tgt -> inv st att (upd id [] tgt).
Proof.
  intros (S & H). split; auto. intros k. specialize (H k). unfold upd. destruct (zget k (rs_rels st)); auto.
  destruct (Z.eqb k id); auto. rewrite app_nil_r. auto.
Qed.
Lemma push_inv st att tgt id role r : inv st att tgt -> is_null r = false -> forall e,
  inv (RS (push id (rs_next st, (role, r)) (rs_rels st)) (rs_un st) e (S (rs_next st))) att (upd id [(role, r)] tgt).
Proof.
  intros I Hr e. destruct I as (S & H). split; cbn [rs_rels rs_un rs_next].
  - unfold push. rewrite mupdate_keys. auto.
  - intros k. specialize (H k). unfold push. rewrite zget_mupdate. unfold upd. destruct (Z.eqb_spec k id).
    + subst k. destruct (zget id (rs_rels st)) as [w|]; simpl; [|tauto]. destruct H as (H1 & H2 & H3 & H4).
      split; auto. split; auto. split.
      * apply (good_snoc ex (wr_slots w)); auto. intros G. apply H4 in G. lia.
      * intros a. rewrite map_app. intros G. apply in_app_or in G. destruct G as [G|[<-|[]]]; [apply H4 in G; lia|simpl; lia].
    + destruct (zget k (rs_rels st)) as [w|]; auto. destruct H as (H1 & H2 & H3 & H4). repeat (split; auto).
      intros a G. apply H4 in G. lia.
Qed.
Lemma later_inv st att tgt id role mid : inv st att tgt -> att id <> None -> forall e,
  inv (RS (push id (rs_next st, (role, RNull)) (rs_rels st)) (rs_un st ++ [Unres id mid (rs_next st)]) e (S (rs_next st))) att
    (upd id (if ex mid then [(role, RRel mid)] else []) tgt).
Proof.
  intros I A e. destruct I as (S & H). split; cbn [rs_rels rs_un rs_next].
  - unfold push. rewrite mupdate_keys. auto.
  - intros k. specialize (H k). unfold push. rewrite zget_mupdate, pend_app. unfold upd.
    cbn [pend filter u_rel]. rewrite (Z.eqb_sym id k). destruct (Z.eqb_spec k id).
    + subst k. destruct (zget id (rs_rels st)) as [w|]; simpl; [|tauto]. destruct H as (H1 & H2 & H3 & H4).
      split; auto. split; auto. split.
      { destruct (good_snoc ex (wr_slots w) _ _ (rs_next st) role RNull H3) as [_ G].
        - intros G. apply H4 in G. lia.
        - apply (G eq_refl id mid). }
      { intros a. rewrite map_app. intros G. apply in_app_or in G. destruct G as [G|[<-|[]]]; [apply H4 in G; lia|simpl; lia]. }
    + rewrite app_nil_r. destruct (zget k (rs_rels st)) as [w|]; auto. destruct H as (H1 & H2 & H3 & H4). repeat (split; auto).
      intros a G. apply H4 in G. lia.
Qed.
Lemma inv_ext st att tgt tgt' : (forall k, tgt k = tgt' k) -> inv st att tgt -> inv st att tgt'.
Proof. intros E (S & H). split; auto. intros k. specialize (H k). destruct (zget k (rs_rels st)); auto. rewrite <- E. auto. Qed.
Lemma inv_ext_att st att att' tgt : (forall k, att k = att' k) -> inv st att tgt -> inv st att' tgt.
Proof. intros E (S & H). split; auto. intros k. specialize (H k). rewrite <- E. destruct (zget k (rs_rels st)); auto. Qed.
Definition att_add (id : Z) (a : attributes) (att : Z -> option attributes) : Z -> option attributes :=
  fun k => if Z.eqb k id then Some (match att k with Some a => a | None => a end) else att k.
Lemma emplace_inv st att tgt id a : inv st att tgt -> (forall k, att k = None -> tgt k = []) ->
  inv (RS (zemplace id (WRel id a []) (rs_rels st)) (rs_un st) (rs_err st) (rs_next st)) (att_add id a att) tgt.
Proof.
  intros (S & H) T. split; cbn [rs_rels rs_un rs_next].
  - apply (memplace_sorted Z.ltb zirr ztra ztot). auto.
  - intros k. specialize (H k). unfold zget, zemplace in *. rewrite (mget_memplace Z.ltb ztra ztot). unfold att_add.
    destruct (Z.eqb_spec k id).
    + subst k. rewrite Z.ltb_irrefl. cbn [negb andb]. destruct (mget Z.ltb id (rs_rels st)) as [w|] eqn:E.
      * destruct H as (H1 & H2 & H3 & H4). rewrite H2. auto.
      * destruct H as (H1 & H2). rewrite H1, H2. simpl. repeat split; auto; try tauto.
        -- constructor.
        -- simpl. rewrite T; auto.
    + destruct (Z.ltb_spec k id), (Z.ltb_spec id k); try lia; cbn [negb andb]; destruct (mget Z.ltb k (rs_rels st)) as [w|]; auto.
Qed.
End Machine.

Section Pass1.
Context {D : Type}.
Variable parse_id : string -> Z.
Notation attr_id := (attr_id parse_id).
Variable osm : xml.
Variable nodes : list (Z * @node D).
Variable ways : list (Z * way).
Notation has := (has parse_id osm).
Hypothesis hn : forall i, (match zget i nodes with Some _ => true | None => false end) = has "node" i.
Hypothesis hw : forall i, (match zget i ways with Some _ => true | None => false end) = has "way" i.
Notation ex := (has "relation").
Notation sorted := (StronglySorted (fun a b => Z.ltb a b = true)).

Notation inv := (inv ex).

Lemma read_member_inv st att tgt id x : inv st att tgt -> att id <> None ->
  let st' := read_member parse_id nodes ways id st x in
  inv st' att (upd id (member_of parse_id osm x) tgt) /\
  rs_err st' = rs_err st ++ direct_error parse_id osm id x /\
  flat_map (rel_error ex) (rs_un st') = flat_map (rel_error ex) (rs_un st) ++ relation_error parse_id osm id x.
Proof.
  intros I A. cbv zeta. unfold read_member, member_of, direct_error, relation_error. cbv zeta.
  set (mid := attr_id "ref" x). set (role := attr_value "role" x). set (type := attr_value "type" x).
  assert (forall r, is_null r = false ->
    inv (RS (push id (rs_next st, (role, r)) (rs_rels st)) (rs_un st) (rs_err st) (S (rs_next st))) att (upd id [(role, r)] tgt)) as Push.
  { intros r Hr. apply push_inv; auto. }
  assert (forall e, inv (RS (rs_rels st) (rs_un st) e (rs_next st)) att (upd id [] tgt)) as Same.
  { intros e. apply (inv_same ex (RS (rs_rels st) (rs_un st) e (rs_next st)) att tgt id). exact I. }
  destruct (String.eqb_spec type "node") as [T1|T1].
  - rewrite T1. rewrite hn. destruct (has "node" mid); (split; [|split]); cbn [rs_err rs_un]; rewrite ?app_nil_r; auto.
  - destruct (String.eqb_spec type "way") as [T2|T2].
    + rewrite T2. rewrite hw. destruct (has "way" mid); (split; [|split]); cbn [rs_err rs_un]; rewrite ?app_nil_r; auto.
    + destruct (String.eqb_spec type "relation") as [T3|T3].
      * split; [|split]; cbn [rs_err rs_un]; rewrite ?app_nil_r; auto.
        -- apply later_inv; auto.
        -- rewrite flat_map_app. f_equal. cbn [flat_map]. unfold rel_error. cbn [u_ref u_rel]. rewrite app_nil_r. reflexivity.
      * split; [|split]; rewrite ?app_nil_r; auto. apply inv_same. auto.
Qed.

Lemma read_members_inv id l : forall st att tgt, inv st att tgt -> att id <> None ->
  let st' := fold_left (read_member parse_id nodes ways id) l st in
  inv st' att (upd id (flat_map (member_of parse_id osm) l) tgt) /\
  rs_err st' = rs_err st ++ flat_map (direct_error parse_id osm id) l /\
  flat_map (rel_error ex) (rs_un st') = flat_map (rel_error ex) (rs_un st) ++ flat_map (relation_error parse_id osm id) l.
Proof.
  induction l as [|x l IH]; intros st att tgt I A; cbn [fold_left flat_map].
  - rewrite !app_nil_r. split; auto. apply inv_same. auto.
  - destruct (read_member_inv st att tgt id x I A) as (I1 & E1 & U1).
    destruct (IH _ _ _ I1 A) as (I2 & E2 & U2). split; [|split].
    + eapply inv_ext; [|exact I2]. intros k. unfold upd. destruct (Z.eqb k id); auto. rewrite app_assoc. auto.
    + rewrite E2, E1, app_assoc. auto.
    + rewrite U2, U1, app_assoc. auto.
Qed.

Notation att_with x := (att_add (attr_id "id" x) (tags x)).
Lemma read_rel_inv st att tgt x : inv st att tgt -> (forall k, att k = None -> tgt k = []) ->
  let st' := read_rel parse_id nodes ways st x in
  inv st' (att_with x att) (upd (attr_id "id" x) (flat_map (member_of parse_id osm) (xall "member" x)) tgt) /\
  rs_err st' = rs_err st ++ flat_map (direct_error parse_id osm (attr_id "id" x)) (xall "member" x) /\
  flat_map (rel_error ex) (rs_un st') = flat_map (rel_error ex) (rs_un st) ++ flat_map (relation_error parse_id osm (attr_id "id" x)) (xall "member" x).
Proof.
  intros I T. cbv zeta. unfold read_rel. cbv zeta.
  set (id := attr_id "id" x). set (st1 := RS _ _ _ _).
  apply (read_members_inv id (xall "member" x) st1).
  - apply emplace_inv; auto.
  - unfold att_add. fold id. rewrite Z.eqb_refl. discriminate.
Qed.

Definition members_with (l : list xml) (k : Z) : list (string * ref) :=
  flat_map (fun x => flat_map (member_of parse_id osm) (xall "member" x)) (filter (fun x => Z.eqb (attr_id "id" x) k) l).
Definition atts_with (l : list xml) (k : Z) : option attributes :=
  option_map tags (find (fun x => Z.eqb (attr_id "id" x) k) l).

Lemma find_app {A} (f : A -> bool) l x : find f (l ++ [x]) = match find f l with Some y => Some y | None => if f x then Some x else None end.
Proof. induction l as [|y l IH]; simpl; auto. destruct (f y); auto. Qed.

Lemma read_rels_inv l : forall st pre, inv st (atts_with pre) (members_with pre) ->
  let st' := fold_left (read_rel parse_id nodes ways) l st in
  inv st' (atts_with (pre ++ l)) (members_with (pre ++ l)) /\
  rs_err st' = rs_err st ++ flat_map (fun x => flat_map (direct_error parse_id osm (attr_id "id" x)) (xall "member" x)) l /\
  flat_map (rel_error ex) (rs_un st') = flat_map (rel_error ex) (rs_un st) ++
    flat_map (fun x => flat_map (relation_error parse_id osm (attr_id "id" x)) (xall "member" x)) l.
Proof.
  induction l as [|x l IH]; intros st pre I; cbn [fold_left flat_map].
  - rewrite !app_nil_r. auto.
  - destruct (read_rel_inv st _ _ x I) as (I1 & E1 & U1).
    { intros k Hk. unfold atts_with in Hk. unfold members_with.
      destruct (find _ pre) eqn:F; [discriminate|]. replace (filter (fun x0 => Z.eqb (attr_id "id" x0) k) pre) with (@nil xml); auto.
      symmetry. clear -F. induction pre as [|y pre IHp]; simpl in *; auto. destruct (Z.eqb (attr_id "id" y) k); [discriminate|auto]. }
    destruct (IH (read_rel parse_id nodes ways st x) (pre ++ [x])) as (I2 & E2 & U2).
    { eapply inv_ext; [|eapply inv_ext_att; [|exact I1]].
      - intros k. unfold upd, members_with. rewrite filter_app, flat_map_app. cbn [filter]. rewrite (Z.eqb_sym k).
        destruct (Z.eqb (attr_id "id" x) k); simpl; rewrite app_nil_r; auto.
      - intros k. unfold att_add, atts_with. rewrite find_app, (Z.eqb_sym k). destruct (find _ pre); simpl; [destruct (Z.eqb _ k); auto|].
        destruct (Z.eqb _ k); auto. }
    rewrite <- app_assoc in I2. simpl in I2. split; auto. split.
    + rewrite E2, E1, app_assoc. auto.
    + rewrite U2, U1, app_assoc. auto.
Qed.
End Pass1.

(** * The whole reader *)
Section Whole.
Context {D : Type}.
Variable zero_d : D.
Variable parse_id : string -> Z.
Variable parse_d : string -> D.
Notation attr_id := (attr_id parse_id).
Variable reloc : list nat -> nat -> list nat.
Hypothesis rok : reloc_ok reloc.

Definition osm_of (doc : xml) : xml := match xall "osm" doc with x :: _ => x | [] => Elem "" [] [] end.

Lemma is_map_attrs_eq (a b : attributes) P : is_map String.ltb a P -> is_map String.ltb b P -> a = b.
Proof.
  intros [S1 H1] [S2 H2]. apply (sorted_ext String.ltb sirr stra stot); [exact S1|exact S2|].
  intros k v. etransitivity; [apply H1|symmetry; apply H2].
Qed.
Lemma first_with_find osm n k x : first_with parse_id osm n k x <-> find (fun x => Z.eqb (attr_id "id" x) k) (elems n osm) = Some x.
Proof.
  unfold first_with. split.
  - intros (l & r & -> & E & N). induction l as [|y l IH]; simpl.
    + subst k. rewrite Z.eqb_refl. auto.
    + destruct (Z.eqb_spec (attr_id "id" y) k); [exfalso; apply (N y); simpl; auto|]. apply IH. intros z Hz. apply N. simpl. auto.
  - intros F. apply find_split in F. destruct F as (a & b & E & P & N). exists a, b. apply Z.eqb_eq in P. repeat split; auto.
    intros y Hy Ey. apply N in Hy. apply Z.eqb_neq in Hy. auto.
Qed.

Theorem read_spec doc :
  (forall x t, In x (elems "node" (osm_of doc)) -> In t (xall "tag" x) -> distinct_attrs t) ->
  exists f, read zero_d parse_id parse_d true reloc doc = Some (f, read_errors parse_id (osm_of doc)) /\
    file_is zero_d parse_id parse_d (osm_of doc) f.
Proof.
  intros W. unfold read. fold (osm_of doc). set (osm := osm_of doc) in *. cbv zeta.
  set (nodes := read_nodes zero_d parse_id parse_d osm).
  destruct (read_ways parse_id nodes osm) as [ways e1] eqn:Ew.
  assert (ways = fst (read_ways parse_id nodes osm)) as E1 by (rewrite Ew; auto).
  assert (e1 = way_errors parse_id osm) as E2.
  { pose proof (read_ways_eq zero_d parse_id parse_d osm) as Q. fold nodes in Q. rewrite Ew in Q. congruence. }
  destruct (read_rels_inv parse_id osm nodes ways (nodes_has zero_d parse_id parse_d osm)) with
    (l := elems "relation" osm) (st := RS [] [] e1 0) (pre := @nil xml) as (I & Er & Eu).
  { intros i. rewrite E1. apply ways_has. }
  { split; [constructor|]. intros k. simpl. auto. }
  cbn [app rs_err rs_un] in I, Er, Eu.
  set (st := fold_left _ _ _) in *. cbn [flat_map app] in Eu.
  destruct I as (S & H).
  assert (forall k, has parse_id osm "relation" k = match zget k (rs_rels st) with Some _ => true | None => false end) as Hex.
  { intros k. specialize (H k). destruct (zget k (rs_rels st)) as [w|].
    - destruct H as (_ & H & _). unfold atts_with in H. destruct (find _ _) eqn:F; [|discriminate]. apply find_some in F.
      apply has_In. exists x. rewrite <- Z.eqb_eq. auto.
    - destruct H as (H & _). destruct (has parse_id osm "relation" k) eqn:G; auto. apply has_In in G. destruct G as (x & G1 & G2).
      unfold atts_with in H. destruct (find _ _) eqn:F; [discriminate|]. pose proof (find_none _ _ F x G1) as Q. simpl in Q.
      rewrite G2, Z.eqb_refl in Q. discriminate. }
  destruct (resolve_ok reloc rok true (has parse_id osm "relation") (members_with parse_id osm (elems "relation" osm))
              (List.length (rs_un st)) (rs_un st) (rs_rels st) (rs_err st) (or_introl eq_refl) eq_refl) as (rels & Eres & Ek & Hr).
  { split; auto. intros k. specialize (H k). destruct (zget k (rs_rels st)); tauto. }
  rewrite Eres. exists (File nodes ways (map finish_rel rels)). split.
  { f_equal. f_equal. rewrite Er, Eu, E2. unfold read_errors, errors_of. rewrite <- app_assoc. reflexivity. }
  split; [|split]; cbn [f_nodes f_ways f_rels].
  - apply read_nodes_is. auto.
  - rewrite E1. apply read_ways_is.
  - assert (StronglySorted (fun a b => Z.ltb a b = true) (map fst rels)) as S' by (rewrite Ek; auto).
    assert (map fst (map finish_rel rels) = map fst rels) as Ef by (rewrite map_map; apply map_ext; intros [a b]; auto).
    split; [rewrite Ef; auto|]. intros k r. split.
    + intros Hin. apply in_map_iff in Hin. destruct Hin as ([k' w] & E & Hin). unfold finish_rel in E. simpl in E.
      injection E as -> <-. apply (mget_In Z.ltb zirr ztra ztot) in Hin; auto.
      specialize (Hr k). specialize (H k). unfold zget in *. rewrite Hin in Hr.
      destruct (mget Z.ltb k (rs_rels st)) as [w0|]; [|tauto]. destruct Hr as (R1 & R2 & R3), H as (H1 & H2 & _).
      unfold atts_with in H2. destruct (find _ _) as [x|] eqn:F; [|discriminate]. injection H2 as H2.
      exists x. split; [apply first_with_find; auto|]. simpl. split; [congruence|]. split; [|exact R3].
      rewrite R2, <- H2. apply tags_is_map.
    + intros (x & F & R1 & R2 & R3). apply first_with_find in F. apply in_map_iff.
      specialize (Hr k). specialize (H k). unfold zget in *.
      destruct (mget Z.ltb k (rs_rels st)) as [w0|].
      2: { destruct H as (H & _). unfold atts_with in H. rewrite F in H. discriminate. }
      destruct (mget Z.ltb k rels) as [w|] eqn:Ew'; [|tauto]. apply (mget_In Z.ltb zirr ztra ztot) in Ew'; auto.
      exists (k, w). split; auto. unfold finish_rel. simpl. f_equal. destruct r as [ri ra rm]. simpl in *.
      destruct Hr as (Q1 & Q2 & Q3), H as (H1 & H2 & _). unfold atts_with in H2. rewrite F in H2. injection H2 as H2.
      f_equal; try congruence.
      * rewrite Q2, <- H2. apply (is_map_attrs_eq _ _ (tag_is x)); auto. apply tags_is_map.
      * rewrite R3. exact Q3.
Qed.
End Whole.
