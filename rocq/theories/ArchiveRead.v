(** Proofs about the binary format of a map: the invariant of reading. *)
From Coq Require Import List Bool Arith ZArith String Lia.
From Verif Require Import ArchiveModel ArchiveSpec ArchiveProofs.
Import ListNotations.
Local Arguments bind : simpl never.

(** * Lists *)

Lemma replace_length {T} n (x : T) l : List.length (replace n x l) = List.length l.
Proof. revert n. induction l as [|y l IH]; intros [|n]; simpl; auto. Qed.
Lemma replace_same {T} n (x : T) l : n < List.length l -> nth_error (replace n x l) n = Some x.
Proof. revert n. induction l as [|y l IH]; intros [|n] H; simpl in *; try lia; auto. apply IH. lia. Qed.
Lemma replace_other {T} n m (x : T) l : n <> m -> nth_error (replace n x l) m = nth_error l m.
Proof. revert n m. induction l as [|y l IH]; intros [|n] [|m] H; simpl in *; auto; try congruence. Qed.
Lemma replace_cases {T} n m (x y : T) l : nth_error (replace n x l) m = Some y -> (m = n /\ y = x) \/ (m <> n /\ nth_error l m = Some y).
Proof.
  intros E. destruct (Nat.eq_dec m n) as [->|N]; [|right; rewrite replace_other in E by auto; auto].
  left. assert (L : n < List.length l) by (rewrite <- (replace_length n x l); apply nth_error_Some; congruence).
  rewrite replace_same in E by auto. split; congruence.
Qed.
Lemma nth_snoc {T} (l : list T) x n y : nth_error (l ++ [x]) n = Some y -> nth_error l n = Some y \/ (n = List.length l /\ y = x).
Proof.
  intros E. destruct (lt_dec n (List.length l)) as [L|L].
  - left. rewrite nth_error_app1 in E; auto.
  - right. rewrite nth_error_app2 in E by lia. destruct (n - List.length l) as [|k] eqn:D; simpl in E; [split; [lia|congruence]|destruct k; discriminate].
Qed.
Lemma nth_last {T} (l : list T) x : nth_error (l ++ [x]) (List.length l) = Some x.
Proof. rewrite nth_error_app2 by lia. now rewrite Nat.sub_diag. Qed.

Lemma find_set id id' e p : find_entry id (set_entry id' e p) = if Z.eqb id id' then Some e else find_entry id p.
Proof.
  induction p as [|[i x] p IH]; cbn [set_entry find_entry].
  - reflexivity.
  - destruct (Z.eqb_spec id' i) as [->|N]; cbn [find_entry].
    + destruct (Z.eqb id i); reflexivity.
    + rewrite IH. destruct (Z.eqb_spec id i) as [->|N']; [|reflexivity]. destruct (Z.eqb_spec i id'); [congruence|reflexivity].
Qed.

Definition regs_of {R} (o : obj R) : list R := match o with Lanelet _ _ _ _ rs _ | Area _ _ _ _ rs => rs | _ => [] end.
Definition with_regs {R} (o : obj R) (rs : list R) : obj R :=
  match o with Lanelet i t l r _ c => Lanelet i t l r rs c | Area i t ins out _ => Area i t ins out rs | _ => o end.
Lemma set_slot_other n i v os m : m <> n -> nth_error (set_slot n i v os) m = nth_error os m.
Proof. intros N. unfold set_slot. destruct (nth_error os n) as [[[]|]|]; auto; apply replace_other; auto. Qed.
Lemma set_slot_same n i v os o : nth_error os n = Some (Some o) -> nth_error (set_slot n i v os) n = Some (Some (with_regs o (replace i v (regs_of o)))).
Proof.
  intros E. assert (L : n < List.length os) by (apply nth_error_Some; congruence). unfold set_slot. rewrite E. destruct o; cbn [with_regs regs_of]; auto; apply replace_same; auto.
Qed.
Lemma set_slot_length n i v os : List.length (set_slot n i v os) = List.length os.
Proof. unfold set_slot. destruct (nth_error os n) as [[[]|]|]; auto; apply replace_length. Qed.
Lemma set_slot_raw n i v os m : nth_error os m = Some None -> nth_error (set_slot n i v os) m = Some None.
Proof.
  intros E. destruct (Nat.eq_dec m n) as [->|N]; [|rewrite set_slot_other; auto]. unfold set_slot. rewrite E. auto.
Qed.
Lemma set_slots_length ps v os : List.length (set_slots ps v os) = List.length os.
Proof. revert os. induction ps as [|[n i] ps IH]; intros os; cbn [set_slots]; [auto|]. rewrite IH. apply set_slot_length. Qed.
Lemma set_slots_raw ps v os m : nth_error os m = Some None -> nth_error (set_slots ps v os) m = Some None.
Proof. revert os. induction ps as [|[n i] ps IH]; intros os E; cbn [set_slots]; [auto|]. apply IH. now apply set_slot_raw. Qed.
(** The pointers of an object after the assignments *)
Definition filled (ps : list (nat * nat)) (v : option nat) (n : nat) (rs rs' : list (option nat)) : Prop :=
  List.length rs' = List.length rs /\ forall i x, nth_error rs i = Some x -> (In (n, i) ps /\ nth_error rs' i = Some v) \/ (~ In (n, i) ps /\ nth_error rs' i = Some x).
Lemma with_regs_twice {R} (o : obj R) a b : with_regs (with_regs o a) b = with_regs o b.
Proof. destruct o; reflexivity. Qed.
Lemma with_regs_same {R} (o : obj R) : with_regs o (regs_of o) = o.
Proof. destruct o; reflexivity. Qed.
Lemma set_slots_filled ps v os n o : nth_error os n = Some (Some o) ->
  exists rs', nth_error (set_slots ps v os) n = Some (Some (with_regs o rs')) /\ filled ps v n (regs_of o) rs'.
Proof.
  revert os o. induction ps as [|[m i] ps IH]; intros os o E; cbn [set_slots].
  - exists (regs_of o). rewrite with_regs_same. split; [auto|]. split; [auto|]. intros j x X. right. split; [intros []|auto].
  - destruct (Nat.eq_dec n m) as [->|N].
    + pose proof (set_slot_same m i v os o E) as E'. destruct (IH _ _ E') as (rs' & R1 & R2 & R3). rewrite with_regs_twice in R1.
      destruct o as [a b x y z|a b x|a b x y rs z|a b x y rs|a b x]; try (exists rs'; split; [exact R1|]; cbn [regs_of with_regs] in *; split; [auto|]; intros j w W; destruct j; discriminate).
      all: exists rs'; split; [exact R1|]; cbn [regs_of with_regs] in *; rewrite replace_length in R2; split; [auto|]; intros j w W;
        (destruct (Nat.eq_dec i j) as [->|NJ];
         [assert (L : j < List.length rs) by (apply nth_error_Some; congruence);
          destruct (R3 j v (replace_same j v rs L)) as [[R4 R5]|[R4 R5]]; left; (split; [|auto]); [right|left]; auto
         |rewrite <- (replace_other i j v rs NJ) in W; destruct (R3 j w W) as [[R4 R5]|[R4 R5]]; [left; split; [right|]; auto|right; split; [|auto]; intros [X|X]; [congruence|auto]]]).
    + rewrite <- (set_slot_other m i v os n N) in E. destruct (IH _ _ E) as (rs' & R1 & R2 & R3). exists rs'. split; [auto|]. split; [auto|].
      intros j x X. destruct (R3 j x X) as [[R4 R5]|[R4 R5]]; [left; split; [right|]; auto|right; split; [|auto]]. intros [Y|Y]; [congruence|auto].
Qed.

(** * The invariant *)

Section Read.
Variable heap : list (obj nat).
Hypothesis G : good_heap heap.

Definition num (sn : list nat) (a n : nat) : Prop := nth_error sn n = Some a.
Definition num_ref (sn : list nat) (r r' : sref) : Prop := fst r = fst r' /\ num sn (snd r) (snd r').
Definition num_param (sn : list nat) (p p' : param) : Prop :=
  match p, p' with
  | PPoint a, PPoint n => num sn a n
  | PLine r, PLine r' | PPolygon r, PPolygon r' => num_ref sn r r'
  | PLanelet (Some r), PLanelet (Some r') => num_ref sn r r'
  | PArea (Some a), PArea (Some n) => num sn a n
  | _, _ => False
  end.
(** All but the pointers to regulatory elements and, for [full = false], the centerline *)
Definition same (sn : list nat) (Q : list Z) (full : bool) (o : obj nat) (o' : obj (option nat)) : Prop :=
  match o, o' with
  | Point i t x y z, Point i' t' x' y' z' => i = i' /\ t = t' /\ x = x' /\ y = y' /\ z = z'
  | Line i t ps, Line i' t' ps' => i = i' /\ t = t' /\ Forall2 (num sn) ps ps'
  | Lanelet i t l r rs c, Lanelet i' t' l' r' rs' c' =>
      i = i' /\ t = t' /\ num_ref sn l l' /\ num_ref sn r r' /\ List.length rs = List.length rs' /\
      (if full then match c, c' with None, None => True | Some c, Some c' => num_ref sn c c' | _, _ => False end else c' = None)
  | Area i t ins out rs, Area i' t' ins' out' rs' =>
      i = i' /\ t = t' /\ Forall2 (Forall2 (num_ref sn)) ins ins' /\ Forall2 (num_ref sn) out out' /\ List.length rs = List.length rs'
  | Reg i t ps, Reg i' t' ps' =>
      i = i' /\ (In i Q -> t' = t) /\ (~ In i Q -> t' = set_attr "subtype" (rule_of t) t) /\
      Forall2 (fun e e' => fst e = fst e' /\ Forall2 (num_param sn) (snd e) (snd e')) ps ps'
  | _, _ => False
  end.
(** [Raw]: not constructed. [Slots i]: the first [i] pointers to regulatory elements were read. *)
Inductive stage := Raw | Slots (i : nat).
Definition slot_ok (sn : list nat) (p : list (Z * entry)) (n i r : nat) (v : option nat) : Prop :=
  match v with
  | Some m => num sn r m
  | None => exists o ps, nth_error heap r = Some o /\ find_entry (id_of o) p = Some (None, ps) /\ In (n, i) ps
  end.
Definition slots_ok (sn : list nat) (p : list (Z * entry)) (n : nat) (rs : list nat) (rs' : list (option nat)) (k : option nat) : Prop :=
  forall i r v, nth_error rs i = Some r -> nth_error rs' i = Some v ->
    match k with Some k => (i < k -> slot_ok sn p n i r v) /\ (k <= i -> v = None) | None => slot_ok sn p n i r v end.
Definition obj_ok (sn : list nat) (p : list (Z * entry)) (Q : list Z) (st : option stage) (n : nat) (o : obj nat) (e : option (obj (option nat))) : Prop :=
  match st with
  | Some Raw => e = None
  | Some (Slots k) => exists o', e = Some o' /\ same sn Q false o o' /\ slots_ok sn p n (regs_of o) (regs_of o') (Some k)
  | None => exists o', e = Some o' /\ same sn Q true o o' /\ slots_ok sn p n (regs_of o) (regs_of o') None
  end.
Definition pend_ok (sn : list nat) (P : nat -> option stage) (r : nat) (x : nat * nat) : Prop :=
  exists a o, num sn a (fst x) /\ nth_error heap a = Some o /\ nth_error (regs_of o) (snd x) = Some r /\
    (P (fst x) = None \/ exists k, P (fst x) = Some (Slots k) /\ snd x < k).
Record inv (s : wstate) (l : rstate) (P : nat -> option stage) (Q : list Z) : Prop := Inv {
  i_length : List.length (objs l) = List.length (seen s);
  i_nodup : NoDup (seen s);
  i_stage : forall n, P n <> None -> n < List.length (seen s);
  i_objs : forall n a, num (seen s) a n -> exists o e, nth_error heap a = Some o /\ nth_error (objs l) n = Some e /\ obj_ok (seen s) (pending l) Q (P n) n o e;
  i_entries : forall r i t ps, nth_error heap r = Some (Reg i t ps) ->
    match find_entry i (pending l) with
    | None => ~ In i (sent s) /\ ~ In r (seen s) /\ ~ In i Q
    | Some (Some m, _) => In i (sent s) /\ ~ In i Q /\ num (seen s) r m /\ P m = None
    | Some (None, ps) => In i (sent s) /\ In i Q /\ Forall (pend_ok (seen s) P r) ps
    end
}.

(** * Growing *)

Lemma num_app sn e a n : num sn a n -> num (sn ++ e) a n.
Proof. unfold num. intros E. rewrite nth_error_app1; [auto|]. apply nth_error_Some. congruence. Qed.
Lemma num_ref_app sn e r r' : num_ref sn r r' -> num_ref (sn ++ e) r r'.
Proof. intros [A B]. split; [auto|]. now apply num_app. Qed.
Lemma num_param_app sn e p p' : num_param sn p p' -> num_param (sn ++ e) p p'.
Proof. destruct p as [|?|?|[?|]|[?|]], p' as [|?|?|[?|]|[?|]]; cbn [num_param]; auto using num_app, num_ref_app. Qed.
Lemma Forall2_weaken {A B} (R R' : A -> B -> Prop) l l' : (forall x y, R x y -> R' x y) -> Forall2 R l l' -> Forall2 R' l l'.
Proof. intros H F. induction F; constructor; auto. Qed.
Lemma same_app sn e Q full o o' : same sn Q full o o' -> same (sn ++ e) Q full o o'.
Proof.
  destruct o as [i t x y z|i t ps|i t lft rgt rs c|i t ins out rs|i t ps], o' as [i' t' x' y' z'|i' t' ps'|i' t' lft' rgt' rs' c'|i' t' ins' out' rs'|i' t' ps']; cbn [same]; auto.
  - intros (A & B & C). repeat split; auto. eapply Forall2_weaken; [|eauto]. intros. now apply num_app.
  - intros (A & B & C & D & E & F). repeat (split; [solve [auto using num_ref_app]|]). destruct full; [|auto]. destruct c, c'; auto using num_ref_app.
  - intros (A & B & C & D & E). repeat (split; [solve [auto]|]). split; [|split; [|auto]].
    + eapply Forall2_weaken; [|eauto]. intros x y X. eapply Forall2_weaken; [|eauto]. intros. now apply num_ref_app.
    + eapply Forall2_weaken; [|eauto]. intros. now apply num_ref_app.
  - intros (A & B & C & D). repeat (split; [solve [auto]|]). eapply Forall2_weaken; [|eauto]. intros x y [X Y]. split; [auto|]. eapply Forall2_weaken; [|eauto]. intros. now apply num_param_app.
Qed.
Lemma slot_ok_app sn e p n i r v : slot_ok sn p n i r v -> slot_ok (sn ++ e) p n i r v.
Proof. destruct v; cbn [slot_ok]; auto using num_app. Qed.
Lemma obj_ok_app sn e p Q st n o x : obj_ok sn p Q st n o x -> obj_ok (sn ++ e) p Q st n o x.
Proof.
  destruct st as [[|k]|]; cbn [obj_ok]; [auto| |]; intros (o' & A & B & C); exists o'; (split; [auto|]; split; [now apply same_app|]); intros i r v Hr Hv; specialize (C i r v Hr Hv).
  - destruct C as [C D]. split; [|auto]. intros L. apply slot_ok_app. auto.
  - now apply slot_ok_app.
Qed.
Lemma num_inj sn a b n : num sn a n -> num sn b n -> a = b.
Proof. unfold num. congruence. Qed.
Lemma num_fun sn a n m : NoDup sn -> num sn a n -> num sn a m -> n = m.
Proof. unfold num. intros D A B. apply (NoDup_nth_error sn); [auto| |congruence]. apply nth_error_Some. congruence. Qed.

(** Only the values of the stages count. *)
Lemma inv_stages s l P P' Q : (forall n, P n = P' n) -> inv s l P Q -> inv s l P' Q.
Proof.
  intros H [I1 I2 I3 I4 I5]. constructor; auto.
  - intros n. rewrite <- H. auto.
  - intros n a N. destruct (I4 n a N) as (o & e & A & B & C). exists o, e. rewrite <- H. auto.
  - intros r i t ps E. specialize (I5 r i t ps E). destruct (find_entry i (pending l)) as [[[m|] qs]|]; [| |auto].
    + now rewrite <- H.
    + destruct I5 as (A & B & C). split; [auto|]. split; [auto|]. eapply Forall_impl; [|exact C]. intros x (a & o & X1 & X2 & X3 & X4). exists a, o. rewrite <- H. auto.
Qed.
Lemma inv_input s l P Q u : inv s l P Q -> inv s (RState u (objs l) (pending l)) P Q.
Proof. intros [I1 I2 I3 I4 I5]. constructor; auto. Qed.
Definition upd (P : nat -> option stage) (n : nat) (x : option stage) : nat -> option stage := fun m => if Nat.eqb m n then x else P m.
Lemma upd_same P n x : upd P n x n = x. Proof. unfold upd. now rewrite Nat.eqb_refl. Qed.
Lemma upd_other P n x m : m <> n -> upd P n x m = P m. Proof. intros N. unfold upd. destruct (Nat.eqb_spec m n); congruence. Qed.

(** A new object *)
Lemma inv_push s l P Q a o : inv s l P Q -> ~ In a (seen s) -> nth_error heap a = Some o -> (forall i t ps, o = Reg i t ps -> In i Q) ->
  inv (WState (seen s ++ [a]) (sent s)) (RState (input l) (objs l ++ [None]) (pending l)) (upd P (List.length (objs l)) (Some Raw)) Q.
Proof.
  intros [I1 I2 I3 I4 I5] NI E HQ. constructor; cbn [seen sent objs input pending].
  - rewrite !app_length. simpl. lia.
  - rewrite <- (rev_involutive (seen s ++ [a])). apply NoDup_rev. rewrite rev_app_distr. simpl. constructor; [rewrite <- in_rev; auto|now apply NoDup_rev].
  - intros n. rewrite app_length. simpl. destruct (Nat.eq_dec n (List.length (objs l))) as [->|N]; [lia|]. rewrite upd_other by auto. intros H. specialize (I3 n H). lia.
  - intros n b N. unfold num in N. apply nth_snoc in N as [N|[-> ->]].
    + destruct (I4 n b N) as (o' & e & A & B & C). assert (n < List.length (objs l)) by (apply nth_error_Some; congruence).
      exists o', e. split; [auto|]. split; [rewrite nth_error_app1; auto|]. rewrite upd_other by lia. now apply obj_ok_app.
    + exists o, None. split; [auto|]. rewrite <- I1, nth_last. split; [auto|]. rewrite upd_same. reflexivity.
  - intros r i t ps Er. specialize (I5 r i t ps Er). destruct (find_entry i (pending l)) as [[[m|] qs]|].
    + destruct I5 as (A & B & C & D). split; [auto|]. split; [auto|]. split; [now apply num_app|]. assert (m < List.length (seen s)) by (apply nth_error_Some; unfold num in C; congruence).
      rewrite upd_other by lia. auto.
    + destruct I5 as (A & B & C). split; [auto|]. split; [auto|]. eapply Forall_impl; [|exact C]. intros x (b & o' & X1 & X2 & X3 & X4). exists b, o'.
      split; [now apply num_app|]. split; [auto|]. split; [auto|]. assert (fst x < List.length (seen s)) by (apply nth_error_Some; unfold num in X1; congruence). rewrite upd_other by lia. auto.
    + destruct I5 as (A & B & C). split; [auto|]. split; [|auto]. intros X. apply in_app_or in X as [X|[->|[]]]; [auto|]. assert (o = Reg i t ps) by congruence. apply C. eapply HQ; eauto.
Qed.

(** A constructed object: [st] is the next stage. *)
Lemma inv_construct s l P Q n a o o' st : inv s l P Q -> num (seen s) a n -> nth_error heap a = Some o -> P n = Some Raw ->
  st <> Some Raw -> obj_ok (seen s) (pending l) Q st n o (Some o') -> inv s (set_obj n o' l) (upd P n st) Q.
Proof.
  intros [I1 I2 I3 I4 I5] N E R NR OK. assert (L : n < List.length (seen s)) by (apply nth_error_Some; unfold num in N; congruence).
  constructor; cbn [set_obj objs pending input].
  - now rewrite replace_length.
  - auto.
  - intros m H. destruct (Nat.eq_dec m n) as [->|D]; [auto|]. rewrite upd_other in H by auto. auto.
  - intros m b M. destruct (Nat.eq_dec m n) as [->|D].
    + assert (b = a) by (eapply num_inj; eauto). subst b. exists o, (Some o'). split; [auto|]. split; [apply replace_same; lia|]. now rewrite upd_same.
    + destruct (I4 m b M) as (x & e & A & B & C). exists x, e. split; [auto|]. split; [rewrite replace_other; auto|]. now rewrite upd_other.
  - intros r i t ps Er. specialize (I5 r i t ps Er). destruct (find_entry i (pending l)) as [[[m|] qs]|]; [| |auto].
    + destruct I5 as (A & B & C & D). repeat (split; [solve [auto]|]). destruct (Nat.eq_dec m n) as [->|X]; [congruence|]. now rewrite upd_other.
    + destruct I5 as (A & B & C). split; [auto|]. split; [auto|]. eapply Forall_impl; [|exact C]. intros x (b & o1 & X1 & X2 & X3 & X4). exists b, o1.
      repeat (split; [solve [auto]|]). destruct (Nat.eq_dec (fst x) n) as [X|X]; [exfalso; rewrite X in X4; destruct X4 as [X4|(k & X4 & _)]; congruence|]. now rewrite upd_other.
Qed.
(** The end of a constructor: all pointers were read. *)
Lemma inv_finish s l P Q n a o o' o2 k : inv s l P Q -> num (seen s) a n -> nth_error heap a = Some o -> P n = Some (Slots k) -> List.length (regs_of o) <= k ->
  nth_error (objs l) n = Some (Some o') -> regs_of o2 = regs_of o' -> same (seen s) Q true o o2 -> inv s (set_obj n o2 l) (upd P n None) Q.
Proof.
  intros [I1 I2 I3 I4 I5] N E R LK Eo RS SM. assert (L : n < List.length (seen s)) by (apply nth_error_Some; unfold num in N; congruence).
  constructor; cbn [set_obj objs pending input].
  - now rewrite replace_length.
  - auto.
  - intros m H. destruct (Nat.eq_dec m n) as [->|D]; [auto|]. rewrite upd_other in H by auto. auto.
  - intros m b M. destruct (Nat.eq_dec m n) as [->|D].
    + assert (b = a) by (eapply num_inj; eauto). subst b. exists o, (Some o2). split; [auto|]. split; [apply replace_same; lia|]. rewrite upd_same.
      exists o2. split; [auto|]. split; [auto|]. rewrite RS. destruct (I4 n a M) as (x & e & A & B & C). assert (x = o) by congruence. subst x.
      rewrite R in C. destruct C as (y & C1 & C2 & C3). assert (y = o') by congruence. subst y. intros i r v Hr Hv. destruct (C3 i r v Hr Hv) as [C4 _]. apply C4.
      apply Nat.lt_le_trans with (List.length (regs_of o)); [apply nth_error_Some; congruence|auto].
    + destruct (I4 m b M) as (x & e & A & B & C). exists x, e. split; [auto|]. split; [rewrite replace_other; auto|]. now rewrite upd_other.
  - intros r i t ps Er. specialize (I5 r i t ps Er). destruct (find_entry i (pending l)) as [[[m|] qs]|]; [| |auto].
    + destruct I5 as (A & B & C & D). repeat (split; [solve [auto]|]). destruct (Nat.eq_dec m n) as [->|X]; [now rewrite upd_same|]. now rewrite upd_other.
    + destruct I5 as (A & B & C). split; [auto|]. split; [auto|]. eapply Forall_impl; [|exact C]. intros x (b & o1 & X1 & X2 & X3 & X4). exists b, o1.
      repeat (split; [solve [auto]|]). destruct (Nat.eq_dec (fst x) n) as [X|X]; [left; rewrite X; apply upd_same|]. now rewrite upd_other.
Qed.

(** * Pointers to regulatory elements *)

Lemma same_with_regs sn Q full o o' rs : List.length rs = List.length (regs_of o') -> same sn Q full o o' -> same sn Q full o (with_regs o' rs).
Proof.
  destruct o, o'; cbn [same with_regs regs_of]; auto; intros L H; decompose [and] H; repeat (split; [solve [auto; congruence]|]); auto; congruence.
Qed.
(** A pointer is stored. *)
Lemma inv_store s l P Q n i a o r m : inv s l P Q -> num (seen s) a n -> nth_error heap a = Some o -> P n = Some (Slots i) -> nth_error (regs_of o) i = Some r ->
  num (seen s) r m -> inv s (RState (input l) (set_slot n i (Some m) (objs l)) (pending l)) (upd P n (Some (Slots (S i)))) Q.
Proof.
  intros [I1 I2 I3 I4 I5] N E R Er M. assert (L : n < List.length (seen s)) by (apply nth_error_Some; unfold num in N; congruence).
  constructor; cbn [objs pending input].
  - now rewrite set_slot_length.
  - auto.
  - intros j H. destruct (Nat.eq_dec j n) as [->|D]; [auto|]. rewrite upd_other in H by auto. auto.
  - intros j b J. destruct (Nat.eq_dec j n) as [->|D].
    + assert (b = a) by (eapply num_inj; eauto). subst b. destruct (I4 n a J) as (x & e & A & B & C). assert (x = o) by congruence. subst x.
      rewrite R in C. destruct C as (o' & -> & C2 & C3). exists o, (Some (with_regs o' (replace i (Some m) (regs_of o')))). split; [auto|].
      split; [now apply set_slot_same|]. rewrite upd_same. eexists. split; [reflexivity|]. split; [apply same_with_regs; [apply replace_length|auto]|].
      intros k q v Hq Hv. assert (RW : regs_of (with_regs o' (replace i (Some m) (regs_of o'))) = replace i (Some m) (regs_of o')).
      { destruct o'; cbn [with_regs regs_of]; auto; destruct i; reflexivity. }
      rewrite RW in Hv. apply replace_cases in Hv as [[-> ->]|[D Hv]].
      * split; [|lia]. intros _. cbn [slot_ok]. congruence.
      * destruct (C3 k q v Hq Hv) as [C4 C5]. split; [intros X; apply C4; lia|intros X; apply C5; lia].
    + destruct (I4 j b J) as (x & e & A & B & C). exists x, e. split; [auto|]. split; [rewrite set_slot_other; auto|]. now rewrite upd_other.
  - intros q j t ps Eq. specialize (I5 q j t ps Eq). destruct (find_entry j (pending l)) as [[[z|] qs]|]; [| |auto].
    + destruct I5 as (A & B & C & D). repeat (split; [solve [auto]|]). destruct (Nat.eq_dec z n) as [->|X]; [congruence|]. now rewrite upd_other.
    + destruct I5 as (A & B & C). split; [auto|]. split; [auto|]. eapply Forall_impl; [|exact C]. intros x (b & o1 & X1 & X2 & X3 & X4). exists b, o1.
      repeat (split; [solve [auto]|]). destruct (Nat.eq_dec (fst x) n) as [X|X]; [|now rewrite upd_other]. right. rewrite X, upd_same in *. exists (S i). split; [auto|].
      destruct X4 as [X4|(k & X4 & X5)]; [congruence|]. assert (k = i) by congruence. lia.
Qed.
(** A pointer waits. *)
Lemma inv_wait s l P Q n i a o r id t qs ps : inv s l P Q -> num (seen s) a n -> nth_error heap a = Some o -> P n = Some (Slots i) -> nth_error (regs_of o) i = Some r ->
  nth_error heap r = Some (Reg id t qs) -> find_entry id (pending l) = Some (None, ps) ->
  inv s (RState (input l) (objs l) (set_entry id (None, ps ++ [(n, i)]) (pending l))) (upd P n (Some (Slots (S i)))) Q.
Proof.
  intros [I1 I2 I3 I4 I5] N E R Er H F. assert (L : n < List.length (seen s)) by (apply nth_error_Some; unfold num in N; congruence).
  assert (K : forall j k q v, slot_ok (seen s) (pending l) j k q v -> slot_ok (seen s) (set_entry id (None, ps ++ [(n, i)]) (pending l)) j k q v).
  { intros j k q [v|]; cbn [slot_ok]; auto. intros (x & ys & X1 & X2 & X3). destruct (Z.eqb_spec (id_of x) id) as [X|X].
    - exists x, (ps ++ [(n, i)]). split; [auto|]. split; [rewrite find_set, X, Z.eqb_refl; auto|]. apply in_or_app. left. rewrite X, F in X2. congruence.
    - exists x, ys. split; [auto|]. split; [|auto]. rewrite find_set. destruct (Z.eqb_spec (id_of x) id); [congruence|auto]. }
  constructor; cbn [objs pending input].
  - auto.
  - auto.
  - intros j X. destruct (Nat.eq_dec j n) as [->|D]; [auto|]. rewrite upd_other in X by auto. auto.
  - intros j b J. destruct (I4 j b J) as (x & e & A & B & C). exists x, e. split; [auto|]. split; [auto|]. destruct (Nat.eq_dec j n) as [->|D].
    + assert (b = a) by (eapply num_inj; eauto). subst b. assert (x = o) by congruence. subst x. rewrite R in C. destruct C as (o' & -> & C2 & C3).
      rewrite upd_same. exists o'. split; [auto|]. split; [auto|]. intros k q v Hq Hv. destruct (C3 k q v Hq Hv) as [C4 C5]. split; [|intros X; apply C5; lia].
      intros X. destruct (Nat.eq_dec k i) as [->|D]; [|apply K, C4; lia]. rewrite (C5 (le_n _)) in *. assert (q = r) by congruence. subst q. cbn [slot_ok].
      exists (Reg id t qs), (ps ++ [(n, i)]). split; [auto|]. cbn [id_of]. rewrite find_set, Z.eqb_refl. split; [auto|]. apply in_or_app. right. left. auto.
    + rewrite upd_other by auto. destruct (P j) as [[|k]|]; cbn [obj_ok] in *; [auto| |]; destruct C as (o' & C1 & C2 & C3); exists o'; (split; [auto|]; split; [auto|]);
        intros y q v Hq Hv; specialize (C3 y q v Hq Hv); [|now apply K]. destruct C3 as [C4 C5]. split; [intros X; apply K; auto|auto].
  - intros q j t' ps' Eq. specialize (I5 q j t' ps' Eq). rewrite find_set. destruct (Z.eqb_spec j id) as [->|D].
    + rewrite F in I5. destruct I5 as (A & B & C). split; [auto|]. split; [auto|]. assert (q = r) by (destruct G as [_ G2]; eapply G2; eauto). subst q.
      apply Forall_app. split.
      * eapply Forall_impl; [|exact C]. intros x (b & o1 & X1 & X2 & X3 & X4). exists b, o1. repeat (split; [solve [auto]|]).
        destruct (Nat.eq_dec (fst x) n) as [X|X]; [|now rewrite upd_other]. right. rewrite X, upd_same in *. exists (S i). split; [auto|].
        destruct X4 as [X4|(k & X4 & X5)]; [congruence|]. assert (k = i) by congruence. lia.
      * constructor; [|constructor]. exists a, o. cbn [fst snd]. repeat (split; [solve [auto]|]). right. exists (S i). rewrite upd_same. split; [auto|lia].
    + destruct (find_entry j (pending l)) as [[[z|] ys]|]; [| |auto].
      * destruct I5 as (A & B & C & D'). repeat (split; [solve [auto]|]). destruct (Nat.eq_dec z n) as [->|X]; [congruence|]. now rewrite upd_other.
      * destruct I5 as (A & B & C). split; [auto|]. split; [auto|]. eapply Forall_impl; [|exact C]. intros x (b & o1 & X1 & X2 & X3 & X4). exists b, o1. repeat (split; [solve [auto]|]).
        destruct (Nat.eq_dec (fst x) n) as [X|X]; [|now rewrite upd_other]. right. rewrite X, upd_same in *. exists (S i). split; [auto|].
        destruct X4 as [X4|(k & X4 & X5)]; [congruence|]. assert (k = i) by congruence. lia.
Qed.
(** A regulatory element begins. *)
Lemma inv_begin s l P Q r id t ps : inv s l P Q -> nth_error heap r = Some (Reg id t ps) -> find_entry id (pending l) = None ->
  inv (WState (seen s) (id :: sent s)) (RState (input l) (objs l) (set_entry id (None, []) (pending l))) P (id :: Q).
Proof.
  intros [I1 I2 I3 I4 I5] E F.
  assert (K : forall j k q v, slot_ok (seen s) (pending l) j k q v -> slot_ok (seen s) (set_entry id (None, []) (pending l)) j k q v).
  { intros j k q [v|]; cbn [slot_ok]; auto. intros (x & ys & X1 & X2 & X3). exists x, ys. split; [auto|]. split; [|auto]. rewrite find_set.
    destruct (Z.eqb_spec (id_of x) id) as [X|X]; [rewrite X, F in X2; discriminate|auto]. }
  assert (NS : ~ In r (seen s)) by (specialize (I5 r id t ps E); rewrite F in I5; tauto).
  constructor; cbn [objs pending input seen sent]; auto.
  - intros j b J. destruct (I4 j b J) as (x & e & A & B & C). exists x, e. split; [auto|]. split; [auto|].
    assert (SM : forall full o', same (seen s) Q full x o' -> same (seen s) (id :: Q) full x o').
    { intros full o' S. destruct x, o'; cbn [same] in *; auto. destruct S as (S1 & S2 & S3 & S4). split; [auto|].
      assert (id0 <> id). { intros ->. apply NS. assert (b = r) by (destruct G as [_ G2]; eapply G2; eauto). subst b. eapply nth_error_In; exact J. }
      split; [intros [X|X]; [congruence|auto]|]. split; [|auto]. intros X. apply S3. intros Y. apply X. right. auto. }
    destruct (P j) as [[|k]|]; cbn [obj_ok] in *; [auto| |]; destruct C as (o' & C1 & C2 & C3); exists o'; (split; [auto|]; split; [auto|]);
      intros y q v Hq Hv; specialize (C3 y q v Hq Hv); [|now apply K]. destruct C3 as [C4 C5]. split; [intros X; apply K; auto|auto].
  - intros q j t' ps' Eq. specialize (I5 q j t' ps' Eq). rewrite find_set. destruct (Z.eqb_spec j id) as [->|D].
    + split; [left; auto|]. split; [left; auto|]. constructor.
    + destruct (find_entry j (pending l)) as [[[z|] ys]|].
      * destruct I5 as (A & B & C & D'). split; [right; auto|]. split; [|auto]. intros [X|X]; [congruence|auto].
      * destruct I5 as (A & B & C). split; [right; auto|]. split; [right; auto|]. auto.
      * destruct I5 as (A & B & C). split; [intros [X|X]; [congruence|auto]|]. split; [auto|]. intros [X|X]; [congruence|auto].
Qed.
(** A regulatory element is done. *)
Lemma inv_done s l P Q r id t ps m t' ps' qs : inv s l P (id :: Q) -> ~ In id Q -> nth_error heap r = Some (Reg id t ps) -> num (seen s) r m -> P m = None ->
  nth_error (objs l) m = Some (Some (Reg id t' ps')) -> find_entry id (pending l) = Some (None, qs) ->
  inv s (RState (input l) (set_slots qs (Some m) (replace m (Some (Reg id (set_attr "subtype" (rule_of t) t) ps')) (objs l))) (set_entry id (Some m, qs) (pending l))) P Q.
Proof.
  intros [I1 I2 I3 I4 I5] NQ E N PM Eo F. assert (L : m < List.length (objs l)) by (apply nth_error_Some; congruence).
  pose proof (I5 r id t ps E) as IE. rewrite F in IE. destruct IE as (_ & _ & PO).
  assert (PR : forall j k, In (j, k) qs -> forall b x, num (seen s) b j -> nth_error heap b = Some x -> nth_error (regs_of x) k = Some r).
  { intros j k X b x B Ex. rewrite Forall_forall in PO. destruct (PO _ X) as (b' & x' & X1 & X2 & X3 & _). cbn [fst snd] in *. assert (b' = b) by (eapply num_inj; eauto). subst b'. congruence. }
  assert (SL : forall j k q v b x, num (seen s) b j -> nth_error heap b = Some x -> nth_error (regs_of x) k = Some q -> slot_ok (seen s) (pending l) j k q v -> ~ In (j, k) qs -> slot_ok (seen s) (set_entry id (Some m, qs) (pending l)) j k q v).
  { intros j k q [v|] b x B Ex Eq; cbn [slot_ok]; auto. intros (y & ys & X1 & X2 & X3) X4. exists y, ys. split; [auto|]. split; [|auto]. rewrite find_set.
    destruct (Z.eqb_spec (id_of y) id) as [X|X]; [|auto]. rewrite X, F in X2. injection X2 as <-. contradiction. }
  constructor; cbn [objs pending input seen sent]; auto.
  - now rewrite set_slots_length, replace_length.
  - intros j b J. destruct (I4 j b J) as (x & e & A & B & C). destruct (Nat.eq_dec j m) as [->|D].
    + assert (b = r) by (eapply num_inj; eauto). subst b. assert (x = Reg id t ps) by congruence. subst x. rewrite Eo in B. injection B as <-. rewrite PM in *.
      destruct C as (o' & [= <-] & C2 & C3). destruct (set_slots_filled qs (Some m) (replace m (Some (Reg id (set_attr "subtype" (rule_of t) t) ps')) (objs l)) m _ (replace_same _ _ _ L)) as (rs' & R1 & _).
      eexists _, _. split; [exact A|]. split; [exact R1|]. cbn [with_regs obj_ok]. eexists. split; [reflexivity|]. split.
      * cbn [same] in *. destruct C2 as (_ & _ & _ & C2). split; [auto|]. split; [intros X; contradiction|]. auto.
      * intros k q v Hq. destruct k; discriminate.
    + assert (B' : nth_error (replace m (Some (Reg id (set_attr "subtype" (rule_of t) t) ps')) (objs l)) j = Some e) by (rewrite replace_other; auto).
      assert (SM : forall full o', same (seen s) (id :: Q) full x o' -> same (seen s) Q full x o').
      { intros full o' S. destruct x, o'; cbn [same] in *; auto. destruct S as (S1 & S2 & S3 & S4). split; [auto|].
        assert (id0 <> id). { intros ->. apply D. assert (b = r) by (destruct G as [_ G2]; eapply G2; eauto). subst b. eapply num_fun; eauto. }
        split; [intros X; apply S2; right; auto|]. split; [|auto]. intros X. apply S3. intros [Y|Y]; [congruence|auto]. }
      assert (FI : forall rs rs' k0, List.length (regs_of x) = List.length rs -> slots_ok (seen s) (pending l) j (regs_of x) rs k0 ->
                (match k0 with Some k0 => P j = Some (Slots k0) | None => True end) -> filled qs (Some m) j rs rs' ->
                slots_ok (seen s) (set_entry id (Some m, qs) (pending l)) j (regs_of x) rs' k0).
      { intros rs rs' k0 LE S PK [F1 F2] k q v Hq Hv. assert (LK : k < List.length (regs_of x)) by (apply nth_error_Some; congruence).
        destruct (nth_error rs k) as [w|] eqn:W; [|apply nth_error_None in W; lia]. specialize (S k q w Hq W).
        destruct (F2 k w W) as [[X1 X2]|[X1 X2]].
        - assert (v = Some m) by congruence. subst v. assert (q = r) by (pose proof (PR j k X1 b x J A); congruence). subst q. destruct k0 as [k0|]; [|exact N].
          split; [intros _; exact N|]. intros Y. exfalso. rewrite Forall_forall in PO. destruct (PO _ X1) as (b' & x' & _ & _ & _ & [Z|(k' & Z & Z')]); cbn [fst snd] in *; [congruence|].
          assert (k' = k0) by congruence. lia.
        - assert (v = w) by congruence. subst v. destruct k0 as [k0|]; [|eapply SL; eauto]. destruct S as [S1 S2]. split; [intros Y; eapply SL; eauto|auto]. }
      assert (LR : forall full o', same (seen s) (id :: Q) full x o' -> List.length (regs_of x) = List.length (regs_of o')).
      { intros full o' S. destruct x, o'; cbn [same regs_of] in *; try tauto; try reflexivity. }
      destruct (P j) as [[|k0]|] eqn:PJ; cbn [obj_ok] in C.
      * subst e. exists x, None. split; [auto|]. split; [apply set_slots_raw; auto|]. reflexivity.
      * destruct C as (o' & -> & C2 & C3). destruct (set_slots_filled qs (Some m) _ j o' B') as (rs' & R1 & R2). exists x, (Some (with_regs o' rs')).
        split; [auto|]. split; [auto|]. eexists. split; [reflexivity|]. split; [apply same_with_regs; [apply R2|auto]|].
        destruct (regs_of o') eqn:RO; [intros k q v Hq Hv; pose proof (LR _ _ C2) as LL; rewrite RO in LL; destruct (regs_of x); [destruct k; discriminate|discriminate]|rewrite <- RO in *].
        replace (regs_of (with_regs o' rs')) with rs' by (destruct o'; try discriminate RO; reflexivity). apply (FI (regs_of o') rs' (Some k0)); eauto.
      * destruct C as (o' & -> & C2 & C3). destruct (set_slots_filled qs (Some m) _ j o' B') as (rs' & R1 & R2). exists x, (Some (with_regs o' rs')).
        split; [auto|]. split; [auto|]. eexists. split; [reflexivity|]. split; [apply same_with_regs; [apply R2|auto]|].
        destruct (regs_of o') eqn:RO; [intros k q v Hq Hv; pose proof (LR _ _ C2) as LL; rewrite RO in LL; destruct (regs_of x); [destruct k; discriminate|discriminate]|rewrite <- RO in *].
        replace (regs_of (with_regs o' rs')) with rs' by (destruct o'; try discriminate RO; reflexivity). apply (FI (regs_of o') rs' None); eauto.
  - intros q j u qs' Eq. specialize (I5 q j u qs' Eq). rewrite find_set. destruct (Z.eqb_spec j id) as [->|D].
    + rewrite F in I5. destruct I5 as (A & B & C). split; [auto|]. split; [auto|]. assert (q = r) by (destruct G as [_ G2]; eapply G2; eauto). subst q. auto.
    + destruct (find_entry j (pending l)) as [[[z|] ys]|].
      * destruct I5 as (A & B & C & D'). split; [auto|]. split; [|auto]. intros X. apply B. right. auto.
      * destruct I5 as (A & B & C). split; [auto|]. split; [|auto]. destruct B as [X|X]; [congruence|auto].
      * destruct I5 as (A & B & C). split; [auto|]. split; [auto|]. intros X. apply C. right. auto.
Qed.
End Read.
