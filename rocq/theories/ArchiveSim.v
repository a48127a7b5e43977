(** Proofs about the binary format of a map: what was written is read. *)
From Coq Require Import List Bool Arith ZArith String Lia.
From Verif Require Import ArchiveModel ArchiveSpec ArchiveProofs ArchiveRead.
Import ListNotations.
Local Arguments bind : simpl never.

Lemma seq_inv f g s u s' : seq_ f g s = Done (u, s') -> exists u1 s1 u2, f s = Done (u1, s1) /\ g s1 = Done (u2, s') /\ u = u1 ++ u2.
Proof.
  unfold seq_, bind. destruct (f s) as [[u1 s1]| | | |] eqn:F; try discriminate. destruct (g s1) as [[u2 s2]| | | |] eqn:H; try discriminate.
  intros E. injection E as <- <-. eauto 8.
Qed.
Lemma bind_done {A B} (x : A) (f : A -> outcome B) : bind (Done x) f = f x. Proof. reflexivity. Qed.

(** * Attributes *)

Lemma lookup_value k t : lookup k t = value k t.
Proof. unfold value. induction t as [|[k' v] t IH]; cbn [lookup find fst]; [reflexivity|]. destruct (String.eqb k k'); [reflexivity|exact IH]. Qed.
Lemma set_attr_same k v t : lookup k t = Some v -> set_attr k v t = t.
Proof.
  induction t as [|[k' v'] t IH]; cbn [lookup set_attr]; [discriminate|]. destruct (String.eqb_spec k k') as [->|N]; [intros [= ->]; reflexivity|].
  intros E. now rewrite IH.
Qed.
Lemma lookup_set k v t : lookup k (set_attr k v t) = Some v.
Proof.
  induction t as [|[k' v'] t IH]; cbn [set_attr lookup]; [now rewrite String.eqb_refl|]. destruct (String.eqb_spec k k') as [->|N]; cbn [lookup].
  - now rewrite String.eqb_refl.
  - destruct (String.eqb_spec k k'); [congruence|auto].
Qed.
Lemma lookup_other j k v t : j <> k -> lookup j (set_attr k v t) = lookup j t.
Proof.
  intros N. induction t as [|[k' v'] t IH]; cbn [set_attr lookup]; [destruct (String.eqb_spec j k); congruence|]. destruct (String.eqb_spec k k') as [->|D]; cbn [lookup].
  - destruct (String.eqb_spec j k'); [congruence|auto].
  - destruct (String.eqb_spec j k'); auto.
Qed.
Lemma completed_set t : completed t (set_attr "subtype" (rule_of t) t).
Proof.
  split; [|split].
  - intros v E N. rewrite <- lookup_value in E. unfold rule_of. rewrite E. destruct (String.eqb_spec v ""); [contradiction|]. now apply set_attr_same.
  - intros k N. rewrite <- !lookup_value. now apply lookup_other.
  - intros H. rewrite <- !lookup_value in *. rewrite lookup_set. unfold rule_of. destruct H as [->| ->]; reflexivity.
Qed.

Section Sim.
Variable heap : list (obj nat).
Hypothesis G : good_heap heap.
Variable registry : string -> option (attributes -> list (string * list view) -> bool).
Hypothesis CON : Forall (constructible registry heap) heap.
Notation inv := (inv heap).

(** * Simulation *)

Definition sim {T} (N : nat) (P : nat -> option stage) (Q : list Z) (s0 : wstate) (w : writes) (g : reads T) (post : list nat -> T -> Prop) : Prop :=
  forall s u s' l rest, extends s0 s -> w s = Done (u, s') -> List.length u <= N -> inv s l P Q -> input l = u ++ rest ->
  exists x l', g l = Done (x, l') /\ input l' = rest /\ inv s' l' P Q /\ extends s s' /\ post (seen s') x.

Lemma sim_later {T} N P Q s0 s1 w (g : reads T) post : extends s0 s1 -> sim N P Q s0 w g post -> sim N P Q s1 w g post.
Proof. intros E H s u s' l rest E'. apply H. eapply extends_trans; eauto. Qed.
Lemma sim_token {T} N P Q s0 t (g : reads T) x : (forall l r, input l = t :: r -> g l = Done (x, RState r (objs l) (pending l))) ->
  sim N P Q s0 (put t) g (fun _ y => y = x).
Proof.
  intros H s u s' l rest _ W _ I E. unfold put in W. injection W as <- <-. simpl in E. exists x, (RState rest (objs l) (pending l)).
  split; [now apply H|]. split; [auto|]. split; [now apply inv_input|]. split; [apply extends_refl|auto].
Qed.
Lemma sim_int N P Q s0 z : sim N P Q s0 (put (TInt z)) get_int (fun _ y => y = z).
Proof. apply sim_token. intros l r E. unfold get_int, next. rewrite E. reflexivity. Qed.
Lemma sim_bool N P Q s0 z : sim N P Q s0 (put (TBool z)) get_bool (fun _ y => y = z).
Proof. apply sim_token. intros l r E. unfold get_bool, next. rewrite E. reflexivity. Qed.
Lemma sim_attrs N P Q s0 z : sim N P Q s0 (put (TAttrs z)) get_attrs (fun _ y => y = z).
Proof. apply sim_token. intros l r E. unfold get_attrs, next. rewrite E. reflexivity. Qed.
Lemma sim_size N P Q s0 z : sim N P Q s0 (put (TSize z)) get_size (fun _ y => y = z).
Proof. apply sim_token. intros l r E. unfold get_size, next. rewrite E. reflexivity. Qed.
Lemma sim_str N P Q s0 z : sim N P Q s0 (put (TStr z)) get_str (fun _ y => y = z).
Proof. apply sim_token. intros l r E. unfold get_str, next. rewrite E. reflexivity. Qed.

Lemma sim_bind {T U} N P Q s0 w w' (g : reads T) (h : T -> reads U) post post' : sim N P Q s0 w g post ->
  (forall s1 x, extends s0 s1 -> post (seen s1) x -> sim N P Q s1 w' (h x) post') -> sim N P Q s0 (seq_ w w') (fun l => do (x, l) <- g l; h x l) post'.
Proof.
  intros H1 H2 s u s' l rest E W L I EI. apply seq_inv in W as (u1 & s1 & u2 & W1 & W2 & ->). rewrite app_length in L. rewrite <- app_assoc in EI.
  destruct (H1 s u1 s1 l (u2 ++ rest) E W1 ltac:(lia) I EI) as (x & l1 & A1 & A2 & A3 & A4 & A5). assert (E1 : extends s0 s1) by (eapply extends_trans; eauto).
  destruct (H2 s1 x E1 A5 s1 u2 s' l1 rest (extends_refl _) W2 ltac:(lia) A3 A2) as (y & l2 & B1 & B2 & B3 & B4 & B5).
  exists y, l2. rewrite A1, bind_done. split; [auto|]. split; [auto|]. split; [auto|]. split; [eapply extends_trans; eauto|auto].
Qed.
Lemma sim_map {T U} N P Q s0 w (g : reads T) (f : T -> U) (post : list nat -> T -> Prop) (post' : list nat -> U -> Prop) : sim N P Q s0 w g post ->
  (forall sn x, post sn x -> post' sn (f x)) -> sim N P Q s0 w (fun l => do (x, l) <- g l; Done (f x, l)) post'.
Proof.
  intros H1 H2 s u s' l rest E W L I EI. destruct (H1 s u s' l rest E W L I EI) as (x & l1 & A1 & A2 & A3 & A4 & A5).
  exists (f x), l1. rewrite A1, bind_done. auto 6.
Qed.
Lemma sim_post {T} N P Q s0 w (g : reads T) (post post' : list nat -> T -> Prop) : sim N P Q s0 w g post ->
  (forall s1 x, extends s0 s1 -> post (seen s1) x -> post' (seen s1) x) -> sim N P Q s0 w g post'.
Proof.
  intros H1 H2 s u s' l rest E W L I EI. destruct (H1 s u s' l rest E W L I EI) as (x & l1 & A1 & A2 & A3 & A4 & A5).
  exists x, l1. repeat (split; [solve [auto]|]). apply H2; [eapply extends_trans; eauto|auto].
Qed.
Lemma sim_all {T U} N P Q s0 (f : T -> writes) (g : reads U) (R : list nat -> T -> U -> Prop) xs : (forall sn e x y, R sn x y -> R (sn ++ e) x y) ->
  (forall x, In x xs -> sim N P Q s0 (f x) g (fun sn => R sn x)) -> sim N P Q s0 (put_all f xs) (get_all g (List.length xs)) (fun sn ys => Forall2 (R sn) xs ys).
Proof.
  intros M. revert s0. induction xs as [|x xs IH]; intros s0 H.
  - intros s u s' l rest E W L I EI. cbn [put_all] in W. unfold skip in W. injection W as <- <-. exists [], l. split; [reflexivity|]. split; [exact EI|]. split; [auto|]. split; [apply extends_refl|constructor].
  - cbn [put_all List.length get_all]. apply (sim_bind N P Q s0 (f x) (put_all f xs) g (fun x l => do (r, l) <- get_all g (List.length xs) l; Done (x :: r, l)) (fun sn => R sn x)); [apply H; left; auto|].
    intros s1 y E1 Ry. apply sim_map with (f := fun r => y :: r) (post := fun sn r => Forall2 (R sn) xs r /\ R sn x y).
    + eapply sim_post; [apply IH|].
      * intros z Z. apply sim_later with s0; [auto|]. apply H. right. auto.
      * intros s2 r [e E2] F. split; [exact F|]. rewrite E2. now apply M.
    + intros sn r [A B]. constructor; auto.
Qed.
Lemma sim_list {T U} N P Q s0 (f : T -> writes) (g : reads U) (R : list nat -> T -> U -> Prop) xs : (forall sn e x y, R sn x y -> R (sn ++ e) x y) ->
  (forall x, In x xs -> sim N P Q s0 (f x) g (fun sn => R sn x)) -> sim N P Q s0 (put_list f xs) (get_list g) (fun sn ys => Forall2 (R sn) xs ys).
Proof.
  intros M H. unfold put_list, get_list. apply (sim_bind N P Q s0 (put (TSize (List.length xs))) (put_all f xs) get_size (fun n l => get_all g n l) (fun _ y => y = List.length xs)); [apply sim_size|].
  intros s1 n E1 ->. apply sim_all; [auto|]. intros x X. apply sim_later with s0; auto.
Qed.

(** * Kinds *)

Definition of_kind (k : kind) (a : nat) : Prop :=
  match k with KPoint => is_point heap a | KLine => is_line heap a | KLanelet => is_lanelet heap a | KArea => is_area heap a | KReg => is_reg heap a end.
(** No line string is being read. *)
Definition calm (P : nat -> option stage) (sn : list nat) : Prop := forall n, P n <> None -> exists a, num sn a n /\ ~ is_line heap a.
Lemma calm_app P sn e : calm P sn -> calm P (sn ++ e).
Proof. intros H n N. destruct (H n N) as (a & A & B). exists a. split; [now apply num_app|auto]. Qed.
Lemma calm_extends P s s' : extends s s' -> calm P (seen s) -> calm P (seen s').
Proof. intros [e ->]. apply calm_app. Qed.
Lemma calm_upd P sn n a x : calm P sn -> num sn a n -> ~ is_line heap a -> calm (upd P n x) sn.
Proof.
  intros H N D m M. destruct (Nat.eq_dec m n) as [->|K]; [exists a; auto|]. rewrite upd_other in M by auto. auto.
Qed.
(** How pointers are written and read *)
Definition ready (k : kind) (a : nat) (P : nat -> option stage) (Q : list Z) (sn : list nat) : Prop :=
  match k with
  | KPoint | KLine => True
  | KReg => calm P sn /\ exists i t ps, nth_error heap a = Some (Reg i t ps) /\ In i Q
  | _ => calm P sn
  end.
Definition pointers (N : nat) (pw : nat -> writes) (pg : kind -> reads nat) : Prop :=
  forall P Q s0 k a, of_kind k a -> ready k a P Q (seen s0) -> sim N P Q s0 (pw a) (pg k) (fun sn n => num sn a n).

Section Members.
Variable N : nat.
Variable pw : nat -> writes.
Variable pg : kind -> reads nat.
Hypothesis PT : pointers N pw pg.

Lemma sim_ref P Q s0 k r : (k = KLine \/ (k = KLanelet /\ calm P (seen s0))) -> of_kind k (snd r) ->
  sim N P Q s0 (put_ref pw r) (get_ref pg k) (fun sn => num_ref sn r).
Proof.
  intros K O. unfold put_ref, get_ref. apply (sim_bind N P Q s0 (put (TBool (fst r))) (pw (snd r)) get_bool (fun b l => do (a, l) <- pg k l; Done ((b, a), l)) (fun _ b => b = fst r)); [apply sim_bool|].
  intros s1 b E ->. apply sim_map with (f := fun a => (fst r, a)) (post := fun sn n => num sn (snd r) n).
  - apply PT; [auto|]. destruct K as [->|[-> K]]; cbn [ready]; [auto|]. eapply calm_extends; eauto.
  - intros sn x X. split; auto.
Qed.
Lemma sim_param P Q s0 p : calm P (seen s0) -> good_param heap p -> sim N P Q s0 (put_param pw p) (get_param pg) (fun sn => num_param sn p).
Proof.
  intros CA Gp. unfold get_param.
  pose (h := fun w l => match w with
    | 0 => do (a, l) <- pg KPoint l; Done (PPoint a, l)
    | 1 => do (r, l) <- get_ref pg KLine l; Done (PLine r, l)
    | 2 => do (r, l) <- get_ref pg KLine l; Done (PPolygon r, l)
    | 3 => do (r, l) <- get_ref pg KLanelet l; Done (PLanelet (Some r), l)
    | 4 => do (a, l) <- pg KArea l; Done (PArea (Some a), l)
    | _ => Undef
    end : outcome (param * rstate)).
  destruct p as [a|r|r|[r|]|[a|]]; cbn [good_param put_param] in *; try contradiction.
  - apply (sim_bind N P Q s0 _ _ get_size h (fun _ y => y = 0)); [apply sim_size|]. intros s1 x E ->. apply sim_map with (f := PPoint) (post := fun sn n => num sn a n); [|auto].
    apply PT; [auto|exact I].
  - apply (sim_bind N P Q s0 _ _ get_size h (fun _ y => y = 1)); [apply sim_size|]. intros s1 x E ->. apply sim_map with (f := PLine) (post := fun sn n => num_ref sn r n); [|auto].
    apply sim_ref; auto.
  - apply (sim_bind N P Q s0 _ _ get_size h (fun _ y => y = 2)); [apply sim_size|]. intros s1 x E ->. apply sim_map with (f := PPolygon) (post := fun sn n => num_ref sn r n); [|auto].
    apply sim_ref; auto.
  - apply (sim_bind N P Q s0 _ _ get_size h (fun _ y => y = 3)); [apply sim_size|]. intros s1 x E ->. apply sim_map with (f := fun r => PLanelet (Some r)) (post := fun sn n => num_ref sn r n); [|auto].
    apply sim_ref; auto. right. split; [auto|]. eapply calm_extends; eauto.
  - apply (sim_bind N P Q s0 _ _ get_size h (fun _ y => y = 4)); [apply sim_size|]. intros s1 x E ->. apply sim_map with (f := fun a => PArea (Some a)) (post := fun sn n => num sn a n); [|auto].
    apply PT; [auto|]. cbn [ready]. eapply calm_extends; eauto.
Qed.
Lemma sim_params P Q s0 ps : calm P (seen s0) -> Forall (fun e => Forall (good_param heap) (snd e)) ps ->
  sim N P Q s0 (put_list (fun e => seq_ (put (TStr (fst e))) (put_list (put_param pw) (snd e))) ps)
    (get_list (fun l => do (r, l) <- get_str l; do (v, l) <- get_list (get_param pg) l; Done ((r, v), l)))
    (fun sn ps' => Forall2 (fun e e' => fst e = fst e' /\ Forall2 (num_param sn) (snd e) (snd e')) ps ps').
Proof.
  intros CA F. apply (sim_list N P Q s0 _ _ (fun sn e e' => fst e = fst e' /\ Forall2 (num_param sn) (snd e) (snd e')) ps).
  - intros sn e x y [A B]. split; [auto|]. eapply Forall2_weaken; [|exact B]. intros. now apply num_param_app.
  - intros e X. rewrite Forall_forall in F. specialize (F e X).
    apply (sim_bind N P Q s0 _ _ get_str (fun r l => do (v, l) <- get_list (get_param pg) l; Done ((r, v), l)) (fun _ y => y = fst e)); [apply sim_str|].
    intros s1 r E ->. apply sim_map with (f := fun v => (fst e, v)) (post := fun sn v => Forall2 (num_param sn) (snd e) v); [|auto].
    apply (sim_list N P Q s1 _ _ num_param (snd e)); [intros; now apply num_param_app|]. intros p Y. apply sim_param; [eapply calm_extends; eauto|]. rewrite Forall_forall in F. auto.
Qed.

(** What a constructor sees *)
Lemma view_ok s l P Q p p' : inv s l P Q -> calm P (seen s) -> good_param heap p -> num_param (seen s) p p' ->
  exists v, view_param (objs l) p' = Done v /\ seen_as heap p v.
Proof.
  intros I CA Gp NP.
  assert (LN : forall a n, is_line heap a -> num (seen s) a n -> exists o o', nth_error heap a = Some o /\ nth_error (objs l) n = Some (Some o') /\ attrs_of o' = attrs_of o).
  { intros a n A B. destruct (i_objs heap _ _ _ _ I n a B) as (o & e & X1 & X2 & X3). destruct (P n) as [st|] eqn:PN.
    - exfalso. destruct (CA n ltac:(congruence)) as (b & Y1 & Y2). assert (b = a) by (eapply num_inj; eauto). subst b. auto.
    - destruct X3 as (o' & -> & X4 & _). exists o, o'. split; [auto|]. split; [auto|]. destruct A as (i & t & ps & A). assert (o = Line i t ps) by congruence. subst o.
      destruct o'; cbn [same] in X4; try contradiction. cbn [attrs_of]. symmetry. tauto. }
  destruct p as [a|r|r|[r|]|[a|]], p' as [a'|r'|r'|[r'|]|[a'|]]; cbn [good_param num_param view_param seen_as] in *; try contradiction; try (eexists; split; [reflexivity|reflexivity]).
  - destruct NP as [_ NP]. destruct (LN _ _ Gp NP) as (o & o' & X1 & X2 & X3). rewrite X2. eexists. split; [reflexivity|]. exists o. split; [auto|]. now rewrite X3.
  - destruct NP as [_ NP]. destruct (LN _ _ Gp NP) as (o & o' & X1 & X2 & X3). rewrite X2. eexists. split; [reflexivity|]. exists o. split; [auto|]. now rewrite X3.
Qed.
Lemma map_out_ok {A B C} (f : B -> outcome C) (R : A -> B -> Prop) (S : A -> C -> Prop) xs ys : Forall2 R xs ys ->
  (forall x y, In x xs -> R x y -> exists z, f y = Done z /\ S x z) -> exists zs, map_out f ys = Done zs /\ Forall2 S xs zs.
Proof.
  induction 1 as [|x y xs ys H F IH]; intros K; cbn [map_out]; [exists []; auto|].
  destruct (K x y (or_introl eq_refl) H) as (z & Z1 & Z2). destruct IH as (zs & Z3 & Z4); [intros; apply K; [right|]; auto|].
  exists (z :: zs). rewrite Z1, bind_done, Z3, bind_done. auto.
Qed.
Lemma views_ok s l P Q ps ps' : inv s l P Q -> calm P (seen s) -> Forall (fun e => Forall (good_param heap) (snd e)) ps ->
  Forall2 (fun (e e' : string * list param) => fst e = fst e' /\ Forall2 (num_param (seen s)) (snd e) (snd e')) ps ps' ->
  exists vs, map_out (fun e => do v <- map_out (view_param (objs l)) (snd e); Done (fst e, v)) ps' = Done vs /\
    Forall2 (fun (e : string * list param) (v : string * list view) => fst e = fst v /\ Forall2 (seen_as heap) (snd e) (snd v)) ps vs.
Proof.
  intros I CA F H. eapply map_out_ok; [exact H|]. intros e e' X [E1 E2]. rewrite Forall_forall in F. specialize (F e X).
  destruct (map_out_ok (view_param (objs l)) (num_param (seen s)) (seen_as heap) _ _ E2) as (vs & V1 & V2).
  - intros x y Y. rewrite Forall_forall in F. eapply view_ok; eauto.
  - exists (fst e', vs). rewrite V1, bind_done. split; [auto|]. split; auto.
Qed.

(** A regulatory element *)
Lemma good_at a o : nth_error heap a = Some o -> good_obj heap o.
Proof. intros E. destruct G as [F _]. rewrite Forall_forall in F. apply F. eapply nth_error_In; eauto. Qed.
Lemma fresh_reg s u s' l rest P Q r id t ps : inv s l P Q -> calm P (seen s) -> nth_error heap r = Some (Reg id t ps) -> find_entry id (pending l) = None ->
  pw r (WState (seen s) (id :: sent s)) = Done (u, s') -> List.length u <= N -> input l = u ++ rest ->
  exists n l1, pg KReg (RState (input l) (objs l) (set_entry id (None, []) (pending l))) = Done (n, l1) /\ exists l2, create registry n l1 = Done l2 /\
    exists o ps', nth_error (objs l2) n = Some (Some o) /\ id_of o = id /\ find_entry id (pending l2) = Some (None, ps') /\
    let l3 := RState (input l2) (set_slots ps' (Some n) (objs l2)) (set_entry id (Some n, ps') (pending l2)) in
    input l3 = rest /\ inv s' l3 P Q /\ extends s s' /\ num (seen s') r n.
Proof.
  intros I CA E F W L EI. pose proof (i_entries heap _ _ _ _ I r id t ps E) as IE. rewrite F in IE. destruct IE as (NS & NSN & NQ).
  pose proof (inv_begin heap G _ _ _ _ _ _ _ _ I E F) as I0.
  destruct (PT P (id :: Q) (WState (seen s) (id :: sent s)) KReg r (ex_intro _ id (ex_intro _ t (ex_intro _ ps E)))
    (conj CA (ex_intro _ id (ex_intro _ t (ex_intro _ ps (conj E (or_introl eq_refl)))))) _ u s' _ rest (extends_refl _) W L I0 EI) as (n & l1 & A1 & A2 & A3 & A4 & A5).
  exists n, l1. split; [exact A1|].
  assert (X : extends s s') by (destruct A4 as [e A4]; exists e; auto).
  assert (PN : P n = None).
  { destruct (P n) as [st|] eqn:PN; [|auto]. exfalso. assert (LN : n < List.length (seen s)) by (apply (i_stage heap _ _ _ _ I); congruence).
    apply NSN. destruct X as [e X]. unfold num in A5. rewrite X, nth_error_app1 in A5 by auto. eapply nth_error_In; eauto. }
  destruct (i_objs heap _ _ _ _ A3 n r A5) as (o & e & O1 & O2 & O3). assert (o = Reg id t ps) by congruence. subst o. rewrite PN in O3. destruct O3 as (o' & -> & O4 & _).
  destruct o' as [| | | |id' t' ps']; cbn [same] in O4; try contradiction. destruct O4 as (<- & O5 & _ & O6). specialize (O5 (or_introl eq_refl)). subst t'.
  assert (CA' : calm P (seen s')) by (eapply calm_extends; eauto).
  destruct (views_ok s' l1 P (id :: Q) ps ps' A3 CA' (good_at _ _ E) O6) as (vs & V1 & V2).
  assert (CO : constructible registry heap (Reg id t ps)) by (rewrite Forall_forall in CON; apply CON; eapply nth_error_In; eauto).
  destruct (CO _ _ (completed_set t) V2) as (rule & accepts & K1 & K2 & K3). rewrite <- lookup_value, lookup_set in K1. injection K1 as <-.
  exists (set_obj n (Reg id (set_attr "subtype" (rule_of t) t) ps') l1). split.
  { unfold create. rewrite O2. cbv zeta. rewrite K2, V1, bind_done, K3. reflexivity. }
  pose proof (i_entries heap _ _ _ _ A3 r id t ps E) as IE.
  assert (LN : n < List.length (objs l1)) by (apply nth_error_Some; congruence).
  destruct (find_entry id (pending l1)) as [[[m|] qs]|] eqn:F1; [exfalso; apply (proj1 (proj2 IE)); left; auto| |exfalso; apply (proj2 (proj2 IE)); left; auto].
  eexists _, qs. cbn [set_obj objs pending input]. split; [apply replace_same; exact LN|]. split; [reflexivity|]. split; [exact F1|].
  cbv zeta. cbn [input]. split; [exact A2|]. split; [|split; auto].
  eapply inv_done; eauto.
Qed.

Lemma put_reg_cases a id t ps s u s' : nth_error heap a = Some (Reg id t ps) -> put_reg heap pw a s = Done (u, s') ->
  exists u', u = TInt id :: u' /\ ((In id (sent s) /\ u' = [] /\ s' = s) \/ (~ In id (sent s) /\ pw a (WState (seen s) (id :: sent s)) = Done (u', s'))).
Proof.
  intros E. unfold put_reg. rewrite E. cbn [id_of]. intros W. apply seq_inv in W as (u1 & s1 & u2 & W1 & W2 & ->). unfold put in W1. injection W1 as <- <-.
  exists u2. split; [reflexivity|]. destruct (existsb (Z.eqb id) (sent s)) eqn:X.
  - left. apply existsb_exists in X as (y & Y1 & Y2). apply Z.eqb_eq in Y2 as <-. injection W2 as <- <-. auto.
  - right. split; [|exact W2]. intros Y. assert (existsb (Z.eqb id) (sent s) = true) by (apply existsb_exists; exists id; split; [auto|apply Z.eqb_refl]). congruence.
Qed.
Lemma get_int_eq z r l : input l = TInt z :: r -> get_int l = Done (z, RState r (objs l) (pending l)).
Proof. intros E. unfold get_int, next. rewrite E. reflexivity. Qed.

(** A pointer of a lanelet or area to a regulatory element *)
Lemma slot_step s u s' l rest P Q n i a o r : inv s l P Q -> calm P (seen s) -> num (seen s) a n -> nth_error heap a = Some o -> P n = Some (Slots i) ->
  nth_error (regs_of o) i = Some r -> is_reg heap r -> put_reg heap pw r s = Done (u, s') -> List.length u <= N -> input l = u ++ rest ->
  exists v l1, get_reg registry pg (Some (n, i)) l = Done (v, l1) /\ input l1 = rest /\ extends s s' /\
    inv s' (RState (input l1) (match v with Some _ => set_slot n i v (objs l1) | None => objs l1 end) (pending l1)) (upd P n (Some (Slots (S i)))) Q.
Proof.
  intros I CA NA Eo PN Er (id & t & ps & E) W L EI. destruct (put_reg_cases _ _ _ _ _ _ _ E W) as (u' & -> & H). simpl in L. rewrite <- app_comm_cons in EI.
  unfold get_reg. rewrite (get_int_eq _ _ _ EI), bind_done. cbn [pending input objs].
  pose proof (i_entries heap _ _ _ _ I r id t ps E) as IE. destruct (find_entry id (pending l)) as [[[m|] qs]|] eqn:F.
  - destruct IE as (A & B & C & D). destruct H as [(H1 & -> & ->)|[H1 _]]; [|contradiction]. eexists _, _. split; [reflexivity|]. cbn [input objs pending]. split; [reflexivity|].
    split; [apply extends_refl|]. apply (inv_store heap s (RState rest (objs l) (pending l)) P Q n i a o r m); auto. now apply inv_input.
  - destruct IE as (A & B & C). destruct H as [(H1 & -> & ->)|[H1 _]]; [|contradiction]. eexists _, _. split; [reflexivity|]. cbn [input objs pending]. split; [reflexivity|].
    split; [apply extends_refl|]. apply (inv_wait heap G s (RState rest (objs l) (pending l)) P Q n i a o r id t ps qs); auto. now apply inv_input.
  - destruct IE as (A & B & C). destruct H as [(H1 & _)|[_ H]]; [contradiction|].
    assert (I' : inv s (RState (u' ++ rest) (objs l) (pending l)) P Q) by now apply inv_input.
    destruct (fresh_reg s u' s' _ rest P Q r id t ps I' CA E F H ltac:(lia) eq_refl) as (k & l1 & R1 & l2 & R2 & o' & qs & R3 & R4 & R5 & R6 & R7 & R8 & R9).
    cbn [objs pending input] in R1. rewrite R1, bind_done, R2, bind_done, R3, R4, R5. eexists _, _. split; [reflexivity|]. cbn [input objs pending] in *. split; [exact R6|]. split; [auto|].
    assert (NA' : num (seen s') a n) by (destruct R8 as [e ->]; now apply num_app).
    apply (inv_store heap s' _ P Q n i a o r k R7 NA' Eo PN Er R9).
Qed.
Lemma slots_all rs : forall s u s' l rest P Q n i a o, inv s l P Q -> calm P (seen s) -> num (seen s) a n -> ~ is_line heap a -> nth_error heap a = Some o -> P n = Some (Slots i) ->
  (forall j r, nth_error rs j = Some r -> nth_error (regs_of o) (i + j) = Some r) -> Forall (is_reg heap) rs ->
  put_all (put_reg heap pw) rs s = Done (u, s') -> List.length u <= N -> input l = u ++ rest ->
  exists l', get_regs registry pg n i (List.length rs) l = Done (tt, l') /\ input l' = rest /\ extends s s' /\ inv s' l' (upd P n (Some (Slots (i + List.length rs)))) Q.
Proof.
  induction rs as [|r rs IH]; intros s u s' l rest P Q n i a o I CA NA ND Eo PN Hr F W L EI.
  - cbn [put_all] in W. unfold skip in W. injection W as <- <-. exists l. split; [reflexivity|]. split; [exact EI|]. split; [apply extends_refl|]. eapply inv_stages; [|exact I].
    intros m. rewrite Nat.add_0_r. destruct (Nat.eq_dec m n) as [->|D]; [now rewrite upd_same|now rewrite upd_other].
  - cbn [put_all] in W. apply seq_inv in W as (u1 & s1 & u2 & W1 & W2 & ->). rewrite app_length in L. rewrite <- app_assoc in EI. inversion F as [|? ? F1 F2]; subst.
    assert (Er : nth_error (regs_of o) i = Some r) by (rewrite <- (Hr 0 r eq_refl); f_equal; lia).
    destruct (slot_step s u1 s1 l (u2 ++ rest) P Q n i a o r I CA NA Eo PN Er F1 W1 ltac:(lia) EI) as (v & l1 & A1 & A2 & A3 & A4).
    assert (NA' : num (seen s1) a n) by (destruct A3 as [e ->]; now apply num_app).
    destruct (IH s1 u2 s' _ rest (upd P n (Some (Slots (S i)))) Q n (S i) a o A4) as (l' & B1 & B2 & B3 & B4); auto.
    + eapply calm_upd; eauto. eapply calm_extends; eauto.
    + apply upd_same.
    + intros j q J. rewrite <- (Hr (S j) q J). f_equal. lia.
    + lia.
    + exists l'. cbn [List.length get_regs]. rewrite A1, bind_done. split; [exact B1|]. split; [auto|]. split; [eapply extends_trans; eauto|]. eapply inv_stages; [|exact B4].
      intros m. unfold upd. destruct (Nat.eqb m n); [|auto]. do 2 f_equal. lia.
Qed.
End Members.
End Sim.
