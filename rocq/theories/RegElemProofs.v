(** Proofs about the regulatory elements. *)
From Coq Require Import List Arith Bool String Lia.
From Verif Require Import RegElemModel RegElemSpec HybridProofs.
Import ListNotations.
Local Open Scope string_scope.
Local Open Scope list_scope.
Local Open Scope nat_scope.

Lemma rset_same m r v : rset m r v r = Some v.
Proof. unfold rset. rewrite String.eqb_refl. reflexivity. Qed.
Lemma rset_other m r v x : r <> x -> rset m r v x = m x.
Proof. unfold rset. intros H. apply String.eqb_neq in H. rewrite H. reflexivity. Qed.
Lemma rindex_same m r v : rindex (rset m r v) r = v.
Proof. unfold rindex. rewrite rset_same. reflexivity. Qed.
Lemma rindex_other m r v x : r <> x -> rindex (rset m r v) x = rindex m x.
Proof. unfold rindex. intros H. rewrite rset_other by auto. reflexivity. Qed.
Lemma radd_same m r p : rindex (radd m r p) r = rindex m r ++ [p].
Proof. apply rindex_same. Qed.
Lemma radd_other m r p x : r <> x -> rindex (radd m r p) x = rindex m x.
Proof. apply rindex_other. Qed.

Lemma remove1_not_in {A} dec (x : A) l : ~ In x l -> remove1 dec x l = l.
Proof.
  induction l as [|a l IH]; simpl; auto. intros H. destruct (dec a x) as [->|]; [tauto|]. f_equal. auto.
Qed.

(** ** Erasing the first equal parameter *)
Section Erase.
Context {A : Type} (dec : forall a b : A, {a = b} + {a <> b}).
Variable s : st.
Variable get : param -> list A.
Variable emb : A -> param.
Hypothesis get_emb : forall a, get (emb a) = [a].
Hypothesis get_inv : forall p a, In a (get p) -> p = emb a.

Lemma find_erase a v (E : forall p, param_eqb s p (emb a) = true <-> p = emb a) :
  match find_idx s (emb a) v with
  | None => ~ In a (flat_map get v)
  | Some i => In a (flat_map get v) /\
      exists v', erase_at i v = Some v' /\ flat_map get v' = remove1 dec a (flat_map get v)
  end.
Proof.
  induction v as [|p v IH]; simpl; [auto|].
  destruct (param_eqb s p (emb a)) eqn:P.
  - apply E in P. subst p. rewrite get_emb. simpl. split; [auto|]. exists v. destruct (dec a a); [auto|congruence].
  - assert (~ In a (get p)) as N. { intros I. apply get_inv in I. apply E in I. congruence. }
    destruct (find_idx s (emb a) v) as [i|].
    + destruct IH as [I (v' & Ev & R)]. split; [apply in_or_app; auto|]. exists (p :: v').
      simpl. rewrite Ev. split; [auto|]. rewrite R. clear -N dec. induction (get p) as [|b l IH]; simpl; [auto|].
      simpl in N. destruct (dec b a) as [->|]; [tauto|]. simpl. f_equal. tauto.
    + rewrite in_app_iff. tauto.
Qed.

(** findAndErase as a whole. *)
Lemma find_and_erase_spec r a (E : forall p, param_eqb s p (emb a) = true <-> p = emb a) :
  exists m, find_and_erase s (emb a) r = Ok (with_rp s m, inb dec a (flat_map get (rindex (rp s) r))) /\
    flat_map get (rindex m r) = remove1 dec a (flat_map get (rindex (rp s) r)) /\
    (forall x, x <> r -> m x = rp s x).
Proof.
  assert (forall b, b = false -> ~ In a (flat_map get (rindex (rp s) r)) ->
    exists m, Ok (s, false) = Ok (with_rp s m, b) /\
    flat_map get (rindex m r) = remove1 dec a (flat_map get (rindex (rp s) r)) /\
    (forall x, x <> r -> m x = rp s x)) as No.
  { intros b -> N. exists (rp s). split; [destruct s; reflexivity|]. split; auto.
    symmetry. apply remove1_not_in. auto. }
  unfold find_and_erase. destruct (rp s r) as [v|] eqn:R.
  - assert (rindex (rp s) r = v) as W by (unfold rindex; rewrite R; reflexivity). rewrite W in *.
    pose proof (find_erase a v E) as F. unfold inb. destruct (find_idx s (emb a) v) as [i|] eqn:I.
    + destruct F as [J (v' & -> & F)]. destruct (in_dec dec a (flat_map get v)); [|tauto].
      destruct v' as [|p v'].
      * exists (rerase (rp s) r). split; [reflexivity|]. split.
        -- rewrite <- F. unfold rindex, rerase. rewrite String.eqb_refl. reflexivity.
        -- intros x X. unfold rerase. destruct (String.eqb_spec r x); congruence.
      * exists (rset (rp s) r (p :: v')). split; [reflexivity|]. split.
        -- rewrite <- F. rewrite rindex_same. reflexivity.
        -- intros x X. apply rset_other. auto.
    + destruct (in_dec dec a (flat_map get v)); [tauto|]. apply No; auto.
  - assert (rindex (rp s) r = []) as W by (unfold rindex; rewrite R; reflexivity). rewrite W in *.
    apply No; auto.
Qed.
End Erase.

Lemma lsop_emb a : get_lsop (as_param a) = [a].
Proof. destruct a as [[]|[]]; reflexivity. Qed.
Lemma lsop_inv p a : In a (get_lsop p) -> p = as_param a.
Proof. destruct p; simpl; intros H; try tauto; destruct H as [<-|[]]; reflexivity. Qed.
Lemma lsop_eq s a p : param_eqb s p (as_param a) = true <-> p = as_param a.
Proof.
  destruct a as [[d i]|[d i]], p; simpl; rewrite ?andb_true_iff, ?Nat.eqb_eq, ?eqb_true_iff; split; intros H;
    try discriminate; match type of H with _ /\ _ => destruct H as [-> ->] | _ => injection H as -> -> end; auto.
Qed.
Lemma line_emb a : get_line (lin a) = [a].
Proof. destruct a; reflexivity. Qed.
Lemma line_inv p a : In a (get_line p) -> p = lin a.
Proof. destruct p; simpl; intros H; try tauto. destruct H as [<-|[]]; reflexivity. Qed.
Lemma line_eq s a p : param_eqb s p (lin a) = true <-> p = lin a.
Proof.
  destruct a as [d i], p; simpl; rewrite ?andb_true_iff, ?Nat.eqb_eq, ?eqb_true_iff; split; intros H;
    try discriminate; match type of H with _ /\ _ => destruct H as [-> ->] | _ => injection H as -> -> end; auto.
Qed.
Lemma lan_emb a : get_weak (lan a) = [a].
Proof. destruct a; reflexivity. Qed.
Lemma lan_inv p a : In a (get_weak p) -> p = lan a.
Proof. destruct p; simpl; intros H; try tauto. destruct H as [<-|[]]; reflexivity. Qed.
Lemma lan_eq s a p : al s (fst a) = true -> param_eqb s p (lan a) = true <-> p = lan a.
Proof.
  intros L. destruct a as [d i], p; simpl in *; rewrite ?andb_true_iff, ?Nat.eqb_eq, ?eqb_true_iff; split; intros H;
    try discriminate; [destruct H as (_ & -> & ->)|injection H as -> ->]; auto.
Qed.

Definition erase_lsop s r a :=
  find_and_erase_spec lsop_dec s get_lsop as_param lsop_emb lsop_inv r a (lsop_eq s a).
Definition erase_line s r a :=
  find_and_erase_spec handle_dec s get_line lin line_emb line_inv r a (line_eq s a).
Definition erase_lan s r a (L : al s (fst a) = true) :=
  find_and_erase_spec handle_dec s get_weak lan lan_emb lan_inv r a (fun p => lan_eq s a p L).

Lemma with_rp_with s m m' : with_rp (with_rp s m) m' = with_rp s m'.
Proof. reflexivity. Qed.
Lemma flat_add {A} (get : param -> list A) v p : flat_map get (v ++ [p]) = flat_map get v ++ get p.
Proof. rewrite flat_map_app. simpl. rewrite app_nil_r. reflexivity. Qed.
Lemma rindex_ext m m' r : m r = m' r -> rindex m r = rindex m' r.
Proof. unfold rindex. intros ->. reflexivity. Qed.

(** ** TrafficLight *)
Lemma tl_run os : forall s, exists m,
  run tl_step os s = Some (with_rp s m, tl_results os (traffic_lights s)) /\
  traffic_lights (with_rp s m) = tl_lights os (traffic_lights s) /\
  stop_line (with_rp s m) = tl_stop os (stop_line s) /\
  (List.length (lines s RefLine) <= 1 -> List.length (lines (with_rp s m) RefLine) <= 1) /\
  (forall r, r <> Refers -> r <> RefLine -> m r = rp s r).
Proof.
  induction os as [|o os IH]; intros s.
  { exists (rp s). simpl. assert (with_rp s (rp s) = s) as -> by (destruct s; reflexivity). auto 10. }
  assert (exists m b, tl_step o s = Ok (with_rp s m, b) /\
    tl_results (o :: os) (traffic_lights s) = Some b :: tl_results os (tl_lights [o] (traffic_lights s)) /\
    traffic_lights (with_rp s m) = tl_lights [o] (traffic_lights s) /\
    stop_line (with_rp s m) = tl_stop [o] (stop_line s) /\
    (List.length (lines s RefLine) <= 1 -> List.length (lines (with_rp s m) RefLine) <= 1) /\
    (forall r, r <> Refers -> r <> RefLine -> m r = rp s r)) as (m & b & S & B & T & P & L & F).
  { destruct o as [x|x|l|]; simpl.
    - eexists _, _. split; [reflexivity|]. split; [reflexivity|]. unfold traffic_lights, ls_or_poly, stop_line, lines. simpl.
      rewrite radd_same, flat_add, lsop_emb. rewrite radd_other by discriminate.
      split; [auto|]. split; [auto|]. split; [auto|]. intros r R _. apply rset_other. auto.
    - destruct (erase_lsop s Refers x) as (m & E & R & F). eexists _, _. split; [exact E|]. split; [reflexivity|].
      split; [exact R|]. unfold stop_line, lines. simpl.
      assert (rindex m RefLine = rindex (rp s) RefLine) as -> by (apply rindex_ext, F; discriminate).
      auto.
    - eexists _, _. split; [reflexivity|]. split; [reflexivity|]. unfold traffic_lights, ls_or_poly, stop_line, lines. simpl.
      rewrite ?rindex_same. rewrite ?rindex_other by discriminate. destruct l. simpl.
      split; [auto|]. split; [auto|]. split; [auto|]. intros r _ R. apply rset_other. auto.
    - eexists _, _. split; [reflexivity|]. split; [reflexivity|]. unfold traffic_lights, ls_or_poly, stop_line, lines. simpl.
      rewrite ?rindex_same. rewrite ?rindex_other by discriminate. simpl.
      split; [auto|]. split; [auto|]. split; [auto|]. intros r _ R. apply rset_other. auto. }
  destruct (IH (with_rp s m)) as (m' & S' & T' & P' & L' & F'). rewrite with_rp_with in *.
  exists m'. cbn [run]. rewrite S, S', B, T. split; [reflexivity|].
  rewrite T', P', T, P. split; [destruct o; reflexivity|]. split; [destruct o; reflexivity|].
  split; [auto|]. intros r R1 R2. rewrite F' by auto. simpl. auto.
Qed.

(** ** RightOfWay *)
Definition upd_al (s : st) (a : nat -> bool) : st := St (rp s) a (ar s) (sub s) (sign_type s).
Lemma row_run os : forall s, row_ok os (al s) -> exists m a,
  let s' := upd_al (with_rp s m) a in
  run row_step os s = Some (s', row_results os (weak_lanelets s RightOfWayR) (weak_lanelets s Yield)) /\
  weak_lanelets s' RightOfWayR = row_lanelets os (weak_lanelets s RightOfWayR) /\
  weak_lanelets s' Yield = row_yields os (weak_lanelets s Yield) /\
  stop_line s' = row_stop os (stop_line s) /\
  (forall d, a d = row_alive os (al s) d) /\
  (forall r, r <> RightOfWayR -> r <> Yield -> r <> RefLine -> m r = rp s r).
Proof.
  induction os as [|o os IH]; intros s OK.
  { exists (rp s), (al s). simpl. destruct s; simpl. auto 10. }
  assert (exists m a b, row_step o s = Ok (upd_al (with_rp s m) a, b) /\
    let s' := upd_al (with_rp s m) a in
    row_results (o :: os) (weak_lanelets s RightOfWayR) (weak_lanelets s Yield) =
      Some b :: row_results os (row_lanelets [o] (weak_lanelets s RightOfWayR)) (row_yields [o] (weak_lanelets s Yield)) /\
    weak_lanelets s' RightOfWayR = row_lanelets [o] (weak_lanelets s RightOfWayR) /\
    weak_lanelets s' Yield = row_yields [o] (weak_lanelets s Yield) /\
    stop_line s' = row_stop [o] (stop_line s) /\
    a = row_alive [o] (al s) /\ row_ok os a /\
    (forall r, r <> RightOfWayR -> r <> Yield -> r <> RefLine -> m r = rp s r))
    as (m & a & b & S & B & T1 & T2 & P & Al & OK' & F).
  { destruct o as [l|l|l|l|l| |d]; simpl in OK.
    - exists (radd (rp s) RightOfWayR (lan l)), (al s), true. split; [reflexivity|]. split; [reflexivity|]. unfold weak_lanelets, stop_line, lines.
      cbn [rp with_rp upd_al row_lanelets row_yields row_stop row_alive al].
      rewrite radd_same, flat_add, lan_emb, !radd_other by discriminate. destruct OK.
      do 5 (split; [now auto|]). intros r R1 R2 R3. apply rset_other. auto.
    - exists (radd (rp s) Yield (lan l)), (al s), true. split; [reflexivity|]. split; [reflexivity|]. unfold weak_lanelets, stop_line, lines.
      cbn [rp with_rp upd_al row_lanelets row_yields row_stop row_alive al].
      rewrite radd_same, flat_add, lan_emb, !radd_other by discriminate. destruct OK.
      do 5 (split; [now auto|]). intros r R1 R2 R3. apply rset_other. auto.
    - destruct OK as [L OK]. destruct (erase_lan s RightOfWayR l L) as (m & E & R & F).
      exists m, (al s). eexists. split; [exact E|]. split; [reflexivity|]. unfold weak_lanelets, stop_line, lines.
      cbn [rp with_rp upd_al row_lanelets row_yields row_stop row_alive al].
      split; [exact R|].
      rewrite (rindex_ext m (rp s) Yield), (rindex_ext m (rp s) RefLine) by (apply F; discriminate).
      auto 10.
    - destruct OK as [L OK]. destruct (erase_lan s Yield l L) as (m & E & R & F).
      exists m, (al s). eexists. split; [exact E|]. split; [reflexivity|]. unfold weak_lanelets, stop_line, lines.
      cbn [rp with_rp upd_al row_lanelets row_yields row_stop row_alive al].
      rewrite (rindex_ext m (rp s) RightOfWayR), (rindex_ext m (rp s) RefLine) by (apply F; discriminate).
      split; [auto|]. split; [exact R|]. auto 10.
    - exists (rset (rp s) RefLine [lin l]), (al s), true. split; [reflexivity|]. split; [reflexivity|]. unfold weak_lanelets, stop_line, lines.
      cbn [rp with_rp upd_al row_lanelets row_yields row_stop row_alive al].
      rewrite ?rindex_same, ?rindex_other by discriminate. destruct l.
      do 5 (split; [now auto|]). intros r R1 R2 R3. apply rset_other. auto.
    - exists (rset (rp s) RefLine []), (al s), true. split; [reflexivity|]. split; [reflexivity|]. unfold weak_lanelets, stop_line, lines.
      cbn [rp with_rp upd_al row_lanelets row_yields row_stop row_alive al].
      rewrite ?rindex_same, ?rindex_other by discriminate.
      do 5 (split; [now auto|]). intros r R1 R2 R3. apply rset_other. auto.
    - exists (rp s), (kill (al s) d), true. split; [reflexivity|]. split; [reflexivity|]. simpl. auto 10. }
  destruct (IH (upd_al (with_rp s m) a) OK') as (m' & a' & H). cbv zeta in *.
  destruct H as (S' & T1' & T2' & P' & A' & F').
  exists m', a'. cbn [run]. rewrite S, S', B, T1, T2.
  change (upd_al (with_rp (upd_al (with_rp s m) a) m') a') with (upd_al (with_rp s m') a') in *.
  split; [reflexivity|]. rewrite T1', T2', P', T1, T2, P.
  split; [destruct o; reflexivity|]. split; [destruct o; reflexivity|]. split; [destruct o; reflexivity|].
  split.
  - intros d. rewrite A'. cbn [al upd_al]. rewrite Al. destruct o; reflexivity.
  - intros r R1 R2 R3. rewrite F' by auto. simpl. auto.
Qed.

(** ** TrafficSign *)
Lemma subtype_set s t x y :
  subtype (set_sub t s x) y = if same_sign y x then Some t else subtype s y.
Proof.
  destruct x as [[d i]|[d i]], y as [[e j]|[e j]]; simpl; auto; rewrite (Nat.eqb_sym d e); destruct (Nat.eqb e d); auto.
Qed.
Lemma set_sub_rest s t x : exists f, set_sub t s x = St (rp s) (al s) (ar s) f (sign_type s).
Proof. destruct x as [[d i]|[d i]]; eexists; reflexivity. Qed.
Lemma update_signs_rest s xs t : exists f, update_signs s xs t = St (rp s) (al s) (ar s) f (sign_type s) /\
  forall y, subtype (update_signs s xs t) y =
    if negb (String.eqb t "") && existsb (same_sign y) xs then Some t else subtype s y.
Proof.
  unfold update_signs. destruct (String.eqb t ""); simpl.
  { exists (sub s). destruct s; auto. }
  revert s. induction xs as [|x xs IH]; intros s; simpl.
  { exists (sub s). destruct s; auto. }
  destruct (IH (set_sub t s x)) as (f & E & H). destruct (set_sub_rest s t x) as (g & G).
  exists f. split.
  - rewrite E, G. reflexivity.
  - intros y. rewrite H. rewrite subtype_set. destruct (same_sign y x), (existsb (same_sign y) xs); reflexivity.
Qed.
Lemma subtype_of_ext os : forall f g x, (forall y, f y = g y) -> subtype_of os f x = subtype_of os g x.
Proof.
  induction os as [|o os IH]; intros f g x H; simpl; auto.
  destruct o; auto. apply IH. intros y. rewrite H. reflexivity.
Qed.
Lemma add_cancels xs : forall s, exists m,
  fold_left (fun s x => with_rp s (radd (rp s) Cancels (as_param x))) xs s = with_rp s m /\
  flat_map get_lsop (rindex m Cancels) = flat_map get_lsop (rindex (rp s) Cancels) ++ xs /\
  (forall r, r <> Cancels -> m r = rp s r).
Proof.
  induction xs as [|x xs IH]; intros s; simpl.
  { exists (rp s). rewrite app_nil_r. split; [destruct s; reflexivity|auto]. }
  destruct (IH (with_rp s (radd (rp s) Cancels (as_param x)))) as (m & E & H & F).
  exists m. rewrite E. split; [reflexivity|]. rewrite H. cbn [rp with_rp].
  rewrite radd_same, flat_add, lsop_emb, <- app_assoc. split; [reflexivity|].
  intros r R. rewrite F by auto. apply rset_other. auto.
Qed.

Definition upd_ts (s : st) (m : rmap) (f : bool -> nat -> option string) : st := St m (al s) (ar s) f (sign_type s).
Definition ts_cancels (s : st) := ls_or_poly s Cancels.
Lemma ts_run os : forall s, exists m f, let s' := upd_ts s m f in
  run ts_step os s = Some (s', ts_results os (ls_or_poly s Refers) (ls_or_poly s Cancels) (lines s RefLine) (lines s CancelLine)) /\
  ls_or_poly s' Refers = signs_of os (ls_or_poly s Refers) /\
  ls_or_poly s' Cancels = cancels_of os (ls_or_poly s Cancels) /\
  lines s' RefLine = refs_of os (lines s RefLine) /\
  lines s' CancelLine = cancel_lines_of os (lines s CancelLine) /\
  (forall x, subtype s' x = subtype_of os (subtype s) x) /\
  (forall r, r <> Refers -> r <> Cancels -> r <> RefLine -> r <> CancelLine -> m r = rp s r).
Proof.
  induction os as [|o os IH]; intros s.
  { exists (rp s), (sub s). simpl. unfold signs_of, cancels_of, refs_of, cancel_lines_of, ts_list. simpl.
    destruct s; simpl. auto 10. }
  assert (exists m f b, let s' := upd_ts s m f in
    ts_step o s = Ok (s', b) /\
    ts_results (o :: os) (ls_or_poly s Refers) (ls_or_poly s Cancels) (lines s RefLine) (lines s CancelLine) =
      Some b :: ts_results os (signs_of [o] (ls_or_poly s Refers)) (cancels_of [o] (ls_or_poly s Cancels))
                  (refs_of [o] (lines s RefLine)) (cancel_lines_of [o] (lines s CancelLine)) /\
    ls_or_poly s' Refers = signs_of [o] (ls_or_poly s Refers) /\
    ls_or_poly s' Cancels = cancels_of [o] (ls_or_poly s Cancels) /\
    lines s' RefLine = refs_of [o] (lines s RefLine) /\
    lines s' CancelLine = cancel_lines_of [o] (lines s CancelLine) /\
    (forall x, subtype s' x = subtype_of [o] (subtype s) x) /\
    (forall r, r <> Refers -> r <> Cancels -> r <> RefLine -> r <> CancelLine -> m r = rp s r))
    as (m & f & b & S & B & T1 & T2 & T3 & T4 & T5 & F).
  { destruct o as [x|x|l|l|l|l|xs t|x]; cbv zeta;
      unfold ls_or_poly, lines, signs_of, cancels_of, refs_of, cancel_lines_of, ts_list, ts_list1;
      cbn [fold_left rp upd_ts].
    - exists (radd (rp s) Refers (as_param x)), (sub s), true. split; [reflexivity|]. split; [reflexivity|].
      rewrite radd_same, flat_add, lsop_emb, !radd_other by discriminate. rewrite !app_nil_r.
      do 4 (split; [reflexivity|]). split; [intros; reflexivity|]. intros. apply rset_other. auto.
    - destruct (erase_lsop s Refers x) as (m & E & R & F). exists m, (sub s). eexists. split; [exact E|]. split; [reflexivity|].
      rewrite !(rindex_ext m (rp s) Cancels), !(rindex_ext m (rp s) RefLine), !(rindex_ext m (rp s) CancelLine)
        by (apply F; discriminate). rewrite !app_nil_r.
      split; [exact R|]. do 3 (split; [reflexivity|]). split; [intros; reflexivity|]. auto.
    - exists (radd (rp s) RefLine (lin l)), (sub s), true. split; [reflexivity|]. split; [reflexivity|].
      rewrite radd_same, flat_add, line_emb, !radd_other by discriminate. rewrite !app_nil_r.
      do 4 (split; [reflexivity|]). split; [intros; reflexivity|]. intros. apply rset_other. auto.
    - destruct (erase_line s RefLine l) as (m & E & R & F). exists m, (sub s). eexists. split; [exact E|]. split; [reflexivity|].
      rewrite !(rindex_ext m (rp s) Cancels), !(rindex_ext m (rp s) Refers), !(rindex_ext m (rp s) CancelLine)
        by (apply F; discriminate). rewrite !app_nil_r.
      do 2 (split; [reflexivity|]). split; [exact R|]. split; [reflexivity|]. split; [intros; reflexivity|]. auto.
    - exists (radd (rp s) CancelLine (lin l)), (sub s), true. split; [reflexivity|]. split; [reflexivity|].
      rewrite radd_same, flat_add, line_emb, !radd_other by discriminate. rewrite !app_nil_r.
      do 4 (split; [reflexivity|]). split; [intros; reflexivity|]. intros. apply rset_other. auto.
    - destruct (erase_line s CancelLine l) as (m & E & R & F). exists m, (sub s). eexists. split; [exact E|]. split; [reflexivity|].
      rewrite !(rindex_ext m (rp s) Cancels), !(rindex_ext m (rp s) Refers), !(rindex_ext m (rp s) RefLine)
        by (apply F; discriminate). rewrite !app_nil_r.
      do 3 (split; [reflexivity|]). split; [exact R|]. split; [intros; reflexivity|]. auto.
    - destruct (update_signs_rest s xs t) as (f & U & H).
      destruct (add_cancels xs (update_signs s xs t)) as (m & E & R & F).
      exists m, f, true. cbn [ts_step]. rewrite E, U. split; [reflexivity|]. split; [reflexivity|].
      rewrite U in R, F. cbn [rp] in R, F. rewrite R.
      rewrite !(rindex_ext m (rp s) CancelLine), !(rindex_ext m (rp s) Refers), !(rindex_ext m (rp s) RefLine)
        by (apply F; discriminate). rewrite !app_nil_r.
      do 4 (split; [reflexivity|]). split; [|auto].
      intros y. specialize (H y). rewrite U in H. exact H.
    - destruct (erase_lsop s Cancels x) as (m & E & R & F). exists m, (sub s). eexists. split; [exact E|]. split; [reflexivity|].
      rewrite !(rindex_ext m (rp s) Refers), !(rindex_ext m (rp s) RefLine), !(rindex_ext m (rp s) CancelLine)
        by (apply F; discriminate). rewrite !app_nil_r.
      split; [reflexivity|]. split; [exact R|]. do 2 (split; [reflexivity|]). split; [intros; reflexivity|]. auto. }
  destruct (IH (upd_ts s m f)) as (m' & f' & H). cbv zeta in *.
  destruct H as (S' & T1' & T2' & T3' & T4' & T5' & F').
  change (upd_ts (upd_ts s m f) m' f') with (upd_ts s m' f') in *.
  exists m', f'. cbn [run]. rewrite S, S', B, T1, T2, T3, T4. split; [reflexivity|].
  rewrite T1', T2', T3', T4', T1, T2, T3, T4. do 4 (split; [reflexivity|]). split.
  - intros x. rewrite T5'. transitivity (subtype_of os (subtype_of [o] (subtype s)) x); [apply subtype_of_ext, T5|].
    destruct o; reflexivity.
  - intros r R1 R2 R3 R4. rewrite F' by auto. simpl. auto.
Qed.

(** cancelTypes: the subtypes, sorted and without repetition. *)
Lemma sort_insert_in t v x : In x (sort_insert t v) <-> x = t \/ In x v.
Proof.
  induction v as [|a v IH]; simpl; [intuition|]. destruct (String.ltb t a); simpl; [intuition|]. rewrite IH. intuition.
Qed.
Lemma unique_in v x : In x (unique v) <-> In x v.
Proof.
  induction v as [|a v IH]; simpl; [tauto|]. destruct (unique v) as [|b r] eqn:U.
  - simpl. rewrite <- IH. simpl. tauto.
  - rewrite <- IH. destruct (String.eqb_spec a b) as [->|]; simpl; intuition.
Qed.
Definition sle (a b : string) : Prop := a = b \/ slt a b.
Lemma sort_insert_sorted t v : Sorted.StronglySorted sle v -> Sorted.StronglySorted sle (sort_insert t v).
Proof.
  induction v as [|a v IH]; intros S; simpl; [repeat constructor|].
  inversion S as [|? ? S1 S2]; subst. destruct (String.ltb t a) eqn:E.
  - constructor; [auto|]. constructor; [right; exact E|]. eapply Forall_impl; [|exact S2].
    intros b [<-|L]; right; [exact E|]. eapply slt_trans; [exact E|exact L].
  - constructor; [auto|]. apply Forall_forall. intros x I. apply sort_insert_in in I as [->|I].
    + destruct (slt_total t a) as [L|[L|L]]; unfold sle; auto. unfold slt in L. congruence.
    + rewrite Forall_forall in S2. auto.
Qed.
Lemma unique_sorted v : Sorted.StronglySorted sle v -> Sorted.StronglySorted slt (unique v).
Proof.
  induction v as [|a v IH]; intros S; simpl; [constructor|].
  inversion S as [|? ? S1 S2]; subst. specialize (IH S1). destruct (unique v) as [|b r] eqn:U; [repeat constructor|].
  destruct (String.eqb_spec a b) as [->|N]; [auto|].
  constructor; [auto|]. apply Forall_forall. intros x I. rewrite Forall_forall in S2.
  assert (forall y, In y (b :: r) -> sle a y) as L. { intros y J. apply S2. apply unique_in. rewrite U. auto. }
  destruct (L x I) as [<-|]; [|auto]. destruct (L b) as [E|E]; simpl; auto; [congruence|].
  destruct I as [<-|I]; [congruence|]. inversion IH as [|? ? _ H]; subst. rewrite Forall_forall in H.
  eapply slt_trans; [exact E|]. auto.
Qed.
Lemma subtypes_spec s v :
  match subtypes s v with
  | Ok ts => (forall x, In x v -> subtype s x <> None) /\ (forall t, In t ts <-> exists x, In x v /\ subtype s x = Some t)
  | Throw => exists x, In x v /\ subtype s x = None
  | UB => False
  end.
Proof.
  induction v as [|x v IH]; simpl.
  - split; [tauto|]. intros t. split; [tauto|]. intros (x & [] & _).
  - destruct (subtype s x) as [t|] eqn:T; [|eauto].
    destruct (subtypes s v) as [ts| |]; [|destruct IH as (y & I & H); eauto|tauto].
    destruct IH as [H1 H2]. split.
    + intros y [<-|I]; [congruence|auto].
    + intros u. simpl. rewrite H2. split.
      * intros [<-|(y & I & E)]; eauto.
      * intros (y & [<-|I] & E); [left; congruence|right; eauto].
Qed.
Lemma cancel_types_spec s :
  match cancel_types s with
  | Ok ts => Sorted.StronglySorted slt ts /\ (forall x, In x (ls_or_poly s Cancels) -> subtype s x <> None) /\
             (forall t, In t ts <-> exists x, In x (ls_or_poly s Cancels) /\ subtype s x = Some t)
  | Throw => exists x, In x (ls_or_poly s Cancels) /\ subtype s x = None
  | UB => False
  end.
Proof.
  unfold cancel_types. pose proof (subtypes_spec s (ls_or_poly s Cancels)) as H.
  destruct (subtypes s (ls_or_poly s Cancels)) as [ts| |]; auto. destruct H as [H1 H2].
  assert (forall t, In t (fold_right sort_insert [] ts) <-> In t ts) as I.
  { clear. induction ts as [|a ts IH]; intros t; simpl; [tauto|]. rewrite sort_insert_in, IH. intuition. }
  split; [|split; [auto|]].
  - apply unique_sorted. clear. induction ts; simpl; [constructor|]. apply sort_insert_sorted. auto.
  - intros t. rewrite unique_in, I. auto.
Qed.

(** ** AllWayStop *)
Definition stops (es : list entry) : list handle := flat_map (fun e => match snd e with None => [] | Some l => [l] end) es.
Definition uniform (es : list entry) : Prop := exists b, forall e, In e es -> has_stop e = b.
Definition aws_rep (s : st) (es : list entry) : Prop :=
  rindex (rp s) Yield = map (fun e : entry => lan (fst e)) es /\ rindex (rp s) RefLine = map lin (stops es) /\ uniform es.

Lemma stops_app a b : stops (a ++ b) = stops a ++ stops b.
Proof. apply flat_map_app. Qed.
Lemma stops_none es : (forall e, In e es -> has_stop e = false) -> stops es = [].
Proof.
  induction es as [|e es IH]; simpl; auto. intros H. rewrite IH by auto.
  specialize (H e (or_introl eq_refl)). unfold has_stop in H. destruct (snd e); [discriminate|reflexivity].
Qed.
Lemma stops_some es : (forall e, In e es -> has_stop e = true) -> map Some (stops es) = map snd es.
Proof.
  induction es as [|e es IH]; simpl; auto. intros H. rewrite map_app, IH by auto.
  specialize (H e (or_introl eq_refl)). unfold has_stop in H. destruct (snd e); [reflexivity|discriminate].
Qed.
Lemma uniform_cases es : uniform es ->
  (stops es = [] /\ forall e, In e es -> snd e = None) \/
  (map Some (stops es) = map snd es /\ forall e, In e es -> has_stop e = true).
Proof.
  intros [[] H]; [right|left].
  - split; [apply stops_some; auto|auto].
  - split; [apply stops_none; auto|]. intros e I. specialize (H e I). unfold has_stop in H. destruct (snd e); congruence.
Qed.
Lemma fits_uniform es stop : uniform es -> fits es stop = true ->
  uniform (es ++ [((0, false), stop)]) /\ forall l, uniform (es ++ [(l, stop)]).
Proof.
  intros _ F. unfold fits in F. rewrite forallb_forall in F.
  assert (forall l, uniform (es ++ [(l, stop)])) as G; [|auto].
  intros l. exists (has_stop ((0, false), stop)). intros e I. apply in_app_or in I as [I|[<-|[]]]; [|reflexivity].
  apply F in I. apply eqb_prop in I. exact I.
Qed.
Lemma remove_entry_in l es e : In e (remove_entry l es) -> In e es.
Proof. induction es as [|a es IH]; simpl; auto. destruct (handle_dec (fst a) l); simpl; intuition. Qed.

Lemma lines_map m : flat_map get_line (map lin m) = m.
Proof. induction m as [|[d i] m IH]; simpl; congruence. Qed.
Lemma weaks_map es : flat_map get_weak (map (fun e : entry => lan (fst e)) es) = map fst es.
Proof. induction es as [|[[d i] o] es IH]; simpl; congruence. Qed.

Lemma handle_eqb_spec a b : h_eqb a b = true <-> a = b.
Proof.
  destruct a, b. unfold h_eqb. simpl. rewrite andb_true_iff, Nat.eqb_eq, eqb_true_iff. split.
  - intros [-> ->]; auto.
  - intros [= -> ->]; auto.
Qed.

(** Finding an entry by its lanelet. *)
Lemma find_entry s l es (A : al s (fst l) = true) :
  match find_idx s (lan l) (map (fun e : entry => lan (fst e)) es) with
  | None => ~ In l (map fst es) /\ remove_entry l es = es
  | Some i => In l (map fst es) /\
      erase_at i (map (fun e : entry => lan (fst e)) es) = Some (map (fun e : entry => lan (fst e)) (remove_entry l es)) /\
      erase_at i (map snd es) = Some (map snd (remove_entry l es))
  end.
Proof.
  induction es as [|e es IH]; simpl; [auto|].
  destruct (handle_dec (fst e) l) as [<-|N].
  - assert (param_eqb s (lan (fst e)) (lan (fst e)) = true) as P by (apply lan_eq; auto).
    simpl in P. rewrite P. simpl. auto.
  - destruct (param_eqb s (lan (fst e)) (lan l)) eqn:P.
    { apply lan_eq in P; auto. destruct (fst e), l; unfold lan in P; simpl in P. congruence. }
    simpl in P. rewrite P. destruct (find_idx s (lan l) _) as [i|].
    + destruct IH as (I & E1 & E2). simpl. rewrite E1, E2. auto.
    + destruct IH as [I E]. rewrite E. split; [|auto]. intros [J|J]; auto.
Qed.
Lemma erase_map {A B} (f : A -> B) i v :
  erase_at i (map f v) = match erase_at i v with None => None | Some v' => Some (map f v') end.
Proof.
  revert i. induction v as [|a v IH]; intros [|i]; simpl; auto. rewrite IH. destruct (erase_at i v); auto.
Qed.
Lemma map_some_inj {A} (u v : list A) : map Some u = map Some v -> u = v.
Proof. revert v. induction u as [|a u IH]; intros [|b v] H; simpl in *; try discriminate; auto. injection H as -> H. f_equal. auto. Qed.

Definition aws_al1 (o : aws_op) (al : nat -> bool) := match o with AExpire d => kill al d | _ => al end.
Lemma aws_rep_lines s es : aws_rep s es -> lines s RefLine = stops es.
Proof. intros (_ & H & _). unfold lines. rewrite H. apply lines_map. Qed.
Lemma aws_rep_lanelets s es : aws_rep s es -> lanelets s Yield = filter (fun h => al s (fst h)) (map fst es).
Proof. intros (H & _ & _). unfold lanelets, strong, weak_lanelets. rewrite H, weaks_map. reflexivity. Qed.

Lemma aws_add_step s es l stop : aws_rep s es -> al s (fst l) = true ->
  (stop <> None -> es <> [] -> (forall e, In e es -> snd e = None) -> exists e, In e es /\ al s (fst (fst e)) = true) ->
  if fits es stop then
    exists m, aws_add s l stop = Ok (with_rp s m, true) /\ aws_rep (with_rp s m) (es ++ [(l, stop)]) /\
      (forall r, r <> Yield -> r <> RefLine -> m r = rp s r)
  else aws_add s l stop = Throw.
Proof.
  intros R A D. pose proof (aws_rep_lines _ _ R) as L. pose proof (aws_rep_lanelets _ _ R) as Y.
  destruct R as (RY & RR & U). unfold aws_add. rewrite L, Y.
  assert (fits es stop = true -> exists m, Ok (with_rp s (match stop with
      | Some x => radd (radd (rp s) Yield (lan l)) RefLine (lin x) | None => radd (rp s) Yield (lan l) end), true)
      = Ok (with_rp s m, true) /\ aws_rep (with_rp s m) (es ++ [(l, stop)]) /\
      (forall r, r <> Yield -> r <> RefLine -> m r = rp s r)) as Good.
  { intros F. eexists. split; [reflexivity|]. split.
    - split; [|split].
      + simpl rp. transitivity (rindex (rp s) Yield ++ [lan l]).
        * destruct stop; [rewrite radd_other by discriminate|]; apply radd_same.
        * rewrite RY, map_app. reflexivity.
      + simpl rp. rewrite stops_app, map_app, <- RR. destruct stop as [x|]; simpl stops; simpl map.
        * rewrite radd_same, radd_other by discriminate. reflexivity.
        * rewrite radd_other by discriminate. rewrite app_nil_r. reflexivity.
      + apply fits_uniform; auto.
    - intros r R1 R2. destruct stop; unfold radd; rewrite !rset_other by auto; reflexivity. }
  destruct (uniform_cases es U) as [[S N]|[S N]].
  - rewrite S. destruct stop as [x|].
    + destruct es as [|e es'] eqn:Es.
      * simpl. apply Good. reflexivity.
      * assert (fits (e :: es') (Some x) = false) as ->.
        { simpl. unfold has_stop. rewrite (N e) by (left; auto). reflexivity. }
        destruct D as (e' & I & Ae); [discriminate|discriminate|exact N|].
        assert (In (fst e') (filter (fun h => al s (fst h)) (map fst (e :: es')))) as J.
        { apply filter_In. split; [apply in_map; auto|auto]. }
        destruct (filter (fun h => al s (fst h)) (map fst (e :: es'))); [destruct J|reflexivity].
    + assert (fits es None = true) as F.
      { apply forallb_forall. intros e I. unfold has_stop. rewrite (N e I). reflexivity. }
      rewrite F. specialize (Good F). destruct (filter _ _); exact Good.
  - destruct (stops es) as [|h r] eqn:St.
    + destruct es; [|discriminate]. simpl. destruct stop; apply Good; reflexivity.
    + destruct es as [|e es'] eqn:Es; [discriminate|]. destruct stop as [x|].
      * assert (fits (e :: es') (Some x) = true) as F.
        { apply forallb_forall. intros e' I. rewrite (N e' I). reflexivity. }
        rewrite F. apply Good. exact F.
      * simpl fits. rewrite (N e) by (left; auto). simpl. destruct (filter _ _); reflexivity.
Qed.

Lemma aws_remove_step s es l : aws_rep s es -> al s (fst l) = true ->
  exists m, aws_remove s l = Ok (with_rp s m, inb handle_dec l (map fst es)) /\
    aws_rep (with_rp s m) (remove_entry l es) /\ (forall r, r <> Yield -> r <> RefLine -> m r = rp s r).
Proof.
  intros (RY & RR & U) A. unfold aws_remove.
  assert (~ In l (map fst es) -> remove_entry l es = es ->
    exists m, Ok (s, false) = Ok (with_rp s m, inb handle_dec l (map fst es)) /\
    aws_rep (with_rp s m) (remove_entry l es) /\ (forall r, r <> Yield -> r <> RefLine -> m r = rp s r)) as No.
  { intros N E. exists (rp s). unfold inb. destruct (in_dec handle_dec l (map fst es)); [tauto|].
    rewrite E. split; [destruct s; reflexivity|]. split; [|auto]. split; [|split]; auto. }
  pose proof (find_entry s l es A) as F.
  destruct (rp s Yield) as [v|] eqn:Y.
  - assert (v = map (fun e : entry => lan (fst e)) es) as -> by (rewrite <- RY; unfold rindex; rewrite Y; reflexivity).
    destruct (find_idx s (lan l) (map (fun e : entry => lan (fst e)) es)) as [i|].
    + destruct F as (I & E1 & E2). unfold inb. destruct (in_dec handle_dec l (map fst es)); [|tauto].
      rewrite E1.
      assert (uniform (remove_entry l es)) as U'.
      { destruct U as [b U]. exists b. intros e J. apply U. eapply remove_entry_in. eauto. }
      destruct (uniform_cases es U) as [[S N]|[S N]].
      * rewrite S in RR. exists (rset (rp s) Yield (map (fun e : entry => lan (fst e)) (remove_entry l es))). split.
        -- unfold rindex in RR. destruct (rp s RefLine) as [[|]|]; [|discriminate|]; reflexivity.
        -- split; [|intros r R _; apply rset_other; auto]. split; [apply rindex_same|]. split; [|auto].
           simpl rp. rewrite rindex_other by discriminate. rewrite RR.
           rewrite stops_none; [reflexivity|]. intros e J. apply remove_entry_in in J. unfold has_stop. rewrite (N e J). reflexivity.
      * assert (erase_at i (stops es) = Some (stops (remove_entry l es))) as E3.
        { rewrite <- S, erase_map in E2. destruct (erase_at i (stops es)) as [w|]; [|discriminate].
          injection E2 as E2. rewrite <- stops_some in E2; [|intros e J; apply N; eapply remove_entry_in; eauto].
          apply map_some_inj in E2. congruence. }
        destruct (stops es) as [|h hs] eqn:St; [destruct i; discriminate|].
        exists (rset (rset (rp s) RefLine (map lin (stops (remove_entry l es)))) Yield (map (fun e : entry => lan (fst e)) (remove_entry l es))).
        split.
        -- unfold rindex in RR. destruct (rp s RefLine) as [w|]; [|discriminate]. subst w.
           change (map lin (h :: hs)) with (lin h :: map lin hs).
           assert (erase_at i (lin h :: map lin hs) = Some (map lin (stops (remove_entry l es)))) as ->.
           { change (lin h :: map lin hs) with (map lin (h :: hs)). rewrite erase_map, E3. reflexivity. }
           reflexivity.
        -- split; [|intros r R1 R2; rewrite !rset_other by auto; reflexivity].
           split; [apply rindex_same|]. split; [|auto].
           simpl rp. rewrite rindex_other by discriminate. apply rindex_same.
    + apply No; tauto.
  - assert (es = []) as ->.
    { unfold rindex in RY. rewrite Y in RY. destruct es; [reflexivity|discriminate]. }
    apply No; simpl; auto.
Qed.

Lemma aws_run os : forall s es, aws_rep s es -> aws_ok os es (al s) -> exists m a,
  let s' := upd_al (with_rp s m) a in
  run aws_step os s = Some (s', aws_results os es (ls_or_poly s Refers)) /\
  aws_rep s' (aws_entries os es) /\
  ls_or_poly s' Refers = fold_left (fun l o => aws_signs1 o l) os (ls_or_poly s Refers) /\
  a = aws_alive os (al s) /\
  (forall r, r <> Yield -> r <> RefLine -> r <> Refers -> m r = rp s r).
Proof.
  induction os as [|o os IH]; intros s es R OK.
  { exists (rp s), (al s). cbv zeta. assert (upd_al (with_rp s (rp s)) (al s) = s) as -> by (destruct s; reflexivity).
    simpl. auto 10. }
  destruct OK as [OK1 OK].
  assert (exists m a b s', s' = upd_al (with_rp s m) a /\
    ((aws_step o s = Ok (s', match b with Some x => x | None => true end) /\ b <> None) \/ (aws_step o s = Throw /\ s' = s /\ b = None)) /\
    aws_results (o :: os) es (ls_or_poly s Refers) = b :: aws_results os (aws_entries1 o es) (aws_signs1 o (ls_or_poly s Refers)) /\
    aws_rep s' (aws_entries1 o es) /\
    ls_or_poly s' Refers = aws_signs1 o (ls_or_poly s Refers) /\
    al s' = aws_al1 o (al s) /\
    (forall r, r <> Yield -> r <> RefLine -> r <> Refers -> rp s' r = rp s r)) as (m & a & b & s' & Es & S & B & R' & G & A & F).
  { destruct o as [l stop|l|d|x|x].
    - pose proof (aws_add_step s es l stop R (proj1 OK1) (proj2 OK1)) as H. simpl. destruct (fits es stop) eqn:Fi.
      + destruct H as (m & E & R' & F). exists m, (al s), (Some true), (with_rp s m). split; [reflexivity|].
        split; [left; split; [exact E|discriminate]|]. split; [reflexivity|]. split; [exact R'|].
        split; [|split; [reflexivity|intros r R1 R2 R3; simpl; auto]].
        unfold ls_or_poly. simpl. rewrite (rindex_ext m (rp s) Refers) by (apply F; discriminate). reflexivity.
      + exists (rp s), (al s), None, s. split; [destruct s; reflexivity|].
        split; [right; auto|]. split; [reflexivity|]. auto.
    - destruct (aws_remove_step s es l R OK1) as (m & E & R' & F).
      exists m, (al s), (Some (inb handle_dec l (map fst es))), (with_rp s m). split; [reflexivity|].
      split; [left; split; [exact E|discriminate]|]. split; [reflexivity|]. split; [exact R'|].
      split; [|split; [reflexivity|intros r R1 R2 R3; simpl; auto]].
      unfold ls_or_poly. simpl. rewrite (rindex_ext m (rp s) Refers) by (apply F; discriminate). reflexivity.
    - exists (rp s), (kill (al s) d), (Some true), (expire d s). split; [reflexivity|].
      split; [left; split; [reflexivity|discriminate]|]. split; [reflexivity|]. split; [exact R|]. auto.
    - exists (radd (rp s) Refers (as_param x)), (al s), (Some true), (with_rp s (radd (rp s) Refers (as_param x))).
      split; [reflexivity|].
      split; [left; split; [reflexivity|discriminate]|]. split; [reflexivity|]. split.
      + destruct R as (R1 & R2 & R3). split; [|split]; auto; simpl rp; rewrite radd_other by discriminate; auto.
      + split; [|split; [reflexivity|intros r R1 R2 R3; simpl; apply rset_other; auto]].
        unfold ls_or_poly. cbn [rp with_rp aws_signs1]. rewrite radd_same, flat_add, lsop_emb. reflexivity.
    - destruct (erase_lsop s Refers x) as (m & E & H & F).
      exists m, (al s), (Some (inb lsop_dec x (ls_or_poly s Refers))), (with_rp s m). split; [reflexivity|].
      split; [left; split; [exact E|discriminate]|]. split; [reflexivity|]. split.
      + destruct R as (R1 & R2 & R3). split; [|split]; auto; simpl rp;
          rewrite (rindex_ext m (rp s)) by (apply F; discriminate); auto.
      + split; [exact H|]. split; [reflexivity|]. intros r Q1 Q2 Q3. simpl. auto. }
  assert (aws_ok os (aws_entries1 o es) (al s')) as OK'. { rewrite A. exact OK. }
  destruct (IH s' (aws_entries1 o es) R' OK') as (m' & a' & H). cbv zeta in H. destruct H as (S' & R2 & G2 & A2 & F2).
  assert (upd_al (with_rp s' m') a' = upd_al (with_rp s m') a') as E by (rewrite Es; reflexivity).
  rewrite E in *. exists m', a'. cbv zeta. cbn [run].
  split.
  - rewrite B, <- G. destruct S as [[-> Nb]|(-> & Ss & ->)].
    + rewrite S'. destruct b; [reflexivity|congruence].
    + subst s'. rewrite Ss in S'. rewrite S', Ss. reflexivity.
  - split; [exact R2|]. split; [rewrite G2, G; reflexivity|]. split.
    + rewrite A2, A. reflexivity.
    + intros r Q1 Q2 Q3. rewrite F2 by auto. auto.
Qed.

(** getStopLine in a state that represents the entries. *)
Lemma handle_idx_before (es : list entry) : forall (f : nat -> bool) l, f (fst l) = true -> before_alive f l es ->
  match handle_idx l (filter (fun h => f (fst h)) (map fst es)) with
  | None => ~ In l (map fst es)
  | Some i => nth_error (map snd es) i = Some (stop_of l es) /\ In l (map fst es)
  end.
Proof.
  induction es as [|e es IH]; intros f l A B; simpl in *; [auto|].
  destruct (handle_dec (fst e) l) as [E|N].
  - rewrite E, A. simpl. assert (h_eqb l l = true) as -> by (apply handle_eqb_spec; auto). simpl. auto.
  - destruct B as [Ae B]. rewrite Ae. simpl. destruct (h_eqb (fst e) l) eqn:Q; [apply handle_eqb_spec in Q; congruence|].
    specialize (IH f l A B). destruct (handle_idx l _) as [i|]; [simpl; tauto|]. tauto.
Qed.
Lemma handle_idx_none (es : list entry) : forall (f : nat -> bool) l, ~ In l (map fst (es : list entry)) ->
  handle_idx l (filter (fun h => f (fst h)) (map fst es)) = None.
Proof.
  induction es as [|e es IH]; intros f l N; simpl in *; [auto|].
  destruct (f (fst (fst e))); simpl; [|apply IH; tauto].
  destruct (h_eqb (fst e) l) eqn:Q; [apply handle_eqb_spec in Q; tauto|]. rewrite IH by tauto. reflexivity.
Qed.
Lemma stop_of_none l es : (forall e, In e es -> snd e = None) -> stop_of l es = None.
Proof. induction es as [|e es IH]; simpl; auto. intros H. destruct (handle_dec (fst e) l); auto. Qed.
Lemma stop_of_out l (es : list entry) : ~ In l (map fst (es : list entry)) -> stop_of l es = None.
Proof. induction es as [|e es IH]; simpl; auto. intros H. destruct (handle_dec (fst e) l); tauto. Qed.

Lemma aws_get_stop s es l : aws_rep s es -> al s (fst l) = true -> before_alive (al s) l es ->
  get_stop_line s l = Ok (stop_of l es).
Proof.
  intros R A B. pose proof (aws_rep_lines _ _ R) as L. pose proof (aws_rep_lanelets _ _ R) as Y.
  destruct R as (_ & _ & U). unfold get_stop_line. rewrite L, Y.
  pose proof (handle_idx_before es (al s) l A B) as H.
  destruct (uniform_cases es U) as [[S N]|[S N]].
  - rewrite S. rewrite stop_of_none by auto. reflexivity.
  - destruct (stops es) as [|h hs] eqn:St.
    { destruct es; [reflexivity|discriminate]. }
    destruct (handle_idx l _) as [i|].
    + destruct H as [H1 H2]. rewrite <- S in H1. rewrite nth_error_map in H1.
      destruct (nth_error (h :: hs) i); simpl in H1; [|discriminate]. congruence.
    + rewrite stop_of_out by auto. reflexivity.
Qed.
Lemma aws_get_stop_out s (es : list entry) l : aws_rep s es -> ~ In l (map fst (es : list entry)) -> get_stop_line s l = Ok None.
Proof.
  intros R N. pose proof (aws_rep_lines _ _ R) as L. pose proof (aws_rep_lanelets _ _ R) as Y.
  unfold get_stop_line. rewrite L, Y, handle_idx_none by auto. destruct (stops es); reflexivity.
Qed.

(** The constructor. *)
Lemma aws_make_spec s v signs :
  match aws_make s v signs with
  | Ok s' => uniform v /\ aws_rep s' v /\ ls_or_poly s' Refers = signs /\ al s' = al s
  | Throw => ~ uniform v
  | UB => False
  end.
Proof.
  unfold aws_make, aws_ctor. cbn [rp with_rp].
  set (m := rset _ Refers _).
  assert (rindex m RightOfWayR = []) as -> by (unfold rindex, m; rewrite !rset_other by discriminate; reflexivity).
  assert (rindex m Yield = map (fun x : entry => lan (fst x)) v) as Y.
  { unfold m. rewrite !rindex_other by discriminate. apply rindex_same. }
  assert (rindex m RefLine = map lin (stops v)) as RL.
  { unfold m. rewrite rindex_other by discriminate. rewrite rindex_same. unfold stops. clear.
    induction v as [|[l [x|]] v IH]; simpl; congruence. }
  assert (flat_map get_lsop (rindex m Refers) = signs) as G.
  { unfold m. rewrite rindex_same. clear. induction signs as [|x r IH]; simpl; [auto|]. rewrite lsop_emb. simpl. congruence. }
  assert (m Yield = Some (map (fun x : entry => lan (fst x)) v)) as MY.
  { unfold m. rewrite !rset_other by discriminate. apply rset_same. }
  assert (List.length (stops v) = List.length v -> uniform v) as Full.
  { intros E. exists true. clear -E.
    assert (forall w, List.length (stops w) <= List.length w) as Le.
    { clear. induction w as [|[l [x|]] w IH]; simpl; lia. }
    induction v as [|[l [x|]] v IH]; intros e I; [destruct I| |].
    - destruct I as [<-|I]; [reflexivity|]. apply IH; [|auto]. injection E as E. exact E.
    - specialize (Le v). change (List.length (stops v) = S (List.length v)) in E. exfalso. rewrite E in Le. exact (Nat.nle_succ_diag_l _ Le). }
  change (negb (Nat.eqb (List.length (@nil param)) 0)) with false. cbv iota. rewrite RL, MY. destruct (stops v) as [|h hs] eqn:S; cbn [map]; cbv iota beta.
  - assert (uniform v) as U.
    { exists false. clear -S. induction v as [|[l [x|]] v IH]; simpl in *; try discriminate; intros e []; subst; auto. }
    split; [auto|]. split; [|auto]. split; [exact Y|]. split; [|auto]. simpl rp. rewrite RL, S. reflexivity.
  - match goal with |- context [Nat.eqb ?a ?b] => destruct (Nat.eqb a b) eqn:E end; [apply Nat.eqb_eq in E|apply Nat.eqb_neq in E].
    + change (List.length (map lin (h :: hs)) = List.length (map (fun x : entry => lan (fst x)) v)) in E.
      rewrite !map_length in E. specialize (Full E).
      split; [exact Full|]. split; [|auto]. split; [exact Y|]. split; [simpl rp; rewrite RL, S; reflexivity|].
      exact Full.
    + intros U. destruct (uniform_cases v U) as [[S' _]|[S' _]]; [congruence|].
      apply (f_equal (@List.length _)) in S'. rewrite S, !map_length in S'. apply E. simpl. rewrite !map_length. exact S'.
Qed.
