From Coq Require Import List Arith Bool ZArith Permutation Lia.
From Verif Require Import BoundaryModel BoundarySpec.
Import ListNotations.
Local Open Scope list_scope.

Definition filled (l : ls) : Prop := l_pts l <> [].

Lemma front_invert l : front (invert l) = back l.
Proof. unfold front, back, points, invert; cbn. destruct (l_inv l); cbn; rewrite ?rev_involutive; auto. Qed.
Lemma back_invert l : back (invert l) = front l.
Proof. unfold front, back, points, invert; cbn. destruct (l_inv l); cbn; rewrite ?rev_involutive; auto. Qed.
Lemma invert_invert l : invert (invert l) = l.
Proof. destruct l; unfold invert; cbn. rewrite negb_involutive. auto. Qed.
Lemma key_invert l : key (invert l) = key l.
Proof. auto. Qed.
Lemma filled_invert l : filled (invert l) <-> filled l.
Proof. reflexivity. Qed.
Lemma filled_front l : filled l -> exists p, front l = Some p.
Proof.
  unfold filled, front, points. destruct l as [i p v]; cbn. intros H.
  assert (X : (if v then rev p else p) <> []).
  { destruct v; auto. intros E. apply (f_equal (@rev Z)) in E. rewrite rev_involutive in E. auto. }
  destruct (if v then rev p else p); [congruence|cbn; eauto].
Qed.
Lemma filled_back l : filled l -> exists p, back l = Some p.
Proof. intros H. rewrite <- front_invert. apply filled_front, filled_invert, H. Qed.

Lemma walk_app p q t a b : walk p a q -> walk q b t -> walk p (a ++ b) t.
Proof. induction 1; cbn; auto. intros W. eapply walk_cons; eauto. Qed.
Lemma walk_app_inv a : forall p b t, walk p (a ++ b) t -> exists q, walk p a q /\ walk q b t.
Proof.
  induction a as [|l a IH]; cbn; intros p b t W; [exists p; split; auto; constructor|].
  inversion W; subst. destruct (IH _ _ _ H5) as (q' & Wa & Wb). exists q'; split; auto. econstructor; eauto.
Qed.
Lemma walk_one p q l : front l = Some p -> back l = Some q -> walk p [l] q.
Proof. intros F B. eapply walk_cons; eauto. constructor. Qed.
Lemma walk_reverse p q r : walk p r q -> walk q (reverse r) p.
Proof.
  unfold reverse. induction 1; cbn; [constructor|].
  eapply walk_app; [exact IHwalk|]. apply walk_one; [rewrite front_invert|rewrite back_invert]; assumption.
Qed.
Lemma reversed_reverse r : reversed r (reverse r).
Proof. unfold reverse. induction r; cbn; constructor; auto. Qed.
Lemma reversed_unique r s : reversed r s -> s = reverse r.
Proof. unfold reverse. induction 1; cbn; auto. rewrite IHreversed. auto. Qed.
Lemma reverse_nil r : reverse r = [] -> r = [].
Proof. unfold reverse. destruct r; cbn; auto. intros E. apply app_eq_nil in E. destruct E; discriminate. Qed.
Lemma reverse_reverse r : reverse (reverse r) = r.
Proof. unfold reverse. rewrite map_rev, rev_involutive, map_map. rewrite <- (map_id r) at 2. apply map_ext, invert_invert. Qed.
Lemma ring_reverse r : ring r -> ring (reverse r).
Proof. intros [N [p W]]. split; [intros E; apply N, reverse_nil, E|]. exists p. apply walk_reverse, W. Qed.
Lemma keys_reverse r : Permutation (map key (reverse r)) (map key r).
Proof. unfold reverse. rewrite map_rev, <- Permutation_rev, map_map. cbn. apply Permutation_refl. Qed.

Lemma find_next_spec last l : Forall filled l ->
  match find_next last l with
  | None => False
  | Some None => forall x, In x l -> front x <> Some last /\ back x <> Some last
  | Some (Some (n, l')) => exists a b, l = a ++ n :: b /\ l' = a ++ b /\ (front n = Some last \/ back n = Some last) /\
      (forall x, In x a -> front x <> Some last /\ back x <> Some last)
  end.
Proof.
  induction 1 as [|e r Fe Fr IH]; [cbn; tauto|].
  cbn [find_next].
  destruct (filled_back e Fe) as [b Eb]. destruct (filled_front e Fe) as [f Ef]. rewrite Eb, Ef.
  destruct (Z.eqb_spec b last) as [->|Nb]; cbn [orb].
  { exists [], r. repeat split; auto; cbn in *; tauto. }
  destruct (Z.eqb_spec f last) as [->|Nf].
  { exists [], r. repeat split; auto; cbn in *; tauto. }
  destruct (find_next last r) as [[[x r']|]|]; auto.
  - destruct IH as (a & c & -> & -> & H & K). exists (e :: a), c. repeat split; auto;
    destruct H0 as [<-|H0]; try congruence; apply K, H0.
  - intros x [<-|H]; [split; congruence|auto].
Qed.

Definition ends (q : Z) (k : Z * list Z) : Prop := hd_error (snd k) = Some q \/ hd_error (rev (snd k)) = Some q.
Lemma ends_spec q l : (front l <> Some q /\ back l <> Some q) <-> ~ ends q (key l).
Proof. unfold ends, front, back, points, key; cbn. destruct (l_inv l); rewrite ?rev_involutive; tauto. Qed.

Section Sound.
Variable valid : list ls -> bool.

Lemma rev_last {A} (l : list A) x r : rev l = x :: r -> l = rev r ++ [x].
Proof. intros E. apply (f_equal (@rev A)) in E. rewrite rev_involutive in E. auto. Qed.
Lemma walk_last p a l q : walk p (a ++ [l]) q -> back l = Some q.
Proof. intros W. apply walk_app_inv in W. destruct W as (x & _ & W). inversion W; subst. inversion H5; subst. auto. Qed.
Lemma walk_first p l r q : walk p (l :: r) q -> front l = Some p.
Proof. inversion 1; auto. Qed.

Lemma close_spec done cur errs p q : cur <> [] -> walk p cur q ->
  close valid done cur errs =
    Some (if Z.eqb q p then
            if valid cur then (done ++ [cur], [], errs)
            else if valid (reverse cur) then (done ++ [reverse cur], [], errs)
            else (done, [], errs ++ [EInvalid])
          else (done, cur, errs)).
Proof.
  intros N W. destruct cur as [|f c]; [congruence|]. unfold close.
  destruct (rev (f :: c)) as [|l m] eqn:E.
  { cbn in E. apply app_eq_nil in E. destruct E; discriminate. }
  pose proof (rev_last _ _ _ E) as E'. pose proof W as W'. rewrite E' in W'. apply walk_last in W'. rewrite W'.
  rewrite (walk_first _ _ _ _ W). destruct (Z.eqb q p); auto. destruct (valid (f :: c)); auto. destruct (valid (reverse (f :: c))); auto.
Qed.

Lemma concat_keys_perm (l m : list ls) (P : Z * list Z -> Prop) : Permutation (map key l) (map key m) ->
  (forall x, In x l -> P (key x)) -> forall x, In x m -> P (key x).
Proof.
  intros H K x Hx. apply (in_map key) in Hx. apply (Permutation_in _ (Permutation_sym H)) in Hx.
  apply in_map_iff in Hx. destruct Hx as (y & <- & Hy). auto.
Qed.

Definition goodcur (cur : list ls) : Prop := cur = [] \/ open_walk cur.
Definition result_ok todo done cur errs (o : outcome (list (list ls) * list berror)) : Prop :=
  exists h t, o = Done (done ++ rings_of h, errs ++ errors_of h) /\ history valid h t /\
    Permutation (map key (cur ++ todo)) (map key (concat (map snd h) ++ t)).

Lemma step_ok todo done cur errs p q o : cur <> [] -> walk p cur q ->
  (forall done' cur' errs', close valid done cur errs = Some (done', cur', errs') -> goodcur cur' ->
     result_ok todo done' cur' errs' (o done' cur' errs')) ->
  result_ok todo done cur errs
    (match close valid done cur errs with None => UB | Some (done', cur', errs') => o done' cur' errs' end).
Proof.
  intros N W H. rewrite (close_spec _ _ _ _ _ N W) in *. destruct (Z.eqb_spec q p) as [->|D].
  - assert (R : ring cur) by (split; eauto).
    destruct (valid cur) eqn:V; [|destruct (valid (reverse cur)) eqn:V'].
    + destruct (H _ _ _ eq_refl (or_introl eq_refl)) as (h & t & -> & Hh & P).
      exists ((None, cur) :: h), t. split; [cbn; rewrite <- app_assoc; auto|]. split; [constructor; auto|].
      cbn [map snd concat]. rewrite <- app_assoc, !(map_app key cur). apply Permutation_app_head. exact P.
    + destruct (H _ _ _ eq_refl (or_introl eq_refl)) as (h & t & -> & Hh & P).
      exists ((None, reverse cur) :: h), t. split; [cbn; rewrite <- app_assoc; auto|]. split; [constructor; auto; apply ring_reverse, R|].
      cbn [map snd concat]. rewrite <- app_assoc, (map_app key cur), (map_app key (reverse cur)). apply Permutation_app; [symmetry; apply keys_reverse|exact P].
    + destruct (H _ _ _ eq_refl (or_introl eq_refl)) as (h & t & -> & Hh & P).
      exists ((Some EInvalid, cur) :: h), t. split; [cbn; rewrite <- app_assoc; auto|]. split.
      * constructor; auto. split; auto. split; auto. intros s Hs. rewrite (reversed_unique _ _ Hs). auto.
      * cbn [map snd concat]. rewrite <- app_assoc, !(map_app key cur). apply Permutation_app_head. exact P.
  - apply H; auto. right. split; auto. exists p, q. split; auto.
Qed.

Lemma loop_ok : forall fuel todo done cur errs, Forall filled todo -> goodcur cur ->
  2 * length todo + (match cur with [] => 0 | _ => 1 end) <= fuel ->
  result_ok todo done cur errs (assemble_loop valid fuel todo done cur errs).
Proof.
  induction fuel as [|fuel IH]; intros todo done cur errs F G L.
  - destruct todo; [|cbn in L; lia]. exists [], cur. cbn. rewrite !app_nil_r. repeat split; auto. constructor. exact G.
  - destruct todo as [|e r].
    { exists [], cur. cbn. rewrite !app_nil_r. repeat split; auto. constructor. exact G. }
    cbn [assemble_loop]. destruct (rev cur) as [|last m] eqn:E.
    + assert (cur = []) as -> by (destruct cur; auto; cbn in E; apply app_eq_nil in E; destruct E; discriminate).
      inversion F as [|? ? Fe Fr]; subst. destruct (filled_front e Fe) as [p Ep]. destruct (filled_back e Fe) as [q Eq].
      eapply (step_ok r done [e] errs p q (assemble_loop valid fuel r)); [discriminate|apply walk_one; auto|].
      intros done' cur' errs' _ G'. apply IH; auto. cbn in L. destruct cur'; lia.
    + pose proof (rev_last _ _ _ E) as E'. destruct G as [->|[N (p & q & W & D)]]; [discriminate|].
      pose proof W as W'. rewrite E' in W'. apply walk_last in W'. rewrite W'.
      pose proof (find_next_spec q (e :: r) F) as K. destruct (find_next q (e :: r)) as [[[n todo']|]|]; [| |contradiction].
      * destruct K as (a & b & El & -> & En & _). cbv zeta.
        assert (Fn : filled n) by (rewrite List.Forall_forall in F; apply F; rewrite El; apply in_or_app; cbn; auto).
        set (n' := match back n with Some b0 => if Z.eqb b0 q then invert n else n | None => n end).
        assert (N' : front n' = Some q /\ key n' = key n).
        { unfold n'. destruct (filled_back n Fn) as [bn Bn]. rewrite Bn. destruct (Z.eqb_spec bn q) as [->|Nb].
          - rewrite front_invert. auto.
          - destruct En; [auto|congruence]. }
        destruct N' as [Fn' Kn']. assert (Fn'' : filled n') by (unfold filled in *; apply (f_equal snd) in Kn'; cbn in Kn'; rewrite Kn'; auto).
        destruct (filled_back n' Fn'') as [q' Bq'].
        assert (X : result_ok (a ++ b) done (cur ++ [n']) errs
          (match close valid done (cur ++ [n']) errs with
           | None => UB | Some (done', cur', errs') => assemble_loop valid fuel (a ++ b) done' cur' errs' end)).
        { eapply (step_ok _ _ _ _ p q' (assemble_loop valid fuel (a ++ b))).
          - destruct cur; discriminate.
          - eapply walk_app; [exact W|apply walk_one; auto].
          - intros done' cur' errs' _ G'. apply IH; auto.
            + rewrite El in F. rewrite List.Forall_app in *. destruct F as [Fa Fb]. inversion Fb; auto.
            + apply (f_equal (@length ls)) in El. rewrite app_length in El |- *. cbn in El, L. destruct cur'; destruct cur; cbn in *; try congruence; lia. }
        destruct X as (h & t & -> & Hh & P). exists h, t. repeat split; auto.
        rewrite <- P, El. rewrite <- app_assoc. rewrite !map_app. apply Permutation_app_head. cbn. rewrite Kn'.
        rewrite <- Permutation_middle. auto.
      * destruct (IH (e :: r) done [] (errs ++ [EIncomplete (l_id last)])) as (h & t & -> & Hh & P); auto.
        { left; auto. } { destruct cur; [congruence|lia]. }
        exists ((Some (EIncomplete (l_id last)), cur) :: h), t. split; [cbn; rewrite <- app_assoc; auto|]. split.
        -- constructor; auto. exists p, q, (rev m), last. repeat split; auto.
           1-2: apply ends_spec; revert x H; apply (concat_keys_perm _ _ (fun k => ~ ends q k) P);
             intros x Hx; apply ends_spec, K, Hx.
        -- cbn [map snd concat]. rewrite <- app_assoc, !(map_app key cur). apply Permutation_app_head. exact P.
Qed.
Lemma assemble_ok l : Forall filled l -> exists h t,
  assemble valid l = Done (rings_of h, errors_of h) /\ history valid h t /\
  Permutation (map key l) (map key (concat (map snd h) ++ t)).
Proof.
  intros F. destruct (loop_ok (2 * length l) l [] [] [] F (or_introl eq_refl)) as (h & t & E & H & P); [lia|].
  exists h, t. auto.
Qed.
End Sound.

(** * Completeness *)
Lemma key_eq x y : key x = key y -> x = y \/ x = invert y.
Proof.
  destruct x as [i p v], y as [j q w]. unfold key, invert; cbn. intros [= -> ->].
  destruct v, w; cbn; auto.
Qed.
Lemma key_ends x y q : key x = key y -> (front x = Some q \/ back x = Some q) -> front y = Some q \/ back y = Some q.
Proof. intros E H. destruct (key_eq _ _ E) as [->| ->]; auto. rewrite front_invert, back_invert in H. tauto. Qed.
Lemma junctions_app a b : junctions (a ++ b) = junctions a ++ junctions b.
Proof. apply map_app. Qed.
Lemma in_junctions x r : In x r -> In (front x) (junctions r).
Proof. apply (in_map (fun l => hd_error (points l))). Qed.
Lemma nodup_front r x y : NoDup (junctions r) -> In x r -> In y r -> front x = front y -> x = y.
Proof.
  induction r as [|l r IH]; cbn; [tauto|]. intros N. inversion N as [|? ? N1 N2]; subst.
  intros [<-|Hx] [<-|Hy] E; auto.
  - contradict N1. fold (front l). rewrite E. apply in_junctions, Hy.
  - contradict N1. fold (front l). rewrite <- E. apply in_junctions, Hx.
Qed.
Lemma walk_back r : forall p q x, walk p r q -> In x r -> back x = Some q \/ In (back x) (junctions (tl r)).
Proof.
  induction r as [|l r IH]; [cbn; tauto|]. intros p q x W [<-|Hx].
  - cbn [tl]. destruct r as [|m r].
    + left. inversion W as [|? ? ? ? ? F B W']; subst. inversion W'; subst. exact B.
    + right. inversion W as [|? ? ? ? ? F B W']; subst. cbn. left. unfold back. rewrite B. inversion W'; auto.
  - inversion W; subst. destruct (IH _ _ _ H5 Hx) as [E|E]; auto. right.
    cbn [tl]. destruct r as [|m r]; [destruct Hx|]. cbn in *. auto.
Qed.
Lemma ring_back r p x : walk p r p -> In x r -> In (back x) (junctions r).
Proof.
  intros W Hx. destruct (walk_back _ _ _ _ W Hx) as [E|E].
  - rewrite E. destruct r as [|l r]; [destruct Hx|]. left. fold (front l). eapply walk_first; eauto.
  - destruct r; cbn in *; auto.
Qed.
Lemma walk_filled r : forall p q, walk p r q -> Forall filled r.
Proof.
  induction r; intros p q W; constructor; inversion W; subst.
  - intros E. unfold points in H3. rewrite E in H3. destruct (l_inv a); discriminate.
  - eapply IHr; eauto.
Qed.
Lemma filled_keys l m : Permutation (map key l) (map key m) -> Forall filled m -> Forall filled l.
Proof.
  rewrite !List.Forall_forall. intros P F.
  assert (X : forall x, In x l -> snd (key x) <> []).
  { apply (concat_keys_perm m l (fun k => snd k <> [])); [symmetry; auto|exact F]. }
  exact X.
Qed.

Lemma nodup_app_r {A} (a b : list A) : NoDup (a ++ b) -> NoDup b.
Proof. induction a; cbn; auto. inversion 1; auto. Qed.
Lemma perm_concat {A} (a b : list (list A)) : Permutation a b -> Permutation (concat a) (concat b).
Proof.
  induction 1; cbn; auto.
  - apply Permutation_app_head; auto.
  - rewrite !app_assoc. apply Permutation_app_tail, Permutation_app_comm.
  - etransitivity; eauto.
Qed.

Section Complete.
Variable valid : list ls -> bool.
Definition final (c : list ls) : list ls := if valid c then c else reverse c.

Section Follow.
Variables (others : list ls) (p : Z).
Hypothesis back_others : forall x, In x others -> In (back x) (junctions others).
Hypothesis filled_others : Forall filled others.

Lemma next_unique pre c suf x q : pre <> [] -> walk p (pre ++ c :: suf) p -> NoDup (junctions ((pre ++ c :: suf) ++ others)) ->
  front c = Some q -> In x ((c :: suf) ++ others) ->
  (front x = Some q -> x = c) /\ back x <> Some q.
Proof.
  intros N W D Fc Hx.
  assert (D' : NoDup (junctions ((c :: suf) ++ others))).
  { rewrite <- app_assoc, junctions_app in D. apply nodup_app_r in D. exact D. }
  split.
  - intros E. apply (nodup_front ((c :: suf) ++ others)); auto; [cbn; auto|congruence].
  - intros E. apply in_app_or in Hx. destruct Hx as [Hx|Hx].
    + destruct (walk_back (c :: suf) q p x) as [B|B]; auto.
      { apply walk_app_inv in W. destruct W as (q' & _ & W). pose proof (walk_first _ _ _ _ W). congruence. }
      * destruct pre as [|f pre]; [congruence|]. pose proof (walk_first _ _ _ _ W) as Ff.
        cbn in D. inversion D as [|? ? D1 _]; subst. apply D1. fold (front f). rewrite Ff, <- B, E.
        rewrite <- Fc. rewrite !junctions_app. apply in_or_app. left. apply in_or_app. right. left. auto.
      * cbn [tl] in B. cbn in D'. inversion D' as [|? ? D1 _]; subst. apply D1. fold (front c). rewrite Fc, <- E, junctions_app.
        apply in_or_app; auto.
    + apply back_others in Hx. rewrite E, <- Fc in Hx. cbn in D'. inversion D' as [|? ? D1 _]; subst. apply D1.
      fold (front c). rewrite junctions_app. apply in_or_app; auto.
Qed.

Lemma finish suf : forall pre todo done errs fuel,
  pre <> [] -> walk p (pre ++ suf) p -> NoDup (junctions ((pre ++ suf) ++ others)) ->
  Permutation (map key todo) (map key (suf ++ others)) -> length suf <= fuel ->
  valid (pre ++ suf) = true \/ valid (reverse (pre ++ suf)) = true ->
  exists todo', Permutation (map key todo') (map key others) /\
    match close valid done pre errs with
    | None => UB
    | Some (done', cur', errs') => assemble_loop valid fuel todo done' cur' errs'
    end = assemble_loop valid (fuel - length suf) todo' (done ++ [final (pre ++ suf)]) [] errs.
Proof.
  induction suf as [|c suf IH]; intros pre todo done errs fuel N W D P L V.
  - rewrite app_nil_r in *. exists todo. split; auto. rewrite (close_spec _ _ _ _ _ _ N W), Z.eqb_refl.
    unfold final. rewrite Nat.sub_0_r. destruct (valid pre); auto. destruct V as [V|V]; [discriminate|]. rewrite V. auto.
  - destruct (walk_app_inv _ _ _ _ W) as (q & Wp & Ws). pose proof (walk_first _ _ _ _ Ws) as Fc.
    rewrite (close_spec _ _ _ _ _ _ N Wp).
    assert (Nq : q <> p).
    { intros ->. destruct pre as [|f pre]; [congruence|]. pose proof (walk_first _ _ _ _ W) as Ff.
      cbn in D. inversion D as [|? ? D1 _]; subst. apply D1. fold (front f). rewrite Ff, <- Fc, !junctions_app.
      apply in_or_app. left. apply in_or_app. right. left. auto. }
    destruct (Z.eqb_spec q p); [congruence|]. clear n.
    destruct fuel as [|fuel]; [cbn in L; lia|].
    assert (Ft : Forall filled todo).
    { apply (filled_keys _ _ P). apply List.Forall_app. split; auto. eapply walk_filled; eauto. }
    destruct todo as [|e r] eqn:Et; [apply Permutation_nil in P; discriminate|]. rewrite <- Et in *.
    assert (Hstep : exists a n b, todo = a ++ n :: b /\ (n = c \/ n = invert c) /\ find_next q todo = Some (Some (n, a ++ b))).
    { pose proof (find_next_spec q todo Ft) as K. destruct (find_next q todo) as [[[n todo']|]|]; [| |contradiction].
      - destruct K as (a & b & E & -> & En & _). exists a, n, b. repeat split; auto. rewrite E in P.
        assert (Hn : In (key n) (map key ((c :: suf) ++ others))).
        { eapply Permutation_in; [exact P|]. apply in_map, in_or_app. cbn; auto. }
        apply in_map_iff in Hn. destruct Hn as (y & Ky & Hy). symmetry in Ky.
        destruct (next_unique pre c suf y q N W D Fc Hy) as [U1 U2].
        destruct (key_ends _ _ _ Ky En) as [F|B]; [|contradiction]. rewrite (U1 F) in Ky. apply key_eq, Ky.
      - exfalso. assert (Hc : In (key c) (map key todo)).
        { eapply Permutation_in; [symmetry; exact P|]. cbn; auto. }
        apply in_map_iff in Hc. destruct Hc as (y & Ky & Hy). destruct (K y Hy) as [K1 K2].
        destruct (key_ends c y q) as [X|X]; auto. }
    destruct Hstep as (a & n & b & Ea & Hn & Hf).
    assert (Hl : exists m l, rev pre = l :: m /\ back l = Some q).
    { destruct (rev pre) as [|l m] eqn:E; [apply (f_equal (@rev ls)) in E; rewrite rev_involutive in E; cbn in E; congruence|].
      exists m, l. split; auto. rewrite (rev_last _ _ _ E) in Wp. eapply walk_last; eauto. }
    destruct Hl as (m & l & El & Bl).
    assert (Bc : back c <> Some q).
    { apply (next_unique pre c suf c q N W D Fc). cbn; auto. }
    rewrite Et. cbn [assemble_loop]. rewrite El, Bl. rewrite <- Et, Hf. cbv zeta.
    assert (On : match back n with Some b0 => if Z.eqb b0 q then invert n else n | None => n end = c).
    { destruct Hn as [->| ->].
      - destruct (back c) as [bc|]; auto. destruct (Z.eqb_spec bc q); [congruence|auto].
      - rewrite back_invert, Fc, Z.eqb_refl. apply invert_invert. }
    rewrite On.
    destruct (IH (pre ++ [c]) (a ++ b) done errs fuel) as (todo' & P' & E').
    + destruct pre; discriminate.
    + rewrite <- app_assoc. exact W.
    + rewrite <- (app_assoc pre). exact D.
    + rewrite Ea in P. rewrite map_app in P. cbn in P. rewrite <- Permutation_middle, <- map_app in P.
      replace (key n) with (key c) in P by (destruct Hn as [->| ->]; auto).
      apply Permutation_cons_inv in P. exact P.
    + cbn in L. lia.
    + rewrite <- app_assoc. exact V.
    + exists todo'. split; auto. rewrite <- app_assoc in E'. exact E'.
Qed.
End Follow.

Lemma back_junctions r p : walk p r p -> Permutation (map back r) (junctions r).
Proof.
  intros W. assert (G : forall r p q, walk p r q -> Some p :: map back r = junctions r ++ [Some q]).
  { induction 1; cbn; auto. f_equal; auto. unfold back. rewrite H0. apply IHwalk. }
  apply (Permutation_cons_inv (a := Some p)). rewrite (G _ _ _ W). symmetry. apply Permutation_cons_append.
Qed.
Lemma junctions_reverse r : junctions (reverse r) = rev (map back r).
Proof.
  unfold junctions, reverse. rewrite map_rev, map_map. f_equal. apply map_ext. intros l. apply front_invert.
Qed.
Lemma reverse_app a b : reverse (a ++ b) = reverse b ++ reverse a.
Proof. unfold reverse. rewrite map_app, rev_app_distr. auto. Qed.
Lemma junctions_perm a b : Permutation a b -> Permutation (junctions a) (junctions b).
Proof. apply Permutation_map. Qed.

Definition sound_valid (r : list ls) : Prop := forall s, rotation r s -> valid s = true /\ valid (reverse s) = false.

Lemma rotate_ring r s1 s2 p : r = s1 ++ s2 -> walk p r p -> exists q, walk q (s2 ++ s1) q.
Proof. intros -> W. apply walk_app_inv in W. destruct W as (q & W1 & W2). exists q. eapply walk_app; eauto. Qed.

Lemma complete_loop : forall n rs fuel todo done errs, length rs = n ->
  Forall ring rs -> NoDup (junctions (concat rs)) -> Forall sound_valid rs ->
  Permutation (map key todo) (map key (concat rs)) -> length todo <= fuel ->
  exists rs' out, assemble_loop valid fuel todo done [] errs = Done (done ++ out, errs) /\
    Permutation rs rs' /\ Forall2 rotation rs' out.
Proof.
  induction n as [|n IH]; intros rs fuel todo done errs Hn R D V P L.
  - destruct rs; [|discriminate]. cbn in P. apply Permutation_sym, Permutation_nil in P. destruct todo; [|discriminate].
    exists [], []. rewrite app_nil_r. destruct fuel; cbn; auto.
  - destruct todo as [|x todo].
    { apply Permutation_nil in P. destruct rs as [|[|l r] rs]; cbn in P; try discriminate.
      inversion R as [|? ? [R1 _] _]; congruence. }
    destruct fuel as [|fuel]; [cbn in L; lia|].
    assert (Hx : In (key x) (map key (concat rs))) by (eapply Permutation_in; [exact P|cbn; auto]).
    apply in_map_iff in Hx. destruct Hx as (y & Ky & Hy). apply in_concat in Hy. destruct Hy as (r & Hr & Hy).
    apply in_split in Hr. destruct Hr as (ra & rb & Er).
    assert (Pr : Permutation rs (r :: ra ++ rb)) by (rewrite Er; symmetry; apply Permutation_middle).
    assert (Rr : ring r /\ Forall ring (ra ++ rb)).
    { eapply Permutation_Forall in R; [|exact Pr]. inversion R; auto. }
    assert (Vr : sound_valid r /\ Forall sound_valid (ra ++ rb)).
    { eapply Permutation_Forall in V; [|exact Pr]. inversion V; auto. }
    destruct Rr as [[Rn [p W]] Ro]. destruct Vr as [Vr Vo].
    assert (Pc : Permutation (concat rs) (r ++ concat (ra ++ rb))) by (apply perm_concat in Pr; exact Pr).
    assert (Dr : NoDup (junctions r ++ junctions (concat (ra ++ rb)))).
    { rewrite <- junctions_app. eapply Permutation_NoDup; [apply junctions_perm, Pc|exact D]. }
    assert (Bo : forall z, In z (concat (ra ++ rb)) -> In (back z) (junctions (concat (ra ++ rb)))).
    { intros z Hz. apply in_concat in Hz. destruct Hz as (r' & Hr' & Hz).
      rewrite List.Forall_forall in Ro. destruct (Ro _ Hr') as [_ [p' W']].
      pose proof (ring_back _ _ _ W' Hz) as B. unfold junctions in *. apply in_map_iff in B. destruct B as (u & Eu & Hu).
      apply in_map_iff. exists u. split; auto. apply in_concat. eauto. }
    assert (Fo : Forall filled (concat (ra ++ rb))).
    { apply List.Forall_forall. intros z Hz. apply in_concat in Hz. destruct Hz as (r' & Hr' & Hz).
      rewrite List.Forall_forall in Ro. destruct (Ro _ Hr') as [_ [p' W']]. pose proof (walk_filled _ _ _ W') as F.
      rewrite List.Forall_forall in F. auto. }
    (* the ring in the direction in which it is followed *)
    assert (HS : exists s, In x s /\ (s = r \/ s = reverse r)).
    { symmetry in Ky. destruct (key_eq _ _ Ky) as [->| ->]; [exists r; auto|]. exists (reverse r). split; auto.
      unfold reverse. rewrite <- in_rev. apply in_map, Hy. }
    destruct HS as (s & Hs & Es).
    assert (Ws : walk p s p) by (destruct Es as [->| ->]; auto; apply walk_reverse, W).
    assert (Ks : Permutation (map key s) (map key r)) by (destruct Es as [->| ->]; auto; apply keys_reverse).
    assert (Js : Permutation (junctions s) (junctions r)).
    { destruct Es as [->| ->]; auto. rewrite junctions_reverse, <- Permutation_rev. eapply back_junctions; eauto. }
    apply in_split in Hs. destruct Hs as (s1 & s2 & Ess).
    destruct (rotate_ring s s1 (x :: s2) p Ess Ws) as (q & Wq).
    assert (Vc : (s = r -> valid (x :: s2 ++ s1) = true) /\
                 (s = reverse r -> valid (x :: s2 ++ s1) = false /\ valid (reverse (x :: s2 ++ s1)) = true /\ rotation r (reverse (x :: s2 ++ s1)))).
    { split.
      - intros ->. apply Vr. exists s1, (x :: s2). auto.
      - intros E. assert (Rot : rotation r (reverse (x :: s2 ++ s1))).
        { exists (reverse (x :: s2)), (reverse s1). rewrite <- reverse_app, <- Ess, E, reverse_reverse. split; auto.
          rewrite <- reverse_app. auto. }
        destruct (Vr _ Rot) as [V1 V2]. rewrite reverse_reverse in V2. auto. }
    destruct (finish (concat (ra ++ rb)) q Bo Fo (s2 ++ s1) [x] todo done errs fuel) as (todo' & P' & E').
    + discriminate.
    + exact Wq.
    + eapply Permutation_NoDup; [|exact Dr]. rewrite junctions_app. apply Permutation_app_tail. rewrite <- Js, Ess.
      apply junctions_perm. rewrite Permutation_app_comm. auto.
    + apply (Permutation_cons_inv (a := key x)). cbn [map] in P. rewrite P.
      rewrite (Permutation_map key Pc), !map_app, <- Ks, Ess, map_app. cbn [map].
      rewrite Permutation_app_comm with (l' := map key s1). rewrite <- app_assoc.
      rewrite app_assoc. rewrite <- Permutation_middle. auto.
    + cbn in L. apply Permutation_length in P. cbn in P. rewrite !map_length in P. apply Permutation_length in Pc.
      rewrite app_length in Pc. apply Permutation_length in Ks. rewrite !map_length in Ks. rewrite Ess in Ks.
      rewrite app_length in *. cbn in *. lia.
    + cbn [app]. destruct Es as [Es|Es]; [left; apply Vc, Es|right; apply Vc, Es].
    + cbn [assemble_loop rev]. rewrite E'. cbn [app].
      destruct (IH (ra ++ rb) (fuel - length (s2 ++ s1)) todo' (done ++ [final (x :: s2 ++ s1)]) errs) as (rs' & out & E & Prs & Rot); auto.
      * apply Permutation_length in Pr. cbn in Pr. lia.
      * apply nodup_app_r in Dr. exact Dr.
      * apply Permutation_length in P'. rewrite !map_length in P'. rewrite P'.
        apply Permutation_length in P. cbn in P. rewrite !map_length in P. apply Permutation_length in Pc.
        rewrite app_length in Pc. apply Permutation_length in Ks. rewrite !map_length in Ks. rewrite Ess in Ks.
        rewrite app_length in *. cbn in *. lia.
      * exists (r :: rs'), (final (x :: s2 ++ s1) :: out). split; [rewrite E; rewrite <- app_assoc; auto|]. split.
        -- rewrite Pr. constructor. exact Prs.
        -- constructor; auto. unfold final. destruct Es as [Es|Es].
           ++ rewrite (proj1 Vc Es). exists s1, (x :: s2). split; [congruence|auto].
           ++ destruct (proj2 Vc Es) as (V1 & _ & V3). rewrite V1. exact V3.
Qed.
Lemma assemble_complete rs l : Forall ring rs -> NoDup (junctions (concat rs)) -> Forall sound_valid rs ->
  Permutation (map key l) (map key (concat rs)) ->
  exists rs' out, assemble valid l = Done (out, []) /\ Permutation rs rs' /\ Forall2 rotation rs' out.
Proof.
  intros R D V P. destruct (complete_loop _ rs (2 * length l) l [] [] eq_refl R D V P) as (rs' & out & E & H); [lia|].
  exists rs', out. auto.
Qed.
End Complete.
