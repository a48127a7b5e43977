(** Proofs about calculateCenterline. *)
From Coq Require Import List Arith Bool Lia.
From Verif Require Import CenterlineModel.
Import ListNotations.

Section C.
Context {P D : Type}.
Variable same : P -> P -> bool.
Variable center : P -> P -> P.
Variable hdist : P -> P -> D.
Variable dleb : D -> D -> bool.
Variable stops : P -> P -> P -> D -> bool.
Variable near : P -> list P -> list nat.
Variable bi : P -> P -> bool.
Variable sc : bool -> P -> P -> bool.

Notation scan := (scan center hdist dleb stops bi sc).
Notation closest := (closest center hdist dleb stops near bi sc).
Notation walk := (walk center hdist dleb stops near bi sc).
Notation calculate := (calculate same center hdist dleb stops near bi sc).
Notation admissible := (admissible center bi sc).

Definition found (isleft : bool) pts cur other last order (i : nat) (d : D) : Prop :=
  exists cand, In i order /\ nth_error pts i = Some cand /\ cur <= i /\ d = hdist cand other /\ admissible isleft other last cand = true.

Lemma scan_found isleft pts cur other last order : forall best i d,
  scan isleft pts cur other last order best = Some (i, d) ->
  best = Some (i, d) \/ found isleft pts cur other last order i d.
Proof.
  induction order as [|k r IH]; intros best i d E; cbn [CenterlineModel.scan] in E; auto.
  assert (W : forall b, scan isleft pts cur other last r b = Some (i, d) -> b = Some (i, d) \/ found isleft pts cur other last (k :: r) i d).
  { intros b H. destruct (IH _ _ _ H) as [H1|(c & I & F)]; auto. right. exists c. split; [right|]; auto. }
  destruct (nth_error pts k) as [cand|] eqn:N; auto.
  destruct (Nat.ltb_spec k cur); auto. cbv zeta in E.
  assert (W2 : admissible isleft other last cand = true -> scan isleft pts cur other last r (Some (k, hdist cand other)) = Some (i, d) ->
     found isleft pts cur other last (k :: r) i d).
  { intros A H1. destruct (IH _ _ _ H1) as [H2|(c & I & F)].
    - injection H2 as <- <-. exists cand. split; [left; auto|]. auto.
    - exists c. split; [right|]; auto. }
  destruct best as [[bi0 b]|].
  - destruct (stops _ _ _ _); auto. destruct (dleb _ _); auto.
    destruct (admissible isleft other last cand) eqn:A; auto.
  - destruct (admissible isleft other last cand) eqn:A; auto.
Qed.

Lemma closest_ok isleft pts cur opts o last : cur < length pts -> o < length opts ->
  exists r other, closest isleft pts cur opts o last = Ok r /\ nth_error opts o = Some other /\
    match r with
    | None => True
    | Some (i, d) => found isleft pts (S cur) other last (near other pts) i d /\ cur < i < length pts
    end.
Proof.
  intros C O. unfold CenterlineModel.closest. destruct (Nat.ltb_spec cur (length pts)); [|lia].
  destruct (nth_error opts o) as [other|] eqn:N; [|apply nth_error_None in N; lia].
  eexists _, other. split; [reflexivity|]. split; auto.
  destruct (scan isleft pts (S cur) other last (near other pts) None) as [[i d]|] eqn:E; auto.
  destruct (scan_found _ _ _ _ _ _ _ _ _ E) as [|F]; [discriminate|]. split; auto.
  destruct F as (c & I & N1 & Ci & _). split; [lia|]. apply nth_error_Some. congruence.
Qed.

(** Index pairs of the centerline points. *)
Variables (L R : list P).
Definition mid (p : nat * nat) (q : P) : Prop :=
  exists a b, nth_error L (fst p) = Some a /\ nth_error R (snd p) = Some b /\ q = center a b.
Definition before (p q : nat * nat) : Prop := fst p <= fst q /\ snd p <= snd q /\ p <> q.
(** [ps]: the pairs, the latest first. *)
Fixpoint descending (ps : list (nat * nat)) : Prop :=
  match ps with
  | q :: r => match r with p :: _ => before p q | [] => True end /\ descending r
  | [] => True
  end.
(** The connection to the next point was checked. *)
Definition checked (p q : nat * nat) : Prop :=
  exists a b a' b', nth_error L (fst p) = Some a /\ nth_error R (snd p) = Some b /\
    nth_error L (fst q) = Some a' /\ nth_error R (snd q) = Some b' /\
    (bi (center a b) (center b' a') = false \/ bi (center a b) (center a' b') = false) /\
    ((sc true b' a' = false /\ sc false a' b' = false)).
Fixpoint all_checked (ps : list (nat * nat)) : Prop :=
  match ps with
  | q :: r => match r with p :: _ => checked p q | [] => True end /\ all_checked r
  | [] => True
  end.

Lemma walk_ok fuel : forall li ri last acc ps,
  li < length L -> ri < length R -> length L - li + (length R - ri) < fuel ->
  Forall2 mid ps acc -> descending ps -> all_checked ps ->
  (exists p q, hd_error ps = Some p /\ hd_error acc = Some q /\ last = q /\ fst p <= li /\ snd p <= ri) ->
  exists acc' li' ri' ps', walk fuel L R li ri last acc = Ok (acc', (li', ri')) /\
    li <= li' < length L /\ ri <= ri' < length R /\
    Forall2 mid (ps' ++ ps) acc' /\ descending (ps' ++ ps) /\ all_checked (ps' ++ ps) /\
    match ps' with [] => li' = li /\ ri' = ri | p :: _ => p = (li', ri') end.
Proof.
  induction fuel as [|f IH]; intros li ri last acc ps HL HR HF FM DS AC HH; [lia|].
  cbn [CenterlineModel.walk].
  destruct (Nat.eqb_spec li (length L)); [lia|]. cbn [andb].
  destruct (closest_ok true L li R ri last HL HR) as (lc & ob & -> & OB & FL).
  destruct (closest_ok false R ri L li last HR HL) as (rc & oa & -> & OA & FR).
  cbv zeta.
  destruct HH as (p & q & Hp & Hq & -> & P1 & P2).
  destruct ps as [|p0 ps]; [discriminate|]. injection Hp as ->. destruct acc as [|q0 acc]; [discriminate|]. injection Hq as ->.
  assert (PM : mid p q) by (inversion FM; auto). destruct PM as (pa & pb & NA & NB & EQ).
  assert (GO : forall i j a b, li <= i < length L -> ri <= j < length R -> (i, j) <> (li, ri) ->
     nth_error L i = Some a -> nth_error R j = Some b -> checked p (i, j) ->
     exists acc' li' ri' ps', walk f L R i j (center a b) (center a b :: q :: acc) = Ok (acc', (li', ri')) /\
       li <= li' < length L /\ ri <= ri' < length R /\
       Forall2 mid (ps' ++ p :: ps) acc' /\ descending (ps' ++ p :: ps) /\ all_checked (ps' ++ p :: ps) /\
       match ps' with [] => li' = li /\ ri' = ri | p :: _ => p = (li', ri') end).
  { intros i j a b Hi Hj NE Na Nb CK.
    assert (NE' : li < i \/ ri < j).
    { destruct (Nat.eq_dec i li); [|lia]. destruct (Nat.eq_dec j ri); [|lia]. exfalso; apply NE; congruence. }
    destruct (IH i j (center a b) (center a b :: q :: acc) ((i, j) :: p :: ps)) as (acc' & li' & ri' & ps' & E & B1 & B2 & F' & D' & A' & T).
    - lia. - lia. - lia.
    - constructor; auto. exists a, b. auto.
    - cbn [descending]. split; auto. unfold before. simpl. split; [lia|]. split; [lia|]. destruct p as [p1 p2]. simpl in *. intros X. injection X as -> ->. lia.
    - cbn [all_checked]. split; auto.
    - exists (i, j), (center a b). simpl. auto.
    - exists acc', li', ri', (ps' ++ [(i, j)]). rewrite <- app_assoc. cbn [app].
      split; auto. split; [lia|]. split; [lia|]. split; auto. split; auto. split; auto.
      destruct ps' as [|z ps']; simpl; auto. destruct T as [-> ->]. auto. }
  assert (GL : forall i d, lc = Some (i, d) ->
     exists acc' li' ri' ps', match nth_error L i, nth_error R ri with
        | Some a, Some b => walk f L R i ri (center a b) (center a b :: q :: acc) | _, _ => UB end = Ok (acc', (li', ri')) /\
       li <= li' < length L /\ ri <= ri' < length R /\
       Forall2 mid (ps' ++ p :: ps) acc' /\ descending (ps' ++ p :: ps) /\ all_checked (ps' ++ p :: ps) /\
       match ps' with [] => li' = li /\ ri' = ri | p :: _ => p = (li', ri') end).
  { intros i d ->. destruct FL as [(cand & _ & NC & _ & _ & AD) Hi]. rewrite NC, OB. apply GO; auto; try lia.
    { intros X. injection X as ->. lia. }
    unfold CenterlineModel.admissible in AD. rewrite !andb_true_iff, !negb_true_iff in AD. destruct AD as [[A1 A2] A3].
    exists pa, pb, cand, ob. cbn [fst snd]. rewrite <- EQ. auto 10. }
  assert (GR : forall j d, rc = Some (j, d) ->
     exists acc' li' ri' ps', match nth_error L li, nth_error R j with
        | Some a, Some b => walk f L R li j (center a b) (center a b :: q :: acc) | _, _ => UB end = Ok (acc', (li', ri')) /\
       li <= li' < length L /\ ri <= ri' < length R /\
       Forall2 mid (ps' ++ p :: ps) acc' /\ descending (ps' ++ p :: ps) /\ all_checked (ps' ++ p :: ps) /\
       match ps' with [] => li' = li /\ ri' = ri | p :: _ => p = (li', ri') end).
  { intros j d ->. destruct FR as [(cand & _ & NC & _ & _ & AD) Hj]. rewrite NC, OA. apply GO; auto; try lia.
    { intros X. injection X as ->. lia. }
    unfold CenterlineModel.admissible in AD. rewrite !andb_true_iff, !negb_true_iff in AD. destruct AD as [[A1 A2] A3].
    exists pa, pb, oa, cand. cbn [fst snd negb] in *. rewrite <- EQ. auto 10. }
  destruct lc as [[i dl]|]; destruct rc as [[j dr]|]; try (eapply GL; reflexivity); try (eapply GR; reflexivity).
  - destruct (dleb dl dr); [eapply GL|eapply GR]; reflexivity.
  - exists (q :: acc), li, ri, []. cbn [app]. repeat (split; auto).
Qed.
End C.
