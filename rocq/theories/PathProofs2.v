(** The outline of a path: the loop. *)
From Coq Require Import List Bool Arith Reals Lia Lra.
From Verif Require Import LineModel LineSpec PathModel PathSpec PathProofs.
Import ListNotations.
Local Open Scope R_scope.

Section loop.
Variable data : nat -> list nat.
Variable f : nat -> nat -> R.
Hypothesis Ho : oriented f.
Variable strict : Prop.

(** How the next primitive is entered *)
Definition entry (br : bounds_result) (n : prim) (u : list nat) : Prop :=
  match n with
  | Lane l => exists s a0 a1 b0 b1, corners data l a0 a1 b0 b1 /\ ll_adjacency br = Some s /\ u = side_pts data l a0 a1 b0 b1 s
  | Region bs => exists c, prev_border br = Some c /\ In c bs /\ u = seen data c
  end.
(** After [p], before [n]; [S] is the sum so far. *)
Definition inv (br : bounds_result) (p n : prim) (S : R) : Prop :=
  exists h a b xl xr t u, clean f strict (left br) h a xl /\ clean f strict (h :: right br) h b xr
    /\ has_side data p t /\ from_to t a b /\ entry br n u /\ from_to u b a /\ xl - xr = S + along f u.
(** What is lost between two primitives *)
Definition gap (p n : prim) (g : R) : Prop :=
  g = 0 \/ exists b, crossing data p n b /\ g = around f b.

Lemma region_ok bs : well_formed data (Region bs) -> lines_ok data bs.
Proof. intros [_ (a & H)]. eapply linked_ok; eassumption. Qed.
Lemma entry_side br n u : entry br n u -> has_side data n u.
Proof.
  destruct n as [l|bs]; cbn.
  - intros (s & a0 & a1 & b0 & b1 & C & _ & ->). now apply side_has.
  - intros (c & _ & H & ->). now apply side_area.
Qed.

Lemma bounds_left_longer l s t t' : bounds_left data l s s t = Done t' -> (length t < length t')%nat.
Proof.
  unfold bounds_left. destruct s; cbn [cw walk side_eqb clockwise].
  all: repeat match goal with |- context [but_first data ?x] => destruct (but_first data x); cbn [bind]; try discriminate end.
  all: unfold single; repeat match goal with |- context [back data ?x] => destruct (back data x); cbn [bind]; try discriminate
    | |- context [front data ?x] => destruct (front data x); cbn [bind]; try discriminate end.
  all: intros E; injection E as <-; rewrite ?app_length; cbn [length]; lia.
Qed.
(** A lanelet between two others *)
Lemma append_lanelet_way br l a0 a1 b0 b1 s out h xl xr : corners data l a0 a1 b0 b1 -> (strict -> crisp data l a0 a1 b0 b1) -> s <> out ->
  clean f strict (left br) h (stop a0 a1 b0 b1 s) xl -> clean f strict (h :: right br) h (start a0 a1 b0 b1 s) xr ->
  exists lft rgt xl' xr', append_lanelet data br l s out = Done (Bounds (prev_border br) (ll_adjacency br) lft rgt)
    /\ clean f strict lft h (start a0 a1 b0 b1 out) xl' /\ clean f strict (h :: rgt) h (stop a0 a1 b0 b1 out) xr'
    /\ xl' - xr' + val data f l a0 a1 b0 b1 s + val data f l a0 a1 b0 b1 out = xl - xr + around f (outline data (Lane l)).
Proof.
  intros C Cs N Wl Wr. unfold append_lanelet.
  destruct (bounds_left_way data f strict l a0 a1 b0 b1 C Cs s out _ _ _ Wl) as (lft & -> & Wl').
  destruct (bounds_right_way data f Ho strict l a0 a1 b0 b1 C Cs s out _ _ _ Wr) as (rgt & Er & Wr').
  cbn [bind]. destruct (side_eqb s out) eqn:Q; [apply side_eqb_eq in Q; contradiction|]. cbn [negb]. rewrite Er. cbn [bind].
  exists lft, rgt. eexists. eexists. split; [reflexivity|]. split; [exact Wl'|]. split; [exact Wr'|].
  assert (R := round_sum data f l a0 a1 b0 b1 C s out N). lra.
Qed.
Lemma append_lanelet_same br l a0 a1 b0 b1 s h xl : corners data l a0 a1 b0 b1 -> (strict -> crisp data l a0 a1 b0 b1) ->
  clean f strict (left br) h (stop a0 a1 b0 b1 s) xl ->
  exists lft xl', append_lanelet data br l s s = Done (Bounds (prev_border br) (ll_adjacency br) lft (right br))
    /\ clean f strict lft h (start a0 a1 b0 b1 s) xl' /\ (length (left br) < length lft)%nat
    /\ xl' + val data f l a0 a1 b0 b1 s = xl + around f (outline data (Lane l)).
Proof.
  intros C Cs Wl. unfold append_lanelet.
  destruct (bounds_left_way data f strict l a0 a1 b0 b1 C Cs s s _ _ _ Wl) as (lft & E & Wl'). assert (L := bounds_left_longer _ _ _ _ E). rewrite E.
  cbn [bind]. rewrite (proj2 (side_eqb_eq s s) eq_refl). cbn [negb].
  exists lft. eexists. split; [reflexivity|]. split; [exact Wl'|]. split; [exact L|].
  assert (R := round_sum_same data f l a0 a1 b0 b1 C s). lra.
Qed.

(** The way from a lanelet to the next primitive *)
Lemma lane_out l n a0 a1 b0 b1 : corners data l a0 a1 b0 b1 -> well_formed data n -> related data (Lane l) n ->
  exists s u g, (forall br, match n with
      | Lane n' => exists other, adjacency_lanelet data l n' = (s, other)
                     /\ entry (Bounds (prev_border br) (Some other) (left br) (right br)) n u
      | Region bs => exists c, adjacency_area data l bs = Done (Some (s, c))
                     /\ entry (Bounds (Some c) (ll_adjacency br) (left br) (right br)) n u
      end)
    /\ from_to u (stop a0 a1 b0 b1 s) (start a0 a1 b0 b1 s)
    /\ val data f l a0 a1 b0 b1 s + along f u = g /\ gap (Lane l) n g.
Proof.
  intros C Wn Rel. destruct n as [n|bs].
  - destruct (corners_exist data n Wn) as (c0 & c1 & d0 & d1 & Cn).
    assert (A := adjacency_related data f Ho l n _ _ _ _ _ _ _ _ C Cn Rel).
    destruct (adjacency_lanelet data l n) as [s s'] eqn:E. destruct A as (A1 & A2 & A3).
    exists s, (side_pts data n c0 c1 d0 d1 s'), 0. split; [|split; [|split; [exact A3|now left]]].
    + intros br. exists s'. split; [reflexivity|]. cbn. exists s', c0, c1, d0, d1. auto.
    + rewrite A1, A2. now apply side_from_to.
  - destruct (adjacency_area_spec data f Ho l bs _ _ _ _ C (region_ok _ Wn)) as (r & E & S1 & S2).
    destruct r as [[s c]|]; [|exfalso; apply S2; [reflexivity|exact Rel]].
    destruct (S1 s c eq_refl) as (Hin & F & G).
    exists s, (seen data c), (val data f l a0 a1 b0 b1 s + along f (seen data c)). split; [|split; [exact F|split; [reflexivity|]]].
    + intros br. exists c. split; [exact E|]. cbn. exists c. auto.
    + destruct G as [G|[He G]]; [now left|]. right. exists (seen data c). split; [|exact G].
      exists bs, c, l, (side_pts data l a0 a1 b0 b1 s). split; [auto|]. split; [exact Hin|]. split; [reflexivity|]. split; [exact He|].
      exists (start a0 a1 b0 b1 s), (stop a0 a1 b0 b1 s). split; [now apply side_from_to|exact F].
Qed.

(** The same from an area *)
Lemma region_out bs n : well_formed data (Region bs) -> well_formed data n -> related data (Region bs) n ->
  exists d u g, (forall br, exists br', get_border data br bs n = Done (br', d)
      /\ left br' = left br /\ right br' = right br /\ entry br' n u)
    /\ In d bs /\ opposite (seen data d) u
    /\ along f (seen data d) + along f u = g /\ gap (Region bs) n g.
Proof.
  intros Wb Wn Rel. destruct n as [l|ns]; cbn [get_border].
  - destruct (corners_exist data l Wn) as (a0 & a1 & b0 & b1 & C).
    destruct (adjacency_area_spec data f Ho l bs _ _ _ _ C (region_ok _ Wb)) as (r & E & S1 & S2).
    destruct r as [[s c]|]; [|exfalso; apply S2; [reflexivity|exact Rel]].
    destruct (S1 s c eq_refl) as (Hin & F & G).
    exists c, (side_pts data l a0 a1 b0 b1 s), (along f (seen data c) + val data f l a0 a1 b0 b1 s).
    split; [|split; [exact Hin|split; [|split; [reflexivity|]]]].
    + intros br. rewrite E. cbn [bind]. eexists. split; [reflexivity|]. cbn. split; [reflexivity|]. split; [reflexivity|].
      exists s, a0, a1, b0, b1; auto.
    + exists (stop a0 a1 b0 b1 s), (start a0 a1 b0 b1 s). split; [exact F|now apply side_from_to].
    + rewrite Rplus_comm. destruct G as [G|[He G]]; [now left|]. right. exists (seen data c). split; [|exact G].
      exists bs, c, l, (side_pts data l a0 a1 b0 b1 s). split; [auto|]. split; [exact Hin|]. split; [reflexivity|]. split; [exact He|].
      exists (start a0 a1 b0 b1 s), (stop a0 a1 b0 b1 s). split; [now apply side_from_to|exact F].
  - assert (K := common_areas_spec ns bs). destruct (common_areas ns bs) as [b|].
    + destruct K as [K1 K2]. exists (turned b), (seen data b), 0. split; [|split; [exact K2|split; [|split; [|now left]]]].
      * intros br. eexists. split; [reflexivity|]. cbn. split; [reflexivity|]. split; [reflexivity|]. exists b; auto.
      * destruct (from_to_exists _ (region_ok _ Wn b K1)) as (x & y & F). exists y, x. split; [|exact F].
        rewrite seen_turned. now apply from_to_rev.
      * rewrite seen_turned, along_rev by exact Ho. lra.
    + exfalso. destruct Rel as (x & H1 & H2). exact (K x H1 H2).
Qed.

Lemma same_ends u a b a' b' : from_to u a b -> from_to u a' b' -> a = a' /\ b = b'.
Proof. apply from_to_inj. Qed.

(** One more primitive *)
Lemma step prev cur n br S : inv br prev cur S -> well_formed data cur -> (strict -> neat data cur) -> well_formed data n -> related data cur n ->
  (forall s t u, has_side data prev s -> has_side data cur t -> has_side data n u -> opposite s t -> opposite t u -> False) ->
  exists br' g, append_bounds data cur (Some n) br = Done br' /\ gap cur n g /\ inv br' cur n (S + around f (outline data cur) - g).
Proof.
  intros (h & a & b & xl & xr & t & u & Wl & Wr & Ht & Ft & En & Fu & Eq) Wc Nc Wn Rel Ret.
  destruct cur as [l|bs].
  - cbn in En. destruct En as (s & a0 & a1 & b0 & b1 & C & Es & ->).
    destruct (same_ends _ _ _ _ _ Fu (side_from_to data l a0 a1 b0 b1 C s)) as [-> ->].
    destruct (lane_out l n a0 a1 b0 b1 C Wn Rel) as (out & u' & g & Adj & Fu' & Eg & G).
    assert (N : s <> out).
    { intros <-. assert (En := Adj br). apply (Ret t (side_pts data l a0 a1 b0 b1 s) u' Ht).
      - now apply side_has.
      - destruct n; destruct En as (? & _ & En); eapply entry_side; exact En.
      - exists (stop a0 a1 b0 b1 s), (start a0 a1 b0 b1 s). auto.
      - exists (start a0 a1 b0 b1 s), (stop a0 a1 b0 b1 s). split; [now apply side_from_to|exact Fu']. }
    destruct (append_lanelet_way br l a0 a1 b0 b1 s out h xl xr C (fun K => crisp_neat data l _ _ _ _ C (Nc K)) N Wl Wr) as (lft & rgt & xl' & xr' & Ea & Wl' & Wr' & Eq').
    assert (Fin : forall br', left br' = lft -> right br' = rgt -> entry br' n u' -> inv br' (Lane l) n (S + around f (outline data (Lane l)) - g)).
    { intros br' <- <- E'. exists h, (start a0 a1 b0 b1 out), (stop a0 a1 b0 b1 out), xl', xr', (side_pts data l a0 a1 b0 b1 out), u'.
      split; [exact Wl'|]. split; [exact Wr'|]. split; [now apply side_has|]. split; [now apply side_from_to|]. split; [exact E'|].
      split; [exact Fu'|]. change (along f (side_pts data l a0 a1 b0 b1 s)) with (val data f l a0 a1 b0 b1 s) in Eq. lra. }
    destruct n as [n|ns].
    + destruct (Adj (Bounds (prev_border br) (ll_adjacency br) lft rgt)) as (other & Ad & En). cbn [append_bounds]. unfold add_lanelet_pair.
      rewrite Ad. cbn [start_left entered bind]. rewrite Es. cbn [bind]. rewrite Ea. cbn [bind prev_border left right].
      eexists. exists g. split; [reflexivity|]. split; [exact G|]. apply Fin; [reflexivity|reflexivity|exact En].
    + destruct (Adj (Bounds (prev_border br) (ll_adjacency br) lft rgt)) as (c & Ad & En). cbn [append_bounds]. unfold add_lanelet_area.
      rewrite Ad. cbn [start_left entered bind]. rewrite Es. cbn [bind]. rewrite Ea. cbn [bind ll_adjacency left right].
      eexists. exists g. split; [reflexivity|]. split; [exact G|]. apply Fin; [reflexivity|reflexivity|exact En].
  - cbn in En. destruct En as (c & Ec & Hc & ->).
    destruct (region_out bs n Wc Wn Rel) as (d & u' & g & Gb & Hd & Op & Eg & G).
    assert (N : c <> d).
    { intros <-. destruct (Gb br) as (br' & _ & _ & _ & En). apply (Ret t (seen data c) u' Ht).
      - now apply side_area.
      - eapply entry_side; exact En.
      - exists a, b. auto.
      - exact Op. }
    destruct Wc as [L (z & Lk)].
    destruct (bounds_spec data f z bs c d Lk Hc Hd N) as (p1 & p2 & c1 & c2 & d1 & d2 & Eb & Fc & Fd & L1 & L2 & Sm).
    destruct (same_ends _ _ _ _ _ Fu Fc) as [-> ->].
    destruct (append_after data f Ho strict _ _ _ _ _ _ L1 Wl) as (lft & El & Wl').
    destruct (append_reversed data f Ho strict _ _ _ _ _ _ L2 Wr) as (rgt & Er & Wr').
    destruct (Gb br) as (br' & Eg' & Q1 & Q2 & En).
    cbn [append_bounds]. rewrite Ec, Eg'. cbn [bind]. rewrite Eb. cbn [bind]. rewrite Q1, Q2, El. cbn [bind]. rewrite Er. cbn [bind].
    eexists. exists g. split; [reflexivity|]. split; [exact G|].
    destruct Op as (x & y & Fx & Fy). destruct (same_ends _ _ _ _ _ Fd Fx) as [-> ->].
    exists h, x, y, (xl + sum_lines data f p1), (xr - sum_lines data f p2), (seen data d), u'. cbn [left right].
    split; [exact Wl'|]. split; [exact Wr'|]. split; [now apply side_area|]. split; [exact Fx|]. split; [|split; [exact Fy|]].
    + destruct n as [n|ns]; cbn in En |- *; exact En.
    + rewrite (region_outline data f Ho z bs Lk) by (intros ->; cbn in L; lia). lra.
Qed.

(** The last primitive *)
Lemma last_step prev cur br S : inv br prev cur S -> well_formed data cur -> (strict -> neat data cur) ->
  exists br', append_bounds data cur None br = Done br' /\ (strict -> tidy (left br' ++ rev (right br')))
    /\ around f (left br' ++ rev (right br')) = S + around f (outline data cur).
Proof.
  intros (h & a & b & xl & xr & t & u & Wl & Wr & Ht & Ft & En & Fu & Eq) Wc Nc.
  destruct cur as [l|bs].
  - cbn in En. destruct En as (s & a0 & a1 & b0 & b1 & C & Es & ->).
    destruct (same_ends _ _ _ _ _ Fu (side_from_to data l a0 a1 b0 b1 C s)) as [-> ->].
    destruct (append_lanelet_same br l a0 a1 b0 b1 s h xl C (fun K => crisp_neat data l _ _ _ _ C (Nc K)) Wl) as (lft & xl' & Ea & Wl' & Lt & Eq').
    cbn [append_bounds]. rewrite Es, Ea. cbn [bind left right prev_border ll_adjacency].
    destruct lft as [|y lft]; [destruct Wl' as [[(? & ? & K & _) _] _]; discriminate|].
    eexists. split; [reflexivity|]. cbn [left right]. destruct (close_popped f Ho strict _ _ _ _ _ _ Wl' Wr) as [Q1 Q2]. split; [apply Q2; destruct Wl as [[(? & ? & Ql & _) _] _]; rewrite Ql in Lt; cbn [length] in *; lia|]. rewrite Q1.
    change (along f (side_pts data l a0 a1 b0 b1 s)) with (val data f l a0 a1 b0 b1 s) in Eq. lra.
  - cbn in En. destruct En as (c & Ec & Hc & ->). destruct Wc as [L (z & Lk)].
    destruct (except_spec data f z bs c Lk L Hc) as (rest & m & n & Ee & Nr & Fc & Lr & Sm).
    destruct (same_ends _ _ _ _ _ Fu Fc) as [-> ->].
    assert (Nab : strict -> n <> m) by (intros K; apply not_eq_sym; exact (Nc K c m n Hc Fc)).
    destruct (append_final data f Ho strict _ _ _ _ _ _ _ _ Lr Nr Nab Wl Wr) as (lft & El & Ar & Td).
    cbn [append_bounds]. rewrite Ec, Ee. cbn [bind]. rewrite El. cbn [bind].
    eexists. split; [reflexivity|]. cbn [left right]. split; [exact Td|]. rewrite Ar, (region_outline data f Ho z bs Lk) by (intros ->; cbn in L; lia). lra.
Qed.

(** The first primitive *)
Lemma first_step p n : well_formed data p -> (strict -> neat data p) -> well_formed data n -> related data p n ->
  exists br g, append_tail data p n = Done br /\ gap p n g /\ inv br p n (around f (outline data p) - g).
Proof.
  intros Wp Nc Wn Rel. destruct p as [l|bs].
  - destruct (corners_exist data l Wp) as (a0 & a1 & b0 & b1 & C).
    destruct (lane_out l n a0 a1 b0 b1 C Wn Rel) as (out & u' & g & Adj & Fu' & Eg & G).
    set (st := stop a0 a1 b0 b1 out).
    destruct (append_lanelet_same (Bounds None None [st] []) l a0 a1 b0 b1 out st 0 C (fun K => crisp_neat data l _ _ _ _ C (Nc K))) as (lft & xl' & Ea & Wl' & _ & Eq').
    { split; [split; [apply from_to_one|reflexivity]|intros _; exact I]. }
    assert (Fin : forall br', left br' = lft -> right br' = [] -> entry br' n u' -> inv br' (Lane l) n (around f (outline data (Lane l)) - g)).
    { intros br' <- Er E'. exists st, (start a0 a1 b0 b1 out), st, xl', 0, (side_pts data l a0 a1 b0 b1 out), u'. rewrite Er.
      split; [exact Wl'|]. split; [split; [split; [apply from_to_one|reflexivity]|intros _; exact I]|]. split; [now apply side_has|]. split; [now apply side_from_to|].
      split; [exact E'|]. split; [exact Fu'|]. lra. }
    cbn [append_tail]. destruct n as [n|ns].
    + destruct (Adj (Bounds None None lft [])) as (other & Ad & En). unfold add_lanelet_pair. rewrite Ad.
      cbn [start_left]. rewrite (first_point_stop data l a0 a1 b0 b1 C). cbn [bind left right app prev_border ll_adjacency entered]. fold st.
      rewrite Ea. cbn [bind prev_border left right]. eexists. exists g. split; [reflexivity|]. split; [exact G|]. apply Fin; [reflexivity|reflexivity|exact En].
    + destruct (Adj (Bounds None None lft [])) as (c & Ad & En). unfold add_lanelet_area. rewrite Ad. cbn [bind].
      cbn [start_left]. rewrite (first_point_stop data l a0 a1 b0 b1 C). cbn [bind left right app prev_border ll_adjacency entered]. fold st.
      rewrite Ea. cbn [bind ll_adjacency left right]. eexists. exists g. split; [reflexivity|]. split; [exact G|]. apply Fin; [reflexivity|reflexivity|exact En].
  - destruct (region_out bs n Wp Wn Rel) as (d & u' & g & Gb & Hd & Op & Eg & G).
    destruct Wp as [L (z & Lk)]. destruct (except_spec data f z bs d Lk L Hd) as (rest & m & k & Ee & Nr & Fd & Lr & Sm).
    destruct (append_first data f Ho strict _ _ _ Lr Nr) as (lft & El & Wl).
    destruct (Gb (Bounds None None [] [])) as (br' & Eg' & Q1 & Q2 & En).
    cbn [append_tail]. rewrite Eg'. cbn [bind]. rewrite Ee. cbn [bind]. rewrite Q1. cbn [left]. rewrite El. cbn [bind].
    eexists. exists g. split; [reflexivity|]. split; [exact G|]. rewrite Q2. cbn [right].
    destruct Op as (x & y & Fx & Fy). destruct (same_ends _ _ _ _ _ Fd Fx) as [-> ->].
    exists y, x, y, (sum_lines data f rest), 0, (seen data d), u'. cbn [left right].
    split; [exact Wl|]. split; [split; [split; [apply from_to_one|reflexivity]|intros _; exact Logic.I]|]. split; [now apply side_area|]. split; [exact Fx|].
    split; [destruct n; cbn in En |- *; exact En|]. split; [exact Fy|].
    rewrite (region_outline data f Ho z bs Lk) by (intros ->; cbn in L; lia). lra.
Qed.

(** The gaps of a path *)
Fixpoint gaps (p : prim) (path : list prim) (gs : list R) : Prop :=
  match path, gs with
  | [], [] => True
  | n :: r, g :: gs => gap p n g /\ gaps n r gs
  | _, _ => False
  end.

Lemma all_steps rest : forall prev cur br S, inv br prev cur S ->
  (forall p, In p (cur :: rest) -> well_formed data p) -> (strict -> forall p, In p (cur :: rest) -> neat data p) -> chained data (cur :: rest) -> no_return data (prev :: cur :: rest) ->
  exists br' gs, append_all data (cur :: rest) br = Done br' /\ gaps cur rest gs /\ (strict -> tidy (left br' ++ rev (right br')))
    /\ around f (left br' ++ rev (right br')) = S + total (map (fun p => around f (outline data p)) (cur :: rest)) - total gs.
Proof.
  induction rest as [|n rest IH]; intros prev cur br S I W Nt Ch Nr.
  - destruct (last_step prev cur br S I (W cur (or_introl eq_refl)) (fun K => Nt K cur (or_introl eq_refl))) as (br' & E & Td & A).
    exists br', []. cbn [append_all hd_error]. rewrite E. cbn. split; [reflexivity|]. split; [exact Logic.I|]. split; [exact Td|]. rewrite A. lra.
  - destruct Ch as [Rel Ch]. destruct Nr as [Ret Nr].
    destruct (step prev cur n br S I (W cur (or_introl eq_refl)) (fun K => Nt K cur (or_introl eq_refl)) (W n (or_intror (or_introl eq_refl))) Rel Ret) as (br1 & g & E & G & I1).
    destruct (IH cur n br1 _ I1 (fun p H => W p (or_intror H)) (fun K p H => Nt K p (or_intror H)) Ch Nr) as (br' & gs & E' & Gs & Td & A).
    exists br', (g :: gs). change (append_all data (cur :: n :: rest) br) with (bind (append_bounds data cur (Some n) br) (fun br => append_all data (n :: rest) br)).
    rewrite E. cbn [bind]. split; [exact E'|]. split; [split; [exact G|exact Gs]|]. split; [exact Td|]. rewrite A. cbn [map total fold_right].
    unfold total. cbn [map fold_right]. lra.
Qed.

Lemma gaps_crossings path : forall p gs, gaps p path gs ->
  exists ls, crossings data (p :: path) ls /\ total (map (around f) ls) = total gs.
Proof.
  induction path as [|n path IH]; intros p gs H; destruct gs as [|g gs]; try contradiction.
  - exists []. split; [reflexivity|reflexivity].
  - destruct H as [G H]. destruct (IH n gs H) as (ls & C & E). destruct G as [->|(b & K & ->)].
    + exists ([] :: ls). split; [split; [now left|exact C]|]. unfold total in *. cbn. rewrite E. unfold around. cbn. lra.
    + exists (b :: ls). split; [split; [now right|exact C]|]. unfold total in *. cbn. now rewrite E.
Qed.

Lemma around_dedup l : around f (dedup Nat.eqb l) = around f l.
Proof.
  destruct l as [|a l]; [reflexivity|]. destruct (from_to_exists (a :: l) ltac:(discriminate)) as (a' & b & F).
  rewrite (around_ends f _ _ _ F), (around_ends f _ _ _ (dedup_from_to _ _ _ F)), dedup_along by exact Ho. reflexivity.
Qed.

Lemma enclosing_sum p n rest : 
  (forall q, In q (p :: n :: rest) -> well_formed data q) -> (strict -> forall q, In q (p :: n :: rest) -> neat data q) -> chained data (p :: n :: rest) -> no_return data (p :: n :: rest) ->
  exists poly gs, enclosing_polygon data (p :: n :: rest) = Done poly /\ gaps p (n :: rest) gs /\ (strict -> tidy poly)
    /\ around f poly = total (map (fun p => around f (outline data p)) (p :: n :: rest)) - total gs.
Proof.
  intros W Nt Ch Nr. destruct Ch as [Rel Ch].
  destruct (first_step p n (W p (or_introl eq_refl)) (fun K => Nt K p (or_introl eq_refl)) (W n (or_intror (or_introl eq_refl))) Rel) as (br & g & E & G & I).
  destruct (all_steps rest p n br _ I (fun q H => W q (or_intror H)) (fun K q H => Nt K q (or_intror H)) Ch Nr) as (br' & gs & E' & Gs & Td & A).
  exists (left br' ++ rev (right br')), (g :: gs). cbn [enclosing_polygon]. rewrite E. cbn [bind]. rewrite E'. cbn [bind].
  split; [reflexivity|]. split; [split; assumption|]. split; [exact Td|]. rewrite A. unfold total. cbn [map fold_right]. lra.
Qed.

Lemma enclosing_path path :
  (forall q, In q path -> well_formed data q) -> (strict -> (2 <= length path)%nat /\ forall q, In q path -> neat data q) -> chained data path -> no_return data path ->
  exists poly gs, enclosing_polygon data path = Done poly /\ crossings data path gs /\ (strict -> tidy poly)
    /\ around f poly + total (map (around f) gs) = total (map (fun p => around f (outline data p)) path).
Proof.
  intros W Nt Ch Nr. destruct path as [|p [|n rest]].
  - exists [], []. split; [reflexivity|]. split; [reflexivity|]. split; [intros K; destruct (Nt K) as [L _]; cbn in L; lia|]. unfold around, total. cbn. lra.
  - eexists. exists []. cbn [enclosing_polygon]. unfold bounding_polygon. rewrite compound_spec. split; [reflexivity|]. split; [reflexivity|].
    split; [intros K; destruct (Nt K) as [L _]; cbn in L; lia|].
    rewrite around_dedup. unfold total. cbn [map fold_right]. destruct p as [l|bs]; cbn [outline map concat]; [|lra].
    change linv with turned. rewrite seen_turned, app_nil_r. lra.
  - destruct (enclosing_sum p n rest W (fun K => proj2 (Nt K)) Ch Nr) as (poly & gs & E & G & Td & A). destruct (gaps_crossings _ _ _ G) as (ls & C & T).
    exists poly, ls. split; [exact E|]. split; [exact C|]. split; [exact Td|]. rewrite T, A. lra.
Qed.
End loop.

Section outcomes.
Variable data : nat -> list nat.
Let zero (a b : nat) : R := 0.
Lemma zero_oriented : oriented zero. Proof. intros a b. unfold zero. lra. Qed.

(** * How a call ends *)
Definition ready (br : bounds_result) (cur : prim) : Prop :=
  left br <> [] /\ match cur with Lane _ => exists s, ll_adjacency br = Some s | Region bs => exists c, prev_border br = Some c /\ In c bs end.
Definition joins (p n : prim) (r : outcome bounds_result) : Prop :=
  match r with
  | Done br => joined data p n /\ ready br n
  | NoGeometry => ~ joined data p n /\ exists bs, p = Region bs
  | RuntimeFailure => ~ joined data p n /\ exists l bs, p = Lane l /\ n = Region bs
  | _ => False
  end.

Lemma walk_done next extract s out t : (forall s, exists e, extract s = Done e) ->
  In out [s; next s; next (next s); next (next (next s))] -> exists e, walk next extract 4 s out t = Done (t ++ e).
Proof.
  intros He Hin. cbn [walk].
  destruct (side_eqb s out) eqn:E0; [exists []; now rewrite app_nil_r|].
  destruct (He s) as (e & ->). cbn [bind]. destruct (side_eqb (next s) out) eqn:E1; [eauto|].
  destruct (He (next s)) as (e1 & ->). cbn [bind].
  destruct (side_eqb (next (next s)) out) eqn:E2; [eexists; now rewrite <- app_assoc|].
  destruct (He (next (next s))) as (e2 & ->). cbn [bind].
  destruct (side_eqb (next (next (next s))) out) eqn:E3; [eexists; now rewrite <- !app_assoc|].
  exfalso. destruct Hin as [K|[K|[K|[K|[]]]]]; subst out; rewrite (proj2 (side_eqb_eq _ _) eq_refl) in *; discriminate.
Qed.
Lemma append_lanelet_done br l s out : well_formed data (Lane l) ->
  exists e e', append_lanelet data br l s out = Done (Bounds (prev_border br) (ll_adjacency br) (left br ++ e) (right br ++ e')).
Proof.
  intros W. destruct (corners_exist data l W) as (a0 & a1 & b0 & b1 & C).
  assert (Hc : forall s, exists e, clockwise data l s = Done e) by (intros x; destruct (clockwise_way data zero False l a0 a1 b0 b1 C (False_ind _) x) as (e & E & _); eauto).
  assert (Hd : forall s, exists e, counter_clockwise data l s = Done e)
    by (intros x; destruct (counter_clockwise_way data zero zero_oriented False l a0 a1 b0 b1 C (False_ind _) x) as (e & E & _); eauto).
  unfold append_lanelet, bounds_left, bounds_right.
  destruct (walk_done cw (clockwise data l) (cw s) out (left br) Hc) as (e & ->); [destruct s, out; cbn; tauto|]. cbn [bind].
  destruct (negb (side_eqb s out)).
  - destruct (walk_done ccw (counter_clockwise data l) (ccw s) out (right br) Hd) as (e' & ->); [destruct s, out; cbn; tauto|]. cbn [bind]. eauto.
  - exists e, []. now rewrite app_nil_r.
Qed.
Lemma append_lines_done lss t r o1 o2 : exists e, append_lines data lss t r o1 o2 = Done (t ++ e).
Proof.
  unfold append_lines. rewrite compound_spec. cbv zeta.
  destruct (Nat.ltb _ _); [exists []; now rewrite app_nil_r|eauto].
Qed.

Lemma adjacency_area_done l bs : well_formed data (Lane l) -> well_formed data (Region bs) ->
  exists r, adjacency_area data l bs = Done r
    /\ match r with Some (_, b) => touches data l bs /\ In b bs | None => ~ touches data l bs end.
Proof.
  intros W Wb. destruct (corners_exist data l W) as (a0 & a1 & b0 & b1 & C).
  destruct (adjacency_area_spec data zero zero_oriented l bs _ _ _ _ C (region_ok data bs Wb)) as (r & E & S1 & S2).
  exists r. split; [exact E|]. destruct r as [[s b]|]; [|auto].
  destruct (S1 s b eq_refl) as (H & F & _). split; [|exact H]. clear S1 S2.
  destruct s.
  - left. exists b, [b0; a0]. split; [exact H|]. destruct C as [(r1 & r2 & E1 & E2) (r3 & r4 & E3 & E4)].
    split; [exact (end_front data l _ _ _ _ E1 E3)|]. exists b0, a0. split; [exists [a0], [b0]; auto|exact F].
  - left. exists b, [a1; b1]. split; [exact H|]. destruct C as [(r1 & r2 & E1 & E2) (r3 & r4 & E3 & E4)].
    split; [exact (end_back data l _ _ _ _ E2 E4)|]. exists a1, b1. split; [exists [b1], [a1]; auto|exact F].
  - right. right. revert E. unfold adjacency_area. destruct (common_following data bs l) as [[?|]| | | |]; cbn [bind]; try discriminate.
    destruct (common_preceding data l bs) as [[?|]| | | |]; cbn [bind]; try discriminate.
    destruct (left_of_ar l bs); [discriminate|]. destruct (right_of_ar l bs); [|discriminate]. intros K. inversion K. subst b. exact H.
  - right. left. revert E. unfold adjacency_area. destruct (common_following data bs l) as [[?|]| | | |]; cbn [bind]; try discriminate.
    destruct (common_preceding data l bs) as [[?|]| | | |]; cbn [bind]; try discriminate.
    destruct (left_of_ar l bs); [|destruct (right_of_ar l bs); discriminate]. intros K. inversion K. subst b. exact H.
Qed.
Lemma app_left (l e : list nat) : l <> [] -> l ++ e <> []. Proof. destruct l; [contradiction|discriminate]. Qed.

Lemma get_border_done br bs n : well_formed data (Region bs) -> well_formed data n ->
  match get_border data br bs n with
  | Done (br', d) => joined data (Region bs) n /\ left br' = left br /\ right br' = right br /\ In d bs
      /\ match n with Lane _ => exists s, ll_adjacency br' = Some s | Region ns => exists c, prev_border br' = Some c /\ In c ns end
  | NoGeometry => ~ joined data (Region bs) n
  | _ => False
  end.
Proof.
  intros W Wn. destruct n as [l|ns]; cbn [get_border].
  - destruct (adjacency_area_done l bs Wn W) as (r & -> & K). cbn [bind]. destruct r as [[s b]|]; [|exact K].
    destruct K as [K1 K2]. cbn. eauto 10.
  - assert (K := common_areas_spec ns bs). destruct (common_areas ns bs) as [b|].
    + destruct K as [K1 K2]. cbn. split; [exists (turned b); rewrite turned_turned; auto|]. eauto 10.
    + cbn. intros (x & H1 & H2). exact (K x H1 H2).
Qed.
Lemma find_line_in bs x : In x bs -> exists i, find_line bs x = Some i.
Proof.
  induction bs as [|b bs IH]; intros H; [contradiction|]. cbn [find_line]. destruct (line_eqb b x) eqn:E; [eauto|].
  destruct H as [->|H]; [assert (line_eqb x x = true) by (now apply line_eqb_eq); congruence|].
  destruct (IH H) as (i & ->). cbn. eauto.
Qed.

Lemma tail_done p n : well_formed data p -> well_formed data n -> joins p n (append_tail data p n).
Proof.
  intros W Wn. destruct p as [l|bs]; cbn [append_tail].
  - destruct (corners_exist data l W) as (a0 & a1 & b0 & b1 & C). destruct n as [n|ns].
    + unfold add_lanelet_pair. destruct (adjacency_lanelet data l n) as [s o]. cbn [start_left entered].
      rewrite (first_point_stop data l a0 a1 b0 b1 C). cbn [bind].
      match goal with |- context [append_lanelet data ?b l s s] => destruct (append_lanelet_done b l s s W) as (e & e' & ->) end.
      cbn. split; [exact I|]. split; [discriminate|cbn; eauto].
    + unfold add_lanelet_area. destruct (adjacency_area_done l ns W Wn) as (r & -> & K). cbn [bind]. destruct r as [[s b]|].
      * cbn [start_left entered]. rewrite (first_point_stop data l a0 a1 b0 b1 C). cbn [bind].
        match goal with |- context [append_lanelet data ?b l s s] => destruct (append_lanelet_done b l s s W) as (e & e' & ->) end.
        cbn. destruct K. split; [assumption|]. split; [discriminate|cbn; eauto].
      * cbn. eauto.
  - assert (K := get_border_done (Bounds None None [] []) bs n W Wn).
    destruct (get_border data (Bounds None None [] []) bs n) as [[br d]| | | |]; try contradiction; cbn [bind].
    + destruct K as (J & K1 & K2 & K3 & K4). destruct W as [L (z & Lk)].
      destruct (except_spec data zero z bs d Lk L K3) as (rest & m & k & -> & Nr & _ & Lr & _). cbn [bind]. rewrite K1. cbn [left].
      destruct (append_first data zero zero_oriented False _ _ _ Lr Nr) as (t & -> & [[(x & y & -> & _) _] _]). cbn [bind].
      cbn. split; [exact J|]. split; [discriminate|]. destruct n; exact K4.
    + cbn. eauto.
Qed.
Lemma bounds_done br cur n : ready br cur -> well_formed data cur -> well_formed data n -> joins cur n (append_bounds data cur (Some n) br).
Proof.
  intros [Nl Rd] W Wn. destruct cur as [l|bs]; cbn [append_bounds].
  - destruct Rd as (s0 & Es). destruct n as [n|ns].
    + unfold add_lanelet_pair. destruct (adjacency_lanelet data l n) as [s o]. cbn [start_left entered bind]. rewrite Es. cbn [bind].
      destruct (append_lanelet_done br l s0 s W) as (e & e' & ->). cbn. split; [exact I|]. split; [now apply app_left|cbn; eauto].
    + unfold add_lanelet_area. destruct (adjacency_area_done l ns W Wn) as (r & -> & K). cbn [bind]. destruct r as [[s b]|].
      * cbn [start_left entered bind]. rewrite Es. cbn [bind]. destruct (append_lanelet_done br l s0 s W) as (e & e' & ->).
        cbn. destruct K. split; [assumption|]. split; [now apply app_left|cbn; eauto].
      * cbn. eauto.
  - destruct Rd as (c & -> & Hc). assert (K := get_border_done br bs n W Wn).
    destruct (get_border data br bs n) as [[br' d]| | | |]; try contradiction; cbn [bind].
    + destruct K as (J & K1 & K2 & K3 & K4). unfold extract_bounds.
      destruct (find_line_in bs d K3) as (i & ->), (find_line_in bs c Hc) as (j & ->). cbn [bind].
      match goal with |- context [append_lines data ?x (left br') ?p ?q ?r] => destruct (append_lines_done x (left br') p q r) as (e & ->) end. cbn [bind].
      match goal with |- context [append_lines data ?x (right br') ?p ?q ?r] => destruct (append_lines_done x (right br') p q r) as (e' & ->) end. cbn [bind].
      cbn. split; [exact J|]. split; [rewrite K1; now apply app_left|]. destruct n; exact K4.
    + cbn. eauto.
Qed.
Lemma last_done br cur : ready br cur -> well_formed data cur -> exists br', append_bounds data cur None br = Done br'.
Proof.
  intros [Nl Rd] W. destruct cur as [l|bs]; cbn [append_bounds].
  - destruct Rd as (s0 & ->). destruct (append_lanelet_done br l s0 s0 W) as (e & e' & ->). cbn [bind left].
    destruct (left br ++ e) eqn:Q; [apply app_left in Q; [contradiction|exact Nl]|eauto].
  - destruct Rd as (c & -> & Hc). unfold extract_except. destruct (find_line_in bs c Hc) as (i & ->). cbn [bind].
    match goal with |- context [append_lines data ?x (left br) ?p ?q ?r] => destruct (append_lines_done x (left br) p q r) as (e & ->) end.
    cbn [bind]. eauto.
Qed.

(** The path ends at the first pair which does not join. *)
Definition ends (path : list prim) {A} (r : outcome A) : Prop :=
  match r with
  | Done _ => areas_joined data path
  | NoGeometry => exists pre bs n post, path = pre ++ Region bs :: n :: post /\ ~ joined data (Region bs) n /\ areas_joined data (pre ++ [Region bs])
  | RuntimeFailure => exists pre l bs post, path = pre ++ Lane l :: Region bs :: post /\ ~ joined data (Lane l) (Region bs) /\ areas_joined data (pre ++ [Lane l])
  | _ => False
  end.
Lemma joins_ends p n rest (r : outcome bounds_result) : joins p n r -> (forall br, r <> Done br) -> ends (p :: n :: rest) r.
Proof.
  destruct r; cbn; intros J N; try contradiction; [destruct (N x eq_refl)| |].
  - destruct J as (J & bs & ->). exists [], bs, n, rest. cbn. auto.
  - destruct J as (J & l & bs & -> & ->). exists [], l, bs, rest. cbn. auto.
Qed.
Lemma ends_cons {A} p n rest (r : outcome A) : joined data p n -> ends (n :: rest) r -> ends (p :: n :: rest) r.
Proof.
  intros J. assert (Cons : forall pre x y post, n :: rest = pre ++ x :: post -> areas_joined data (pre ++ [x]) -> y = x -> areas_joined data (p :: pre ++ [x])).
  { intros pre x y post E H _. destruct pre as [|z pre]; cbn in E |- *; inversion E; subst; split; assumption. }
  destruct r; cbn [ends]; intros H; try contradiction.
  - split; assumption.
  - destruct H as (pre & bs & m & post & E & N & H). exists (p :: pre), bs, m, post. split; [cbn; now rewrite E|]. split; [exact N|].
    eapply Cons; [exact E|exact H|reflexivity].
  - destruct H as (pre & l & bs & post & E & N & H). exists (p :: pre), l, bs, post. split; [cbn; now rewrite E|]. split; [exact N|].
    eapply Cons; [exact E|exact H|reflexivity].
Qed.
Lemma all_done rest : forall cur br, ready br cur -> (forall p, In p (cur :: rest) -> well_formed data p) ->
  ends (cur :: rest) (append_all data (cur :: rest) br).
Proof.
  induction rest as [|n rest IH]; intros cur br Rd W.
  - destruct (last_done br cur Rd (W cur (or_introl eq_refl))) as (br' & E). cbn [append_all hd_error]. rewrite E. exact I.
  - assert (J := bounds_done br cur n Rd (W cur (or_introl eq_refl)) (W n (or_intror (or_introl eq_refl)))).
    change (append_all data (cur :: n :: rest) br) with (bind (append_bounds data cur (Some n) br) (fun br => append_all data (n :: rest) br)).
    destruct (append_bounds data cur (Some n) br) as [br'| | | |] eqn:E; cbn [bind].
    + destruct J as [J R']. apply ends_cons; [exact J|]. apply IH; [exact R'|]. intros p Hp. apply W. now right.
    + contradiction.
    + contradiction.
    + exact (joins_ends cur n rest NoGeometry J ltac:(discriminate)).
    + exact (joins_ends cur n rest RuntimeFailure J ltac:(discriminate)).
Qed.
Lemma enclosing_ends path : (forall p, In p path -> well_formed data p) -> ends path (enclosing_polygon data path).
Proof.
  intros W. destruct path as [|p [|n rest]].
  - exact I.
  - cbn [enclosing_polygon]. unfold bounding_polygon. rewrite compound_spec. exact I.
  - assert (J := tail_done p n (W p (or_introl eq_refl)) (W n (or_intror (or_introl eq_refl)))). cbn [enclosing_polygon].
    destruct (append_tail data p n) as [br| | | |] eqn:E; cbn [bind]; try contradiction.
    + destruct J as [J R']. assert (K := all_done rest n br R' (fun q H => W q (or_intror H))).
      apply ends_cons; [exact J|]. destruct (append_all data (n :: rest) br); exact K.
    + exact (joins_ends p n rest NoGeometry J ltac:(discriminate)).
    + exact (joins_ends p n rest RuntimeFailure J ltac:(discriminate)).
Qed.
End outcomes.

(** * The points of the polygon *)
Section points.
Variable data : nat -> list nat.
Definition among (p : prim) (t : list nat) : Prop := forall x, In x t -> In x (outline data p).

Lemma lane_points l s e : clockwise data l s = Done e \/ counter_clockwise data l s = Done e \/ (exists p, first_point data l s = Done p /\ e = [p]) ->
  among (Lane l) e.
Proof.
  assert (F : forall x p, front data x = Done p -> In p (pts data x)).
  { intros x p. unfold front. destruct (pts data x); [discriminate|]. intros E. inversion E. now left. }
  assert (B : forall x p, back data x = Done p -> In p (pts data x)).
  { intros x p. unfold back. destruct (rev (pts data x)) as [|y r] eqn:Q; [discriminate|]. intros E. inversion E. subst.
    apply in_rev. rewrite Q. now left. }
  assert (Bf : forall x e, but_first data x = Done e -> forall y, In y e -> In y (pts data x)).
  { intros x e'. unfold but_first. destruct (pts data x); [discriminate|]. intros E y. inversion E. subst. now right. }
  assert (Sg : forall o e, single o = Done e -> exists p, o = Done p /\ e = [p]).
  { intros o e'. unfold single. destruct o; cbn; try discriminate. intros E. inversion E. eauto. }
  assert (Lf : forall x, In x (pts data (left_bound l)) -> In x (outline data (Lane l))) by (intros x H; apply in_or_app; now left).
  assert (Rt : forall x, In x (pts data (right_bound l)) -> In x (outline data (Lane l))) by (intros x H; apply in_or_app; right; now apply -> in_rev).
  assert (Iv : forall x y, In y (pts data (linv x)) -> In y (pts data x)).
  { intros x y. change linv with turned. rewrite !pts_seen, seen_turned. intros H. now apply in_rev. }
  intros [H|[H|(p & H & ->)]] x Hx; destruct s; cbn [clockwise counter_clockwise first_point] in H;
    try (apply Sg in H; destruct H as (p & H & ->)); try (destruct Hx as [<-|[]]); eauto.
Qed.
Lemma walk_points l next extract n : (forall s e, extract s = Done e -> among (Lane l) e) -> forall s out t t',
  walk next extract n s out t = Done t' -> forall x, In x t' -> In x t \/ In x (outline data (Lane l)).
Proof.
  intros He. induction n as [|n IH]; intros s out t t' H x Hx; cbn [walk] in H; [discriminate|].
  destruct (side_eqb s out); [inversion H; subst; now left|].
  destruct (extract s) as [e| | | |] eqn:E; cbn [bind] in H; try discriminate.
  destruct (IH _ _ _ _ H x Hx) as [K|K]; [|now right]. apply in_app_or in K. destruct K as [K|K]; [now left|right; exact (He _ _ E x K)].
Qed.
(** [t'] has only points of [t] and of the path. *)
Definition of_path (path : list prim) (t : list nat) : Prop := forall x, In x t -> exists p, In p path /\ In x (outline data p).
Definition both (path : list prim) (br : bounds_result) : Prop := of_path path (left br) /\ of_path path (right br).
Lemma append_lanelet_points path br l s out br' : In (Lane l) path -> both path br -> append_lanelet data br l s out = Done br' -> both path br'.
Proof.
  intros Hl [B1 B2] H. unfold append_lanelet, bounds_left, bounds_right in H.
  destruct (walk cw (clockwise data l) 4 (cw s) out (left br)) as [lf| | | |] eqn:E1; cbn [bind] in H; try discriminate.
  assert (Q1 : of_path path lf).
  { intros x Hx. destruct (walk_points l cw (clockwise data l) 4 (fun s e K => lane_points l s e (or_introl K)) _ _ _ _ E1 x Hx) as [K|K]; eauto. }
  destruct (negb (side_eqb s out)).
  - destruct (walk ccw (counter_clockwise data l) 4 (ccw s) out (right br)) as [rt| | | |] eqn:E2; cbn [bind] in H; try discriminate.
    inversion H. subst br'. split; [exact Q1|]. cbn [right].
    intros x Hx. destruct (walk_points l ccw (counter_clockwise data l) 4 (fun s e K => lane_points l s e (or_intror (or_introl K))) _ _ _ _ E2 x Hx) as [K|K]; eauto.
  - inversion H. subst br'. split; assumption.
Qed.
Lemma start_points path br l s nt br' : In (Lane l) path -> both path br -> start_left data nt br l s = Done br' -> both path br'.
Proof.
  intros Hl [B1 B2] H. unfold start_left in H. destruct nt; [inversion H; subst; split; assumption|].
  destruct (first_point data l s) as [p| | | |] eqn:E; cbn [bind] in H; try discriminate. inversion H. subst br'.
  split; [|exact B2]. cbn [left]. intros x Hx. apply in_app_or in Hx. destruct Hx as [Hx|Hx]; [exact (B1 x Hx)|].
  exists (Lane l). split; [exact Hl|]. eapply lane_points; [right; right; eauto|exact Hx].
Qed.
Lemma append_lines_points path bs lss t r o1 o2 t' : In (Region bs) path -> (forall l, In l lss -> In l bs) -> of_path path t ->
  append_lines data lss t r o1 o2 = Done t' -> of_path path t'.
Proof.
  intros Hb Hs Ht H. unfold append_lines in H. rewrite compound_spec in H. cbv zeta in H.
  assert (K : forall x, In x (dedup Nat.eqb (concat (map (seen data) lss))) -> exists p, In p path /\ In x (outline data p)).
  { intros x Hx. apply (proj1 (dedup_in _ _)) in Hx. exists (Region bs). split; [exact Hb|]. cbn [outline]. apply in_concat in Hx. destruct Hx as (y & Hy & Hx).
    apply in_concat. exists y. split; [|exact Hx]. apply in_map_iff in Hy. destruct Hy as (l & <- & Hl). apply in_map. auto. }
  assert (T : forall l x, In x (tl l) -> In x (l : list nat)) by (intros [|? ?] x; cbn; auto).
  assert (R : forall l x, In x (removelast l) -> In x (l : list nat)).
  { induction l as [|y l IH]; intros x; [auto|]. cbn [removelast]. destruct l; [contradiction|]. intros [->|Q]; [now left|right; auto]. }
  destruct (Nat.ltb _ _); inversion H; subst t'; [exact Ht|]. intros x Hx. apply in_app_or in Hx. destruct Hx as [Hx|Hx]; [auto|].
  apply K. unfold drop_ends in Hx. cbv zeta in Hx.
  destruct r, o1, o2; try (apply R in Hx); try (apply T in Hx); first [exact Hx|exact (proj2 (in_rev _ _) Hx)].
Qed.
Lemma between_points (bs : list line) i j l : In l (extract_between bs i j) -> In l bs.
Proof.
  assert (F : forall n (b : list line), In l (firstn n b) -> In l b).
  { induction n; intros [|y b]; cbn; try tauto. intros [H|H]; auto. }
  assert (S : forall n (b : list line), In l (skipn n b) -> In l b).
  { induction n; intros [|y b]; cbn; auto. }
  unfold extract_between. destruct (Nat.leb j i); intros H; [apply in_app_or in H; destruct H as [H|H]; [eapply S|eapply F]; exact H|].
  eapply S. eapply F. exact H.
Qed.
Lemma except_points bs x rest l : extract_except bs x = Done rest -> In l rest -> In l bs.
Proof.
  unfold extract_except. destruct (find_line bs x); [|discriminate]. intros H. inversion H. apply between_points.
Qed.
Lemma bounds_points bs c d b1 b2 l : extract_bounds bs c d = Done (b1, b2) -> (In l b1 -> In l bs) /\ (In l b2 -> In l bs).
Proof.
  unfold extract_bounds. destruct (find_line bs d); [|discriminate]. destruct (find_line bs c); [|discriminate].
  intros H. inversion H. split; apply between_points.
Qed.
Lemma border_points br bs n br' d : get_border data br bs n = Done (br', d) -> left br' = left br /\ right br' = right br.
Proof.
  destruct n; cbn [get_border].
  - destruct (adjacency_area data l bs) as [[[s b]|]| | | |]; cbn [bind]; try discriminate. intros H. inversion H. auto.
  - destruct (common_areas bounds bs); [|discriminate]. intros H. inversion H. auto.
Qed.
Tactic Notation "unbind" hyp(H) ident(E) :=
  match type of H with
  | bind ?a _ = Done _ => destruct a eqn:E; cbn [bind] in H; try discriminate H
  end.
Lemma pair_points path br l n nt br' : In (Lane l) path -> both path br -> add_lanelet_pair data br l n nt = Done br' -> both path br'.
Proof.
  intros Hl B H. unfold add_lanelet_pair in H. destruct (adjacency_lanelet data l n) as [s o].
  unbind H E1. apply start_points with (1 := Hl) (2 := B) in E1. unbind H E2. unbind H E3.
  apply append_lanelet_points with (1 := Hl) (2 := E1) in E3. inversion H. exact E3.
Qed.
Lemma area_points path br l n nt br' : In (Lane l) path -> both path br -> add_lanelet_area data br l n nt = Done br' -> both path br'.
Proof.
  intros Hl B H. unfold add_lanelet_area in H. unbind H E0. destruct x as [[s b]|]; [|discriminate].
  unbind H E1. apply start_points with (1 := Hl) (2 := B) in E1. unbind H E2. unbind H E3.
  apply append_lanelet_points with (1 := Hl) (2 := E1) in E3. inversion H. exact E3.
Qed.
Lemma tail_points path p n br : In p path -> append_tail data p n = Done br -> both path br.
Proof.
  intros Hp H. assert (B : both path (Bounds None None [] [])) by (split; intros x []).
  destruct p as [l|bs]; cbn [append_tail] in H.
  - destruct n; [eapply pair_points|eapply area_points]; eassumption.
  - unbind H E1. match type of E1 with _ = Done ?z => destruct z as [br1 d] end. apply border_points in E1. destruct E1 as [Q1 Q2]. unbind H E2. unbind H E3.
    inversion H. subst br. rewrite Q1 in E3. split; [|cbn [right]; rewrite Q2; intros ? []]. cbn [left].
    eapply append_lines_points with (4 := E3); [exact Hp| |intros ? []]. intros y Hy. eapply except_points; eassumption.
Qed.
Lemma step_points path p n br br' : In p path -> both path br -> append_bounds data p n br = Done br' -> both path br'.
Proof.
  intros Hp B H. destruct p as [l|bs]; cbn [append_bounds] in H.
  - destruct n as [[n|ns]|]; [eapply pair_points; eassumption|eapply area_points; eassumption|].
    destruct (ll_adjacency br); [|discriminate]. unbind H E1. apply append_lanelet_points with (1 := Hp) (2 := B) in E1.
    destruct E1 as [P1 P2]. destruct (left x) eqn:Q; [discriminate|]. inversion H. subst br'. split; [|exact P2]. cbn [left].
    change (of_path path (removelast (n :: l0))). intros y Hy. apply P1. revert Hy. generalize (n :: l0). intros l1.
    induction l1 as [|z l1 IH]; [auto|]. cbn [removelast]. destruct l1; [contradiction|]. intros [->|K]; [now left|right; auto].
  - destruct n as [n|].
    + destruct (prev_border br) as [old|]; [|discriminate]. unbind H E1. match type of E1 with _ = Done ?z => destruct z as [br1 d] end. apply border_points in E1. destruct E1 as [Q1 Q2].
      unbind H E2. match type of E2 with _ = Done ?z => destruct z as [b1 b2] end. unbind H E3. unbind H E4. inversion H. subst br'. destruct B as [P1 P2]. rewrite Q1 in E3. rewrite Q2 in E4.
      split; cbn [left right].
      * eapply append_lines_points; [exact Hp| |exact P1|exact E3]. intros y Hy. exact (proj1 (bounds_points _ _ _ _ _ _ E2) Hy).
      * eapply append_lines_points; [exact Hp| |exact P2|exact E4]. intros y Hy. exact (proj2 (bounds_points _ _ _ _ _ _ E2) Hy).
    + destruct (prev_border br) as [old|]; [|discriminate]. unbind H E1. unbind H E2. inversion H. subst br'. destruct B as [P1 P2].
      split; [|exact P2]. cbn [left]. eapply append_lines_points; [exact Hp| |exact P1|exact E2]. intros y Hy. eapply except_points; eassumption.
Qed.
Lemma all_points path rest : forall br br', (forall p, In p rest -> In p path) -> both path br -> append_all data rest br = Done br' -> both path br'.
Proof.
  induction rest as [|p rest IH]; intros br br' W B H; cbn [append_all] in H; [inversion H; subst; exact B|].
  unbind H E. eapply IH; [|eapply step_points; [apply W; now left|exact B|exact E]|exact H]. intros q Hq. apply W. now right.
Qed.
Lemma enclosing_points path poly x : enclosing_polygon data path = Done poly -> In x poly -> exists p, In p path /\ In x (outline data p).
Proof.
  intros H Hx. destruct path as [|p [|n rest]].
  - inversion H. subst. contradiction.
  - cbn [enclosing_polygon] in H. unfold bounding_polygon in H. rewrite compound_spec in H. inversion H. subst poly. apply (proj1 (dedup_in _ _)) in Hx.
    exists p. split; [now left|]. destruct p as [l|bs]; [|exact Hx]. cbn [map concat] in Hx. change linv with turned in Hx.
    rewrite seen_turned, app_nil_r in Hx. exact Hx.
  - cbn [enclosing_polygon] in H. unbind H E1. unbind H E2.
    assert (B : both (p :: n :: rest) x0) by (eapply tail_points; [now left|exact E1]).
    apply (all_points (p :: n :: rest)) in E2; [|intros q Hq; now right|exact B]. inversion H. subst poly. destruct E2 as [P1 P2].
    apply in_app_or in Hx. destruct Hx as [Hx|Hx]; [exact (P1 x Hx)|apply P2; now apply in_rev].
Qed.
End points.

(** * The remaining lane *)
Lemma follows_succession data a b : follows data a b = true <-> in_succession data a b.
Proof.
  unfold follows, in_succession, is_empty, same, back, front. change (pts data) with (seen data).
  destruct (seen data (left_bound a)) as [|x1 r1] eqn:E1.
  { cbn. split; [discriminate|]. intros (r & ? & ? & ? & ? & ? & H & _). destruct r; discriminate. }
  destruct (seen data (right_bound a)) as [|x2 r2] eqn:E2.
  { cbn. split; [discriminate|]. intros (? & ? & ? & r & ? & ? & _ & _ & H & _). destruct r; discriminate. }
  destruct (seen data (left_bound b)) as [|x3 r3] eqn:E3.
  { cbn. split; [discriminate|]. intros (? & ? & ? & ? & ? & ? & _ & H & _). discriminate. }
  destruct (seen data (right_bound b)) as [|x4 r4] eqn:E4.
  { cbn. split; [discriminate|]. intros (? & ? & ? & ? & ? & ? & _ & _ & _ & H). discriminate. }
  destruct (exists_last (l := x1 :: r1) ltac:(discriminate)) as (l1 & y1 & Q1), (exists_last (l := x2 :: r2) ltac:(discriminate)) as (l2 & y2 & Q2).
  rewrite Q1, Q2, !rev_app_distr. cbn [rev app negb andb]. rewrite andb_true_iff, !Nat.eqb_eq. split.
  - intros [-> ->]. exists l1, x3, r3, l2, x4, r4. auto.
  - intros (k1 & p & s1 & k2 & q & s2 & H1 & H2 & H3 & H4). apply app_inj_tail in H1. apply app_inj_tail in H3.
    destruct H1, H3. inversion H2. inversion H4. subst. auto.
Qed.
Lemma remaining_spec data path : exists rest, path = remaining_lane data path ++ rest
  /\ successive data (remaining_lane data path) /\ (path <> [] -> remaining_lane data path <> [])
  /\ (forall l r n q, remaining_lane data path = r ++ [l] -> rest = n :: q -> ~ in_succession data l n).
Proof.
  induction path as [|a path IH].
  { exists []. cbn. split; [reflexivity|]. split; [exact I|]. split; [auto|]. intros l [|] n q H; discriminate. }
  destruct path as [|b path].
  { exists []. cbn. split; [reflexivity|]. split; [exact I|]. split; [discriminate|]. discriminate. }
  change (remaining_lane data (a :: b :: path)) with (a :: if negb (follows data a b) then [] else remaining_lane data (b :: path)).
  destruct (follows data a b) eqn:F; cbn [negb].
  - destruct IH as (rest & E & S & N & M). exists rest. split; [cbn [app]; now rewrite <- E|].
    assert (H := N ltac:(discriminate)). destruct (remaining_lane data (b :: path)) as [|c lane] eqn:Q; [contradiction|].
    assert (c = b) by (cbn in E; congruence). subst c. split; [split; [now apply follows_succession|exact S]|]. split; [discriminate|].
    intros l r n q H1 H2. destruct r as [|x r]; [discriminate|]. eapply M; [|exact H2]. cbn in H1. inversion H1. eassumption.
  - exists (b :: path). split; [reflexivity|]. split; [exact I|]. split; [discriminate|]. intros l [|x [|]] n q H1 H2; inversion H1; inversion H2; subst.
    intros K. apply follows_succession in K. congruence.
Qed.
