(** Merging two polygons along an edge *)
From Coq Require Import List Bool Arith Sorted Permutation Lia.
From Verif Require Import PartitionModel PartitionSpec PartitionLists.
Import ListNotations.

Lemma find_index_at l1 x l2 : ~ In x l1 -> find_index (l1 ++ x :: l2) x = Some (length l1).
Proof.
  induction l1 as [|y l1 IH]; intros H; cbn.
  - rewrite Nat.eqb_refl. reflexivity.
  - destruct (Nat.eqb_spec y x) as [->|_]; [destruct H; left; auto|]. rewrite IH; [reflexivity|]. intros K. apply H. right. auto.
Qed.
Lemma find_index_at' l x l1 l2 : l = l1 ++ x :: l2 -> NoDup l -> find_index l x = Some (length l1).
Proof. intros -> H. apply find_index_at. intros K. apply NoDup_remove in H. apply H, in_or_app. auto. Qed.

Definition placed (l : list nat) (a b i j : nat) : Prop :=
  (exists l1 l2, l = l1 ++ a :: b :: l2 /\ i = length l1 /\ j = S (length l1)) \/ (exists m, l = b :: m ++ [a] /\ i = S (length m) /\ j = 0).
Lemma aligned_edge l a b : NoDup l -> 3 <= length l -> In (a, b) (edges l) ->
  exists i j, aligned l (a, b) = Ok (i, j) /\ aligned l (b, a) = Ok (i, j) /\ placed l a b i j.
Proof.
  intros Hd Hl He. apply edges_cases in He. unfold aligned. destruct (Nat.ltb_spec (length l) 3) as [L|_]; [lia|]. cbn [fst snd].
  destruct He as [(l1 & l2 & E)|[(m & E)|[-> _]]]; [| |cbn in Hl; lia].
  - rewrite (find_index_at' l a l1 (b :: l2)), (find_index_at' l b (l1 ++ [a]) l2) by (auto; rewrite E, <- app_assoc; reflexivity).
    exists (length l1), (S (length l1)). rewrite app_length. cbn [length].
    replace (length l1 =? length l1 + 1 + 1) with false by (symmetry; apply Nat.eqb_neq; lia).
    replace (length l1 + 1 =? length l1 + (length l - 1)) with false by (symmetry; apply Nat.eqb_neq; lia).
    rewrite Nat.eqb_refl. cbn. rewrite Nat.add_1_r. split; [auto|]. split; [auto|]. left. exists l1, l2. auto.
  - rewrite (find_index_at' l a (b :: m) []), (find_index_at' l b [] (m ++ [a])) by auto. exists (S (length m)), 0. cbn [length].
    assert (Hm : length l = S (S (length m))) by (rewrite E; cbn; rewrite app_length; cbn; lia).
    replace (S (length m) =? 0 + 1) with false by (symmetry; apply Nat.eqb_neq; lia). replace (0 =? S (length m) + (length l - 1)) with false by (symmetry; apply Nat.eqb_neq; lia).
    replace (0 =? S (length m) + 1) with false by (symmetry; apply Nat.eqb_neq; lia). replace (S (length m) =? 0 + (length l - 1)) with true by (symmetry; apply Nat.eqb_eq; lia).
    cbn. split; [auto|]. split; [auto|]. right. exists m. auto.
Qed.
Lemma nth_error_edge l i x y : nth_error l i = Some x -> nth_error l (if i =? length l - 1 then 0 else i + 1) = Some y -> In (x, y) (edges l).
Proof.
  intros Hx Hy. assert (Hi : i < length l) by (apply nth_error_Some; rewrite Hx; discriminate). destruct (Nat.eqb_spec i (length l - 1)) as [E|N].
  - destruct l as [|z l]; [cbn in Hi; lia|]. cbn in Hy. injection Hy as ->. destruct (exists_last (l := y :: l)) as (m & w & Em); [discriminate|].
    assert (Ei : i = length m) by (apply (f_equal (@length nat)) in Em; rewrite app_length in Em; cbn [length] in *; lia). clear E Hi. subst i. rewrite Em, nth_error_app2, Nat.sub_diag in Hx by lia. cbn in Hx. injection Hx as ->.
    destruct m as [|y' m]; cbn in Em; inversion Em; subst; [left; reflexivity|]. apply edges_wrap.
  - apply nth_error_split in Hx. destruct Hx as (l1 & l2 & -> & <-). rewrite nth_error_app2 in Hy by lia. replace (length l1 + 1 - length l1) with 1 in Hy by lia.
    destruct l2 as [|w l2]; [discriminate|]. cbn in Hy. injection Hy as ->. apply edges_at.
Qed.
Lemma nth_error_in (l : list nat) i : i < length l -> exists x, nth_error l i = Some x.
Proof. intros H. destruct (nth_error l i) as [x|] eqn:E; [eauto|]. apply nth_error_None in E. lia. Qed.
Lemma adjacent_edge l a b : NoDup l -> 3 <= length l -> In (a, b) (edges l) -> exists p q,
  adjacent l (a, b) = Ok ((a, p), (b, q)) /\ adjacent l (b, a) = Ok ((a, p), (b, q)) /\ In (p, a) (edges l) /\ In (b, q) (edges l).
Proof.
  intros Hd Hl He. destruct (aligned_edge l a b Hd Hl He) as (i & j & E1 & E2 & P). unfold adjacent. rewrite E1, E2. cbn [bind].
  assert (Hi : nth_error l i = Some a) by (destruct P as [(l1 & l2 & -> & -> & _)|(m & -> & -> & _)];
    [|change (b :: m ++ [a]) with ((b :: m) ++ [a])]; rewrite nth_error_app2 by (cbn; lia); cbn [length]; rewrite Nat.sub_diag; reflexivity).
  assert (Hj : nth_error l j = Some b).
  { destruct P as [(l1 & l2 & -> & _ & ->)|(m & -> & _ & ->)]; [|reflexivity]. rewrite nth_error_app2 by lia. replace (S (length l1) - length l1) with 1 by lia. reflexivity. }
  assert (Li : i < length l) by (apply nth_error_Some; rewrite Hi; discriminate).
  assert (Lj : j < length l) by (apply nth_error_Some; rewrite Hj; discriminate).
  set (i' := if i =? 0 then length l - 1 else i - 1). set (j' := if j =? length l - 1 then 0 else j + 1).
  assert (Li' : i' < length l) by (unfold i'; destruct (i =? 0); lia).
  assert (Lj' : j' < length l) by (unfold j'; destruct (Nat.eqb_spec j (length l - 1)); lia).
  destruct (nth_error_in l i' Li') as (p & Hp). destruct (nth_error_in l j' Lj') as (q & Hq). exists p, q.
  unfold at_index. rewrite Hi, Hj, Hp, Hq. cbn [bind]. split; [auto|]. split; [auto|]. split.
  - apply (nth_error_edge l i'); auto. assert (E : (if i' =? length l - 1 then 0 else i' + 1) = i).
    { unfold i'. destruct (Nat.eqb_spec i 0) as [->|]; [rewrite Nat.eqb_refl; auto|]. destruct (Nat.eqb_spec (i - 1) (length l - 1)); lia. }
    rewrite E. auto.
  - apply (nth_error_edge l j); auto.
Qed.

Lemma range_mid (a b c : list nat) i j : i = length a -> j = length a + length b -> range (a ++ b ++ c) i j = Ok b.
Proof.
  intros -> ->. unfold range. rewrite !app_length. rewrite (proj2 (Nat.leb_le _ _)) by lia. rewrite (proj2 (Nat.leb_le _ _)) by lia. cbn [andb].
  rewrite skipn_app, skipn_all, Nat.sub_diag. cbn [app skipn]. replace (length a + length b - length a) with (length b) by lia.
  rewrite firstn_app, firstn_all, Nat.sub_diag. cbn [firstn]. rewrite app_nil_r. auto.
Qed.
Lemma insert_at_mid (a b x : list nat) i : i = length a -> insert_at (a ++ b) i x = Ok (a ++ x ++ b).
Proof.
  intros ->. unfold insert_at. rewrite app_length, (proj2 (Nat.leb_le _ _)) by lia. rewrite firstn_app, skipn_app, firstn_all, skipn_all, Nat.sub_diag. cbn [firstn skipn app].
  rewrite app_nil_r. auto.
Qed.
Lemma merge_edge head cell u v : NoDup head -> NoDup cell -> 3 <= length head -> 3 <= length cell -> In (u, v) (edges head) -> In (v, u) (edges cell) ->
  exists merged h x, merge head cell (u, v) = Ok (merged, segments_except cell (u, v)) /\
    rot head (v :: h ++ [u]) /\ rot cell (u :: x ++ [v]) /\ rot merged (v :: h ++ u :: x).
Proof.
  intros Dh Dc Lh Lc Hh Hc. destruct (aligned_edge head u v Dh Lh Hh) as (i & j & Eh & _ & Ph). destruct (aligned_edge cell v u Dc Lc Hc) as (m1 & m2 & _ & Ec & Pc).
  assert (Cell : exists x, rot cell (u :: x ++ [v]) /\ forall a b, j = length a -> head = a ++ b ->
    insert_polygon head cell (u, v) = Ok (a ++ x ++ b)).
  { unfold insert_polygon. rewrite Eh, Ec. cbn [bind]. destruct Pc as [(c1 & c2 & E & -> & ->)|(m & E & -> & ->)].
    - exists (c2 ++ c1). split; [exists (c1 ++ [v]), (u :: c2); rewrite E, <- !app_assoc; auto|]. intros a b Ej Eab.
      replace (length c1 + 1 =? length cell) with false by (symmetry; apply Nat.eqb_neq; rewrite E, app_length; cbn; lia).
      replace (range cell (S (length c1) + 1) (length cell)) with (@Ok (list nat) c2).
      2: { symmetry. replace cell with ((c1 ++ [v; u]) ++ c2 ++ []) by (rewrite E, app_nil_r, <- app_assoc; reflexivity).
           apply range_mid; rewrite !app_length; cbn; lia. }
      cbn [bind]. rewrite Eab. rewrite (insert_at_mid a b c2 j Ej). cbn [bind].
      replace (range cell 0 (length c1)) with (@Ok (list nat) c1) by (symmetry; rewrite E; apply (range_mid [] c1 (v :: u :: c2)); reflexivity).
      cbn [bind]. rewrite app_assoc. rewrite (insert_at_mid (a ++ c2) b c1); [rewrite <- !app_assoc; auto|].
      rewrite E, !app_length. cbn. lia.
    - exists m. split; [rewrite E; apply rot_refl|]. intros a b Ej Eab. replace (S (length m) + 1 =? length cell) with true by (symmetry; apply Nat.eqb_eq; rewrite E; cbn; rewrite app_length; cbn; lia).
      replace (range cell (0 + 1) (S (length m))) with (@Ok (list nat) m) by (symmetry; rewrite E; apply (range_mid [u] m [v]); reflexivity).
      cbn [bind]. rewrite Eab. rewrite (insert_at_mid a b m j Ej). auto. }
  destruct Cell as (x & Rc & Ins). destruct Ph as [(h1 & h2 & E & -> & Ej)|(m & E & -> & Ej)].
  - exists ((h1 ++ [u]) ++ x ++ v :: h2), (h2 ++ h1), x. split; [|split; [|split; [auto|]]].
    + unfold merge.
      rewrite (Ins (h1 ++ [u]) (v :: h2)); [reflexivity|rewrite app_length; cbn; lia|rewrite E, <- app_assoc; reflexivity].
    + exists (h1 ++ [u]), (v :: h2). rewrite E, <- !app_assoc. auto.
    + exists (h1 ++ u :: x), (v :: h2). rewrite <- !app_assoc. auto.
  - exists (x ++ v :: m ++ [u]), m, x. split; [|split; [|split; [auto|]]].
    + unfold merge.
      rewrite (Ins [] (v :: m ++ [u])); [reflexivity|auto|auto].
    + rewrite E. apply rot_refl.
    + exists x, (v :: m ++ [u]). cbn [app]. rewrite <- app_assoc. auto.
Qed.

(** The edges of the merged polygon: those of both without the common one *)
Lemma merged_edges head cell merged u v h x : rot head (v :: h ++ [u]) -> rot cell (u :: x ++ [v]) -> rot merged (v :: h ++ u :: x) ->
  Permutation (edges head ++ edges cell) (edges merged ++ [(u, v); (v, u)]).
Proof.
  intros Rh Rc Rm. rewrite (edges_rot _ _ Rh), (edges_rot _ _ Rc), (edges_rot _ _ Rm). rewrite !edges_path, <- !app_assoc. cbn [app].
  change (v :: h ++ u :: [v]) with ((v :: h) ++ u :: [v]). change (u :: x ++ v :: [u]) with ((u :: x) ++ v :: [u]).
  change (v :: h ++ u :: x ++ [v]) with ((v :: h) ++ u :: (x ++ [v])).
  rewrite (path_app (v :: h) u [v]), (path_app (u :: x) v [u]), (path_app (v :: h) u (x ++ [v])). cbn [app].
  change (path [u; v]) with [(u, v)]. change (path [v; u]) with [(v, u)]. rewrite <- !app_assoc. apply Permutation_app_head. cbn [app].
  change ((u, v) :: path (u :: x ++ [v]) ++ [(v, u)]) with ([(u, v)] ++ path (u :: x ++ [v]) ++ [(v, u)]). rewrite (app_assoc [(u, v)]).
  rewrite (Permutation_app_comm [(u, v)]), <- app_assoc. reflexivity.
Qed.
Lemma merged_inside n head cell merged u v h x : inside n head -> inside n cell ->
  rot head (v :: h ++ [u]) -> rot cell (u :: x ++ [v]) -> rot merged (v :: h ++ u :: x) -> inside n merged.
Proof.
  intros Ih Ic Rh Rc Rm. pose proof (inside_from n _ _ _ Ih Rh) as Sh. pose proof (inside_from n _ _ _ Ic Rc) as Sc.
  assert (Hn : forall y, In y (v :: h ++ u :: x) -> y < n).
  { intros y Hy. assert (K : In y (v :: h ++ [u]) \/ In y (u :: x ++ [v])).
    { destruct Hy as [<-|Hy]; [left; left; auto|]. apply in_app_or in Hy. destruct Hy as [Hy|[<-|Hy]]; [left; right; apply in_or_app; auto|right; left; auto|right; right; apply in_or_app; auto]. }
    destruct K as [K|K]; [apply (inside_lt n _ _ Ih), (Permutation_in _ (Permutation_sym (rot_perm _ _ Rh))); auto|
      apply (inside_lt n _ _ Ic), (Permutation_in _ (Permutation_sym (rot_perm _ _ Rc))); auto]. }
  apply (from_inside n merged v (h ++ u :: x)); auto.
  - rewrite (Permutation_length (rot_perm _ _ Rm)). destruct Ic as (Lc & _). rewrite (Permutation_length (rot_perm _ _ Rc)) in Lc. cbn in *. rewrite app_length in *. cbn in *. lia.
  - intros y Hy. apply Hn, (Permutation_in _ (rot_perm _ _ Rm)). auto.
  - change (v :: h ++ [u]) with ((v :: h) ++ [u]) in Sh. change (u :: x ++ [v]) with ((u :: x) ++ [v]) in Sc. change (v :: h ++ u :: x) with ((v :: h) ++ u :: x) in *.
    apply sorted_app in Sh, Sc. destruct Sh as (Sh1 & _ & Sh3). destruct Sc as (Sc1 & _ & Sc3).
    assert (Vn : v < n) by (apply Hn; left; auto). assert (Un : u < n) by (apply Hn, in_or_app; right; left; auto).
    assert (Kuv : key n v u <> 0). { specialize (Sh3 v u (or_introl eq_refl) (or_introl eq_refl)). cbn beta in Sh3. lia. }
    pose proof (key_lt n v u Vn Un) as Ku. pose proof (key_shift n v u v Vn Un Vn) as Ev. assert (K0 : key n v v = 0) by (unfold key; rewrite Nat.ltb_irrefl; lia). rewrite K0 in Ev.
    destruct (Nat.ltb_spec 0 (key n v u)) as [_|]; [|lia].
    assert (B : forall y, In y x -> y < n /\ key n u y < key n u v) by (intros y Hy; split; [apply Hn, in_or_app; right; right; auto|apply Sc3; cbn; auto]).
    assert (B' : forall y, In y x -> key n v u <= key n v y).
    { intros y Hy. destruct (B y Hy) as [Yn Ky]. rewrite (key_shift n v u y Vn Un Yn) in Ky. destruct (Nat.ltb_spec (key n v y) (key n v u)) as [L|L]; lia. }
    apply sorted_app. split; [auto|]. split.
    + eapply sorted_impl; [|exact Sc1]. cbn beta. intros y z Hy Hz L. assert (Yn : y < n) by (apply Hn, in_or_app; auto). assert (Zn : z < n) by (apply Hn, in_or_app; auto).
      assert (Ky : key n v u <= key n v y) by (destruct Hy as [<-|Hy]; auto). assert (Kz : key n v u <= key n v z) by (destruct Hz as [<-|Hz]; auto).
      rewrite (key_shift n v u y Vn Un Yn), (key_shift n v u z Vn Un Zn) in L.
      destruct (Nat.ltb_spec (key n v y) (key n v u)), (Nat.ltb_spec (key n v z) (key n v u)); lia.
    + intros y z Hy Hz. specialize (Sh3 y u Hy (or_introl eq_refl)). cbn beta in *. destruct Hz as [<-|Hz]; [auto|]. specialize (B' z Hz). lia.
Qed.
Lemma merged_common n head cell merged u v h x y : inside n merged -> rot head (v :: h ++ [u]) -> rot cell (u :: x ++ [v]) -> rot merged (v :: h ++ u :: x) ->
  In y head -> In y cell -> y = u \/ y = v.
Proof.
  intros Im Rh Rc Rm Hyh Hyc. pose proof (Permutation_NoDup (rot_perm _ _ Rm) (inside_nodup n _ Im)) as Dm'.
  apply (Permutation_in _ (rot_perm _ _ Rh)) in Hyh. apply (Permutation_in _ (rot_perm _ _ Rc)) in Hyc.
  destruct Hyh as [<-|Hyh]; auto. apply in_app_or in Hyh. destruct Hyh as [Hyh|[<-|[]]]; auto. destruct Hyc as [<-|Hyc]; auto. apply in_app_or in Hyc. destruct Hyc as [Hyc|[<-|[]]]; auto.
  exfalso. inversion Dm' as [|? ? _ D2]; subst. apply in_split in Hyc. destruct Hyc as (x1 & x2 & ->).
  change (h ++ u :: x1 ++ y :: x2) with (h ++ (u :: x1) ++ y :: x2) in D2. rewrite app_assoc in D2. apply NoDup_remove_2 in D2. apply D2. rewrite <- app_assoc. apply in_or_app. auto.
Qed.
Lemma merged_turns n convex head cell merged u v h x p q p' q' : inside n head -> inside n cell ->
  rot head (v :: h ++ [u]) -> rot cell (u :: x ++ [v]) -> rot merged (v :: h ++ u :: x) ->
  In (p, u) (edges head) -> In (v, q) (edges head) -> In (p', v) (edges cell) -> In (u, q') (edges cell) ->
  convex (p, u) (u, q') = true -> convex (p', v) (v, q) = true ->
  turns convex head -> turns convex cell -> turns convex merged.
Proof.
  intros Ih Ic Rh Rc Rm Hp Hq Hp' Hq' C1 C2 Th Tc a b c Hab Hbc. pose proof (merged_inside n _ _ _ _ _ _ _ Ih Ic Rh Rc Rm) as Im.
  pose proof (inside_nodup n _ Ih) as Dh. pose proof (inside_nodup n _ Ic) as Dc. pose proof (inside_nodup n _ Im) as Dm.
  pose proof (Permutation_NoDup (rot_perm _ _ Rm) Dm) as Dm'.
  pose proof (merged_edges _ _ _ _ _ _ _ Rh Rc Rm) as P.
  assert (Huv : In (u, v) (edges head)) by (apply (Permutation_in _ (Permutation_sym (edges_rot _ _ Rh))), edges_wrap).
  assert (Hvu : In (v, u) (edges cell)) by (apply (Permutation_in _ (Permutation_sym (edges_rot _ _ Rc))), edges_wrap).
  assert (Nuv : ~ In (u, v) (edges merged)).
  { intros K. destruct x as [|x0 x].
    - destruct Ic as (Lc & _). rewrite (Permutation_length (rot_perm _ _ Rc)) in Lc. cbn in Lc. lia.
    - assert (K0 : In (u, x0) (edges merged)) by (apply (Permutation_in _ (Permutation_sym (edges_rot _ _ Rm))); apply (edges_at (v :: h) x u x0)).
      rewrite (edges_next_unique _ _ _ _ Dm K K0) in Dm'. inversion Dm' as [|? ? N _]; subst. apply N, in_or_app. right. right. left. auto. }
  assert (Nvu : ~ In (v, u) (edges merged)).
  { intros K. destruct h as [|h0 h].
    - destruct Ih as (Lh & _). rewrite (Permutation_length (rot_perm _ _ Rh)) in Lh. cbn in Lh. lia.
    - assert (K0 : In (v, h0) (edges merged)) by (apply (Permutation_in _ (Permutation_sym (edges_rot _ _ Rm))); apply (edges_at [] (h ++ u :: x) v h0)).
      rewrite (edges_next_unique _ _ _ _ Dm K K0) in Dm'. inversion Dm' as [|? ? _ D2]; subst. inversion D2 as [|? ? N _]; subst. apply N, in_or_app. right. left. auto. }
  assert (Both : forall y, In y head -> In y cell -> y = u \/ y = v) by (intros y; apply (merged_common n head cell merged u v h x); auto).
  assert (From : forall e, In e (edges merged) -> In e (edges head) \/ In e (edges cell)).
  { intros e He. apply in_app_or. apply (Permutation_in _ (Permutation_sym P)). apply in_or_app. auto. }
  destruct (From _ Hab) as [A|A], (From _ Hbc) as [B|B].
  - apply Th; auto.
  - destruct (Both b (edges_in_r _ _ _ A) (edges_in_l _ _ _ B)) as [->| ->].
    + rewrite (edges_prev_unique _ _ _ _ Dh A Hp), (edges_next_unique _ _ _ _ Dc B Hq'). auto.
    + exfalso. rewrite (edges_next_unique _ _ _ _ Dc B Hvu) in Hbc. auto.
  - destruct (Both b (edges_in_l _ _ _ B) (edges_in_r _ _ _ A)) as [->| ->].
    + exfalso. rewrite (edges_next_unique _ _ _ _ Dh B Huv) in Hbc. auto.
    + rewrite (edges_prev_unique _ _ _ _ Dc A Hp'), (edges_next_unique _ _ _ _ Dh B Hq). auto.
  - apply Tc; auto.
Qed.
