(** The traversal of a divided polygon *)
From Coq Require Import List Bool Arith Sorted Permutation Lia.
From Verif Require Import PartitionModel PartitionSpec PartitionLists PartitionMerge.
Import ListNotations.

Lemma ring_iff n a b : 0 < n -> In (a, b) (edges (seq 0 n)) <-> a < n /\ b = (if S a =? n then 0 else S a).
Proof.
  intros Hn. assert (E : forall k s t, In (a, b) (combine (seq s k) (seq (S s) (k - 1) ++ [t])) <-> s <= a < s + k /\ b = if S a =? s + k then t else S a).
  { induction k as [|k IH]; intros s t; [cbn; split; [easy|lia]|]. cbn [seq]. replace (S k - 1) with k by lia. destruct k as [|k].
    - cbn. split.
      + intros [E|[]]. injection E as <- <-. rewrite Nat.add_1_r, Nat.eqb_refl. split; [lia|auto].
      + intros [L E]. assert (a = s) by lia. subst a. rewrite Nat.add_1_r, Nat.eqb_refl in E. left. congruence.
    - cbn [seq app combine In]. specialize (IH (S s) t). replace (S k - 1) with k in IH by lia. cbn [seq] in IH. rewrite IH. replace (S s + S k) with (s + S (S k)) by lia. split.
      + intros [E|[L E]]; [|split; [lia|auto]]. injection E as <- <-. split; [lia|]. destruct (Nat.eqb_spec (S s) (s + S (S k))); [lia|auto].
      + intros [L E]. destruct (Nat.eq_dec a s) as [->|]; [left|right; split; [lia|auto]]. destruct (Nat.eqb_spec (S s) (s + S (S k))); [lia|]. congruence. }
  unfold edges. destruct n as [|n]; [lia|]. specialize (E (S n) 0 0). cbn [Nat.add] in E. replace (S n - 1) with n in E by lia. cbn [seq tl firstn] in *. rewrite E. split; intros [? ?]; split; auto; lia.
Qed.
Lemma is_border_iff n a b : 3 <= n -> a < n -> b < n -> is_border (a, b) n = true <-> outer n (a, b).
Proof.
  intros Hn Ha Hb. unfold outer, turned. cbn [fst snd]. rewrite !ring_iff by lia. unfold is_border. cbn [fst snd].
  destruct (Nat.ltb_spec b a); (destruct (Nat.eqb_spec (S a) n), (Nat.eqb_spec (S b) n);
  repeat match goal with |- context [?x =? ?y] => destruct (Nat.eqb_spec x y) end; cbn [orb andb]); split; intros; try congruence; try lia.
Qed.
Lemma same_segment_iff s t : same_segment s t = true <-> s = t.
Proof. destruct s, t. unfold same_segment. cbn. rewrite andb_true_iff, !Nat.eqb_eq. split; [intros [-> ->]; auto|intros E; injection E; auto]. Qed.
Lemma existsb_segment e l : existsb (same_segment e) l = true <-> In e l.
Proof.
  rewrite existsb_exists. split; [intros (x & H & E); apply same_segment_iff in E; subst; auto|intros H; exists e; split; auto; apply same_segment_iff; auto].
Qed.
Lemma except_iff l g e : In e (segments_except l g) <-> In e (edges l) /\ e <> g /\ e <> turned g.
Proof.
  unfold segments_except. rewrite filter_In, segments_eq, andb_true_iff, !negb_true_iff. change (flip g) with (turned g).
  assert (K : forall s, same_segment e s = false <-> e <> s).
  { intros s. pose proof (same_segment_iff e s). destruct (same_segment e s); intuition congruence. }
  rewrite !K. tauto.
Qed.
Lemma owner_some cs i s j : owner_from i cs s = Some j -> exists c, i <= j /\ nth_error cs (j - i) = Some c /\ In (turned s) (edges c).
Proof.
  revert i. induction cs as [|c cs IH]; intros i H; [discriminate|]. cbn [owner_from] in H. destruct (existsb _ _) eqn:E.
  - injection H as <-. exists c. rewrite Nat.sub_diag. apply existsb_segment in E. rewrite segments_eq in E. auto.
  - destruct (IH _ H) as (d & L & N & K). exists d. split; [lia|]. split; auto. replace (j - i) with (S (j - S i)) by lia. auto.
Qed.
Lemma owner_none cs i s k c : owner_from i cs s = None -> nth_error cs k = Some c -> ~ In (turned s) (edges c).
Proof.
  revert i k. induction cs as [|d cs IH]; intros i k H N; [destruct k; discriminate|]. cbn [owner_from] in H. destruct (existsb _ _) eqn:E; [discriminate|].
  destruct k as [|k]; cbn in N; [injection N as ->; intros K|eapply IH; eauto]. rewrite <- not_true_iff_false in E. apply E, existsb_segment. rewrite segments_eq. auto.
Qed.

Lemma NoDup_app_intro {A} (l1 l2 : list A) : NoDup l1 -> NoDup l2 -> (forall x, In x l1 -> In x l2 -> False) -> NoDup (l1 ++ l2).
Proof.
  intros D1 D2 H. induction D1 as [|x l1 N D1 IH]; cbn; auto. constructor.
  - intros K. apply in_app_or in K. destruct K as [K|K]; auto. apply (H x); cbn; auto.
  - apply IH. intros y Hy. apply H. cbn. auto.
Qed.
Lemma NoDup_app_remove_r {A} (l1 l2 : list A) : NoDup (l1 ++ l2) -> NoDup l1.
Proof.
  intros D. induction l1 as [|x l1 IH]; [constructor|]. inversion D as [|? ? N D']; subst. constructor; auto. intros K. apply N, in_or_app. auto.
Qed.
Lemma Forall2_swap {A B} (P : A -> B -> Prop) l m : Forall2 P l m -> Forall2 (fun b a => P a b) m l.
Proof. intros H. induction H; constructor; auto. Qed.
Lemma edge_dec (e f : nat * nat) : {e = f} + {e <> f}. Proof. repeat decide equality. Qed.

Section Traversal.
Variable cells : list (list nat).
Variable n : nat.
Variable convex : nat * nat -> nat * nat -> bool.
Variable order : list connection -> list connection.
Hypothesis order_perm : forall l, Permutation (order l) l.
Hypothesis n_three : 3 <= n.
Hypothesis div : divided cells n.

Notation at_cell i c := (nth_error cells i = Some c).
Notation destination := (destination cells).
Notation polygon_by_index := (polygon_by_index cells).

Lemma destination_ok g j d : at_cell j d -> In (turned g) (edges d) -> destination g = Ok j.
Proof.
  intros N H. unfold PartitionModel.destination. destruct (owner_from 0 cells g) as [k|] eqn:E.
  - apply owner_some in E. destruct E as (c & _ & Nc & K). rewrite Nat.sub_0_r in Nc. f_equal. exact (edges_once _ _ div k c j d _ Nc N K H).
  - destruct (owner_none _ _ _ _ _ E N H).
Qed.

Definition valid (g : nat * nat) : Prop := exists i c, reached cells n i /\ at_cell i c /\ In g (edges c).
Lemma valid_next g : valid g -> ~ outer n g -> exists j d, reached cells n j /\ at_cell j d /\ In (turned g) (edges d) /\ inside n d.
Proof.
  intros (i & c & R & N & H) Ho. destruct (cells_adjacent _ _ div i c g R N H Ho) as (j & d & Nj & Hd). exists j, d.
  assert (Rj : reached cells n j) by (apply (reached_next cells n i c g j d); auto). split; auto. split; auto. split; auto. apply (cells_inside _ _ div j); auto.
Qed.
Lemma valid_border g : valid g -> is_border g n = true <-> outer n g.
Proof.
  intros (i & c & R & N & H). pose proof (cells_inside _ _ div i c R N) as I. destruct g as [a b].
  apply is_border_iff; auto; [exact (inside_lt n _ _ I (edges_in_l _ _ _ H))|exact (inside_lt n _ _ I (edges_in_r _ _ _ H))].
Qed.
Lemma border_dec g : valid g -> outer n g \/ ~ outer n g.
Proof. intros V. pose proof (valid_border g V) as K. destruct (is_border g n); [left|right]; intuition discriminate. Qed.

(** The polygons behind a directed edge *)
Inductive beh : nat * nat -> nat -> Prop :=
| beh_here g x c : ~ outer n g -> at_cell x c -> In (turned g) (edges c) -> beh g x
| beh_deep g d c e x : ~ outer n g -> at_cell d c -> In (turned g) (edges c) -> In e (edges c) -> e <> turned g -> beh e x -> beh g x.
Lemma beh_span g x : beh g x -> valid g -> reached cells n x /\ forall c, at_cell x c -> forall y, In y c -> key n (fst g) y <= key n (fst g) (snd g).
Proof.
  intros H. induction H as [g x c Ho N H|g d c e x Ho N H He Hne Hb IH]; intros V.
  - destruct V as (i & c' & R & N' & H'). assert (R' : reached cells n x) by (apply (reached_next cells n i c' g x c); auto). split; auto.
    intros c1 N1 y Hy. rewrite N in N1. injection N1 as <-. destruct g as [a b]. apply (edge_span n c); auto. apply (cells_inside _ _ div x); auto.
  - destruct V as (i & c' & R & N' & H'). assert (R' : reached cells n d) by (apply (reached_next cells n i c' g d c); auto).
    pose proof (cells_inside _ _ div d c R' N) as I.
    destruct IH as [Rx IH]; [exists d, c; auto|]. split; auto. intros c1 N1 y Hy. specialize (IH c1 N1 y Hy).
    destruct g as [a b], e as [p q]. cbn [fst snd turned] in *. destruct (edge_deeper n c a b p q I H He Hne) as [_ K]. apply K; auto.
    apply (inside_lt n c1); auto. apply (cells_inside _ _ div x); auto.
Qed.
Lemma beh_cell g x : beh g x -> exists c, at_cell x c.
Proof. intros H. induction H; eauto. Qed.
Lemma beh_disjoint i c e e' x : reached cells n i -> at_cell i c -> In e (edges c) -> In e' (edges c) -> beh e x -> beh e' x -> e = e'.
Proof.
  intros R N He He' H H'. destruct e as [a b], e' as [p q]. pose proof (cells_inside _ _ div i c R N) as I.
  assert (D : {(a, b) = (p, q)} + {(a, b) <> (p, q)}) by (repeat decide equality). destruct D as [|D]; auto. exfalso.
  destruct (beh_cell _ _ H) as (cx & Nx). destruct (beh_span _ _ H ltac:(exists i, c; auto)) as [Rx K]. destruct (beh_span _ _ H' ltac:(exists i, c; auto)) as [_ K'].
  pose proof (cells_inside _ _ div x cx Rx Nx) as Ix. destruct (inside_third n cx a b Ix) as (y & Hy & Ya & Yb).
  destruct (edges_disjoint n c a b p q y I He He' D (inside_lt n _ _ Ix Hy) (K _ Nx _ Hy) (K' _ Nx _ Hy)); auto.
Qed.
Lemma beh_own i c e : reached cells n i -> at_cell i c -> In e (edges c) -> ~ beh e i.
Proof.
  intros R N He H. destruct e as [a b]. pose proof (cells_inside _ _ div i c R N) as I. destruct (beh_span _ _ H ltac:(exists i, c; auto)) as [_ K].
  destruct (inside_third n c a b I) as (y & Hy & Ya & Yb). specialize (K _ N _ Hy). cbn [fst snd] in K. pose proof (edge_gap n c a b y I He Hy Ya) as G.
  apply Yb. apply (key_inj n a); try (apply (inside_lt n c); auto); [apply (edges_in_l _ _ _ He)|apply (edges_in_r _ _ _ He)|lia].
Qed.

Definition cell (i : nat) : list nat := nth i cells [].
Lemma cell_eq i c : at_cell i c -> cell i = c.
Proof. intros H. unfold cell. apply nth_error_nth. auto. Qed.
Notation cell_edges A := (flat_map edges (map cell A)).
Definition glue (h : list nat) (A : list nat) (h' : list nat) : Prop :=
  exists inner, Permutation (edges h ++ cell_edges A) (edges h' ++ inner ++ map turned inner).
Definition group (A : list nat) (p : list nat) : Prop := exists inner, Permutation (cell_edges A) (edges p ++ inner ++ map turned inner).
Definition covers (S : list nat) (gates : list (nat * nat)) : Prop := NoDup S /\ forall x, In x S <-> exists g, In g gates /\ beh g x.
Definition all_turns : Prop := forall i c, reached cells n i -> at_cell i c -> turns convex c.

Lemma glue_refl h : glue h [] h.
Proof. exists []. cbn. rewrite !app_nil_r. auto. Qed.
Lemma map_turned_app a b : map turned (a ++ b) = map turned a ++ map turned b. Proof. apply map_app. Qed.
Lemma cell_edges_app a b : cell_edges (a ++ b) = cell_edges a ++ cell_edges b.
Proof. rewrite map_app, flat_map_app. auto. Qed.
Lemma pair_perm (X i j : list (nat * nat)) :
  Permutation ((X ++ i ++ map turned i) ++ j ++ map turned j) (X ++ (i ++ j) ++ map turned (i ++ j)).
Proof.
  rewrite map_turned_app, <- !app_assoc. apply Permutation_app_head, Permutation_app_head. rewrite !app_assoc. apply Permutation_app_tail. apply Permutation_app_comm.
Qed.
Lemma glue_trans h A h1 B h2 : glue h A h1 -> glue h1 B h2 -> glue h (A ++ B) h2.
Proof.
  intros [i Pi] [j Pj]. exists (j ++ i). rewrite cell_edges_app, app_assoc, Pi, <- pair_perm, <- Pj.
  rewrite <- !app_assoc. apply Permutation_app_head. rewrite (app_assoc i). apply Permutation_app_comm.
Qed.
Lemma glue_group i c A h : at_cell i c -> glue c A h -> group (i :: A) h.
Proof. intros N [inner P]. exists inner. cbn [map flat_map]. rewrite (cell_eq i c N). auto. Qed.
Lemma covers_app S1 S2 g1 g2 : covers S1 g1 -> covers S2 g2 -> (forall x a b, In a g1 -> In b g2 -> beh a x -> beh b x -> False) -> covers (S1 ++ S2) (g1 ++ g2).
Proof.
  intros [D1 C1] [D2 C2] Hd. split.
  - clear -D1 D2 C1 C2 Hd. assert (K : forall x, In x S1 -> ~ In x S2).
    { intros x H1 H2. apply C1 in H1. apply C2 in H2. destruct H1 as (a & Ha & Ba), H2 as (b & Hb & Bb). eauto. }
    clear -D1 D2 K. induction D1 as [|x l N D IH]; cbn; auto. constructor.
    + intros H. apply in_app_or in H. destruct H as [H|H]; auto. apply (K x); cbn; auto.
    + apply IH. intros y Hy. apply K. cbn. auto.
  - intros x. rewrite in_app_iff, C1, C2. split.
    + intros [(g & H & B)|(g & H & B)]; exists g; (split; [apply in_or_app; auto|auto]).
    + intros (g & H & B). apply in_app_or in H. destruct H as [H|H]; [left|right]; eauto.
Qed.
Lemma covers_perm S S' g g' : Permutation S S' -> (forall a, In a g <-> In a g') -> covers S g -> covers S' g'.
Proof.
  intros P Pg [D C]. split; [eapply Permutation_NoDup; eauto|]. intros x. split.
  - intros H. apply (Permutation_in _ (Permutation_sym P)), C in H. destruct H as (a & Ha & B). exists a. rewrite <- Pg. auto.
  - intros (a & Ha & B). apply (Permutation_in _ P), C. exists a. rewrite Pg. auto.
Qed.
Lemma covers_nil : covers [] [].
Proof. split; [constructor|]. intros x. split; [intros []|intros (g & [] & _)]. Qed.
(** Entering a polygon behind a gate *)
Lemma covers_enter g d c S : reached cells n d -> at_cell d c -> In (turned g) (edges c) -> ~ outer n g ->
  covers S (segments_except c g) -> covers (d :: S) [g].
Proof.
  intros R N H Ho [D C]. split.
  - constructor; auto. intros K. apply C in K. destruct K as (e & He & B). apply except_iff in He. destruct He as (He & _). exact (beh_own d c e R N He B).
  - intros x. split.
    + intros [<-|K]; exists g; (split; [left; auto|]); [apply (beh_here g d c); auto|]. apply C in K. destruct K as (e & He & B). apply except_iff in He. destruct He as (He & _ & Hne).
      apply (beh_deep g d c e); auto.
    + intros (g' & [<-|[]] & B). inversion B as [? ? c' ? N' H'|? d' c' e ? ? N' H' He Hne B']; subst.
      * left. exact (edges_once _ _ div d c x c' _ N N' H H').
      * right. pose proof (edges_once _ _ div d c d' c' _ N N' H H') as <-. rewrite N in N'. injection N' as <-. apply C. exists e. split; auto. apply except_iff.
        split; auto. split; auto. intros ->. destruct g as [a b]. exact (no_both n c a b (cells_inside _ _ div d c R N) He H).
Qed.

(** What a traversal of [gates] makes of [head]: the polygons behind the gates are absorbed by the head or form other parts. *)
Definition result (head : list nat) (gates : list (nat * nat)) (ps : list (list nat)) (vs : list nat) (own : list (list nat)) (s : state) : Prop :=
  exists A B np0 np,
    inside n (poly s) /\ parts s = ps ++ np /\ Permutation np (own ++ np0) /\ Forall2 group B np0 /\ Forall (inside n) np0 /\
    covers (A ++ concat B) gates /\ glue head A (poly s) /\
    (forall e, In e (edges head) -> ~ In e gates -> In e (edges (poly s))) /\
    (forall x, In x (visited s) -> In x vs \/ exists g, In g gates /\ beh g x) /\
    (all_turns -> turns convex head -> turns convex (poly s) /\ Forall (turns convex) np0).
Definition ready (fuel : nat) (head : list nat) (i : nat) (c : list nat) (gates : list (nat * nat)) (vs : list nat) : Prop :=
  0 < fuel /\ inside n head /\ reached cells n i /\ at_cell i c /\ NoDup gates /\
  (forall g, In g gates -> In g (edges c) /\ In g (edges head) /\ key n (fst g) (snd g) < fuel) /\
  (forall x g, In x vs -> In g gates -> ~ beh g x).
Lemma result_nil s : inside n (poly s) -> result (poly s) [] (parts s) (visited s) [] s.
Proof.
  intros H. exists [], [], [], []. rewrite app_nil_r. split; [auto|]. split; [auto|]. split; [auto|]. split; [constructor|]. split; [constructor|].
  split; [apply covers_nil|]. split; [apply glue_refl|]. split; [auto|]. split; [auto|]. intros; split; auto.
Qed.
Lemma result_app h g1 g2 ps vs s1 s2 : result h g1 ps vs [] s1 -> result (poly s1) g2 (parts s1) (visited s1) [] s2 ->
  (forall x a b, In a g1 -> In b g2 -> beh a x -> beh b x -> False) -> result h (g1 ++ g2) ps vs [] s2.
Proof.
  intros (A & B & m0 & m & I1 & P1 & Q1 & G1 & J1 & C1 & L1 & K1 & V1 & T1) (A' & B' & m0' & m' & I2 & P2 & Q2 & G2 & J2 & C2 & L2 & K2 & V2 & T2) Hd.
  exists (A ++ A'), (B ++ B'), (m0 ++ m0'), (m ++ m'). split; [auto|]. split; [rewrite P2, P1, app_assoc; auto|]. split; [cbn in *; apply Permutation_app; auto|].
  split; [apply Forall2_app; auto|]. split; [apply Forall_app; auto|]. split; [|split; [eapply glue_trans; eauto|split; [|split]]].
  - eapply covers_perm; [| |apply (covers_app _ _ _ _ C1 C2 Hd)]; [|tauto]. rewrite concat_app, <- !app_assoc. apply Permutation_app_head. rewrite !app_assoc. apply Permutation_app_tail, Permutation_app_comm.
  - intros e He Hn. apply K2; [apply K1; auto|]; intros K; apply Hn, in_or_app; auto.
  - intros x Hx. destruct (V2 x Hx) as [H|(g & Hg & Hb)]; [destruct (V1 x H) as [H'|(g & Hg & Hb)]; auto|]; right; exists g; (split; [apply in_or_app; auto|auto]).
  - intros HT Hh. destruct (T1 HT Hh) as [H1 F1]. destruct (T2 HT H1) as [H2 F2]. split; auto. apply Forall_app. auto.
Qed.
Lemma result_perm h g g' ps vs own s : (forall a, In a g <-> In a g') -> result h g ps vs own s -> result h g' ps vs own s.
Proof.
  intros E (A & B & m0 & m & I1 & P1 & Q1 & G1 & J1 & C1 & L1 & K1 & V1 & T1). exists A, B, m0, m. repeat (split; [solve [auto]|]). split; [|split; [auto|split; [|split; [|auto]]]].
  - apply (covers_perm (A ++ concat B) (A ++ concat B) g g'); auto.
  - intros e He Hn. apply K1; auto. rewrite E. auto.
  - intros x Hx. destruct (V1 x Hx) as [|(a & Ha & Hb)]; auto. right. exists a. rewrite <- E. auto.
Qed.
(** Border edges can be added. *)
Lemma result_border h g g' ps vs own s : (forall a, In a g -> In a g') -> (forall a, In a g' -> ~ In a g -> outer n a) -> result h g ps vs own s -> result h g' ps vs own s.
Proof.
  intros E O (A & B & m0 & m & I1 & P1 & Q1 & G1 & J1 & C1 & L1 & K1 & V1 & T1). exists A, B, m0, m. repeat (split; [solve [auto]|]). split; [|split; [auto|split; [|split; [|auto]]]].
  - destruct C1 as [D C]. split; auto. intros x. rewrite C. split; [intros (a & Ha & Hb); exists a; auto|]. intros (a & Ha & Hb). exists a. split; auto.
    destruct (in_dec edge_dec a g) as [|N]; auto. specialize (O a Ha N). inversion Hb; contradiction.
  - intros e He Hn. apply K1; auto.
  - intros x Hx. destruct (V1 x Hx) as [|(a & Ha & Hb)]; auto. right. exists a. auto.
Qed.

Definition conn_ok (fuel : nat) (c0 : list nat) (k : connection) : Prop :=
  In (c_border k) (edges c0) /\ ~ outer n (c_border k) /\ key n (fst (c_border k)) (snd (c_border k)) < S fuel /\
  exists d, at_cell (c_new k) d /\ In (turned (c_border k)) (edges d) /\ adjacent d (c_border k) = Ok (c_first k, c_second k).

Section Loop.
Variable fuel : nat.
Variable recurse : list nat -> list segment -> bool -> list (list nat) -> list nat -> outcome state.
Hypothesis recurse_ok : forall head i c gates origin ps vs, ready fuel head i c gates vs ->
  exists s, recurse head gates origin ps vs = Ok s /\ result head gates ps vs (if origin then [poly s] else []) s.
Variable i0 : nat.
Variable c0 : list nat.
Hypothesis i0_reached : reached cells n i0.
Hypothesis i0_cell : at_cell i0 c0.

Lemma conn_reached k : conn_ok fuel c0 k -> reached cells n (c_new k).
Proof. intros (H & O & _ & d & N & K & _). apply (reached_next cells n i0 c0 (c_border k) (c_new k) d); auto. Qed.
Lemma conn_beh k : conn_ok fuel c0 k -> beh (c_border k) (c_new k).
Proof. intros (H & O & _ & d & N & K & _). apply (beh_here _ _ d); auto. Qed.
Lemma conn_unvisited k vs : conn_ok fuel c0 k -> (forall x, In x vs -> ~ beh (c_border k) x) -> existsb (Nat.eqb (c_new k)) vs = false.
Proof.
  intros C H. apply not_true_iff_false. intros E. apply existsb_exists in E. destruct E as (x & Hx & E). apply Nat.eqb_eq in E. subst x. apply (H _ Hx), conn_beh; auto.
Qed.
Lemma except_nodup d g : inside n d -> NoDup (segments_except d g).
Proof. intros H. apply NoDup_filter. rewrite segments_eq. apply nodup_edges, (inside_nodup n). auto. Qed.
(** What holds behind the gate *)
Lemma conn_ready k d head vs : conn_ok fuel c0 k -> at_cell (c_new k) d -> inside n head ->
  (forall e, In e (segments_except d (c_border k)) -> In e (edges head)) ->
  (forall x, In x vs -> x = c_new k \/ ~ beh (c_border k) x) -> ready fuel head (c_new k) d (segments_except d (c_border k)) vs.
Proof.
  intros C N I He Hv. pose proof (conn_reached k C) as R. destruct C as (H & O & W & d' & N' & K & _). rewrite N in N'. injection N' as <-.
  pose proof (cells_inside _ _ div _ _ R N) as Id.
  assert (Hd : forall g, In g (edges d) -> g <> turned (c_border k) -> key n (fst g) (snd g) < fuel).
  { intros [p q] Hg Hne. destruct (c_border k) as [a b]. cbn [fst snd] in *. destruct (edge_deeper n d a b p q Id K Hg Hne) as [L _]. lia. }
  split; [|split; [auto|split; [auto|split; [auto|split; [apply except_nodup; auto|split]]]]].
  - destruct (c_border k) as [a b]. destruct (edges_rot_end d b a ltac:(destruct Id; lia) K) as (m & Rm). destruct m as [|x m].
    + destruct Id as (L & _). rewrite (Permutation_length (rot_perm _ _ Rm)) in L. cbn in L. lia.
    + assert (Hx : In (a, x) (edges d)) by (apply (Permutation_in _ (Permutation_sym (edges_rot _ _ Rm))); apply (edges_at [] (m ++ [b]) a x)).
      specialize (Hd (a, x) Hx). enough (key n a x < fuel) by lia. apply Hd. intros E. injection E as -> ->. pose proof (inside_nodup n _ Id) as Dd. apply (Permutation_NoDup (rot_perm _ _ Rm)) in Dd. inversion Dd as [|? ? Nx _]; subst. apply Nx. left. auto.
  - intros g Hg. split; [apply except_iff in Hg; tauto|]. split; [auto|]. apply except_iff in Hg. apply Hd; tauto.
  - intros x g Hx Hg Hb. apply except_iff in Hg. destruct Hg as (Hg & _ & Hne). destruct (Hv x Hx) as [->|Hn].
    + exact (beh_own _ _ _ R N Hg Hb).
    + apply Hn. apply (beh_deep _ (c_new k) d g); auto.
Qed.

Lemma open_step k s d merged h x p q : conn_ok fuel c0 k -> at_cell (c_new k) d -> inside n (poly s) -> In (c_border k) (edges (poly s)) ->
  (forall y, In y (visited s) -> ~ beh (c_border k) y) ->
  rot (poly s) (snd (c_border k) :: h ++ [fst (c_border k)]) -> rot d (fst (c_border k) :: x ++ [snd (c_border k)]) ->
  rot merged (snd (c_border k) :: h ++ fst (c_border k) :: x) ->
  In (p, fst (c_border k)) (edges (poly s)) -> In (snd (c_border k), q) (edges (poly s)) ->
  connection_convex convex ((fst (c_border k), p), (snd (c_border k), q)) (c_first k, c_second k) = true ->
  exists s', recurse merged (segments_except d (c_border k)) false (parts s) (c_new k :: visited s) = Ok s' /\
    result (poly s) [c_border k] (parts s) (visited s) [] s'.
Proof.
  intros C N I Hb Hv Rh Rd Rm Hp Hq Hc. pose proof (conn_reached k C) as R. pose proof (cells_inside _ _ div _ _ R N) as Id.
  pose proof (merged_inside n _ _ _ _ _ _ _ I Id Rh Rd Rm) as Im. pose proof (merged_edges _ _ _ _ _ _ _ Rh Rd Rm) as P.
  assert (Hm : forall e, In e (edges (poly s)) \/ In e (edges d) -> e <> c_border k -> e <> turned (c_border k) -> In e (edges merged)).
  { intros e He N1 N2. apply in_or_app in He. apply (Permutation_in _ P) in He. apply in_app_or in He. destruct He as [He|[He|[He|[]]]]; auto; subst e; destruct (c_border k); contradiction. }
  destruct (recurse_ok merged (c_new k) d (segments_except d (c_border k)) false (parts s) (c_new k :: visited s)) as (s' & E & Res).
  { apply conn_ready; auto.
    - intros e He. apply except_iff in He. apply Hm; tauto.
    - intros y [<-|Hy]; auto. }
  exists s'. split; auto. destruct C as (Hb0 & O & W & d' & N' & K & Adj). rewrite N in N'. injection N' as <-.
  destruct Res as (A & B & m0 & m & I1 & P1 & Q1 & G1 & J1 & C1 & L1 & K1 & V1 & T1). exists (c_new k :: A), B, m0, m.
  split; [auto|]. split; [auto|]. split; [auto|]. split; [auto|]. split; [auto|]. split; [apply (covers_enter _ _ d); auto|]. split; [|split; [|split]].
  - destruct L1 as [inner PL]. exists (inner ++ [c_border k]). cbn [map flat_map]. rewrite (cell_eq _ _ N), <- pair_perm, <- PL, app_assoc, P. rewrite <- !app_assoc. apply Permutation_app_head.
    rewrite Permutation_app_comm. apply Permutation_app_head. destruct (c_border k); reflexivity.
  - intros e He Hn. apply K1; [apply Hm; auto|].
    + intros ->. apply Hn. left. auto.
    + intros ->. destruct (c_border k) as [a b]. exact (no_both n _ a b I Hb He).
    + intros Hx. apply except_iff in Hx. destruct Hx as (Hx & N1 & N2). destruct e as [a b], (c_border k) as [u v]. cbn [fst snd turned] in *.
      unfold turned in N2. cbn [fst snd] in N2. pose proof (edge_distinct n _ _ _ Id Hx) as Hab.
      destruct (merged_common n _ _ _ _ _ _ _ a Im Rh Rd Rm (edges_in_l _ _ _ He) (edges_in_l _ _ _ Hx)) as [->| ->],
        (merged_common n _ _ _ _ _ _ _ b Im Rh Rd Rm (edges_in_r _ _ _ He) (edges_in_r _ _ _ Hx)) as [->| ->]; congruence.
  - intros y Hy. destruct (V1 y Hy) as [[<-|Hy']|(g & Hg & Hbg)]; [|auto|].
    + right. exists (c_border k). split; [left; auto|]. apply (beh_here _ _ d); auto.
    + right. exists (c_border k). split; [left; auto|]. apply except_iff in Hg. apply (beh_deep _ (c_new k) d g); tauto.
  - intros HT Hh. apply T1; auto. pose proof (HT _ _ R N) as Td. destruct (c_border k) as [u v]. cbn [fst snd turned] in *.
    destruct (adjacent_edge d v u (inside_nodup n _ Id) ltac:(destruct Id; auto) K) as (p' & q' & _ & Ea & Hp' & Hq'). rewrite Ea in Adj. injection Adj as E1 E2. rewrite <- E1, <- E2 in Hc.
    unfold connection_convex, flip in Hc. cbn [fst snd] in Hc. apply andb_true_iff in Hc. destruct Hc as [Hc1 Hc2].
    apply (merged_turns n convex (poly s) d merged u v h x p q p' q'); auto.
Qed.
Lemma open_loop_ok cs : forall s closed, Forall (conn_ok fuel c0) cs -> inside n (poly s) -> (forall k, In k cs -> In (c_border k) (edges (poly s))) ->
  NoDup (map c_border cs) -> (forall y k, In y (visited s) -> In k cs -> ~ beh (c_border k) y) ->
  exists s' op cl, open_loop cells convex recurse cs s closed = Ok (s', closed ++ cl) /\ Permutation cs (op ++ cl) /\
    result (poly s) (map c_border op) (parts s) (visited s) [] s'.
Proof.
  induction cs as [|k cs IH]; intros s closed F I Hb D V.
  - exists s, [], []. rewrite app_nil_r. split; [auto|]. split; [auto|]. apply result_nil; auto.
  - inversion F as [|? ? Ck Fk]; inversion D as [|? ? Nk Dk]; subst. cbn [open_loop]. rewrite (conn_unvisited k (visited s) Ck) by (intros x Hx; apply V; cbn; auto).
    pose proof Ck as (Hb0 & O & W & d & N & K & Adj). pose proof (conn_reached k Ck) as R. pose proof (cells_inside _ _ div _ _ R N) as Id.
    assert (Hbk : In (c_border k) (edges (poly s))) by (apply Hb; cbn; auto).
    pose proof (inside_nodup n _ I) as Dp. pose proof (inside_nodup n _ Id) as Dd.
    assert (Ha : exists p q, adjacent (poly s) (c_border k) = Ok ((fst (c_border k), p), (snd (c_border k), q)) /\ In (p, fst (c_border k)) (edges (poly s)) /\ In (snd (c_border k), q) (edges (poly s))).
    { destruct (c_border k) as [u v]. destruct (adjacent_edge (poly s) u v Dp ltac:(destruct I; auto) Hbk) as (p & q & E & _ & Hp & Hq). exists p, q. auto. }
    destruct Ha as (p & q & Ea & Hp & Hq). rewrite Ea. cbn [bind].
    destruct (connection_convex convex (fst (c_border k), p, (snd (c_border k), q)) (c_first k, c_second k)) eqn:Ec.
    + unfold PartitionModel.polygon_by_index. rewrite N. cbn [bind].
      assert (Hm : exists merged h x, merge (poly s) d (c_border k) = Ok (merged, segments_except d (c_border k)) /\ rot (poly s) (snd (c_border k) :: h ++ [fst (c_border k)]) /\
        rot d (fst (c_border k) :: x ++ [snd (c_border k)]) /\ rot merged (snd (c_border k) :: h ++ fst (c_border k) :: x)).
      { destruct (c_border k) as [u v]. apply merge_edge; auto; [destruct I; auto|destruct Id; auto]. }
      destruct Hm as (merged & h & x & Em & Rh & Rd & Rm). rewrite Em. cbn [bind].
      destruct (open_step k s d merged h x p q Ck N I Hbk ltac:(intros y Hy; apply V; cbn; auto) Rh Rd Rm Hp Hq Ec) as (s1 & E1 & Res1). rewrite E1. cbn [bind].
      destruct (IH s1 closed Fk) as (s' & op & cl & E' & P' & Res'); auto.
      * destruct Res1 as (A & B & m0 & m & I1 & _). auto.
      * intros k' Hk'. destruct Res1 as (A & B & m0 & m & I1 & P1 & Q1 & G1 & J1 & C1 & L1 & K1 & V1 & T1). apply K1; [apply Hb; cbn; auto|].
        intros [E|[]]. apply Nk. rewrite E. apply in_map. auto.
      * intros y k' Hy Hk' Hbeh. destruct Res1 as (A & B & m0 & m & I1 & P1 & Q1 & G1 & J1 & C1 & L1 & K1 & V1 & T1).
        destruct (V1 y Hy) as [Hv|(g & [<-|[]] & Hg)]; [apply (V y k' Hv); cbn; auto|].
        apply Nk. rewrite Forall_forall in Fk. destruct (Fk k' Hk') as (Hb' & _). rewrite (beh_disjoint i0 c0 _ _ y i0_reached i0_cell Hb0 Hb' Hg Hbeh). apply in_map. auto.
      * exists s', (k :: op), cl. split; [auto|]. split; [cbn; constructor; auto|]. cbn [map].
        apply (result_app (poly s) [c_border k] (map c_border op) (parts s) (visited s) s1 s'); auto.
        intros y a b [<-|[]] Hb' Ba Bb. apply in_map_iff in Hb'. destruct Hb' as (k' & <- & Hk'). assert (Hin : In k' cs) by (eapply Permutation_in; [symmetry; eauto|apply in_or_app; auto]).
        rewrite Forall_forall in Fk. destruct (Fk k' Hin) as (Hb' & _). apply Nk. rewrite (beh_disjoint i0 c0 _ _ y i0_reached i0_cell Hb0 Hb' Ba Bb). apply in_map. auto.
    + destruct (IH s (closed ++ [k]) Fk I) as (s' & op & cl & E' & P' & Res'); auto.
      * intros k' Hk'. apply Hb. cbn. auto.
      * intros y k' Hy Hk'. apply V; cbn; auto.
      * exists s', op, (k :: cl). split; [rewrite E', <- app_assoc; auto|]. split; [|auto]. apply Permutation_cons_app. auto.
Qed.
Lemma closed_loop_ok cs : forall s, Forall (conn_ok fuel c0) cs -> inside n (poly s) ->
  NoDup (map c_border cs) -> (forall y k, In y (visited s) -> In k cs -> ~ beh (c_border k) y) ->
  exists s', closed_loop cells recurse cs s = Ok s' /\ poly s' = poly s /\ result (poly s) (map c_border cs) (parts s) (visited s) [] s'.
Proof.
  induction cs as [|k cs IH]; intros s F I D V.
  - exists s. split; [auto|]. split; [auto|]. apply result_nil; auto.
  - inversion F as [|? ? Ck Fk]; inversion D as [|? ? Nk Dk]; subst. cbn [closed_loop]. rewrite (conn_unvisited k (visited s) Ck) by (intros x Hx; apply V; cbn; auto).
    pose proof Ck as (Hb0 & O & W & d & N & K & Adj). pose proof (conn_reached k Ck) as R. pose proof (cells_inside _ _ div _ _ R N) as Id.
    unfold PartitionModel.polygon_by_index. rewrite N. cbn [bind].
    destruct (recurse_ok d (c_new k) d (segments_except d (c_border k)) true (parts s) (visited s)) as (s1 & E1 & Res1).
    { apply conn_ready; auto; [intros e He; apply except_iff in He; tauto|]. intros x Hx. right. apply V; cbn; auto. }
    rewrite E1. cbn [bind]. set (s2 := State (poly s) (parts s1) (visited s1)).
    assert (Res2 : result (poly s) [c_border k] (parts s) (visited s) [] s2).
    { destruct Res1 as (A & B & m0 & m & I1 & P1 & Q1 & G1 & J1 & C1 & L1 & K1 & V1 & T1). exists [], ((c_new k :: A) :: B), (poly s1 :: m0), m.
      split; [auto|]. split; [auto|]. split; [auto|]. split; [constructor; [eapply glue_group; eauto|auto]|]. split; [constructor; auto|].
      split; [cbn [app concat]; apply (covers_enter _ _ d); auto|]. split; [apply glue_refl|]. split; [auto|]. split.
      - intros y Hy. destruct (V1 y Hy) as [|(g & Hg & Hbg)]; auto. right. exists (c_border k). split; [left; auto|]. apply except_iff in Hg. apply (beh_deep _ (c_new k) d g); tauto.
      - intros HT Hh. split; auto. destruct (T1 HT (HT _ _ R N)). constructor; auto. }
    destruct (IH s2) as (s' & E' & Ep & Res'); auto.
    + intros y k' Hy Hk' Hbeh. destruct Res2 as (A & B & m0 & m & I1 & P1 & Q1 & G1 & J1 & C1 & L1 & K1 & V1 & T1).
      destruct (V1 y Hy) as [Hv|(g & [<-|[]] & Hg)]; [apply (V y k' Hv); cbn; auto|].
      apply Nk. rewrite Forall_forall in Fk. destruct (Fk k' Hk') as (Hb' & _). rewrite (beh_disjoint i0 c0 _ _ y i0_reached i0_cell Hb0 Hb' Hg Hbeh). apply in_map. auto.
    + exists s'. split; [auto|]. split; [auto|]. cbn [map]. apply (result_app (poly s) [c_border k] (map c_border cs) (parts s) (visited s) s2 s'); auto.
      intros y a b [<-|[]] Hb' Ba Bb. apply in_map_iff in Hb'. destruct Hb' as (k' & <- & Hk').
      rewrite Forall_forall in Fk. destruct (Fk k' Hk') as (Hb' & _). apply Nk. rewrite (beh_disjoint i0 c0 _ _ y i0_reached i0_cell Hb0 Hb' Ba Bb). apply in_map. auto.
Qed.
End Loop.

Lemma find_gates_ok fuel head i c gates vs : ready (S fuel) head i c gates vs -> exists l, find_gates_loop cells n gates vs = Ok l /\
  Forall (conn_ok fuel c) l /\ map c_border l = filter (fun g => negb (is_border g n)) gates.
Proof.
  intros (_ & I & R & N & D & Hg & Hv). induction gates as [|g gates IH]; [exists []; cbn; auto|]. inversion D; subst.
  destruct IH as (l & El & Fl & Ml); auto; [intros g' Hg'; apply Hg; cbn; auto|intros x g' Hx Hg'; apply Hv; cbn; auto|].
  cbn [find_gates_loop filter]. destruct (Hg g (or_introl eq_refl)) as (Hc & Hh & W). assert (Vg : valid g) by (exists i, c; auto). pose proof (valid_border g Vg) as Bg.
  destruct (is_border g n); cbn [negb]; [exists l; auto|]. assert (O : ~ outer n g) by (intros O; apply Bg in O; discriminate).
  destruct (valid_next g Vg O) as (j & d & Rj & Nj & Hd & Id). rewrite (destination_ok g j d Nj Hd). cbn [bind].
  replace (existsb (Nat.eqb j) vs) with false.
  2: { symmetry. apply not_true_iff_false. intros E. apply existsb_exists in E. destruct E as (x & Hx & E). apply Nat.eqb_eq in E. subst x.
       apply (Hv j g Hx (or_introl eq_refl)). apply (beh_here _ _ d); auto. }
  unfold PartitionModel.polygon_by_index. rewrite Nj. cbn [bind].
  assert (Ha : exists a b, adjacent d g = Ok (a, b)).
  { destruct g as [u v]. destruct (adjacent_edge d v u (inside_nodup n _ Id) ltac:(destruct Id; auto) Hd) as (p & q & _ & E & _). eauto. }
  destruct Ha as (a & b & Ea). rewrite Ea. cbn [bind]. rewrite El. cbn [bind]. exists (Connection g a b j :: l). split; [auto|]. split; [|cbn [map]; rewrite Ml; auto].
  constructor; auto. split; [auto|]. split; [auto|]. split; [auto|]. exists d. auto.
Qed.

Theorem traverse_ok fuel : forall head i c gates origin ps vs, ready fuel head i c gates vs ->
  exists s, traverse cells convex n order fuel head gates origin ps vs = Ok s /\ result head gates ps vs (if origin then [poly s] else []) s.
Proof.
  induction fuel as [|fuel IH]; intros head i c gates origin ps vs Rdy.
  - destruct Rdy. lia.
  - destruct (find_gates_ok fuel head i c gates vs Rdy) as (l & El & Fl & Ml). destruct Rdy as (_ & I & R & N & D & Hg & Hv).
    cbn [traverse]. unfold find_gates. rewrite El. cbn [bind].
    assert (Fo : Forall (conn_ok fuel c) (order l)) by (eapply Permutation_Forall; [symmetry; apply order_perm|auto]).
    assert (Pm : Permutation (map c_border (order l)) (filter (fun g => negb (is_border g n)) gates)) by (rewrite <- Ml; apply Permutation_map, order_perm).
    assert (Dm : NoDup (map c_border (order l))) by (eapply Permutation_NoDup; [symmetry; exact Pm|apply NoDup_filter; auto]).
    assert (Hin : forall k, In k (order l) -> In (c_border k) gates) by (intros k Hk; apply (in_map c_border), (Permutation_in _ Pm), filter_In in Hk; tauto).
    destruct (open_loop_ok fuel _ IH i c R N (order l) (State head ps vs) [] Fo I) as (s & op & cl & Eo & Po & Res); auto.
    { intros k Hk. cbn [poly]. apply Hg; auto. }
    rewrite Eo. cbn [bind app]. cbn [poly parts visited] in Res.
    set (s0 := if origin then State (poly s) (parts s ++ [poly s]) (visited s) else s).
    assert (E0 : poly s0 = poly s /\ visited s0 = visited s /\ parts s0 = parts s ++ if origin then [poly s] else []) by (unfold s0; destruct origin; cbn; rewrite ?app_nil_r; auto).
    destruct E0 as (E01 & E02 & E03). clearbody s0.
    assert (Dm' : NoDup (map c_border op ++ map c_border cl)) by (rewrite <- map_app; eapply Permutation_NoDup; [apply Permutation_map; exact Po|auto]).
    assert (Fc : Forall (conn_ok fuel c) cl) by (eapply Permutation_Forall in Fo; [|exact Po]; apply Forall_app in Fo; tauto).
    assert (Fop : Forall (conn_ok fuel c) op) by (eapply Permutation_Forall in Fo; [|exact Po]; apply Forall_app in Fo; tauto).
    assert (Disj : forall x a b, In a (map c_border op) -> In b (map c_border cl) -> beh a x -> beh b x -> False).
    { intros x a b Ha Hb Ba Bb. assert (Ea : a = b).
      { apply in_map_iff in Ha, Hb. destruct Ha as (ka & <- & Ka), Hb as (kb & <- & Kb). rewrite Forall_forall in Fc, Fop. destruct (Fop ka Ka) as (Ha & _), (Fc kb Kb) as (Hb & _).
        exact (beh_disjoint i c _ _ x R N Ha Hb Ba Bb). }
      subst b. clear -Dm' Ha Hb. induction (map c_border op) as [|z l IH]; [easy|]. inversion Dm' as [|? ? N D]; subst. destruct Ha as [->|Ha]; auto. apply N, in_or_app. auto. }
    pose proof Res as (A & B & m0 & m & I1 & P1 & Q1 & G1 & J1 & C1 & L1 & K1 & V1 & T1).
    destruct (closed_loop_ok fuel _ IH i c R N cl s0 Fc) as (s' & Ec & Ep & Res'); auto.
    { rewrite E01. auto. }
    { clear -Dm'. induction (map c_border op); auto. inversion Dm'; auto. }
    { rewrite E02. intros y k Hy Hk Hb. assert (Hko : In k (order l)) by (eapply Permutation_in; [symmetry; exact Po|apply in_or_app; auto]).
      destruct (V1 y Hy) as [Hvs|(g & Hgo & Hbg)]; [exact (Hv y (c_border k) Hvs (Hin k Hko) Hb)|].
      apply (Disj y g (c_border k)); auto. apply in_map. auto. }
    exists s'. split; auto. rewrite E01, E02, E03 in Res'.
    destruct Res' as (A' & B' & m0' & m' & I2 & P2 & Q2 & G2 & J2 & C2 & L2 & K2 & V2 & T2). cbn [app] in Q1, Q2.
    apply (result_border head (map c_border op ++ map c_border cl)).
    { intros a Ha. rewrite <- map_app in Ha. apply in_map_iff in Ha. destruct Ha as (k & <- & Hk). apply Hin. eapply Permutation_in; [symmetry; exact Po|auto]. }
    { intros a Ha Hn. apply valid_border; [exists i, c; repeat split; auto; apply Hg; auto|]. destruct (is_border a n) eqn:Eb; auto. exfalso. apply Hn. rewrite <- map_app.
      eapply Permutation_in; [apply Permutation_map; exact Po|]. eapply Permutation_in; [symmetry; exact Pm|]. apply filter_In. rewrite Eb. auto. }
    assert (Res' : result head (map c_border op ++ map c_border cl) ps vs [] (State (poly s') (ps ++ m ++ m') (visited s'))).
    { apply (result_app head _ _ ps vs s); auto. cbn [poly parts visited]. exists A', B', m0', m'. cbn [poly parts visited]. split; [auto|]. split; [rewrite P1, app_assoc; auto|]. repeat (split; [solve [auto]|]). auto. }
    destruct Res' as (A1 & B1 & n0 & n1 & I3 & P3 & Q3 & G3 & J3 & C3 & L3 & K3 & V3 & T3). cbn [poly parts visited app] in *. apply app_inv_head in P3. subst n1.
    exists A1, B1, n0, (m ++ (if origin then [poly s] else []) ++ m'). split; [auto|]. split; [rewrite P2, P1, <- !app_assoc; auto|].
    split; [|repeat (split; [solve [auto]|]); auto]. rewrite Ep, E01, <- Q3. rewrite !app_assoc. apply Permutation_app_tail, Permutation_app_comm.
Qed.

(** * The whole polygon *)
Lemma behind_adjacent g x : beh g x -> forall i c, reached cells n i -> at_cell i c -> In g (edges c) ->
  forall cx e j d, at_cell x cx -> In e (edges cx) -> ~ outer n e -> at_cell j d -> In (turned e) (edges d) -> j = i \/ beh g j.
Proof.
  intros H. induction H as [g x c' Ho N H|g y c' f x Ho N H Hf Hne Hb IH]; intros i c R Ni Hg cx e j d Nx He Oe Nj Hd.
  - rewrite N in Nx. injection Nx as <-. destruct (edge_dec e (turned g)) as [->|Ne].
    + left. rewrite turned_turned in Hd. exact (edges_once _ _ div j d i c _ Nj Ni Hd Hg).
    + right. apply (beh_deep g x c' e); auto. apply (beh_here e j d); auto.
  - assert (Ry : reached cells n y) by (apply (reached_next cells n i c g y c'); auto).
    destruct (IH y c' Ry N Hf cx e j d Nx He Oe Nj Hd) as [->|Hj]; right; [apply (beh_here g y c'); auto|apply (beh_deep g y c' f); auto].
Qed.
Lemma beh_reached g x : beh g x -> valid g -> reached cells n x.
Proof. intros H V. apply (beh_span g x H V). Qed.

(** Polygons inside with every edge at most once, whose other edges occur in both directions, are bounded by the whole outer polygon. *)
Definition filter_outer (E : list (nat * nat)) := filter (fun e => is_border e n) E.
Lemma filter_split {T} (f : T -> bool) l : Permutation l (filter f l ++ filter (fun x => negb (f x)) l).
Proof.
  induction l as [|x l IH]; cbn; auto. destruct (f x); cbn; [constructor; auto|]. apply Permutation_cons_app. auto.
Qed.
Lemma flat_edges_fst ps : map fst (flat_map edges ps) = concat ps.
Proof. induction ps as [|p ps IH]; cbn; auto. rewrite map_app, edges_fst, IH. auto. Qed.
Lemma flat_edges_snd ps : Permutation (map snd (flat_map edges ps)) (concat ps).
Proof. induction ps as [|p ps IH]; cbn; auto. rewrite map_app, edges_snd_perm, IH. auto. Qed.
Lemma paired_perm E : NoDup E -> (forall e, In e E -> In (turned e) E /\ fst e <> snd e) -> exists inner, Permutation E (inner ++ map turned inner).
Proof.
  intros D H. exists (filter (fun e => fst e <? snd e) E). apply NoDup_Permutation; auto.
  - apply NoDup_app_intro.
    + apply NoDup_filter; auto.
    + apply FinFun.Injective_map_NoDup; [intros a b Eab; rewrite <- (turned_turned a), Eab; apply turned_turned|apply NoDup_filter; auto].
    + intros e H1 H2. apply filter_In in H1. destruct H1 as [_ H1]. apply in_map_iff in H2. destruct H2 as (e' & <- & H2). apply filter_In in H2. destruct H2 as [_ H2].
      destruct e' as [a b]. cbn in *. apply Nat.ltb_lt in H1, H2. lia.
  - intros e. rewrite in_app_iff, filter_In, in_map_iff. split.
    + intros He. destruct (H e He) as [Ht Hd]. destruct (Nat.ltb_spec (fst e) (snd e)) as [L|L]; [auto|]. right. exists (turned e). split; [apply turned_turned|].
      apply filter_In. split; auto. destruct e as [a b]. cbn in *. apply Nat.ltb_lt. lia.
    + intros [[He _]|(e' & <- & He)]; auto. apply filter_In in He. apply H. tauto.
Qed.
Lemma fill_outer ps : Forall (inside n) ps -> NoDup (flat_map edges ps) -> In (0, 1) (flat_map edges ps) ->
  (forall e, In e (flat_map edges ps) -> ~ outer n e -> In (turned e) (flat_map edges ps)) -> fill ps (edges (seq 0 n)).
Proof.
  intros F D H0 Ht. set (E := flat_map edges ps) in *.
  assert (In_E : forall a b, In (a, b) E -> a < n /\ b < n /\ a <> b /\ (outer n (a, b) -> In (a, b) (edges (seq 0 n)))).
  { intros a b H. unfold E in H. apply in_flat_map in H. destruct H as (p & Hp & H). rewrite Forall_forall in F. pose proof (F p Hp) as I.
    pose proof (inside_lt n _ _ I (edges_in_l _ _ _ H)) as La. pose proof (inside_lt n _ _ I (edges_in_r _ _ _ H)) as Lb. split; [auto|]. split; [auto|]. split; [apply (edge_distinct n p); auto|].
    intros [O|O]; auto. exfalso. unfold turned in O. cbn [fst snd] in O. apply ring_iff in O; [|lia]. destruct O as [_ Ea].
    destruct (inside_third n p a b I) as (y & Hy & Ya & Yb). pose proof (edge_gap n p a b y I H Hy Ya) as G. pose proof (inside_lt n _ _ I Hy) as Ly.
    destruct (key_spec n a b) as [[? K1]|[? K1]], (key_spec n a y) as [[? K2]|[? K2]]; rewrite K1, K2 in G; destruct (Nat.eqb_spec (S b) n); lia. }
  assert (Bi : forall e, In e E -> is_border e n = true <-> outer n e) by (intros [a b] He; apply is_border_iff; auto; apply (In_E a b He)).
  destruct (paired_perm (filter (fun e => negb (is_border e n)) E)) as (inner & Pi).
  { apply NoDup_filter; auto. }
  { intros e He. apply filter_In in He. destruct He as [He Nb]. apply negb_true_iff in Nb. assert (O : ~ outer n e) by (intros O; apply Bi in O; auto; congruence).
    pose proof (Ht e He O) as Ht'. split; [apply filter_In; split; auto|destruct e as [a b]; apply (In_E a b He)].
    apply negb_true_iff, not_true_iff_false. intros K. apply Bi in K; auto. apply O. unfold outer in *. rewrite turned_turned in K. tauto. }
  exists inner. fold E. rewrite (filter_split (fun e => is_border e n) E). apply Permutation_app; auto. clear Ht.
  (* as many edges begin as end at each point *)
  assert (P : Permutation (map fst (filter (fun e => is_border e n) E)) (map snd (filter (fun e => is_border e n) E))).
  { apply (Permutation_app_inv_r (map fst (filter (fun e => negb (is_border e n)) E))). rewrite <- map_app, <- (filter_split _ E). unfold E at 1. rewrite flat_edges_fst.
    rewrite <- (flat_edges_snd ps). fold E. rewrite (filter_split (fun e => is_border e n) E) at 1. rewrite map_app. apply Permutation_app_head.
    rewrite Pi, !map_app, !map_map. cbn [turned fst snd]. apply Permutation_app_comm. }
  set (O := filter (fun e => is_border e n) E) in *.
  assert (HO : forall a b, In (a, b) O <-> In (a, b) E /\ In (a, b) (edges (seq 0 n))).
  { intros a b. unfold O. rewrite filter_In. split; intros [H K]; (split; [auto|]); [apply (In_E a b H), Bi; auto|apply Bi; auto; left; auto]. }
  assert (All : forall a, a < n -> exists b, In (a, b) O).
  { induction a as [|a IH]; intros L.
    - exists 1. apply HO. split; auto. apply ring_iff; [lia|]. split; [lia|]. destruct (Nat.eqb_spec 1 n); lia.
    - destruct IH as (b & Hb); [lia|]. pose proof Hb as K. apply HO in K. destruct K as [_ K]. apply ring_iff in K; [|lia]. destruct K as [_ Eb]. destruct (Nat.eqb_spec (S a) n); [lia|]. subst b.
      apply (in_map snd) in Hb. apply (Permutation_in _ (Permutation_sym P)) in Hb. apply in_map_iff in Hb. destruct Hb as ([x y] & Ex & Hx). cbn in Ex. subst x. eauto. }
  apply NoDup_Permutation.
  - apply NoDup_filter; auto.
  - apply nodup_edges, seq_NoDup.
  - intros [a b]. split; [intros H; apply HO in H; tauto|]. intros H. pose proof H as K. apply ring_iff in K; [|lia]. destruct K as [La Eb].
    destruct (All a La) as (b' & Hb). pose proof Hb as K. apply HO in K. destruct K as [_ K]. apply ring_iff in K; [|lia]. destruct K as [_ Eb']. congruence.
Qed.

Lemma nodup_cells L : NoDup L -> (forall i, In i L -> reached cells n i /\ exists c, at_cell i c) -> NoDup (cell_edges L).
Proof.
  intros D H. induction D as [|i L N D IH]; cbn [map flat_map]; [constructor|]. destruct (H i (or_introl eq_refl)) as (R & c & Nc). rewrite (cell_eq i c Nc).
  apply NoDup_app_intro.
  - apply nodup_edges, (inside_nodup n), (cells_inside _ _ div i); auto.
  - apply IH. intros j Hj. apply H. right. auto.
  - intros e He Hf. apply in_flat_map in Hf. destruct Hf as (d & Hd & Hf). apply in_map_iff in Hd. destruct Hd as (j & <- & Hj). destruct (H j (or_intror Hj)) as (Rj & d & Nd).
    rewrite (cell_eq j d Nd) in Hf. apply N. rewrite (edges_once _ _ div i c j d e Nc Nd He Hf). auto.
Qed.
Lemma groups_perm gs ps : Forall2 group gs ps -> exists inner, Permutation (cell_edges (concat gs)) (flat_map edges ps ++ inner ++ map turned inner).
Proof.
  intros F. induction F as [|g p gs ps [i P] F [j Q]]; [exists []; cbn; auto|]. exists (i ++ j). cbn [concat flat_map]. rewrite cell_edges_app, P, Q.
  rewrite map_turned_app, <- !app_assoc. apply Permutation_app_head. rewrite (Permutation_app_swap_app (map turned i)), (Permutation_app_swap_app i).
  apply Permutation_app_head, Permutation_app_head. apply Permutation_app_swap_app.
Qed.

Theorem partition_ok : exists ps gs, convex_partition cells convex n order = Ok ps /\ Forall2 group gs ps /\ NoDup (concat gs) /\ (forall x, In x (concat gs) <-> reached cells n x) /\
  Forall (inside n) ps /\ fill ps (edges (seq 0 n)) /\ (all_turns -> Forall (turns convex) ps).
Proof.
  destruct (first_edge _ _ div) as (i & c & N & H). assert (R : reached cells n i) by (apply (reached_first cells n i c); auto). pose proof (cells_inside _ _ div i c R N) as I.
  unfold convex_partition, merge_triangulation. destruct (Nat.ltb_spec n 3) as [|_]; [lia|]. rewrite (destination_ok (1, 0) i c N H). cbn [bind]. unfold PartitionModel.polygon_by_index. rewrite N. cbn [bind].
  destruct (traverse_ok n c i c (segments_except c (1, 0)) true [] [i]) as (s & E & A & B & m0 & m & I1 & P1 & Q1 & G1 & J1 & C1 & L1 & K1 & V1 & T1).
  { split; [lia|]. split; [auto|]. split; [auto|]. split; [auto|]. split; [apply except_nodup; auto|]. split.
    - intros [a b] Hg. apply except_iff in Hg. destruct Hg as (Hg & _). split; [auto|]. split; [auto|]. cbn [fst snd].
      apply key_lt; [exact (inside_lt n _ _ I (edges_in_l _ _ _ Hg))|exact (inside_lt n _ _ I (edges_in_r _ _ _ Hg))].
    - intros x g [<-|[]] Hg. apply except_iff in Hg. apply (beh_own i c); tauto. }
  rewrite E. cbn [bind]. cbn [app] in P1. exists (parts s).
  assert (F0 : Forall2 group ((i :: A) :: B) (poly s :: m0)) by (constructor; [apply (glue_group i c); auto|auto]).
  assert (F1 : Forall2 (fun p g => group g p) (poly s :: m0) ((i :: A) :: B)) by (apply Forall2_swap; auto).
  destruct (Permutation_Forall2 (Permutation_sym Q1) F1) as (gs & Pg & F2). apply Forall2_swap in F2. exists gs. rewrite P1. split; [auto|]. split; [auto|].
  assert (Pc : Permutation (i :: A ++ concat B) (concat gs)).
  { change (i :: A ++ concat B) with (concat ((i :: A) :: B)). clear -Pg. induction Pg; cbn; auto; [apply Permutation_app_head; auto|rewrite !app_assoc; apply Permutation_app_tail, Permutation_app_comm|etransitivity; eauto]. }
  destruct C1 as [D1 C1].
  assert (Inr : forall x, In x (i :: A ++ concat B) <-> reached cells n x).
  { intros x. split.
    - intros [<-|Hx]; auto. apply C1 in Hx. destruct Hx as (g & Hg & Hb). apply except_iff in Hg. apply (beh_reached g x Hb). exists i, c. tauto.
    - intros Hx. induction Hx as [j d Nj Hj|j d e k f Rj IH Nj He Oe Nk Hk].
      + left. exact (edges_once _ _ div i c j d _ N Nj H Hj).
      + destruct IH as [<-|IH].
        * right. apply C1. exists e. rewrite N in Nj. injection Nj as <-. split; [apply except_iff|apply (beh_here e k f); auto]. split; auto. split.
          -- intros ->. apply Oe. right. change (In (0, 1) (edges (seq 0 n))). apply ring_iff; [lia|]. split; [lia|]. destruct (Nat.eqb_spec 1 n); [lia|reflexivity].
          -- intros ->. apply Oe. left. change (In (0, 1) (edges (seq 0 n))). apply ring_iff; [lia|]. split; [lia|]. destruct (Nat.eqb_spec 1 n); [lia|reflexivity].
        * apply C1 in IH. destruct IH as (g & Hg & Hb). pose proof Hg as Hg'. apply except_iff in Hg'. destruct Hg' as (Hg' & _).
          destruct (behind_adjacent g j Hb i c R N Hg' d e k f Nj He Oe Nk Hk) as [->|Hj]; [left; auto|right; apply C1; eauto]. }
  assert (Dall : NoDup (i :: A ++ concat B)).
  { constructor; auto. intros K. apply C1 in K. destruct K as (g & Hg & Hb). apply except_iff in Hg. apply (beh_own i c g); tauto. }
  split; [apply (Permutation_NoDup Pc); auto|]. split; [intros x; rewrite <- Inr; split; apply Permutation_in; [symmetry|]; auto|].
  assert (Fi : Forall (inside n) m) by (eapply Permutation_Forall; [symmetry; exact Q1|constructor; auto]). split; [auto|]. split.
  - destruct (groups_perm gs m F2) as (inner & P).
    assert (Hcell : forall j, In j (concat gs) -> reached cells n j /\ exists d, at_cell j d).
    { intros j Hj. assert (Rj : reached cells n j) by (apply Inr; eapply Permutation_in; [symmetry; exact Pc|auto]). split; auto. inversion Rj; eauto. }
    assert (Dc : NoDup (cell_edges (concat gs))) by (apply nodup_cells; auto; apply (Permutation_NoDup Pc); auto).
    pose proof (Permutation_NoDup P Dc) as Dp.
    assert (InC : forall j d e, reached cells n j -> at_cell j d -> In e (edges d) -> In e (cell_edges (concat gs))).
    { intros j d e Rj Nj He. apply in_flat_map. exists (cell j). rewrite (cell_eq j d Nj). split; auto. apply in_map_iff. exists j. split; [apply cell_eq; auto|].
      eapply Permutation_in; [exact Pc|]. apply Inr. auto. }
    assert (Inner : forall e, In e (inner ++ map turned inner) -> In (turned e) (inner ++ map turned inner)).
    { intros e He. apply in_app_or in He. apply in_or_app. destruct He as [He|He]; [right; apply in_map; auto|left]. apply in_map_iff in He. destruct He as (f & <- & Hf). rewrite turned_turned. auto. }
    assert (Excl : forall e, In e (flat_map edges m) -> In e (inner ++ map turned inner) -> False).
    { intros e H1 H2. clear -Dp H1 H2. induction (flat_map edges m) as [|z l IH]; [easy|]. inversion Dp as [|? ? Nz Dz]; subst. destruct H1 as [->|H1]; auto. apply Nz, in_or_app. auto. }
    assert (Cells : forall e, In e (cell_edges (concat gs)) -> exists j d, reached cells n j /\ at_cell j d /\ In e (edges d)).
    { intros e He. apply in_flat_map in He. destruct He as (d & Hd & He). apply in_map_iff in Hd. destruct Hd as (j & <- & Hj). destruct (Hcell j Hj) as (Rj & d & Nd).
      exists j, d. rewrite (cell_eq j d Nd) in He. auto. }
    apply fill_outer; auto.
    + apply (NoDup_app_remove_r _ _ Dp).
    + assert (K : In (0, 1) (cell_edges (concat gs))) by (apply (InC i c); auto). apply (Permutation_in _ P), in_app_or in K. destruct K as [K|K]; auto. exfalso.
      apply Inner in K. assert (K' : In (turned (0, 1)) (cell_edges (concat gs))) by (eapply Permutation_in; [symmetry; exact P|apply in_or_app; auto]).
      destruct (Cells _ K') as (j & d & Rj & Nd & Hd). pose proof (cells_inside _ _ div j d Rj Nd) as Id. change (turned (0, 1)) with (1, 0) in Hd.
      destruct (inside_third n d 1 0 Id) as (y & Hy & Y1 & Y0). pose proof (edge_gap n d 1 0 y Id Hd Hy Y1) as G. pose proof (inside_lt n _ _ Id Hy).
      destruct (key_spec n 1 0) as [[? E1]|[? E1]], (key_spec n 1 y) as [[? E2]|[? E2]]; lia.
    + intros e He Oe. assert (K : In e (cell_edges (concat gs))) by (eapply Permutation_in; [symmetry; exact P|apply in_or_app; auto]).
      destruct (Cells _ K) as (j & d & Rj & Nd & Hd). destruct (cells_adjacent _ _ div j d e Rj Nd Hd Oe) as (k & f & Nk & Hf).
      assert (Rk : reached cells n k) by (apply (reached_next cells n j d e k f); auto). pose proof (InC k f _ Rk Nk Hf) as Kt. apply (Permutation_in _ P), in_app_or in Kt. destruct Kt as [Kt|Kt]; auto.
      exfalso. apply (Excl e He). apply Inner in Kt. rewrite turned_turned in Kt. auto.
  - intros HT. destruct (T1 HT (HT i c R N)) as [T2 T3]. eapply Permutation_Forall; [symmetry; exact Q1|constructor; auto].
Qed.
End Traversal.
