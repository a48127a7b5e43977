(** Proofs about writing a file and reading it back. *)
From Coq Require Import List Arith Bool String Ascii ZArith Sorted Lia.
From Verif Require Import OsmModel OsmSpec OsmProofs OsmRelProofs.
Import ListNotations.
Local Open Scope string_scope.
Local Open Scope list_scope.

Lemma all_some_spec {A} (l : list (option A)) r : all_some l = Some r <-> map Some r = l.
Proof.
  revert r. induction l as [|[a|] l IH]; intros r; simpl.
  - split; [intros [= <-]; auto|]. destruct r; auto; discriminate.
  - change (fold_right _ (Some []) l) with (all_some l). destruct (all_some l) as [s|].
    + split.
      * intros [= <-]. simpl. f_equal. apply IH. auto.
      * destruct r as [|b r]; [discriminate|]. simpl. intros [= -> E]. apply IH in E. congruence.
    + split; [discriminate|]. destruct r as [|b r]; [discriminate|]. simpl. intros [= -> E]. apply IH in E. discriminate.
  - split; [discriminate|]. destruct r; discriminate.
Qed.
Lemma all_some_map {A B} (f : A -> option B) (g : A -> B) l : (forall x, In x l -> f x = Some (g x)) -> all_some (map f l) = Some (map g l).
Proof.
  intros H. apply all_some_spec. rewrite map_map. apply map_ext_in. intros a Ha. rewrite H; auto.
Qed.

Lemma filter_all {A} (p : A -> bool) l : (forall x, In x l -> p x = true) -> filter p l = l.
Proof. induction l as [|x l IH]; simpl; intros H; auto. rewrite H by auto. rewrite IH; auto. Qed.
Lemma filter_none {A} (p : A -> bool) l : (forall x, In x l -> p x = false) -> filter p l = [].
Proof. induction l as [|x l IH]; simpl; intros H; auto. rewrite H by auto. auto. Qed.

Lemma xall_all n nm at_ ch : (forall c, In c ch -> xname c = n) -> xall n (Elem nm at_ ch) = ch.
Proof. intros H. apply filter_all. intros x Hx. rewrite H; auto. apply String.eqb_refl. Qed.

Lemma write_attrs_name a c : In c (write_attrs a) -> xname c = "tag".
Proof. unfold write_attrs. rewrite in_map_iff. intros (x & <- & _). reflexivity. Qed.
Lemma xall_write_attrs n nm at_ pre a : n <> "tag" -> xall n (Elem nm at_ (pre ++ write_attrs a)) = filter (fun c => String.eqb (xname c) n) pre.
Proof.
  intros H. unfold xall. cbn [xchildren]. rewrite filter_app, (filter_none _ (write_attrs a)), app_nil_r; auto.
  intros x Hx. rewrite (write_attrs_name _ _ Hx). apply String.eqb_neq. auto.
Qed.
Lemma xall_tag nm at_ pre a : xall "tag" (Elem nm at_ (pre ++ write_attrs a)) = filter (fun c => String.eqb (xname c) "tag") pre ++ write_attrs a.
Proof.
  unfold xall. cbn [xchildren]. rewrite filter_app. f_equal. apply filter_all. intros x Hx. rewrite (write_attrs_name _ _ Hx). reflexivity.
Qed.

Lemma tags_of nm at_ pre (a : attributes) : attrs_ok a -> (forall t, In t (filter (fun c => String.eqb (xname c) "tag") pre) -> attr_value "k" t = "ele") ->
  tags (Elem nm at_ (pre ++ write_attrs a)) = a.
Proof.
  intros (S & A) P. unfold tags. rewrite xall_tag, tags_fold, filter_app. rewrite (filter_none _ (filter _ pre)).
  2: { intros t Ht. rewrite P by auto. reflexivity. }
  cbn [app].
  assert (map (fun x => (attr_value "k" x, attr_value "v" x)) (write_attrs a) = a) as E.
  { unfold write_attrs. rewrite map_map. rewrite (map_ext_in _ (fun x => x)); [apply map_id|].
    intros [k v] H. destruct (A k v H) as (_ & H1 & H2). cbn. unfold no_nul in *. congruence. }
  rewrite (filter_all _ (write_attrs a)).
  - etransitivity; [apply (fold_mset String.ltb sirr stra stot)|]; cbn [app]; [|exact E].
    change (StronglySorted (fun x y => String.ltb x y = true) (map fst (map (fun x => (attr_value "k" x, attr_value "v" x)) (write_attrs a)))).
    rewrite E. exact S.
  - intros t Ht. unfold write_attrs in Ht. apply in_map_iff in Ht. destruct Ht as ([k v] & <- & H). destruct (A k v H) as (N & H1 & H2).
    cbn. unfold no_nul in H1. rewrite H1. apply negb_true_iff, String.eqb_neq. auto.
Qed.

Section Round.
Context {D : Type}.
Variable zero_d : D.
Variable is_zero : D -> bool.
Variable print_id : Z -> string.
Variable parse_id : string -> Z.
Variable fmt : bool -> D -> string.
Variable parse_d : string -> D.
Variable reloc : list nat -> nat -> list nat.
Hypothesis rok : reloc_ok reloc.
Notation attr_id := (attr_id parse_id).
Notation file_ok := (file_ok print_id parse_id).
Notation id_ok := (id_ok print_id parse_id).

Lemma attr_id_of nm i l ch : id_ok i -> attr_id "id" (Elem nm (id_attrs print_id i ++ l) ch) = i.
Proof. intros H. unfold OsmModel.attr_id, attr. cbn. exact H. Qed.
Lemma attr_id_of' nm i ch : id_ok i -> attr_id "id" (Elem nm (id_attrs print_id i) ch) = i.
Proof. intros H. unfold OsmModel.attr_id, attr. cbn. exact H. Qed.
Lemma attr_tail nm i n l ch : n <> "id" -> n <> "visible" -> n <> "version" ->
  attr n (Elem nm (id_attrs print_id i ++ l) ch) = afind n l.
Proof.
  intros A B C. unfold attr, id_attrs. cbn [xattrs]. rewrite <- app_comm_cons. cbn [afind].
  destruct (String.eqb_spec "id" n); [congruence|]. destruct (Z.ltb 0 i); cbn [app afind]; auto.
  destruct (String.eqb_spec "visible" n); [congruence|]. destruct (String.eqb_spec "version" n); [congruence|]. auto.
Qed.
Lemma not_deleted nm i l ch : afind "action" l = None -> deleted (Elem nm (id_attrs print_id i ++ l) ch) = false.
Proof. intros H. unfold deleted. rewrite attr_tail by discriminate. rewrite H. reflexivity. Qed.
Lemma not_deleted' nm i ch : deleted (Elem nm (id_attrs print_id i) ch) = false.
Proof. rewrite <- (app_nil_r (id_attrs print_id i)). apply not_deleted. reflexivity. Qed.

Notation wnode := (write_node is_zero print_id fmt).
Lemma read_write_node josm n : id_ok (n_id n) -> attrs_ok (n_attrs n) ->
  read_node zero_d parse_id parse_d (wnode josm n) = rounded_node zero_d is_zero fmt parse_d josm n.
Proof.
  intros I A. unfold read_node, rounded_node, write_node. f_equal.
  - apply attr_id_of. auto.
  - apply tags_of; auto. intros t Ht. apply filter_In in Ht. destruct (is_zero (n_ele n)); simpl in Ht; [tauto|].
    destruct Ht as [[<-|[]] _]. reflexivity.
  - unfold attr_d. rewrite attr_tail by discriminate. reflexivity.
  - unfold attr_d. rewrite attr_tail by discriminate. reflexivity.
  - unfold ele_of. rewrite xall_tag. destruct (is_zero (n_ele n)); [|reflexivity]. cbn [filter app].
    destruct (find _ (write_attrs (n_attrs n))) as [t|] eqn:E; auto. exfalso.
    apply find_some in E. destruct E as [Ht E]. unfold write_attrs in Ht. apply in_map_iff in Ht. destruct Ht as ([k v] & <- & H).
    destruct A as [_ A]. destruct (A k v H) as (N & H1 & H2). cbn in E. unfold no_nul in *. rewrite H1 in E. rewrite orb_false_r in E.
    destruct (String.eqb_spec k "ele"); [congruence|discriminate].
Qed.

Definition way_xml (w : @way) : xml :=
  Elem "way" (id_attrs print_id (w_id w)) (map (fun i => Elem "nd" [("ref", print_id i)] []) (w_nodes w) ++ write_attrs (w_attrs w)).
Definition type_of (r : ref) : string * Z :=
  match r with RNode k => ("node", k) | RWay k => ("way", k) | RRel k => ("relation", k) | RNull => ("", 0%Z) end.
Definition rel_xml (r : relation) : xml :=
  Elem "relation" (id_attrs print_id (r_id r))
    (map (fun m => write_member print_id (fst m) (type_of (snd m))) (r_members r) ++ write_attrs (r_attrs r)).
Definition osm_xml (upload josm : bool) (f : file) : xml :=
  Elem "osm" [("version", "0.6"); ("upload", if upload then "true" else "false"); ("generator", "lanelet2")]
    (map (fun e => wnode josm (snd e)) (f_nodes f) ++ map (fun e => way_xml (snd e)) (f_ways f) ++ map (fun e => rel_xml (snd e)) (f_rels f)).

Lemma zget_key {V} (id : V -> Z) (m : list (Z * V)) k : keys_ok print_id parse_id id m -> In k (map fst m) -> exists v, zget k m = Some v /\ id v = k.
Proof.
  intros (S & H) G. unfold zget. destruct (mget Z.ltb k m) eqn:E.
  - exists v. split; auto. apply (mget_In Z.ltb zirr ztra ztot) in E; auto. apply (H k v E).
  - apply (mget_none Z.ltb zirr ztra ztot) in E; tauto.
Qed.

Lemma write_eq upload josm f : file_ok f -> write is_zero print_id fmt upload josm f = Some (Elem "" [] [osm_xml upload josm f]).
Proof.
  intros (Kn & Kw & Kr & An & Aw & Ar). unfold write.
  rewrite (all_some_map _ (fun e => way_xml (snd e))).
  - rewrite (all_some_map _ (fun e => rel_xml (snd e))); [reflexivity|].
    intros [k r] H. cbn [snd]. destruct (Ar k r H) as [_ Ht]. unfold write_rel.
    rewrite (all_some_map _ (fun m => write_member print_id (fst m) (type_of (snd m)))); [reflexivity|].
    intros [ro t] Hm. destruct (Ht ro t Hm) as [_ T]. cbn [fst snd]. destruct t; cbn [deref type_of] in *.
    + destruct (zget_key _ _ _ Kn T) as (v & -> & ->). auto.
    + destruct (zget_key _ _ _ Kw T) as (v & -> & ->). auto.
    + destruct (zget_key _ _ _ Kr T) as (v & -> & ->). auto.
    + contradiction.
  - intros [k w] H. cbn [snd]. destruct (Aw k w H) as [_ Ht]. unfold write_way.
    rewrite (all_some_map _ (fun k => k)); [rewrite map_id; reflexivity|].
    intros i Hi. destruct (zget_key _ _ _ Kn (Ht i Hi)) as (v & -> & ->). auto.
Qed.

Lemma elems_of upload josm f n : 
  elems n (osm_xml upload josm f) =
  (if String.eqb n "node" then map (fun e => wnode josm (snd e)) (f_nodes f) else []) ++
  (if String.eqb n "way" then map (fun e => way_xml (snd e)) (f_ways f) else []) ++
  (if String.eqb n "relation" then map (fun e => rel_xml (snd e)) (f_rels f) else []).
Proof.
  assert (forall (V : Type) (g : V -> xml) nm (l : list V), (forall x, xname (g x) = nm) -> (forall x, deleted (g x) = false) ->
     filter (fun e => negb (deleted e)) (filter (fun c => String.eqb (xname c) n) (map g l)) = if String.eqb n nm then map g l else []) as G.
  { intros V g nm l H1 H2. rewrite (String.eqb_sym n nm). destruct (String.eqb nm n) eqn:E.
    - rewrite (filter_all _ (map g l)); [apply filter_all|]; intros x Hx; apply in_map_iff in Hx; destruct Hx as (y & <- & _).
      + rewrite H2. auto.
      + rewrite H1. auto.
    - rewrite (filter_none _ (map g l)); auto. intros x Hx. apply in_map_iff in Hx. destruct Hx as (y & <- & _). rewrite H1. auto. }
  unfold elems, xall, osm_xml. cbn [xchildren]. rewrite !filter_app. f_equal; [|f_equal].
  - apply G; auto. intros [k v]. apply not_deleted. reflexivity.
  - apply G; auto. intros [k v]. apply not_deleted'.
  - apply G; auto. intros [k v]. apply not_deleted'.
Qed.

Section File.
Variable upload josm : bool.
Variable f : @file D.
Hypothesis ok : file_ok f.
Notation osm := (osm_xml upload josm f).

Lemma elems_node : elems "node" osm = map (fun e => wnode josm (snd e)) (f_nodes f).
Proof. rewrite elems_of. cbn. rewrite app_nil_r. reflexivity. Qed.
Lemma elems_way : elems "way" osm = map (fun e => way_xml (snd e)) (f_ways f).
Proof. rewrite elems_of. cbn. rewrite app_nil_r. reflexivity. Qed.
Lemma elems_rel : elems "relation" osm = map (fun e => rel_xml (snd e)) (f_rels f).
Proof. rewrite elems_of. reflexivity. Qed.

Lemma fold_elems {V A : Type} (g : V -> xml) (id : V -> Z) (rd : xml -> A) (out : V -> A) (m : list (Z * V)) :
  keys_ok print_id parse_id id m -> (forall k v, In (k, v) m -> attr_id "id" (g v) = k /\ rd (g v) = out v) ->
  fold_left (fun r x => zset (attr_id "id" x) (rd x) r) (map (fun e => g (snd e)) m) [] = map (fun e => (fst e, out (snd e))) m.
Proof.
  intros (S & K) H. unfold zset.
  assert (map (fun x => (attr_id "id" x, rd x)) (map (fun e : Z * V => g (snd e)) m) = map (fun e => (fst e, out (snd e))) m) as E.
  { rewrite map_map. apply map_ext_in. intros [k v] Hin. destruct (H k v Hin) as [H1 H2]. cbn [fst snd]. congruence. }
  rewrite (fold_mset Z.ltb zirr ztra ztot); cbn [app]; rewrite E; auto. rewrite map_map. exact S.
Qed.

Lemma has_ids n i : has parse_id osm n i = true <-> exists x, In x (elems n osm) /\ attr_id "id" x = i.
Proof. apply has_In. Qed.
Lemma has_node k : In k (map fst (f_nodes f)) -> has parse_id osm "node" k = true.
Proof.
  intros H. destruct ok as ((_ & K) & _). apply in_map_iff in H. destruct H as ([k' v] & <- & H). apply has_ids.
  exists (wnode josm v). rewrite elems_node. split; [apply in_map_iff; exists (k', v); auto|].
  destruct (K k' v H) as [<- I]. apply attr_id_of. auto.
Qed.
Lemma has_way k : In k (map fst (f_ways f)) -> has parse_id osm "way" k = true.
Proof.
  intros H. destruct ok as (_ & (_ & K) & _). apply in_map_iff in H. destruct H as ([k' v] & <- & H). apply has_ids.
  exists (way_xml v). rewrite elems_way. split; [apply in_map_iff; exists (k', v); auto|].
  destruct (K k' v H) as [<- I]. apply attr_id_of'. auto.
Qed.
Lemma has_rel k : In k (map fst (f_rels f)) -> has parse_id osm "relation" k = true.
Proof.
  intros H. destruct ok as (_ & _ & (_ & K) & _). apply in_map_iff in H. destruct H as ([k' v] & <- & H). apply has_ids.
  exists (rel_xml v). rewrite elems_rel. split; [apply in_map_iff; exists (k', v); auto|].
  destruct (K k' v H) as [<- I]. apply attr_id_of'. auto.
Qed.

Lemma nds_of w : xall "nd" (way_xml w) = map (fun i => Elem "nd" [("ref", print_id i)] []) (w_nodes w).
Proof.
  unfold way_xml. rewrite xall_write_attrs by discriminate. apply filter_all. intros x Hx. apply in_map_iff in Hx.
  destruct Hx as (i & <- & _). reflexivity.
Qed.
Lemma mems_of r : xall "member" (rel_xml r) = map (fun m => write_member print_id (fst m) (type_of (snd m))) (r_members r).
Proof.
  unfold rel_xml. rewrite xall_write_attrs by discriminate. apply filter_all. intros x Hx. apply in_map_iff in Hx.
  destruct Hx as (i & <- & _). reflexivity.
Qed.
Lemma way_refs k w : In (k, w) (f_ways f) -> map (attr_id "ref") (xall "nd" (way_xml w)) = w_nodes w /\ complete_way parse_id osm (way_xml w) = true.
Proof.
  intros H. destruct ok as ((_ & Kn) & _ & _ & _ & Aw & _). destruct (Aw k w H) as [_ Hn]. unfold complete_way. rewrite nds_of.
  assert (forall i, In i (w_nodes w) -> attr_id "ref" (Elem "nd" [("ref", print_id i)] []) = i) as E.
  { intros i Hi. unfold OsmModel.attr_id. cbn. apply Hn in Hi. apply in_map_iff in Hi. destruct Hi as ([k' v] & <- & Hi).
    apply (Kn k' v Hi). }
  split.
  - rewrite map_map. rewrite (map_ext_in _ (fun x => x)); [apply map_id|exact E].
  - apply forallb_forall. intros x Hx. apply in_map_iff in Hx. destruct Hx as (i & <- & Hi). rewrite E by auto. apply has_node. auto.
Qed.

Local Arguments OsmSpec.has : simpl never.
Lemma member_back role t : no_nul role -> target_ok (f_nodes f) (f_ways f) (f_rels f) t ->
  let m := write_member print_id role (type_of t) in
  member_of parse_id osm m = [(role, t)] /\ (forall k, direct_error parse_id osm k m = []) /\ (forall k, relation_error parse_id osm k m = []).
Proof.
  intros N T. cbv zeta. destruct ok as ((_ & Kn) & (_ & Kw) & (_ & Kr) & _).
  assert (id_ok (snd (type_of t))) as I.
  { destruct t; cbn in T |- *; try contradiction; apply in_map_iff in T; destruct T as ([k' v] & <- & T);
      [apply (Kn k' v T)|apply (Kw k' v T)|apply (Kr k' v T)]. }
  unfold member_of, direct_error, relation_error.
  assert (attr_id "ref" (write_member print_id role (type_of t)) = snd (type_of t)) as -> by exact I.
  assert (attr_value "role" (write_member print_id role (type_of t)) = role) as -> by exact N.
  assert (attr_value "type" (write_member print_id role (type_of t)) = fst (type_of t)) as -> by reflexivity.
  destruct t; cbn in T |- *; try contradiction.
  - rewrite (has_node _ T). auto.
  - rewrite (has_way _ T). auto.
  - rewrite (has_rel _ T). auto.
Qed.

Lemma flat_map_nil {A B} (g : A -> list B) l : (forall x, In x l -> g x = []) -> flat_map g l = [].
Proof. induction l as [|x l IH]; simpl; intros H; auto. rewrite H, IH; auto. Qed.

Lemma no_errors : read_errors parse_id osm = [].
Proof.
  unfold read_errors, way_errors, errors_of. rewrite elems_way, elems_rel.
  pose proof ok as (_ & _ & _ & _ & _ & Ar).
  rewrite !flat_map_nil; auto.
  - intros x Hx. apply in_map_iff in Hx. destruct Hx as ([k r] & <- & H). cbn [snd]. rewrite mems_of. apply flat_map_nil.
    intros m Hm. apply in_map_iff in Hm. destruct Hm as ([ro t] & <- & Hm). destruct (Ar k r H) as [_ A]. destruct (A ro t Hm) as [A1 A2].
    apply (member_back ro t A1 A2).
  - intros x Hx. apply in_map_iff in Hx. destruct Hx as ([k r] & <- & H). cbn [snd]. rewrite mems_of. apply flat_map_nil.
    intros m Hm. apply in_map_iff in Hm. destruct Hm as ([ro t] & <- & Hm). destruct (Ar k r H) as [_ A]. destruct (A ro t Hm) as [A1 A2].
    apply (member_back ro t A1 A2).
  - intros x Hx. apply in_map_iff in Hx. destruct Hx as ([k w] & <- & H). cbn [snd]. destruct (way_refs k w H) as [_ ->]. auto.
Qed.

Lemma nodes_back : read_nodes zero_d parse_id parse_d osm = map (fun e => (fst e, rounded_node zero_d is_zero fmt parse_d josm (snd e))) (f_nodes f).
Proof.
  unfold read_nodes. rewrite elems_node. destruct ok as (Kn & _ & _ & An & _).
  apply (fold_elems (wnode josm) n_id); auto. intros k v H. destruct Kn as [_ K]. destruct (K k v H) as [<- I]. split.
  - apply attr_id_of. auto.
  - apply read_write_node; auto. apply (An _ _ H).
Qed.
Lemma ways_back : fst (read_ways parse_id (read_nodes zero_d parse_id parse_d osm) osm) = f_ways f.
Proof.
  rewrite read_ways_eq. cbn [fst]. rewrite elems_way. destruct ok as (_ & Kw & _ & _ & Aw & _).
  rewrite (fold_elems way_xml w_id (fun x => fst (read_way parse_id (read_nodes zero_d parse_id parse_d osm) x)) (fun w => w)); auto.
  - rewrite (map_ext _ (fun x => x)) by (intros []; auto). apply map_id.
  - intros k w H. destruct Kw as [_ K]. destruct (K k w H) as [Ek I]. split.
    + rewrite <- Ek. apply attr_id_of'. congruence.
    + rewrite read_way_eq. cbn [fst]. destruct (way_refs k w H) as [-> ->]. destruct (Aw k w H) as [A _].
      destruct w as [i a ns]. cbn [w_id w_attrs w_nodes] in *. f_equal.
      * apply attr_id_of'. congruence.
      * apply tags_of; auto. intros t Ht. apply filter_In in Ht. destruct Ht as [Ht E]. apply in_map_iff in Ht. destruct Ht as (j & <- & _).
        discriminate.
Qed.

Lemma rel_key k v : In (k, v) (f_rels f) -> attr_id "id" (rel_xml v) = k.
Proof.
  intros H. destruct ok as (_ & _ & (_ & K) & _). destruct (K k v H) as [Ek I]. rewrite <- Ek. apply attr_id_of'. congruence.
Qed.
Lemma rel_unique k v : In (k, v) (f_rels f) -> filter (fun x => Z.eqb (attr_id "id" x) k) (elems "relation" osm) = [rel_xml v].
Proof.
  rewrite elems_rel. intros H. pose proof ok as (_ & _ & (S & K) & _). clear K.
  assert (forall k' v', In (k', v') (f_rels f) -> attr_id "id" (rel_xml v') = k') as R by (intros; apply rel_key; auto).
  induction (f_rels f) as [|[k0 v0] m IH]; [contradiction|]. cbn [map filter snd]. rewrite (R k0 v0) by (simpl; auto).
  cbn [map fst] in S. apply StronglySorted_inv in S. destruct S as [S F]. rewrite Forall_forall in F.
  destruct H as [H|H].
  - injection H as -> ->. rewrite Z.eqb_refl. f_equal. apply filter_none. intros x Hx. apply in_map_iff in Hx.
    destruct Hx as ([k' v'] & <- & Hx). cbn [snd]. rewrite (R k' v') by (simpl; auto). apply Z.eqb_neq. intros ->.
    assert (Z.ltb k k = true) as Q by (apply F; apply in_map_iff; exists (k, v'); auto). rewrite Z.ltb_irrefl in Q. discriminate.
  - destruct (Z.eqb_spec k0 k).
    + subst. assert (Z.ltb k k = true) as Q by (apply F; apply in_map_iff; exists (k, v); auto). rewrite Z.ltb_irrefl in Q. discriminate.
    + apply IH; auto. intros k' v' H'. apply R. simpl. auto.
Qed.
Lemma rel_tags k v : In (k, v) (f_rels f) -> tags (rel_xml v) = r_attrs v.
Proof.
  intros H. destruct ok as (_ & _ & _ & _ & _ & Ar). apply tags_of; [apply (Ar k v H)|].
  intros t Ht. apply filter_In in Ht. destruct Ht as [Ht E]. apply in_map_iff in Ht. destruct Ht as (j & <- & _). discriminate.
Qed.
Lemma rel_members k v : In (k, v) (f_rels f) -> flat_map (member_of parse_id osm) (xall "member" (rel_xml v)) = r_members v.
Proof.
  intros H. pose proof ok as (_ & _ & _ & _ & _ & Ar). destruct (Ar k v H) as [_ A]. rewrite mems_of. clear H.
  induction (r_members v) as [|[ro t] l IH]; auto. cbn [map flat_map fst snd].
  destruct (A ro t) as [A1 A2]; [simpl; auto|]. destruct (member_back ro t A1 A2) as [-> _]. cbn [app]. f_equal. apply IH.
  intros ro' t' H'. apply A. simpl. auto.
Qed.
Lemma rels_are : is_map Z.ltb (f_rels f) (rel_is parse_id osm).
Proof.
  pose proof ok as (_ & _ & (S & K) & _). split; auto. intros k r. split.
  - intros H. exists (rel_xml r). split; [|split; [apply (K k r H)|split]].
    + apply first_with_find. pose proof (rel_unique k r H) as U. revert U.
      generalize (elems "relation" osm). clear. induction l as [|x l IH]; [discriminate|]. cbn [filter find].
      destruct (Z.eqb (attr_id "id" x) k); [intros [= <- _]; auto|auto].
    + rewrite <- (rel_tags k r H). apply tags_is_map.
    + rewrite (rel_unique k r H). cbn [flat_map]. rewrite app_nil_r. symmetry. eapply rel_members; eauto.
  - intros (x & F & E1 & E2 & E3). destruct F as (a & b & F & Fk & _).
    assert (In x (elems "relation" osm)) as Hx by (rewrite F; apply in_or_app; simpl; auto).
    rewrite elems_rel in Hx. apply in_map_iff in Hx. destruct Hx as ([k' r'] & <- & H). cbn [snd] in *.
    rewrite (rel_key k' r' H) in Fk. subst k'.
    assert (r = r') as ->; [|auto]. destruct (K k r' H) as [Ek _].
    rewrite (rel_unique k r' H) in E3. cbn [flat_map] in E3. rewrite app_nil_r, (rel_members k r' H) in E3.
    assert (r_attrs r = r_attrs r') as Ea.
    { rewrite <- (rel_tags k r' H). eapply is_map_attrs_eq; [exact E2|apply tags_is_map]. }
    destruct r, r'. cbn in *. congruence.
Qed.

Theorem round_trip : exists doc, write is_zero print_id fmt upload josm f = Some doc /\
  read zero_d parse_id parse_d true reloc doc = Some (rounded zero_d is_zero fmt parse_d josm f, []).
Proof.
  exists (Elem "" [] [osm]). split; [apply write_eq; auto|].
  destruct (read_spec zero_d parse_id parse_d reloc rok (Elem "" [] [osm])) as (g & R & Fn & Fw & Fr).
  { intros x t. change (osm_of (Elem "" [] [osm])) with osm. rewrite elems_node. intros Hx Ht. apply in_map_iff in Hx.
    destruct Hx as ([k n] & <- & _). cbn [snd] in Ht. unfold write_node in Ht. rewrite xall_tag in Ht. apply in_app_or in Ht. 
    destruct Ht as [Ht|Ht].
    - apply filter_In in Ht. destruct (is_zero (n_ele n)); simpl in Ht; [tauto|]. destruct Ht as [[<-|[]] _].
      unfold distinct_attrs. cbn. repeat constructor; simpl; intuition discriminate.
    - unfold write_attrs in Ht. apply in_map_iff in Ht. destruct Ht as (kv & <- & _).
      unfold distinct_attrs. cbn. repeat constructor; simpl; intuition discriminate. }
  change (osm_of (Elem "" [] [osm])) with osm in *. rewrite no_errors in R. rewrite R. f_equal. f_equal.
  assert (f_nodes g = read_nodes zero_d parse_id parse_d osm /\ f_ways g = fst (read_ways parse_id (read_nodes zero_d parse_id parse_d osm) osm)) as [G1 G2].
  { revert R. unfold read. change (xall "osm" (Elem "" [] [osm])) with [osm]. cbv iota. cbv zeta.
    destruct (read_ways parse_id _ osm) as [ws e1]. destruct (resolve _ _ _ _ _ _) as [[rl er]|]; [|discriminate].
    intros [= <- _]. auto. }
  rewrite nodes_back in G1. rewrite ways_back in G2.
  assert (f_rels g = f_rels f) as G3.
  { destruct Fr as [S1 H1], rels_are as [S2 H2]. apply (sorted_ext Z.ltb zirr ztra ztot); auto. intros k v. rewrite H1, H2. tauto. }
  destruct g as [gn gw gr]. cbn in *. subst. reflexivity.
Qed.
End File.
End Round.
