(** Properties of the OSM file layer: C32, C33 (reading), C35, C37. *)
From Coq Require Import List Arith Bool String Ascii ZArith QArith Sorted Lia.
From Verif Require Import OsmModel OsmSpec.
From Verif Require OsmProofs OsmRelProofs OsmRoundProofs AttrModel AttrProps.
Import ListNotations.
Local Open Scope string_scope.
Local Open Scope nat_scope.
Local Open Scope list_scope.

(** ** C35 *)
Lemma trim_app c a d r : d <> c -> trim_end c (a ++ String d r) = (a ++ String d (trim_end c r))%string.
Proof.
  intros N. induction a as [|x a IH]; cbn [append trim_end].
  - destruct (trim_end c r); auto. destruct (Ascii.eqb_spec d c); [contradiction|auto].
  - rewrite IH. destruct (a ++ String d (trim_end c r))%string eqn:E; auto. destruct a; discriminate.
Qed.
Lemma digit_inj a b : a < 10 -> b < 10 -> digit a = digit b -> a = b.
Proof. do 10 (destruct a as [|a]; [do 10 (destruct b as [|b]; [try reflexivity; discriminate|]); lia|]). lia. Qed.
Lemma digit_point a : a < 10 -> digit a <> "."%char.
Proof. do 10 (destruct a as [|a]; [discriminate|]). lia. Qed.
Lemma digits_app a b : digits (a ++ b) = (digits a ++ digits b)%string.
Proof. induction a as [|d a IH]; cbn; auto. rewrite IH. auto. Qed.
Fixpoint drop_zeros (l : list nat) : list nat :=
  match l with [] => [] | d :: r => match drop_zeros r with [] => if Nat.eqb d 0 then [] else [d] | t => d :: t end end.
Lemma trim_digits l : Forall (fun d => d < 10) l -> trim_end "0" (digits l) = digits (drop_zeros l).
Proof.
  induction l as [|d l IH]; intros F; auto. inversion F as [|d' l' H1 H2]; subst. cbn [digits trim_end drop_zeros]. rewrite IH by auto.
  destruct (drop_zeros l) as [|e t]; cbn [digits]; auto.
  destruct (Nat.eqb_spec d 0) as [->|N]; [reflexivity|]. destruct (Ascii.eqb_spec (digit d) "0"); auto.
  exfalso. apply N. apply digit_inj; [auto|lia|auto].
Qed.
Lemma drop_zeros_split l : exists k, l = drop_zeros l ++ repeat 0 k.
Proof.
  induction l as [|d l [k IH]]; [exists 0; auto|]. cbn [drop_zeros]. destruct (drop_zeros l) as [|e t] eqn:E.
  - destruct (Nat.eqb_spec d 0) as [->|N].
    + exists (S k). cbn in *. congruence.
    + exists k. cbn in *. congruence.
  - exists k. rewrite IH at 1. reflexivity.
Qed.
Lemma drop_zeros_last l : drop_zeros l = [] \/ exists t d, drop_zeros l = t ++ [d] /\ d <> 0.
Proof.
  induction l as [|d l IH]; auto. cbn [drop_zeros]. destruct (drop_zeros l) as [|e t] eqn:E.
  - destruct (Nat.eqb_spec d 0); auto. right. exists [], d. auto.
  - right. destruct IH as [H|(t' & d' & H & N)]; [discriminate|]. exists (d :: t'), d'. rewrite H. auto.
Qed.
Lemma number_app a b : number (a ++ b) = (number a * 10 ^ Z.of_nat (List.length b) + number b)%Z.
Proof.
  unfold number. rewrite fold_left_app.
  assert (forall l z, fold_left (fun a d => 10 * a + Z.of_nat d)%Z l z = (z * 10 ^ Z.of_nat (List.length l) + fold_left (fun a d => 10 * a + Z.of_nat d)%Z l 0)%Z) as G.
  { induction l as [|d l IH]; intros z.
    - cbn. lia.
    - cbn [fold_left List.length]. rewrite IH, (IH (10 * 0 + Z.of_nat d)%Z), Nat2Z.inj_succ, Z.pow_succ_r by lia. ring. }
  apply G.
Qed.
Lemma number_zeros k : number (repeat 0 k) = 0%Z.
Proof. unfold number. induction k as [|k IH]; auto. Qed.
Lemma value_zeros neg ip fp k : (decimal_value neg ip (fp ++ repeat 0%nat k) == decimal_value neg ip fp)%Q.
Proof.
  unfold decimal_value. rewrite app_assoc, number_app, number_zeros, repeat_length, app_length, repeat_length.
  rewrite Nat2Z.inj_add, Z.pow_add_r by lia. rewrite Z.add_0_r, !inject_Z_mult.
  assert (forall n, ~ (inject_Z (10 ^ Z.of_nat n) == 0)%Q) as N.
  { intros n E. unfold Qeq in E. cbn in E. assert (0 < 10 ^ Z.of_nat n)%Z by (apply Z.pow_pos_nonneg; lia). lia. }
  field. split; apply N.
Qed.

(** For every number written with a point the result is a number with the same sign and
    the same digits before the point, the same value, no zero at its end and no
    superfluous point. *)
Theorem C35_value : forall neg ip fp, ip <> [] -> Forall (fun d => d < 10) ip -> Forall (fun d => d < 10) fp ->
  exists fp', josm_style (decimal neg ip true fp) = decimal neg ip (negb (Nat.eqb (List.length fp') 0)) fp' /\
    (decimal_value neg ip fp' == decimal_value neg ip fp)%Q /\
    (forall t d, fp' = t ++ [d] -> d <> 0) /\ exists r, fp = fp' ++ r.
Proof.
  intros neg ip fp Hip Di Df. exists (drop_zeros fp).
  assert (josm_style (decimal neg ip true fp) = trim_end "." ((if neg then "-" else "") ++ digits ip ++ String "." (digits (drop_zeros fp)))%string) as E.
  { unfold josm_style, decimal. f_equal. cbn [append]. 
    assert (forall a b c, (a ++ (b ++ c))%string = ((a ++ b) ++ c)%string) as As
      by (intros a b c; induction a as [|x a IH]; cbn; congruence).
    rewrite !As. rewrite trim_app by discriminate. rewrite trim_digits by auto. reflexivity. }
  destruct (drop_zeros_split fp) as [k Hk]. split; [|split; [|split]].
  - rewrite E. assert (forall a b c, (a ++ (b ++ c))%string = ((a ++ b) ++ c)%string) as As
      by (intros a b c; induction a as [|x a IH]; cbn; congruence).
    destruct (drop_zeros_last fp) as [Z|(t & d & Z & N)].
    + rewrite Z. unfold decimal. cbn [List.length Nat.eqb negb digits append].
      destruct (exists_last Hip) as (ip' & d & Eip). subst ip. rewrite digits_app. cbn [digits].
      assert (d < 10) as Hd by (rewrite Forall_forall in Di; apply Di; apply in_or_app; cbn; auto).
      replace ((if neg then "-" else "") ++ (digits ip' ++ String (digit d) "") ++ ".")%string with
        (((if neg then "-" else "") ++ digits ip') ++ String (digit d) ".")%string by (rewrite !As; rewrite <- !As; reflexivity).
      rewrite trim_app by (apply digit_point; auto). cbn. rewrite !As. rewrite <- !As. reflexivity.
    + assert (negb (Nat.eqb (List.length (drop_zeros fp)) 0) = true) as ->.
      { rewrite Z, app_length. cbn. destruct (List.length t); reflexivity. }
      rewrite Z. unfold decimal. rewrite digits_app. cbn [digits append].
      assert (d < 10) as Hd.
      { rewrite Forall_forall in Df. apply Df. rewrite Hk, Z. apply in_or_app. left. apply in_or_app. cbn. auto. }
      replace ((if neg then "-" else "") ++ digits ip ++ String "." (digits t ++ String (digit d) ""))%string with
        (((if neg then "-" else "") ++ digits ip ++ String "." (digits t)) ++ String (digit d) "")%string.
      2: { rewrite <- !As. reflexivity. }
      rewrite trim_app by (apply digit_point; auto). reflexivity.
  - symmetry. rewrite Hk at 1. apply value_zeros.
  - intros t d Ht. destruct (drop_zeros_last fp) as [Z|(t' & d' & Z & N)].
    + rewrite Z in Ht. destruct t; discriminate.
    + rewrite Z in Ht. apply app_inj_tail in Ht. destruct Ht as [_ <-]. auto.
  - exists (repeat 0 k). auto.
Qed.
Print Assumptions C35_value.
Example C35_nonvacuous :
  josm_style "-49.00500000000" = "-49.005" /\ josm_style "100.00000000000" = "100" /\ josm_style "0.00" = "0" /\
  decimal true [4; 9] true [0; 0; 5; 0; 0] = "-49.00500" /\ Qeq (decimal_value true [4; 9] [0; 0; 5; 0; 0]) (-49005 # 1000).
Proof. repeat split. Qed.
(** The point matters: without one the zeros before the point would be lost. *)
Example C35_needs_point : josm_style "100" = "1". Proof. reflexivity. Qed.

(** ** C32 *)
Theorem C32_round_trip_partial : forall {D} (zero_d : D) is_zero print_id parse_id fmt parse_d reloc upload josm f,
  OsmRelProofs.reloc_ok reloc -> file_ok print_id parse_id f ->
  exists doc, write is_zero print_id fmt upload josm f = Some doc /\
    read zero_d parse_id parse_d true reloc doc = Some (rounded zero_d is_zero fmt parse_d josm f, []).
Proof. intros. apply OsmRoundProofs.round_trip; auto. Qed.
Print Assumptions C32_round_trip_partial.

(** Numbers for concrete cases: rational numbers printed with 11 or 2 digits. *)
Definition print_fix (n : nat) (q : Q) : string :=
  let s := (10 ^ Z.of_nat n)%Z in
  let m := AttrProps.round_half_even (q * inject_Z s)%Q in
  let a := Z.abs m in
  ((if m <? 0 then "-" else "")%Z ++ AttrModel.print_Z (a / s) ++ "." ++ AttrProps.pad n (AttrModel.print_Z (a mod s)))%string.
Definition q_fmt (josm : bool) (q : Q) : string := josm_style (print_fix (if josm then 2 else 11) q).
Definition q_parse (s : string) : Q := match AttrProps.scan s with Some (q, _) => Qred q | None => 0%Q end.
Definition z_parse (s : string) : Z := Qnum (q_parse s).
Definition q_zero (q : Q) : bool := Z.eqb (Qnum q) 0.
(** Erasing from the back half of a deque keeps the addresses of the first elements,
    otherwise the elements in front move up. *)
Definition deque_reloc (a : list nat) (i : nat) : list nat :=
  if Nat.ltb (2 * i) (List.length a) then tl a else removelast a.

Definition ex_file : @file Q :=
  File [(-1, Node (-1) [] (49 # 1) (42 # 5) (0 # 1)); (2, Node 2 [("name", "b"); ("type", "x")] (49001 # 1000) (-1 # 8) (23 # 2))]%Z
       [(3, Way 3 [("area", "yes")] [2; -1; 2])]%Z
       [(4, Relation 4 [("type", "lanelet")] [("left", RWay 3); ("regulatory_element", RRel 5); ("", RNode 2)]);
        (5, Relation 5 [] [("refers", RRel 4); ("refers", RRel 5)])]%Z.
Definition read_q := read (0 # 1) z_parse q_parse true deque_reloc.
Ltac inl H := cbn in H; repeat (destruct H as [[= <- <-]|H]; [split; [discriminate|split; reflexivity]|]); try contradiction.
Example C32_nonvacuous :
  file_ok AttrModel.print_Z z_parse ex_file /\ rounded (0 # 1) q_zero q_fmt q_parse false ex_file = ex_file /\
  match write q_zero AttrModel.print_Z q_fmt false false ex_file with None => False | Some doc => read_q doc = Some (ex_file, []) end.
Proof.
  split; [|vm_compute; split; reflexivity].
  assert (forall x y : string, String.ltb x y = true -> Forall (fun b => String.ltb x b = true) [y]) as F1 by (repeat constructor; auto).
  split; [|split; [|split; [|split; [|split]]]].
  1-3: split; [repeat constructor|intros k v H; repeat (destruct H as [[= <- <-]|H]; [split; reflexivity|]); try contradiction].
  - intros k v H. repeat (destruct H as [[= <- <-]|H]; [split; [repeat constructor|intros a b Hab; inl Hab]|]). all: try contradiction.
  - intros k v H. repeat (destruct H as [[= <- <-]|H]; [split; [split; [repeat constructor|intros a b Hab; inl Hab]|intros i Hi; cbn in *; tauto]|]). all: try contradiction.
  - intros k v H. repeat (destruct H as [[= <- <-]|H]; [split; [split; [repeat constructor|intros a b Hab; inl Hab]|intros ro t Ht]|]); try contradiction.
    all: cbn in Ht; repeat (destruct Ht as [[= <- <-]|Ht]; [split; [reflexivity|cbn; tauto]|]); try contradiction.
Qed.
Lemma deque_reloc_ok : OsmRelProofs.reloc_ok deque_reloc.
Proof.
  intros a i N H. unfold deque_reloc. destruct (Nat.ltb (2 * i) (List.length a)).
  - destruct a as [|x a]; cbn in *; [lia|]. inversion N; auto.
  - destruct a as [|x a] using rev_ind; cbn in *; [lia|]. rewrite removelast_last, app_length. cbn. split; [|lia].
    clear -N. induction a as [|y a IH]; [constructor|]. inversion N; subst. constructor; auto. intros G. apply H1. apply in_or_app. auto.
Qed.

(** A node attribute with the key "ele" does not come back; on a node of height 0 it
    comes back as height. *)
Definition ele_file : @file Q := File [(1, Node 1 [("ele", "7")] (1 # 1) (2 # 1) (0 # 1))]%Z [] [].
Theorem C32_ele_refuted : exists (f : @file Q) doc g,
  write q_zero AttrModel.print_Z q_fmt false false f = Some doc /\ read_q doc = Some (g, []) /\
  (exists n, f_nodes f = [(1%Z, n)] /\ n_attrs n = [("ele", "7")] /\ n_ele n = (0 # 1)) /\
  (exists n, f_nodes g = [(1%Z, n)] /\ n_attrs n = [] /\ n_ele n = (7 # 1)).
Proof.
  exists ele_file. eexists. eexists. split; [reflexivity|]. split; [vm_compute; reflexivity|].
  split; eexists; split; try reflexivity; split; reflexivity.
Qed.
Print Assumptions C32_ele_refuted.
(** With a height of its own only the attribute is lost. Values end at a NUL character. *)
Definition lossy_file : @file Q :=
  File [(1, Node 1 [("ele", "7")] (1 # 1) (2 # 1) (3 # 1))]%Z [(2, Way 2 [("a", String "x" (String zero "y")); ("ele", "5")] [1])]%Z [].
Theorem C32_loss_refuted : exists (f : @file Q) doc g,
  write q_zero AttrModel.print_Z q_fmt false false f = Some doc /\ read_q doc = Some (g, []) /\
  map (fun e => n_ele (snd e)) (f_nodes g) = [3 # 1] /\ map (fun e => n_attrs (snd e)) (f_nodes g) = [[]] /\
  map (fun e => w_attrs (snd e)) (f_ways g) = [[("a", "x")]].
Proof. exists lossy_file. eexists. eexists. split; [reflexivity|]. split; [vm_compute; reflexivity|]. repeat split. Qed.
Print Assumptions C32_loss_refuted.
(** josm_format_elevation keeps two digits of the height only. *)
Definition coarse_file : @file Q := File [(1, Node 1 [] (1 # 1) (2 # 1) (1 # 1000))]%Z [] [].
Theorem C32_elevation_refuted : exists (f : @file Q) doc g,
  write q_zero AttrModel.print_Z q_fmt false true f = Some doc /\ read_q doc = Some (g, []) /\
  map (fun e => n_ele (snd e)) (f_nodes f) = [1 # 1000] /\ map (fun e => n_ele (snd e)) (f_nodes g) = [0 # 1].
Proof. exists coarse_file. eexists. eexists. split; [reflexivity|]. split; [vm_compute; reflexivity|]. repeat split. Qed.
Print Assumptions C32_elevation_refuted.

(** ** C33: reading
    Every document is read without undefined behaviour; exactly the members that name
    nothing of the document are missing, and each of them is reported. *)
Theorem C33_read_partial : forall {D} (zero_d : D) parse_id parse_d reloc doc, OsmRelProofs.reloc_ok reloc ->
  let osm := OsmRelProofs.osm_of doc in
  (forall x t, In x (elems "node" osm) -> In t (xall "tag" x) -> distinct_attrs t) ->
  exists f, read zero_d parse_id parse_d true reloc doc = Some (f, read_errors parse_id osm) /\ file_is zero_d parse_id parse_d osm f.
Proof. intros D z p d reloc doc R osm H. apply OsmRelProofs.read_spec; auto. Qed.
Print Assumptions C33_read_partial.

Definition mem (t : string) (i : string) (r : string) : xml := Elem "member" [("ref", i); ("role", r); ("type", t)] [].
Definition tagx (k v : string) : xml := Elem "tag" [("k", k); ("v", v)] [].
Definition ex_doc : xml := Elem "" [] [Elem "osm" [] [
  Elem "relation" [("id", "1")] [mem "relation" "9" "a"; mem "relation" "2" "b"; mem "node" "5" "c"; mem "relation" "8" "d";
                                 tagx "type" "lanelet"; mem "relation" "1" "e"; mem "way" "3" "f"; mem "thing" "3" "g"];
  Elem "relation" [("id", "2")] [mem "relation" "7" "x"; mem "relation" "1" "y"; mem "relation" "7" "z"];
  Elem "relation" [("id", "1"); ("action", "modify")] [mem "relation" "6" "h"; mem "relation" "2" "i"; tagx "type" "other"];
  Elem "relation" [("id", "8"); ("action", "delete")] [];
  Elem "node" [("id", "4"); ("lat", "1.5"); ("lon", "-2")] [tagx "ele" "3"; tagx "a" "1"; tagx "a" "2"];
  Elem "way" [("id", "3")] [Elem "nd" [("ref", "4")] []; Elem "nd" [("ref", "4")] []];
  Elem "way" [("id", "6")] [Elem "nd" [("ref", "4")] []; Elem "nd" [("ref", "5")] []]]].
Example C33_read_nonvacuous :
  (forall x t, In x (elems "node" (OsmRelProofs.osm_of ex_doc)) -> In t (xall "tag" x) -> distinct_attrs t) /\
  read_q ex_doc = Some (
    File [(4, Node 4 [("a", "2")] (3 # 2) (-2 # 1) (3 # 1))]%Z
         [(3, Way 3 [] [4; 4]); (6, Way 6 [] [])]%Z
         [(1, Relation 1 [("type", "lanelet")] [("b", RRel 2); ("e", RRel 1); ("f", RWay 3); ("i", RRel 2)]);
          (2, Relation 2 [] [("y", RRel 1)])]%Z,
    [EWay 6; EMember 1 5; ERelation 1 9; ERelation 1 8; ERelation 2 7; ERelation 2 7; ERelation 1 6]%Z).
Proof.
  split; [|vm_compute; reflexivity].
  cbn. intros x t [<-|[]]. cbn. intros [<-|[<-|[<-|[]]]]; repeat constructor; cbn; intuition discriminate.
Qed.

(** ** C37 *)
Definition same_member {D} (f g : @file D) (a b : string * ref) : Prop :=
  match deref f (snd a), deref g (snd b) with
  | Some (ta, ia), Some (tb, ib) => ta = tb \/ ia = ib
  | _, _ => False
  end.
(** What equality of relations means: equal ids, as many members, and each pair of
    members agrees in type or in id. *)
Theorem C37_relation_equality_partial : forall {D} (f g : @file D) a b,
  relation_eqb f g a b = Some true <->
  r_id a = r_id b /\ Forall2 (same_member f g) (r_members a) (r_members b).
Proof.
  intros D f g a b. unfold relation_eqb. destruct (Z.eqb_spec (r_id a) (r_id b)) as [E|N]; cbn [andb].
  2: { split; [discriminate|tauto]. }
  destruct (Nat.eqb_spec (List.length (r_members a)) (List.length (r_members b))) as [L|N].
  2: { split; [discriminate|]. intros [_ F]. exfalso. apply N. clear -F. induction F; cbn; auto. }
  transitivity (Forall2 (same_member f g) (r_members a) (r_members b)); [|tauto].
  clear E. revert L. generalize (r_members b) as rb, (r_members a) as ra. intros rb ra. revert rb.
  induction ra as [|x ra IH]; intros [|y rb] L; try discriminate; cbn [members_equal].
  - split; auto.
  - assert (S : List.length ra = List.length rb) by (cbn in L; congruence). unfold same_member at 1 in IH.
    destruct (deref f (snd x)) as [[tx ix]|] eqn:Dx, (deref g (snd y)) as [[ty iy]|] eqn:Dy;
      try (split; [discriminate|intros F; inversion F as [|? ? ? ? H]; subst; unfold same_member in H; rewrite Dx in H; try rewrite Dy in H; contradiction]).
    destruct (String.eqb_spec tx ty) as [->|Nt]; cbn [negb andb].
    + rewrite (IH rb S). split; [intros F; constructor; auto; unfold same_member; rewrite Dx, Dy; auto|intros F; inversion F; auto].
    + destruct (Z.eqb_spec ix iy) as [->|Ni]; cbn [negb].
      * rewrite (IH rb S). split; [intros F; constructor; auto; unfold same_member; rewrite Dx, Dy; auto|intros F; inversion F; auto].
      * split; [discriminate|]. intros F; inversion F as [|? ? ? ? H]; subst. unfold same_member in H. rewrite Dx, Dy in H. tauto.
Qed.
Print Assumptions C37_relation_equality_partial.
(** Ways: equal ids and equal node ids in order. *)
Theorem C37_way_equality_partial : forall {D} (f g : @file D) a b,
  (forall i, In i (w_nodes a) -> exists n, zget i (f_nodes f) = Some n /\ n_id n = i) ->
  (forall i, In i (w_nodes b) -> exists n, zget i (f_nodes g) = Some n /\ n_id n = i) ->
  (way_eqb f g a b = Some true <-> w_id a = w_id b /\ w_nodes a = w_nodes b).
Proof.
  intros D f g a b Ha Hb. unfold way_eqb. destruct (Z.eqb_spec (w_id a) (w_id b)) as [E|N]; cbn [andb].
  2: { split; [discriminate|tauto]. }
  destruct (Nat.eqb_spec (List.length (w_nodes a)) (List.length (w_nodes b))) as [L|N].
  2: { split; [discriminate|]. intros [_ F]. congruence. }
  transitivity (w_nodes a = w_nodes b); [|tauto]. clear E. revert L Ha Hb.
  generalize (w_nodes b) as rb, (w_nodes a) as ra. intros rb ra. revert rb.
  induction ra as [|x ra IH]; intros [|y rb] L Ha Hb; try discriminate; cbn [ids_equal]; [tauto|].
  destruct (Ha x) as (n & -> & En); [cbn; auto|]. destruct (Hb y) as (m & -> & Em); [cbn; auto|]. rewrite En, Em.
  destruct (Z.eqb_spec x y) as [->|N]; cbn [negb].
  - rewrite IH; [|cbn in L; congruence|cbn in Ha; auto|cbn in Hb; auto]. split; congruence.
  - split; [discriminate|congruence].
Qed.
Print Assumptions C37_way_equality_partial.

(** Relations whose members are different elements of one type compare equal; so do
    relations that differ in attributes or roles. *)
Definition eq_file (ms : list (string * ref)) (a : attributes) : @file Q :=
  File [(1, Node 1 [] (1 # 1) (2 # 1) (0 # 1)); (2, Node 2 [] (3 # 1) (4 # 1) (0 # 1))]%Z [] [(5, Relation 5 a ms)]%Z.
Theorem C37_relation_equality_refuted : exists (f : @file Q) a b,
  file_ok AttrModel.print_Z z_parse f /\ relation_eqb f f a b = Some true /\
  r_members a = [("refers", RNode 1)] /\ r_members b = [("yield", RNode 2)] /\ r_attrs a <> r_attrs b.
Proof.
  exists (eq_file [("refers", RNode 1)] [("type", "x")]), (Relation 5 [("type", "x")] [("refers", RNode 1)]),
    (Relation 5 [("type", "y")] [("yield", RNode 2)]).
  split; [|split; [reflexivity|repeat split; discriminate]].
  split; [|split; [|split; [|split; [|split]]]].
  1-3: split; [repeat constructor|intros k v H; repeat (destruct H as [[= <- <-]|H]; [split; reflexivity|]); try contradiction].
  - intros k v H. repeat (destruct H as [[= <- <-]|H]; [split; [repeat constructor|intros a b Hab; inl Hab]|]). all: try contradiction.
  - intros k v H. destruct H.
  - intros k v H. repeat (destruct H as [[= <- <-]|H]; [split; [split; [repeat constructor|intros a b Hab; inl Hab]|intros ro t Ht]|]); try contradiction.
    all: cbn in Ht; repeat (destruct Ht as [[= <- <-]|Ht]; [split; [reflexivity|cbn; tauto]|]); try contradiction.
Qed.
Print Assumptions C37_relation_equality_refuted.
(** Files with different coordinates, attributes and members compare equal. *)
Theorem C37_file_equality_refuted : exists f g : @file Q,
  file_eqb f g = Some true /\ map (fun e => n_lat (snd e)) (f_nodes f) <> map (fun e => n_lat (snd e)) (f_nodes g) /\
  map (fun e => r_members (snd e)) (f_rels f) <> map (fun e => r_members (snd e)) (f_rels g).
Proof.
  exists (eq_file [("refers", RNode 1)] []), (File [(1, Node 1 [] (8 # 1) (2 # 1) (0 # 1)); (2, Node 2 [] (3 # 1) (4 # 1) (0 # 1))]%Z [] [(5, Relation 5 [] [("refers", RNode 2)])]%Z).
  split; [reflexivity|]. split; discriminate.
Qed.
Print Assumptions C37_file_equality_refuted.
Example C37_nonvacuous :
  relation_eqb ex_file ex_file (Relation 4 [] [("a", RWay 3); ("b", RNode 2)]) (Relation 4 [] [("a", RWay 3); ("b", RNode 2)]) = Some true /\
  relation_eqb ex_file ex_file (Relation 4 [] [("a", RWay 3)]) (Relation 4 [] [("a", RNode 2)]) = Some false /\
  way_eqb ex_file ex_file (Way 3 [] [2; -1]%Z) (Way 3 [] [2; 2]%Z) = Some false.
Proof. repeat split. Qed.
