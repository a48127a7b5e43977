(** Proofs for attributes in Python. *)
From Coq Require Import List Bool ZArith Lia.
From Verif Require Import PyTextModel PyTextSpec.
Import ListNotations.
Local Open Scope Z_scope.

(** ** UTF-8 *)
Ltac cases := repeat match goal with
  | |- context [?a <? ?b] => destruct (Z.ltb_spec a b); try (exfalso; lia)
  | |- context [?a <=? ?b] => destruct (Z.leb_spec a b); try (exfalso; lia)
  end; cbn [andb negb].

Lemma some_inj {T} (a b : T) : Some a = Some b -> a = b.
Proof. congruence. Qed.

Lemma digits2 c : 0 <= c -> exists a b, c / 64 = a /\ c mod 64 = b /\ c = a * 64 + b /\ 0 <= a /\ 0 <= b < 64.
Proof.
  intros H. exists (c / 64), (c mod 64). pose proof (Z.div_mod c 64). pose proof (Z.mod_pos_bound c 64). pose proof (Z.div_pos c 64).
  repeat split; lia.
Qed.
Lemma digits3 c : 0 <= c -> exists a b d, c / 4096 = a /\ (c / 64) mod 64 = b /\ c mod 64 = d /\ c = a * 4096 + b * 64 + d /\
  0 <= a /\ 0 <= b < 64 /\ 0 <= d < 64.
Proof.
  intros H. destruct (digits2 c H) as (q & d & Eq & Ed & E & Q & D). destruct (digits2 q Q) as (a & b & Ea & Eb & E' & A & B).
  exists a, b, d. replace 4096 with (64 * 64) by reflexivity. rewrite <- Z.div_div by lia. rewrite Eq. repeat split; try lia; assumption.
Qed.
Lemma digits4 c : 0 <= c -> exists a b d e, c / 262144 = a /\ (c / 4096) mod 64 = b /\ (c / 64) mod 64 = d /\ c mod 64 = e /\
  c = a * 262144 + b * 4096 + d * 64 + e /\ 0 <= a /\ 0 <= b < 64 /\ 0 <= d < 64 /\ 0 <= e < 64.
Proof.
  intros H. destruct (digits3 c H) as (q & d & e & Eq & Ed & Ee & E & Q & D & F).
  destruct (digits2 q Q) as (a & b & Ea & Eb & E' & A & B).
  exists a, b, d, e. replace 262144 with (4096 * 64) by reflexivity. rewrite <- Z.div_div by lia. rewrite Eq. repeat split; try lia; assumption.
Qed.

Lemma decode_point c b r : scalar c -> encode_point c = Some b -> decode (b ++ r) = cons_to c (decode r).
Proof.
  intros [R S]. unfold encode_point, surrogate.
  destruct (Z.ltb_spec c 128). { intros E. apply some_inj in E; subst b. cbn [app decode]. cases. reflexivity. }
  destruct (Z.ltb_spec c 2048).
  { destruct (digits2 c) as (x & y & -> & -> & E & X & Y); [lia|]. clear S. intros E'. apply some_inj in E'; subst b. cbn [app decode]. unfold cont.
    replace ((192 + x - 192) * 64 + (128 + y - 128)) with c by lia. cases. reflexivity. }
  destruct (Z.leb_spec 55296 c); [destruct (Z.leb_spec c 57343); [lia|]|]; cbn [andb].
  all: destruct (Z.ltb_spec c 65536).
  1,3: destruct (digits3 c) as (x & y & z & -> & -> & -> & E & X & Y & W); [lia|]; intros E'; apply some_inj in E'; subst b; cbn [app decode];
    unfold cont, surrogate; replace ((224 + x - 224) * 4096 + (128 + y - 128) * 64 + (128 + z - 128)) with c by lia; cases; reflexivity.
  all: destruct (digits4 c) as (x & y & z & w & -> & -> & -> & -> & E & X & Y & W & V); [lia|]; intros E'; apply some_inj in E'; subst b;
    cbn [app decode]; unfold cont;
    replace ((240 + x - 240) * 262144 + (128 + y - 128) * 4096 + (128 + z - 128) * 64 + (128 + w - 128)) with c by lia; cases; reflexivity.
Qed.

Lemma encode_point_scalar c : scalar c -> exists b, encode_point c = Some b.
Proof.
  intros [R S]. unfold encode_point, surrogate. destruct (c <? 128); [eauto|]. destruct (c <? 2048); [eauto|].
  destruct ((55296 <=? c) && (c <=? 57343)) eqn:E; [apply andb_prop in E; lia|]. destruct (c <? 65536); eauto.
Qed.
Lemma encode_point_some c b : 0 <= c < 1114112 -> encode_point c = Some b -> scalar c.
Proof.
  intros R. unfold encode_point, surrogate, scalar. destruct (Z.ltb_spec c 128); [lia|]. destruct (Z.ltb_spec c 2048); [lia|].
  destruct (Z.leb_spec 55296 c), (Z.leb_spec c 57343); cbn [andb]; [discriminate| | |]; lia.
Qed.

Lemma encodable_encode s : encodable s -> exists b, encode s = Some b /\ forall r, decode (b ++ r) =
  match decode r with Some t => Some (s ++ t) | None => None end.
Proof.
  induction 1 as [|c s Hc Hs (b & E & IH)].
  - exists []. split; [reflexivity|]. intros r. cbn. destruct (decode r); reflexivity.
  - destruct (encode_point_scalar c Hc) as (bc & Ec). exists (bc ++ b). cbn. rewrite Ec, E. split; [reflexivity|].
    intros r. rewrite <- app_assoc, (decode_point c bc _ Hc Ec), IH. destruct (decode r); reflexivity.
Qed.
Lemma decode_encode s b : encodable s -> encode s = Some b -> decode b = Some s.
Proof.
  intros H E. destruct (encodable_encode s H) as (b' & E' & D). rewrite E in E'. apply some_inj in E'; subst b.
  specialize (D []). rewrite app_nil_r in D. rewrite D. cbn. rewrite app_nil_r. reflexivity.
Qed.
Lemma encode_encodable s b : python_text s -> encode s = Some b -> encodable s.
Proof.
  intros H. revert b. induction H as [|c s Hc Hs IH]; intros b; [constructor|]. cbn.
  destruct (encode_point c) as [bc|] eqn:Ec; [|discriminate]. destruct (encode s) as [bs|]; [|discriminate]. intros _.
  constructor; [exact (encode_point_some c bc Hc Ec)|exact (IH bs eq_refl)].
Qed.
Lemma encode_inj s t b : encodable s -> encodable t -> encode s = Some b -> encode t = Some b -> s = t.
Proof. intros Hs Ht Es Et. pose proof (decode_encode s b Hs Es). pose proof (decode_encode t b Ht Et). congruence. Qed.

Lemma encode_digits2 a b : 2 <= a < 32 -> 0 <= b < 64 -> encode_point (a * 64 + b) = Some [192 + a; 128 + b].
Proof.
  intros A B. destruct (digits2 (a * 64 + b)) as (x & y & Ex & Ey & E & X & Y); [lia|].
  unfold encode_point. rewrite Ex, Ey. cases. assert (x = a) as -> by lia. assert (y = b) as -> by lia. reflexivity.
Qed.
Lemma encode_digits3 a b d : let c := a * 4096 + b * 64 + d in 0 <= a < 16 -> 0 <= b < 64 -> 0 <= d < 64 -> 2048 <= c ->
  surrogate c = false -> encode_point c = Some [224 + a; 128 + b; 128 + d].
Proof.
  intros c A B D C S. destruct (digits3 c) as (x & y & z & Ex & Ey & Ez & E & X & Y & W); [lia|].
  unfold encode_point. rewrite S, Ex, Ey, Ez. cases. assert (x = a) as -> by lia. assert (y = b) as -> by lia. assert (z = d) as -> by lia. reflexivity.
Qed.
Lemma encode_digits4 a b d e : let c := a * 262144 + b * 4096 + d * 64 + e in 0 <= a -> 0 <= b < 64 -> 0 <= d < 64 ->
  0 <= e < 64 -> 65536 <= c < 1114112 -> encode_point c = Some [240 + a; 128 + b; 128 + d; 128 + e].
Proof.
  intros c A B D F C. destruct (digits4 c) as (x & y & z & w & Ex & Ey & Ez & Ew & E & X & Y & W & V); [lia|].
  unfold encode_point, surrogate. rewrite Ex, Ey, Ez, Ew. cases.
  assert (x = a) as -> by lia. assert (y = b) as -> by lia. assert (z = d) as -> by lia. assert (w = e) as -> by lia. reflexivity.
Qed.

(** The converse: what can be decoded is the encoding of what it is decoded to. *)
Lemma cons_to_some c r s : cons_to c r = Some s -> exists t, r = Some t /\ s = c :: t.
Proof. destruct r as [t|]; [|discriminate]. intros E. injection E as <-. eauto. Qed.
Lemma cont_true b : cont b = true -> 128 <= b < 192.
Proof. unfold cont. intros H. apply andb_prop in H. lia. Qed.

Lemma decode_sound : forall n b s, (length b <= n)%nat -> is_bytes b -> decode b = Some s -> encodable s /\ encode s = Some b.
Proof.
  induction n as [|n IH]; intros b s L B D.
  - destruct b; [|cbn in L; lia]. injection D as <-. split; [constructor|reflexivity].
  - destruct b as [|a r]; [injection D as <-; split; [constructor|reflexivity]|].
    inversion B as [|? ? Ba Br]; subst. cbn [decode] in D. cbn [length] in L.
    assert (K : forall c t bc r', is_bytes r' -> (length r' <= n)%nat -> decode r' = Some t -> scalar c -> encode_point c = Some bc ->
      encodable (c :: t) /\ encode (c :: t) = Some (bc ++ r')).
    { intros c t bc r' Hb Hl Hd Hs He. destruct (IH r' t Hl Hb Hd) as [I1 I2]. split; [constructor; assumption|].
      cbn. rewrite He, I2. reflexivity. }
    destruct (Z.ltb_spec a 128).
    { apply cons_to_some in D. destruct D as (t & D & ->). apply (K a t [a] r); try assumption; [lia|split; lia|].
      unfold encode_point. cases. reflexivity. }
    destruct (Z.ltb_spec a 192); [discriminate|].
    destruct (Z.ltb_spec a 224).
    { destruct r as [|b1 r1]; [discriminate|]. cbn zeta in D.
      destruct (cont b1) eqn:C1; [|discriminate]. apply cont_true in C1. cbn [andb] in D.
      destruct (Z.leb_spec 128 ((a - 192) * 64 + (b1 - 128))) as [M|]; [|discriminate].
      apply cons_to_some in D. destruct D as (t & D & ->). inversion Br; subst. cbn [length] in L.
      pose proof (encode_digits2 (a - 192) (b1 - 128) ltac:(lia) ltac:(lia)) as E.
      replace (192 + (a - 192)) with a in E by lia. replace (128 + (b1 - 128)) with b1 in E by lia.
      apply (K _ t [a; b1] r1); try assumption; [lia|split; lia]. }
    destruct (Z.ltb_spec a 240).
    { destruct r as [|b1 [|b2 r2]]; [discriminate|discriminate|]. cbn zeta in D.
      destruct (cont b1) eqn:C1; [|discriminate]. apply cont_true in C1. destruct (cont b2) eqn:C2; [|discriminate]. apply cont_true in C2.
      cbn [andb] in D. destruct (Z.leb_spec 2048 ((a - 224) * 4096 + (b1 - 128) * 64 + (b2 - 128))) as [M|]; [|discriminate].
      destruct (surrogate _) eqn:S in D; [discriminate|]. cbn [andb negb] in D.
      apply cons_to_some in D. destruct D as (t & D & ->). inversion Br as [|? ? _ Br1]; subst. inversion Br1; subst. cbn [length] in L.
      pose proof (encode_digits3 (a - 224) (b1 - 128) (b2 - 128) ltac:(lia) ltac:(lia) ltac:(lia) M S) as E.
      replace (224 + (a - 224)) with a in E by lia. replace (128 + (b1 - 128)) with b1 in E by lia.
      replace (128 + (b2 - 128)) with b2 in E by lia.
      apply (K _ t [a; b1; b2] r2); try assumption; [lia|]. split; [lia|]. unfold surrogate in S. lia. }
    destruct r as [|b1 [|b2 [|b3 r3]]]; [discriminate|discriminate|discriminate|]. cbn zeta in D.
    destruct (cont b1) eqn:C1; [|discriminate]. apply cont_true in C1. destruct (cont b2) eqn:C2; [|discriminate]. apply cont_true in C2.
    destruct (cont b3) eqn:C3; [|discriminate]. apply cont_true in C3. cbn [andb] in D.
    destruct (Z.leb_spec 65536 ((a - 240) * 262144 + (b1 - 128) * 4096 + (b2 - 128) * 64 + (b3 - 128))) as [M|]; [|discriminate].
    destruct (Z.ltb_spec ((a - 240) * 262144 + (b1 - 128) * 4096 + (b2 - 128) * 64 + (b3 - 128)) 1114112) as [M'|]; [|discriminate].
    cbn [andb] in D. apply cons_to_some in D. destruct D as (t & D & ->).
    inversion Br as [|? ? _ Br1]; subst. inversion Br1 as [|? ? _ Br2]; subst. inversion Br2; subst. cbn [length] in L.
    pose proof (encode_digits4 (a - 240) (b1 - 128) (b2 - 128) (b3 - 128) ltac:(lia) ltac:(lia) ltac:(lia) ltac:(lia) ltac:(lia)) as E.
    replace (240 + (a - 240)) with a in E by lia. replace (128 + (b1 - 128)) with b1 in E by lia.
    replace (128 + (b2 - 128)) with b2 in E by lia. replace (128 + (b3 - 128)) with b3 in E by lia.
    apply (K _ t [a; b1; b2; b3] r3); try assumption; [lia|]. split; lia.
Qed.

(** ** Maps *)
Lemma bytes_eqb_refl b : bytes_eqb b b = true.
Proof. unfold bytes_eqb. destruct (list_eq_dec Z.eq_dec b b); [reflexivity|congruence]. Qed.
Lemma bytes_eqb_neq a b : a <> b -> bytes_eqb a b = false.
Proof. unfold bytes_eqb. destruct (list_eq_dec Z.eq_dec a b); [contradiction|reflexivity]. Qed.
Lemma bytes_eqb_eq a b : bytes_eqb a b = true -> a = b.
Proof. unfold bytes_eqb. destruct (list_eq_dec Z.eq_dec a b); [trivial|discriminate]. Qed.

Lemma find_assign k v m k' : find k' (assign k v m) = if bytes_eqb k' k then Some v else find k' m.
Proof.
  induction m as [|[x y] m IH]; cbn; [reflexivity|]. destruct (bytes_eqb k x) eqn:E; cbn.
  - apply bytes_eqb_eq in E. subst x. destruct (bytes_eqb k' k); reflexivity.
  - destruct (bytes_eqb k' x) eqn:E'.
    + apply bytes_eqb_eq in E'. subst x. destruct (bytes_eqb k' k) eqn:E2; [|reflexivity].
      apply bytes_eqb_eq in E2. subst k'. rewrite bytes_eqb_refl in E. discriminate.
    + exact IH.
Qed.
Lemma find_insert k v m k' : find k m = None -> find k' (insert k v m) = if bytes_eqb k' k then Some v else find k' m.
Proof.
  intros H. unfold insert. rewrite H. induction m as [|[x y] m IH]; cbn in *; [reflexivity|].
  destruct (bytes_eqb k x) eqn:E; [discriminate|]. destruct (bytes_eqb k' x) eqn:E'.
  - apply bytes_eqb_eq in E'. subst x. destruct (bytes_eqb k' k) eqn:E2; [|reflexivity].
    apply bytes_eqb_eq in E2. subst k'. rewrite bytes_eqb_refl in E. discriminate.
  - exact (IH H).
Qed.

Lemma until_nul_app_some s b : no_nul s -> Forall (fun c => 0 <= c) s -> encode s = Some b -> until_nul b = b.
Proof.
  intros N P. revert b. induction s as [|c s IH]; intros b E; [injection E as <-; reflexivity|].
  inversion N as [|? ? Nc Ns]; inversion P as [|? ? Pc Ps]; subst. cbn in E.
  destruct (encode_point c) as [bc|] eqn:Ec; [|discriminate]. destruct (encode s) as [bs|]; [|discriminate]. injection E as <-.
  specialize (IH Ns Ps bs eq_refl).
  assert (F : Forall (fun x => x <> 0) bc).
  { unfold encode_point in Ec. pose proof (Z.mod_pos_bound c 64). pose proof (Z.mod_pos_bound (c / 64) 64).
    pose proof (Z.mod_pos_bound (c / 4096) 64). pose proof (Z.div_pos c 64). pose proof (Z.div_pos c 4096). pose proof (Z.div_pos c 262144).
    destruct (c <? 128); [apply some_inj in Ec; subst bc; repeat constructor; exact Nc|].
    destruct (c <? 2048); [apply some_inj in Ec; subst bc; repeat constructor; lia|].
    destruct (surrogate c); [discriminate|]. destruct (c <? 65536); apply some_inj in Ec; subst bc; repeat constructor; lia. }
  clear Ec. induction F as [|x bc Hx _ IHb]; [exact IH|]. cbn. destruct (Z.eqb_spec x 0); [contradiction|]. rewrite IHb. reflexivity.
Qed.
Lemma encodable_pos s : encodable s -> Forall (fun c => 0 <= c) s.
Proof. apply Forall_impl. intros c [H _]. lia. Qed.

(** One more entry keeps a map like the dictionary. *)
Lemma like_entry m d k v kb vb m' : like m d -> encodable k -> encodable v -> encode k = Some kb -> encode v = Some vb ->
  (forall x, find x m' = if bytes_eqb x kb then Some vb else find x m) -> like m' (store k v d).
Proof.
  intros H Hk Hv Ek Ev F x Hx. specialize (H x Hx). unfold get_item, to_string in *.
  destruct (encodable_encode x Hx) as (xb & Ex & _). rewrite Ex in *. cbn [bind] in *. rewrite F. unfold store.
  destruct (text_dec k x) as [->|N].
  - assert (xb = kb) as -> by congruence. rewrite bytes_eqb_refl. rewrite (decode_encode v vb Hv Ev). reflexivity.
  - rewrite bytes_eqb_neq; [exact H|]. intros ->. apply N. exact (encode_inj k x kb Hk Hx Ek Ex).
Qed.
Lemma like_empty : like [] (fun _ => None).
Proof. intros k Hk. unfold get_item, to_string. destruct (encodable_encode k Hk) as (b & -> & _). reflexivity. Qed.
Lemma like_find m d k kb : like m d -> encodable k -> encode k = Some kb -> d k = None -> find kb m = None.
Proof.
  intros H Hk E N. specialize (H k Hk). unfold get_item, to_string in H. rewrite E in H. cbn [bind] in H. rewrite N in H.
  destruct (find kb m) as [v|]; [|reflexivity]. destruct (decode v); discriminate.
Qed.

Lemma set_items_like l : Forall (fun kv => encodable (fst kv) /\ encodable (snd kv) /\ no_nul (snd kv)) l -> forall m d, like m d ->
  exists m', set_items m l = Done m' /\ like m' (stored l d).
Proof.
  induction 1 as [|[k v] l (Hk & Hv & Nv) _ IH]; intros m d H; [exists m; split; [reflexivity|exact H]|].
  cbn [fst snd] in *. destruct (encodable_encode k Hk) as (kb & Ek & _), (encodable_encode v Hv) as (vb & Ev & _).
  cbn [set_items]. unfold set_item, to_attribute, to_string. rewrite Ev. cbn [bind]. rewrite Ek. cbn [bind].
  rewrite (until_nul_app_some v vb Nv (encodable_pos v Hv) Ev).
  apply IH. apply (like_entry m d k v kb vb); try assumption. intros x. apply find_assign.
Qed.
Lemma init_like l : Forall (fun kv => encodable (fst kv) /\ encodable (snd kv) /\ no_nul (snd kv)) l -> forall m d, like m d ->
  exists m', init_loop (objects l) m = Done m' /\ like m' (stored l d).
Proof.
  induction 1 as [|[k v] l (Hk & Hv & Nv) _ IH]; intros m d H; [exists m; split; [reflexivity|exact H]|].
  cbn [fst snd] in *. destruct (encodable_encode k Hk) as (kb & Ek & _), (encodable_encode v Hv) as (vb & Ev & _).
  cbn [objects map init_loop fst snd]. unfold to_attribute, to_string. rewrite Ek. cbn [bind]. rewrite Ev. cbn [bind].
  rewrite (until_nul_app_some v vb Nv (encodable_pos v Hv) Ev).
  apply IH. apply (like_entry m d k v kb vb); try assumption. intros x. apply find_assign.
Qed.
Lemma from_dict_like l : all_encodable l -> literal l -> forall m d, like m d ->
  (forall k, In k (map fst l) -> d k = None) -> exists m', from_dict_loop (objects l) m = Done m' /\ like m' (stored l d).
Proof.
  induction 1 as [|[k v] l (Hk & Hv) _ IH]; intros N m d H F; [exists m; split; [reflexivity|exact H]|].
  cbn [fst snd map] in *. unfold literal in N. cbn in N. inversion N as [|? ? Nk Nl]; subst.
  destruct (encodable_encode k Hk) as (kb & Ek & _), (encodable_encode v Hv) as (vb & Ev & _).
  cbn [objects map from_dict_loop fst snd]. unfold to_string. rewrite Ek. cbn [bind]. rewrite Ev. cbn [bind].
  apply IH; [exact Nl| |].
  - apply (like_entry m d k v kb vb); try assumption. intros x. apply find_insert.
    apply (like_find m d k kb H Hk Ek). apply F. left. reflexivity.
  - intros x Hx. unfold store. cbn [fst snd]. destruct (text_dec k x) as [->|]; [contradiction|]. apply F. right. exact Hx.
Qed.
