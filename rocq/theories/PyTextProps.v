(** C126: attributes set and read in Python. *)
From Coq Require Import List Bool ZArith Lia.
From Verif Require Import PyTextModel PyTextSpec PyTextProofs.
Import ListNotations.
Local Open Scope Z_scope.

(** A string of Python has an encoding exactly if it has no surrogates, and the bytes tell the string; ... *)
Theorem C126_encode s : python_text s ->
  (encodable s <-> exists b, encode s = Some b) /\ (forall b, encode s = Some b -> decode b = Some s).
Proof.
  intros P. split; [split|].
  - intros H. destruct (encodable_encode s H) as (b & E & _). eauto.
  - intros (b & E). exact (encode_encodable s b P E).
  - intros b E. exact (decode_encode s b (encode_encodable s b P E) E).
Qed.
Print Assumptions C126_encode.

(** ... bytes of C++ can be read in Python exactly if they are the encoding of a string, ... *)
Theorem C126_read m k kb v : encodable k -> encode k = Some kb -> find kb m = Some v -> is_bytes v ->
  (forall s, encodable s /\ encode s = Some v -> get_item m (Str k) = Done s) /\
  ((forall s, encodable s -> encode s <> Some v) -> get_item m (Str k) = Fails UnicodeError).
Proof.
  intros Hk Ek F B. unfold get_item, to_string. rewrite Ek. cbn [bind]. rewrite F. split.
  - intros s [Hs E]. rewrite (decode_encode s v Hs E). reflexivity.
  - intros N. destruct (decode v) as [s|] eqn:D; [|reflexivity]. exfalso.
    destruct (decode_sound (length v) v s (le_n _) B D) as [Hs E]. exact (N s Hs E).
Qed.
Print Assumptions C126_read.

(** ... and there are others: an attribute with the byte 228 (a letter in Latin-1) cannot be read. *)
Theorem C126_read_refuted : exists m k, encodable k /\ find k m <> None /\ encode k = Some k /\ get_item m (Str k) = Fails UnicodeError.
Proof.
  exists [([110], [228; 98])], [110]. split; [repeat constructor; lia|]. split; [discriminate|]. split; reflexivity.
Qed.
Print Assumptions C126_read_refuted.

(** Attributes given as a dictionary are read like the dictionary. *)
Theorem C126_dict l : all_encodable l -> literal l ->
  exists m, from_dict (objects l) = Done m /\ like m (stored l (fun _ => None)).
Proof. intros A L. apply from_dict_like; [exact A|exact L|exact like_empty|reflexivity]. Qed.
Print Assumptions C126_dict.

(** So are attributes that are assigned one by one, and AttributeMap(d), if no value has a NUL; ... *)
Definition plain (l : list (text * text)) := Forall (fun kv => encodable (fst kv) /\ encodable (snd kv) /\ no_nul (snd kv)) l.
Theorem C126_assign_partial m d l : like m d -> plain l ->
  exists m', set_items m l = Done m' /\ like m' (stored l d).
Proof. intros H P. apply set_items_like; [exact P|exact H]. Qed.
Print Assumptions C126_assign_partial.

Theorem C126_init_partial l : plain l -> exists m, init (objects l) = Done m /\ like m (stored l (fun _ => None)).
Proof. intros P. apply init_like; [exact P|exact like_empty]. Qed.
Print Assumptions C126_init_partial.

(** ... a value is cut at its first NUL: the same dictionary gives different attributes as an argument and in AttributeMap(d). *)
Theorem C126_nul_refuted k s t : encodable k -> encodable s -> encodable t -> no_nul s ->
  let d := [(Str k, Str (s ++ 0 :: t))] in
  exists m m' m'', set_item [] (Str k) (Str (s ++ 0 :: t)) = Done m /\ init d = Done m' /\ from_dict d = Done m'' /\
    get_item m (Str k) = Done s /\ get_item m' (Str k) = Done s /\ get_item m'' (Str k) = Done (s ++ 0 :: t).
Proof.
  intros Hk Hs Ht Ns. cbn zeta.
  assert (Hst : encodable (s ++ 0 :: t)). { apply Forall_app. split; [exact Hs|]. constructor; [split; lia|exact Ht]. }
  destruct (encodable_encode k Hk) as (kb & Ek & _), (encodable_encode s Hs) as (sb & Es & _), (encodable_encode _ Hst) as (vb & Ev & _).
  assert (C : until_nul vb = sb).
  { clear Hst Hk Ek. revert sb vb Es Ev. induction s as [|c s IH]; intros sb vb Es Ev.
    - injection Es as <-. cbn in Ev. destruct (encode t) as [tb|]; [|discriminate]. apply some_inj in Ev. subst vb. reflexivity.
    - inversion Hs as [|? ? Hc Hs']; inversion Ns as [|? ? Nc Ns']; subst.
      assert (Esc := Es). cbn in Es, Ev. destruct (encode_point c) as [bc|] eqn:Ec; [|discriminate].
      destruct (encode s) as [bs|] eqn:E1; [|discriminate]. destruct (encode (s ++ 0 :: t)) as [bv|] eqn:E2; [|discriminate].
      apply some_inj in Es, Ev. subst sb vb. specialize (IH Hs' Ns' bs bv eq_refl eq_refl).
      assert (U : until_nul bc = bc).
      { apply (until_nul_app_some [c] bc); [constructor; [exact Nc|constructor]| |].
        - constructor; [destruct Hc; lia|constructor].
        - cbn. rewrite Ec, app_nil_r. reflexivity. }
      rewrite <- IH. clear - U. induction bc as [|x bc IHb]; [reflexivity|]. cbn in *. destruct (x =? 0) eqn:E; [discriminate|].
      injection U as U. rewrite (IHb U). reflexivity. }
  exists [(kb, sb)], [(kb, sb)], [(kb, vb)]. unfold set_item, init, from_dict, to_attribute, get_item.
  cbn [init_loop from_dict_loop]. unfold to_attribute, to_string. rewrite Ev, Ek. cbn [bind]. rewrite ?Ek, ?C. cbn [bind].
  cbn [assign insert find app]. rewrite bytes_eqb_refl.
  rewrite (decode_encode s sb Hs Es), (decode_encode _ vb Hst Ev). repeat split; reflexivity.
Qed.
Print Assumptions C126_nul_refuted.

(** A value with a surrogate: as part of a dictionary argument it raises, but assigning it follows a null pointer. *)
Theorem C126_surrogate_refuted m k v : encodable k -> python_text v -> ~ encodable v ->
  from_dict [(Str k, Str v)] = Fails UnicodeError /\
  set_item m (Str k) (Str v) = Fails NullPointer /\ init [(Str k, Str v)] = Fails NullPointer.
Proof.
  intros Hk Pv N. destruct (encodable_encode k Hk) as (kb & Ek & _).
  assert (E : encode v = None). { destruct (encode v) as [b|] eqn:E; [|reflexivity]. destruct (N (encode_encodable v b Pv E)). }
  unfold from_dict, set_item, init. cbn [from_dict_loop init_loop]. unfold to_attribute, to_string. rewrite Ek, E. repeat split; reflexivity.
Qed.
Print Assumptions C126_surrogate_refuted.

(** Anything but strings raises, as key or value. *)
Theorem C126_no_strings m k s v : encodable k -> encodable s ->
  set_item m (Str k) NoStr = Fails TypeError /\ set_item m NoStr (Str s) = Fails TypeError /\ get_item m NoStr = Fails TypeError /\
  from_dict [(NoStr, v)] = Fails TypeError /\ from_dict [(Str k, NoStr)] = Fails TypeError /\
  init [(NoStr, v)] = Fails KeyError /\ init [(Str k, NoStr)] = Fails KeyError.
Proof.
  intros Hk Hs. destruct (encodable_encode k Hk) as (kb & Ek & _), (encodable_encode s Hs) as (sb & Es & _).
  unfold from_dict, set_item, init. cbn [from_dict_loop init_loop]. unfold to_attribute, to_string. rewrite Ek, Es. repeat split; reflexivity.
Qed.
Print Assumptions C126_no_strings.

Example C126_nonvacuous :
  (* "grün", the euro sign and a sign beyond 16 bits *)
  encode [103; 114; 252; 110] = Some [103; 114; 195; 188; 110] /\ encode [8364] = Some [226; 130; 172] /\
  encode [128512] = Some [240; 159; 152; 128] /\ decode [240; 159; 152; 128; 65] = Some [128512; 65] /\
  decode [192; 128] = None /\ decode [237; 160; 128] = None /\ encode [55296] = None /\
  bind (set_items [] [([107], [252]); ([108], [8364]); ([107], [65; 66])]) (fun m => get_item m (Str [107])) = Done [65; 66] /\
  bind (set_item [] (Str [107]) (Str [65; 0; 66])) (fun m => get_item m (Str [107])) = Done [65].
Proof. repeat split; reflexivity. Qed.
