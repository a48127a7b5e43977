(** C24, C25, C47: attribute values. *)
From Coq Require Import List Arith Bool String Ascii ZArith QArith Lia.
From Verif Require Import AttrModel.
From Verif Require AttrProofs.
Import ListNotations.
Local Open Scope string_scope.
Local Open Scope list_scope.
Local Open Scope nat_scope.

(** ** C24 *)
(** The way of construction does not lose information: the printed value reads back
    as the value itself. *)
Definition survives {D Vel} lex_double stod (kmh mps mph : D -> Vel) print_double vel_kmh (x : source D Vel) : Prop :=
  match x with
  | FromString _ | FromBool _ => True
  | FromId i => (- 2 ^ 63 <= i <= 2 ^ 63 - 1)%Z       (* the range of the type *)
  | FromInt i => (- 2 ^ 31 <= i <= 2 ^ 31 - 1)%Z
  | FromDouble d => lex_double (print_double d) = Some d
  | FromVelocity v =>
    snd (as_velocity lex_double stod kmh mps mph (Attr (print_double (vel_kmh v)) None)) = Some v
  end.

(** Each getter always gives the same result [f g], whatever was called before. The
    results are those on the freshly constructed attribute. *)
Theorem C24_getters_stable_partial {D Vel} (lex_double : string -> option D) stod (kmh mps mph : D -> Vel) print_double vel_kmh
    (x : source D Vel) :
  survives lex_double stod kmh mps mph print_double vel_kmh x ->
  let a := construct print_double vel_kmh x in
  forall gs, get_all lex_double stod kmh mps mph gs a =
             map (fun g => snd (get lex_double stod kmh mps mph g a)) gs.
Proof.
  intros S a.
  assert (O : AttrProofs.ok lex_double stod kmh mps mph a).
  { destruct x; cbn [survives] in S; subst a; cbn [construct].
    - apply AttrProofs.ok_string.
    - apply (AttrProofs.ok_cache _ _ _ _ _ _ _ GBool). cbn [cached AttrProofs.plain]. rewrite AttrProofs.bool_print. auto.
    - apply (AttrProofs.ok_cache _ _ _ _ _ _ _ GId). cbn [cached AttrProofs.plain].
      unfold lex_id. rewrite AttrProofs.lex_print by auto. auto.
    - apply (AttrProofs.ok_cache _ _ _ _ _ _ _ GInt). cbn [cached AttrProofs.plain].
      unfold lex_int. rewrite AttrProofs.lex_print by auto. auto.
    - apply (AttrProofs.ok_cache _ _ _ _ _ _ _ GDouble). cbn [cached AttrProofs.plain]. rewrite S. auto.
    - apply (AttrProofs.ok_cache _ _ _ _ _ _ _ GVel). cbn [cached AttrProofs.plain].
      set (s := print_double (vel_kmh v)) in *.
      destruct (AttrProofs.get_ok lex_double stod kmh mps mph GVel (Attr s None)) as (a' & E & _).
      { apply AttrProofs.ok_string. }
      cbn [get] in E. destruct (as_velocity lex_double stod kmh mps mph (Attr s None)) as [a1 r].
      cbn [snd] in S. subst r. cbn [a_value AttrProofs.plain] in E. injection E as _ E1. rewrite <- E1. reflexivity. }
  intros gs. rewrite AttrProofs.get_all_ok by auto. apply map_ext. intros g.
  destruct (AttrProofs.get_ok lex_double stod kmh mps mph g a O) as (a' & -> & _). auto.
Qed.
Print Assumptions C24_getters_stable_partial.

(** In particular the value put in is returned after any other calls. *)
Definition own {D Vel} (x : source D Vel) : option (getter * result D Vel) :=
  match x with
  | FromString _ => None
  | FromBool b => Some (GBool, RBool (Some b))
  | FromId i => Some (GId, RId (Some i))
  | FromInt i => Some (GInt, RInt (Some i))
  | FromDouble d => Some (GDouble, RDouble (Some d))
  | FromVelocity v => Some (GVel, RVel (Some v))
  end.
Theorem C24_constructed_value_partial {D Vel} (lex_double : string -> option D) stod (kmh mps mph : D -> Vel) print_double vel_kmh
    (x : source D Vel) g r gs :
  survives lex_double stod kmh mps mph print_double vel_kmh x -> own x = Some (g, r) ->
  nth_error (get_all lex_double stod kmh mps mph (gs ++ [g]) (construct print_double vel_kmh x)) (List.length gs) = Some r.
Proof.
  intros S O. rewrite (C24_getters_stable_partial lex_double stod kmh mps mph print_double vel_kmh x S), map_app.
  rewrite nth_error_app2 by (rewrite map_length; lia). rewrite map_length, Nat.sub_diag.
  destruct x; inversion O; subst; reflexivity.
Qed.
Print Assumptions C24_constructed_value_partial.

(** For attributes made from a double the condition is necessary. *)
Theorem C24_double_condition_partial {D Vel} (lex_double : string -> option D) stod (kmh mps mph : D -> Vel) print_double vel_kmh d :
  (exists f, forall gs, get_all lex_double stod kmh mps mph gs (construct print_double vel_kmh (FromDouble d)) = map f gs) <->
  lex_double (print_double d) = Some d.
Proof.
  split.
  - intros (f & F). assert (F1 := F [GDouble]). assert (F2 := F [GVel; GDouble]).
    cbn in F1, F2. destruct (lex_double (print_double d)) as [d'|]; cbn in *; congruence.
  - intros S. eexists. intros gs. apply (C24_getters_stable_partial lex_double stod kmh mps mph print_double vel_kmh (FromDouble d)). exact S.
Qed.
Print Assumptions C24_double_condition_partial.

(** Decimal numbers for concrete cases: rational numbers instead of doubles, printed
    with six digits after the point as std::to_string does. *)
Definition round_half_even (q : Q) : Z :=
  let f := (Qnum q / Zpos (Qden q))%Z in
  let r := (2 * (Qnum q - f * Zpos (Qden q)))%Z in
  match (r ?= Zpos (Qden q))%Z with
  | Lt => f
  | Gt => (f + 1)%Z
  | Eq => if Z.even f then f else (f + 1)%Z
  end.
Definition pad (n : nat) (s : string) : string :=
  if Nat.leb n (String.length s) then s else match n with O => s | S _ => (fix p k := match k with O => s | S j => String "0" (p j) end) (n - String.length s) end.
Definition print_f (q : Q) : string :=
  let n := round_half_even (q * (1000000 # 1)) in
  let a := Z.abs n in
  ((if n <? 0 then "-" else "")%Z ++ print_Z (a / 1000000) ++ "." ++ pad 6 (print_Z (a mod 1000000)))%string.
Fixpoint digits (acc : Z) (k : nat) (s : string) : Z * nat * string :=
  match s with
  | EmptyString => (acc, k, s)
  | String c r =>
    let n := N_of_ascii c in
    if (48 <=? n)%N && (n <=? 57)%N then digits (10 * acc + (Z.of_N n - 48))%Z (S k) r else (acc, k, s)
  end.
(** A number at the beginning, and what follows it. *)
Definition scan (s : string) : option (Q * string) :=
  let '(neg, s0) := match s with String "-"%char r => (true, r) | String "+"%char r => (false, r) | _ => (false, s) end in
  let '(ip, k, s1) := digits 0 0 s0 in
  let '(n, m, s2) := match s1 with String "."%char r => let '(n, m, t) := digits ip 0 r in (n, m, t) | _ => (ip, 0, s1) end in
  if Nat.eqb (k + m) 0 then None
  else Some ((if neg then - n else n)%Z # Pos.of_nat (Nat.pow 10 m), s2).
Definition lex_q (s : string) : option Q := match scan s with Some (q, EmptyString) => Some (Qred q) | _ => None end.
Definition stod_q (s : string) : option (Q * nat) :=
  match scan s with Some (q, r) => Some (Qred q, String.length s - String.length r) | None => None end.
Definition q_kmh (q : Q) : Q := Qred q.
Definition q_mps (q : Q) : Q := Qred (q * (18 # 5)).
Definition q_mph (q : Q) : Q := Qred (q * (1609344 # 1000000)).
Notation getq := (get_all lex_q stod_q q_kmh q_mps q_mph).
Notation fromq := (construct print_f (fun v : Q => v)).

Example C24_nonvacuous :
  survives lex_q stod_q q_kmh q_mps q_mph print_f (fun v : Q => v) (FromDouble (5 # 2)) /\
  survives lex_q stod_q q_kmh q_mps q_mph print_f (fun v : Q => v) (FromVelocity (45 # 2)) /\
  getq [GInt; GVel; GDouble; GBool; GId; GVel; GInt] (fromq (FromString "50 mps")) =
    [RInt None; RVel (Some (180 # 1)); RDouble None; RBool None; RId None; RVel (Some (180 # 1)); RInt None] /\
  getq [GInt; GVel; GDouble; GBool; GId; GInt] (fromq (FromInt 1)) =
    [RInt (Some 1%Z); RVel (Some (1 # 1)); RDouble (Some (1 # 1)); RBool (Some true); RId (Some 1%Z); RInt (Some 1%Z)] /\
  getq [GBool; GInt; GBool] (fromq (FromString "yes")) = [RBool (Some true); RInt None; RBool (Some true)].
Proof. vm_compute. repeat split. Qed.

(** A small number is printed as 0.000000: asDouble first returns the number, and 0
    once asVelocity was called in between. *)
Theorem C24_double_refuted : exists d : Q,
  getq [GDouble] (fromq (FromDouble d)) = [RDouble (Some d)] /\
  getq [GDouble; GVel; GDouble] (fromq (FromDouble d)) = [RDouble (Some d); RVel (Some d); RDouble (Some (0 # 1))] /\
  d <> 0 # 1.
Proof. exists (1 # 16777216). vm_compute. repeat split. discriminate. Qed.
Print Assumptions C24_double_refuted.
(** Likewise for velocities: asDouble changes what asVelocity returns. *)
Theorem C24_velocity_refuted : exists v : Q,
  getq [GVel] (fromq (FromVelocity v)) = [RVel (Some v)] /\
  getq [GDouble; GVel] (fromq (FromVelocity v)) = [RDouble (Some (0 # 1)); RVel (Some (0 # 1))] /\ v <> 0 # 1.
Proof. exists (1 # 16777216). vm_compute. repeat split. discriminate. Qed.
Print Assumptions C24_velocity_refuted.

(** ** C25 *)
(** Two readers of an attribute with the value "5": the second one stores a new cache
    object while the first one holds a raw pointer into the old one. *)
Theorem C25_use_after_free_refuted : exists sched t,
  nth_error (s_threads (srun lex_q stod_q q_kmh q_mps q_mph (construct print_f (fun v : Q => v) (FromString "5"))
                             [[GDouble; GDouble]; [GInt]] sched)) 0 = Some t /\
  t_pc t = PBad.
Proof.
  exists [0; 0; 0; 0; 0; 0;      (* first asDouble: start, load, convert, store, release, return *)
     0; 0; 0; 0;                 (* second asDouble: start, load, raw pointer, release *)
     1; 1; 1; 1; 1;              (* asInt: start, load, other type, convert, store *)
     0].                         (* read through the raw pointer *)
  eexists. split; [vm_compute; reflexivity|]. reflexivity.
Qed.
Print Assumptions C25_use_after_free_refuted.

(** Whatever the schedule, every call that returns gives the result of a single-threaded
    call (attributes whose cache agrees with the string), and returns happen in call order. *)
Theorem C25_values_partial {D Vel} (lex_double : string -> option D) stod (kmh mps mph : D -> Vel) print_double vel_kmh
    (x : source D Vel) calls sched i t gs :
  survives lex_double stod kmh mps mph print_double vel_kmh x ->
  let a := construct print_double vel_kmh x in
  nth_error (s_threads (srun lex_double stod kmh mps mph a calls sched)) i = Some t -> nth_error calls i = Some gs ->
  t_pc t <> PBad ->
  exists done rest, gs = done ++ rest /\ t_out t = combine done (get_all lex_double stod kmh mps mph done a).
Proof.
  intros S a N C B.
  assert (F := C24_getters_stable_partial lex_double stod kmh mps mph print_double vel_kmh x S). fold a in F. cbv zeta in F.
  assert (O : forall g r, In (g, r) (t_out t) -> r = snd (get lex_double stod kmh mps mph g a)).
  { assert (OK : AttrProofs.ok lex_double stod kmh mps mph a).
    { intros c E g r CA. assert (G := F [g]). cbn [get_all map] in G.
      (* the cached result is what get returns; after any other getter it is recomputed *)
      subst a. destruct x; cbn [construct a_cache a_value survives] in *; try discriminate; inversion E; subst c;
        destruct g; cbn [cached] in CA; try discriminate; inversion CA; subst r; cbn [AttrProofs.plain].
      - rewrite AttrProofs.bool_print. auto.
      - unfold lex_id. rewrite AttrProofs.lex_print by auto. auto.
      - unfold lex_int. rewrite AttrProofs.lex_print by auto. auto.
      - rewrite S. auto.
      - set (s := print_double (vel_kmh v)) in *.
        destruct (AttrProofs.get_ok lex_double stod kmh mps mph GVel (Attr s None)) as (a' & E' & _).
        { apply AttrProofs.ok_string. }
        cbn [get] in E'. destruct (as_velocity lex_double stod kmh mps mph (Attr s None)) as [a1 r].
        cbn [snd] in S. subst r. cbn [a_value AttrProofs.plain] in E'. injection E' as _ E1. rewrite <- E1. reflexivity. }
    intros g r I. assert (H := AttrProofs.srun_ok lex_double stod kmh mps mph a calls sched OK).
    destruct H as [_ H]. destruct (H t (nth_error_In _ _ N)) as [_ H']. rewrite (H' g r I).
    destruct (AttrProofs.get_ok lex_double stod kmh mps mph g a OK) as (a' & -> & _). auto. }
  assert (P := AttrProofs.srun_progress lex_double stod kmh mps mph a calls sched i t gs N C).
  assert (PR : exists rest, gs = map fst (t_out t) ++ rest).
  { unfold AttrProofs.progress in P. destruct (t_pc t); try congruence; eauto. }
  destruct PR as (rest & ->). exists (map fst (t_out t)), rest. split; auto. rewrite F.
  clear -O. induction (t_out t) as [|[g r] l IH]; auto. cbn [map fst combine].
  rewrite <- (O g r (or_introl eq_refl)). f_equal. apply IH. intros g' r' I. apply O. right. auto.
Qed.
Print Assumptions C25_values_partial.

(** A single reader never touches freed memory. *)
Theorem C25_single_reader_partial {D Vel} (lex_double : string -> option D) stod (kmh mps mph : D -> Vel) a gs sched t :
  In t (s_threads (srun lex_double stod kmh mps mph a [gs] sched)) -> t_pc t <> PBad.
Proof.
  destruct (AttrProofs.single_settled lex_double stod kmh mps mph a gs sched) as (t' & -> & H). intros [<-|[]]. auto.
Qed.
Print Assumptions C25_single_reader_partial.

(** Any number of readers that all find what they want in the cache (or whose
    conversion fails, or is the literal "0" or "1" read as bool) never touch freed
    memory. *)
Theorem C25_no_store_partial {D Vel} (lex_double : string -> option D) stod (kmh mps mph : D -> Vel) (a : attr D Vel) calls sched t :
  (forall gs g, In gs calls -> In g gs ->
     (exists c r, a_cache a = Some c /\ cached g c = Some r) \/
     (g = GBool /\ lex_bool (a_value a) <> None) \/
     (g = GBool /\ conv_bool (a_value a) = None) \/
     (g = GDouble /\ lex_double (a_value a) = None) \/
     (g = GId /\ lex_id (a_value a) = None) \/
     (g = GInt /\ lex_int (a_value a) = None)) ->
  In t (s_threads (srun lex_double stod kmh mps mph a calls sched)) -> t_pc t <> PBad.
Proof.
  intros H. apply AttrProofs.srun_quiet. intros gs g I1 I2.
  destruct (H gs g I1 I2) as [A|[[-> A]|[[-> A]|[[-> A]|[[-> A]|[-> A]]]]]].
  - left. auto.
  - right. split; [discriminate|]. right. cbn. destruct (lex_bool (a_value a)); congruence.
  - right. split; [discriminate|]. left. cbn. rewrite A. auto.
  - right. split; [discriminate|]. left. cbn. rewrite A. auto.
  - right. split; [discriminate|]. left. cbn. rewrite A. auto.
  - right. split; [discriminate|]. left. cbn. rewrite A. auto.
Qed.
Print Assumptions C25_no_store_partial.
Example C25_nonvacuous :
  (* three readers of a cached integer, interleaved *)
  map t_out (s_threads (srun lex_q stod_q q_kmh q_mps q_mph (construct print_f (fun v : Q => v) (FromInt 7))
     [[GInt]; [GInt; GInt]; [GBool; GInt]] (List.concat (repeat [0; 1; 2; 1; 2] 12)))) =
  [[(GInt, RInt (Some 7%Z))]; [(GInt, RInt (Some 7%Z)); (GInt, RInt (Some 7%Z))]; [(GBool, RBool None); (GInt, RInt (Some 7%Z))]] /\
  (* one reader with conversions and stores *)
  map t_out (s_threads (srun lex_q stod_q q_kmh q_mps q_mph (construct print_f (fun v : Q => v) (FromString "5"))
     [[GVel; GDouble; GInt; GVel]] (repeat 0 60))) =
  [[(GVel, RVel (Some (5 # 1))); (GDouble, RDouble (Some (5 # 1))); (GInt, RInt (Some 5%Z)); (GVel, RVel (Some (5 # 1)))]].
Proof. vm_compute. repeat split. Qed.

(** ** C47 *)
Fixpoint all_space (s : string) : bool :=
  match s with
  | EmptyString => true
  | String c r => (Ascii.eqb c " " || Ascii.eqb c (ascii_of_N 9)) && all_space r
  end.
(** The documented units. *)
Definition unit_of {D Vel} (kmh mps mph : D -> Vel) (u : string) : option (D -> Vel) :=
  if String.eqb u "km/h" || String.eqb u "kmh" || String.eqb u "" then Some kmh
  else if String.eqb u "m/s" || String.eqb u "mps" then Some mps
  else if String.eqb u "m/h" || String.eqb u "mph" then Some mph
  else None.


Theorem C47_units_partial {D Vel} (lex_double : string -> option D) stod (kmh mps mph : D -> Vel) number space u d f :
  all_space space = true -> unit_of kmh mps mph u = Some f -> u <> "" ->
  let s := (number ++ space ++ u)%string in
  lex_double s = None -> stod s = Some (d, String.length number) ->
  snd (as_velocity lex_double stod kmh mps mph (Attr s None)) = Some (f d).
Proof.
  intros SP U NE s L ST. unfold as_velocity, as_double. cbn [a_value a_cache]. rewrite L. cbn [a_value].
  unfold unit_velocity. rewrite ST. unfold get_unit.
  assert (LEN : String.length s = String.length number + String.length (space ++ u)).
  { subst s. clear. induction number; simpl; auto. }
  assert (SUB : substring (String.length number) (String.length s - String.length number) s = (space ++ u)%string).
  { rewrite LEN. replace (String.length number + String.length (space ++ u) - String.length number)
      with (String.length (space ++ u)) by lia. subst s. clear. induction number as [|c n IH].
    - cbn. induction (space ++ u)%string as [|c r IH]; cbn; auto. rewrite IH. auto.
    - cbn. exact IH. }
  assert (LT : Nat.leb (String.length s) (String.length number) = false).
  { apply Nat.leb_gt. rewrite LEN. assert (0 < String.length (space ++ u)); [|lia].
    clear -NE. destruct space; cbn; [destruct u; [congruence|cbn]|]; lia. }
  rewrite LT, SUB. clear LT SUB LEN ST L.
  assert (CT : forall sub, sub <> "" -> (match sub with String c _ => Ascii.eqb c " " || Ascii.eqb c (ascii_of_N 9) | _ => false end) = false ->
     contains sub (space ++ u) = contains sub u).
  { intros sub SN SC. clear -SP SN SC. induction space as [|c r IH]; auto. cbn [all_space] in SP.
    apply andb_true_iff in SP as [S1 S2]. change ((String c r ++ u)%string) with (String c (r ++ u)).
    cbn [contains]. rewrite IH by auto. destruct sub as [|c' sub]; [congruence|].
    cbn [prefix]. destruct (ascii_dec c' c) as [->|]; auto. congruence. }
  rewrite !CT by (try discriminate; reflexivity). clear CT. unfold unit_of in U.
  destruct (String.eqb u "km/h" || String.eqb u "kmh" || String.eqb u "") eqn:A1.
  { apply orb_true_iff in A1 as [A1|A1]; [apply orb_true_iff in A1 as [A1|A1]|]; apply String.eqb_eq in A1; subst u;
      inversion U; subst f; try reflexivity. congruence. }
  destruct (String.eqb u "m/s" || String.eqb u "mps") eqn:A2.
  { apply orb_true_iff in A2 as [A2|A2]; apply String.eqb_eq in A2; subst u; inversion U; subst f; reflexivity. }
  destruct (String.eqb u "m/h" || String.eqb u "mph") eqn:A3; [|discriminate].
  apply orb_true_iff in A3 as [A3|A3]; apply String.eqb_eq in A3; subst u; inversion U; subst f; reflexivity.
Qed.
Print Assumptions C47_units_partial.
Example C47_nonvacuous :
  getq [GVel] (fromq (FromString "10 km/h")) = [RVel (Some (10 # 1))] /\
  getq [GVel] (fromq (FromString "10mps")) = [RVel (Some (36 # 1))] /\
  getq [GVel] (fromq (FromString "10  mph")) = [RVel (Some (50292 # 3125))] /\
  getq [GVel] (fromq (FromString "10")) = [RVel (Some (10 # 1))] /\
  getq [GVel] (fromq (FromString "10 kn")) = [RVel None] /\
  lex_q "10 km/h" = None /\ stod_q "10 km/h" = Some (10 # 1, 2).
Proof. vm_compute. repeat split. Qed.

(** Units are searched for anywhere behind the number: kilometres per second are read
    as metres per second. *)
Theorem C47_other_unit_refuted : exists u, unit_of q_kmh q_mps q_mph u = None /\
  getq [GVel] (fromq (FromString ("10 " ++ u))) = [RVel (Some (36 # 1))].
Proof. exists "km/s". vm_compute. repeat split. Qed.
Print Assumptions C47_other_unit_refuted.
(** Kilometres per hour written kmph are read as miles per hour. *)
Theorem C47_kmph_refuted :
  getq [GVel] (fromq (FromString "10 kmph")) = getq [GVel] (fromq (FromString "10 mph")) /\
  getq [GVel] (fromq (FromString "10 kmph")) <> getq [GVel] (fromq (FromString "10 kmh")).
Proof. split; [vm_compute; reflexivity|vm_compute; discriminate]. Qed.
Print Assumptions C47_kmph_refuted.
