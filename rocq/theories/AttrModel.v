(** Model of Attribute: the value string, the cached result of the last conversion and
    the getters, sequentially and with several reader threads.

    Source: lanelet2_core/src/Attribute.cpp, lanelet2_core/include/lanelet2_core/Attribute.h.

    Floating point numbers [D] and velocities [Vel] and their conversions from and to
    strings are parameters (boost::lexical_cast<double>, std::stod, std::to_string);
    conversions of integers and bool are concrete. *)
From Coq Require Import List Arith Bool String Ascii ZArith.
From Coq Require Import DecimalString Decimal.
Import ListNotations.
Open Scope string_scope.

(** std::to_string of an integer. *)
Definition print_Z (z : Z) : string := NilZero.string_of_int (Z.to_int z).

(** boost::lexical_cast to a signed integer: optional sign, digits, value in range. *)
Definition lex_Z (lo hi : Z) (s : string) : option Z :=
  let parsed := match s with
                | String "+"%char r => option_map Pos (NilZero.uint_of_string r)
                | _ => NilZero.int_of_string s
                end in
  match parsed with
  | None => None
  | Some i => let z := Z.of_int i in if (lo <=? z)%Z && (z <=? hi)%Z then Some z else None
  end.
Definition lex_int : string -> option Z := lex_Z (- 2 ^ 31) (2 ^ 31 - 1).
Definition lex_id : string -> option Z := lex_Z (- 2 ^ 63) (2 ^ 63 - 1).

(** boost::lexical_cast<bool>: a sign, zeros, and a final 0 or 1. *)
Fixpoint zeros_then (s : string) : option bool :=
  match s with
  | EmptyString => None
  | String c EmptyString => if Ascii.eqb c "1" then Some true else if Ascii.eqb c "0" then Some false else None
  | String c r => if Ascii.eqb c "0" then zeros_then r else None
  end.
Definition lex_bool (s : string) : option bool :=
  match s with
  | String "+"%char (String _ _ as r) => zeros_then r
  | String "-"%char (String _ _ as r) =>
    match zeros_then r with Some false => Some false | _ => None end
  | _ => zeros_then s
  end.

(** regex_search for a literal: the string contains it. *)
Fixpoint contains (sub s : string) : bool :=
  prefix sub s || match s with EmptyString => false | String _ r => contains sub r end.

Section Attribute.
Context {D Vel : Type}.
Variable lex_double : string -> option D.           (* boost::lexical_cast<double> *)
Variable stod : string -> option (D * nat).         (* std::stod, None: throws *)
Variable kmh mps mph : D -> Vel.                    (* a number times the unit *)

(** Attribute::Cache, Attribute.h:38. *)
Inductive cache := CBool (b : bool) | CDouble (d : D) | CId (i : Z) | CInt (i : Z) | CVel (v : Vel).
Record attr := Attr { a_value : string; a_cache : option cache }.

(** getUnit, Attribute.cpp:12-30. The regular expression "\s*(m/s)|(mps)" searched
    anywhere in the string means: contains "m/s" or contains "mps". *)
Definition get_unit (value : string) (pos : nat) : option (D -> Vel) :=
  if Nat.leb (String.length value) pos then Some kmh else
  let unit := substring pos (String.length value - pos) value in
  if contains "m/s" unit || contains "mps" unit then Some mps
  else if contains "km/h" unit || contains "kmh" unit then Some kmh
  else if contains "m/h" unit || contains "mph" unit then Some mph
  else None.

(** The getters without a cache: 66-78, 87-92, 101-106, 115-120. *)
Definition conv_bool (s : string) : option bool :=
  match lex_bool s with
  | Some b => Some b
  | None => if String.eqb s "true" || String.eqb s "yes" then Some true
            else if String.eqb s "false" || String.eqb s "no" then Some false else None
  end.

(** asBool, 61-79: a result of lexical_cast is not stored. *)
Definition as_bool (a : attr) : attr * option bool :=
  match a_cache a with
  | Some (CBool b) => (a, Some b)
  | _ => match lex_bool (a_value a) with
         | Some b => (a, Some b)
         | None => match conv_bool (a_value a) with
                   | Some b => (Attr (a_value a) (Some (CBool b)), Some b)
                   | None => (a, None)
                   end
         end
  end.
(** asDouble, 81-93. *)
Definition as_double (a : attr) : attr * option D :=
  match a_cache a with
  | Some (CDouble d) => (a, Some d)
  | _ => match lex_double (a_value a) with
         | Some d => (Attr (a_value a) (Some (CDouble d)), Some d)
         | None => (a, None)
         end
  end.
(** asId, 95-107. *)
Definition as_id (a : attr) : attr * option Z :=
  match a_cache a with
  | Some (CId i) => (a, Some i)
  | _ => match lex_id (a_value a) with
         | Some i => (Attr (a_value a) (Some (CId i)), Some i)
         | None => (a, None)
         end
  end.
(** asInt, 109-121. *)
Definition as_int (a : attr) : attr * option Z :=
  match a_cache a with
  | Some (CInt i) => (a, Some i)
  | _ => match lex_int (a_value a) with
         | Some i => (Attr (a_value a) (Some (CInt i)), Some i)
         | None => (a, None)
         end
  end.
(** asVelocity, 123-147. *)
Definition unit_velocity (s : string) : option Vel :=
  match stod s with
  | None => None
  | Some (d, idx) => match get_unit s idx with Some u => Some (u d) | None => None end
  end.
Definition as_velocity (a : attr) : attr * option Vel :=
  match a_cache a with
  | Some (CVel v) => (a, Some v)
  | _ =>
    let '(a1, d) := as_double a in
    match (match d with Some d => Some (kmh d) | None => unit_velocity (a_value a1) end) with
    | Some v => (Attr (a_value a1) (Some (CVel v)), Some v)
    | None => (a1, None)
    end
  end.
(** setValue, 149-152. *)
Definition set_value (s : string) : attr := Attr s None.

(** Constructors: Attribute.h:41-43, Attribute.cpp:49-59. *)
Variable print_double : D -> string.                (* std::to_string(double) *)
Variable vel_kmh : Vel -> D.                        (* value in km/h *)
Inductive source := FromString (s : string) | FromBool (b : bool) | FromId (i : Z) | FromInt (i : Z)
                  | FromDouble (d : D) | FromVelocity (v : Vel).
Definition construct (x : source) : attr :=
  match x with
  | FromString s => Attr s None
  | FromBool b => Attr (print_Z (if b then 1 else 0)) (Some (CBool b))
  | FromId i => Attr (print_Z i) (Some (CId i))
  | FromInt i => Attr (print_Z i) (Some (CInt i))
  | FromDouble d => Attr (print_double d) (Some (CDouble d))
  | FromVelocity v => Attr (print_double (vel_kmh v)) (Some (CVel v))
  end.

(** Calls on an attribute. *)
Inductive getter := GBool | GDouble | GId | GInt | GVel.
Inductive result := RBool (b : option bool) | RDouble (d : option D) | RId (i : option Z) | RInt (i : option Z)
                  | RVel (v : option Vel).
Definition get (g : getter) (a : attr) : attr * result :=
  match g with
  | GBool => let '(a', r) := as_bool a in (a', RBool r)
  | GDouble => let '(a', r) := as_double a in (a', RDouble r)
  | GId => let '(a', r) := as_id a in (a', RId r)
  | GInt => let '(a', r) := as_int a in (a', RInt r)
  | GVel => let '(a', r) := as_velocity a in (a', RVel r)
  end.
Fixpoint get_all (gs : list getter) (a : attr) : list result :=
  match gs with
  | [] => []
  | g :: r => let '(a', x) := get g a in x :: get_all r a'
  end.

(** * Several readers
    The value string does not change. Cache objects are numbered; an object is freed
    when neither cache_ nor a local shared_ptr of a thread refers to it. [store] (32-37)
    and [load] (39-46) are split at their accesses to shared memory. The access to
    [*cache] in line 45 happens without synchronisation, which is a data race by itself;
    here it reads the current pointer. *)
Inductive pc :=
| PIdle                                    (* next call of the list *)
| PLoad (g : getter) (k : bool)            (* about to load; k: called by asVelocity *)
| PHold (g : getter) (k : bool) (c : nat)  (* c is the local shared_ptr of load *)
| PRaw (g : getter) (k : bool) (c : nat) (p : nat)   (* raw pointer into object p, c still alive *)
| PPtr (g : getter) (k : bool) (p : nat)   (* load has returned p *)
| PConv (g : getter) (k : bool)            (* cache not usable, convert *)
| PStore (g : getter) (k : bool) (n : nat) (r : result)  (* new object n made, before atomic_store *)
| PStored (g : getter) (k : bool) (n : nat) (r : result) (* before the local shared_ptr dies *)
| PRet (g : getter) (k : bool) (r : result)
| PBad.                                    (* accessed freed memory *)
Record thread := Thread { t_pc : pc; t_todo : list getter; t_out : list (getter * result) }.
Record shared := Shared { s_ptr : option nat; s_obj : nat -> option cache; s_next : nat; s_threads : list thread }.

Definition local (p : pc) : option nat :=
  match p with
  | PHold _ _ c | PRaw _ _ c _ => Some c
  | PStore _ _ n _ | PStored _ _ n _ => Some n
  | _ => None
  end.
Definition refers (o : nat) (x : option nat) : bool := match x with Some n => Nat.eqb n o | None => false end.
(** Reference count of object [o] above zero. *)
Definition alive (s : shared) (o : nat) : bool :=
  refers o (s_ptr s) || existsb (fun t => refers o (local (t_pc t))) (s_threads s).

(** boost::get<T>: the cached value if it has the wanted type. *)
Definition cached (g : getter) (c : cache) : option result :=
  match g, c with
  | GBool, CBool b => Some (RBool (Some b))
  | GDouble, CDouble d => Some (RDouble (Some d))
  | GId, CId i => Some (RId (Some i))
  | GInt, CInt i => Some (RInt (Some i))
  | GVel, CVel v => Some (RVel (Some v))
  | _, _ => None
  end.

(** Result of the conversion and whether it is stored. *)
Definition to_cache (r : result) : option cache :=
  match r with
  | RBool (Some b) => Some (CBool b)
  | RDouble (Some d) => Some (CDouble d)
  | RId (Some i) => Some (CId i)
  | RInt (Some i) => Some (CInt i)
  | RVel (Some v) => Some (CVel v)
  | _ => None
  end.
Definition convert (g : getter) (s : string) : result * bool :=
  match g with
  | GBool => (RBool (conv_bool s), match lex_bool s with Some _ => false | None => true end)
  | GDouble => (RDouble (lex_double s), true)
  | GId => (RId (lex_id s), true)
  | GInt => (RInt (lex_int s), true)
  | GVel => (RVel (unit_velocity s), true)       (* after asDouble failed *)
  end.

(** One step of a thread with the shared memory [s]: new pointer, new object,
    new program counter, rest of the calls, output. *)
Definition store_step (g : getter) (k : bool) (s : shared) (r : result) (stored : bool)
  : pc * option cache :=
  match to_cache r with
  | Some c => if stored then (PStore g k (s_next s) r, Some c) else (PRet g k r, None)
  | None => (PRet g k r, None)
  end.
Definition tstep (value : string) (s : shared) (t : thread) : option nat * option cache * thread :=
  let stay p := (s_ptr s, None, Thread p (t_todo t) (t_out t)) in
  match t_pc t with
  | PIdle => match t_todo t with
             | [] => stay PIdle
             | g :: r => (s_ptr s, None, Thread (PLoad g false) r (t_out t))
             end
  | PLoad g k => match s_ptr s with None => stay (PConv g k) | Some c => stay (PHold g k c) end
  | PHold g k c =>
    match s_ptr s with
    | None => stay PBad
    | Some p => match s_obj s p with
                | None => stay PBad
                | Some v => match cached g v with Some _ => stay (PRaw g k c p) | None => stay (PConv g k) end
                end
    end
  | PRaw g k c p => stay (PPtr g k p)
  | PPtr g k p =>
    if alive s p then
      match s_obj s p with
      | Some v => match cached g v with Some r => stay (PRet g k r) | None => stay PBad end
      | None => stay PBad
      end
    else stay PBad
  | PConv g k =>
    match g with
    | GVel => stay (PLoad GDouble true)            (* asVelocity calls asDouble *)
    | _ => let '(r, st) := convert g value in
           let '(p, o) := store_step g k s r st in (s_ptr s, o, Thread p (t_todo t) (t_out t))
    end
  | PStore g k n r => (Some n, None, Thread (PStored g k n r) (t_todo t) (t_out t))
  | PStored g k n r => stay (PRet g k r)
  | PRet g k r =>
    if k then   (* asDouble returned to asVelocity *)
      let v := match r with RDouble (Some d) => RVel (Some (kmh d)) | _ => RVel (unit_velocity value) end in
      let '(p, o) := store_step GVel false s v true in (s_ptr s, o, Thread p (t_todo t) (t_out t))
    else (s_ptr s, None, Thread PIdle (t_todo t) (t_out t ++ [(g, r)]))
  | PBad => stay PBad
  end.
Fixpoint upd {A} (i : nat) (x : A) (l : list A) : list A :=
  match l, i with
  | [], _ => []
  | _ :: r, O => x :: r
  | a :: r, S j => a :: upd j x r
  end.
Definition sstep (value : string) (s : shared) (i : nat) : shared :=
  match nth_error (s_threads s) i with
  | None => s
  | Some t =>
    let '(ptr, o, t') := tstep value s t in
    Shared ptr
           (match o with None => s_obj s | Some c => fun n => if Nat.eqb n (s_next s) then Some c else s_obj s n end)
           (match o with None => s_next s | Some _ => S (s_next s) end)
           (upd i t' (s_threads s))
  end.
Definition sstart (a : attr) (calls : list (list getter)) : shared :=
  Shared (match a_cache a with Some _ => Some 0 | None => None end)
         (fun n => if Nat.eqb n 0 then a_cache a else None) 1
         (map (fun gs => Thread PIdle gs []) calls).
Definition srun (a : attr) (calls : list (list getter)) (sched : list nat) : shared :=
  fold_left (sstep (a_value a)) sched (sstart a calls).
End Attribute.
Arguments cache : clear implicits. Arguments attr : clear implicits. Arguments result : clear implicits.
Arguments shared : clear implicits. Arguments thread : clear implicits. Arguments source : clear implicits.
Arguments pc : clear implicits.
