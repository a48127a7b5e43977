(** A collection of plain maps from strings to values, and the calls on HybridMap
    described in terms of them: an enum value stands for its name. *)
From Coq Require Import List Arith Bool String Ascii NArith.
From stdpp Require Import gmap strings.
Import ListNotations.

Inductive hop (V : Type) :=
| HInsert (x : nat) (k : string) (v : V)
| HInsertHint (x : nat) (k : string) (v : V)
| HErase (x : nat) (k : string)
| HEraseFound (x : nat) (k : string)          (* erase(find(k)) *)
| HEraseFoundEnum (x : nat) (e : nat)         (* erase(find(e)) *)
| HSet (x : nat) (k : string) (v : V)         (* m[k] = v *)
| HSetEnum (x : nat) (e : nat) (v : V)
| HAt (x : nat) (k : string)
| HAtEnum (x : nat) (e : nat)
| HClear (x : nat)
| HCopy (x y : nat)
| HMove (x y : nat)
| HEqual (x y : nat)
| HSize (x : nat).
Arguments HInsert {V}. Arguments HInsertHint {V}. Arguments HErase {V}. Arguments HEraseFound {V}.
Arguments HEraseFoundEnum {V}. Arguments HSet {V}. Arguments HSetEnum {V}. Arguments HAt {V}.
Arguments HAtEnum {V}. Arguments HClear {V}. Arguments HCopy {V}. Arguments HMove {V}.
Arguments HEqual {V}. Arguments HSize {V}.

(** What a call returns. *)
Inductive hout (V : Type) := RNone | RBool (b : bool) | RNat (n : nat) | RVal (v : option V).
Arguments RNone {V}. Arguments RBool {V}. Arguments RNat {V}. Arguments RVal {V}.

Section Spec.
Context {V : Type} `{EqDecision V}.
Variable name : nat -> option string.

Definition smaps := nat -> gmap string V.
Definition sput (x : nat) (m : gmap string V) (s : smaps) : smaps := fun y => if Nat.eqb x y then m else s y.

(** [None]: the call is not allowed. *)
Definition spec_op (o : hop V) (s : smaps) : option (smaps * hout V) :=
  let insert x k v :=
    match s x !! k with
    | Some _ => (s, false)
    | None => (sput x (<[k := v]> (s x)) s, true)
    end in
  let erase_found x k :=
    match s x !! k with Some _ => Some (sput x (delete k (s x)) s, RNone) | None => None end in
  match o with
  | HInsert x k v => let '(s', b) := insert x k v in Some (s', RBool b)
  | HInsertHint x k v => Some (fst (insert x k v), RNone)
  | HErase x k =>
    match s x !! k with Some _ => Some (sput x (delete k (s x)) s, RNat 1) | None => Some (s, RNat 0) end
  | HEraseFound x k => erase_found x k
  | HEraseFoundEnum x e => match name e with Some k => erase_found x k | None => None end
  | HSet x k v => Some (sput x (<[k := v]> (s x)) s, RNone)
  | HSetEnum x e v => match name e with Some k => Some (sput x (<[k := v]> (s x)) s, RNone) | None => None end
  | HAt x k => Some (s, RVal (s x !! k))
  | HAtEnum x e => Some (s, RVal (match name e with Some k => s x !! k | None => None end))
  | HClear x => Some (sput x ∅ s, RNone)
  | HCopy x y => Some (sput x (s y) s, RNone)
  | HMove x y => if Nat.eqb x y then None else Some (sput y ∅ (sput x (s y) s), RNone)
  | HEqual x y => Some (s, RBool (bool_decide (s x = s y)))
  | HSize x => Some (s, RNat (size (s x)))
  end.

Fixpoint spec_ops (os : list (hop V)) (s : smaps) : option (smaps * list (hout V)) :=
  match os with
  | [] => Some (s, [])
  | o :: r =>
    match spec_op o s with
    | None => None
    | Some (s', x) => match spec_ops r s' with None => None | Some (s'', xs) => Some (s'', x :: xs) end
    end
  end.

(** The key a call mentions. *)
Definition hop_key (o : hop V) : option string :=
  match o with
  | HInsert _ k _ | HInsertHint _ k _ | HErase _ k | HEraseFound _ k | HSet _ k _ | HAt _ k => Some k
  | _ => None
  end.
End Spec.

(** No NUL character in the string. *)
Fixpoint no_nul (s : string) : bool :=
  match s with EmptyString => true | String c r => negb (Ascii.eqb c Ascii.zero) && no_nul r end.
