(** Vocabulary for line strings: sequences as seen through a view, operations of
    std::vector on sequences, merging of consecutive duplicates. *)
From Coq Require Import List Arith Bool.
Import ListNotations.

(** The sequence seen through a normal or an inverted view. *)
Definition view {P} (inv : bool) (pts : list P) : list P := if inv then rev pts else pts.

(** What the operations of std::vector do to a sequence. Positions are counted from
    the beginning; the second result is the position of the returned iterator.
    [None]: the call is not allowed. *)
Inductive op (P : Type) :=
| OpInsert (k : nat) (x : P)
| OpInsertRange (k : nat) (xs : list P)
| OpPushBack (x : P)
| OpErase (k : nat)
| OpPopBack
| OpResize (n : nat) (news : list P)   (* [news]: the default constructed elements *)
| OpClear
| OpAssign (xs : list P)
| OpSet (k : nat) (x : P).
Arguments OpInsert {P}. Arguments OpInsertRange {P}. Arguments OpPushBack {P}.
Arguments OpErase {P}. Arguments OpPopBack {P}. Arguments OpResize {P}.
Arguments OpClear {P}. Arguments OpAssign {P}. Arguments OpSet {P}.

Definition vector_op {P} (o : op P) (l : list P) : option (list P * option nat) :=
  match o with
  | OpInsert k x =>
    if Nat.leb k (length l) then Some (firstn k l ++ x :: skipn k l, Some k) else None
  | OpInsertRange k xs =>
    if Nat.leb k (length l) then Some (firstn k l ++ xs ++ skipn k l, Some k) else None
  | OpPushBack x => Some (l ++ [x], None)
  | OpErase k =>
    if Nat.ltb k (length l) then Some (firstn k l ++ skipn (S k) l, Some k) else None
  | OpPopBack => match l with [] => None | _ => Some (removelast l, None) end
  | OpResize n news =>
    Some (if Nat.leb n (length l) then firstn n l else l ++ firstn (n - length l) news, None)
  | OpClear => Some ([], None)
  | OpAssign xs => Some (xs, None)
  | OpSet k x =>
    if Nat.ltb k (length l) then Some (firstn k l ++ x :: skipn (S k) l, None) else None
  end.

(** Merging of consecutive duplicates. *)
Section Dedup.
Context {P : Type}.
Variable peq : P -> P -> bool.
Fixpoint dedup (l : list P) : list P :=
  match l with
  | [] => []
  | x :: r =>
    match r with
    | y :: _ => if peq x y then dedup r else x :: dedup r
    | [] => [x]
    end
  end.
End Dedup.
