(** Python programs that read and change a line string like a list. *)
From Coq Require Import List Arith Bool ZArith.
From Verif Require Import LineSpec.
Import ListNotations.

(** Statements on a line string ([false]) and its inverted view ([true]); variables are numbered.
    v = ls[i]; v = list(ls)[i]; ls[i] = v; del ls[i]; ls.append(v). *)
Inductive stmt :=
| Get (inv : bool) (v : nat) (i : Z)
| Copy (inv : bool) (v : nat) (i : Z)
| Put (inv : bool) (i : Z) (v : nat)
| Del (inv : bool) (i : Z)
| Append (inv : bool) (v : nat).

(** Indices an int64_t can hold. *)
Definition int64 (i : Z) : Prop := (- 2 ^ 63 <= i < 2 ^ 63)%Z.
Definition index_of_stmt (s : stmt) : Z := match s with Get _ _ i | Copy _ _ i | Put _ i _ | Del _ i => i | Append _ _ => 0%Z end.

(** What a list does: negative indices count from the end. *)
Definition list_index (i : Z) (n : nat) : option nat :=
  if (0 <=? i)%Z then (if (i <? Z.of_nat n)%Z then Some (Z.to_nat i) else None)
  else if (- Z.of_nat n <=? i)%Z then Some (Z.to_nat (Z.of_nat n + i)) else None.

(** The outcome of a program: it runs through, a statement raises an IndexError (a NameError), or the behaviour is undefined. *)
Inductive outcome (S : Type) := Ran (s : S) | IndexError (s : S) | NameError | Undefined.
Arguments Ran {S}. Arguments IndexError {S}. Arguments NameError {S}. Arguments Undefined {S}.

Section List.
Context {P : Type}.
(** The points and the values of the variables. *)
Definition lstate := (list P * (nat -> option P))%type.
Definition bind_var {V} (env : nat -> option V) (v : nat) (x : V) : nat -> option V := fun u => if Nat.eqb u v then Some x else env u.
Definition list_step (s : stmt) (st : lstate) : outcome lstate :=
  let (pts, env) := st in
  let l inv := view inv pts in
  match s with
  | Get inv v i | Copy inv v i =>
      match list_index i (length pts) with
      | None => IndexError st
      | Some k => match nth_error (l inv) k with Some x => Ran (pts, bind_var env v x) | None => IndexError st end
      end
  | Put inv i v =>
      match env v with
      | None => NameError
      | Some x => match list_index i (length pts) with
                  | None => IndexError st
                  | Some k => Ran (view inv (firstn k (l inv) ++ x :: skipn (S k) (l inv)), env)
                  end
      end
  | Del inv i =>
      match list_index i (length pts) with
      | None => IndexError st
      | Some k => Ran (view inv (firstn k (l inv) ++ skipn (S k) (l inv)), env)
      end
  | Append inv v => match env v with None => NameError | Some x => Ran (view inv (l inv ++ [x]), env) end
  end.
Fixpoint list_run (p : list stmt) (st : lstate) : outcome lstate :=
  match p with
  | [] => Ran st
  | s :: r => match list_step s st with Ran st' => list_run r st' | o => o end
  end.
End List.

(** * Programs that do not use v = ls[i] after the line string was changed *)
(** What is known of a variable: it is not to be used, it was read by ls[i] since the last change, or it was read from list(ls). *)
Inductive status := Unusable | Passing | Lasting.
Definition sets (st : nat -> status) (v : nat) (x : status) : nat -> status := fun u => if Nat.eqb u v then x else st u.
Definition after_change (st : nat -> status) : nat -> status := fun u => match st u with Passing => Unusable | x => x end.
Fixpoint prompt (st : nat -> status) (p : list stmt) : Prop :=
  match p with
  | [] => True
  | Get _ v _ :: r => prompt (sets st v Passing) r
  | Copy _ v _ :: r => prompt (sets st v Lasting) r
  | Put _ _ v :: r => st v <> Unusable /\ prompt (after_change st) r
  | Del _ _ :: r => prompt (after_change st) r
  | Append _ v :: r => st v <> Unusable /\ prompt (after_change st) r
  end.
(** What is known of the variables at the end. *)
Fixpoint status_after (st : nat -> status) (p : list stmt) : nat -> status :=
  match p with
  | [] => st
  | Get _ v _ :: r => status_after (sets st v Passing) r
  | Copy _ v _ :: r => status_after (sets st v Lasting) r
  | (Put _ _ _ | Del _ _ | Append _ _) :: r => status_after (after_change st) r
  end.
(** Variables that are set before the program starts, to points made by Python. *)
Definition given {P} (e : nat -> option P) : nat -> status := fun v => match e v with Some _ => Lasting | None => Unusable end.
(** Statements that do not change the number of points. *)
Definition keeps_length (s : stmt) : bool := match s with Del _ _ | Append _ _ => false | _ => true end.
