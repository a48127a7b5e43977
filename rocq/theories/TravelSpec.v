(** Samples of a line. *)
From Coq Require Import List Arith Reals.
From Verif Require Import ArcSpec.
Import ListNotations.
Local Open Scope R_scope.

(** [i] and the indices [idx] after it never go back and never skip more than [step]; they end with [last]. *)
Fixpoint strides (step i : nat) (idx : list nat) (last : nat) : Prop :=
  match idx with
  | [] => i = last
  | j :: r => (i <= j <= i + step)%nat /\ strides step j r last
  end.
(** The points of a line at the indices *)
Definition sampled (line : list point) (idx : list nat) : list point := map (fun i => nth i line (0, 0)) idx.
(** The length of a line with these distances *)
Definition total (l : list R) : R := fold_right Rplus 0 l.
