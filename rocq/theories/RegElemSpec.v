(** What the interface of the regulatory elements promises, in terms of lists and
    histories of calls; independent of the parameter maps of RegElemModel.v (only the
    types of handles and calls are used). *)
From Coq Require Import List Arith Bool String.
From Verif Require Import RegElemModel.
Import ListNotations.
Local Open Scope string_scope.
Local Open Scope list_scope.

Definition handle_dec (a b : handle) : {a = b} + {a <> b}.
Proof. repeat decide equality. Defined.
Definition lsop_dec (a b : lsop) : {a = b} + {a <> b}.
Proof. repeat decide equality. Defined.

(** The list without the first occurrence of [x]. *)
Section Remove1.
Context {A : Type} (dec : forall a b : A, {a = b} + {a <> b}).
Fixpoint remove1 (x : A) (l : list A) : list A :=
  match l with [] => [] | a :: r => if dec a x then r else a :: remove1 x r end.
Definition inb (x : A) (l : list A) : bool := if in_dec dec x l then true else false.
End Remove1.

(** ** TrafficLight *)
Fixpoint tl_lights (os : list tl_op) (l : list lsop) : list lsop :=
  match os with
  | [] => l
  | TLAdd x :: r => tl_lights r (l ++ [x])
  | TLRemove x :: r => tl_lights r (remove1 lsop_dec x l)
  | _ :: r => tl_lights r l
  end.
Fixpoint tl_stop (os : list tl_op) (o : option handle) : option handle :=
  match os with
  | [] => o
  | TLSetStop l :: r => tl_stop r (Some l)
  | TLRemoveStop :: r => tl_stop r None
  | _ :: r => tl_stop r o
  end.
(** Results of the calls: removing succeeds if the light is there. *)
Fixpoint tl_results (os : list tl_op) (l : list lsop) : list (option bool) :=
  match os with
  | [] => []
  | TLRemove x :: r => Some (inb lsop_dec x l) :: tl_results r (tl_lights [TLRemove x] l)
  | o :: r => Some true :: tl_results r (tl_lights [o] l)
  end.

(** ** RightOfWay *)
Definition kill (al : nat -> bool) (d : nat) : nat -> bool := fun x => if Nat.eqb d x then false else al x.
Fixpoint row_alive (os : list row_op) (al : nat -> bool) : nat -> bool :=
  match os with
  | [] => al
  | RExpire d :: r => row_alive r (kill al d)
  | _ :: r => row_alive r al
  end.
(** The lanelets passed to the calls exist (the caller holds them). *)
Fixpoint row_ok (os : list row_op) (al : nat -> bool) : Prop :=
  match os with
  | [] => True
  | RExpire d :: r => row_ok r (kill al d)
  | RAddRow l :: r | RAddYield l :: r | RRemoveRow l :: r | RRemoveYield l :: r => al (fst l) = true /\ row_ok r al
  | _ :: r => row_ok r al
  end.
Fixpoint row_lanelets (os : list row_op) (l : list handle) : list handle :=
  match os with
  | [] => l
  | RAddRow x :: r => row_lanelets r (l ++ [x])
  | RRemoveRow x :: r => row_lanelets r (remove1 handle_dec x l)
  | _ :: r => row_lanelets r l
  end.
Fixpoint row_yields (os : list row_op) (l : list handle) : list handle :=
  match os with
  | [] => l
  | RAddYield x :: r => row_yields r (l ++ [x])
  | RRemoveYield x :: r => row_yields r (remove1 handle_dec x l)
  | _ :: r => row_yields r l
  end.
Fixpoint row_stop (os : list row_op) (o : option handle) : option handle :=
  match os with
  | [] => o
  | RSetStop l :: r => row_stop r (Some l)
  | RRemoveStop :: r => row_stop r None
  | _ :: r => row_stop r o
  end.
Fixpoint row_results (os : list row_op) (l y : list handle) : list (option bool) :=
  match os with
  | [] => []
  | o :: r =>
    Some (match o with
          | RRemoveRow x => inb handle_dec x l
          | RRemoveYield x => inb handle_dec x y
          | _ => true
          end) :: row_results r (row_lanelets [o] l) (row_yields [o] y)
  end.

(** ** TrafficSign *)
Section Signs.
(** [get]: which list is concerned; a call adds a list of elements or removes one. *)
Context {A : Type} (dec : forall a b : A, {a = b} + {a <> b}).
Variable adds : ts_op -> list A.
Variable removes : ts_op -> option A.
Definition ts_list1 (o : ts_op) (l : list A) : list A :=
  match removes o with Some x => remove1 dec x l | None => l ++ adds o end.
Definition ts_list (os : list ts_op) (l : list A) : list A := fold_left (fun l o => ts_list1 o l) os l.
End Signs.
Definition signs_of (os : list ts_op) : list lsop -> list lsop :=
  ts_list lsop_dec (fun o => match o with SAdd x => [x] | _ => [] end)
    (fun o => match o with SRemove x => Some x | _ => None end) os.
Definition cancels_of (os : list ts_op) : list lsop -> list lsop :=
  ts_list lsop_dec (fun o => match o with SAddCancel xs _ => xs | _ => [] end)
    (fun o => match o with SRemoveCancel x => Some x | _ => None end) os.
Definition refs_of (os : list ts_op) : list handle -> list handle :=
  ts_list handle_dec (fun o => match o with SAddRef x => [x] | _ => [] end)
    (fun o => match o with SRemoveRef x => Some x | _ => None end) os.
Definition cancel_lines_of (os : list ts_op) : list handle -> list handle :=
  ts_list handle_dec (fun o => match o with SAddCancelLine x => [x] | _ => [] end)
    (fun o => match o with SRemoveCancelLine x => Some x | _ => None end) os.
(** Results of the calls: removing succeeds if the element is there. *)
Fixpoint ts_results (os : list ts_op) (sg ca : list lsop) (re cl : list handle) : list (option bool) :=
  match os with
  | [] => []
  | o :: r =>
    Some (match o with
          | SRemove x => inb lsop_dec x sg
          | SRemoveCancel x => inb lsop_dec x ca
          | SRemoveRef l => inb handle_dec l re
          | SRemoveCancelLine l => inb handle_dec l cl
          | _ => true
          end) :: ts_results r (signs_of [o] sg) (cancels_of [o] ca) (refs_of [o] re) (cancel_lines_of [o] cl)
  end.
(** Line strings and polygons are the same sign if they have the same data. *)
Definition same_sign (a b : lsop) : bool :=
  match a, b with Ls x, Ls y | Po x, Po y => Nat.eqb (fst x) (fst y) | _, _ => false end.
(** The subtype of a sign after the calls: adding a cancelling sign with a type sets it. *)
Fixpoint subtype_of (os : list ts_op) (f : lsop -> option string) (x : lsop) : option string :=
  match os with
  | [] => f x
  | SAddCancel xs t :: r =>
    subtype_of r (fun y => if negb (String.eqb t "") && existsb (same_sign y) xs then Some t else f y) x
  | _ :: r => subtype_of r f x
  end.

(** ** AllWayStop *)
Definition entry := (handle * option handle)%type.
Definition has_stop (e : entry) : bool := match snd e with Some _ => true | None => false end.
Fixpoint remove_entry (l : handle) (es : list entry) : list entry :=
  match es with [] => [] | e :: r => if handle_dec (fst e) l then r else e :: remove_entry l r end.
(** A lanelet may only be added if it has a stop line just when the others have one. *)
Definition fits (es : list entry) (stop : option handle) : bool :=
  forallb (fun e => Bool.eqb (has_stop e) (has_stop ((0, false), stop))) es.
Definition aws_entries1 (o : aws_op) (es : list entry) : list entry :=
  match o with
  | AAdd l stop => if fits es stop then es ++ [(l, stop)] else es
  | ARemove l => remove_entry l es
  | _ => es
  end.
Definition aws_entries (os : list aws_op) (es : list entry) : list entry :=
  fold_left (fun es o => aws_entries1 o es) os es.
Definition aws_signs1 (o : aws_op) (l : list lsop) : list lsop :=
  match o with AAddSign x => l ++ [x] | ARemoveSign x => remove1 lsop_dec x l | _ => l end.
Fixpoint aws_results (os : list aws_op) (es : list entry) (sg : list lsop) : list (option bool) :=
  match os with
  | [] => []
  | o :: r =>
    (match o with
     | AAdd _ stop => if fits es stop then Some true else None
     | ARemove l => Some (inb handle_dec l (map fst es))
     | ARemoveSign x => Some (inb lsop_dec x sg)
     | _ => Some true
     end) :: aws_results r (aws_entries1 o es) (aws_signs1 o sg)
  end.
Definition aws_alive (os : list aws_op) (al : nat -> bool) : nat -> bool :=
  fold_left (fun al o => match o with AExpire d => kill al d | _ => al end) os al.
(** The stop line of the (first) entry of a lanelet. *)
Fixpoint stop_of (l : handle) (es : list entry) : option handle :=
  match es with [] => None | e :: r => if handle_dec (fst e) l then snd e else stop_of l r end.
(** The entries before the one of [l] still exist. *)
Fixpoint before_alive (al : nat -> bool) (l : handle) (es : list entry) : Prop :=
  match es with
  | [] => True
  | e :: r => if handle_dec (fst e) l then True else al (fst (fst e)) = true /\ before_alive al l r
  end.
(** Calls with existing lanelets; and no lanelet with a stop line is added while the
    element consists of expired lanelets without stop lines only. *)
Fixpoint aws_ok (os : list aws_op) (es : list entry) (al : nat -> bool) : Prop :=
  match os with
  | [] => True
  | o :: r =>
    match o with
    | AAdd l stop => al (fst l) = true /\
        (stop <> None -> es <> [] -> (forall e, In e es -> snd e = None) -> exists e, In e es /\ al (fst (fst e)) = true)
    | ARemove l => al (fst l) = true
    | _ => True
    end /\ aws_ok r (aws_entries1 o es) (match o with AExpire d => kill al d | _ => al end)
  end.
