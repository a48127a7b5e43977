(** What a conversion between Python and C++ should give, stated without the two steps of a converter. *)
From Coq Require Import List Bool.
Import ListNotations.
From Verif Require Import PyConvModel.

Section Spec.
Context {O L V : Type}.
Variable items : O -> option (list O * bool).
Variable tuple_items : O -> option (list O).
Variable is_none : O -> bool.
Variable leaf : L -> O -> option V.

(** The object stands for the value at the type. *)
Inductive represents : type L -> O -> value V -> Prop :=
  | rep_leaf l o v : leaf l o = Some v -> represents (Leaf l) o (VLeaf v)
  | rep_vec t o l vs : items o = Some (l, true) -> all_represent t l vs -> represents (Vec t) o (VVec vs)
  | rep_none t o : is_none o = true -> represents (Opt t) o (VOpt None)
  | rep_some t o v : is_none o = false -> represents t o v -> represents (Opt t) o (VOpt (Some v))
  | rep_pair t u o a b v w :
      tuple_items o = Some [a; b] -> represents t a v -> represents u b w -> represents (Pair t u) o (VPair v w)
with all_represent : type L -> list O -> list (value V) -> Prop :=
  | all_nil t : all_represent t [] []
  | all_cons t o l v vs : represents t o v -> all_represent t l vs -> all_represent t (o :: l) (v :: vs).

(** The arguments stand for the values at the types of an overload. *)
Inductive arguments : list (type L) -> list O -> list (value V) -> Prop :=
  | args_nil : arguments [] [] []
  | args_cons t ts o os v vs : represents t o v -> arguments ts os vs -> arguments (t :: ts) (o :: os) (v :: vs).

(** What is looked at when an overload is chosen: the outermost shape of an object, not its items. *)
Inductive takes : type L -> O -> Prop :=
  | takes_leaf l o v : leaf l o = Some v -> takes (Leaf l) o
  | takes_vec t o p : items o = Some p -> takes (Vec t) o
  | takes_opt t o : takes (Opt t) o
  | takes_pair t u o a b : tuple_items o = Some [a; b] -> takes (Pair t u) o.

Definition is_leaf (t : type L) : Prop := exists l, t = Leaf l.

(** A value of the type; an Optional of an Optional is left out. *)
Inductive typed (ok : L -> V -> Prop) : type L -> value V -> Prop :=
  | ty_leaf l v : ok l v -> typed ok (Leaf l) (VLeaf v)
  | ty_vec t vs : (forall v, In v vs -> typed ok t v) -> typed ok (Vec t) (VVec vs)
  | ty_none t : typed ok (Opt t) (VOpt None)
  | ty_some t v : (forall u, t <> Opt u) -> typed ok t v -> typed ok (Opt t) (VOpt (Some v))
  | ty_pair t u v w : typed ok t v -> typed ok u w -> typed ok (Pair t u) (VPair v w).
End Spec.
