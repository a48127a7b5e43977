(** Vocabulary for the statements about maps. *)
From Coq Require Import ZArith List Bool.
From Verif Require Import MapModel.
Import ListNotations.
Open Scope Z_scope.

(** [references hp ids h k b]: the primitive held by [h] refers to the object [b]
    of kind [k]. Weak references count only while their target is alive, a
    centerline only if it is a custom one, i.e. has a valid id. *)
Inductive references (hp : heap) (ids : nat -> Z) (h : handle) : kind -> nat -> Prop :=
| ref_line_point pts p :
    obj hp (fst h) = Some (OLine pts) -> In p pts -> references hp ids h KPoint p
| ref_poly_point pts p :
    obj hp (fst h) = Some (OPoly pts) -> In p pts -> references hp ids h KPoint p
| ref_left l r c regs :
    obj hp (fst h) = Some (OLanelet l r c regs) -> references hp ids h KLine (fst l)
| ref_right l r c regs :
    obj hp (fst h) = Some (OLanelet l r c regs) -> references hp ids h KLine (fst r)
| ref_center l r c regs :
    obj hp (fst h) = Some (OLanelet l r (Some c) regs) -> ids (fst c) <> 0 ->
    references hp ids h KLine (fst c)
| ref_ll_reg l r c regs x :
    obj hp (fst h) = Some (OLanelet l r c regs) -> In x regs -> references hp ids h KReg x
| ref_outer outer inner regs l :
    obj hp (fst h) = Some (OArea outer inner regs) -> In l outer ->
    references hp ids h KLine (fst l)
| ref_inner outer inner regs ring l :
    obj hp (fst h) = Some (OArea outer inner regs) -> In ring inner -> In l ring ->
    references hp ids h KLine (fst l)
| ref_ar_reg outer inner regs x :
    obj hp (fst h) = Some (OArea outer inner regs) -> In x regs -> references hp ids h KReg x
| ref_par_point ps p :
    obj hp (fst h) = Some (OReg ps) -> In (ParPoint p) ps -> references hp ids h KPoint p
| ref_par_line ps l :
    obj hp (fst h) = Some (OReg ps) -> In (ParLine l) ps -> references hp ids h KLine (fst l)
| ref_par_poly ps p :
    obj hp (fst h) = Some (OReg ps) -> In (ParPoly p) ps -> references hp ids h KPoly p
| ref_par_lanelet ps l x y c regs :
    obj hp (fst h) = Some (OReg ps) -> In (ParLanelet l) ps ->
    obj hp (fst l) = Some (OLanelet x y c regs) -> references hp ids h KLanelet (fst l)
| ref_par_area ps a x y regs :
    obj hp (fst h) = Some (OReg ps) -> In (ParArea a) ps ->
    obj hp a = Some (OArea x y regs) -> references hp ids h KArea a.

Definition has_kind (hp : heap) (k : kind) (a : nat) : Prop :=
  exists o, obj hp a = Some o /\ kind_of o = k.

(** What the C++ types and shared pointers guarantee: strong references point to
    existing objects of the right type. *)
Definition object_ok (hp : heap) (o : object) : Prop :=
  match o with
  | OPoint => True
  | OLine pts | OPoly pts => forall p, In p pts -> has_kind hp KPoint p
  | OLanelet l r c regs =>
    has_kind hp KLine (fst l) /\ has_kind hp KLine (fst r) /\
    (forall x, c = Some x -> has_kind hp KLine (fst x)) /\
    (forall x, In x regs -> has_kind hp KReg x)
  | OArea outer inner regs =>
    (forall l, In l outer -> has_kind hp KLine (fst l)) /\
    (forall ring l, In ring inner -> In l ring -> has_kind hp KLine (fst l)) /\
    (forall x, In x regs -> has_kind hp KReg x)
  | OReg ps =>
    (forall p, In (ParPoint p) ps -> has_kind hp KPoint p) /\
    (forall l, In (ParLine l) ps -> has_kind hp KLine (fst l)) /\
    (forall p, In (ParPoly p) ps -> has_kind hp KPoly p)
  end.

Definition heap_ok (hp : heap) : Prop :=
  forall a o, obj hp a = Some o -> object_ok hp o.

Definition target_kind (t : target) : kind :=
  match t with
  | TPoint _ => KPoint | TLine _ => KLine | TPoly _ => KPoly
  | TLanelet _ => KLanelet | TArea _ => KArea | TReg _ => KReg
  end.
Definition target_handle (t : target) : handle :=
  match t with
  | TPoint a | TPoly a | TArea a | TReg a => (a, false)
  | TLine h | TLanelet h => h
  end.
Definition target_addr (t : target) : nat := fst (target_handle t).
Definition target_ok (hp : heap) (t : target) : Prop :=
  has_kind hp (target_kind t) (target_addr t).

(** Element of a layer. *)
Definition element (s : mstate) (k : kind) (i : Z) (h : handle) : Prop :=
  In (i, h) (l_elems (m_layer s k)).

(** Every reference of every element is found in its layer under its id. *)
Definition self_contained (hp : heap) (s : mstate) : Prop :=
  forall k i h ky b,
    element s k i h -> references hp (m_ids s) h ky b ->
    m_ids s b <> 0 /\ exists h', get ky (m_ids s b) s = Some h'.

(** [ref_count hp u x]: how often the primitive [u] refers to [x] in the sense of
    the usage lookup (the centerline is not part of it). *)
Definition same (a b : handle) : bool := Nat.eqb (fst a) (fst b) && Bool.eqb (snd a) (snd b).
Definition b2n (b : bool) : nat := if b then 1%nat else 0%nat.
Definition times {A} (f : A -> bool) (l : list A) : nat := list_sum (map (fun x => b2n (f x)) l).

Definition ref_count (hp : heap) (u : handle) (x : ukey) : nat :=
  match obj hp (fst u), x with
  | Some (OLine pts), (KPoint, (p, false)) => times (Nat.eqb p) pts
  | Some (OPoly pts), (KPoint, (p, false)) => times (Nat.eqb p) pts
  | Some (OLanelet l r _ _), (KLine, y) =>
    if snd u then (b2n (same (flip r) y) + b2n (same (flip l) y))%nat
    else (b2n (same l y) + b2n (same r y))%nat
  | Some (OLanelet _ _ _ regs), (KReg, (g, false)) => times (Nat.eqb g) regs
  | Some (OArea outer inner _), (KLine, y) =>
    (times (same y) outer + list_sum (map (times (same y)) inner))%nat
  | Some (OArea _ _ regs), (KReg, (g, false)) => times (Nat.eqb g) regs
  | Some (OReg ps), (k, y) =>
    times (fun p => match p, k with
                    | ParPoint a, KPoint => same (a, false) y
                    | ParLine h, KLine => same h y
                    | ParPoly a, KPoly => same (a, false) y
                    | ParLanelet h, KLanelet => same h y
                    | ParArea a, KArea => same (a, false) y
                    | _, _ => false
                    end) ps
  | _, _ => 0%nat
  end.

(** The keys that can be asked for: handles of existing objects of that kind. *)
Definition key_ok (hp : heap) (x : ukey) : Prop := has_kind hp (fst x) (fst (snd x)).

(** Number of occurrences in a list of handles. *)
Definition occurrences (u : handle) (l : list handle) : nat := times (same u) l.

(** Elements of a layer without their ids. *)
Definition members (s : mstate) (k : kind) : list handle := map snd (l_elems (m_layer s k)).

(** All ids used in a layer. *)
Definition used_ids (s : mstate) (k : kind) : list Z := map fst (l_elems (m_layer s k)).

Definition listed (hp : heap) (s : mstate) (k : kind) (l : list handle) : Prop :=
  forall h, In h l -> has_kind hp k (h_addr h) /\ m_ids s (h_addr h) <> 0 /\ m_ids s (h_addr h) < m_next s.

(** Line strings and points a map made from lanelets and areas consists of. *)
Definition all_lines (hp : heap) (s : mstate) (lls : list handle) (ars : list nat) : list handle :=
  flat_map (lines_of_lanelet hp s) lls ++ flat_map (rings_of hp) ars.
