(** Vocabulary for the statements about the binary format of a map: copies of objects that refer to each other in circles. *)
From Coq Require Import List Bool Arith ZArith String.
From Verif Require Import ArchiveModel.
Import ListNotations.

(** * Maps *)

Definition is_point (heap : list (obj nat)) (a : nat) : Prop := exists i t x y z, nth_error heap a = Some (Point i t x y z).
Definition is_line (heap : list (obj nat)) (a : nat) : Prop := exists i t ps, nth_error heap a = Some (Line i t ps).
Definition is_lanelet (heap : list (obj nat)) (a : nat) : Prop := exists i t l r rs c, nth_error heap a = Some (Lanelet i t l r rs c).
Definition is_area (heap : list (obj nat)) (a : nat) : Prop := exists i t ins out rs, nth_error heap a = Some (Area i t ins out rs).
Definition is_reg (heap : list (obj nat)) (a : nat) : Prop := exists i t ps, nth_error heap a = Some (Reg i t ps).

(** Pointers lead to objects of their kind and are not expired. *)
Definition good_param (heap : list (obj nat)) (p : param) : Prop :=
  match p with
  | PPoint a => is_point heap a
  | PLine r | PPolygon r => is_line heap (snd r)
  | PLanelet (Some r) => is_lanelet heap (snd r)
  | PArea (Some a) => is_area heap a
  | PLanelet None | PArea None => False
  end.
Definition good_obj (heap : list (obj nat)) (o : obj nat) : Prop :=
  match o with
  | Point _ _ _ _ _ => True
  | Line _ _ ps => Forall (is_point heap) ps
  | Lanelet _ _ l r rs c =>
      is_line heap (snd l) /\ is_line heap (snd r) /\ Forall (is_reg heap) rs /\ match c with Some c => is_line heap (snd c) | None => True end
  | Area _ _ ins out rs => Forall (Forall (fun r => is_line heap (snd r))) ins /\ Forall (fun r => is_line heap (snd r)) out /\ Forall (is_reg heap) rs
  | Reg _ _ ps => Forall (fun e => Forall (good_param heap) (snd e)) ps
  end.
(** Distinct regulatory elements have distinct ids. *)
Definition good_heap (heap : list (obj nat)) : Prop :=
  Forall (good_obj heap) heap /\
  forall a b i t t' ps ps', nth_error heap a = Some (Reg i t ps) -> nth_error heap b = Some (Reg i t' ps') -> a = b.
Definition unique_ids (heap : list (obj nat)) (l : list nat) : Prop :=
  NoDup (map (fun a => option_map id_of (nth_error heap a)) l).
Definition good_layers (heap : list (obj nat)) (m : layers) : Prop :=
  (Forall (is_point heap) (points_ m) /\ unique_ids heap (points_ m)) /\
  (Forall (is_line heap) (map snd (lines m)) /\ unique_ids heap (map snd (lines m))) /\
  (Forall (is_line heap) (map snd (polygons m)) /\ unique_ids heap (map snd (polygons m))) /\
  (Forall (is_area heap) (areas m) /\ unique_ids heap (areas m)) /\
  (Forall (is_lanelet heap) (map snd (lanelets m)) /\ unique_ids heap (map snd (lanelets m))) /\
  (Forall (is_reg heap) (regs_ m) /\ unique_ids heap (regs_ m)).

(** * Regulatory elements *)

Definition value (k : string) (t : attributes) : option string := option_map snd (find (fun e => String.eqb k (fst e)) t).
(** [t'] is [t], with a subtype. *)
Definition completed (t t' : attributes) : Prop :=
  (forall v, value "subtype" t = Some v -> v <> ""%string -> t' = t) /\
  (forall k, k <> "subtype"%string -> value k t' = value k t) /\
  (value "subtype" t = None \/ value "subtype" t = Some ""%string -> value "subtype" t' = Some "regulatory_element"%string).
(** What a constructor sees of a parameter *)
Definition seen_as (heap : list (obj nat)) (p : param) (v : view) : Prop :=
  match p with
  | PPoint _ => v = VPoint
  | PLine r => exists o, nth_error heap (snd r) = Some o /\ v = VLine (attrs_of o)
  | PPolygon r => exists o, nth_error heap (snd r) = Some o /\ v = VPolygon (attrs_of o)
  | PLanelet _ => v = VLanelet
  | PArea _ => v = VArea
  end.
(** There is a constructor for the subtype, and it does not throw. *)
Definition constructible (registry : string -> option (attributes -> list (string * list view) -> bool)) (heap : list (obj nat)) (o : obj nat) : Prop :=
  match o with
  | Reg _ t ps =>
      forall t' vs, completed t t' -> Forall2 (fun e v => fst e = fst v /\ Forall2 (seen_as heap) (snd e) (snd v)) ps vs ->
      exists rule accepts, value "subtype" t' = Some rule /\ registry rule = Some accepts /\ accepts t' vs = true
  | _ => True
  end.

(** What the constructors of the library ask for *)
Definition params_of (r : string) (ps : list (string * list param)) : list param :=
  match find (fun e => String.eqb r (fst e)) ps with Some e => snd e | None => [] end.
Definition shapes (l : list param) : list sref := flat_map (fun p => match p with PLine r | PPolygon r => [r] | _ => [] end) l.
Definition just_lines (l : list param) : list sref := flat_map (fun p => match p with PLine r => [r] | _ => [] end) l.
Definition just_lanelets (l : list param) : list (option sref) := flat_map (fun p => match p with PLanelet r => [r] | _ => [] end) l.
Definition fits (heap : list (obj nat)) (t : attributes) (ps : list (string * list param)) : Prop :=
  let sign :=
    match shapes (params_of "refers" ps) with
    | r :: _ => exists o v, nth_error heap (snd r) = Some o /\ value "subtype" (attrs_of o) = Some v
    | [] => exists v, value "sign_type" t = Some v
    end in
  value "subtype" t = None \/ value "subtype" t = Some ""%string \/ value "subtype" t = Some "regulatory_element"%string \/
  (value "subtype" t = Some "traffic_light"%string /\ shapes (params_of "refers" ps) <> [] /\ List.length (just_lines (params_of "ref_line" ps)) <= 1) \/
  (value "subtype" t = Some "right_of_way"%string /\ just_lanelets (params_of "right_of_way" ps) <> [] /\ just_lanelets (params_of "yield" ps) <> []) \/
  (value "subtype" t = Some "traffic_sign"%string /\ sign) \/ (value "subtype" t = Some "speed_limit"%string /\ sign) \/
  (value "subtype" t = Some "all_way_stop"%string /\ params_of "right_of_way" ps = [] /\
   (params_of "ref_line" ps = [] \/ List.length (params_of "ref_line" ps) = List.length (params_of "yield" ps))).
(** The lanelets and areas that regulatory elements refer to are in the map. *)
Definition held_param (m : layers) (p : param) : Prop :=
  match p with PLanelet (Some r) => In (snd r) (map snd (lanelets m)) | PArea (Some a) => In a (areas m) | _ => True end.
Definition held (heap : list (obj nat)) (m : layers) : Prop :=
  forall i t ps e p, In (Reg i t ps) heap -> In e ps -> In p (snd e) -> held_param m p.

(** * Copies *)

Section Copy.
(** The new address of an object *)
Variable rho : nat -> option nat.
Definition moved (a n : nat) : Prop := rho a = Some n.
Definition moved_ref (r r' : sref) : Prop := fst r = fst r' /\ moved (snd r) (snd r').
Definition moved_reg (a : nat) (v : option nat) : Prop := exists n, moved a n /\ v = Some n.
Definition moved_param (p p' : param) : Prop :=
  match p, p' with
  | PPoint a, PPoint n => moved a n
  | PLine r, PLine r' | PPolygon r, PPolygon r' => moved_ref r r'
  | PLanelet (Some r), PLanelet (Some r') => moved_ref r r'
  | PArea (Some a), PArea (Some n) => moved a n
  | _, _ => False
  end.
(** The same members, with pointers to the copies. Regulatory elements have a subtype. *)
Definition copy (o : obj nat) (o' : obj (option nat)) : Prop :=
  match o, o' with
  | Point i t x y z, Point i' t' x' y' z' => i = i' /\ t = t' /\ x = x' /\ y = y' /\ z = z'
  | Line i t ps, Line i' t' ps' => i = i' /\ t = t' /\ Forall2 moved ps ps'
  | Lanelet i t l r rs c, Lanelet i' t' l' r' rs' c' =>
      i = i' /\ t = t' /\ moved_ref l l' /\ moved_ref r r' /\ Forall2 moved_reg rs rs' /\
      match c, c' with None, None => True | Some c, Some c' => moved_ref c c' | _, _ => False end
  | Area i t ins out rs, Area i' t' ins' out' rs' =>
      i = i' /\ t = t' /\ Forall2 (Forall2 moved_ref) ins ins' /\ Forall2 moved_ref out out' /\ Forall2 moved_reg rs rs'
  | Reg i t ps, Reg i' t' ps' => i = i' /\ completed t t' /\ Forall2 (fun e e' => fst e = fst e' /\ Forall2 moved_param (snd e) (snd e')) ps ps'
  | _, _ => False
  end.
End Copy.

(** [os] with the layers [m'] is a copy of [heap] with the layers [m]: no two objects became one, no object became two, none was added, and the copies of
    the elements of the layers, with all that is reachable from them, are complete. *)
Definition copied (heap : list (obj nat)) (m : layers) (os : list (option (obj (option nat)))) (m' : layers) : Prop :=
  exists rho : nat -> option nat,
    (forall a b n, rho a = Some n -> rho b = Some n -> a = b) /\
    (forall n, n < List.length os -> exists a, rho a = Some n) /\
    (forall a n, rho a = Some n -> exists o o', nth_error heap a = Some o /\ nth_error os n = Some (Some o') /\ copy rho o o') /\
    Forall2 (moved rho) (points_ m) (points_ m') /\ Forall2 (moved_ref rho) (lines m) (lines m') /\
    Forall2 (moved_ref rho) (polygons m) (polygons m') /\ Forall2 (moved rho) (areas m) (areas m') /\
    Forall2 (moved_ref rho) (lanelets m) (lanelets m') /\ Forall2 (moved rho) (regs_ m) (regs_ m').
