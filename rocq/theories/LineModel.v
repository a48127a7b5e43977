(** Model of line strings, inverted views and compound line strings.

    Sources: lanelet2_core/include/lanelet2_core/primitives/LineString.h,
             lanelet2_core/include/lanelet2_core/utility/ReverseAndForwardIterator.h,
             lanelet2_core/include/lanelet2_core/utility/CompoundIterator.h,
             lanelet2_core/include/lanelet2_core/primitives/CompoundLineString.h,
             lanelet2_core/include/lanelet2_core/primitives/CompoundPolygon.h.

    The type of points is a parameter; the conversions between 2d, 3d and basic
    points (TransformIterator) are not modelled. [None] stands for undefined
    behaviour (access outside of a vector). *)
From Coq Require Import List Arith Bool.
Import ListNotations.

Section Line.
Context {P : Type}.

(** LineStringData::points_, LineString.h:184, and the flag inverted_, 360. *)
Definition at_ (inv : bool) (pts : list P) (idx : nat) : option P :=
  (* LineStringData::at 176-178; points_.size() - 1 - idx wraps below zero, which is
     out of range as well *)
  if inv then (if Nat.ltb idx (length pts) then nth_error pts (length pts - 1 - idx) else None)
  else nth_error pts idx.

(** std::vector::front and back. *)
Definition vfront (pts : list P) : option P := nth_error pts 0.
Definition vback (pts : list P) : option P :=
  match pts with [] => None | _ => nth_error pts (length pts - 1) end.

(** LineStringData::front, back, 179-180. *)
Definition front (inv : bool) (pts : list P) : option P := if inv then vback pts else vfront pts.
Definition back (inv : bool) (pts : list P) : option P := if inv then vfront pts else vback pts.

(** ReverseAndForwardIterator.h: the wrapped iterator (index) and the direction. *)
Record iter := Iter { it_base : nat; it_fwd : bool }.

(** begin, end: LineString.h:153-173; a reverse iterator stores rbegin().base(). *)
Definition ls_begin (inv : bool) (pts : list P) : iter :=
  if inv then Iter (length pts) false else Iter 0 true.
Definition ls_end (inv : bool) (pts : list P) : iter :=
  if inv then Iter 0 false else Iter (length pts) true.

(** ReverseAndForwardIterator::dereference, 35. *)
Definition deref (pts : list P) (it : iter) : option P :=
  if it_fwd it then nth_error pts (it_base it)
  else match it_base it with O => None | S b => nth_error pts b end.

(** advance by a non-negative distance and increment, 32-34; leaving the range of the
    vector is undefined. *)
Definition advance (pts : list P) (it : iter) (d : nat) : option iter :=
  if it_fwd it then (if Nat.leb (it_base it + d) (length pts) then Some (Iter (it_base it + d) true) else None)
  else (if Nat.leb d (it_base it) then Some (Iter (it_base it - d) false) else None).

(** equal of boost::iterator_adaptor compares only the wrapped iterators. *)
Definition it_eqb (a b : iter) : bool := Nat.eqb (it_base a) (it_base b).

(** for (auto it = begin(); it != end(); ++it): the sequence of points. *)
Fixpoint walk (fuel : nat) (pts : list P) (it fin : iter) : option (list P) :=
  if it_eqb it fin then Some [] else
  match fuel with
  | O => None
  | S f =>
    match deref pts it, advance pts it 1 with
    | Some x, Some it' =>
      match walk f pts it' fin with Some l => Some (x :: l) | None => None end
    | _, _ => None
    end
  end.
Definition iterate (inv : bool) (pts : list P) : option (list P) :=
  walk (length pts) pts (ls_begin inv pts) (ls_end inv pts).

(** segment(idx), 325-330 (const) *)
Definition segment (inv : bool) (pts : list P) (idx : nat) : option (P * P) :=
  match advance pts (ls_begin inv pts) idx with
  | None => None
  | Some first =>
    let second := if Nat.eqb (idx + 1) (length pts) then Some (ls_begin inv pts) else advance pts first 1 in
    match second with
    | None => None
    | Some second =>
      match deref pts first, deref pts second with
      | Some a, Some b => Some (a, b)
      | _, _ => None
      end
    end
  end.

(** segment(idx), 502-506 (mutable) *)
Definition segment_mut (inv : bool) (pts : list P) (idx : nat) : option (P * P) :=
  match at_ inv pts idx, at_ inv pts (if Nat.eqb (idx + 1) (length pts) then 0 else idx + 1) with
  | Some a, Some b => Some (a, b)
  | _, _ => None
  end.

(** numSegments, 333. *)
Definition num_segments (pts : list P) : nat :=
  if Nat.leb (length pts) 1 then 0 else length pts - 1.

(** numSegments of polygons, Polygon.h:113, 148. *)
Definition poly_num_segments (pts : list P) : nat :=
  if Nat.ltb (length pts) 2 then 0 else length pts.

(** * Mutations
    std::vector insert and erase at an index. *)
Definition vinsert (b : nat) (xs pts : list P) : option (list P) :=
  if Nat.leb b (length pts) then Some (firstn b pts ++ xs ++ skipn b pts) else None.
Definition verase (b : nat) (pts : list P) : option (list P) :=
  if Nat.ltb b (length pts) then Some (firstn b pts ++ skipn (S b) pts) else None.

(** insert(position, point), 413-417. *)
Definition ls_insert (inv : bool) (it : iter) (x : P) (pts : list P) : option (list P * iter) :=
  match vinsert (it_base it) [x] pts with
  | None => None
  | Some pts' => Some (pts', if inv then Iter (it_base it + 1) false else Iter (it_base it) true)
  end.

(** insert(position, start, end), 420-431. In the inverted case fwIter + 1 is formed;
    it has to stay within the vector. *)
Definition ls_insert_range (inv : bool) (it : iter) (xs : list P) (pts : list P) : option (list P * iter) :=
  if inv then
    match vinsert (it_base it) (rev xs) pts with
    | None => None
    | Some pts' =>
      if Nat.leb (it_base it + 1) (length pts') then Some (pts', Iter (it_base it + 1) false) else None
    end
  else
    match vinsert (it_base it) xs pts with
    | None => None
    | Some pts' => Some (pts', Iter (it_base it) true)
    end.

(** push_back, 434-436. *)
Definition ls_push_back (inv : bool) (x : P) (pts : list P) : list P :=
  if inv then x :: pts else pts ++ [x].

(** erase(position), 439-446. *)
Definition ls_erase (inv : bool) (it : iter) (pts : list P) : option (list P * iter) :=
  match (if inv then advance pts it 1 else Some it) with
  | None => None
  | Some it' =>
    match verase (it_base it') pts with
    | None => None
    | Some pts' => Some (pts', Iter (it_base it') (negb inv))
    end
  end.

(** pop_back, 449-451. *)
Definition ls_pop_back (inv : bool) (pts : list P) : option (list P) :=
  match pts with
  | [] => None
  | _ => Some (if inv then tl pts else removelast pts)
  end.

(** std::vector::resize: [news] are the default constructed points (as many as
    needed). *)
Definition vresize (num : nat) (news pts : list P) : list P :=
  if Nat.leb num (length pts) then firstn num pts else pts ++ firstn (num - length pts) news.

(** resize, 458-466. *)
Definition ls_resize (inv : bool) (num : nat) (news pts : list P) : list P :=
  if inv then rev (vresize num news (rev pts)) else vresize num news pts.

(** operator= from a vector (copy), 388-395. *)
Definition ls_assign (inv : bool) (rhs : list P) : list P := if inv then rev rhs else rhs.

(** operator= from a vector (move), 398-404: utils::invert (Utilities.h:168-173)
    returns the reversed copy, the result is not used. *)
Definition ls_assign_move (inv : bool) (rhs : list P) : list P :=
  let _ := if inv then rev rhs else rhs in rhs.

(** operator[] = x, front() = x, back() = x on the mutable classes, 487-497. *)
Definition vset (i : nat) (x : P) (pts : list P) : list P :=
  firstn i pts ++ match skipn i pts with [] => [] | _ :: r => x :: r end.
Definition ls_set (inv : bool) (idx : nat) (x : P) (pts : list P) : option (list P) :=
  if Nat.ltb idx (length pts)
  then Some (vset (if inv then length pts - 1 - idx else idx) x pts) else None.
End Line.
Arguments iter : clear implicits.

(** * Compound line strings
    [c]: the point sequences of the parts (already inverted if the part is).
    Positions are (outer, inner); the end is (length c, 0). *)
Section Compound.
Context {P : Type}.
Variable peq : P -> P -> bool.

Definition pos := (nat * nat)%type.
Definition pos_eqb (a b : pos) : bool := Nat.eqb (fst a) (fst b) && Nat.eqb (snd a) (snd b).
Definition part (c : list (list P)) (o : nat) : list P := nth o c [].
Definition c_end (c : list (list P)) : pos := (length c, 0).

(** firstNonempty, CompoundIterator.h:43-45, from the part [o] on. *)
Fixpoint nonempty_from (o : nat) (ls : list (list P)) : nat :=
  match ls with
  | [] => o
  | [] :: r => nonempty_from (S o) r
  | _ :: _ => o
  end.
Definition first_nonempty (c : list (list P)) : nat := nonempty_from 0 c.

(** begin, 30-36. *)
Definition c_begin (c : list (list P)) : pos := (first_nonempty c, 0).

(** dereference, 132. *)
Definition c_deref (c : list (list P)) (p : pos) : option P := nth_error (part c (fst p)) (snd p).

(** incrementOne, 75-88: the loop over empty parts is [nonempty_from]. *)
Definition inc_one (c : list (list P)) (p : pos) : option pos :=
  let '(o, i) := p in
  if Nat.ltb o (length c) then
    if Nat.eqb (S i) (length (part c o)) then Some (nonempty_from (S o) (skipn (S o) c), 0)
    else Some (o, S i)
  else None.

(** decrementOne, 90-100: do --itOuter while (itOuter != begin && itOuter->empty()). *)
Fixpoint back_outer (c : list (list P)) (first o : nat) : option nat :=
  match o with
  | O => None
  | S o' =>
    if Nat.eqb o' first then Some o'
    else match part c o' with [] => back_outer c first o' | _ => Some o' end
  end.
Definition dec_one (c : list (list P)) (p : pos) : option pos :=
  let '(o, i) := p in
  if Nat.eqb o (length c) || Nat.eqb i 0 then
    match back_outer c (first_nonempty c) o with
    | None => None
    | Some o' => match part c o' with [] => None | _ => Some (o', length (part c o') - 1) end
    end
  else Some (o, i - 1).

(** increment, 47-53. *)
Fixpoint inc_loop (fuel : nat) (c : list (list P)) (old : P) (p : pos) : option pos :=
  match fuel with
  | O => None
  | S f =>
    match inc_one c p with
    | None => None
    | Some p' =>
      if pos_eqb p' (c_end c) then Some p'
      else match c_deref c p' with
           | None => None
           | Some x => if peq old x then inc_loop f c old p' else Some p'
           end
    end
  end.
Definition total (c : list (list P)) : nat := length (concat c).
Definition inc (c : list (list P)) (p : pos) : option pos :=
  match c_deref c p with None => None | Some old => inc_loop (S (total c)) c old p end.

(** decrement, 55-70. [p] is *this, [next] starts at *this. *)
Fixpoint dec_loop (fuel : nat) (c : list (list P)) (next : pos) : option pos :=
  match fuel with
  | O => None
  | S f =>
    let this := next in
    match dec_one c next with
    | None => None
    | Some next' =>
      match c_deref c next', c_deref c this with
      | Some a, Some b =>
        if negb (peq a b) then Some this
        else if pos_eqb next' (c_begin c) then Some next'
        else dec_loop f c next'
      | _, _ => None
      end
    end
  end.
Definition dec (c : list (list P)) (p : pos) : option pos :=
  match dec_one c p with
  | None => None
  | Some p' => if pos_eqb p' (c_begin c) then Some p' else dec_loop (S (total c)) c p'
  end.

(** distance_to, 112-128: counts increments from the smaller to the larger one. *)
Definition pos_ltb (a b : pos) : bool :=
  Nat.ltb (fst a) (fst b) || (Nat.eqb (fst a) (fst b) && Nat.ltb (snd a) (snd b)).
Fixpoint count_to (fuel : nat) (c : list (list P)) (p q : pos) : option nat :=
  if pos_eqb p q then Some 0 else
  match fuel with
  | O => None
  | S f => match inc c p with
           | None => None
           | Some p' => match count_to f c p' q with Some n => Some (S n) | None => None end
           end
  end.
Definition c_distance (c : list (list P)) (p q : pos) : option nat :=
  (* absolute value; std::distance of the inverted iterators negates it, and there the
     end comes first (ReverseAndForwardIterator.h:38-43) *)
  if pos_ltb p q then count_to (total c) c p q else count_to (total c) c q p.

(** begin() / end() of the compound line string; inverted: the wrapped iterators are
    exchanged, ++ is decrement, * looks one before. *)
Definition cl_first (inv : bool) (c : list (list P)) : pos := if inv then c_end c else c_begin c.
Definition cl_last (inv : bool) (c : list (list P)) : pos := if inv then c_begin c else c_end c.
Definition cl_next (inv : bool) (c : list (list P)) (p : pos) : option pos := if inv then dec c p else inc c p.
Definition cl_prev (inv : bool) (c : list (list P)) (p : pos) : option pos := if inv then inc c p else dec c p.
Definition cl_deref (inv : bool) (c : list (list P)) (p : pos) : option P :=
  if inv then match dec c p with None => None | Some p' => c_deref c p' end else c_deref c p.

Fixpoint cl_walk (fuel : nat) (inv : bool) (c : list (list P)) (p fin : pos) : option (list P) :=
  if pos_eqb p fin then Some [] else
  match fuel with
  | O => None
  | S f =>
    match cl_deref inv c p, cl_next inv c p with
    | Some x, Some p' =>
      match cl_walk f inv c p' fin with Some l => Some (x :: l) | None => None end
    | _, _ => None
    end
  end.
(** All points in iteration order, e.g. CompoundLineStringData::points,
    CompoundLineString.h:50. *)
Definition cl_points (inv : bool) (c : list (list P)) : option (list P) :=
  cl_walk (total c) inv c (cl_first inv c) (cl_last inv c).

(** size(), 131. *)
Definition cl_size (inv : bool) (c : list (list P)) : option nat :=
  c_distance c (cl_first inv c) (cl_last inv c).

Fixpoint advance_by (n : nat) (inv : bool) (c : list (list P)) (p : pos) : option pos :=
  match n with
  | O => Some p
  | S n' => match cl_next inv c p with None => None | Some p' => advance_by n' inv c p' end
  end.

(** operator[], front, back, 160-186. *)
Definition cl_at (inv : bool) (c : list (list P)) (idx : nat) : option P :=
  match advance_by idx inv c (cl_first inv c) with
  | None => None
  | Some p => cl_deref inv c p
  end.
Definition cl_front (inv : bool) (c : list (list P)) : option P := cl_deref inv c (cl_first inv c).
Definition cl_back (inv : bool) (c : list (list P)) : option P :=
  match cl_prev inv c (cl_last inv c) with None => None | Some p => cl_deref inv c p end.

(** lineStrings(), 228-232. *)
Definition cl_parts (inv : bool) (c : list (list P)) : list (list P) :=
  if inv then rev (map (@rev P) c) else c.

(** numSegments of compound polygons, CompoundPolygon.h:30, 58, 90, 118. *)
Definition cp_num_segments (c : list (list P)) : option nat := option_map (Nat.max 1) (cl_size false c).
(** numSegments of compound line strings, CompoundLineString.h:203. *)
Definition cl_num_segments (inv : bool) (c : list (list P)) : option nat :=
  option_map (fun n => Nat.max 1 n - 1) (cl_size inv c).
End Compound.
