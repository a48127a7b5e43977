(** Model of line strings as Python sees them.

    Sources: lanelet2_python/include/lanelet2_python/internal/converter.h (wrappers::getItem, setItem, delItem),
    lanelet2_python/python_api/core.cpp:361-380 (IsLineString), on top of the model of LineString.h in LineModel.v.
    The types of boost::python are not modelled, only what a variable holds: [return_internal_reference] makes it a pointer to the
    element of the vector, the iterator of boost::python copies the element. The point itself is a handle; assigning it to an element
    of the vector replaces the handle. *)
From Coq Require Import List Arith Bool ZArith.
From Verif Require Import LineModel LineSpec PySpec.
Import ListNotations.

(** Conversion of the sum of an int64_t and a size_t (computed modulo 2^64) back to int64_t *)
Definition wrap64 (z : Z) : Z := ((z + 2 ^ 63) mod 2 ^ 64 - 2 ^ 63)%Z.
(** converter.h:11-16, the same in 24-29 and 37-42: the position, or none if the index is out of range *)
Definition item_index (index : Z) (size : nat) : option nat :=
  let index := if (index <? 0)%Z then wrap64 (index + Z.of_nat size) else index in
  if ((0 <=? index)%Z && (index <? Z.of_nat size)%Z)%bool then Some (Z.to_nat index) else None.

Section Py.
Context {P : Type}.
(** The capacity of the vector after it had to grow; any value above the number of elements. *)
Variable grow : nat -> nat.

(** The vector: which piece of memory it has, for how many elements, and its elements. *)
Record vec := Vec { v_buf : nat; v_cap : nat; v_pts : list P }.
(** What a variable holds: a copy, or a pointer into a piece of memory. *)
Inductive held := Own (x : P) | Slot (buf slot : nat).
Definition state := (vec * (nat -> option held))%type.

(** Reading what a variable points to; the memory is gone if the vector moved, the element if it became shorter. *)
Definition read (d : vec) (h : held) : option P :=
  match h with Own x => Some x | Slot b s => if Nat.eqb b (v_buf d) then nth_error (v_pts d) s else None end.
(** What the variables read now. *)
Definition reading (d : vec) (env : nat -> option held) : nat -> option P :=
  fun v => match env v with Some h => read d h | None => None end.
(** Variables that hold points made by Python. *)
Definition owned (e : nat -> option P) : nat -> option held := fun v => option_map Own (e v).
(** The place of element [k] of a view in the vector, LineString.h:493-496 *)
Definition slot_of (inv : bool) (d : vec) (k : nat) : nat := if inv then length (v_pts d) - 1 - k else k.
(** One element more: the vector moves if there is no room. *)
Definition enlarge (d : vec) (pts : list P) : vec :=
  if Nat.leb (length pts) (v_cap d) then Vec (v_buf d) (v_cap d) pts else Vec (S (v_buf d)) (grow (v_cap d)) pts.

(** getItem, converter.h:10-20, with return_internal_reference, core.cpp:378; __iter__, core.cpp:371; setItem, converter.h:22-33;
    delItem, converter.h:35-46; append, core.cpp:370 *)
Definition step (s : stmt) (st : state) : outcome state :=
  let (d, env) := st in
  let n := length (v_pts d) in
  match s with
  | Get inv v i =>
      match item_index i n with
      | None => IndexError st
      | Some k => match at_ inv (v_pts d) k with
                  | Some _ => Ran (d, bind_var env v (Slot (v_buf d) (slot_of inv d k)))
                  | None => Undefined
                  end
      end
  | Copy inv v i =>
      match iterate inv (v_pts d) with
      | None => Undefined
      | Some l => match list_index i (length l) with
                  | None => IndexError st
                  | Some k => match nth_error l k with Some x => Ran (d, bind_var env v (Own x)) | None => IndexError st end
                  end
      end
  | Put inv i v =>
      match env v with
      | None => NameError
      | Some h =>
          match read d h with
          | None => Undefined
          | Some x =>
              match item_index i n with
              | None => IndexError st
              | Some k => match ls_set inv k x (v_pts d) with Some pts => Ran (Vec (v_buf d) (v_cap d) pts, env) | None => Undefined end
              end
          end
      end
  | Del inv i =>
      match item_index i n with
      | None => IndexError st
      | Some k => match advance (v_pts d) (ls_begin inv (v_pts d)) k with
                  | None => Undefined
                  | Some it => match ls_erase inv it (v_pts d) with
                               | Some (pts, _) => Ran (Vec (v_buf d) (v_cap d) pts, env)
                               | None => Undefined
                               end
                  end
      end
  | Append inv v =>
      match env v with
      | None => NameError
      | Some h => match read d h with None => Undefined | Some x => Ran (enlarge d (ls_push_back inv x (v_pts d)), env) end
      end
  end.
Fixpoint run (p : list stmt) (st : state) : outcome state :=
  match p with
  | [] => Ran st
  | s :: r => match step s st with Ran st' => run r st' | o => o end
  end.
End Py.
Arguments vec : clear implicits. Arguments held : clear implicits. Arguments state : clear implicits.
