(** What is expected of attributes in Python: they behave like a dictionary of strings. *)
From Coq Require Import List Bool ZArith.
From Verif Require Import PyTextModel.
Import ListNotations.
Local Open Scope Z_scope.

(** Unicode scalar values: all code points but surrogates. A text has an encoding exactly if it consists of these. *)
Definition scalar (c : Z) : Prop := 0 <= c < 1114112 /\ ~ (55296 <= c <= 57343).
Definition encodable (s : text) : Prop := Forall scalar s.
(** All that Python can have in a string *)
Definition python_text (s : text) : Prop := Forall (fun c => 0 <= c < 1114112) s.
Definition no_nul (s : text) : Prop := Forall (fun c => c <> 0) s.
Definition is_bytes (b : bytes) : Prop := Forall (fun x => 0 <= x < 256) b.

(** A dictionary of Python with strings as keys and values: what is stored last under a key is found under it. *)
Definition dict := text -> option text.
Definition text_dec : forall a b : text, {a = b} + {a <> b} := list_eq_dec Z.eq_dec.
Definition store (k v : text) (d : dict) : dict := fun k' => if text_dec k k' then Some v else d k'.
Definition stored (l : list (text * text)) (d : dict) : dict := fold_left (fun d kv => store (fst kv) (snd kv) d) l d.

(** A map behaves like a dictionary. *)
Definition like (m : amap) (d : dict) : Prop :=
  forall k, encodable k -> get_item m (Str k) = match d k with Some v => Done v | None => Fails KeyError end.

(** A dictionary literal: strings with different keys *)
Definition objects (l : list (text * text)) : list (pyobj * pyobj) := map (fun kv => (Str (fst kv), Str (snd kv))) l.
Definition literal (l : list (text * text)) : Prop := NoDup (map fst l).
Definition all_encodable (l : list (text * text)) : Prop := Forall (fun kv => encodable (fst kv) /\ encodable (snd kv)) l.

(** A sequence of assignments m[k] = v *)
Fixpoint set_items (m : amap) (l : list (text * text)) : result amap :=
  match l with [] => Done m | (k, v) :: r => bind (set_item m (Str k) (Str v)) (fun m' => set_items m' r) end.
