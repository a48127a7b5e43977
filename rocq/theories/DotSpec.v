(** Readers for the exported texts, written from the grammar of DOT and of the debug output of lanelets and areas,
    and what is to be read. *)
From Coq Require Import NArith ZArith List Bool String Ascii DecimalString.
From Verif Require Import CostAlg GraphModel.
Import ListNotations.
Open Scope string_scope.

(** The longest prefix of characters of a class. *)
Fixpoint take (p : ascii -> bool) (s : string) : string * string :=
  match s with
  | EmptyString => (EmptyString, EmptyString)
  | String c r => if p c then let (a, b) := take p r in (String c a, b) else (EmptyString, s)
  end.

(** The rest behind a literal. *)
Fixpoint behind (lit s : string) : option string :=
  match lit, s with
  | EmptyString, _ => Some s
  | String c l, String d r => if Ascii.eqb c d then behind l r else None
  | _, _ => None
  end.

Definition is_digit (c : ascii) : bool := (N.leb 48 (N_of_ascii c) && N.leb (N_of_ascii c) 57)%N.
Definition is_sign (c : ascii) : bool := is_digit c || Ascii.eqb c "-".
Definition is_letter (c : ascii) : bool :=
  let n := N_of_ascii c in ((N.leb 65 n && N.leb n 90) || (N.leb 97 n && N.leb n 122))%N.
Definition not_quote (c : ascii) : bool := negb (Ascii.eqb c """").

Definition number (s : string) : option Z := option_map Z.of_int (NilZero.int_of_string s).
(** A vertex or another number without sign, and the rest. *)
Definition index (s : string) : option (nat * string) :=
  let (a, r) := take is_digit s in option_map (fun z => (Z.to_nat z, r)) (number a).
Definition integer (s : string) : option (Z * string) :=
  let (a, r) := take is_sign s in option_map (fun z => (z, r)) (number a).

(** * DOT: statements [n[a="x" b="y"];] and [n->m [a="x"];] between [digraph G {] and [}] *)
Definition attribute := (string * string)%type.
Inductive statement := Node (n : nat) (a : list attribute) | Arrow (n m : nat) (a : list attribute).

Fixpoint attributes (fuel : nat) (s : string) : option (list attribute * string) :=
  match fuel with
  | 0 => None
  | S f =>
      let (key, r) := take is_letter s in
      match behind "=""" r with
      | None => None
      | Some r =>
          let (value, r) := take not_quote r in
          match behind """]" r, behind """ " r with
          | Some r, _ => Some ([(key, value)], r)
          | None, Some r => option_map (fun x => ((key, value) :: fst x, snd x)) (attributes f r)
          | None, None => None
          end
      end
  end.

Fixpoint statements (fuel : nat) (s : string) : option (list statement) :=
  match fuel with
  | 0 => None
  | S f =>
      match behind ("}" ++ String "010" "") s with
      | Some r => match r with EmptyString => Some [] | _ => None end
      | None =>
          match index s with
          | None => None
          | Some (n, r) =>
              let start := match behind "->" r with
                           | Some r => match index r with
                                       | Some (m, r) => option_map (fun r => (Arrow n m, r)) (behind " [" r)
                                       | None => None
                                       end
                           | None => option_map (fun r => (Node n, r)) (behind "[" r)
                           end in
              match start with
              | None => None
              | Some (stmt, r) =>
                  match attributes (String.length r) r with
                  | None => None
                  | Some (a, r) =>
                      match behind (";" ++ String "010" "") r with
                      | None => None
                      | Some r => option_map (cons (stmt a)) (statements f r)
                      end
                  end
              end
          end
      end
  end.

Definition read_dot (s : string) : option (list statement) :=
  match behind ("digraph G {" ++ String "010" "") s with
  | None => None
  | Some r => statements (String.length r) r
  end.

(** * The text of a lanelet or an area *)
Inductive thing :=
| ALanelet (id : Z) (inverted : bool) (left : Z * bool) (right : Z * bool)
| AnArea (id : Z) (outer : list Z) (inner : list (list Z)).

Definition optional (lit s : string) : bool * string := match behind lit s with Some r => (true, r) | None => (false, s) end.

(** A bound: its id, "(inverted)" if it is. *)
Definition bound (s : string) : option ((Z * bool) * string) :=
  match integer s with None => None | Some (z, r) => let (i, r) := optional " (inverted)" r in Some ((z, i), r) end.

(** Numbers with a comma behind each, up to the bracket. *)
Fixpoint numbers (fuel : nat) (s : string) : option (list Z * string) :=
  match fuel with
  | 0 => None
  | S f =>
      match behind "]" s with
      | Some r => Some ([], r)
      | None => match integer s with
                | None => None
                | Some (z, r) => match behind "," r with
                                 | None => None
                                 | Some r => option_map (fun x => (z :: fst x, snd x)) (numbers f r)
                                 end
                end
      end
  end.
Fixpoint lists (fuel : nat) (s : string) : option (list (list Z) * string) :=
  match fuel with
  | 0 => None
  | S f =>
      match behind "[" s with
      | None => Some ([], s)
      | Some r => match numbers (String.length r) r with
                  | None => None
                  | Some (l, r) => option_map (fun x => (l :: fst x, snd x)) (lists f r)
                  end
      end
  end.

Definition finish (t : thing) (s : string) : option thing := if String.eqb s "]" then Some t else None.

Definition read_thing (s : string) : option thing :=
  match behind "[id: " s with
  | None => None
  | Some r =>
      match integer r with
      | None => None
      | Some (id, r) =>
          let (inv, r) := optional ", inverted" r in
          match behind ", left id: " r with
          | Some r =>
              match bound r with
              | None => None
              | Some (l, r) =>
                  match behind ", right id: " r with
                  | None => None
                  | Some r => match bound r with None => None | Some (rr, r) => finish (ALanelet id inv l rr) r end
                  end
              end
          | None =>
              let outer := match behind " outer: [" r with Some r => numbers (String.length r) r | None => Some ([], r) end in
              match outer with
              | None => None
              | Some (o, r) =>
                  let inner := match behind " inner: " r with Some r => lists (String.length r) r | None => Some ([], r) end in
                  match inner with None => None | Some (i, r) => finish (AnArea id o i) r end
              end
          end
      end
  end.

(** * What is to be exported *)
(** The edges of a cost module whose relation is not among the excluded ones (a set of bits). An edge without
    relation is exported only if no relation is excluded; the builder stores no such edge. *)
Definition wanted_edge {A} (exclude costid : N) (e : edge A) : Prop :=
  ei_costid (e_info e) = costid /\
  forall k, N.testbit exclude k = true ->
    match ei_rel (e_info e) with RNone => (7 <= k)%N | r => N.testbit (bits r) k = false end.

(** The elements of a list with a property, in order and with repetitions. *)
Inductive picked {T} (P : T -> Prop) : list T -> list T -> Prop :=
| p_nil : picked P [] []
| p_take x l l' : P x -> picked P l l' -> picked P (x :: l) (x :: l')
| p_leave x l l' : ~ P x -> picked P l l' -> picked P (x :: l) l'.

(** The name of a relation in Forward.h:56-65 and the colours of the documentation of the edges. *)
Inductive named_relation : relation -> string -> string -> Prop :=
| nr_none : named_relation RNone "None" ""
| nr_succ : named_relation Successor "Successor" "green"
| nr_left : named_relation RLeft "Left" "blue"
| nr_right : named_relation RRight "Right" "magenta"
| nr_aleft : named_relation AdjacentLeft "AdjacentLeft" "black"
| nr_aright : named_relation AdjacentRight "AdjacentRight" "black"
| nr_conf : named_relation Conflicting "Conflicting" "red"
| nr_area : named_relation RArea "Area" "yellow".

(** One can drive over the edge. *)
Definition reachable (r : relation) : bool :=
  match r with AdjacentLeft | AdjacentRight | Conflicting => false | _ => true end.

Section Wanted.
Context {A : CostAlg}.
Variables (id : elem -> Z) (show : cost A -> string).

(** The statement of a vertex: number, and its id twice. *)
Definition node_of (n : nat) (e : elem) (s : statement) : Prop :=
  exists t, number t = Some (id e) /\ s = Node n [("label", t); ("lanelet", t)].
(** The statement of an edge. *)
Definition arrow_of (e : edge A) (s : statement) : Prop :=
  exists label color k, named_relation (ei_rel (e_info e)) label color /\
    number k = Some (Z.of_N (ei_costid (e_info e))) /\
    s = Arrow (e_src e) (e_tgt e)
          ([("label", label); ("color", color)] ++
           (if reachable (ei_rel (e_info e)) then [("weight", show (ei_cost (e_info e)))] else []) ++
           [("routingCostId", k)])%list.

(** The statements of a drawing of a graph: first all vertices by number, then the given edges. *)
Definition drawn (g : graph A) (es : list (edge A)) (l : list statement) : Prop :=
  exists v a, (l = v ++ a)%list /\ List.length v = List.length (g_verts g) /\
    (forall n e, nth_error (g_verts g) n = Some e -> exists s, nth_error v n = Some s /\ node_of n e s) /\
    Forall2 arrow_of es a.
End Wanted.
