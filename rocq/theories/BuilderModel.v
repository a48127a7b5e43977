(** The builder of the routing graph.

    Source: lanelet2_routing/src/RoutingGraphBuilder.cpp,
    lanelet2_routing/include/lanelet2_routing/internal/RoutingGraphBuilder.h and
    lanelet2_core/include/lanelet2_core/geometry/impl/Lanelet.h for the relations between lanelets.

    A lanelet is the number of its shared data together with the inverted flag, an area is the number of its
    data; the lanelet layer holds each lanelet once, so the set of ids of the lanelets that are
    passable both ways is a set of such numbers. Line strings are shared data and orientation, points
    are identified by their data pointer and have an id. Traffic rules, cost modules, the search in the
    layers by bounding box and the test whether the outlines overlap are parameters. Cost modules do
    not throw. *)
From Coq Require Import NArith ZArith List Bool Arith.
From Verif Require Import CostAlg GraphModel TrafficModel.
Import ListNotations.
Local Open Scope nat_scope.

Inductive res (T : Type) :=
| Ok (x : T)
| ThrowsNegative      (* RoutingGraphError of Graph::addEdge *)
| UB                  (* front() or back() of an empty line string *)
| OutOfFuel.          (* artefact of the model, never reached *)
Arguments Ok {T} x. Arguments ThrowsNegative {T}. Arguments UB {T}. Arguments OutOfFuel {T}.
Definition bind {T U} (r : res T) (f : T -> res U) : res U :=
  match r with Ok x => f x | ThrowsNegative => ThrowsNegative | UB => UB | OutOfFuel => OutOfFuel end.
Definition of_option {T} (o : option T) : res T := match o with Some x => Ok x | None => UB end.
(** A loop over a list. *)
Fixpoint each {S T} (f : S -> T -> res S) (s : S) (l : list T) : res S :=
  match l with [] => Ok s | x :: r => bind (f s x) (fun s' => each f s' r) end.

(** ConstLanelet: data and inverted flag. *)
Definition lref := (N * bool)%type.
Definition inv (l : lref) : lref := (fst l, negb (snd l)).
Definition lref_eqb (a b : lref) : bool := N.eqb (fst a) (fst b) && Bool.eqb (snd a) (snd b).
Definition L (l : lref) : elem := ELanelet (fst l) (snd l).

(** What the builder reads of the map. *)
Record world := World {
  w_points : nat -> list nat;            (* points of line string data *)
  w_pid : nat -> Z;                      (* id of a point *)
  w_left : N -> line;                    (* bounds of lanelet data *)
  w_right : N -> line;
  w_layer : list N;                      (* laneletLayer *)
  w_areas : list N;                      (* areaLayer *)
  w_near : elem -> list N;               (* passable lanelets whose box meets the box of the element *)
  w_near_areas : N -> list N;            (* passable areas whose box meets the box of the area *)
  w_meet : lref -> lref -> bool;         (* overlaps2d/3d after the test for neighbours *)
  w_meet_area : N -> N -> bool;          (* overlaps of area and lanelet *)
  w_meet_areas : N -> N -> bool }.       (* overlaps of two areas *)
Record rules := Rules {
  may_use : lref -> bool;                (* canPass(lanelet) *)
  may_use_area : N -> bool;              (* canPass(area) *)
  may_pass : elem -> elem -> bool;       (* canPass(from, to) *)
  may_change : lref -> lref -> bool }.   (* canChangeLane(from, to) *)

Section Geometry.
Variable w : world.
(** Lanelet.h:164-175 *)
Definition lbound (l : lref) : line := if snd l then linv (w_right w (fst l)) else w_left w (fst l).
Definition rbound (l : lref) : line := if snd l then linv (w_left w (fst l)) else w_right w (fst l).
Definition line_points (b : line) : list nat :=
  if l_inv b then rev (w_points w (l_data b)) else w_points w (l_data b).
Definition first (b : line) : option nat := hd_error (line_points b).
Definition last (b : line) : option nat := hd_error (rev (line_points b)).
Definition same_point (a b : option nat) : bool :=
  match a, b with Some p, Some q => Nat.eqb p q | _, _ => false end.
(** geometry::leftOf, rightOf, follows, impl/Lanelet.h:127-143 *)
Definition left_of (l r : lref) : bool := line_eqb (rbound l) (lbound r).
Definition right_of (r l : lref) : bool := left_of l r.
Definition follows (p n : lref) : bool :=
  same_point (last (lbound p)) (first (lbound n)) && same_point (last (rbound p)) (first (rbound n)).
(** geometry::overlaps2d, impl/Lanelet.h:63-90, and overlaps3d, 118-125: the parameter is the rest after
    the test for neighbours. *)
Definition overlaps (a b : lref) : bool :=
  if N.eqb (fst a) (fst b) then true
  else if line_eqb (rbound a) (lbound b) || line_eqb (lbound a) (rbound b)
       || line_eqb (linv (lbound a)) (lbound b) || line_eqb (linv (rbound a)) (rbound b)
       || follows a b || follows b a || follows (inv a) b || follows (inv b) a then false
  else w_meet w a b.

(** orderedIdPair, 17 *)
Definition key := (Z * Z)%type.
Definition ordered (p q : nat) : key :=
  let a := w_pid w p in let b := w_pid w q in if (a <? b)%Z then (a, b) else (b, a).
Definition key_eqb (a b : key) : bool := (fst a =? fst b)%Z && (snd a =? snd b)%Z.
Definition key_of (p q : option nat) : option key :=
  match p, q with Some a, Some b => Some (ordered a b) | _, _ => None end.

(** pointsToLanelets_, a multimap: equal keys stay in insertion order. *)
Definition index := list (key * lref).
Definition equal_range (idx : index) (k : key) : list lref :=
  map snd (filter (fun e => key_eqb (fst e) k) idx).
(** addPointsToSearchIndex, 325-335 *)
Definition add_points (idx : index) (l : lref) : res index :=
  bind (of_option (key_of (first (lbound l)) (first (rbound l)))) (fun k1 =>
  bind (of_option (key_of (last (lbound l)) (last (rbound l)))) (fun k2 =>
  bind (of_option (key_of (first (lbound l)) (last (lbound l)))) (fun k3 =>
  bind (of_option (key_of (first (rbound l)) (last (rbound l)))) (fun k4 =>
  Ok (idx ++ [(k1, l); (k2, l); (k3, l); (k4, l)]))))).
End Geometry.

Section Build.
Context {A : CostAlg}.
Variable one : cost A.                   (* 1. *)
Record module := Module {
  m_succeeding : elem -> elem -> cost A;             (* getCostSucceeding *)
  m_change : list lref -> list lref -> cost A }.     (* getCostLaneChange *)
Variable w : world.
Variable ru : rules.
Variable costs : list module.
(** The iteration order of the unordered_map in LaneChangeLaneletsCollector. *)
Variable order : list (lref * lref) -> list (lref * lref).

(** Graph::addEdge as seen by the builder. *)
Definition put (g : graph A) (a b : elem) (i : einfo A) : res (graph A) :=
  match add_edge g a b i with
  | (_, ThrowsRoutingGraphError) => ThrowsNegative
  | (g', _) => Ok g'
  end.

(** The cost modules with their ids. *)
Definition modules : list (N * module) := combine (map N.of_nat (seq 0 (length costs))) costs.

(** assignCosts, 358-378, for the relations it is called with. *)
Definition edge_cost (m : module) (a b : elem) (r : relation) : cost A :=
  match r with Successor | RArea => m_succeeding m a b | _ => one end.
Definition assign_costs (g : graph A) (a b : elem) (r : relation) : res (graph A) :=
  each (fun g km => put g a b (EInfo (edge_cost (snd km) a b r) (fst km) r)) g modules.

(** hasEdge, 337-339 *)
Definition has_edge (g : graph A) (a b : lref) : bool :=
  match get_edge_info g (L a) (L b) with Some _ => true | None => false end.

(** getPassableLanelets, 106-113; getPassableAreas, 115-122; appendBidirectionalLanelets, 124-133 *)
Definition passable : list lref := filter (may_use ru) (map (fun d => (d, false)) (w_layer w)).
Definition passable_areas : list N := filter (may_use_area ru) (w_areas w).
Definition both_ways : list lref := filter (fun l => may_use ru (inv l)) passable.
Definition vertices : list lref := passable ++ map inv both_ways.
Definition is_both_ways (l : lref) : bool := existsb (fun m => N.eqb (fst m) (fst l)) both_ways.

(** addFollowingEdges, 172-196. The list [merging] is computed there but not used. *)
Definition add_following (idx : index) (g : graph A) (l : lref) : res (graph A) :=
  bind (of_option (key_of w (last w (lbound w l)) (last w (rbound w l)))) (fun k =>
  let nexts := filter (fun n => follows w l n && may_pass ru (L l) (L n)) (equal_range idx k) in
  each (fun g n => assign_costs g (L l) (L n) Successor) g nexts).

(** LaneChangeLaneletsCollector: the map in insertion order; emplace keeps the first entry, 32-35. *)
Definition collector := list (lref * lref).
Fixpoint target (c : collector) (l : lref) : option lref :=
  match c with [] => None | (s, t) :: r => if lref_eqb s l then Some t else target r l end.
Definition collect (c : collector) (s t : lref) : collector :=
  match target c s with Some _ => c | None => c ++ [(s, t)] end.

(** addSidewayEdge, 198-214 *)
Inductive side := SLeft | SRight.
Definition side_bound (s : side) (l : lref) : line := match s with SLeft => lbound w l | SRight => rbound w l end.
Definition beside (s : side) (b l : lref) : bool :=
  match s with SLeft => left_of w b l | SRight => right_of w b l end.
Definition adjacent (s : side) : relation := match s with SLeft => AdjacentLeft | SRight => AdjacentRight end.
Definition changing (s : side) : relation := match s with SLeft => RLeft | SRight => RRight end.
Definition add_sideway (s : side) (idx : index) (l : lref) (st : graph A * collector) :
    res (graph A * collector) :=
  bind (of_option (key_of w (first w (side_bound s l)) (last w (side_bound s l)))) (fun k =>
  each (fun (st : graph A * collector) b =>
    let (g, c) := st in
    if negb (lref_eqb l b) && negb (has_edge g l b) && beside s b l then
      if may_change ru l b then Ok (g, collect c l b)
      else bind (assign_costs g (L l) (L b) (adjacent s)) (fun g' => Ok (g', c))
    else Ok st) st (equal_range idx k)).

(** addConflictingEdge, 216-241 *)
Definition add_conflicting (g : graph A) (l : lref) : res (graph A) :=
  each (fun g d =>
    let found := (d, false) in
    if is_both_ways l && lref_eqb found l then
      bind (assign_costs g (L l) (L (inv found)) Conflicting) (fun g' =>
      assign_costs g' (L (inv found)) (L l) Conflicting)
    else if has_edge g l found then Ok g
    else if match get_vertex g (L found) with None => true | Some _ => false end || lref_eqb found l then Ok g
    else if overlaps w l found then
      bind (assign_costs g (L l) (L found) Conflicting) (fun g' =>
      assign_costs g' (L found) (L l) Conflicting)
    else Ok g) g (w_near w (L l)).

(** The lambdas next and prev of addLaneChangeEdges, 244-261. Successor edges join lanelets. *)
Definition lanelets_of (l : list (option elem)) : list lref :=
  flat_map (fun o => match o with Some (ELanelet d i) => [(d, i)] | _ => [] end) l.
Definition is_successor (e : edge A) : bool :=
  relation_eqb (ei_rel (e_info e)) Successor && N.eqb (ei_costid (e_info e)) 0.
Definition nexts (g : graph A) (l : lref) : list lref :=
  match get_vertex g (L l) with
  | None => []
  | Some v => lanelets_of (map (fun e => vertex_elem g (e_tgt e))
                (filter (fun e => is_successor e && Nat.eqb (e_src e) v) (g_edges g)))
  end.
Definition prevs (g : graph A) (l : lref) : list lref :=
  match get_vertex g (L l) with
  | None => []
  | Some v => lanelets_of (map (fun e => vertex_elem g (e_src e))
                (filter (fun e => is_successor e && Nat.eqb (e_tgt e) v) (g_edges g)))
  end.

Definition visited (v : list lref) (l : lref) : bool := existsb (lref_eqb l) v.
(** getAdjacentLaneChangeLanelets, 61-81 *)
Fixpoint walk (adj : lref -> list lref) (c : collector) (fuel : nat) (v : list lref) (s t : lref) :
    res (list (lref * lref) * list lref) :=
  match fuel with
  | 0 => OutOfFuel
  | S fuel =>
      match adj s, adj t with
      | [s'], [t'] =>
          match target c s' with
          | None => Ok ([], v)
          | Some u =>
              if visited v s' || negb (lref_eqb u t') then Ok ([], v)
              else bind (walk adj c fuel (s' :: v) s' u) (fun rv => Ok ((s', t') :: fst rv, snd rv))
          end
      | _, _ => Ok ([], v)
      end
  end.
(** getLaneChangeLanelets, 48-59 *)
Definition sequence (g : graph A) (c : collector) (v : list lref) (s t : lref) :
    res (list (lref * lref) * list lref) :=
  bind (walk (nexts g) c (S (length c)) (s :: v) s t) (fun f =>
  bind (walk (prevs g) c (S (length c)) (snd f) s t) (fun p =>
  Ok (rev (fst p) ++ (s, t) :: fst f, snd p))).

(** assignLaneChangeCosts, 341-356 *)
Definition change_info (m : N * module) (sd : side) (froms tos : list lref) : einfo A :=
  let c := m_change (snd m) froms tos in
  if negb (cfinite A c) then EInfo one (fst m) (adjacent sd) else EInfo c (fst m) (changing sd).
Fixpoint assign_change (sd : side) (g : graph A) (seq : list (lref * lref)) : res (graph A) :=
  match seq with
  | [] => Ok g
  | (s, t) :: rest =>
      bind (each (fun g m => put g (L s) (L t) (change_info m sd (map fst seq) (map snd seq))) g modules)
           (fun g' => assign_change sd g' rest)
  end.

(** addLaneChangeEdges, 243-266, with getNextChangeLanelets, 37-45 *)
Definition change_edges (sd : side) (g : graph A) (c : collector) : res (graph A) :=
  bind (each (fun (st : graph A * list lref) e =>
    let (g, v) := st in
    if visited v (fst e) then Ok st
    else bind (sequence g c v (fst e) (snd e)) (fun r =>
         bind (assign_change sd g (fst r)) (fun g' => Ok (g', snd r)))) (g, []) (order c))
  (fun st => Ok (fst st)).

(** addEdges for lanelets, 148-162 *)
Definition lanelet_edges (idx : index) (g : graph A) : res (graph A) :=
  bind (each (fun (st : graph A * collector * collector) l =>
    let '(g, cl, cr) := st in
    bind (add_following idx g l) (fun g =>
    bind (add_sideway SLeft idx l (g, cl)) (fun gl =>
    bind (add_sideway SRight idx l (fst gl, cr)) (fun gr =>
    bind (add_conflicting (fst gr) l) (fun g => Ok (g, snd gl, snd gr)))))) (g, [], []) vertices)
  (fun st => let '(g, cl, cr) := st in
    bind (change_edges SLeft g cl) (fun g => change_edges SRight g cr)).

(** addAreaEdge for lanelets, 268-297 *)
Definition area_lanelets (g : graph A) (a : N) : res (graph A) :=
  each (fun g d =>
    let x := L (d, false) in
    let y := L (d, true) in
    let r := EArea a in
    let out := may_pass ru r x in
    let outi := may_pass ru r y in
    let into := may_pass ru x r in
    let intoi := may_pass ru y r in
    bind (if out then assign_costs g r x RArea else Ok g) (fun g =>
    bind (if outi then assign_costs g r y RArea else Ok g) (fun g =>
    bind (if into then assign_costs g x r RArea else Ok g) (fun g =>
    bind (if intoi then assign_costs g y r RArea else Ok g) (fun g =>
    if out || outi || into || intoi then Ok g
    else if w_meet_area w a d then assign_costs g x r Conflicting
    else Ok g))))) g (w_near w (EArea a)).
(** addAreaEdge for areas, 299-315 *)
Definition area_areas (g : graph A) (a : N) : res (graph A) :=
  each (fun g b =>
    if N.eqb b a then Ok g
    else if may_pass ru (EArea a) (EArea b) then assign_costs g (EArea a) (EArea b) RArea
    else if w_meet_areas w a b then assign_costs g (EArea b) (EArea a) Conflicting
    else Ok g) g (w_near_areas w a).
(** addEdges for areas, 164-170 *)
Definition area_edges (g : graph A) : res (graph A) :=
  each (fun g a => bind (area_lanelets g a) (fun g => area_areas g a)) g passable_areas.

(** build, 94-104, with addLaneletsToGraph, 135-140, and addAreasToGraph, 142-146 *)
Definition build : res (graph A) :=
  bind (each (fun (st : graph A * index) l =>
          bind (add_points w (snd st) l) (fun idx => Ok (add_vertex (fst st) (L l), idx)))
        (empty_graph (N.of_nat (length costs)), []) vertices) (fun st =>
  bind (lanelet_edges (snd st) (fold_left add_vertex (map EArea passable_areas) (fst st)))
       area_edges).
End Build.
