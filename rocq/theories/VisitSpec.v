(** What the queries with a visit function or a stop criterion should deliver. Only the parameter and
    information types of the interface are taken from the model. *)
From Coq Require Import NArith List Bool Arith Sorted.
From Verif Require Import CostAlg GraphModel RoutingSpec DijkstraModel.
Import ListNotations.

Section Spec.
Context {A : CostAlg}.

(** A log lists the calls of a visit function with the answers (None: it threw). *)
Definition vlog := list (vinfo A * option bool).
Definition visited (log : vlog) : list nat := map (fun x => vi_vertex (fst x)) log.
Definition accepted_in (log : vlog) (v : nat) : Prop := exists i, In (i, Some true) log /\ vi_vertex i = v.
Definition rejected_in (log : vlog) (v : nat) : Prop := exists i, In (i, Some false) log /\ vi_vertex i = v.

(** The information that describes reaching v along es. *)
Definition info_way (v : nat) (es : list (edge A)) : vinfo A :=
  VI v (wpred es v) (wcost es) (S (length es)) (wchanges es).

(** A correct sequence of visits: ordered by cost, no vertex twice, each call sees the state left by the
    previous one, and each visit describes a cheapest way that leaves no rejected vertex. *)
Record good_visits {St} (P : edge A -> Prop) (cb : St -> vinfo A -> St * option bool) (s : nat)
       (st : St) (log : vlog) (st' : St) : Prop := {
  gv_calls : calls cb st log st';
  gv_once : NoDup (visited log);
  gv_sorted : StronglySorted (fun x y => cle A (vi_cost (fst x)) (vi_cost (fst y))) log;
  gv_entry : forall i a, In (i, a) log -> exists es,
      i = info_way (vi_vertex i) es /\ open_walk P (accepted_in log) s es (vi_vertex i) /\
      NoDup (wverts s es) /\
      forall es', open_walk P (fun x => ~ rejected_in log x) s es' (vi_vertex i) ->
                  cle A (wcost es) (wcost es')
}.

(** Nothing was left out: without exception every vertex that can be reached over accepted vertices is
    visited; with an exception the log ends there and every cheaper vertex was visited before. *)
Definition complete_visits (P : edge A -> Prop) (s : nat) (log : vlog) : Prop :=
  ((forall i a, In (i, a) log -> a <> None) /\
   forall es v, open_walk P (accepted_in log) s es v -> below_inf (wcost es) -> In v (visited log)) \/
  exists pre i, log = pre ++ [(i, None)] /\ (forall j a, In (j, a) pre -> a <> None) /\
   forall es v, open_walk P (accepted_in log) s es v -> cltb A (wcost es) (vi_cost i) = true ->
                In v (visited pre).

(** The limits of possiblePaths: paths are extended while below all given limits. *)
Definition in_limits (p : pp_params A) (es : list (edge A)) : Prop :=
  (forall c, pp_cost p = Some c -> cltb A (wcost es) c = true) /\
  (forall n, pp_elems p = Some n -> S (length es) < n).

(** Correct result of possiblePaths from vertex s: the listed paths are the branches of a shortest path
    tree that is extended exactly at the vertices within the limits. *)
Definition good_paths (g : graph A) (P : edge A -> Prop) (backw : bool) (s : nat) (p : pp_params A)
           (l : list (list elem)) : Prop :=
  exists best ends,
    best_tree P (fun v => exists es, best v = Some es /\ in_limits p es) s best /\
    NoDup ends /\
    (forall v, In v ends <-> exists es, best v = Some es /\
        (forall w es' e, best w = Some (es' ++ [e]) -> e_src e <> v) /\
        (pp_shorter p = true \/ ~ in_limits p es)) /\
    Forall2 (fun v path => exists es, best v = Some es /\ elements g (oriented backw (wverts s es)) path) ends l.
End Spec.
