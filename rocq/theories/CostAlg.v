(** Costs used by the routing graph.

    The library computes with double, std::less<double> and
    boost::closed_plus<double> (lanelet2_routing/include/lanelet2_routing/internal/ShortestPath.h:123-126).
    The model is generic in the cost type so that no associativity or
    cancellation is assumed (floating point addition has neither). *)
From Coq Require Import ZArith Lia Bool ZifyBool.

Record CostAlg := {
  cost : Type;
  czero : cost;                      (* 0. *)
  cinf : cost;                       (* std::numeric_limits<double>::infinity() *)
  cplus : cost -> cost -> cost;      (* boost::closed_plus<double> *)
  cltb : cost -> cost -> bool;       (* std::less<double> *)
  cfinite : cost -> bool             (* std::isfinite *)
}.

Definition cle (A : CostAlg) (a b : cost A) : Prop := cltb A b a = false.

(** What is assumed of the arithmetic. [cok] are the values accumulated by the
    search (for double: every non-NaN non-negative value including infinity),
    [wok] the values accepted as edge weight by Graph::addEdge
    (finite and not negative). *)
Record CostLaws (A : CostAlg) (cok wok : cost A -> Prop) : Prop := {
  ok_zero : cok (czero A);
  ok_inf : cok (cinf A);
  ok_plus : forall c w, cok c -> wok w -> cok (cplus A c w);
  wok_iff : forall w, wok w <-> (cfinite A w = true /\ cltb A w (czero A) = false);
  lt_irrefl : forall a, cok a -> cltb A a a = false;
  lt_le_trans : forall a b c, cok a -> cok b -> cok c ->
      cltb A a b = true -> cle A b c -> cltb A a c = true;
  le_trans : forall a b c, cok a -> cok b -> cok c -> cle A a b -> cle A b c -> cle A a c;
  lt_le : forall a b, cok a -> cok b -> cltb A a b = true -> cle A a b;
  le_inf : forall a, cok a -> cle A a (cinf A);
  zero_finite : cltb A (czero A) (cinf A) = true;
  zero_le : forall a, cok a -> cle A (czero A) a;
  plus_infl : forall c w, cok c -> wok w -> cle A c (cplus A c w);
  plus_mono : forall c c' w, cok c -> cok c' -> wok w ->
      cle A c c' -> cle A (cplus A c w) (cplus A c' w)
}.

(** A concrete instance: exact integers with infinity. Negative values exist (a cost module or a caller
    may produce them) but are not accepted as edge weight. *)
Definition zcost := option Z.
Definition zcplus (a b : zcost) : zcost :=
  match a, b with Some x, Some y => Some (x + y)%Z | _, _ => None end.
Definition zcltb (a b : zcost) : bool :=
  match a, b with
  | Some x, Some y => (x <? y)%Z
  | Some _, None => true
  | None, _ => false
  end.
Definition ZCost : CostAlg := {|
  cost := zcost; czero := Some 0%Z; cinf := None; cplus := zcplus; cltb := zcltb;
  cfinite := fun c => match c with Some _ => true | None => false end |}.

Definition zcok (c : zcost) : Prop := match c with Some x => (0 <= x)%Z | None => True end.
Definition zwok (c : zcost) : Prop := match c with Some x => (0 <= x)%Z | None => False end.

Lemma ZCostLaws : CostLaws ZCost zcok zwok.
Proof.
  constructor; unfold cle; simpl; auto.
  - lia.
  - intros [c|] [w|]; simpl; lia.
  - intros [w|]; simpl; [|intuition discriminate].
    rewrite Z.ltb_ge. tauto.
  - intros [a|]; simpl; auto. intros; lia.
  - intros [a|] [b|] [c|]; simpl; auto; intros; try discriminate; lia.
  - intros [a|] [b|] [c|]; simpl; auto; intros; try discriminate; lia.
  - intros [a|] [b|]; simpl; auto; intros; try discriminate; lia.
  - intros [a|]; simpl; auto; intros. lia.
  - intros [c|] [w|]; simpl; auto; intros; try contradiction; lia.
  - intros [c|] [c'|] [w|]; simpl; auto; intros; try contradiction; try discriminate; lia.
Qed.
