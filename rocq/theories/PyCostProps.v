(** C128: routing costs written in Python. *)
From Coq Require Import List Bool ZArith.
From Verif Require Import PyCostModel PyCostSpec PyCostProofs.
Import ListNotations.

(** If every cost gives a number for every edge it is asked about, the graph has the edges with these numbers, in order,
    a lane change with an infinite cost becoming an adjacent edge and a successor with one being left out; ... *)
Theorem C128_graph {Q D} finite negative (one : D) (cs : list (cost Q D)) rs :
  finite one = true -> negative one = false ->
  (forall c r, In c cs -> In r rs -> fine finite negative c r) ->
  (exists l, edges_of finite one cs rs l) /\
  (forall l, edges_of finite one cs rs l -> build finite negative one rs cs = Built l).
Proof.
  intros O P F. split; [exact (edges_exist finite negative one cs rs F)|].
  intros l E. unfold build. exact (build_fine finite negative one O P cs rs F [] l E).
Qed.
Print Assumptions C128_graph.

(** ... which is the graph of the same costs in C++. *)
Theorem C128_as_in_cpp {Q D} finite negative (one : D) (cs cs' : list (cost Q D)) rs :
  finite one = true -> negative one = false ->
  (forall c r, In c cs -> In r rs -> fine finite negative c r) -> Forall2 in_cpp cs cs' ->
  build finite negative one rs cs = build finite negative one rs cs'.
Proof.
  intros O P F S. destruct (edges_exist finite negative one cs rs F) as [l E].
  assert (G : forall c c' : cost Q D, in_cpp c c' -> forall m q d, gives c m q d <-> gives c' m q d).
  { intros c c' (f & -> & I) m q d. rewrite I. split; [apply gives_cpp|intros X; now inversion X]. }
  assert (U : forall (c c' : cost Q D) r, in_cpp c c' -> fine finite negative c r -> fine finite negative c' r).
  { intros c c' r I. destruct r as [q|q|q]; cbn.
    - intros (d & A & B). exists d. split; [now apply (G c c' I)|exact B].
    - intros (d & A & B). exists d. split; [now apply (G c c' I)|exact B].
    - destruct I as (f & -> & _). discriminate. }
  assert (F' : forall c r, In c cs' -> In r rs -> fine finite negative c r).
  { intros c' r I J. clear E. revert F. induction S as [|c x cs cs' H S IH]; intros F; [destruct I|].
    destruct I as [->|I]; [apply (U c c' r H), F; [now left|exact J]|apply IH; [exact I|]].
    intros y z K. apply F. now right. }
  assert (X : forall r id (c c' : cost Q D) m, in_cpp c c' -> edges_for finite one r id c m -> edges_for finite one r id c' m).
  { intros r id c c' m I K. destruct K as [q R|q d R A B|q d R A B|q d R A B|q d R A B].
    - eapply plain; eauto.
    - apply (G c c' I) in A. eapply follow; eauto.
    - apply (G c c' I) in A. eapply follow_not; eauto.
    - apply (G c c' I) in A. eapply change; eauto.
    - apply (G c c' I) in A. eapply change_not; eauto. }
  assert (Y : forall r id m, edges_of_costs finite one r id cs m -> edges_of_costs finite one r id cs' m).
  { intros r. clear - S X. induction S as [|c c' cs cs' H S IH]; intros id m K; inversion K; subst; constructor; eauto. }
  assert (E' : edges_of finite one cs' rs l).
  { clear - E Y. induction E; constructor; auto. }
  destruct (C128_graph finite negative one cs rs O P F) as [_ A].
  destruct (C128_graph finite negative one cs' rs O P F') as [_ B].
  rewrite (A l E), (B l E'). reflexivity.
Qed.
Print Assumptions C128_as_in_cpp.

(** A negative number raises an exception, from Python as from C++. *)
Theorem C128_negative {Q D} finite negative (one : D) rs1 r rs2 before (c : cost Q D) after m q d :
  finite one = true -> negative one = false ->
  (forall x y, In x (before ++ c :: after) -> In y rs1 -> fine finite negative x y) ->
  (forall x, In x before -> fine finite negative x r) ->
  asks r = Some (m, q) -> gives c m q d -> finite d = true -> negative d = true ->
  build finite negative one (rs1 ++ r :: rs2) (before ++ c :: after) = Exception.
Proof.
  intros O P F1 F2 A G Fd Nd. apply build_stops; auto; [|discriminate].
  intros g id. apply virtual_value in G. destruct r; cbn in A; [| |discriminate]; injection A as <- <-;
    cbn [assign]; rewrite G; cbn [with_value]; unfold add_edge; cbn; rewrite Fd; cbn; rewrite ?Fd, Nd; reflexivity.
Qed.
Print Assumptions C128_negative.

(** But an error ends the process instead of raising an exception: a method that raises, that answers no number, or that
    is missing, and an error in C++ for which no method in Python is to blame. *)
Theorem C128_error_refuted {Q D} finite negative (one : D) rs1 r rs2 before base over after m q :
  let c : cost Q D := Py base over in
  finite one = true -> negative one = false ->
  (forall x y, In x (before ++ c :: after) -> In y rs1 -> fine finite negative x y) ->
  (forall x, In x before -> fine finite negative x r) ->
  asks r = Some (m, q) -> (forall d, ~ gives c m q d) ->
  build finite negative one (rs1 ++ r :: rs2) (before ++ c :: after) = Terminated.
Proof.
  intros c O P F1 F2 A N. apply build_stops; auto; [|discriminate]. intros g id.
  pose proof (wrapped_ends base over m q N) as W.
  rewrite (assign_outcome finite negative one g r id c m q A); unfold c; rewrite W; [reflexivity|discriminate].
Qed.
Print Assumptions C128_error_refuted.

(** In C++ an error of getCostSucceeding is raised, but one of getCostLaneChange ends the process there too; ... *)
Theorem C128_cpp_error {Q D} finite negative (one : D) rs1 r rs2 before f after m q :
  let c : cost Q D := Cpp f in
  finite one = true -> negative one = false ->
  (forall x y, In x (before ++ c :: after) -> In y rs1 -> fine finite negative x y) ->
  (forall x, In x before -> fine finite negative x r) ->
  asks r = Some (m, q) -> f m q = None ->
  build finite negative one (rs1 ++ r :: rs2) (before ++ c :: after) =
  match m with Succeeding => Exception | LaneChange => Terminated end.
Proof.
  intros c O P F1 F2 A N. apply build_stops; auto; [|destruct m; discriminate]. intros g id.
  rewrite (assign_outcome finite negative one g r id c m q A); cbn; unfold cpp_method; rewrite N;
    destruct m; try reflexivity; discriminate.
Qed.
Print Assumptions C128_cpp_error.

(** ... and None in the list of costs follows a null pointer. *)
Theorem C128_none_refuted {Q D} finite negative (one : D) rs1 r rs2 before after :
  finite one = true -> negative one = false ->
  (forall x y, In x (before ++ @Null Q D :: after) -> In y rs1 -> fine finite negative x y) ->
  (forall x, In x before -> fine finite negative x r) ->
  build finite negative one (rs1 ++ r :: rs2) (before ++ Null :: after) = NullFollowed.
Proof.
  intros O P F1 F2. apply build_stops; auto; [|discriminate]. intros g id. destruct r; reflexivity.
Qed.
Print Assumptions C128_none_refuted.

(** Called from Python, a method gives the same number; without one it raises, only getCostLaneChange of the C++ classes
    ends the process. *)
Theorem C128_from_python {Q D} base over m (q : Q) :
  (forall d : D, python_call base over m q = Answers (Number d) <-> gives (Py base over) m q d) /\
  (python_call base over m q = EndsProcess <->
   m = LaneChange /\ over m = None /\ exists b, base = Some b /\ b m q = None) /\
  (forall f, over m = Some f -> python_call base over m q = Answers (f q)) /\
  (over m = None -> (forall d, ~ gives (Py base over) m q d) -> python_call base over m q <> EndsProcess ->
   python_call base over m q = Answers Raises).
Proof.
  unfold python_call. split; [|split; [|split]].
  - intros d. split.
    + destruct (over m) as [g|] eqn:O; [intros [= E]; eapply gives_over; eauto|].
      destruct base as [b|]; [|discriminate]. unfold cpp_method, throwing.
      destruct m; destruct (b _ q) eqn:B; cbn; try discriminate; intros [= <-]; now apply gives_base.
    + intros G. inversion G as [b o m' g q' d' O E|b o m' q' d' O E|]; subst; rewrite O; [now rewrite E|].
      unfold cpp_method, throwing. destruct m; rewrite E; reflexivity.
  - split.
    + destruct (over m) as [g|]; [discriminate|]. destruct base as [b|]; [|discriminate].
      unfold cpp_method, throwing. destruct m; destruct (b _ q) eqn:B; cbn; try discriminate. eauto.
    + intros (-> & -> & b & -> & E). unfold cpp_method, throwing. rewrite E. reflexivity.
  - intros f ->. reflexivity.
  - intros O N. rewrite O. destruct base as [b|]; [|reflexivity]. unfold cpp_method, throwing.
    destruct (b m q) as [d|] eqn:E; [now destruct (N d); apply gives_base|].
    destruct m; rewrite ?E; cbn; [reflexivity|congruence].
Qed.
Print Assumptions C128_from_python.

(** Not vacuous: numbers up to 99 are finite, edges are numbers. A class derived from RoutingCostDistance with its own
    getCostSucceeding, beside one in C++; and one whose method raises for edge 3. *)
Definition ex_base : implementation Z Z := fun m q => match m with Succeeding => Some (q * 2)%Z | LaneChange => Some 100%Z end.
Definition ex_mine : cost Z Z :=
  Py (Some ex_base) (fun m => match m with Succeeding => Some (fun q => Number (q + 1)%Z) | LaneChange => None end).
Definition ex_raises : cost Z Z :=
  Py None (fun m => match m with
                    | Succeeding => Some (fun q => if (q =? 3)%Z then Raises else Number q) | LaneChange => None end).
Example C128_nonvacuous :
  let finite := fun d => (d <? 100)%Z in let negative := fun d => (d <? 0)%Z in
  build finite negative 1%Z [Follow 5%Z; Change 6%Z; Plain 7%Z] [ex_mine; Cpp ex_base] =
    Built [Edge (Follow 5%Z) 0 6%Z false; Edge (Follow 5%Z) 1 10%Z false; Edge (Change 6%Z) 0 1%Z true;
           Edge (Change 6%Z) 1 1%Z true; Edge (Plain 7%Z) 0 1%Z false; Edge (Plain 7%Z) 1 1%Z false] /\
  (forall c r, In c [ex_mine; Cpp ex_base] -> In r [Follow 5%Z; Change 6%Z; Plain 7%Z] -> fine finite negative c r) /\
  build finite negative 1%Z [Follow 2%Z; Follow 3%Z] [ex_mine; ex_raises] = Terminated /\
  (forall d, ~ gives ex_raises Succeeding 3%Z d) /\ fine finite negative ex_raises (Follow 2%Z) /\
  build finite negative 1%Z [Follow (-2)%Z] [ex_mine] = Exception /\
  build finite negative 1%Z [Change 2%Z] [ex_raises] = Terminated /\
  python_call None (fun _ => None) Succeeding 3%Z = Answers (@Raises Z).
Proof.
  cbv zeta. split; [reflexivity|]. split.
  - intros c r [<-|[<-|[]]] [<-|[<-|[<-|[]]]]; cbn [fine]; try discriminate; eexists; (split;
      [first [eapply gives_over; reflexivity|eapply gives_base; reflexivity|eapply gives_cpp; reflexivity]|reflexivity]).
  - split; [reflexivity|]. split; [|split; [|repeat split]].
    + intros d G. apply virtual_value in G. discriminate G.
    + eexists. split; [eapply gives_over; reflexivity|reflexivity].
Qed.
