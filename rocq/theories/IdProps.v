(** C01, C02: the global id generator. *)
From Coq Require Import ZArith List.
From Verif Require Import IdModel IdSpec IdProofs.
Import ListNotations.
Open Scope Z_scope.

(** C01. Whatever the threads and the schedule: no undefined behaviour, all ids
    returned by getId are different and regular, ids requested after
    registerId(x) returned are above x, later ids are larger. *)
Theorem C01_ids_unique_under_concurrency :
  forall (progs : list (list call)) (sched : list (nat * bool)),
    in_range progs ->
    let s := run (init progs) sched in
    st_ub s = false /\ ids_distinct (st_trace s) /\ ids_valid (st_trace s) /\
    register_respected (st_trace s) /\ gets_increase (st_trace s).
Proof. exact ids_ok. Qed.
Print Assumptions C01_ids_unique_under_concurrency.

(** Non-vacuity: two threads, the second one loses a CAS race against the first. *)
Definition ex_progs := [[GetId; RegisterId 5000; GetId]; [RegisterId 4000; GetId]].
Definition ex_sched :=
  [(1,false);(1,false);(0,false);(0,false);(1,false);(0,false);(0,false);(0,false);(0,false);(1,true);
   (0,false);(1,false);(1,false);(1,false);(1,false);(0,false);(0,false);(0,false)]%nat.
Example C01_example :
  in_range ex_progs /\
  st_trace (run (init ex_progs) ex_sched) =
    [InvReg 1 4000; InvGet 0; RetGet 0 1000; InvReg 0 5000; RetReg 0 5000; RetReg 1 4000;
     InvGet 1; InvGet 0; RetGet 0 5002] /\
  st_threads (run (init ex_progs) ex_sched) = [Thread [] Idle; Thread [] (GotId 5001)].
Proof.
  split; [|split; vm_compute; reflexivity].
  split; [vm_compute; discriminate|].
  intros x H. simpl in H. unfold id_max.
  destruct H as [H|[H|[H|[H|[H|[]]]]]]; try discriminate; injection H as <-; vm_compute; split; discriminate.
Qed.

(** An undisturbed registerId returns after four steps and only ever raises the
    counter, so getId can not be starved by the loop and never goes back. *)
Theorem C01_register_completes_solo :
  forall s t x rest,
    nth_error (st_threads s) t = Some (Thread (RegisterId x :: rest) Idle) ->
    x <> id_max ->
    run s (repeat (t, false) 4) =
    State (Z.max (st_cell s) (x + 1)) (set_nth t (Thread rest Idle) (st_threads s))
          (st_trace s ++ [InvReg t x; RetReg t x]) (st_ub s).
Proof. exact register_solo. Qed.
Print Assumptions C01_register_completes_solo.
Example C01_register_completes_solo_example :
  nth_error (st_threads (init [[RegisterId 7]])) 0 = Some (Thread (RegisterId 7 :: []) Idle) /\ 7 <> id_max.
Proof. split; [reflexivity|discriminate]. Qed.

(** C02. The English claim "registerId is well defined for every id" is false:
    the largest id makes [id + 1] overflow (undefined behaviour). *)
Theorem C02_register_max_id_refuted :
  exists sched, st_ub (run (init [[RegisterId id_max; GetId]]) sched) = true.
Proof. exists [(0,false);(0,false)]%nat. vm_compute. reflexivity. Qed.
Print Assumptions C02_register_max_id_refuted.

(** C02 for all ids that leave room for the following getId call: in every
    schedule without undefined behaviour the id handed out differs from x. *)
Theorem C02_registered_id_not_reissued_partial :
  forall x sched v, - 2^63 <= x -> x + 2 <= id_max ->
    let s := run (init [[RegisterId x; GetId]]) sched in
    st_ub s = false /\
    (st_trace s = [InvReg 0 x; RetReg 0 x; InvGet 0; RetGet 0 v] -> v > x).
Proof. exact registered_not_reissued. Qed.
Print Assumptions C02_registered_id_not_reissued_partial.
Example C02_example :
  st_trace (run (init [[RegisterId 123456; GetId]]) (repeat (0%nat,false) 7)) =
  [InvReg 0 123456; RetReg 0 123456; InvGet 0; RetGet 0 123457].
Proof. vm_compute. reflexivity. Qed.
