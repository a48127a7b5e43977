(** C23: attribute maps and rule parameter maps (HybridMap). *)
From Coq Require Import List Arith Bool String Ascii NArith Sorting.Sorted.
From stdpp Require Import gmap strings.
From Verif Require Import HybridModel HybridSpec.
From Verif Require HybridProofs.
Import ListNotations.
Local Open Scope string_scope.

(** The name of an enum value in a lookup table. *)
Definition enum_name (table : list (string * nat)) (e : nat) : option string :=
  option_map fst (List.find (fun p => Nat.eqb (snd p) e) table).

(** Any history of calls on any number of maps, keys without NUL characters. The calls
    return what the same calls on plain maps return, where an enum value stands for its
    name; a call is undefined only if it is not allowed on a plain map either. Afterwards
    both ways of finding an element give the same iterator, the elements are those
    of the plain map and they are sorted by key. *)
Theorem C23_hybrid_map_partial {V} `{EqDecision V} (dflt : V) (veqb : V -> V -> bool)
    (E : forall a b, veqb a b = true <-> a = b) (table : list (string * nat)) (os : list (hop V)) :
  table = attribute_table \/ table = role_table ->
  (forall o k, In o os -> hop_key o = Some k -> no_nul k = true) ->
  match spec_ops (enum_name table) os (fun _ => ∅) with
  | None => HybridProofs.run_ops dflt veqb table os world0 = None
  | Some (s, rs) =>
    exists w, HybridProofs.run_ops dflt veqb table os world0 = Some (w, rs) /\
      forall x,
        (forall e k, In (k, e) table -> hfind_enum w x e = hfind w x k) /\
        (forall k v, s x !! k = Some v <-> In (k, v) (hlist w x)) /\
        StronglySorted (fun a b => String.ltb a b = true) (map fst (hlist w x))
  end.
Proof.
  intros T NN. assert (TOK : HybridProofs.table_ok table = true) by (destruct T as [-> | ->]; reflexivity).
  assert (H := HybridProofs.run_ops_ok dflt veqb E table TOK os NN world0 (fun _ => ∅)
                 (HybridProofs.wok_world0 table) HybridProofs.rep_world0).
  change (HybridProofs.name table) with (enum_name table) in H.
  destruct (spec_ops (enum_name table) os (fun _ => ∅)) as [[s rs]|]; auto.
  destruct H as (w & R & W & P). exists w. split; auto. intros x.
  destruct (HybridProofs.world_facts table TOK w s x W P) as (A & _ & B & C). auto.
Qed.
Print Assumptions C23_hybrid_map_partial.
Definition ex_hops : list (hop nat) :=
  [HInsert 0 "type" 1; HInsert 0 "width" 2; HInsert 0 "type" 3; HSetEnum 0 5 60; HCopy 1 0; HMove 2 0; HErase 1 "type";
   HAtEnum 1 0; HAtEnum 2 0; HAt 2 "speed_limit"; HAtEnum 2 5; HInsertHint 2 "type" 9; HEraseFoundEnum 2 5; HAtEnum 2 5;
   HSize 2; HSet 0 "type" 1; HEqual 0 2; HSet 0 "width" 2; HEqual 0 2; HClear 2; HSize 2].
Example C23_nonvacuous :
  option_map snd (HybridProofs.run_ops 0 Nat.eqb attribute_table ex_hops world0) =
    Some [RBool true; RBool true; RBool false; RNone; RNone; RNone; RNat 1;
          RVal None; RVal (Some 1); RVal (Some 60); RVal (Some 60); RNone; RNone; RVal None;
          RNat 2; RNone; RBool false; RNone; RBool true; RNone; RNat 0] /\
  (forall o k, In o ex_hops -> hop_key o = Some k -> no_nul k = true) /\
  HybridProofs.run_ops 0 Nat.eqb role_table [HSet 0 "refers" 1; HEraseFoundEnum 0 3] world0 = None /\
  option_map snd (HybridProofs.run_ops 0 Nat.eqb role_table [HSet 0 "yield" 1; HAtEnum 0 3; HAtEnum 0 2] world0) =
    Some [RNone; RVal (Some 1); RVal None].
Proof.
  split; [vm_compute; reflexivity|]. split; [|split; vm_compute; reflexivity].
  intros o k I. unfold ex_hops in I. repeat (destruct I as [<-|I]; [cbn [hop_key]; intros [= <-]; reflexivity|]). destruct I.
Qed.

(** A key with an embedded NUL character takes the place of the known name in front of
    it: the enum then finds the wrong element, or an element where there is none. *)
Definition nul_key : string := "type" ++ String Ascii.zero "x".
Theorem C23_nul_key_refuted : exists w,
  HybridProofs.run_ops 0 Nat.eqb attribute_table [HInsert 0 nul_key 7] world0 = Some (w, [RBool true]) /\
  hat w 0 "type" = Some None /\ hat_enum w 0 0 = Some (Some 7).
Proof. eexists. split; [vm_compute; reflexivity|]. vm_compute. repeat split. Qed.
Print Assumptions C23_nul_key_refuted.
