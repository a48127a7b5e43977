(** Proofs about the program lanelet2_validate. *)
From Coq Require Import List Arith Bool String Ascii ZArith Lia.
From Verif Require Import AttrModel ValidationModel ValidationSpec ValidationProofs ValidationProofs2 ToolModel ToolSpec.
Import ListNotations.
Open Scope string_scope.
Open Scope list_scope.

Lemma seq_value {T U} (r : run T) (f : T -> run U) y : seq r f = Value y <-> exists x, r = Value x /\ f x = Value y.
Proof.
  destruct r; cbn; split; try discriminate; try (intros (x' & E & _); discriminate).
  - eauto.
  - now intros (x' & [= ->] & H).
Qed.
Lemma run_each_value names f l : run_each names f = Value l ->
  (forall n, In n names -> returns (f n)) /\ (l = [] <-> forall n, In n names -> f n = Value []).
Proof.
  revert l. induction names as [|n names IH]; cbn [run_each]; intros l.
  - intros [= <-]. split; [intros ? []|]. split; [intros _ ? []|auto].
  - intros H. apply seq_value in H as (i & Hi & H). apply seq_value in H as (rest & Hr & [= <-]). destruct (IH _ Hr) as [I1 I2]. split.
    + intros n' [<-|Hn]; [exists i; exact Hi|auto].
    + destruct i as [|x i].
      * rewrite I2. split; [intros K n' [<-|Hn]; auto|]. intros K n' Hn. apply K. now right.
      * split; [discriminate|]. intros K. specialize (K n (or_introl eq_refl)). congruence.
Qed.
Lemma run_each_returns names f : (forall n, In n names -> returns (f n)) -> returns (run_each names f).
Proof.
  induction names as [|n names IH]; intros H; cbn [run_each]; [eexists; reflexivity|].
  destruct (H n (or_introl eq_refl)) as [i ->]. cbn [seq]. destruct IH as [rest ->]; [intros; apply H; now right|]. cbn [seq]. eexists. reflexivity.
Qed.

Section Tool.
Context {M G Rule : Type}.
Variable regex_ok : string -> bool.
Variable matches : string -> string -> bool.
Variables map_names rule_names graph_names : list string.
Variable load : string -> loaded M.
Variable create : string -> string -> option Rule.
Variable rule_text : Rule -> string.
Variable build : M -> Rule -> building G.
Variable run_map : M -> string -> run (list issue).
Variable run_rules : M -> list Rule -> string -> run (list issue).
Variable run_graph : G -> Rule -> string -> run (list issue).
Notation VALIDATE := (validate regex_ok matches map_names rule_names graph_names create rule_text build run_map run_rules run_graph).
Notation FILE := (validate_file regex_ok matches map_names rule_names graph_names load create rule_text build run_map run_rules run_graph).
Notation RUN := (run_from_config regex_ok matches map_names rule_names graph_names load create rule_text build run_map run_rules run_graph).
Notation FAULTLESS := (faultless matches map_names rule_names graph_names create build run_map run_rules run_graph).

Lemma create_all_value loc ps rs : create_all create loc ps = Value rs <-> Forall2 (fun p r => create loc p = Some r) ps rs.
Proof.
  revert rs. induction ps as [|p ps IH]; cbn [create_all]; intros rs.
  - split; [intros [= <-]; constructor|]. intros H. inversion H. reflexivity.
  - destruct (create loc p) as [x|] eqn:E.
    + rewrite seq_value. split.
      * intros (rest & H & [= <-]). constructor; [exact E|]. now apply IH.
      * intros H. inversion H as [|? r ? rest K1 K2]; subst. exists rest. split; [now apply IH|congruence].
    + split; [discriminate|]. intros H. inversion H; subst. congruence.
Qed.
Lemma graph_loop_value m names rs l : graph_loop rule_text build run_graph m names rs = Value l -> names <> [] ->
  (l = [] <-> forall n r, In n names -> In r rs -> exists g, build m r = Built g /\ run_graph g r n = Value []).
Proof.
  intros H Hne. revert l H. induction rs as [|r rs IH]; cbn [graph_loop]; intros l.
  - intros [= <-]. split; [intros _ ? ? _ []|auto].
  - intros H. apply seq_value in H as (here & Hh & H). apply seq_value in H as (later & Hl & [= <-]). specialize (IH _ Hl).
    assert (K : here = [] <-> exists g, build m r = Built g /\ forall n, In n names -> run_graph g r n = Value []).
    { destruct (build m r) as [g|what|]; [|injection Hh as <-; split; [discriminate|intros (g & [=] & _)]|discriminate].
      apply run_each_value in Hh as [_ ->]. split; [eauto|]. intros (g' & [= <-] & H). exact H. }
    split.
    + intros E. apply app_eq_nil in E as [E1 E2]. apply K in E1 as (g & Bg & E1). intros n r' Hn [<-|Hr]; [eauto|]. exact (proj1 IH E2 n r' Hn Hr).
    + intros E. assert (later = []) as -> by (apply IH; intros n r' Hn Hr; apply E; [exact Hn|now right]).
      destruct names as [|n0 names]; [congruence|]. destruct (E n0 r (or_introl eq_refl) (or_introl eq_refl)) as (g & Bg & _).
      rewrite (proj2 K); [reflexivity|]. exists g. split; [exact Bg|]. intros n Hn. destruct (E n r Hn (or_introl eq_refl)) as (g' & Bg' & H). congruence.
Qed.

(** Nothing is found in a map exactly if it is faultless. *)
Lemma validate_empty m c l : VALIDATE m c = Value l -> (l = [] <-> FAULTLESS c m).
Proof.
  unfold validate. intros H. apply seq_value in H as (re & Hre & H). apply seq_value in H as (a & Ha & H).
  apply seq_value in H as (rules & Hru & H). apply seq_value in H as (b & Hb & H). apply seq_value in H as (d & Hd & [= <-]).
  assert (re = parse_filter (c_filter c)) as -> by (unfold parse_checked in Hre; destruct (forallb _ _); congruence). clear Hre.
  apply create_all_value in Hru. apply run_each_value in Ha as [_ Ha]. apply run_each_value in Hb as [_ Hb].
  assert (Hd' : d = [] <-> forall n r, In n graph_names -> selected matches (c_filter c) n -> In r rules -> exists g, build m r = Built g /\ run_graph g r n = Value []).
  { assert (Mi := match_validators_in matches (c_filter c) graph_names). unfold run_graphs in Hd.
    destruct (match_validators matches (parse_filter (c_filter c)) graph_names) as [|n0 ns] eqn:E.
    - injection Hd as <-. split; [|auto]. intros _ n r Hn S. destruct (proj2 (Mi n) (conj Hn S)).
    - rewrite (graph_loop_value _ _ _ _ Hd ltac:(discriminate)). split.
      + intros K n r Hn S Hr. apply K; auto. apply Mi. auto.
      + intros K n r Hn Hr. apply Mi in Hn as [Hn S]. eauto. }
  unfold faultless. split.
  - intros E. apply app_eq_nil in E as [-> E]. apply app_eq_nil in E as [-> ->]. split.
    + intros n Hn S. apply (proj1 Ha eq_refl), match_validators_in. auto.
    + exists rules. split; [exact Hru|]. split; [|exact (proj1 Hd' eq_refl)].
      intros n Hn S. apply (proj1 Hb eq_refl), match_validators_in. auto.
  - intros (F1 & rules' & F2 & F3 & F4). assert (rules' = rules) as ->.
    { clear - F2 Hru. revert rules' F2. induction Hru as [|p r ps rs E _ IH]; intros rs' F; inversion F; subst; [reflexivity|]. f_equal; [congruence|auto]. }
    rewrite (proj2 Ha), (proj2 Hb), (proj2 Hd'); auto; intros n Hn; apply match_validators_in in Hn as [Hn S]; auto.
Qed.
Lemma file_empty c l : FILE c = Value l -> (l = [] <-> content_with matches map_names rule_names graph_names load create build run_map run_rules run_graph c).
Proof.
  unfold validate_file, content_with. intros H. apply seq_value in H as (re & _ & H). destruct (negb (c_origin_ok c)); [discriminate|].
  destruct (load (c_file c)) as [m errs|what|]; [| |discriminate].
  - apply seq_value in H as (l' & Hv & [= <-]). apply validate_empty in Hv. split.
    + intros E. apply app_eq_nil in E as [E1 ->]. destruct errs; [|discriminate]. exists m. split; [reflexivity|]. now apply Hv.
    + intros (m' & [= <- ->] & F). cbn. now apply Hv.
  - injection H as <-. split; [discriminate|]. intros (m & [=] & _).
Qed.

(** The program returns if all its parts do. *)
Lemma validate_returns m c rules : forallb regex_ok (parse_filter (c_filter c)) = true ->
  Forall2 (fun p r => create (c_location c) p = Some r) (c_participants c) rules ->
  (forall n, In n map_names -> selected matches (c_filter c) n -> returns (run_map m n)) ->
  (forall n, In n rule_names -> selected matches (c_filter c) n -> returns (run_rules m rules n)) ->
  (forall n r, In n graph_names -> selected matches (c_filter c) n -> In r rules ->
     build m r <> BuildCrash /\ forall g, build m r = Built g -> returns (run_graph g r n)) ->
  returns (VALIDATE m c).
Proof.
  intros Hre Hru H1 H2 H3. unfold validate, parse_checked. rewrite Hre. cbn [seq].
  destruct (run_each_returns (match_validators matches (parse_filter (c_filter c)) map_names) (run_map m)) as [a ->].
  { intros n Hn. apply match_validators_in in Hn as [Hn S]. auto. }
  cbn [seq]. apply create_all_value in Hru. rewrite Hru. cbn [seq].
  destruct (run_each_returns (match_validators matches (parse_filter (c_filter c)) rule_names) (run_rules m rules)) as [b ->].
  { intros n Hn. apply match_validators_in in Hn as [Hn S]. auto. }
  cbn [seq].
  assert (K : returns (run_graphs rule_text build run_graph m (match_validators matches (parse_filter (c_filter c)) graph_names) rules)).
  { assert (Mi := match_validators_in matches (c_filter c) graph_names). unfold run_graphs.
    destruct (match_validators matches (parse_filter (c_filter c)) graph_names) as [|n0 ns] eqn:E; [eexists; reflexivity|].
    clear Hru H2. induction rules as [|r rs IH]; cbn [graph_loop]; [eexists; reflexivity|].
    assert (Hh : returns (match build m r with
      | Built g => run_each (n0 :: ns) (run_graph g r)
      | BuildError what => Value [Detected "general" [plain_issue Error ("Failed to create routing graph for " ++ rule_text r ++ ": " ++ what)%string]]
      | BuildCrash => Crash end)).
    { destruct (proj1 (Mi n0) (or_introl eq_refl)) as [Hn0 S0]. destruct (H3 n0 r Hn0 S0 (or_introl eq_refl)) as [Nc _].
      destruct (build m r) as [g|what|] eqn:B; [|eexists; reflexivity|congruence].
      apply run_each_returns. intros n Hn. apply Mi in Hn as [Hn S]. destruct (H3 n r Hn S (or_introl eq_refl)) as [_ K]. auto. }
    destruct Hh as [here Hh]. rewrite Hh. cbn [seq]. destruct IH as [later Hl]; [intros n r' Hn S Hr; apply H3; auto; now right|].
    rewrite Hl. cbn [seq]. eexists. reflexivity. }
  destruct K as [d ->]. eexists. reflexivity.
Qed.

Definition errors_of (l : list detected) : list issue := flat_map errors l.
Lemma report_counts l : fst (build_report l) = flat_map (fun d => map (report_line d) (errors d)) l /\
  snd (build_report l) = flat_map (fun d => map (report_line d) (warnings d)) l.
Proof. rewrite build_report_eq. auto. Qed.
Lemma report_empty l : (forall d, In d l -> d_issues d <> [] /\ forall i, In i (d_issues d) -> i_severity i <> Info) ->
  List.length (snd (build_report l)) + List.length (fst (build_report l)) = 0 -> l = [].
Proof.
  intros H E. destruct (report_counts l) as [E1 E2]. rewrite E1, E2 in E. destruct l as [|d l]; [reflexivity|]. exfalso.
  destruct (H d (or_introl eq_refl)) as [N K]. destruct (d_issues d) as [|i is] eqn:Ed; [congruence|].
  specialize (K i (or_introl eq_refl)). cbn [flat_map] in E. rewrite !app_length, !map_length in E. unfold errors, warnings in E. rewrite Ed in E. cbn [filter] in E.
  destruct (i_severity i); cbn [List.length] in E; try lia. congruence.
Qed.
Lemma run_each_issues names f l d : run_each names f = Value l -> In d l -> d_issues d <> [] /\ In (d_check d) names /\ f (d_check d) = Value (d_issues d).
Proof.
  revert l. induction names as [|n names IH]; cbn [run_each]; intros l.
  - intros [= <-] [].
  - intros H. apply seq_value in H as (i & Hi & H). apply seq_value in H as (rest & Hr & [= <-]). destruct i as [|x i].
    + intros Hd. destruct (IH _ Hr Hd) as (A1 & A2 & A3). split; [exact A1|]. split; [now right|exact A3].
    + intros [<-|Hd]; [cbn; split; [discriminate|]; split; [now left|exact Hi]|].
      destruct (IH _ Hr Hd) as (A1 & A2 & A3). split; [exact A1|]. split; [now right|exact A3].
Qed.
(** What is found comes from a check or tells of a failure. *)
Lemma file_issues c l d : FILE c = Value l -> In d l -> d_issues d <> [] /\
  ((exists m n, run_map m n = Value (d_issues d)) \/ (exists m rs n, run_rules m rs n = Value (d_issues d)) \/
   (exists g r n, run_graph g r n = Value (d_issues d)) \/ (forall i, In i (d_issues d) -> i_severity i = Error)).
Proof.
  unfold validate_file. intros H Hd. apply seq_value in H as (re & _ & H). destruct (negb (c_origin_ok c)); [discriminate|].
  destruct (load (c_file c)) as [m errs|what|]; [| |discriminate].
  - apply seq_value in H as (l' & Hv & [= <-]). apply in_app_iff in Hd as [Hd|Hd].
    + destruct errs as [|e errs]; [destruct Hd|]. destruct Hd as [<-|[]]. split; [discriminate|]. right. right. right.
      intros i Hi. cbn [d_issues] in Hi. apply in_map_iff in Hi as (x & <- & _). reflexivity.
    + unfold validate in Hv. apply seq_value in Hv as (re' & _ & H). apply seq_value in H as (a & Ha & H).
      apply seq_value in H as (rules & Hru & H). apply seq_value in H as (b & Hb & H). apply seq_value in H as (x & Hx & [= <-]).
      rewrite !in_app_iff in Hd. destruct Hd as [Hd|[Hd|Hd]].
      * destruct (run_each_issues _ _ _ _ Ha Hd) as (A1 & _ & A3). split; [exact A1|]. left. eauto.
      * destruct (run_each_issues _ _ _ _ Hb Hd) as (A1 & _ & A3). split; [exact A1|]. right. left. eauto.
      * assert (K : graph_loop rule_text build run_graph m (match_validators matches re' graph_names) rules = Value x \/ x = []).
        { unfold run_graphs in Hx. destruct (match_validators matches re' graph_names); [right; congruence|left; exact Hx]. }
        destruct K as [K| ->]; [|destruct Hd]. clear Hx Hru Hb. revert x K Hd. induction rules as [|r rs IH]; cbn [graph_loop]; intros x; [intros [= <-] []|].
        intros K Hd. apply seq_value in K as (here & Hh & K). apply seq_value in K as (later & Hl & [= <-]). apply in_app_iff in Hd as [Hd|Hd]; [|eauto].
        destruct (build m r) as [g|what|]; [| |discriminate].
        -- destruct (run_each_issues _ _ _ _ Hh Hd) as (A1 & _ & A3). split; [exact A1|]. right. right. left. eauto.
        -- injection Hh as <-. destruct Hd as [<-|[]]. split; [discriminate|]. right. right. right. intros i [<-|[]]. reflexivity.
  - injection H as <-. destruct Hd as [<-|[]]. split; [discriminate|]. right. right. right. intros i [<-|[]]. reflexivity.
Qed.
End Tool.
