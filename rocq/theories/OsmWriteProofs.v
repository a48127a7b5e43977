(** Proofs about the relations written by ToFileWriter. *)
From Coq Require Import List Arith Bool String Ascii ZArith Sorted Lia.
From Verif Require Import AttrModel OsmModel BoundaryModel OsmSpec OsmProofs OsmRelProofs OsmMapModel OsmMapSpec.
Import ListNotations.
Local Open Scope string_scope.
Local Open Scope list_scope.

Notation zsorted := (StronglySorted (fun a b => Z.ltb a b = true)).
Lemma has_In {V} (m : list (Z * V)) i : has m i = true <-> In i (map fst m).
Proof.
  unfold has. rewrite existsb_exists. split; [intros (x & H & E); apply Z.eqb_eq in E; congruence|].
  intros H. exists i. rewrite Z.eqb_refl. auto.
Qed.
Lemma has_zget {V} (m : list (Z * V)) i : zsorted (map fst m) -> has m i = match zget i m with Some _ => true | None => false end.
Proof.
  intros S. destruct (zget i m) as [v|] eqn:E.
  - apply has_In. apply (mget_In Z.ltb zirr ztra ztot) in E; auto. apply (in_map fst) in E. auto.
  - apply (mget_none Z.ltb zirr ztra ztot) in E; auto. destruct (has m i) eqn:H; auto. apply has_In in H. tauto.
Qed.

Inductive op := Now (role : string) (r : ref) | Later (role : string) (target : Z) | Err (e : error).
Notation job := (Z * (attributes * list op))%type.
Definition run_op (id : Z) (st : rstate) (o : op) : rstate :=
  match o with
  | Now role r => push_member id role r st
  | Later role t => push_later id role t st
  | Err e => fail e st
  end.
Definition run_job (st : rstate) (j : Z * (attributes * list op)) : rstate :=
  fold_left (run_op (fst j)) (snd (snd j)) (new_rel (fst j) (fst (snd j)) st).
Fixpoint aget {V} (k : Z) (l : list (Z * V)) : option V :=
  match l with [] => None | (i, v) :: r => if Z.eqb i k then Some v else aget k r end.
Lemma aget_In {V} (l : list (Z * V)) k v : List.NoDup (map fst l) -> (aget k l = Some v <-> In (k, v) l).
Proof.
  induction l as [|[i w] l IH]; cbn; intros N; [split; [discriminate|tauto]|]. inversion N; subst.
  destruct (Z.eqb_spec i k) as [->|Ne].
  - split; [intros [= ->]; auto|]. intros [[= ->]|H]; auto. exfalso. apply H1. apply (in_map fst) in H. auto.
  - rewrite IH by auto. split; auto. intros [[= -> ->]|H]; congruence || auto.
Qed.
Lemma aget_none {V} (l : list (Z * V)) k : aget k l = None <-> ~ In k (map fst l).
Proof.
  induction l as [|[i w] l IH]; cbn; [tauto|]. destruct (Z.eqb_spec i k); [split; [discriminate|tauto]|].
  rewrite IH. tauto.
Qed.
Lemma aget_app {V} (a b : list (Z * V)) k : aget k (a ++ b) = match aget k a with Some v => Some v | None => aget k b end.
Proof. induction a as [|[i v] a IH]; cbn; auto. destruct (Z.eqb i k); auto. Qed.

Section Jobs.
Variable ex : Z -> bool.
Definition op_members (o : op) : list (string * ref) :=
  match o with Now role r => [(role, r)] | Later role t => if ex t then [(role, RRel t)] else [] | Err _ => [] end.
Definition op_err (o : op) : list error := match o with Err e => [e] | _ => [] end.
Definition op_later (id : Z) (o : op) : list (Z * Z) := match o with Later _ t => [(id, t)] | _ => [] end.
Definition upair (u : unresolved) : Z * Z := (u_rel u, u_ref u).
Definition op_ok (o : op) : Prop := match o with Now _ r => is_null r = false | _ => True end.

Lemma run_ops_inv id ops : forall st att tgt, Forall op_ok ops -> inv ex st att tgt -> att id <> None ->
  let st' := fold_left (run_op id) ops st in
  inv ex st' att (upd id (flat_map op_members ops) tgt) /\ rs_err st' = rs_err st ++ flat_map op_err ops /\
  map upair (rs_un st') = map upair (rs_un st) ++ flat_map (op_later id) ops.
Proof.
  induction ops as [|o ops IH]; intros st att tgt F I A; cbn [fold_left flat_map].
  - rewrite !app_nil_r. split; auto. apply inv_same, I.
  - inversion F as [|? ? Fo Fs]; subst.
    assert (K : inv ex (run_op id st o) att (upd id (op_members o) tgt)).
    { destruct o as [role r|role t|e]; cbn [run_op op_members].
      - apply push_inv; auto.
      - apply later_inv; auto.
      - apply (inv_same ex (fail e st)). exact I. }
    destruct (IH _ _ _ Fs K A) as (I2 & E2 & U2). split; [|split].
    + eapply inv_ext; [|exact I2]. intros k. unfold upd. destruct (Z.eqb k id); auto. rewrite app_assoc. auto.
    + rewrite E2, app_assoc. f_equal. destruct o; cbn; rewrite ?app_nil_r; auto.
    + rewrite U2, app_assoc. f_equal. destruct o; cbn; rewrite ?map_app, ?app_nil_r; auto.
Qed.

Definition att_of (l : list job) (k : Z) : option attributes := option_map fst (aget k l).
Definition tgt_of (l : list job) (k : Z) : list (string * ref) :=
  match aget k l with Some (_, ops) => flat_map op_members ops | None => [] end.

Lemma run_jobs_inv (l : list job) : forall st (pre : list job), Forall (fun j : job => Forall op_ok (snd (snd j))) l -> List.NoDup (map fst (pre ++ l)) ->
  inv ex st (att_of pre) (tgt_of pre) ->
  let st' := fold_left run_job l st in
  inv ex st' (att_of (pre ++ l)) (tgt_of (pre ++ l)) /\
  rs_err st' = rs_err st ++ flat_map (fun j : job => flat_map op_err (snd (snd j))) l /\
  map upair (rs_un st') = map upair (rs_un st) ++ flat_map (fun j : job => flat_map (op_later (fst j)) (snd (snd j))) l.
Proof.
  induction l as [|[id [a ops]] l IH]; intros st pre F N I; cbn [fold_left flat_map].
  - rewrite !app_nil_r. auto.
  - inversion F as [|? ? Fo Fs]; subst. cbn [fst snd] in *.
    assert (Np : aget id pre = None).
    { apply aget_none. intros H. rewrite map_app in N. cbn in N. apply NoDup_remove_2 in N. apply N. apply in_or_app; auto. }
    assert (T : forall k, att_of pre k = None -> tgt_of pre k = []).
    { intros k. unfold att_of, tgt_of. destruct (aget k pre); [discriminate|auto]. }
    pose proof (emplace_inv ex st _ _ id a I T) as I1.
    destruct (run_ops_inv id ops _ _ _ Fo I1) as (I2 & E2 & U2); [unfold att_add; rewrite Z.eqb_refl; discriminate|].
    assert (I3 : inv ex (run_job st (id, (a, ops))) (att_of (pre ++ [(id, (a, ops))])) (tgt_of (pre ++ [(id, (a, ops))]))).
    { eapply inv_ext; [|eapply inv_ext_att; [|exact I2]].
      - intros k. unfold upd, tgt_of. rewrite aget_app. cbn. rewrite (Z.eqb_sym id k). destruct (Z.eqb_spec k id) as [->|Ne].
        + rewrite Np. auto.
        + destruct (aget k pre); auto.
      - intros k. unfold att_add, att_of. rewrite aget_app. cbn. rewrite (Z.eqb_sym id k). destruct (Z.eqb_spec k id) as [->|Ne].
        + rewrite Np. auto.
        + destruct (aget k pre); auto. }
    destruct (IH (run_job st (id, (a, ops))) (pre ++ [(id, (a, ops))])) as (I4 & E4 & U4); auto.
    { rewrite <- app_assoc. exact N. }
    rewrite <- app_assoc in I4. cbn [app] in I4. split; auto. split.
    + rewrite E4, app_assoc. f_equal. exact E2.
    + rewrite U4, app_assoc. f_equal. exact U2.
Qed.
End Jobs.

(** ** The writer as a list of jobs *)
Definition present (i : Z) (st : rstate) : bool := match zget i (rs_rels st) with Some _ => true | None => false end.
Lemma present_op i id st o : present i (run_op id st o) = present i st.
Proof.
  unfold present. destruct o; cbn [run_op push_member push_later fail rs_rels]; auto; unfold push; rewrite zget_mupdate;
    destruct (Z.eqb i id); auto; destruct (zget i (rs_rels st)); auto.
Qed.
Lemma present_ops i id ops : forall st, present i (fold_left (run_op id) ops st) = present i st.
Proof. induction ops as [|o ops IH]; intros st; cbn; auto. rewrite IH. apply present_op. Qed.
Lemma present_new i id a st : present i (new_rel id a st) = present i st || Z.eqb i id.
Proof.
  unfold present, new_rel; cbn [rs_rels]. unfold zget, zemplace. rewrite (mget_memplace Z.ltb ztra ztot).
  destruct (Z.eqb_spec i id) as [->|N].
  - rewrite Z.ltb_irrefl. cbn. destruct (mget Z.ltb id (rs_rels st)); auto.
  - destruct (Z.ltb_spec i id), (Z.ltb_spec id i); try lia; cbn; destruct (mget Z.ltb i (rs_rels st)); auto.
Qed.

Section Writer.
Context {P D : Type}.
Variable m : @mmap P.
Variable nodes : list (Z * @node D).
Variable ways : list (Z * way).
Hypothesis nodes_sorted : zsorted (map fst nodes).
Hypothesis ways_sorted : zsorted (map fst ways).

Definition way_op (id : Z) (role : string) (i : Z) : op := if has ways i then Now role (RWay i) else Err (EMember id i).
Definition reg_op (id : Z) (i : Z) : op := if has (m_regs m) i then Now "regulatory_element" (RRel i) else Err (EMember id i).
Definition param_op (id : Z) (role : string) (p : param) : op :=
  match p with
  | PPoint i => if has nodes i then Now role (RNode i) else Err (EMember id i)
  | PLine i _ | PPoly i => way_op id role i
  | PLanelet (Some i) | PArea (Some i) => Later role i
  | PLanelet None | PArea None => Err (EExpired id)
  end.
Definition reg_job (e : Z * mreg) : job :=
  (fst e, (semplace "type" "regulatory_element" (re_attrs (snd e)), map (fun x => param_op (fst e) (fst x) (snd x)) (params (snd e)))).
Definition lanelet_job (e : Z * mlanelet) : job :=
  (fst e, (semplace "type" "lanelet" (ll_attrs (snd e)),
           way_op (fst e) "left" (bid (ll_left (snd e))) :: way_op (fst e) "right" (bid (ll_right (snd e))) ::
           map (way_op (fst e) "centerline") (custom (snd e)) ++ map (reg_op (fst e)) (ll_regs (snd e)))).
Definition area_job (e : Z * marea) : job :=
  (fst e, (semplace "type" "multipolygon" (ar_attrs (snd e)),
           map (way_op (fst e) "outer") (map fst (ar_outer (snd e))) ++ map (way_op (fst e) "inner") (inner_ids (snd e)) ++
           map (reg_op (fst e)) (ar_regs (snd e)))).

Lemma insert_way_op id role i st : insert_way ways id role i st = run_op id st (way_op id role i).
Proof. unfold insert_way, way_op. rewrite has_zget by auto. destruct (zget i ways); auto. Qed.
Lemma visit_op id role st p : visit_param nodes ways id role st p = run_op id st (param_op id role p).
Proof.
  destruct p as [i|i v|i|[i|]|[i|]]; cbn [visit_param param_op]; auto using insert_way_op.
  rewrite has_zget by auto. destruct (zget i nodes); auto.
Qed.
Lemma append_reg_job st e : append_reg nodes ways st e = run_job st (reg_job e).
Proof.
  unfold append_reg, run_job, reg_job, params. cbn [fst snd].
  generalize (new_rel (fst e) (semplace "type" "regulatory_element" (re_attrs (snd e))) st).
  induction (re_params (snd e)) as [|rp l IH]; intros s; cbn [fold_left flat_map]; auto.
  rewrite map_app, fold_left_app, IH. f_equal. clear IH. revert s.
  induction (snd rp) as [|p ps IH]; intros s; cbn [fold_left map]; auto. rewrite IH, visit_op. auto.
Qed.
Lemma fold_insert_way id role l : forall st,
  fold_left (fun st i => insert_way ways id role i st) l st = fold_left (run_op id) (map (way_op id role) l) st.
Proof. induction l as [|i l IH]; intros st; cbn [fold_left map]; auto. rewrite IH, insert_way_op. auto. Qed.
Lemma fold_insert_rel id l : forall st, (forall i, In i l -> present i st = has (m_regs m) i) ->
  fold_left (fun st i => insert_rel id "regulatory_element" i st) l st = fold_left (run_op id) (map (reg_op id) l) st.
Proof.
  induction l as [|i l IH]; intros st H; cbn [fold_left map]; auto.
  assert (E : insert_rel id "regulatory_element" i st = run_op id st (reg_op id i)).
  { unfold insert_rel, reg_op. rewrite <- (H i) by (cbn; auto). unfold present. destruct (zget i (rs_rels st)); auto. }
  rewrite E, IH; auto. intros j Hj. rewrite present_op. apply H. cbn; auto.
Qed.
Lemma append_lanelet_job st e : (forall i, In i (ll_regs (snd e)) -> i <> fst e /\ present i st = has (m_regs m) i) ->
  append_lanelet ways st e = run_job st (lanelet_job e).
Proof.
  destruct e as [id ll]. unfold append_lanelet, run_job, lanelet_job. cbn [fst snd fold_left]. intros H.
  rewrite !insert_way_op. rewrite fold_left_app. unfold custom.
  set (st2 := run_op id _ (way_op id "right" _)).
  assert (E : match ll_center ll with Some c => if Z.eqb (bid c) 0 then st2 else insert_way ways id "centerline" (bid c) st2 | None => st2 end
            = fold_left (run_op id) (map (way_op id "centerline") (match ll_center ll with Some c => if Z.eqb (bid c) 0 then [] else [bid c] | None => [] end)) st2).
  { destruct (ll_center ll) as [c|]; auto. destruct (Z.eqb (bid c) 0); auto. cbn. apply insert_way_op. }
  rewrite E. apply fold_insert_rel. intros i Hi. destruct (H i Hi) as [N Hp]. rewrite present_ops. unfold st2.
  rewrite !present_op, present_new, Hp. destruct (Z.eqb_spec i id); [congruence|]. apply orb_false_r.
Qed.
Lemma append_area_job st e : (forall i, In i (ar_regs (snd e)) -> i <> fst e /\ present i st = has (m_regs m) i) ->
  append_area ways st e = run_job st (area_job e).
Proof.
  destruct e as [id ar]. unfold append_area, run_job, area_job. cbn [fst snd]. intros H.
  rewrite !fold_left_app, !fold_insert_way. unfold inner_ids. rewrite flat_map_concat_map.
  apply fold_insert_rel. intros i Hi. destruct (H i Hi) as [N Hp]. rewrite !present_ops, present_new, Hp.
  destruct (Z.eqb_spec i id); [congruence|]. apply orb_false_r.
Qed.
Lemma present_job i st j : present i (run_job st j) = present i st || Z.eqb i (fst j).
Proof. unfold run_job. rewrite present_ops. apply present_new. Qed.

Lemma fold_jobs {X} (app : rstate -> X -> rstate) (jb : X -> job) (regs : X -> list Z) (key : X -> Z) (l : list X) :
  (forall x, fst (jb x) = key x) ->
  (forall st x, In x l -> (forall i, In i (regs x) -> i <> key x /\ present i st = has (m_regs m) i) -> app st x = run_job st (jb x)) ->
  forall st, (forall x i, In x l -> In i (regs x) -> ~ In i (map key l) /\ present i st = has (m_regs m) i) ->
  fold_left app l st = fold_left run_job (map jb l) st.
Proof.
  intros K A. induction l as [|x l IH]; intros st H; cbn [fold_left map]; auto.
  rewrite A; [|cbn; auto|].
  - apply IH.
    + intros st' y Hy. apply A. cbn; auto.
    + intros y i Hy Hi. destruct (H y i) as [H1 H2]; [cbn; auto|auto|]. cbn in H1. split; [tauto|].
      rewrite present_job, K, H2. destruct (Z.eqb_spec i (key x)); [subst; tauto|]. apply orb_false_r.
  - intros i Hi. destruct (H x i) as [H1 H2]; [cbn; auto|auto|]. cbn in H1. split; [|auto]. intros ->. tauto.
Qed.

Definition jobs : list job := map reg_job (m_regs m) ++ map lanelet_job (m_lanelets m) ++ map area_job (m_areas m).
Lemma jobs_ids : map fst jobs = rel_ids m.
Proof. unfold jobs, rel_ids. rewrite !map_app, !map_map. reflexivity. Qed.
Lemma present_jobs i l : forall st, present i (fold_left run_job l st) = present i st || existsb (Z.eqb i) (map fst l).
Proof. induction l as [|j l IH]; intros st; cbn; [rewrite orb_false_r; auto|]. rewrite IH, present_job, <- orb_assoc. auto. Qed.

Lemma not_has {V} (l : list (Z * V)) i : ~ In i (map fst l) -> existsb (Z.eqb i) (map fst l) = false.
Proof.
  intros H. destruct (existsb (Z.eqb i) (map fst l)) eqn:E; auto. change (has l i = true) in E. apply has_In in E. tauto.
Qed.
Lemma folds_jobs errs : ids_distinct m ->
  fold_left (append_area ways) (m_areas m) (fold_left (append_lanelet ways) (m_lanelets m)
     (fold_left (append_reg nodes ways) (m_regs m) (RS [] [] errs 0))) = fold_left run_job jobs (RS [] [] errs 0).
Proof.
  intros (N & HL & HA). unfold jobs. rewrite !fold_left_app.
  assert (E1 : forall st, fold_left (append_reg nodes ways) (m_regs m) st = fold_left run_job (map reg_job (m_regs m)) st).
  { induction (m_regs m) as [|e l IH]; intros st; cbn [fold_left map]; auto. rewrite IH, append_reg_job. auto. }
  rewrite E1. set (st1 := fold_left run_job (map reg_job (m_regs m)) _).
  assert (P1 : forall i, present i st1 = has (m_regs m) i).
  { intros i. unfold st1. rewrite present_jobs, map_map. reflexivity. }
  rewrite (fold_jobs (append_lanelet ways) lanelet_job (fun e => ll_regs (snd e)) fst (m_lanelets m)); auto.
  - apply (fold_jobs (append_area ways) area_job (fun e => ar_regs (snd e)) fst (m_areas m)); auto.
    + intros st x _ H. apply append_area_job, H.
    + intros [k a] i Hx Hi. pose proof (HA k a i Hx Hi) as Hn. rewrite in_app_iff in Hn.
      split; [tauto|]. rewrite present_jobs, P1, map_map. cbn [lanelet_job fst]. rewrite not_has by tauto. apply orb_false_r.
  - intros st x _ H. apply append_lanelet_job, H.
  - intros [k l] i Hx Hi. pose proof (HL k l i Hx Hi) as Hn. rewrite in_app_iff in Hn. split; [tauto|apply P1].
Qed.

(** Members and errors of the jobs are those of the specification. *)
Notation ex := (rel_in m).
Lemma way_op_members id role i : op_members ex (way_op id role i) = way_member ways role i.
Proof. unfold way_op, way_member. destruct (has ways i); auto. Qed.
Lemma way_op_err id role i : op_err (way_op id role i) = way_error ways id i.
Proof. unfold way_op, way_error. destruct (has ways i); auto. Qed.
Lemma way_op_later id role i j : op_later j (way_op id role i) = [].
Proof. unfold way_op. destruct (has ways i); auto. Qed.
Lemma reg_op_members id i : op_members ex (reg_op id i) = reg_member m i.
Proof. unfold reg_op, reg_member. destruct (has (m_regs m) i); auto. Qed.
Lemma reg_op_err id i : op_err (reg_op id i) = reg_error m id i.
Proof. unfold reg_op, reg_error. destruct (has (m_regs m) i); auto. Qed.
Lemma reg_op_later id i j : op_later j (reg_op id i) = [].
Proof. unfold reg_op. destruct (has (m_regs m) i); auto. Qed.
Lemma flat_map_map {A B C} (f : A -> B) (g : B -> list C) l : flat_map g (map f l) = flat_map (fun x => g (f x)) l.
Proof. rewrite !flat_map_concat_map, map_map. auto. Qed.
Lemma flat_map_ext' {A B} (f g : A -> list B) l : (forall x, In x l -> f x = g x) -> flat_map f l = flat_map g l.
Proof. intros H. rewrite !flat_map_concat_map. f_equal. apply map_ext_in. auto. Qed.
Lemma flat_map_none {A B} (f : A -> list B) l : (forall x, In x l -> f x = []) -> flat_map f l = [].
Proof. induction l; cbn; auto. intros H. rewrite H by auto. cbn. auto. Qed.

Lemma param_op_members id role p : op_members ex (param_op id role p) = param_member m nodes ways role p.
Proof. destruct p as [i|i v|i|[i|]|[i|]]; cbn [param_op param_member]; auto using way_op_members. destruct (has nodes i); auto. Qed.
Lemma param_op_err id role p : op_err (param_op id role p) = param_error nodes ways id p.
Proof.
  destruct p as [i|i v|i|[i|]|[i|]]; cbn [param_op param_error]; auto; try apply way_op_err. destruct (has nodes i); auto. Qed.
Lemma param_op_later id role p : op_later id (param_op id role p) = map (pair id) (weak p).
Proof.
  destruct p as [i|i v|i|[i|]|[i|]]; cbn [param_op weak]; auto; try apply way_op_later. destruct (has nodes i); auto. Qed.

Lemma ops_ok : Forall (fun j : job => Forall op_ok (snd (snd j))) jobs.
Proof.
  assert (W : forall id role i, op_ok (way_op id role i)) by (intros; unfold way_op; destruct (has ways i); cbn; auto).
  assert (R : forall id i, op_ok (reg_op id i)) by (intros; unfold reg_op; destruct (has (m_regs m) i); cbn; auto).
  apply List.Forall_forall. unfold jobs. intros j H. rewrite !in_app_iff, !in_map_iff in H.
  destruct H as [(e & <- & _)|[(e & <- & _)|(e & <- & _)]]; cbn [reg_job lanelet_job area_job fst snd]; apply List.Forall_forall; intros o Ho.
  - apply in_map_iff in Ho. destruct Ho as (x & <- & _). destruct (snd x) as [i|i v|i|[i|]|[i|]]; cbn [param_op]; cbn; auto.
    destruct (has nodes i); cbn; auto.
  - destruct Ho as [<-|[<-|Ho]]; auto. rewrite in_app_iff, !in_map_iff in Ho. destruct Ho as [(x & <- & _)|(x & <- & _)]; auto.
  - rewrite !in_app_iff, !in_map_iff in Ho. destruct Ho as [(x & <- & _)|[(x & <- & _)|(x & <- & _)]]; auto.
Qed.

Lemma jobs_err : flat_map (fun j : job => flat_map op_err (snd (snd j))) jobs =
  flat_map (fun e => flat_map (fun x => param_error nodes ways (fst e) (snd x)) (params (snd e))) (m_regs m) ++
  flat_map (fun e => way_error ways (fst e) (bid (ll_left (snd e))) ++ way_error ways (fst e) (bid (ll_right (snd e))) ++
                     flat_map (way_error ways (fst e)) (custom (snd e)) ++ flat_map (reg_error m (fst e)) (ll_regs (snd e))) (m_lanelets m) ++
  flat_map (fun e => flat_map (way_error ways (fst e)) (map fst (ar_outer (snd e))) ++ flat_map (way_error ways (fst e)) (inner_ids (snd e)) ++
                     flat_map (reg_error m (fst e)) (ar_regs (snd e))) (m_areas m).
Proof.
  unfold jobs. rewrite !flat_map_app, !flat_map_map. f_equal; [|f_equal]; apply flat_map_ext'; intros e _; cbn [reg_job lanelet_job area_job fst snd].
  - rewrite flat_map_map. apply flat_map_ext'. intros x _. apply param_op_err.
  - cbn [flat_map]. rewrite flat_map_app, !flat_map_map, !way_op_err. f_equal. f_equal. f_equal; apply flat_map_ext'; intros x _; [apply way_op_err|apply reg_op_err].
  - rewrite !flat_map_app, !flat_map_map. f_equal; [|f_equal]; apply flat_map_ext'; intros x _; auto using way_op_err, reg_op_err.
Qed.
Lemma jobs_later : flat_map (fun j : job => flat_map (op_later (fst j)) (snd (snd j))) jobs =
  flat_map (fun e => map (pair (fst e)) (flat_map (fun x => weak (snd x)) (params (snd e)))) (m_regs m).
Proof.
  unfold jobs. rewrite !flat_map_app, !flat_map_map.
  rewrite (flat_map_none _ (m_lanelets m)), (flat_map_none _ (m_areas m)), !app_nil_r.
  - apply flat_map_ext'. intros e _. cbn [reg_job fst snd]. rewrite flat_map_map.
    induction (params (snd e)) as [|x l IH]; cbn [flat_map map]; auto. rewrite IH, map_app, param_op_later. auto.
  - intros e _. cbn [area_job fst snd]. apply flat_map_none. intros o. rewrite !in_app_iff, !in_map_iff.
    intros [(x & <- & _)|[(x & <- & _)|(x & <- & _)]]; auto using way_op_later, reg_op_later.
  - intros e _. cbn [lanelet_job fst snd]. apply flat_map_none. cbn [In]. intros o. rewrite !in_app_iff, !in_map_iff.
    intros [<-|[<-|[(x & <- & _)|(x & <- & _)]]]; auto using way_op_later, reg_op_later.
Qed.

Lemma att_of_jobs k : att_of jobs k <> None <-> In k (rel_ids m).
Proof.
  unfold att_of. rewrite <- jobs_ids. destruct (aget k jobs) eqn:E; cbn.
  - split; [intros _|discriminate]. destruct (in_dec Z.eq_dec k (map fst jobs)); auto. apply aget_none in n. congruence.
  - apply aget_none in E. tauto.
Qed.

Lemma later_split (l : list (Z * mreg)) (W : mreg -> list Z) k i B : List.NoDup (map fst l) -> forall A,
  flat_map (fun e => map (pair (fst e)) (W (snd e))) l = A ++ (k, i) :: B ->
  exists r w1 w2, In (k, r) l /\ W r = w1 ++ i :: w2 /\ filter (fun x => Z.eqb (fst x) k) B = map (pair k) w2.
Proof.
  induction l as [|[k0 r0] l IH]; cbn [flat_map map fst snd]; intros N A E; [destruct A; discriminate|].
  inversion N as [|? ? N1 N2]; subst.
  assert (F0 : filter (fun x : Z * Z => Z.eqb (fst x) k0) (flat_map (fun e => map (pair (fst e)) (W (snd e))) l) = []).
  { clear -N1. induction l as [|[k r] l IH]; cbn; auto. cbn in N1. rewrite filter_app, IH by tauto. rewrite app_nil_r.
    induction (W r) as [|w ws IHw]; cbn; auto. destruct (Z.eqb_spec k k0); [subst; tauto|auto]. }
  assert (Dd : (exists w1 w2, W r0 = w1 ++ i :: w2 /\ k = k0 /\ B = map (pair k0) w2 ++ flat_map (fun e => map (pair (fst e)) (W (snd e))) l) \/
              exists A', flat_map (fun e => map (pair (fst e)) (W (snd e))) l = A' ++ (k, i) :: B).
  { clear -E. revert A E. induction (W r0) as [|w ws IH]; cbn; intros A E; [right; eauto|].
    destruct A as [|x A]; cbn in E.
    - injection E as -> -> <-. left. exists [], ws. auto.
    - injection E as <- E. destruct (IH _ E) as [(w1 & w2 & -> & -> & ->)|H]; auto. left. exists (w :: w1), w2. auto. }
  destruct Dd as [(w1 & w2 & Hw & -> & ->)|(A' & E')].
  - exists r0, w1, w2. split; [left; auto|]. split; auto. rewrite filter_app, F0, app_nil_r.
    clear. induction w2 as [|w ws IH]; cbn; auto. rewrite Z.eqb_refl, IH. auto.
  - destruct (IH N2 _ E') as (r & w1 & w2 & H1 & H2 & H3). exists r, w1, w2. split; [right; auto|auto].
Qed.
Lemma weak_split (l : list (string * param)) w1 i w2 : flat_map (fun x => weak (snd x)) l = w1 ++ i :: w2 ->
  exists a x b, l = a ++ x :: b /\ weak (snd x) = [i] /\ flat_map (fun x => weak (snd x)) b = w2.
Proof.
  revert w1. induction l as [|x l IH]; cbn; intros w1 E; [destruct w1; discriminate|].
  assert (Lw : weak (snd x) = [] \/ exists j, weak (snd x) = [j]) by (destruct (snd x) as [j|j v|j|[j|]|[j|]]; cbn; eauto).
  destruct Lw as [Ew|(j & Ew)]; rewrite Ew in E; cbn in E.
  - destruct (IH _ E) as (a & y & b & -> & H). exists (x :: a), y, b. auto.
  - destruct w1 as [|w w1]; cbn in E; injection E as Ej E.
    + subst j. exists [], x, l. auto.
    + destruct (IH _ E) as (a & y & b & -> & H). exists (x :: a), y, b. auto.
Qed.
Lemma pend_pairs k un : map upair (pend k un) = filter (fun x : Z * Z => Z.eqb (fst x) k) (map upair un).
Proof. induction un as [|u un IH]; auto. rewrite pend_cons. cbn [map filter upair fst]. destruct (Z.eqb (u_rel u) k); cbn [map]; rewrite IH; auto. Qed.
Lemma jobs_late un : ids_distinct m -> missing_last m ->
  map upair un = flat_map (fun e => map (pair (fst e)) (flat_map (fun x => weak (snd x)) (params (snd e)))) (m_regs m) ->
  late false ex un.
Proof.
  intros (N & _) ML E. right. intros a u b -> X. rewrite map_app in E. cbn [map] in E. symmetry in E.
  assert (Nr : List.NoDup (map fst (m_regs m))).
  { unfold rel_ids in N. clear -N. induction (map fst (m_regs m)) as [|k l IH]; [constructor|]. cbn in N. inversion N; subst.
    constructor; auto. intros H. apply H1. apply in_or_app. auto. }
  destruct (later_split (m_regs m) (fun r => flat_map (fun x => weak (snd x)) (params r)) _ _ _ Nr _ E) as (r & w1 & w2 & H1 & H2 & H3).
  destruct (weak_split _ _ _ _ H2) as (pa & x & pb & Ep & Ex & Eb).
  rewrite (ML (u_rel u) r pa x pb (u_ref u) H1 Ep Ex X) in Eb. subst w2. cbn in H3. rewrite <- pend_pairs in H3.
  apply map_eq_nil in H3. auto.
Qed.
Lemma later_errors un :
  map upair un = flat_map (fun e => map (pair (fst e)) (flat_map (fun x => weak (snd x)) (params (snd e)))) (m_regs m) ->
  flat_map (rel_error ex) un = flat_map (fun e => flat_map (fun x => later_error m (fst e) (snd x)) (params (snd e))) (m_regs m).
Proof.
  intros E. transitivity (flat_map (fun p : Z * Z => if ex (snd p) then [] else [ERelation (fst p) (snd p)]) (map upair un)).
  { rewrite flat_map_map. apply flat_map_ext'. intros u _. unfold rel_error, upair. cbn. auto. }
  rewrite E. clear. induction (m_regs m) as [|[k r] l IH]; cbn [flat_map fst snd]; auto. rewrite flat_map_app, IH. f_equal.
  clear. induction (params r) as [|x l IH]; cbn [flat_map]; auto. rewrite map_app, flat_map_app, IH. f_equal.
  unfold later_error. rewrite flat_map_map. auto.
Qed.

Lemma tagged_emplace k v (a : attributes) : StronglySorted (fun a b => String.ltb a b = true) (map fst a) -> tagged k v a (semplace k v a).
Proof.
  intros S. split; [apply (memplace_sorted String.ltb sirr stra stot); auto|]. intros k' v'.
  assert (S' : StronglySorted (fun a b => String.ltb a b = true) (map fst (semplace k v a))) by (apply (memplace_sorted String.ltb sirr stra stot); auto).
  rewrite <- (mget_In String.ltb sirr stra stot) by auto. unfold semplace. rewrite (mget_memplace String.ltb stra stot).
  rewrite <- (mget_In String.ltb sirr stra stot a k' v') by auto. rewrite <- (mget_none String.ltb sirr stra stot) by auto.
  destruct (String.ltb k' k) eqn:E1; cbn; [|destruct (String.ltb k k') eqn:E2; cbn].
  - split; auto. intros [H|(-> & _)]; auto. rewrite (sirr k) in E1. discriminate.
  - split; auto. intros [H|(-> & _)]; auto. rewrite (sirr k) in E2. discriminate.
  - assert (k' = k) as -> by (apply stot; auto). destruct (mget String.ltb k a) as [w|]; split.
    + intros [= ->]. auto.
    + intros [[= ->]|(_ & _ & H)]; [auto|discriminate].
    + intros [= ->]. auto.
    + intros [H|(_ & -> & _)]; [discriminate|auto].
Qed.
Lemma tagged_unique k v (a b c : attributes) : tagged k v a b -> tagged k v a c -> b = c.
Proof. intros H1 H2. eapply is_map_attrs_eq; eauto. Qed.

Lemma reg_job_members e : flat_map (op_members ex) (snd (snd (reg_job e))) = reg_members m nodes ways (snd e).
Proof. cbn [reg_job snd]. rewrite flat_map_map. apply flat_map_ext'. intros x _. apply param_op_members. Qed.
Lemma lanelet_job_members e : flat_map (op_members ex) (snd (snd (lanelet_job e))) = lanelet_members m ways (snd e).
Proof.
  cbn [lanelet_job snd flat_map]. unfold lanelet_members. rewrite !way_op_members, flat_map_app, !flat_map_map. f_equal. f_equal. f_equal;
    apply flat_map_ext'; intros x _; [apply way_op_members|apply reg_op_members].
Qed.
Lemma area_job_members e : flat_map (op_members ex) (snd (snd (area_job e))) = area_members m ways (snd e).
Proof.
  cbn [area_job snd]. unfold area_members. rewrite !flat_map_app, !(flat_map_map (way_op _ _)), (flat_map_map (reg_op _)).
  f_equal; [|f_equal]; apply flat_map_ext'; intros x _; auto using way_op_members, reg_op_members.
Qed.

Lemma rel_of_job k r : attrs_sorted m -> (exists a ops, In (k, (a, ops)) jobs /\ r = Relation k a (flat_map (op_members ex) ops)) <-> rel_of m nodes ways k r.
Proof.
  intros (S1 & S2 & S3). unfold rel_of, jobs. split.
  - intros (a & ops & Hin & ->). cbn [r_id r_attrs r_members]. split; auto. rewrite !in_app_iff, !in_map_iff in Hin.
    destruct Hin as [(e & E & H)|[(e & E & H)|(e & E & H)]].
    + left. exists (snd e). pose proof (reg_job_members e) as M. rewrite E in M. cbn [snd] in M. destruct e as [i x]. unfold reg_job in E. cbn [fst snd] in *. injection E as E1 E2 E3. subst i. rewrite <- E2. split; [auto|split; [apply tagged_emplace; exact (S1 _ _ H)|auto]].
    + right; left. exists (snd e). pose proof (lanelet_job_members e) as M. rewrite E in M. cbn [snd] in M. destruct e as [i x]. unfold lanelet_job in E. cbn [fst snd] in *. injection E as E1 E2 E3. subst i. rewrite <- E2. split; [auto|split; [apply tagged_emplace; exact (S2 _ _ H)|auto]].
    + right; right. exists (snd e). pose proof (area_job_members e) as M. rewrite E in M. cbn [snd] in M. destruct e as [i x]. unfold area_job in E. cbn [fst snd] in *. injection E as E1 E2 E3. subst i. rewrite <- E2. split; [auto|split; [apply tagged_emplace; exact (S3 _ _ H)|auto]].
  - destruct r as [i a ms]. cbn [r_id r_attrs r_members]. intros (-> & [(x & H & T & ->)|[(x & H & T & ->)|(x & H & T & ->)]]).
    + exists a, (snd (snd (reg_job (k, x)))). rewrite reg_job_members. split; auto. rewrite !in_app_iff. left. apply in_map_iff. exists (k, x).
      split; auto. unfold reg_job. cbn [fst snd]. rewrite (tagged_unique _ _ _ _ _ T (tagged_emplace _ _ _ (S1 _ _ H))). auto.
    + exists a, (snd (snd (lanelet_job (k, x)))). rewrite lanelet_job_members. split; auto. rewrite !in_app_iff. right; left. apply in_map_iff. exists (k, x).
      split; auto. unfold lanelet_job. cbn [fst snd]. rewrite (tagged_unique _ _ _ _ _ T (tagged_emplace _ _ _ (S2 _ _ H))). auto.
    + exists a, (snd (snd (area_job (k, x)))). rewrite area_job_members. split; auto. rewrite !in_app_iff. right; right. apply in_map_iff. exists (k, x).
      split; auto. unfold area_job. cbn [fst snd]. rewrite (tagged_unique _ _ _ _ _ T (tagged_emplace _ _ _ (S3 _ _ H))). auto.
Qed.

Variable reloc : list nat -> nat -> list nat.
Hypothesis rok : reloc_ok reloc.
Theorem write_rels_spec sh errs : attrs_sorted m -> ids_distinct m -> (sh = true \/ missing_last m) ->
  exists rels, write_rels sh reloc nodes ways m errs = Some (rels, errs ++ rel_errors m nodes ways) /\
    is_map Z.ltb rels (rel_of m nodes ways).
Proof.
  intros AS ID ML. unfold write_rels. rewrite folds_jobs by auto.
  assert (Nj : List.NoDup (map fst jobs)) by (rewrite jobs_ids; apply ID).
  destruct (run_jobs_inv ex jobs (RS [] [] errs 0) [] ops_ok Nj) as (I & Er & Eu).
  { split; [constructor|]. intros k. cbn. auto. }
  cbn [app rs_err rs_un] in I, Er, Eu. set (st := fold_left run_job jobs _) in *.
  cbn [map app] in Eu. rewrite jobs_later in Eu. rewrite jobs_err in Er.
  destruct I as (S & H).
  assert (Hex : forall k, ex k = match zget k (rs_rels st) with Some _ => true | None => false end).
  { intros k. specialize (H k). pose proof (att_of_jobs k) as Q. destruct (zget k (rs_rels st)) as [w|].
    - destruct H as (_ & H & _). apply existsb_exists. exists k. rewrite Z.eqb_refl. split; auto. apply Q. congruence.
    - destruct H as (H & _). destruct (ex k) eqn:G; auto. exfalso. apply existsb_exists in G. destruct G as (x & G1 & G2).
      apply Z.eqb_eq in G2. subst x. apply Q in G1. congruence. }
  assert (Lt : late sh ex (rs_un st)).
  { destruct ML as [->|ML]; [left; auto|]. destruct (jobs_late _ ID ML Eu) as [L|L]; [discriminate|right; exact L]. }
  destruct (resolve_ok reloc rok sh ex (tgt_of ex jobs) (List.length (rs_un st)) (rs_un st) (rs_rels st) (rs_err st) Lt eq_refl) as (rels & Eres & Ek & Hr).
  { split; auto. intros k. specialize (H k). destruct (zget k (rs_rels st)); tauto. }
  rewrite Eres. exists (map finish_rel rels). split.
  { f_equal. f_equal. rewrite Er, (later_errors _ Eu). unfold rel_errors. rewrite <- !app_assoc. reflexivity. }
  assert (S' : zsorted (map fst rels)) by (rewrite Ek; auto).
  assert (Ef : map fst (map finish_rel rels) = map fst rels) by (rewrite map_map; apply map_ext; intros [a b]; auto).
  split; [rewrite Ef; auto|]. intros k r. rewrite <- rel_of_job by auto. split.
  - intros Hin. apply in_map_iff in Hin. destruct Hin as ([k' w] & E & Hin). unfold finish_rel in E. cbn [fst snd] in E.
    injection E as -> <-. apply (mget_In Z.ltb zirr ztra ztot) in Hin; auto.
    specialize (Hr k). specialize (H k). unfold zget in *. rewrite Hin in Hr.
    destruct (mget Z.ltb k (rs_rels st)) as [w0|]; [|tauto]. destruct Hr as (R1 & R2 & R3), H as (H1 & H2 & _).
    unfold att_of in H2. unfold tgt_of in R3. destruct (aget k jobs) as [[a ops]|] eqn:F; [|discriminate]. cbn in H2. injection H2 as H2.
    exists a, ops. split; [apply aget_In; auto|]. rewrite R1, R2, R3, H1, H2. reflexivity.
  - intros (a & ops & Hin & ->). apply aget_In in Hin; auto. apply in_map_iff.
    specialize (Hr k). specialize (H k). unfold zget in *. unfold att_of in H. unfold tgt_of in Hr. rewrite Hin in *.
    destruct (mget Z.ltb k (rs_rels st)) as [w0|]; [|destruct H; discriminate].
    destruct (mget Z.ltb k rels) as [w|] eqn:Ew'; [|tauto]. apply (mget_In Z.ltb zirr ztra ztot) in Ew'; auto.
    exists (k, w). split; auto. unfold finish_rel. cbn [fst snd]. destruct Hr as (Q1 & Q2 & Q3), H as (H1 & H2 & _).
    cbn in H2. injection H2 as H2. rewrite Q1, Q2, Q3, H1, <- H2. reflexivity.
Qed.
End Writer.

(** * Nodes and ways *)
Lemma fold_map {A B C} (f : A -> B -> A) (g : C -> B) l : forall a, fold_left f (map g l) a = fold_left (fun a x => f a (g x)) l a.
Proof. induction l; cbn; auto. Qed.
Lemma nodup_key_inj {X K} (key : X -> K) (l : list X) a b : List.NoDup (map key l) -> In a l -> In b l -> key a = key b -> a = b.
Proof.
  induction l as [|x l IH]; cbn; [tauto|]. intros N. inversion N as [|? ? N1 N2]; subst. intros [->|Ha] [->|Hb] E; auto; exfalso; apply N1.
  - rewrite E. apply in_map. auto.
  - rewrite <- E. apply in_map. auto.
Qed.
Lemma fold_left_ext {A B} (f g : A -> B -> A) l : (forall a b, In b l -> f a b = g a b) -> forall a, fold_left f l a = fold_left g l a.
Proof. induction l as [|b l IH]; cbn; intros H a; auto. rewrite H by auto. apply IH. auto. Qed.
Section Collect.
Context {X V E : Type}.
Variable key : X -> Z.
Variable val : X -> option V.
Variable err : X -> list E.
Definition collect (l : list X) (m : list (Z * V)) : list (Z * V) :=
  fold_left (fun m e => match val e with Some v => zemplace (key e) v m | None => m end) l m.
Lemma fold_collect l : forall m errs,
  fold_left (fun acc e => let '(m, errs) := acc in match val e with Some v => (zemplace (key e) v m, errs ++ err e) | None => (m, errs ++ err e) end) l (m, errs)
  = (collect l m, errs ++ flat_map err l).
Proof.
  induction l as [|e l IH]; intros m errs; cbn [fold_left flat_map collect]; [rewrite app_nil_r; auto|].
  unfold collect. cbn [fold_left]. destruct (val e); rewrite IH, app_assoc; auto.
Qed.
Lemma collect_sorted l : forall m, zsorted (map fst m) -> zsorted (map fst (collect l m)).
Proof.
  induction l as [|e l IH]; intros m S; cbn; auto. apply IH. destruct (val e); auto. apply (memplace_sorted Z.ltb zirr ztra ztot). auto.
Qed.
Lemma zget_emplace {W} (k i : Z) (v : W) m : zget k (zemplace i v m) = if Z.eqb k i then Some (match zget k m with Some w => w | None => v end) else zget k m.
Proof.
  unfold zget, zemplace. rewrite (mget_memplace Z.ltb ztra ztot).
  destruct (Z.eqb_spec k i) as [->|N]; [rewrite Z.ltb_irrefl; auto|].
  destruct (Z.ltb_spec k i), (Z.ltb_spec i k); try lia; auto.
Qed.
Lemma collect_get l k : forall m, zget k (collect l m) =
  match zget k m with Some v => Some v | None => 
    match find (fun e => Z.eqb (key e) k && match val e with Some _ => true | None => false end) l with Some e => val e | None => None end end.
Proof.
  induction l as [|e l IH]; intros m; cbn [find]; [cbn; destruct (zget k m); auto|].
  unfold collect in *. cbn [fold_left]. rewrite IH. clear IH. destruct (val e) as [v|] eqn:Ev.
  - rewrite zget_emplace, (Z.eqb_sym k). destruct (Z.eqb (key e) k); cbn; [|destruct (zget k m); auto].
    destruct (zget k m); auto.
  - rewrite andb_false_r. auto.
Qed.
Lemma collect_is l : List.NoDup (map key l) -> is_map Z.ltb (collect l []) (fun k v => exists e, In e l /\ key e = k /\ val e = Some v).
Proof.
  intros N. assert (S : zsorted (map fst (collect l []))) by (apply collect_sorted; constructor).
  split; [exact S|]. intros k v. rewrite <- (mget_In Z.ltb zirr ztra ztot) by auto. change (mget Z.ltb) with (@zget V).
  rewrite collect_get. cbn [zget mget]. change (zget k []) with (@None V). cbv iota. split.
  - destruct (find _ l) as [e|] eqn:F; [|discriminate]. apply find_some in F. destruct F as [F1 F2]. apply andb_prop in F2.
    destruct F2 as [F2 _]. apply Z.eqb_eq in F2. eauto.
  - intros (e & H1 & H2 & H3). destruct (find _ l) as [e'|] eqn:F.
    + apply find_some in F. destruct F as [F1 F2]. apply andb_prop in F2. destruct F2 as [F2 _]. apply Z.eqb_eq in F2.
      assert (e' = e) as -> by (apply (nodup_key_inj key l); congruence || auto).
      auto.
    + apply find_none with (x := e) in F; auto. rewrite H3, H2, Z.eqb_refl in F. discriminate.
Qed.
End Collect.

Section WriteWays.
Context {P D : Type}.
Variable to_geo : P -> option (D * D * D).
Variable m : @mmap P.

Lemma write_nodes_spec : List.NoDup (map fst (m_points m)) ->
  exists nodes, write_nodes to_geo (m_points m) = (nodes, node_errors to_geo m) /\ is_map Z.ltb nodes (node_of to_geo m).
Proof.
  intros N.
  set (val := fun e : Z * @mpoint P => match to_geo (p_xyz (snd e)) with Some (lat, lon, ele) => Some (Node (fst e) (p_attrs (snd e)) lat lon ele) | None => None end).
  set (err := fun e : Z * @mpoint P => match to_geo (p_xyz (snd e)) with Some _ => [] | None => [EProjection (fst e)] end).
  exists (collect fst val (m_points m) []). split.
  - change (node_errors to_geo m) with ([] ++ flat_map err (m_points m)). rewrite <- (fold_collect fst val err (m_points m) [] []).
    unfold write_nodes. apply fold_left_ext. intros [m0 errs] e _. unfold val, err.
    destruct (to_geo (p_xyz (snd e))) as [[[lat lon] ele]|]; auto. rewrite app_nil_r. auto.
  - destruct (collect_is fst val (m_points m) N) as [S H]. split; [exact S|]. intros k n. rewrite H. unfold node_of, val. split.
    + intros ([k' p] & H1 & <- & H3). cbn [fst snd] in *. destruct (to_geo (p_xyz p)) as [[[lat lon] ele]|] eqn:G; [|discriminate].
      injection H3 as <-. exists p, lat, lon, ele. auto.
    + intros (p & lat & lon & ele & H1 & H2 & ->). exists (k, p). cbn [fst snd]. rewrite H2. auto.
Qed.

Lemma points_plain (id : Z) (pts : list Z) (inv : bool) : points (if inv then invert (LS id pts inv) else LS id pts inv) = pts.
Proof. destruct inv; reflexivity. Qed.

Variable nodes : list (Z * @node D).
Hypothesis nodes_is : is_map Z.ltb nodes (node_of to_geo m).
Definition all_known (l : list Z) : bool := forallb (fun i => match zget i nodes with Some _ => true | None => false end) l.
Lemma all_known_eq l : all_known l = forallb (known to_geo m) l.
Proof.
  unfold all_known. destruct nodes_is as [S H]. induction l as [|i l IH]; cbn [forallb]; auto. f_equal; auto.
  destruct (known to_geo m i) eqn:K.
  - apply existsb_exists in K. destruct K as ([k p] & H1 & H2). apply andb_prop in H2. destruct H2 as [H2 H3]. cbn [fst snd] in *. apply Z.eqb_eq in H2. subst k.
    destruct (to_geo (p_xyz p)) as [[[lat lon] ele]|] eqn:G; [|discriminate].
    assert (N : node_of to_geo m i (Node i (p_attrs p) lat lon ele)) by (exists p, lat, lon, ele; auto).
    apply H in N. apply (mget_In Z.ltb zirr ztra ztot) in N; auto. unfold zget. rewrite N. auto.
  - destruct (zget i nodes) as [n|] eqn:E; auto. apply (mget_In Z.ltb zirr ztra ztot) in E; auto. apply H in E.
    destruct E as (p & lat & lon & ele & H1 & H2 & _). rewrite <- K. symmetry. apply existsb_exists. exists (i, p). split; auto. cbn [fst snd].
    rewrite Z.eqb_refl, H2. auto.
Qed.
Lemma all_known_iff l : all_known l = true <-> forall i, In i l -> known to_geo m i = true.
Proof. rewrite all_known_eq. apply forallb_forall. Qed.
Definition way_list : list (Z * (attributes * list Z)) :=
  map (fun e => (fst e, (ml_attrs (snd e), ml_pts (snd e)))) (m_lines m) ++
  map (fun e => (fst e, (semplace "area" "true" (mg_attrs (snd e)), mg_pts (snd e)))) (m_polys m).
Lemma write_ways_spec : List.NoDup (way_ids m) -> (forall k g, In (k, g) (m_polys m) -> sorted_attrs (mg_attrs g)) ->
  exists ways, write_ways nodes (m_lines m) (m_polys m) =
      (ways, way_errors to_geo m) /\
    is_map Z.ltb ways (way_of to_geo m).
Proof.
  intros N SA.
  set (val := fun e : Z * (attributes * list Z) => if all_known (snd (snd e)) then Some (Way (fst e) (fst (snd e)) (snd (snd e))) else None).
  set (err := fun e : Z * (attributes * list Z) => if all_known (snd (snd e)) then [] else [EWay (fst e)]).
  exists (collect fst val way_list []). split.
  - transitivity (collect fst val way_list [], [] ++ flat_map err way_list).
    2: { f_equal. unfold way_errors, way_list. cbn [app]. rewrite flat_map_app, !flat_map_map. f_equal; apply flat_map_ext'; intros e _;
         unfold err; cbn [fst snd]; rewrite all_known_eq; auto. }
    rewrite <- (fold_collect fst val err way_list [] []).
    unfold write_ways, way_list. rewrite fold_left_app. cbv zeta.
    assert (Q : forall l (acc : list (Z * way) * list error), fold_left (fun acc e => write_osm_way nodes acc (fst e) (fst (snd e)) (snd (snd e))) l acc =
      fold_left (fun acc e => let '(m0, errs) := acc in match val e with Some v => (zemplace (fst e) v m0, errs ++ err e) | None => (m0, errs ++ err e) end) l acc).
    { intros l acc. apply fold_left_ext. intros [m0 errs] e _. unfold write_osm_way, val, err, all_known.
      destruct (forallb _ (snd (snd e))); auto. rewrite app_nil_r. auto. }
    rewrite <- !Q. rewrite !fold_map. cbn [fst snd]. f_equal. apply fold_left_ext. intros acc e _.
    rewrite points_plain. auto.
  - destruct (collect_is fst val way_list) as [S H]. { unfold way_list. rewrite map_app, !map_map. exact N. }
    split; [exact S|]. intros k w. rewrite H. unfold way_of, val, way_list. split.
    + intros (e & H1 & H2 & H3). destruct (all_known (snd (snd e))) eqn:G; [|discriminate]. injection H3 as <-. cbn [w_id w_attrs w_nodes].
      split; [auto|]. split; [|apply all_known_iff; auto]. rewrite in_app_iff, !in_map_iff in H1.
      destruct H1 as [([k' x] & <- & H1)|([k' x] & <- & H1)]; cbn [fst snd] in *; subst k'; [left|right]; exists x; auto.
      split; auto. split; auto. apply tagged_emplace. exact (SA _ _ H1).
    + destruct w as [i a pts]. cbn [w_id w_attrs w_nodes]. intros (-> & D1 & K). apply all_known_iff in K.
      exists (k, (a, pts)). cbn [fst snd]. rewrite K. split; [|auto]. rewrite in_app_iff, !in_map_iff.
      destruct D1 as [(l & H1 & -> & ->)|(g & H1 & T & ->)]; [left|right].
      * exists (k, l). auto.
      * exists (k, g). split; auto. cbn [fst snd]. rewrite (tagged_unique _ _ _ _ _ T (tagged_emplace _ _ _ (SA _ _ H1))). auto.
Qed.
End WriteWays.

Theorem write_map_spec {P D} (to_geo : P -> option (D * D * D)) reloc (m : @mmap P) sh : reloc_ok reloc ->
  layers_ok m -> attrs_sorted m -> ids_distinct m -> (sh = true \/ missing_last m) ->
  exists f, write_map sh to_geo reloc m = Some (f, node_errors to_geo m ++ way_errors to_geo m ++ rel_errors m (f_nodes f) (f_ways f)) /\
    is_map Z.ltb (f_nodes f) (node_of to_geo m) /\ is_map Z.ltb (f_ways f) (way_of to_geo m) /\
    is_map Z.ltb (f_rels f) (rel_of m (f_nodes f) (f_ways f)).
Proof.
  intros rok (N1 & N2 & SA) AS ID ML. unfold write_map.
  destruct (write_nodes_spec to_geo m N1) as (nodes & -> & Hn).
  destruct (write_ways_spec to_geo m nodes Hn N2 SA) as (ways & -> & Hw).
  destruct (write_rels_spec m nodes ways (proj1 Hn) (proj1 Hw) reloc rok sh (node_errors to_geo m ++ way_errors to_geo m) AS ID ML) as (rels & -> & Hr).
  exists (File nodes ways rels). rewrite <- app_assoc. cbn [f_nodes f_ways f_rels]. auto.
Qed.
