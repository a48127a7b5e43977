(** Routes for shortest paths. *)
From Coq Require Import NArith List Bool Arith Lia Relations.
From Verif Require Import CostAlg GraphModel GraphSpec GraphProofs GraphProofs2 RoutingSpec RouteSpec RouteBuilderModel RouteBuilderSpec RouteBuilderProofs
  RouteBuilderProofs2 RouteBuilderProofs3 RouteBuilderProofs8 RouteBuilderProofs9.
Import ListNotations.
Local Open Scope nat_scope.

Section Path.
Context {A : CostAlg}.
Variable m : N.
Variable ops : list (gop A).
Notation g := (gbuild m ops).
Variable k : N.
Variable lc : bool.
Notation joined := (joined g k lc).
Lemma drivable_used e : drivable g k lc false e -> used k lc e = true /\ driving (ei_rel (e_info e)) = true.
Proof.
  intros (_ & H1 & H2). unfold used. rewrite H1, N.eqb_refl. simpl. destruct H2 as [->|[[-> [-> | ->]]|[H _]]]; auto. discriminate.
Qed.
Lemma Forall2_snoc_l {S T} (P : S -> T -> Prop) l x l' : Forall2 P (l ++ [x]) l' -> exists q y, l' = q ++ [y] /\ Forall2 P l q /\ P x y.
Proof.
  intros H. apply Forall2_app_inv_l in H as (q & t & H1 & H2 & ->). inversion H2 as [|? y ? t' H3 H4]; subst. inversion H4; subst. eauto.
Qed.
Lemma link_snoc {T} (R : T -> T -> Prop) l x y : linked R (l ++ [x]) -> R x y -> linked R ((l ++ [x]) ++ [y]).
Proof.
  induction l as [|a l IH]; intros H1 H2; [simpl; auto|]. destruct l as [|c l]; simpl in *; intuition.
Qed.
Lemma walk_proper s es t : walk (drivable g k lc false) s es t -> proper m ops s -> forall v, In v (wverts s es) -> proper m ops v.
Proof.
  intros H Hs. induction H as [|es e H IH He]; intros v Hv; [destruct Hv as [<-|[]]; auto|]. unfold wverts in *. rewrite map_app in Hv.
  rewrite app_comm_cons in Hv. apply in_app_or in Hv as [Hv|[<-|[]]]; auto. apply (edge_proper m ops e). apply He.
Qed.
Lemma walk_path s es t : walk (drivable g k lc false) s es t -> get_vertex g (nth s (g_verts g) (EArea 0)) = Some s -> forall p, elements g (wverts s es) p ->
  (exists q z, p = q ++ [z] /\ vertex_elem g t = Some z /\ get_vertex g z = Some t) /\ (forall a, In a p -> exists v, get_vertex g a = Some v) /\ linked (joined driving) p /\ hd_error p = vertex_elem g s.
Proof.
  intros H Hs. induction H as [|es e H IH He]; intros p Hp.
  - unfold wverts in Hp. simpl in Hp. inversion Hp as [|? a ? l H1 H2]; subst. inversion H2; subst. pose proof (go_lookup _ (gbuild_ok m ops) _ _ Hs) as [Hl _].
    rewrite H1 in Hl. injection Hl as ->. split; [exists [], (nth s (g_verts g) (EArea 0)); auto|]. split; [|split; [simpl; auto|simpl; auto]]. intros a [<-|[]]. eauto.
  - unfold wverts in *. rewrite map_app in Hp. simpl in Hp. rewrite app_comm_cons in Hp. apply Forall2_snoc_l in Hp as (q & z & -> & H1 & H2).
    destruct (IH q H1) as ((q' & y & -> & Hy & Hy') & Hall & Hl & Hh). pose proof He as (He1 & _). destruct (edge_proper m ops e He1) as [_ Ht].
    pose proof (proper_elem m ops _ Ht) as Ht'. rewrite H2 in Ht'. injection Ht' as ->.
    split; [|split; [|split]].
    + exists (q' ++ [y]), (RouteBuilderProofs7.el g (e_tgt e)). auto.
    + intros a Ha. apply in_app_or in Ha as [Ha|[<-|[]]]; eauto.
    + apply link_snoc; auto. exists e. destruct (drivable_used e He) as [U D]. auto.
    + rewrite <- Hh. destruct q'; auto.
Qed.
Lemma path_route a b p : is_lanelet a = true -> lanes_only g k lc -> path_between g (drivable g k lc false) a b p ->
  route_path g k lc p /\ NoDup p /\ hd_error p = Some a /\ hd_error (rev p) = Some b.
Proof.
  intros Ha Hlanes (s & t & es & Hs & Ht & (Hw & _) & _ & Hnd & He).
  destruct (proper_of m ops a s Hs) as (Ps & Es & _). destruct (proper_of m ops b t Ht) as (Pt & Et & _).
  destruct (walk_path s es t Hw Ps p He) as ((q & z & Ep & Hz & _) & Hall & Hl & Hh).
  rewrite (proper_elem m ops s Ps), Es in Hh. rewrite (proper_elem m ops t Pt), Et in Hz. injection Hz as <-.
  split; [|split; [|split; [auto|subst p; rewrite rev_app_distr; auto]]].
  - split; [subst p; destruct q; discriminate|]. split; [|auto]. intros c Hc. split; [|auto].
    clear Ep He Hall. destruct p as [|x p]; [destruct Hc|]. injection Hh as ->.
    pose proof (linked_rt _ p a Hl c Hc) as K. apply clos_rt_rt1n in K. clear - K Ha Hlanes. induction K as [|x y z K1 K2 IH]; auto.
    + apply IH. eapply Hlanes; eauto.
  - pose proof (walk_proper s es t Hw Ps) as Hp. clear - He Hnd Hp. unfold elements in He. revert Hnd Hp He. generalize (wverts s es). intros vs Hnd Hp He.
    assert (E : p = map (RouteBuilderProofs7.el g) vs).
    { clear Hnd. induction He as [|v a vs p H1 H2 IH]; auto. simpl. rewrite (proper_elem m ops v) in H1 by (apply Hp; simpl; auto). injection H1 as ->.
      f_equal. apply IH. intros; apply Hp; simpl; auto. }
    subst p. apply nodup_map; auto. intros x y Hx Hy. apply (proper_inj m ops); auto.
Qed.
Lemma simple_ends p : NoDup p -> (lc = true -> ends_once g k lc p) -> ends_once g k lc p.
Proof.
  intros Hnd H. destruct lc eqn:E; auto. intros f z Hf Hz. right. intros a Ha K.
  apply clos_rt_rt1n in K. inversion K as [|y ? (e & _ & _ & _ & U & C) _]; subst.
  - destruct p as [|x p _] using rev_ind; [discriminate|]. rewrite rev_app_distr in Hz. injection Hz as ->. rewrite removelast_last in Ha.
    apply NoDup_remove_2 in Hnd. rewrite app_nil_r in Hnd. auto.
  - unfold used in U. apply andb_true_iff in U as [_ U]. destruct (ei_rel (e_info e)); discriminate.
Qed.
End Path.
