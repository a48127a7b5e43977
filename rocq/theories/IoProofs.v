(** Proofs about IoModel: extensions, registries, load and write. *)
From Coq Require Import List Bool String Ascii ZArith Sorted Lia.
From Verif Require Import OsmModel OsmProofs IoModel IoSpec.
Import ListNotations.
Local Open Scope string_scope.
Local Open Scope list_scope.

(** * Extensions *)
Lemma app_nil s : (s ++ "")%string = s.
Proof. induction s; cbn; congruence. Qed.
Lemma app_assoc' a b c : ((a ++ b) ++ c)%string = (a ++ (b ++ c))%string.
Proof. induction a; cbn; congruence. Qed.
Lemma without_app c a b : without c (a ++ b)%string <-> without c a /\ without c b.
Proof.
  unfold without. assert (E : forall a, list_ascii_of_string (a ++ b)%string = list_ascii_of_string a ++ list_ascii_of_string b) by (induction a0; cbn; congruence).
  rewrite E, in_app_iff. tauto.
Qed.
Lemma without_cons c x s : without c (String x s) <-> x <> c /\ without c s.
Proof. unfold without. cbn. split; [intros H; split; intro; apply H; auto|intros [A B] [H|H]; auto]. Qed.
Lemma from_last_none c s : from_last c s = None <-> without c s.
Proof.
  induction s as [|a s IH]; cbn [from_last]; [split; auto; intros _ []|]. rewrite without_cons.
  destruct (from_last c s) eqn:E; [split; [discriminate|intros [_ H]; apply IH in H; discriminate]|].
  destruct (Ascii.eqb_spec a c); split; try discriminate; try tauto; intros _; split; auto; apply IH; auto.
Qed.
Lemma from_last_some c s t : from_last c s = Some t <-> exists a r, s = (a ++ t)%string /\ t = String c r /\ without c r.
Proof.
  revert t. induction s as [|x s IH]; intros t; cbn [from_last].
  - split; [discriminate|]. intros (a & r & E & -> & _). destruct a; discriminate.
  - destruct (from_last c s) as [u|] eqn:E.
    + split; [intros [= <-]; destruct (proj1 (IH u) eq_refl) as (a & r & -> & H); exists (String x a), r; tauto|].
      intros (a & r & E1 & -> & W). destruct a as [|y a]; cbn in E1; injection E1 as -> E1.
      * subst. destruct (proj1 (IH u) eq_refl) as (a & r' & -> & -> & _). apply without_app in W as [_ W]. apply without_cons in W. tauto.
      * apply IH. exists a, r. auto.
    + apply from_last_none in E. destruct (Ascii.eqb_spec x c) as [->|N].
      * split; [intros [= <-]; exists "", s; auto|]. intros (a & r & E1 & -> & W). destruct a as [|y a]; cbn in E1; [congruence|]. injection E1 as _ E1.
        subst s. apply without_app in E as [_ E]. apply without_cons in E. tauto.
      * split; [discriminate|]. intros (a & r & E1 & -> & W). destruct a as [|y a]; cbn in E1; injection E1 as -> E1; [congruence|].
        subst s. apply without_app in E as [_ E]. apply without_cons in E. tauto.
Qed.
Lemma filename_split s : exists dir, s = (dir ++ filename s)%string /\ (dir = "" \/ exists d, dir = (d ++ "/")%string) /\ without "/" (filename s).
Proof.
  unfold filename. destruct (from_last "/" s) as [t|] eqn:E.
  - apply from_last_some in E as (a & r & -> & -> & W). exists (a ++ "/")%string. rewrite app_assoc'. cbn. eauto.
  - apply from_last_none in E. exists "". auto.
Qed.
Lemma app_inj_l a b c : (a ++ b)%string = (a ++ c)%string -> b = c.
Proof. induction a; cbn; intros H; [auto|injection H; auto]. Qed.
Lemma filename_unique dir n : (dir = "" \/ exists d, dir = (d ++ "/")%string) -> without "/" n -> filename (dir ++ n)%string = n.
Proof.
  intros [->|[d ->]] W; unfold filename.
  - cbn. apply from_last_none in W. rewrite W. auto.
  - rewrite app_assoc'. cbn [append]. assert (E : from_last "/" (d ++ String "/" n)%string = Some (String "/" n)) by (apply from_last_some; exists d, n; auto).
    rewrite E. auto.
Qed.
Lemma extension_spec s e : has_extension s e <-> extension s = e.
Proof.
  split.
  - intros (dir & n & -> & HD & W & H). unfold extension. rewrite filename_unique by auto. destruct H as [[-> H]|(N1 & N2 & stem & r & -> & -> & H)].
    + destruct (String.eqb_spec n ".") as [|N1]; [auto|]. destruct (String.eqb_spec n "..") as [|N2]; [auto|]. destruct H as [H|[H|H]]; try contradiction.
      apply from_last_none in H. rewrite H. auto.
    + apply String.eqb_neq in N1, N2. rewrite N1, N2. cbn [orb].
      assert (E : from_last "." (stem ++ String "." r)%string = Some (String "." r)) by (apply from_last_some; exists stem, r; auto). rewrite E. auto.
  - intros <-. destruct (filename_split s) as (dir & E & HD & W). exists dir, (filename s). split; [auto|]. split; [auto|]. split; [auto|]. unfold extension.
    destruct (String.eqb_spec (filename s) ".") as [|N1]; [left; auto|]. destruct (String.eqb_spec (filename s) "..") as [|N2]; [left; auto|]. cbn [orb].
    destruct (from_last "." (filename s)) as [t|] eqn:F.
    + right. apply from_last_some in F as (a & r & E1 & -> & H). split; [auto|]. split; [auto|]. exists a, r. auto.
    + left. apply from_last_none in F. auto.
Qed.

(** * Registries *)
Section Reg.
Context {F : Type}.
Implicit Types l : list (string * string * F).
Notation ssorted := (StronglySorted (fun a b => String.ltb a b = true)).

Lemma last_for_app key l (x : string * string * F) k f :
  last_for key (l ++ [x]) k f <-> (key x = k /\ snd x = f) \/ (key x <> k /\ last_for key l k f).
Proof.
  split.
  - intros (a & y & b & E & K & V & H). destruct b as [|z b _] using rev_ind.
    + apply app_inj_tail in E as [-> ->]. auto.
    + right. rewrite app_comm_cons, app_assoc in E. apply app_inj_tail in E as [-> ->]. split; [apply H; apply in_or_app; cbn; auto|].
      exists a, y, b. repeat split; auto. intros u U. apply H. apply in_or_app. auto.
  - intros [[K V]|[N (a & y & b & -> & K & V & H)]].
    + exists l, x, []. repeat split; auto.
    + exists a, y, (b ++ [x]). rewrite app_comm_cons, app_assoc. repeat split; auto. intros u U. apply in_app_iff in U as [U|[<-|[]]]; auto.
Qed.
Lemma last_for_nil key k (f : F) : ~ last_for key [] k f.
Proof. intros (a & x & b & E & _). destruct a; discriminate. Qed.
Lemma registered_snoc l x : registered (l ++ [x]) = register (registered l) x.
Proof. unfold registered. rewrite fold_left_app. auto. Qed.
Lemma sset_get {V} k k' (v : V) m : mget String.ltb k (mset String.ltb k' v m) = if String.eqb k k' then Some v else mget String.ltb k m.
Proof.
  rewrite (mget_mset String.ltb stra stot). destruct (String.eqb_spec k k') as [->|N]; [rewrite sirr; auto|].
  destruct (String.ltb k k') eqn:A, (String.ltb k' k) eqn:B; auto. destruct N. apply stot; auto.
Qed.
Lemma registered_ok l : ssorted (map fst (by_name (registered l))) /\ ssorted (map fst (by_extension (registered l))) /\
  (forall k f, create (registered l) k = Some f <-> last_for name_of l k f) /\
  (forall k f, create_from_extension (registered l) k = Some f <-> k <> "" /\ last_for ext_of l k f).
Proof.
  induction l as [|[[n e] f] l IH] using rev_ind.
  - cbn. split; [constructor|]. split; [constructor|]. split; intros k f; (split; [discriminate|]); [intros H|intros [_ H]]; destruct (last_for_nil _ _ _ H).
  - rewrite registered_snoc. destruct IH as (S1 & S2 & N & E). unfold register, create, create_from_extension in *. cbn [by_name by_extension].
    split; [apply (mset_sorted String.ltb sirr stra stot); auto|]. split; [destruct (String.eqb_spec e ""); auto; apply (mset_sorted String.ltb sirr stra stot); auto|].
    split; intros k g; rewrite last_for_app; cbn [name_of ext_of fst snd].
    + unfold sget, sset. rewrite sset_get. destruct (String.eqb_spec k n) as [->|X]; [split; [intros [= <-]; auto|intros [[_ ->]|[X _]]; [auto|contradiction]]|].
      unfold sget in N. rewrite N. split; [auto|]. intros [[X' _]|[_ H]]; [congruence|auto].
    + destruct (String.eqb_spec e "") as [->|Y].
      * rewrite E. split; intros [A H]; (split; [auto|]); [right; auto|]. destruct H as [[X _]|[_ H]]; [congruence|auto].
      * unfold sget, sset. rewrite sset_get. destruct (String.eqb_spec k e) as [->|X]; [split; [intros [= <-]; auto|intros [_ [[_ ->]|[X _]]]; [auto|contradiction]]|].
        unfold sget in E. rewrite E. split; intros [A H]; (split; [auto|]); [right; auto|]. destruct H as [[X' _]|[_ H]]; [congruence|auto].
Qed.

Lemma sort_in_In x (l : list string) s : In s (sort_in x l) <-> s = x \/ In s l.
Proof. induction l as [|y l IH]; cbn [sort_in]; [cbn; intuition auto|]. destruct (String.ltb y x); cbn [In]; [rewrite IH|]; intuition auto. Qed.
Lemma sort_sorted (l : list string) : ssorted l -> sort l = l.
Proof.
  induction l as [|x l IH]; intros S; cbn [sort fold_right]; [auto|]. change (fold_right sort_in [] l) with (sort l). apply StronglySorted_inv in S as [S H]. rewrite IH by auto.
  destruct l as [|y l]; [auto|]. cbn [sort_in]. inversion H; subst. rewrite (lt_asym String.ltb sirr stra x y) by auto. auto.
Qed.
Lemma last_for_in key l k : (exists f, last_for key l k f) <-> exists x, In x l /\ key x = k.
Proof.
  split; [intros (f & a & x & b & -> & K & _); exists x; split; auto; apply in_or_app; cbn; auto|].
  intros (x & I & K). induction l as [|y l IH] using rev_ind; [destruct I|].
  destruct (string_dec (key y) k) as [Y|Y]; [exists (snd y); apply last_for_app; auto|].
  apply in_app_iff in I as [I|[->|[]]]; [|contradiction]. destruct (IH I) as (f & H). exists f. apply last_for_app. auto.
Qed.
Lemma available_ok l : sorted_list (fun s => exists x, In x l /\ name_of x = s) (available (registered l)).
Proof.
  destruct (registered_ok l) as (S1 & S2 & N & E). unfold available. rewrite sort_sorted by auto. split; [auto|]. intros s. rewrite <- last_for_in. split.
  - intros I. apply in_map_iff in I as ((k & f) & <- & I). exists f. apply N. apply (mget_In String.ltb sirr stra stot); auto.
  - intros (f & H). apply N in H. apply (mget_In String.ltb sirr stra stot) in H; auto. apply (in_map fst) in H. auto.
Qed.
Lemma available_extensions_ok l : sorted_list (fun s => s <> "" /\ exists x, In x l /\ ext_of x = s) (available_extensions (registered l)).
Proof.
  destruct (registered_ok l) as (S1 & S2 & N & E). unfold available_extensions. rewrite sort_sorted by auto. split; [auto|]. intros s. rewrite <- last_for_in. split.
  - intros I. apply in_map_iff in I as ((k & f) & <- & I). cbn [fst]. assert (H : create_from_extension (registered l) k = Some f) by (apply (mget_In String.ltb sirr stra stot); auto).
    apply E in H. split; [tauto|]. exists f. tauto.
  - intros (A & f & H). assert (H' : create_from_extension (registered l) s = Some f) by (apply E; auto).
    apply (mget_In String.ltb sirr stra stot) in H'; auto. apply (in_map fst) in H'. auto.
Qed.
End Reg.

(** * load and write *)
Section Io.
Context {X B M Pr Cfg : Type}.
Lemma load_with_reports (p : parser X B M Pr Cfg) w f pr t cfg :
  let '(r, t', w') := load_with p w f pr t cfg in
  reports ParseError (fun m => m) (fst (p pr cfg w f [])) t r t' /\ w' = snd (p pr cfg w f []).
Proof.
  unfold load_with, handle_errors. destruct (p pr cfg w f []) as [[[m [|e errs]]|x| |] w']; destruct t as [t|]; cbn [fst snd]; split; try reflexivity; try constructor.
Qed.
Lemma write_with_reports (wr : writer X B M Pr Cfg) w f m pr t cfg :
  let '(r, t', w') := write_with wr w f m pr t cfg in
  reports WriteError (fun u => u) (no_value (fst (wr pr cfg w f m []))) t r t' /\ w' = snd (wr pr cfg w f m []).
Proof.
  unfold write_with, handle_errors. destruct (wr pr cfg w f m []) as [[[|e errs]|x| |] w']; destruct t as [t|]; cbn [fst snd no_value]; split; try reflexivity; try constructor.
Qed.
Lemma file_exists_ok (w : world X B) f : world_ok w -> (file_exists w f = true <-> exists c, content_is w f c).
Proof.
  intros W. unfold file_exists, content_is. split.
  - destruct (sget f (files w)) as [c|] eqn:E; [|discriminate]. intros _. exists c. apply (mget_In String.ltb sirr stra stot) in E; auto.
  - intros (c & H). apply (mget_In String.ltb sirr stra stot) in H; auto. unfold sget. rewrite H. auto.
Qed.
Lemma save_ok (w : world X B) f c n : world_ok w -> world_ok (World (sset f c (files w)) n) /\ content_is (World (sset f c (files w)) n) f c /\
  only_file f w (World (sset f c (files w)) n).
Proof.
  intros W. assert (W' : world_ok (World (sset f c (files w)) n)) by (apply (mset_sorted String.ltb sirr stra stot); auto). split; [auto|].
  unfold content_is, only_file. cbn [files]. split; [|intros g d N; unfold content_is; cbn [files]].
  - apply (mget_In String.ltb sirr stra stot); auto. unfold sset. rewrite sset_get, String.eqb_refl. auto.
  - rewrite <- (mget_In String.ltb sirr stra stot) by auto. unfold sset. rewrite sset_get. apply String.eqb_neq in N. rewrite N.
    rewrite (mget_In String.ltb sirr stra stot) by auto. tauto.
Qed.
Lemma content_get (w : world X B) f c : world_ok w -> (sget f (files w) = Some c <-> content_is w f c).
Proof. intros W. apply (mget_In String.ltb sirr stra stot); auto. Qed.
End Io.
