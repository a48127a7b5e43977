(** Proofs about the texts of [repr]. *)
From Coq Require Import NArith ZArith List Bool String Ascii Lia.
From Verif Require Import AttrModel DotSpec DotProofs ReprModel ReprSpec.
Import ListNotations.
Open Scope string_scope.

Fixpoint expr_deep (P : expr -> Prop) (Hn : forall t, P (ENum t)) (Hs : forall s, P (EStr s)) (Hw : forall n, P (EName n))
    (Hl : forall l, Forall P l -> P (EList l)) (Hd : forall l, Forall (fun kv => P (fst kv) /\ P (snd kv)) l -> P (EDict l))
    (Hc : forall f l, Forall P l -> P (ECall f l)) (e : expr) : P e :=
  let go := expr_deep P Hn Hs Hw Hl Hd Hc in
  match e with
  | ENum t => Hn t
  | EStr s => Hs s
  | EName n => Hw n
  | EList l => Hl l ((fix list_ind (l : list expr) : Forall P l :=
      match l with [] => Forall_nil P | x :: r => Forall_cons x (go x) (list_ind r) end) l)
  | EDict l => Hd l ((fix pair_ind (l : list (expr * expr)) : Forall (fun kv => P (fst kv) /\ P (snd kv)) l :=
      match l with [] => Forall_nil _ | x :: r => Forall_cons x (conj (go (fst x)) (go (snd x))) (pair_ind r) end) l)
  | ECall f l => Hc f l ((fix list_ind (l : list expr) : Forall P l :=
      match l with [] => Forall_nil P | x :: r => Forall_cons x (go x) (list_ind r) end) l)
  end.

Section Text.
Context {N : Type} (finite : N -> Prop) (show : N -> string) (num : string -> option N) (back : N -> N)
  (quote : string -> string) (unquote : string -> option (string * string)) (zero : N)
  (C : contracts finite show num back quote unquote).

Fixpoint render (e : expr) : string :=
  match e with
  | ENum t => t
  | EStr s => quote s
  | EName n => n
  | EList l => "[" ++ commas (map render l) ++ "]"
  | EDict l => "{" ++ commas (map (fun kv => render (fst kv) ++ ": " ++ render (snd kv)) l) ++ "}"
  | ECall f l => f ++ "(" ++ commas (map render l) ++ ")"
  end.

Definition token (t : string) : Prop := allc is_numeric t = true /\ exists c r, t = String c r /\ is_sign c = true.
Definition word (t : string) : Prop := allc is_word t = true /\ exists c r, t = String c r /\ is_letter c = true.

Fixpoint wf (e : expr) : Prop :=
  match e with
  | ENum t => token t
  | EStr _ => True
  | EName n => word n
  | EList l => fold_right (fun x P => wf x /\ P) True l
  | EDict l => fold_right (fun kv P => (wf (fst kv) /\ wf (snd kv)) /\ P) True l
  | ECall f l => word f /\ fold_right (fun x P => wf x /\ P) True l
  end.

Lemma fold_wf (l : list expr) : fold_right (fun x P => wf x /\ P) True l <-> Forall wf l.
Proof. induction l as [|x l IH]; cbn; [now split|]. rewrite IH. split; [intros [? ?]; now constructor|intros H; now inversion H]. Qed.
Lemma fold_wf2 (l : list (expr * expr)) :
  fold_right (fun kv P => (wf (fst kv) /\ wf (snd kv)) /\ P) True l <-> Forall (fun kv => wf (fst kv) /\ wf (snd kv)) l.
Proof. induction l as [|x l IH]; cbn; [now split|]. rewrite IH. split; [intros [? ?]; now constructor|intros H; now inversion H]. Qed.

Definition total (l : list nat) : nat := fold_right (fun n m => S (n + m)) 1 l.
Fixpoint size (e : expr) : nat :=
  match e with
  | EList l => S (total (map size l))
  | EDict l => S (total (map (fun kv => size (fst kv) + size (snd kv)) l))
  | ECall _ l => S (total (map size l))
  | _ => 1
  end.

Definition ends (s : string) : Prop :=
  match s with EmptyString => True | String c _ => is_numeric c = false /\ is_word c = false /\ Ascii.eqb "(" c = false end.

Lemma letter_other c : is_letter c = true -> is_sign c = false /\ is_mark c = false /\ is_word c = true /\
  Ascii.eqb c "[" = false /\ Ascii.eqb c "{" = false /\ Ascii.eqb "]" c = false /\ Ascii.eqb ")" c = false /\ Ascii.eqb "}" c = false.
Proof. destruct c as [[] [] [] [] [] [] [] []]; vm_compute; intros; try discriminate; repeat split; reflexivity. Qed.
Lemma sign_other c : is_sign c = true -> Ascii.eqb c "[" = false /\ Ascii.eqb c "{" = false /\
  Ascii.eqb "]" c = false /\ Ascii.eqb ")" c = false /\ Ascii.eqb "}" c = false.
Proof. destruct c as [[] [] [] [] [] [] [] []]; vm_compute; intros; try discriminate; repeat split; reflexivity. Qed.
Lemma mark_other c : is_mark c = true -> is_sign c = false /\ Ascii.eqb c "[" = false /\ Ascii.eqb c "{" = false /\
  Ascii.eqb "]" c = false /\ Ascii.eqb ")" c = false /\ Ascii.eqb "}" c = false.
Proof. destruct c as [[] [] [] [] [] [] [] []]; vm_compute; intros; try discriminate; repeat split; reflexivity. Qed.

(** No expression begins with a closing bracket. *)
Lemma opens e rest : wf e -> forall close, close = "]" \/ close = ")" \/ close = "}" -> behind close (render e ++ rest) = None.
Proof.
  intros W close Hc. destruct e as [t|s|n|l|l|f l]; cbn [render wf] in *.
  - destruct W as [_ (c & r & -> & S)]. apply sign_other in S as (_ & _ & A1 & A2 & A3).
    destruct Hc as [->|[->| ->]]; cbn [append behind]; now rewrite ?A1, ?A2, ?A3.
  - destruct (quote_mark _ _ _ _ _ _ C s) as (c & r & -> & S). apply mark_other in S as (_ & _ & _ & A1 & A2 & A3).
    destruct Hc as [->|[->| ->]]; cbn [append behind]; now rewrite ?A1, ?A2, ?A3.
  - destruct W as [_ (c & r & -> & S)]. apply letter_other in S as (_ & _ & _ & _ & _ & A1 & A2 & A3).
    destruct Hc as [->|[->| ->]]; cbn [append behind]; now rewrite ?A1, ?A2, ?A3.
  - destruct Hc as [->|[->| ->]]; reflexivity.
  - destruct Hc as [->|[->| ->]]; reflexivity.
  - destruct W as [[_ (c & r & -> & S)] _]. apply letter_other in S as (_ & _ & _ & _ & _ & A1 & A2 & A3).
    destruct Hc as [->|[->| ->]]; cbn [append behind]; now rewrite ?A1, ?A2, ?A3.
Qed.

Lemma stops_word s : ends s -> stops is_word s = true /\ stops is_numeric s = true /\ behind "(" s = None.
Proof.
  destruct s as [|c s]; [now repeat split|]. intros (A & B & D). cbn [stops behind]. rewrite A, B. cbn [negb].
  split; [reflexivity|]. split; [reflexivity|]. now rewrite D.
Qed.

Definition reads (e : expr) : Prop := wf e -> forall fuel rest, size e <= fuel -> ends rest ->
  expression unquote fuel (render e ++ rest) = Some (e, rest).

Lemma expressions_read close l : close = "]" \/ close = ")" -> Forall reads l -> Forall wf l -> forall fuel rest,
  total (map size l) <= fuel -> expressions unquote fuel close (commas (map render l) ++ close ++ rest) = Some (l, rest).
Proof.
  intros Hc R W. destruct l as [|e l].
  { intros [|f] rest F; [cbn in F; lia|]. cbn [expressions map commas]. cbn [append]. now rewrite behind_app. }
  cbn [map commas]. revert e R W. induction l as [|e' l IH]; intros e R W fuel rest F;
    apply Forall_cons_iff in R as [Re R]; apply Forall_cons_iff in W as [We W];
    (destruct fuel as [|f]; [cbn in F; lia|]); cbn [map total fold_right] in F; cbn [expressions]; rewrite app_assoc_s.
  - cbn [map follow]. cbn [append]. rewrite opens by (auto; tauto). rewrite Re; auto; [|lia|].
    + now rewrite behind_app.
    + destruct Hc as [->| ->]; repeat split.
  - cbn [map follow]. rewrite opens by (auto; tauto). rewrite Re; auto; [|lia|].
    + rewrite !app_assoc_s. destruct Hc as [->| ->].
      * change (behind "]" (", " ++ render e' ++ follow (map render l) ++ "]" ++ rest)) with (@None string).
        rewrite behind_app. rewrite <- app_assoc_s. rewrite IH; auto. cbn [map total fold_right]. unfold total in F. lia.
      * change (behind ")" (", " ++ render e' ++ follow (map render l) ++ ")" ++ rest)) with (@None string).
        rewrite behind_app. rewrite <- app_assoc_s. rewrite IH; auto. cbn [map total fold_right]. unfold total in F. lia.
    + rewrite app_assoc_s. repeat split.
Qed.

Lemma entries_step f s : entries unquote (S f) s =
  match behind "}" s with
  | Some r => Some ([], r)
  | None =>
    match expression unquote f s with
    | None => None
    | Some (k, r) =>
      match behind ": " r with
      | None => None
      | Some r1 =>
        match expression unquote f r1 with
        | None => None
        | Some (v, r2) =>
          match behind "}" r2, behind ", " r2 with
          | Some r', _ => Some ([(k, v)], r')
          | None, Some r' => match entries unquote f r' with Some (l, r3) => Some ((k, v) :: l, r3) | None => None end
          | None, None => None
          end
        end
      end
    end
  end.
Proof. reflexivity. Qed.

Lemma total_cons n l : total (n :: l) = S (n + total l).
Proof. reflexivity. Qed.

Lemma entries_read l : Forall (fun kv => reads (fst kv) /\ reads (snd kv)) l ->
  Forall (fun kv => wf (fst kv) /\ wf (snd kv)) l -> forall fuel rest,
  total (map (fun kv => size (fst kv) + size (snd kv)) l) <= fuel ->
  entries unquote fuel (commas (map (fun kv => render (fst kv) ++ ": " ++ render (snd kv)) l) ++ "}" ++ rest) = Some (l, rest).
Proof.
  intros R W. destruct l as [|[k v] l].
  { intros [|f] rest F; [cbn in F; lia|]. reflexivity. }
  cbn [map commas]. revert k v R W. induction l as [|[k' v'] l IH]; intros k v R W fuel rest F;
    apply Forall_cons_iff in R as [[Rk Rv] R]; apply Forall_cons_iff in W as [[Wk Wv] W]; cbn [fst snd] in *;
    (destruct fuel as [|f]; [cbn in F; lia|]); cbn [map fst snd] in F; rewrite ?total_cons in F;
    rewrite entries_step; cbn [map follow fst snd]; rewrite !app_assoc_s; rewrite opens by (auto; tauto);
    (rewrite Rk; [|exact Wk|lia|repeat split]); rewrite behind_app; (rewrite Rv; [|exact Wv|lia|repeat split]).
  - change ("" ++ "}" ++ rest) with ("}" ++ rest). now rewrite behind_app.
  -     match goal with |- context [behind "}" (", " ++ ?x)] => change (behind "}" (", " ++ x)) with (@None string) end.
    rewrite behind_app.
    assert (K := IH k' v' R W f rest). rewrite !app_assoc_s in K. cbn [fst snd] in K. rewrite K; [reflexivity|].
    cbn [map fst snd]. rewrite total_cons. lia.
Qed.

Lemma reads_all e : reads e.
Proof.
  induction e as [t|s|n|l IH|l IH|f l IH] using expr_deep; intros W fuel rest F E; cbn [size] in F;
    (destruct fuel as [|fu]; [lia|]); cbn [render wf] in *; destruct (stops_word _ E) as (E1 & E2 & E3).
  - destruct W as [A (c & r & -> & S)]. destruct (sign_other _ S) as (S1 & S2 & _).
    cbn [append expression]. rewrite S1, S2, S. change (String c (r ++ rest)) with (String c r ++ rest).
    now rewrite take_app.
  - destruct (quote_mark _ _ _ _ _ _ C s) as (c & r & Q & S). destruct (mark_other _ S) as (S1 & S2 & S3 & _).
    assert (K := quote_read _ _ _ _ _ _ C s rest). rewrite Q in *. cbn [append expression] in *. now rewrite S2, S3, S1, S, K.
  - destruct W as [A (c & r & -> & S)]. destruct (letter_other _ S) as (S1 & S2 & S3 & S4 & S5 & _).
    cbn [append expression]. rewrite S4, S5, S1, S2, S3. change (String c (r ++ rest)) with (String c r ++ rest).
    rewrite take_app by auto. now rewrite E3.
  - apply fold_wf in W. cbn [append expression]. rewrite app_assoc_s.
    change (Ascii.eqb "[" "[") with true. cbn iota. rewrite expressions_read; auto. lia.
  - apply fold_wf2 in W. cbn [append expression]. rewrite app_assoc_s.
    change (Ascii.eqb "{" "[") with false. change (Ascii.eqb "{" "{") with true. cbn iota.
    rewrite entries_read; auto. lia.
  - destruct W as [[A (c & r & -> & S)] W]. apply fold_wf in W. destruct (letter_other _ S) as (S1 & S2 & S3 & S4 & S5 & _).
    rewrite !app_assoc_s. cbn [append expression]. rewrite S4, S5, S1, S2, S3.
    match goal with |- context [String c (r ++ ?x)] => change (String c (r ++ x)) with (String c r ++ x) end.
    rewrite take_app; [|auto|reflexivity]. cbn [behind]. change (Ascii.eqb "(" "(") with true. cbn iota.
    change (String ")" rest) with (")" ++ rest). rewrite expressions_read; auto. lia.
Qed.

(** The fuel of [read] is enough. *)
Lemma total_commas {A} (sz : A -> nat) (tx : A -> string) l : Forall (fun x => sz x <= 2 * String.length (tx x)) l ->
  total (map sz l) <= 3 + 2 * String.length (commas (map tx l)).
Proof.
  destruct l as [|x l]; [cbn; lia|]. cbn [map commas]. revert x. induction l as [|y l IH]; intros x H;
    apply Forall_cons_iff in H as [Hx H].
  - cbn [map total fold_right follow]. rewrite length_app. lia.
  - specialize (IH y H). cbn [map total fold_right follow] in *. rewrite !length_app in *.
    change (String.length ", ") with 2. unfold total in IH. lia.
Qed.

Lemma size_length e : wf e -> size e <= 2 * String.length (render e).
Proof.
  induction e as [t|s|n|l IH|l IH|f l IH] using expr_deep; cbn [wf size render]; intros W.
  - destruct W as [_ (c & r & -> & _)]. cbn. lia.
  - destruct (quote_mark _ _ _ _ _ _ C s) as (c & r & -> & _). cbn. lia.
  - destruct W as [_ (c & r & -> & _)]. cbn. lia.
  - apply fold_wf in W. rewrite !length_app. change (String.length "[") with 1. change (String.length "]") with 1.
    assert (K := total_commas size render l). rewrite Forall_forall in *. specialize (K ltac:(intros; auto)). lia.
  - apply fold_wf2 in W. rewrite !length_app. change (String.length "{") with 1. change (String.length "}") with 1.
    assert (K := total_commas (fun kv => size (fst kv) + size (snd kv)) (fun kv => render (fst kv) ++ ": " ++ render (snd kv)) l).
    rewrite Forall_forall in *. cbn beta in K. specialize (K ltac:(intros x Hx; destruct (IH x Hx), (W x Hx); rewrite !length_app;
      assert (size (fst x) <= 2 * String.length (render (fst x))) by auto;
      assert (size (snd x) <= 2 * String.length (render (snd x))) by auto; lia)). lia.
  - destruct W as [[_ (c & r & -> & _)] W]. apply fold_wf in W. rewrite !length_app.
    change (String.length "(") with 1. change (String.length ")") with 1. cbn [String.length].
    assert (K := total_commas size render l). rewrite Forall_forall in *. specialize (K ltac:(intros; auto)). lia.
Qed.

Theorem read_render e : wf e -> read unquote (render e) = Some e.
Proof.
  intros W. unfold read. assert (K := reads_all e W (2 * String.length (render e)) "" (size_length e W) I).
  assert (E : forall s, s ++ "" = s) by (induction s; cbn; congruence). rewrite E in K. now rewrite K.
Qed.

(** * The expressions that are written *)
Inductive writes : list arg -> list expr -> Prop :=
| w_nil : writes [] []
| w_num e r es : writes r es -> writes (Num (render e) :: r) (e :: es)
| w_txt e r es : wf e -> writes r es -> writes (Txt (render e) :: r) (e :: es)
| w_empty r es : writes r es -> writes (Txt "" :: r) es.

Lemma render_cons e : wf e -> exists c r, render e = String c r.
Proof.
  intros W. assert (K := size_length e W). destruct (render e) as [|c r]; [|eauto]. destruct e; cbn in K; lia.
Qed.

Lemma writes_follow l es : writes l es -> format_helper l = follow (map render es).
Proof.
  induction 1 as [|e r es H IH|e r es W H IH|r es H IH]; cbn [format_helper map follow]; rewrite ?IH; auto.
  destruct (render_cons e W) as (c & s & ->). reflexivity.
Qed.

Lemma make_call name e l es : writes l es -> make_repr name (render e) l = render (ECall name (e :: es)).
Proof. intros H. unfold make_repr. rewrite (writes_follow _ _ H). cbn [render map commas]. now rewrite app_assoc_s. Qed.

Lemma numeric_sign c : is_sign c = true -> is_numeric c = true.
Proof. intros H. unfold is_numeric. now rewrite H. Qed.

Lemma token_id z : token (print_Z z).
Proof. split; [|apply print_nonempty]. eapply allc_weaken; [|apply print_sign]. apply numeric_sign. Qed.

Lemma allc_all p s : (forall c pre post, s = pre ++ String c post -> p c = true) -> allc p s = true.
Proof.
  induction s as [|c s IH]; [reflexivity|]. intros H. cbn. rewrite (H c "" s eq_refl). cbn. apply IH.
  intros d pre post ->. apply (H d (String c pre) post). reflexivity.
Qed.

Lemma token_show x : finite x -> token (show x).
Proof. intros F. split; [apply allc_all, (show_all _ _ _ _ _ _ C x F)|apply (show_token _ _ _ _ _ _ C x F)]. Qed.

Ltac word := split; [reflexivity|do 2 eexists; split; reflexivity].

Definition ast_map (a : attrs) : expr := ECall "AttributeMap" [EDict (map (fun kv => (EStr (fst kv), EStr (snd kv))) a)].
Definition ast_attrs (a : attrs) : list expr := match a with [] => [] | _ => [ast_map a] end.

Lemma map_text a : attribute_map_repr quote a = render (ast_map a).
Proof.
  unfold attribute_map_repr, ast_map, py_dict.
  change (render (ECall "AttributeMap" [EDict (map (fun kv => (EStr (fst kv), EStr (snd kv))) a)])) with
    ("AttributeMap" ++ "(" ++ (render (EDict (map (fun kv => (EStr (fst kv), EStr (snd kv))) a)) ++ "") ++ ")").
  unfold make_repr. cbn [format_helper]. rewrite !app_assoc_s. cbn [render]. rewrite !map_map. cbn [fst snd render].
  now rewrite !app_assoc_s.
Qed.

Lemma wf_map a : wf (ast_map a).
Proof. cbn. split; [word|]. split; [|exact I]. apply fold_wf2. apply Forall_map, Forall_forall. now cbn. Qed.

Lemma writes_attrs a r es : writes r es -> writes (Txt (attrs_repr quote a) :: r) (ast_attrs a ++ es).
Proof.
  intros H. destruct a as [|kv a]; [now apply w_empty|]. cbn [attrs_repr ast_attrs app]. rewrite map_text.
  apply w_txt; [apply wf_map|exact H].
Qed.

Lemma wf_attrs a : Forall wf (ast_attrs a).
Proof. destruct a; constructor; [apply wf_map|constructor]. Qed.

(** Points, with an expression for each coordinate. *)
Definition ast_point2 (name : string) (tok : N -> expr) (p : pt N) : expr :=
  ECall name (ENum (print_Z (pt_id p)) :: tok (pt_x p) :: tok (pt_y p) :: ast_attrs (pt_attrs p) ++ [])%list.
Definition ast_point3 (name : string) (tok : N -> expr) (p : pt N) : expr :=
  ECall name (ENum (print_Z (pt_id p)) :: tok (pt_x p) :: tok (pt_y p) :: tok (pt_z p) :: ast_attrs (pt_attrs p) ++ [])%list.

Lemma point2_text name tok p : (forall x, render (tok x) = show x) ->
  point2d_repr show quote name p = render (ast_point2 name tok p).
Proof.
  intros T. unfold point2d_repr, ast_point2. apply (make_call name (ENum _)).
  rewrite <- !T. apply w_num, w_num. now apply writes_attrs, w_nil.
Qed.
Lemma point3_text name tok p : (forall x, render (tok x) = show x) ->
  point3d_repr show quote name p = render (ast_point3 name tok p).
Proof.
  intros T. unfold point3d_repr, ast_point3. apply (make_call name (ENum _)).
  rewrite <- !T. apply w_num, w_num, w_num. now apply writes_attrs, w_nil.
Qed.

Definition plain (x : N) : expr := ENum (show x).

Lemma wf_point2 name p : word name -> fine_pt finite p -> wf (ast_point2 name plain p).
Proof.
  intros Wn (X & Y & Z & _). cbn. split; [exact Wn|]. rewrite app_nil_r.
  split; [apply token_id|]. split; [now apply token_show|]. split; [now apply token_show|]. apply fold_wf, wf_attrs.
Qed.
Lemma wf_point3 name p : word name -> fine_pt finite p -> wf (ast_point3 name plain p).
Proof.
  intros Wn (X & Y & Z & _). cbn. split; [exact Wn|]. rewrite app_nil_r.
  split; [apply token_id|]. do 3 (split; [now apply token_show|]). apply fold_wf, wf_attrs.
Qed.

Definition ast_seq (name : string) (point : pt N -> expr) (l : ln N) : expr :=
  ECall name (ENum (print_Z (ln_id l)) :: EList (map point (ln_pts l)) :: ast_attrs (ln_attrs l) ++ [])%list.

Lemma list_text {T} (tx : T -> string) (ast : T -> expr) l : (forall x, In x l -> tx x = render (ast x)) ->
  py_list (map tx l) = render (EList (map ast l)).
Proof. intros H. unfold py_list. cbn [render]. rewrite map_map. now rewrite (map_ext_in _ _ _ H). Qed.

Lemma wf_list {T} (ast : T -> expr) l : Forall (fun x => wf (ast x)) l -> wf (EList (map ast l)).
Proof. intros H. cbn. apply fold_wf. now apply Forall_map. Qed.

Lemma seq_text name (tx : pt N -> string) ast l : (forall p, tx p = render (ast p)) -> Forall (fun p => wf (ast p)) (ln_pts l) ->
  sequence_repr quote name tx l = render (ast_seq name ast l).
Proof.
  intros T W. unfold sequence_repr, ast_seq. apply (make_call name (ENum _)).
  rewrite (list_text tx ast) by auto. apply w_txt; [now apply wf_list|]. now apply writes_attrs, w_nil.
Qed.

Lemma wf_seq name ast l : word name -> Forall (fun p => wf (ast p)) (ln_pts l) -> wf (ast_seq name ast l).
Proof.
  intros Wn W. cbn. split; [exact Wn|]. rewrite app_nil_r. split; [apply token_id|]. split; [now apply fold_wf, Forall_map|].
  apply fold_wf, wf_attrs.
Qed.

Definition ast_line := ast_seq "LineString3d" (ast_point3 "Point3d" plain).
Definition ast_polygon := ast_seq "Polygon3d" (ast_point3 "Point3d" plain).
Definition ast_const_line := ast_seq "ConstLineString3d" (ast_point3 "ConstPoint3d" plain).
Definition ast_line2 := ast_seq "LineString2d" (ast_point2 "Point2d" plain).
Definition ast_polygon2 := ast_seq "Polygon2d" (ast_point2 "Point2d" plain).

Lemma plain_text x : render (plain x) = show x. Proof. reflexivity. Qed.

Lemma wf_points name l : word name -> fine_ln finite l -> Forall (fun p => wf (ast_point3 name plain p)) (ln_pts l).
Proof. intros Wn [F _]. eapply Forall_impl; [|exact F]. intros p Hp. now apply wf_point3. Qed.
Lemma wf_points2 name l : word name -> fine_ln finite l -> Forall (fun p => wf (ast_point2 name plain p)) (ln_pts l).
Proof. intros Wn [F _]. eapply Forall_impl; [|exact F]. intros p Hp. now apply wf_point2. Qed.

Lemma line_text l : fine_ln finite l -> line3d_repr show quote l = render (ast_line l).
Proof. intros F. apply seq_text; [intros p; now apply point3_text|apply wf_points; [word|exact F]]. Qed.
Lemma polygon_text l : fine_ln finite l -> polygon3d_repr show quote l = render (ast_polygon l).
Proof. intros F. apply seq_text; [intros p; now apply point3_text|apply wf_points; [word|exact F]]. Qed.
Lemma const_line_text l : fine_ln finite l -> const_line3d_repr show quote l = render (ast_const_line l).
Proof. intros F. apply seq_text; [intros p; now apply point3_text|apply wf_points; [word|exact F]]. Qed.
Lemma line2_text l : fine_ln finite l -> line2d_repr show quote l = render (ast_line2 l).
Proof. intros F. apply seq_text; [intros p; now apply point2_text|apply wf_points2; [word|exact F]]. Qed.
Lemma polygon2_text l : fine_ln finite l -> polygon2d_repr show quote l = render (ast_polygon2 l).
Proof. intros F. apply seq_text; [intros p; now apply point2_text|apply wf_points2; [word|exact F]]. Qed.

Lemma wf_line l : fine_ln finite l -> wf (ast_line l).
Proof. intros F. apply wf_seq; [word|apply wf_points; [word|exact F]]. Qed.
Lemma wf_polygon l : fine_ln finite l -> wf (ast_polygon l).
Proof. intros F. apply wf_seq; [word|apply wf_points; [word|exact F]]. Qed.
Lemma wf_const_line l : fine_ln finite l -> wf (ast_const_line l).
Proof. intros F. apply wf_seq; [word|apply wf_points; [word|exact F]]. Qed.

(** Lanelets and areas, with what stands for the regulatory elements. *)
Definition ast_lane (l : lane N) (regs : list expr) : expr :=
  ECall "Lanelet" (ENum (print_Z (la_id l)) :: ast_line (la_left l) :: ast_line (la_right l) :: ast_attrs (la_attrs l) ++ regs)%list.
Definition ast_area (a : area N) (regs : list expr) : expr :=
  ECall "Area" (ENum (print_Z (ar_id a)) :: EList (map ast_line (ar_outer a)) ::
    EList (map (fun l => EList (map ast_line l)) (ar_inner a)) :: ast_attrs (ar_attrs a) ++ regs)%list.

Lemma lane_text l t es : fine_lane finite l -> writes (match t with Some s => [Txt s] | None => [] end) es ->
  make_lanelet_repr show quote l t = render (ast_lane l es).
Proof.
  intros (L & R & _) H. unfold make_lanelet_repr, ast_lane. apply (make_call "Lanelet" (ENum _)). cbn [app].
  rewrite !line_text by auto. apply w_txt; [now apply wf_line|]. apply w_txt; [now apply wf_line|]. now apply writes_attrs.
Qed.

Lemma wf_lane l es : fine_lane finite l -> Forall wf es -> wf (ast_lane l es).
Proof.
  intros (L & R & _) H. cbn. split; [word|]. split; [apply token_id|].
  split; [apply (wf_line _ L)|]. split; [apply (wf_line _ R)|]. apply fold_wf, Forall_app. split; [apply wf_attrs|exact H].
Qed.

Lemma wf_lines l : Forall (fine_ln finite) l -> wf (EList (map ast_line l)).
Proof. intros F. apply wf_list. eapply Forall_impl; [|exact F]. intros x. apply wf_line. Qed.
Lemma wf_holes l : Forall (Forall (fine_ln finite)) l -> wf (EList (map (fun l => EList (map ast_line l)) l)).
Proof. intros F. apply wf_list. eapply Forall_impl; [|exact F]. intros x. apply wf_lines. Qed.

Lemma lines_text l : Forall (fine_ln finite) l -> py_list (map (line3d_repr show quote) l) = render (EList (map ast_line l)).
Proof. intros F. rewrite Forall_forall in F. apply list_text. intros x Hx. now apply line_text, F. Qed.

Lemma area_text a t es : fine_area finite a -> writes (match t with Some s => [Txt s] | None => [] end) es ->
  make_area_repr show quote a t = render (ast_area a es).
Proof.
  intros (O & I' & _) H. unfold make_area_repr, ast_area. apply (make_call "Area" (ENum _)). cbn [app].
  rewrite lines_text by auto. apply w_txt; [now apply wf_lines|].
  rewrite (list_text _ (fun l => EList (map ast_line l))).
  - apply w_txt; [now apply wf_holes|]. now apply writes_attrs.
  - intros x Hx. rewrite Forall_forall in I'. now apply lines_text, I'.
Qed.

Lemma wf_area a es : fine_area finite a -> Forall wf es -> wf (ast_area a es).
Proof.
  intros (O & I' & _) H. cbn [ast_area wf fold_right]. split; [word|]. split; [apply token_id|].
  split; [now apply wf_lines|]. split; [now apply wf_holes|]. apply fold_wf, Forall_app. split; [apply wf_attrs|exact H].
Qed.

(** Regulatory elements *)
Definition ast_param (p : param N) : expr :=
  match p with
  | PPoint p => ast_point3 "Point3d" plain p
  | PLine l => ast_line l
  | PPolygon l => ast_polygon l
  | PLanelet l => ast_lane l []
  | PArea a => ast_area a []
  | PNone => EName "None"
  end.

Lemma param_text p : fine_param finite p -> param_repr show quote p = render (ast_param p) /\ wf (ast_param p).
Proof.
  destruct p as [p|l|l|l|a|]; intros F; cbn [param_repr ast_param fine_param] in *.
  - split; [now apply point3_text|apply wf_point3; [word|exact F]].
  - split; [now apply line_text|now apply wf_line].
  - split; [now apply polygon_text|now apply wf_polygon].
  - split; [apply (lane_text l None []); [exact F|constructor]|apply wf_lane; [exact F|constructor]].
  - split; [apply (area_text a None []); [exact F|constructor]|apply wf_area; [exact F|constructor]].
  - split; [reflexivity|]. cbn. word.
Qed.

Definition ast_params (l : list (string * list (param N))) : expr :=
  EDict (map (fun kv => (EStr (fst kv), EList (map ast_param (snd kv)))) l).
Definition ast_reg (r : reg N) : expr :=
  ECall (kind_name (rg_kind r)) (ENum (print_Z (rg_id r)) :: ast_params (rg_params r) :: ast_attrs (rg_attrs r) ++ [])%list.

Lemma params_text l : Forall (fun kv => Forall (fine_param finite) (snd kv)) l ->
  params_repr show quote l = render (ast_params l) /\ wf (ast_params l).
Proof.
  intros F. rewrite Forall_forall in F. split.
  - unfold params_repr, py_dict, ast_params. cbn [render]. rewrite !map_map. cbn [fst snd]. do 2 f_equal. f_equal.
    apply map_ext_in. intros [k v] H. cbn [fst snd]. do 2 f_equal. apply list_text. intros x Hx.
    specialize (F _ H). cbn in F. rewrite Forall_forall in F. now apply param_text, F.
  - cbn. apply fold_wf2, Forall_map, Forall_forall. intros [k v] H. cbn [fst snd]. split; [exact I|].
    apply wf_list. specialize (F _ H). cbn in F. eapply Forall_impl; [|exact F]. intros x Hx. now apply param_text.
Qed.

Lemma word_kind k : word (kind_name k).
Proof. destruct k; word. Qed.

Lemma reg_text r : fine_reg finite r -> reg_repr show quote r = render (ast_reg r) /\ wf (ast_reg r).
Proof.
  intros (_ & P & _). destruct (params_text _ P) as [T W]. split.
  - unfold reg_repr, ast_reg. apply (make_call _ (ENum _)). rewrite T. apply w_txt; [exact W|]. now apply writes_attrs, w_nil.
  - cbn [ast_reg wf fold_right]. split; [apply word_kind|]. split; [apply token_id|]. split; [exact W|].
    rewrite app_nil_r. apply fold_wf, wf_attrs.
Qed.

Definition ast_regs (l : list (reg N)) : list expr := match l with [] => [] | _ => [EList (map ast_reg l)] end.
Lemma writes_regs l : Forall (fine_reg finite) l -> writes [Txt (regs_repr show quote l)] (ast_regs l).
Proof.
  intros F. destruct l as [|r l]; [apply w_empty, w_nil|]. cbn [regs_repr ast_regs]. rewrite Forall_forall in F.
  rewrite (list_text _ ast_reg) by (intros x Hx; now apply reg_text, F). apply w_txt, w_nil.
  apply wf_list, Forall_forall. intros x Hx. now apply reg_text, F.
Qed.
Lemma wf_regs l : Forall (fine_reg finite) l -> Forall wf (ast_regs l).
Proof.
  intros F. destruct l as [|r l]; constructor; [|constructor]. apply wf_list. eapply Forall_impl; [|exact F].
  intros x Hx. now apply reg_text.
Qed.

(** * Evaluation *)
Notation ev := (eval num zero).

Lemma all_map {A B} (f : A -> option B) (g : A -> B) l : Forall (fun x => f x = Some (g x)) l -> all (map f l) = Some (map g l).
Proof. induction 1 as [|x l H _ IH]; [reflexivity|]. cbn. now rewrite H, IH. Qed.

Lemma all_in_none {A} (l : list (option A)) : In None l -> all l = None.
Proof. induction l as [|[x|] l IH]; cbn; intros H; [easy| |reflexivity]. destruct H as [H|H]; [discriminate|]. now rewrite IH. Qed.

Lemma all_app {A} (l m : list (option A)) :
  all (l ++ m)%list = match all l, all m with Some a, Some b => Some (a ++ b)%list | _, _ => None end.
Proof.
  induction l as [|[x|] l IH]; cbn; [now destruct (all m)| |reflexivity]. rewrite IH. destruct (all l), (all m); reflexivity.
Qed.

Lemma put_new k v a : ~ In k (map fst a) -> put k v a = (a ++ [(k, v)])%list.
Proof.
  induction a as [|[k' v'] a IH]; [reflexivity|]. cbn. intros H. destruct (String.eqb_spec k k') as [->|Hn]; [tauto|].
  f_equal. apply IH. tauto.
Qed.

Lemma from_items_once a : forall acc, NoDup (map fst (acc ++ a)%list) ->
  from_items (N := N) acc (map (fun kv => (VStr (fst kv), VStr (snd kv))) a) = Some (acc ++ a)%list.
Proof.
  induction a as [|[k v] a IH]; intros acc H; cbn [map from_items]; [now rewrite app_nil_r|].
  cbn [fst snd as_str bind]. rewrite put_new.
  - replace (acc ++ (k, v) :: a)%list with ((acc ++ [(k, v)]) ++ a)%list in * by now rewrite <- app_assoc. now apply IH.
  - rewrite map_app in H. cbn in H. apply NoDup_remove_2 in H. rewrite in_app_iff in H. tauto.
Qed.

Definition val_attrs (a : attrs) : list (val N) := match a with [] => [] | _ => [VAttrs a] end.

Lemma ev_map a : keys_once a -> ev (ast_map a) = Some (VAttrs a).
Proof.
  intros K. unfold ast_map. cbn [eval map]. rewrite map_map.
  rewrite (all_map _ (fun kv => (VStr (fst kv), VStr (snd kv)))) by (apply Forall_forall; reflexivity).
  cbn [option_map all bind]. unfold call. change (String.eqb "AttributeMap" "AttributeMap") with true. cbn iota.
  now rewrite (from_items_once a []).
Qed.

Lemma ev_attrs a : keys_once a -> all (map ev (ast_attrs a)) = Some (val_attrs a).
Proof. intros K. destruct a as [|kv a]; [reflexivity|]. cbn [ast_attrs map all]. now rewrite ev_map. Qed.

(** Whether or not the map can be built, nothing but an attribute map stands there. *)
Lemma ev_map_any l : ev (ECall "AttributeMap" [EDict l]) = None \/ exists b, ev (ECall "AttributeMap" [EDict l]) = Some (VAttrs b).
Proof.
  cbn [eval map]. destruct (all (map _ l)) as [d|]; [|now left]. cbn [option_map all bind]. unfold call.
  change (String.eqb "AttributeMap" "AttributeMap") with true. cbn iota.
  destruct (from_items [] d) as [b|]; [right; now exists b|now left].
Qed.

Lemma ev_attrs_any a : all (map ev (ast_attrs a)) = None \/ exists b, all (map ev (ast_attrs a)) = Some (match a with [] => [] | _ => [VAttrs b] end).
Proof.
  destruct a as [|kv a]; [right; now exists []|]. cbn [ast_attrs]. unfold ast_map.
  match goal with |- context [EDict ?l] => destruct (ev_map_any l) as [E|[b E]] end; cbn [map all] in *; rewrite E; [now left|right; now exists b].
Qed.

Lemma opt_attrs a : optional as_attrs [] (val_attrs a) = Some (a, []).
Proof. destruct a; reflexivity. Qed.

Lemma num_id z : as_id (N := N) (VNum (print_Z z)) = Some z.
Proof. apply number_print. Qed.
Lemma num_show x : finite x -> as_num num (VNum (show x)) = Some (back x).
Proof. apply (show_num _ _ _ _ _ _ C). Qed.

Lemma ev_call f l vs : all (map ev l) = Some vs -> ev (ECall f l) = call num zero f vs.
Proof. intros H. cbn [eval]. now rewrite H. Qed.

Lemma ev_call_none f l : all (map ev l) = None -> ev (ECall f l) = None.
Proof. intros H. cbn [eval]. now rewrite H. Qed.

Lemma call_point3 p : fine_pt finite p ->
  call_point num zero (VNum (print_Z (pt_id p)) :: VNum (show (pt_x p)) :: VNum (show (pt_y p)) :: VNum (show (pt_z p)) :: val_attrs (pt_attrs p))
  = Some (back_pt back p).
Proof.
  intros (X & Y & Z & _). unfold call_point. cbn [needed bind]. rewrite num_id. cbn [bind snd fst needed].
  rewrite num_show by auto. cbn [bind snd fst needed]. rewrite num_show by auto. cbn [bind snd fst optional].
  rewrite num_show by auto. cbn [bind snd fst]. rewrite opt_attrs. reflexivity.
Qed.

Lemma point_args p i : keys_once (pt_attrs p) ->
  all (map ev (ENum i :: ENum (show (pt_x p)) :: ENum (show (pt_y p)) :: ENum (show (pt_z p)) :: ast_attrs (pt_attrs p) ++ [])%list) =
  Some (VNum i :: VNum (show (pt_x p)) :: VNum (show (pt_y p)) :: VNum (show (pt_z p)) :: val_attrs (pt_attrs p)).
Proof. intros K. rewrite app_nil_r. cbn [map all]. rewrite ev_attrs by auto. reflexivity. Qed.

Lemma ev_point3 p : fine_pt finite p -> ev (ast_point3 "Point3d" plain p) = Some (VPoint (back_pt back p)).
Proof.
  intros F. unfold ast_point3, plain. erewrite ev_call by (apply point_args, F). unfold call.
  change (String.eqb "Point3d" "AttributeMap") with false. change (String.eqb "Point3d" "Point2d") with false.
  change (String.eqb "Point3d" "Point3d") with true. cbn iota. now rewrite call_point3.
Qed.

Lemma as_points_ok l : as_points (N := N) (VList (map VPoint l)) = Some l.
Proof.
  unfold as_points. cbn [as_items bind]. rewrite map_map. rewrite (all_map _ id); [now rewrite map_id|].
  apply Forall_forall. reflexivity.
Qed.

Lemma call_seq i (pts : list (pt N)) a : call_sequence (VNum (print_Z i) :: VList (map VPoint pts) :: val_attrs a) = Some (Ln i pts a).
Proof.
  unfold call_sequence. cbn [needed bind]. rewrite num_id. cbn [bind snd fst needed]. rewrite as_points_ok.
  cbn [bind snd fst]. now rewrite opt_attrs.
Qed.

Lemma seq_args i (es : list expr) (vs : list (val N)) a : keys_once a -> all (map ev es) = Some vs ->
  all (map ev (ENum (print_Z i) :: EList es :: ast_attrs a ++ [])%list) = Some (VNum (print_Z i) :: VList vs :: val_attrs a).
Proof. intros K E. rewrite app_nil_r. cbn [map all eval]. rewrite E. cbn [option_map]. now rewrite ev_attrs. Qed.

Lemma ev_points l : fine_ln finite l ->
  all (map ev (map (ast_point3 "Point3d" plain) (ln_pts l))) = Some (map VPoint (map (back_pt back) (ln_pts l))).
Proof.
  intros [F _]. rewrite !map_map. apply all_map. eapply Forall_impl; [|exact F]. intros p Hp. now apply ev_point3.
Qed.

Lemma ev_line l : fine_ln finite l -> ev (ast_line l) = Some (VLine (back_ln back l)).
Proof.
  intros F. unfold ast_line, ast_seq. erewrite ev_call by (apply seq_args; [apply F|now apply ev_points]).
  match goal with |- call _ _ ?n ?a = _ => change (call num zero n a) with (option_map VLine (call_sequence a)) end.
  now rewrite call_seq.
Qed.
Lemma ev_polygon l : fine_ln finite l -> ev (ast_polygon l) = Some (VPolygon (back_ln back l)).
Proof.
  intros F. unfold ast_polygon, ast_seq. erewrite ev_call by (apply seq_args; [apply F|now apply ev_points]).
  match goal with |- call _ _ ?n ?a = _ => change (call num zero n a) with (option_map VPolygon (call_sequence a)) end.
  now rewrite call_seq.
Qed.

Lemma ev_lines l : Forall (fine_ln finite) l -> ev (EList (map ast_line l)) = Some (VList (map VLine (map (back_ln back) l))).
Proof.
  intros F. cbn [eval]. rewrite !map_map. rewrite (all_map _ (fun x => VLine (back_ln back x))); [reflexivity|].
  eapply Forall_impl; [|exact F]. intros x Hx. now apply ev_line.
Qed.

Lemma as_lines_ok l : as_lines (N := N) (VList (map VLine l)) = Some l.
Proof.
  unfold as_lines. cbn [as_items bind]. rewrite map_map. rewrite (all_map _ id); [now rewrite map_id|].
  apply Forall_forall. reflexivity.
Qed.

Lemma ev_lane l : fine_lane finite l -> ev (ast_lane l []) = Some (VLanelet (back_lane back l) []).
Proof.
  intros (L & R & K). unfold ast_lane. rewrite app_nil_r.
  assert (E : all (map ev (ENum (print_Z (la_id l)) :: ast_line (la_left l) :: ast_line (la_right l) :: ast_attrs (la_attrs l))) =
    Some (VNum (print_Z (la_id l)) :: VLine (back_ln back (la_left l)) :: VLine (back_ln back (la_right l)) :: val_attrs (la_attrs l))).
  { cbn [map all]. rewrite !ev_line by auto. cbn [eval]. now rewrite ev_attrs. }
  rewrite (ev_call _ _ _ E).
  match goal with |- call _ _ ?n ?a = _ => change (call num zero n a) with (option_map (fun x => VLanelet (fst x) (snd x)) (call_lanelet a)) end.
  unfold call_lanelet. cbn [needed bind]. rewrite num_id. cbn [bind snd fst needed as_line]. now rewrite opt_attrs.
Qed.

Lemma ev_holes l : Forall (Forall (fine_ln finite)) l ->
  ev (EList (map (fun x => EList (map ast_line x)) l)) = Some (VList (map (fun x => VList (map VLine x)) (map (map (back_ln back)) l))).
Proof.
  intros F. cbn [eval]. rewrite !map_map. rewrite (all_map _ (fun x => VList (map VLine (map (back_ln back) x)))); [reflexivity|].
  eapply Forall_impl; [|exact F]. intros x Hx. now apply ev_lines.
Qed.

Lemma as_holes_ok l : as_holes (N := N) (VList (map (fun x => VList (map VLine x)) l)) = Some l.
Proof.
  unfold as_holes. cbn [as_items bind]. rewrite map_map. rewrite (all_map _ id); [now rewrite map_id|].
  apply Forall_forall. intros x _. apply as_lines_ok.
Qed.

Lemma ev_area a : fine_area finite a -> ev (ast_area a []) = Some (VArea (back_area back a) []).
Proof.
  intros (O & H & K). unfold ast_area. rewrite app_nil_r.
  assert (E : all (map ev (ENum (print_Z (ar_id a)) :: EList (map ast_line (ar_outer a)) ::
      EList (map (fun l => EList (map ast_line l)) (ar_inner a)) :: ast_attrs (ar_attrs a))) =
    Some (VNum (print_Z (ar_id a)) :: VList (map VLine (map (back_ln back) (ar_outer a))) ::
      VList (map (fun x => VList (map VLine x)) (map (map (back_ln back)) (ar_inner a))) :: val_attrs (ar_attrs a))).
  { change (all (map ev (ENum (print_Z (ar_id a)) :: EList (map ast_line (ar_outer a)) ::
      EList (map (fun l => EList (map ast_line l)) (ar_inner a)) :: ast_attrs (ar_attrs a)))) with
     (all (Some (VNum (print_Z (ar_id a))) :: ev (EList (map ast_line (ar_outer a))) ::
        ev (EList (map (fun l => EList (map ast_line l)) (ar_inner a))) :: map ev (ast_attrs (ar_attrs a)))).
    rewrite ev_lines, ev_holes by auto. cbn [all]. now rewrite ev_attrs. }
  rewrite (ev_call _ _ _ E).
  match goal with |- call _ _ ?n ?a = _ => change (call num zero n a) with (option_map (fun x => VArea (fst x) (snd x)) (call_area a)) end.
  unfold call_area. cbn [needed bind]. rewrite num_id. cbn [bind snd fst needed]. rewrite as_lines_ok.
  cbn [bind snd fst optional]. rewrite as_holes_ok. cbn [bind snd fst]. now rewrite opt_attrs.
Qed.

(** ** What raises *)
Lemma ev_reg r : ev (ast_reg r) = None.
Proof.
  unfold ast_reg. rewrite app_nil_r.
  destruct (ev_attrs_any (rg_attrs r)) as [E|[b E]].
  { apply ev_call_none. cbn [map all]. rewrite E. cbn [eval]. now destruct (ev (ast_params (rg_params r))). }
  destruct (ev (ast_params (rg_params r))) as [v|] eqn:P.
  2: { apply ev_call_none. cbn [map all]. rewrite P. reflexivity. }
  erewrite ev_call by (cbn [map all]; rewrite E, P; cbn [eval]; reflexivity).
  destruct (rg_kind r); cbn [kind_name]; try reflexivity.
  - match goal with |- call _ _ ?n ?a = _ => change (call num zero n a) with (call_light a) end.
    unfold call_light. cbn [needed bind]. rewrite num_id. cbn [bind snd fst needed].
    destruct (as_attrs v); [|reflexivity]. cbn [bind snd fst]. now destruct (rg_attrs r).
  - match goal with |- call _ _ ?n ?a = _ => change (call num zero n a) with (call_yield a) end.
    unfold call_yield. cbn [needed bind]. rewrite num_id. cbn [bind snd fst needed].
    destruct (as_attrs v); [|reflexivity]. cbn [bind snd fst]. now destruct (rg_attrs r).
Qed.

Lemma ev_regs l : l <> [] -> forall pre, all (map ev (pre ++ ast_regs l)%list) = None.
Proof.
  intros H pre. apply all_in_none. destruct l as [|r l]; [easy|]. cbn [ast_regs]. rewrite map_app, in_app_iff. right.
  left. cbn [eval map all]. now rewrite ev_reg.
Qed.

Lemma ev_lane_regs l regs : regs <> [] -> ev (ast_lane l (ast_regs regs)) = None.
Proof.
  intros H. apply ev_call_none.
  apply (ev_regs regs H (ENum (print_Z (la_id l)) :: ast_line (la_left l) :: ast_line (la_right l) :: ast_attrs (la_attrs l))).
Qed.
Lemma ev_area_regs a regs : regs <> [] -> ev (ast_area a (ast_regs regs)) = None.
Proof.
  intros H. apply ev_call_none.
  apply (ev_regs regs H (ENum (print_Z (ar_id a)) :: EList (map ast_line (ar_outer a)) ::
    EList (map (fun l => EList (map ast_line l)) (ar_inner a)) :: ast_attrs (ar_attrs a))).
Qed.

Lemma ev_const_point p : ev (ast_point3 "ConstPoint3d" plain p) = None.
Proof. unfold ast_point3. cbn [eval]. destruct (all _); reflexivity. Qed.

Lemma ev_const_line l : ev (ast_const_line l) = None \/ exists v, ev (ast_const_line l) = Some (VConstLine v).
Proof.
  unfold ast_const_line, ast_seq. cbn [eval]. destruct (all _) as [vs|]; [|now left]. cbn [bind].
  change (call num zero "ConstLineString3d" vs) with (option_map VConstLine (call_sequence vs)).
  destruct (call_sequence vs) as [v|]; [right; now exists v|now left].
Qed.

Definition ast_const_lane (l : lane N) (regs : list expr) : expr :=
  ECall "ConstLanelet" (ENum (print_Z (la_id l)) :: ast_const_line (la_left l) :: ast_const_line (la_right l) :: ast_attrs (la_attrs l) ++ regs)%list.

Lemma const_lane_text l regs : fine_lane finite l -> Forall (fine_reg finite) regs ->
  const_lanelet_repr show quote l regs = render (ast_const_lane l (ast_regs regs)) /\ wf (ast_const_lane l (ast_regs regs)).
Proof.
  intros (L & R & _) G. split.
  - unfold const_lanelet_repr, ast_const_lane. apply (make_call "ConstLanelet" (ENum _)).
    rewrite !const_line_text by auto. apply w_txt; [now apply wf_const_line|]. apply w_txt; [now apply wf_const_line|].
    now apply writes_attrs, writes_regs.
  - cbn [ast_const_lane wf fold_right]. split; [word|]. split; [apply token_id|].
    split; [now apply wf_const_line|]. split; [now apply wf_const_line|]. apply fold_wf, Forall_app.
    split; [apply wf_attrs|now apply wf_regs].
Qed.

Lemma ev_const_lane l regs : ev (ast_const_lane l regs) = None.
Proof.
  unfold ast_const_lane. destruct (ev_const_line (la_left l)) as [E|[v E]].
  { apply ev_call_none. apply all_in_none. cbn [map]. rewrite E. right. now left. }
  destruct (all (map ev (ENum (print_Z (la_id l)) :: ast_const_line (la_left l) :: ast_const_line (la_right l) :: ast_attrs (la_attrs l) ++ regs)%list)) as [vs|] eqn:A;
    [|now apply ev_call_none].
  rewrite (ev_call _ _ _ A). cbn [map all] in A. rewrite E in A. cbn [eval] in A.
  destruct (ev (ast_const_line (la_right l))); [|discriminate]. destruct (all _) as [t|]; [|discriminate].
  injection A as <-.
  match goal with |- call _ _ ?n ?a = _ => change (call num zero n a) with (option_map (fun x => VConstLanelet (fst x) (snd x)) (call_lanelet a)) end.
  unfold call_lanelet. cbn [needed bind]. now rewrite num_id.
Qed.

Lemma ev_point2_plain p : fine_pt finite p -> pt_attrs p = [] ->
  ev (ast_point2 "Point2d" plain p) = Some (VPoint2 (Pt (pt_id p) (back (pt_x p)) (back (pt_y p)) zero [])).
Proof.
  intros (X & Y & _) E. unfold ast_point2, plain. rewrite E. cbn [ast_attrs app eval map all bind].
  match goal with |- call _ _ ?n ?a = _ => change (call num zero n a) with (option_map VPoint2 (call_point num zero a)) end.
  unfold call_point. cbn [needed bind]. rewrite num_id. cbn [bind snd fst needed].
  rewrite num_show by auto. cbn [bind snd fst needed]. now rewrite num_show.
Qed.

Lemma ev_point2_attrs p : pt_attrs p <> [] -> ev (ast_point2 "Point2d" plain p) = None.
Proof.
  intros H. unfold ast_point2, plain. rewrite app_nil_r.
  destruct (ev_attrs_any (pt_attrs p)) as [E|[b E]].
  { apply ev_call_none. cbn [map all eval]. now rewrite E. }
  erewrite ev_call by (cbn [map all eval]; rewrite E; reflexivity).
  match goal with |- call _ _ ?n ?a = _ => change (call num zero n a) with (option_map VPoint2 (call_point num zero a)) end.
  destruct (pt_attrs p); [easy|]. unfold call_point. cbn [needed bind]. rewrite num_id. cbn [bind snd fst needed].
  destruct (as_num num (VNum (show (pt_x p)))); [|reflexivity]. cbn [bind snd fst needed].
  destruct (as_num num (VNum (show (pt_y p)))); reflexivity.
Qed.

Lemma ev_point2_any p : ev (ast_point2 "Point2d" plain p) = None \/ exists q, ev (ast_point2 "Point2d" plain p) = Some (VPoint2 q).
Proof.
  unfold ast_point2. cbn [eval]. destruct (all _) as [vs|]; [|now left]. cbn [bind].
  change (call num zero "Point2d" vs) with (option_map VPoint2 (call_point num zero vs)).
  destruct (call_point num zero vs) as [v|]; [right; now exists v|now left].
Qed.

(** A list that begins with a 2D point is no list of 3D points. *)
Lemma seq2_raises i p r a f : (f = "LineString2d" \/ f = "Polygon2d") ->
  ev (ECall f (ENum (print_Z i) :: EList (ast_point2 "Point2d" plain p :: r) :: ast_attrs a ++ [])%list) = None.
Proof.
  intros Hf. rewrite app_nil_r. destruct (ev_point2_any p) as [E|[q E]].
  { apply ev_call_none. apply all_in_none. cbn [map]. right. left. cbn [eval map all]. now rewrite E. }
  destruct (all (map ev r)) as [vs|] eqn:R.
  2: { apply ev_call_none. apply all_in_none. cbn [map]. right. left. cbn [eval map all]. now rewrite E, R. }
  destruct (ev_attrs_any a) as [A|[b A]].
  { apply ev_call_none. cbn [map all eval]. rewrite E, R, A. reflexivity. }
  erewrite ev_call by (cbn [map all eval]; rewrite E, R, A; reflexivity).
  assert (K : forall rest, call_sequence (N := N) (VNum (print_Z i) :: VList (VPoint2 q :: vs) :: rest) = None).
  { intros rest. unfold call_sequence. cbn [needed bind]. rewrite num_id. reflexivity. }
  destruct Hf as [->| ->].
  - match goal with |- call _ _ ?n ?a = _ => change (call num zero n a) with (option_map VLine2 (call_sequence a)) end. now rewrite K.
  - match goal with |- call _ _ ?n ?a = _ => change (call num zero n a) with (option_map VPolygon2 (call_sequence a)) end. now rewrite K.
Qed.

(** A coordinate that is no number *)
Lemma ev_point3_word p tok n : tok (pt_x p) = EName n -> n <> "None" -> ev (ast_point3 "Point3d" tok p) = None.
Proof.
  intros E H. apply ev_call_none, all_in_none. cbn [map]. right. left. rewrite E. cbn [eval].
  destruct (String.eqb_spec n "None"); [easy|reflexivity].
Qed.

Lemma evaluates e : wf e -> evaluate unquote num zero (render e) = match ev e with Some v => Value v | None => Raises end.
Proof. intros W. unfold evaluate. now rewrite read_render. Qed.
End Text.
