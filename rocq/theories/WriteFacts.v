(** Writing through a shared cell. *)
From Coq Require Import Lia ZifyBool ZifyNat ZifyN.
From Verif Require Import Str Regex Types Ast State Nom Keys Grammar Api Facts Spec RoundTrip.
From Verif Require Import ParseFacts WalkFacts DocFacts IdFacts.

(** ** What a write does to a tree *)
Lemma upd_c_eq : forall id nv c, upd_c id nv c = Cell c.(c_id) (if c.(c_id) =? id then nv else upd_tval id nv c.(c_val)).
Proof. intros. unfold upd_c, upd_cell. destruct (c_id c =? id); auto. Qed.
Lemma upd_c_id : forall id nv c, c_id (upd_c id nv c) = c_id c.
Proof. intros. rewrite upd_c_eq. auto. Qed.
Lemma upd_kids : forall id nv t, kids (upd_tval id nv t) = map (upd_c id nv) (kids t).
Proof. intros id nv []; cbn [upd_tval kids]; auto; rewrite !map_map; reflexivity. Qed.
Lemma in_flat_subcells : forall cs c, In c (flat_map subcells cs) <-> exists c1, In c1 cs /\ In c (subcells c1).
Proof. intros. rewrite in_flat_map. tauto. Qed.
Lemma in_ids_flat : forall cs x, In x (ids (flat_map subcells cs)) <-> exists c1, In c1 cs /\ In x (ids (subcells c1)).
Proof.
  intros. unfold ids. rewrite in_map_iff. split.
  - intros (c & <- & I). apply in_flat_subcells in I as (c1 & I & J). exists c1. split; auto. apply in_map; auto.
  - intros (c1 & I & J). apply in_map_iff in J as (c & <- & J). exists c. split; auto. apply in_flat_subcells; eauto.
Qed.
Lemma ids_subcells : forall c, ids (subcells c) = c.(c_id) :: ids (tcells c.(c_val)).
Proof. reflexivity. Qed.

Lemma map_same : forall A (f : A -> A) l, (forall x, In x l -> f x = x) -> map f l = l.
Proof. intros. rewrite <- (map_id l) at 2. apply map_ext_in. auto. Qed.

Lemma upd_c_absent : forall id nv c, ~ In id (ids (subcells c)) -> upd_c id nv c = c.
Proof.
  intros id nv c. assert (A : forall t, ~ In id (ids (tcells t)) -> upd_tval id nv t = t).
  { intros t. induction t using tval_ind'; intros N; cbn [upd_tval]; auto; f_equal; apply map_same; intros x I;
      rewrite Forall_forall in H; specialize (H x I).
    - assert (M : ~ In id (ids (subcells (av_val x)))).
      { intros J. apply N. rewrite tcells_kids. apply in_ids_flat. exists (av_val x). split; auto.
        cbn [kids]. apply in_map; auto. }
      change (upd_cell (upd_tval id nv) id nv (av_val x)) with (upd_c id nv (av_val x)). rewrite upd_c_eq.
      rewrite ids_subcells in M. destruct (c_id (av_val x) =? id) eqn:E; [exfalso; apply M; left; lia|].
      rewrite H by (intros J; apply M; right; auto). destruct x as [[]]; reflexivity.
    - assert (M : ~ In id (ids (subcells (kv_val (tk_kv x))))).
      { intros J. apply N. rewrite tcells_kids. apply in_ids_flat. exists (kv_val (tk_kv x)). split; auto.
        cbn [kids]. apply in_map_iff; eauto. }
      change (upd_cell (upd_tval id nv) id nv (kv_val (tk_kv x))) with (upd_c id nv (kv_val (tk_kv x))). rewrite upd_c_eq.
      rewrite ids_subcells in M. destruct (c_id (kv_val (tk_kv x)) =? id) eqn:E; [exfalso; apply M; left; lia|].
      rewrite H by (intros J; apply M; right; auto). destruct x as [[? ? []]]; reflexivity. }
  intros N. rewrite upd_c_eq. rewrite ids_subcells in N. destruct (c_id c =? id) eqn:E; [exfalso; apply N; left; lia|].
  rewrite A by (intros J; apply N; right; auto). destruct c; reflexivity.
Qed.
Lemma upd_tval_absent : forall id nv t, ~ In id (ids (tcells t)) -> upd_tval id nv t = t.
Proof.
  intros id nv t N. pose (x := id + 1). assert (E : upd_c id nv (Cell x t) = Cell x t).
  { apply upd_c_absent. rewrite ids_subcells. cbn [c_id c_val]. intros [J|J]; auto. unfold x in J. lia. }
  rewrite upd_c_eq in E. cbn [c_id c_val] in E. replace (x =? id) with false in E by (unfold x; lia). inversion E. congruence.
Qed.

Lemma kv_upd_absent : forall id nv kv, ~ In id (ids (kv_cells kv)) ->
  KeyVal kv.(kv_key) kv.(kv_sep) (upd_c id nv kv.(kv_val)) = kv.
Proof. intros id nv kv N. rewrite upd_c_absent by exact N. destruct kv; auto. Qed.
Lemma upd_ne_absent : forall id nv ne, ~ In id (ids (ex_cells ne.(ne_expr))) ->
  {| ne_nl := ne.(ne_nl); ne_expr := upd_expr id nv ne.(ne_expr) |} = ne.
Proof.
  intros id nv [nl [w kv tb cm]] N. unfold upd_expr, ex_cells in *. cbn [ne_nl ne_expr e_keyval e_ws e_table e_comment] in *.
  destruct kv as [kv|]; auto. rewrite kv_upd_absent by exact N. auto.
Qed.
Lemma upd_toml_absent : forall id nv d, ~ In id (ids (toml_cells d)) -> upd_toml id nv d = d.
Proof.
  intros id nv d N. unfold upd_toml. apply map_same. intros ne I. apply upd_ne_absent. intros J. apply N.
  unfold ids in *. apply in_map_iff in J as (c & E & J). apply in_map_iff. exists c. split; auto.
  unfold toml_cells. apply in_flat_map. eauto.
Qed.

(** ** Contexts: the place of a cell in a tree *)
(** [F] puts a cell into the place; [a], [b] are the identities around it, [pre], [post] the text *)
Record place {T} (F : cell -> T) (cells : T -> list cell) (src : T -> str) (up : N -> tval -> T -> T) (ok : T -> Prop)
  (a b : list N) (pre post : str) : Prop := {
  pl_ids : forall c, ids (cells (F c)) = a ++ ids (subcells c) ++ b;
  pl_src : forall c, src (F c) = pre ++ tsrc c.(c_val) ++ post;
  pl_up : forall id nv c, ~ In id a -> ~ In id b -> up id nv (F c) = F (upd_c id nv c);
  pl_ok : forall c c', ok (F c) -> tv_printable c'.(c_val) -> ok (F c');
  pl_ok2 : forall c, ok (F c) -> tv_printable c.(c_val)
}.
Definition cell_place (F : cell -> cell) :=
  place F subcells (fun c => tsrc c.(c_val)) upd_c (fun c => tv_printable c.(c_val)).

Lemma place_self : cell_place (fun c => c) [] [] [] [].
Proof. constructor; intros; cbn [app]; rewrite ?app_nil_r; auto. Qed.

Lemma tcells_app_arr : forall l1 l2 n1 n2, tcells (TArray (l1 ++ l2) n1 n2) = tcells (TArray l1 n1 n2) ++ tcells (TArray l2 n1 n2).
Proof. intros. cbn [tcells]. apply flat_map_app. Qed.
Lemma tcells_app_inl : forall l1 l2 n1, tcells (TInlineTable (l1 ++ l2) n1) = tcells (TInlineTable l1 n1) ++ tcells (TInlineTable l2 n1).
Proof. intros. cbn [tcells]. apply flat_map_app. Qed.

Definition upd_av id nv (av : array_value) := ArrayValue (upd_c id nv av.(av_val)) av.(av_sep) av.(av_nls).
Definition upd_tk id nv (tk : table_keyval) :=
  TableKeyVal (KeyVal tk.(tk_kv).(kv_key) tk.(tk_kv).(kv_sep) (upd_c id nv tk.(tk_kv).(kv_val))) tk.(tk_sep) tk.(tk_nls).
Lemma upd_arr : forall id nv l n1 n2, upd_tval id nv (TArray l n1 n2) = TArray (map (upd_av id nv) l) n1 n2.
Proof. reflexivity. Qed.
Lemma upd_inl : forall id nv l n1, upd_tval id nv (TInlineTable l n1) = TInlineTable (map (upd_tk id nv) l) n1.
Proof. reflexivity. Qed.
Lemma upd_avs_absent : forall id nv l n1 n2, ~ In id (ids (tcells (TArray l n1 n2))) -> map (upd_av id nv) l = l.
Proof. intros id nv l n1 n2 N. apply upd_tval_absent with (nv := nv) in N. rewrite upd_arr in N. congruence. Qed.
Lemma upd_tks_absent : forall id nv l n1, ~ In id (ids (tcells (TInlineTable l n1))) -> map (upd_tk id nv) l = l.
Proof. intros id nv l n1 N. apply upd_tval_absent with (nv := nv) in N. rewrite upd_inl in N. congruence. Qed.

Lemma place_arr : forall i l1 l2 sp nls n1 n2 F a b pre post, cell_place F a b pre post ->
  cell_place (fun c => Cell i (TArray (l1 ++ ArrayValue (F c) sp nls :: l2) n1 n2))
    (i :: ids (tcells (TArray l1 n1 n2)) ++ a) (b ++ ids (tcells (TArray l2 n1 n2)))
    (lit "[" ++ show_cons n1 ++ concat (map av_src l1) ++ pre)
    (post ++ show_sep sp ++ show_cons nls ++ concat (map av_src l2) ++ show_cons n2 ++ lit "]").
Proof.
  intros i l1 l2 sp nls n1 n2 F a b pre post [I S U O O2]. constructor.
  - intros c. rewrite ids_subcells. cbn [c_id c_val]. rewrite tcells_app_arr, ids_app.
    change (tcells (TArray (ArrayValue (F c) sp nls :: l2) n1 n2)) with (subcells (F c) ++ tcells (TArray l2 n1 n2)).
    rewrite ids_app, I. cbn [app]. rewrite <- !app_assoc. auto.
  - intros c. cbn [c_val tsrc]. rewrite map_app, concat_app. cbn [map concat]. fold av_src.
    change (av_src (ArrayValue (F c) sp nls)) with (tsrc (c_val (F c)) ++ show_sep sp ++ show_cons nls). rewrite S.
    rewrite <- !app_assoc. auto.
  - intros id nv c N1 N2. rewrite upd_c_eq. cbn [c_id c_val].
    destruct (i =? id) eqn:E; [exfalso; apply N1; left; lia|]. f_equal. rewrite upd_arr, map_app. cbn [map].
    rewrite (upd_avs_absent id nv l1 n1 n2) by (intros J; apply N1; right; apply in_app_iff; auto).
    rewrite (upd_avs_absent id nv l2 n1 n2) by (intros J; apply N2; apply in_app_iff; auto).
    unfold upd_av at 1. cbn [av_val av_sep av_nls]. rewrite U; auto; intros J; [apply N1; right|apply N2]; apply in_app_iff; auto.
  - cbn [c_val]. intros c c' P Q. inversion P as [| | | | | |vals x y P1|]; subst. apply Forall_app in P1 as [A B].
    inversion B; subst. cbn [av_val] in *. constructor. apply Forall_app. split; auto. constructor; eauto.
  - cbn [c_val]. intros c P. inversion P as [| | | | | |vals x y P1|]; subst. apply Forall_app in P1 as [A B].
    inversion B; subst. cbn [av_val] in *. eauto.
Qed.
Lemma place_inl : forall i l1 l2 k ks sp nls w F a b pre post, cell_place F a b pre post ->
  cell_place (fun c => Cell i (TInlineTable (l1 ++ TableKeyVal (KeyVal k ks (F c)) sp nls :: l2) w))
    (i :: ids (tcells (TInlineTable l1 w)) ++ a) (b ++ ids (tcells (TInlineTable l2 w)))
    (lit "{" ++ w.(ws1) ++ concat (map tk_src l1) ++ k ++ ks.(ws1) ++ lit "=" ++ ks.(ws2) ++ pre)
    (post ++ show_sep sp ++ show_cons nls ++ concat (map tk_src l2) ++ w.(ws2) ++ lit "}").
Proof.
  intros i l1 l2 k ks sp nls w F a b pre post [I S U O O2]. constructor.
  - intros c. rewrite ids_subcells. cbn [c_id c_val]. rewrite tcells_app_inl, ids_app.
    change (tcells (TInlineTable (TableKeyVal (KeyVal k ks (F c)) sp nls :: l2) w))
      with (subcells (F c) ++ tcells (TInlineTable l2 w)).
    rewrite ids_app, I. cbn [app]. rewrite <- !app_assoc. auto.
  - intros c. cbn [c_val tsrc]. rewrite map_app, concat_app. cbn [map concat]. fold tk_src.
    change (tk_src (TableKeyVal (KeyVal k ks (F c)) sp nls)) with
      ((k ++ ws1 ks ++ lit "=" ++ ws2 ks ++ tsrc (c_val (F c))) ++ show_sep sp ++ show_cons nls). rewrite S.
    rewrite <- !app_assoc. auto.
  - intros id nv c N1 N2. rewrite upd_c_eq. cbn [c_id c_val].
    destruct (i =? id) eqn:E; [exfalso; apply N1; left; lia|]. f_equal. rewrite upd_inl, map_app. cbn [map].
    rewrite (upd_tks_absent id nv l1 w) by (intros J; apply N1; right; apply in_app_iff; auto).
    rewrite (upd_tks_absent id nv l2 w) by (intros J; apply N2; apply in_app_iff; auto).
    unfold upd_tk at 1. cbn [tk_kv kv_val kv_key kv_sep tk_sep tk_nls].
    rewrite U; auto; intros J; [apply N1; right|apply N2]; apply in_app_iff; auto.
  - cbn [c_val]. intros c c' P Q. inversion P as [| | | | | | |vals x NE P1]; subst. apply Forall_app in P1 as [A B].
    inversion B; subst. cbn [tk_kv kv_val] in *. constructor; [destruct l1; discriminate|].
    apply Forall_app. split; auto. constructor; auto. cbn [tk_kv kv_val]. eauto.
  - cbn [c_val]. intros c P. inversion P as [| | | | | | |vals x NE P1]; subst. apply Forall_app in P1 as [A B].
    inversion B; subst. cbn [tk_kv kv_val] in *. eauto.
Qed.

Lemma place_cell : forall c c0, In c0 (subcells c) -> exists F a b pre post, F c0 = c /\ cell_place F a b pre post.
Proof.
  intros c. assert (A : forall t i c0, In c0 (subcells (Cell i t)) ->
    exists F a b pre post, F c0 = Cell i t /\ cell_place F a b pre post).
  { induction t using tval_ind'; intros i c0 I;
      (destruct I as [<-|I]; [exists (fun c => c), [], [], [], []; split; [reflexivity|apply place_self]|]); try contradiction;
      cbn [c_val tcells] in I; apply in_flat_map in I as (x & I & J); rewrite Forall_forall in H;
      apply in_split in I as (l1 & l2 & ->).
    - destruct x as [[xi xt] sp nls]. cbn [av_val c_val] in J.
      destruct (H (ArrayValue (Cell xi xt) sp nls)) with (i := xi) (c0 := c0) as (F & a & b & pre & post & E & P); [|exact J|].
      { apply in_app_iff; right; left; reflexivity. }
      do 5 eexists. split; [|apply (place_arr i l1 l2 sp nls n1 n2 F); exact P]. cbv beta. rewrite E. reflexivity.
    - destruct x as [[k ks [xi xt]] sp nls]. cbn [tk_kv kv_val c_val] in J.
      destruct (H (TableKeyVal (KeyVal k ks (Cell xi xt)) sp nls)) with (i := xi) (c0 := c0)
        as (F & a & b & pre & post & E & P); [|exact J|].
      { apply in_app_iff; right; left; reflexivity. }
      do 5 eexists. split; [|apply (place_inl i l1 l2 k ks sp nls ws F); exact P]. cbv beta. rewrite E. reflexivity. }
  destruct c. apply A.
Qed.

Definition toml_place (F : cell -> toml) := place F toml_cells toml_src upd_toml doc_printable.

Lemma toml_cells_app : forall a b, toml_cells (a ++ b) = toml_cells a ++ toml_cells b.
Proof. intros. apply flat_map_app. Qed.
Lemma toml_src_app : forall a b, toml_src (a ++ b) = toml_src a ++ toml_src b.
Proof. intros. unfold toml_src. rewrite map_app, concat_app. auto. Qed.
Lemma upd_toml_app : forall id nv a b, upd_toml id nv (a ++ b) = upd_toml id nv a ++ upd_toml id nv b.
Proof. intros. apply map_app. Qed.

Lemma place_line : forall d1 d2 nl w k ks tb cm F a b pre post, cell_place F a b pre post ->
  toml_place (fun c => d1 ++ {| ne_nl := nl; ne_expr := {| e_ws := w; e_keyval := Some (KeyVal k ks (F c)); e_table := tb;
                                                           e_comment := cm |} |} :: d2)
    (ids (toml_cells d1) ++ a) (b ++ ids (toml_cells d2))
    (toml_src d1 ++ nl ++ ws1 w ++ k ++ ws1 ks ++ lit "=" ++ ws2 ks ++ pre)
    (post ++ (match tb with Some t => show_table_type t | None => [] end) ++ ws2 w ++ com_src cm ++ toml_src d2).
Proof.
  intros d1 d2 nl w k ks tb cm F a b pre post [I S U O O2]. constructor.
  - intros c. rewrite toml_cells_app, ids_app.
    change (toml_cells (?x :: d2)) with (ex_cells (ne_expr x) ++ toml_cells d2). rewrite ids_app.
    unfold ex_cells. cbn [ne_expr e_keyval]. unfold kv_cells. cbn [kv_val]. rewrite I, <- !app_assoc. auto.
  - intros c. rewrite toml_src_app. change (toml_src (?x :: d2)) with (ne_src x ++ toml_src d2).
    unfold ne_src, ex_src, kv_src, sep_src. cbn [ne_nl ne_expr e_ws e_keyval e_table e_comment kv_key kv_sep kv_val].
    rewrite S, <- !app_assoc. auto.
  - intros id nv c N1 N2. rewrite upd_toml_app. rewrite in_app_iff in N1, N2.
    rewrite (upd_toml_absent id nv d1) by tauto.
    change (upd_toml id nv (?x :: d2)) with ({| ne_nl := ne_nl x; ne_expr := upd_expr id nv (ne_expr x) |} :: upd_toml id nv d2).
    rewrite (upd_toml_absent id nv d2) by tauto. unfold upd_expr.
    cbn [ne_nl ne_expr e_ws e_keyval e_table e_comment kv_key kv_sep kv_val]. rewrite U by tauto. auto.
  - intros c c' P Q. apply Forall_app in P as [P1 P2]. inversion P2; subst. apply Forall_app. split; auto.
    constructor; auto. unfold ex_printable in *. cbn [ne_expr e_keyval kv_val] in *. eauto.
  - intros c P. apply Forall_app in P as [P1 P2]. inversion P2; subst. unfold ex_printable in *.
    cbn [ne_expr e_keyval kv_val] in *. eauto.
Qed.

Lemma place_toml : forall d c0, In c0 (toml_cells d) -> exists F a b pre post, F c0 = d /\ toml_place F a b pre post.
Proof.
  intros d c0 I. unfold toml_cells in I. apply in_flat_map in I as (ne & I & J).
  apply in_split in I as (d1 & d2 & ->). destruct ne as [nl [w kv tb cm]]. unfold ex_cells in J.
  cbn [ne_expr e_keyval] in J. destruct kv as [[k ks cv]|]; [|contradiction].
  unfold kv_cells in J. cbn [kv_val] in J.
  destruct (place_cell _ _ J) as (F & a & b & pre & post & E & P).
  do 5 eexists. split; [|apply place_line; exact P]. cbv beta. rewrite E. auto.
Qed.

(** ** Writes commute *)
Definition leaf (t : tval) : Prop := match t with TArray _ _ _ | TInlineTable _ _ => False | _ => True end.
Lemma leaf_cells : forall t, leaf t -> tcells t = [].
Proof. intros [] L; cbn in L; tauto. Qed.
Lemma upd_leaf : forall id nv t, leaf t -> upd_tval id nv t = t.
Proof. intros id nv [] L; cbn in L; tauto. Qed.

Lemma upd_tval_comm : forall i j a b, i <> j -> leaf a -> leaf b -> forall t,
  upd_tval i a (upd_tval j b t) = upd_tval j b (upd_tval i a t).
Proof.
  intros i j a b N La Lb. assert (C : forall c, upd_tval i a (upd_tval j b (c_val c)) = upd_tval j b (upd_tval i a (c_val c)) ->
    upd_c i a (upd_c j b c) = upd_c j b (upd_c i a c)).
  { intros c E. rewrite (upd_c_eq i a c), (upd_c_eq j b c), !upd_c_eq. cbn [c_id c_val]. f_equal.
    destruct (c_id c =? i) eqn:E1, (c_id c =? j) eqn:E2; [lia| | |auto]; rewrite upd_leaf; auto. }
  induction t using tval_ind'; auto.
  - rewrite !upd_arr, !map_map. f_equal. apply map_ext_in. intros x I. rewrite Forall_forall in H. unfold upd_av.
    cbn [av_val av_sep av_nls]. rewrite C; auto.
  - rewrite !upd_inl, !map_map. f_equal. apply map_ext_in. intros x I. rewrite Forall_forall in H. unfold upd_tk.
    cbn [tk_kv kv_val kv_key kv_sep tk_sep tk_nls]. rewrite C; auto.
Qed.
Lemma upd_tval_last : forall i a b, leaf a -> leaf b -> forall t, upd_tval i b (upd_tval i a t) = upd_tval i b t.
Proof.
  intros i a b La Lb. assert (C : forall c, upd_tval i b (upd_tval i a (c_val c)) = upd_tval i b (c_val c) ->
    upd_c i b (upd_c i a c) = upd_c i b c).
  { intros c E. rewrite (upd_c_eq i a c), !upd_c_eq. cbn [c_id c_val]. f_equal.
    destruct (c_id c =? i) eqn:E1; auto. }
  induction t using tval_ind'; auto.
  - rewrite !upd_arr, !map_map. f_equal. apply map_ext_in. intros x I. rewrite Forall_forall in H. unfold upd_av.
    cbn [av_val av_sep av_nls]. rewrite C; auto.
  - rewrite !upd_inl, !map_map. f_equal. apply map_ext_in. intros x I. rewrite Forall_forall in H. unfold upd_tk.
    cbn [tk_kv kv_val kv_key kv_sep tk_sep tk_nls]. rewrite C; auto.
Qed.
Lemma upd_c_comm : forall i j a b c, i <> j -> leaf a -> leaf b -> upd_c i a (upd_c j b c) = upd_c j b (upd_c i a c).
Proof.
  intros i j a b c N La Lb. rewrite (upd_c_eq i a c), (upd_c_eq j b c), !upd_c_eq. cbn [c_id c_val]. f_equal.
  destruct (c_id c =? i) eqn:E1, (c_id c =? j) eqn:E2; [lia| | |apply upd_tval_comm; auto]; rewrite upd_leaf; auto.
Qed.
Lemma upd_c_last : forall i a b c, leaf a -> leaf b -> upd_c i b (upd_c i a c) = upd_c i b c.
Proof.
  intros i a b c La Lb. rewrite (upd_c_eq i a c), !upd_c_eq. cbn [c_id c_val]. f_equal.
  destruct (c_id c =? i) eqn:E1; auto. apply upd_tval_last; auto.
Qed.

Lemma upd_expr_comp : forall i a j b e, upd_expr i a (upd_expr j b e) =
  {| e_ws := e.(e_ws); e_keyval := match e.(e_keyval) with
       | Some kv => Some (KeyVal kv.(kv_key) kv.(kv_sep) (upd_c i a (upd_c j b kv.(kv_val)))) | None => None end;
     e_table := e.(e_table); e_comment := e.(e_comment) |}.
Proof. intros. destruct e as [w [kv|] tb cm]; reflexivity. Qed.

Lemma write_comm : forall s i j a b, i <> j -> leaf a -> leaf b -> write (write s (i, a)) (j, b) = write (write s (j, b)) (i, a).
Proof.
  intros s i j a b N La Lb. unfold write, set_root, set_map. cbn [p_root p_map p_errors p_leftover p_line p_tables p_tindex
    p_keychain p_last_table p_atypes p_array_error p_next p_ovf]. f_equal.
  - unfold upd_toml. rewrite !map_map. apply map_ext. intros ne. cbn [ne_nl ne_expr]. f_equal. rewrite !upd_expr_comp.
    f_equal. destruct (e_keyval (ne_expr ne)); auto. rewrite upd_c_comm; auto.
  - unfold upd_map. rewrite !map_map. apply map_ext. intros [k [v x]]. cbn [fst snd hv_value hv_subkeys]. f_equal. f_equal.
    destruct v; auto. rewrite upd_c_comm; auto.
Qed.
Lemma write_last : forall s i a b, leaf a -> leaf b -> write (write s (i, a)) (i, b) = write s (i, b).
Proof.
  intros s i a b La Lb. unfold write, set_root, set_map. cbn [p_root p_map p_errors p_leftover p_line p_tables p_tindex
    p_keychain p_last_table p_atypes p_array_error p_next p_ovf]. f_equal.
  - unfold upd_toml. rewrite !map_map. apply map_ext. intros ne. cbn [ne_nl ne_expr]. f_equal. rewrite upd_expr_comp.
    unfold upd_expr. f_equal. destruct (e_keyval (ne_expr ne)); auto. rewrite upd_c_last; auto.
  - unfold upd_map. rewrite !map_map. apply map_ext. intros [k [v x]]. cbn [fst snd hv_value hv_subkeys]. f_equal. f_equal.
    destruct v; auto. rewrite upd_c_last; auto.
Qed.

(** ** The map after a write *)
Lemma hget_upd : forall id nv m k, hget k (upd_map id nv m) =
  match hget k m with
  | Some hv => Some (HashValue (match hv.(hv_value) with Some c => Some (upd_c id nv c) | None => None end) hv.(hv_subkeys))
  | None => None
  end.
Proof.
  intros id nv m k. induction m as [|[k' v] m IH]; [reflexivity|]. unfold upd_map in *. cbn [map hget fst snd].
  destruct (str_eqb k k'); auto.
Qed.
Lemma valof_upd : forall id nv m k, valof (upd_map id nv m) k =
  match valof m k with Some c => Some (upd_c id nv c) | None => None end.
Proof. intros. unfold valof. rewrite hget_upd. destruct (hget k m) as [[[c|] x]|]; auto. Qed.
Lemma get_children_write : forall s w k, get_children (write s w) k = get_children s k.
Proof.
  intros s [id nv] k. unfold get_children, write. cbn [p_map set_root set_map].
  rewrite hget_upd. destruct (hget _ _); auto.
Qed.
Lemma get_children_writes : forall ws s k, get_children (fold_left write ws s) k = get_children s k.
Proof. induction ws; intros; auto. cbn [fold_left]. rewrite IHws. apply get_children_write. Qed.

(** ** Coherence is kept *)
Lemma good_sub : forall h n c c', Forall (good h n) (subcells c) -> In c' (subcells c) -> Forall (good h n) (subcells c').
Proof.
  intros h n c. induction c as [i t IH] using cell_ind'. intros c' F I.
  destruct I as [<-|I]; auto. cbn [c_val] in I. rewrite tcells_kids in I. apply in_flat_map in I as (k & I & J).
  rewrite Forall_forall in IH. apply (IH k I); auto.
  unfold subcells in F. apply Forall_cons_iff in F as [_ F]. cbn [c_val] in F. rewrite tcells_kids in F.
  rewrite Forall_forall in *. intros x X. apply F. apply in_flat_map. eauto.
Qed.

(** the heap after writing [nv] into the cell [id] *)
Definition heap_upd (id : N) (nv : tval) (h : N -> tval) : N -> tval :=
  fun x => if x =? id then nv else upd_tval id nv (h x).

Lemma good_fresh : forall h n id nv, Forall (good h n) (tcells nv) -> ~ In id (ids (tcells nv)) ->
  Forall (good (heap_upd id nv h) n) (tcells nv).
Proof.
  intros h n id nv F N. rewrite Forall_forall in *. intros c I. destruct (F c I) as [L E]. split; auto.
  unfold heap_upd. destruct (c_id c =? id) eqn:Q; [exfalso; apply N; apply in_map_iff; exists c; split; auto; lia|].
  rewrite E. apply upd_tval_absent. intros J. apply N. apply in_map_iff in J as (c' & <- & J). apply in_map.
  rewrite tcells_kids in I |- *. apply in_flat_map in I as (k & I & I2). apply in_flat_map. exists k. split; auto.
  clear - I2 J. revert I2. induction k as [i t IH] using cell_ind'. intros [<-|I2]; [right; auto|].
  cbn [c_val] in I2. rewrite tcells_kids in I2. apply in_flat_map in I2 as (k' & K & I2). rewrite Forall_forall in IH.
  right. cbn [c_val]. rewrite tcells_kids. apply in_flat_map. exists k'. split; auto.
Qed.
Lemma good_upd : forall h n id nv, id < n -> Forall (good h n) (tcells nv) -> ~ In id (ids (tcells nv)) ->
  forall c, Forall (good h n) (subcells c) -> Forall (good (heap_upd id nv h) n) (subcells (upd_c id nv c)).
Proof.
  intros h n id nv L F N c. induction c as [i t IH] using cell_ind'. intros G. rewrite upd_c_eq. cbn [c_id c_val].
  unfold subcells in *. cbn [c_id c_val] in *. apply Forall_cons_iff in G as [[G1 G2] G]. cbn [c_id c_val] in *.
  destruct (i =? id) eqn:E.
  - constructor; [|apply good_fresh; auto]. split; auto. cbn [c_id c_val]. unfold heap_upd. rewrite E. auto.
  - constructor.
    + split; auto. cbn [c_id c_val]. unfold heap_upd. rewrite E, G2. auto.
    + rewrite tcells_kids in G |- *. rewrite upd_kids. rewrite Forall_forall in *. intros x X.
      apply in_flat_map in X as (k & K & X). apply in_map_iff in K as (k0 & <- & K).
      specialize (IH k0 K). cbn beta in IH. rewrite !Forall_forall in IH. apply IH; auto.
      intros y Y. apply G. apply in_flat_map. eauto.
Qed.

Lemma good_upd_flat : forall h n id nv, id < n -> Forall (good h n) (tcells nv) -> ~ In id (ids (tcells nv)) ->
  forall cs, Forall (good h n) (flat_map subcells cs) ->
  Forall (good (heap_upd id nv h) n) (flat_map subcells (map (upd_c id nv) cs)).
Proof.
  intros h n id nv L F N cs G. rewrite Forall_forall in *. intros x X. apply in_flat_map in X as (k & K & X).
  apply in_map_iff in K as (k0 & <- & K). pose proof (good_upd h n id nv L) as U. rewrite Forall_forall in U.
  specialize (U F N k0). rewrite !Forall_forall in U. apply U; auto. intros y Y. apply G. apply in_flat_map; eauto.
Qed.

Definition tops (d : toml) : list cell :=
  flat_map (fun ne => match ne.(ne_expr).(e_keyval) with Some kv => [kv.(kv_val)] | None => [] end) d.
Lemma toml_cells_tops : forall d, toml_cells d = flat_map subcells (tops d).
Proof.
  induction d as [|ne d IH]; auto. change (toml_cells (ne :: d)) with (ex_cells (ne_expr ne) ++ toml_cells d).
  unfold tops. cbn [flat_map]. rewrite flat_map_app, IH. f_equal. unfold ex_cells, kv_cells.
  destruct (e_keyval (ne_expr ne)); auto. cbn [flat_map]. rewrite app_nil_r. auto.
Qed.
Lemma upd_tops : forall id nv d, tops (upd_toml id nv d) = map (upd_c id nv) (tops d).
Proof.
  induction d as [|ne d IH]; auto. unfold tops in *. cbn [upd_toml map flat_map]. fold (upd_toml id nv d).
  rewrite map_app, IH. f_equal. cbn [ne_expr upd_expr e_keyval]. destruct (e_keyval (ne_expr ne)); auto.
Qed.

Lemma nodup_swap : forall A (a b x y : list A), NoDup (a ++ x ++ b) -> NoDup y -> (forall z, In z y -> ~ In z (a ++ b)) ->
  NoDup (a ++ y ++ b).
Proof.
  intros A a b x y N Ny D. assert (Nab : NoDup (a ++ b)).
  { clear - N. induction x; auto. apply IHx. cbn [app] in N. apply NoDup_remove_1 in N. auto. }
  clear N. induction y as [|z y IH]; auto. inversion Ny; subst. cbn [app]. apply NoDup_middle; auto.
  - apply IH; auto. intros w W. apply D. right; auto.
  - intros I. rewrite !in_app_iff in I. destruct I as [I|[I|I]]; auto; eapply D; try (left; reflexivity); apply in_app_iff; auto.
Qed.

(** [nv] may be written into [id]: its own cells are new and distinct *)
Record fresh_for (h : N -> tval) (id : N) (nv : tval) (s : pst) : Prop := {
  ff_id : id < s.(p_next);
  ff_good : Forall (good h s.(p_next)) (tcells nv);
  ff_dup : NoDup (ids (tcells nv));
  ff_self : ~ In id (ids (tcells nv));
  ff_new : forall x, In x (ids (tcells nv)) -> ~ In x (ids (toml_cells s.(p_root)));
  ff_map : forall x k c, In x (ids (tcells nv)) -> valof s.(p_map) k = Some c -> ~ In x (ids (subcells c))
}.
Lemma fresh_leaf : forall h id nv s, id < s.(p_next) -> leaf nv -> fresh_for h id nv s.
Proof. intros h id nv s L F. apply leaf_cells in F. constructor; rewrite ?F; auto; constructor. Qed.

Lemma in_ids_cell : forall l x, In x (ids l) -> exists c, In c l /\ c_id c = x.
Proof. intros l x I. apply in_map_iff in I as (c & E & I). eauto. Qed.

Lemma dup_sub : forall c c', NoDup (ids (subcells c)) -> In c' (subcells c) -> NoDup (ids (subcells c')).
Proof.
  intros c c' D I. destruct (place_cell _ _ I) as (P & a & b & pre & post & E & [PI _ _ _ _]).
  rewrite <- E, PI in D. clear - D. induction a; cbn [app] in D; [apply NoDup_app_l in D; auto|]. inversion D; auto.
Qed.
Lemma dup_upd : forall id nv c, NoDup (ids (subcells c)) -> NoDup (ids (tcells nv)) -> ~ In id (ids (tcells nv)) ->
  (forall x, In x (ids (tcells nv)) -> ~ In x (ids (subcells c))) -> NoDup (ids (subcells (upd_c id nv c))).
Proof.
  intros id nv c D ND NS NR. destruct (in_dec N.eq_dec id (ids (subcells c))) as [I|I]; [|rewrite upd_c_absent; auto].
  apply in_ids_cell in I as (c0 & I & E0). destruct (place_cell _ _ I) as (P & a & b & pre & post & E & [PI PS PU PO PO2]).
  rewrite <- E in D, NR |- *. rewrite PI in D, NR.
  assert (Na : ~ In id a /\ ~ In id b).
  { rewrite ids_subcells in D. cbn [app] in D. apply NoDup_remove_2 in D. rewrite !in_app_iff in D. rewrite E0 in D. tauto. }
  rewrite PU by tauto. rewrite PI. rewrite upd_c_eq, E0, N.eqb_refl, ids_subcells. cbn [c_id c_val].
  eapply nodup_swap; [exact D|constructor; auto|].
  intros z Z J. destruct Z as [<-|Z]; [rewrite in_app_iff in J; tauto|]. apply (NR z Z). rewrite !in_app_iff.
  rewrite in_app_iff in J. tauto.
Qed.

Lemma wf_write : forall h s id nv, wf h s -> fresh_for h id nv s -> wf (heap_upd id nv h) (write s (id, nv)).
Proof.
  intros h s id nv [C D R] [L F ND NS NR NM]. constructor.
  - destruct C as [A B DD]. constructor; cbn [write p_map set_root set_map p_next].
    + intros k1 k2 c1 c2 V1 V2 E. rewrite valof_upd in V1, V2. destruct (valof (p_map s) k1) eqn:E1; [|discriminate].
      destruct (valof (p_map s) k2) eqn:E2; [|discriminate]. inversion V1; subst. inversion V2; subst.
      rewrite !upd_c_id in E. eauto.
    + intros k c V. rewrite valof_upd in V. destruct (valof (p_map s) k) eqn:E1; [|discriminate]. inversion V; subst.
      apply good_upd; eauto.
    + intros k c V. rewrite valof_upd in V. destruct (valof (p_map s) k) eqn:E1; [|discriminate]. inversion V; subst.
      apply dup_upd; eauto.
  - cbn [write p_root set_root]. destruct (in_dec N.eq_dec id (ids (toml_cells (p_root s)))) as [I|I].
    + apply in_ids_cell in I as (c0 & I & E0). destruct (place_toml _ _ I) as (P & a & b & pre & post & E & [PI PS PU PO PO2]).
      rewrite <- E in D |- *. rewrite PI in D.
      assert (Na : ~ In id a /\ ~ In id b).
      { rewrite ids_subcells in D. cbn [app] in D. apply NoDup_remove_2 in D. rewrite !in_app_iff in D. rewrite E0 in D. tauto. }
      rewrite PU by tauto. rewrite PI. rewrite upd_c_eq, E0, N.eqb_refl, ids_subcells. cbn [c_id c_val].
      eapply nodup_swap; [exact D|constructor; auto|].
      intros z Z J. destruct Z as [<-|Z]; [rewrite in_app_iff in J; tauto|]. apply (NR z Z). rewrite <- E, PI, !in_app_iff.
      rewrite in_app_iff in J. tauto.
    + rewrite upd_toml_absent; auto.
  - cbn [write p_root set_root set_map p_next]. rewrite toml_cells_tops in R |- *. rewrite upd_tops.
    apply good_upd_flat; auto.
Qed.
