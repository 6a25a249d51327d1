(** Updates through set_value. *)
From Coq Require Import Lia ZifyBool ZifyNat ZifyN.
From Verif Require Import Str Regex Types Ast State Nom Keys Grammar Api Facts Spec NomFacts CtorFacts ScalarFacts RoundTrip.
From Verif Require Import FlatFacts ParseFacts WalkFacts DocFacts IdFacts WriteFacts SetFacts ApiSpec.

(** ** Reading *)
Lemma get_value_some : forall s k v, get_value s k = Ok (Some v) <->
  exists c, valof s.(p_map) k = Some c /\ to_val c.(c_val) = Ok v.
Proof.
  intros s k v. unfold get_value, valof. split.
  - destruct (hget k (p_map s)) as [[[c|] x]|]; cbn [hv_value]; try discriminate. intros H.
    apply rbind_ok in H as (w & E & H). inversion H; subst. eauto.
  - intros (c & H & E). destruct (hget k (p_map s)) as [[[c0|] x]|]; cbn [hv_value] in *; try discriminate.
    inversion H; subst. rewrite E. reflexivity.
Qed.
Lemma get_value_none : forall s k, get_value s k = Ok None <-> valof s.(p_map) k = None.
Proof.
  intros s k. unfold get_value, valof. destruct (hget k (p_map s)) as [[[c|] x]|]; cbn [hv_value]; try tauto.
  split; [|discriminate]. intros H. apply rbind_ok in H as (w & _ & H). discriminate.
Qed.
Lemma get_value_same : forall s s' k, valof s'.(p_map) k = valof s.(p_map) k -> get_value s' k = get_value s k.
Proof.
  intros s s' k H. unfold get_value, valof in *.
  destruct (hget k (p_map s)) as [[[c|] x]|], (hget k (p_map s')) as [[[c'|] x']|]; cbn [hv_value] in *; congruence.
Qed.

(** ** Places *)
Lemma located_cell : forall c c1 pre post, located_in c c1 pre post -> exists F a b, F c = c1 /\ cell_place F a b pre post.
Proof.
  intros c c1 pre post L. induction L as [|i l1 l2 x sp nls n1 n2 pre post L (F & a & b & E & P)|
    i l1 l2 k ks x sp nls w pre post L (F & a & b & E & P)].
  - exists (fun c => c), [], []. split; auto. apply place_self.
  - do 3 eexists. split; [|apply (place_arr i l1 l2 sp nls n1 n2 F); exact P]. cbv beta. rewrite E. reflexivity.
  - do 3 eexists. split; [|apply (place_inl i l1 l2 k ks sp nls w F); exact P]. cbv beta. rewrite E. reflexivity.
Qed.
Lemma cell_located : forall c1 c, In c (subcells c1) -> exists pre post, located_in c c1 pre post.
Proof.
  assert (A : forall t i c, In c (subcells (Cell i t)) -> exists pre post, located_in c (Cell i t) pre post).
  { induction t using tval_ind'; intros i c I; (destruct I as [<-|I]; [do 2 eexists; constructor|]); try contradiction;
      cbn [c_val tcells] in I; apply in_flat_map in I as (x & I & J); rewrite Forall_forall in H; specialize (H x I);
      apply in_split in I as (l1 & l2 & ->).
    - destruct x as [[xi xt] sp nls]. destruct (H xi c J) as (pre & post & L). do 2 eexists. constructor. exact L.
    - destruct x as [[k ks [xi xt]] sp nls]. destruct (H xi c J) as (pre & post & L). do 2 eexists. constructor. exact L. }
  intros []. apply A.
Qed.
Lemma located_place : forall c d pre post, located c d pre post -> exists F a b, F c = d /\ toml_place F a b pre post.
Proof.
  intros c d pre post L. destruct L as [d1 d2 nl w k ks x tb cm pre post L].
  destruct (located_cell _ _ _ _ L) as (F & a & b & E & [I S U O O2]).
  exists (fun c => d1 ++ {| ne_nl := nl; ne_expr := {| e_ws := w; e_keyval := Some (KeyVal k ks (F c)); e_table := tb;
                                                       e_comment := cm |} |} :: d2),
    (ids (toml_cells d1) ++ a), (b ++ ids (toml_cells d2)).
  split; [rewrite E; auto|]. apply place_line. constructor; auto.
Qed.
Lemma toml_located : forall d c, In c (toml_cells d) -> exists pre post, located c d pre post.
Proof.
  intros d c I. unfold toml_cells in I. apply in_flat_map in I as (ne & I & J).
  apply in_split in I as (d1 & d2 & ->). destruct ne as [nl [w kv tb cm]]. unfold ex_cells in J.
  cbn [ne_expr e_keyval] in J. destruct kv as [[k ks cv]|]; [|contradiction]. unfold kv_cells in J. cbn [kv_val] in J.
  destruct (cell_located _ _ J) as (pre & post & L). do 2 eexists. constructor. exact L.
Qed.

(** a list of writes *)
Definition upds (ws : list (N * tval)) (c : cell) : cell := fold_left (fun c w => upd_c (fst w) (snd w) c) ws c.
Lemma upds_app : forall a b c, upds (a ++ b) c = upds b (upds a c).
Proof. intros. apply fold_left_app. Qed.
Lemma upds_id : forall ws c, c_id (upds ws c) = c_id c.
Proof. unfold upds. induction ws; intros; auto. cbn [fold_left]. rewrite IHws. apply upd_c_id. Qed.
Lemma place_upds : forall F a b pre post ws c, cell_place F a b pre post ->
  Forall (fun w => ~ In (fst w) a /\ ~ In (fst w) b) ws -> upds ws (F c) = F (upds ws c).
Proof.
  intros F a b pre post ws c [_ _ U _ _]. revert c. unfold upds. induction ws as [|w ws IH]; intros c N; auto.
  inversion N as [|x y [N1 N2] N3]; subst. cbn [fold_left]. rewrite U; auto.
Qed.
Lemma root_writes : forall F a b pre post ws c s, toml_place F a b pre post ->
  Forall (fun w => ~ In (fst w) a /\ ~ In (fst w) b) ws -> s.(p_root) = F c ->
  (fold_left write ws s).(p_root) = F (upds ws c).
Proof.
  intros F a b pre post ws c s [_ _ U _ _]. revert c s. unfold upds. induction ws as [|[id nv] ws IH]; intros c s N E; auto.
  inversion N as [|x y [N1 N2] N3]; subst. cbn [fold_left fst snd] in *. apply IH; auto.
  cbn [write p_root set_root]. rewrite E. auto.
Qed.
Lemma map_writes : forall ws s k, valof (fold_left write ws s).(p_map) k =
  match valof s.(p_map) k with Some c => Some (upds ws c) | None => None end.
Proof.
  unfold upds. induction ws as [|[id nv] ws IH]; intros s k; [destruct (valof _ _); auto|].
  cbn [fold_left fst snd]. rewrite IH. cbn [write p_map set_root set_map]. rewrite valof_upd.
  destruct (valof (p_map s) k); auto.
Qed.

(** the identities in a coherent cell are distinct from its own *)
Lemma nodup_drop : forall (a b : list N), NoDup (a ++ b) -> NoDup b.
Proof. induction a as [|x a IH]; intros b N; auto. inversion N; auto. Qed.
Lemma nodup_around : forall (a x b : list N), NoDup (a ++ x ++ b) -> forall i, In i x -> ~ In i a /\ ~ In i b.
Proof.
  intros a x b N i I. split; intros J.
  - induction a as [|y a IH]; [destruct J|]. cbn [app] in N. inversion N; subst. destruct J as [->|J]; auto.
    apply H1. rewrite !in_app_iff. auto.
  - induction a as [|y a IH].
    + cbn [app] in N. induction x as [|y x IH]; [destruct I|]. inversion N; subst. destruct I as [->|I]; auto.
      apply H1. apply in_app_iff. auto.
    + cbn [app] in N. inversion N; subst. auto.
Qed.

(** ** The interleaving of texts *)
Definition wv (xs ys : list str) (s t : str) : Prop :=
  exists fs, length fs = S (length xs) /\ length xs = length ys /\ s = weave fs xs /\ t = weave fs ys.
Lemma wv_same : forall s, wv [] [] s s.
Proof. intros s. exists [s]. repeat split. Qed.
Lemma wv_one : forall x y, wv [x] [y] x y.
Proof. intros x y. exists [[]; []]. cbn [weave]. rewrite !app_nil_r. repeat split. Qed.
Lemma wv_app : forall xs ys s t xs' ys' s' t', wv xs ys s t -> wv xs' ys' s' t' ->
  wv (xs ++ xs') (ys ++ ys') (s ++ s') (t ++ t').
Proof.
  intros xs ys s t xs' ys' s' t' (fs & L & E & -> & ->) (gs & L' & E' & -> & ->).
  revert ys E fs L. induction xs as [|x xs IH]; intros ys E fs L.
  - destruct ys; [|discriminate]. destruct fs as [|f [|]]; try discriminate. destruct gs as [|g gs]; [discriminate|].
    exists ((f ++ g) :: gs). cbn [app weave]. cbn [length] in *. repeat split; auto.
    + destruct xs'; cbn [weave]; rewrite <- ?app_assoc; auto.
    + destruct ys'; cbn [weave]; rewrite <- ?app_assoc; auto.
  - destruct ys as [|y ys]; [discriminate|]. destruct fs as [|f fs]; [discriminate|]. cbn [length] in *.
    destruct (IH ys) with (fs := fs) as (hs & H1 & H2 & H3 & H4); [lia|lia|].
    exists (f :: hs). cbn [app weave length]. rewrite <- !app_assoc, H3, H4. repeat split; auto; lia.
Qed.
Lemma wv_pre : forall p xs ys s t, wv xs ys s t -> wv xs ys (p ++ s) (p ++ t).
Proof. intros. apply (wv_app [] [] p p); auto. apply wv_same. Qed.
Lemma wv_post : forall p xs ys s t, wv xs ys s t -> wv xs ys (s ++ p) (t ++ p).
Proof. intros p xs ys s t H. pose proof (wv_app _ _ _ _ [] [] p p H (wv_same p)) as X. rewrite !app_nil_r in X. auto. Qed.

(** ** Same-structure updates *)
Fixpoint zipw {A B C} (f : A -> B -> C) (l : list A) (l2 : list B) : list C :=
  match l, l2 with x :: l', y :: l2' => f x y :: zipw f l' l2' | _, _ => [] end.

Definition leaf_of (v : value) : tval :=
  match v with
  | VInteger s => TInteger s
  | VFloat s => TFloat s
  | VBoolean b => TBoolean b
  | VDateTime d => TDateTime d
  | VString s t => TString s t
  | VArray _ | VInlineTable _ => TTable
  end.
Definition zip_fill (f : tval -> value -> tval) : list array_value -> list value -> list array_value :=
  fix go l l2 := match l, l2 with
    | av :: l', x :: l2' => ArrayValue (Cell av.(av_val).(c_id) (f av.(av_val).(c_val) x)) av.(av_sep) av.(av_nls) :: go l' l2'
    | _, _ => [] end.
Definition zip_fill2 (f : tval -> value -> tval) : list table_keyval -> list (str * value) -> list table_keyval :=
  fix go l l2 := match l, l2 with
    | tk :: l', x :: l2' =>
        TableKeyVal (KeyVal tk.(tk_kv).(kv_key) tk.(tk_kv).(kv_sep)
          (Cell tk.(tk_kv).(kv_val).(c_id) (f tk.(tk_kv).(kv_val).(c_val) (snd x)))) tk.(tk_sep) tk.(tk_nls) :: go l' l2'
    | _, _ => [] end.
Fixpoint fill (t : tval) (v : value) : tval :=
  match t, v with
  | TArray vals n1 n2, VArray l => TArray (zip_fill fill vals l) n1 n2
  | TInlineTable kvs w, VInlineTable l => TInlineTable (zip_fill2 fill kvs l) w
  | _, _ => leaf_of v
  end.

Lemma scalar_leaf : forall v, leaf (leaf_of v).
Proof. intros []; exact I. Qed.
Lemma to_val_leaf : forall v, scalar_value v -> to_val (leaf_of v) = Ok v.
Proof. intros [] S; try reflexivity; destruct S. Qed.
Lemma tsrc_leaf : forall v, scalar_value v -> tsrc (leaf_of v) = spelling v.
Proof.
  intros [s|s|[]|d|s []|l|l] S; try reflexivity; try destruct S. cbn [leaf_of tsrc spelling]. rewrite datetime_src_show. auto.
Qed.
Lemma scalar_tval : forall t v, to_val t = Ok v -> scalar_value v -> t = leaf_of v.
Proof.
  intros t v E S. destruct t; cbn [to_val] in E; try (inversion E; reflexivity);
    apply rbind_ok in E as (l & _ & E); inversion E; subst; destruct S.
Qed.
Lemma leaf_printable : forall t, leaf t -> tv_printable t.
Proof. intros [] L; try constructor; destruct L. Qed.
Lemma scalar_leaves : forall v, scalar_value v -> leaves v = [v].
Proof. intros [] S; try reflexivity; destruct S. Qed.

Record filled (t : tval) (v0 v : value) (id : N) (ws : list (N * tval)) : Prop := {
  fi_same : same_structure t v = true;
  fi_ws : replace_values id t v = Ok ws;
  fi_val : to_val (fill t v) = Ok v;
  fi_ids : ids (tcells (fill t v)) = ids (tcells t);
  fi_upd : NoDup (ids (subcells (Cell id t))) -> upds ws (Cell id t) = Cell id (fill t v);
  fi_src : wv (map spelling (leaves v0)) (map spelling (leaves v)) (tsrc t) (tsrc (fill t v));
  fi_ok : tv_printable t -> tv_printable (fill t v)
}.

Lemma fill_scalar : forall t v, leaf t -> fill t v = leaf_of v.
Proof. intros [] v L; try destruct L; reflexivity. Qed.

Lemma filled_scalar : forall v0 v id, scalar_value v0 -> scalar_value v -> validate v = true ->
  filled (leaf_of v0) v0 v id [(id, leaf_of v)].
Proof.
  intros v0 v id S0 S V. pose proof (scalar_leaf v0) as L0. rewrite <- (fill_scalar _ v L0) at 1.
  constructor; rewrite ?(fill_scalar _ v L0).
  - destruct v0; try destruct S0; cbn [leaf_of same_structure]; rewrite V; cbn [negb]; destruct v; auto; destruct S.
  - destruct v0; try destruct S0; cbn [leaf_of replace_values]; destruct v; auto; destruct S.
  - apply to_val_leaf; auto.
  - rewrite !leaf_cells by apply scalar_leaf. auto.
  - intros _. unfold upds. cbn [fold_left fst snd]. rewrite upd_c_eq. cbn [c_id]. rewrite N.eqb_refl. auto.
  - rewrite !scalar_leaves, !tsrc_leaf by auto. apply wv_one.
  - intros _. apply leaf_printable, scalar_leaf.
Qed.

Lemma rmap_cons : forall A B (f : A -> res B) x l r, rmap f (x :: l) = Ok r ->
  exists a b, f x = Ok a /\ rmap f l = Ok b /\ r = a :: b.
Proof.
  intros A B f x l r H. cbn [rmap] in H. apply rbind_ok in H as (a & E & H). apply rbind_ok in H as (b & E2 & H).
  inversion H; subst. exists a, b. auto.
Qed.

Lemma rmap_eq : forall A B (f : A -> res B) x l a b, f x = Ok a -> rmap f l = Ok b -> rmap f (x :: l) = Ok (a :: b).
Proof. intros A B f x l a b E1 E2. unfold rmap in *. rewrite E1. cbn [rbind]. rewrite E2. reflexivity. Qed.
Lemma rzip_eq : forall A B C (f : A -> B -> res (list C)) x l y l2 a b, f x y = Ok a -> rzip f l l2 = Ok b ->
  rzip f (x :: l) (y :: l2) = Ok (a ++ b).
Proof. intros A B C f x l y l2 a b E1 E2. unfold rzip in *. rewrite E1. cbn [rbind]. rewrite E2. reflexivity. Qed.

(** the loop over the elements of an array; [p] are the elements already written *)
Lemma fill_list : forall (vals : list array_value) l0 l,
  Forall (fun av => forall v0 v id, to_val av.(av_val).(c_val) = Ok v0 -> same_shape v0 v -> all_valid v ->
     exists ws, filled av.(av_val).(c_val) v0 v id ws) vals ->
  rmap (fun av : array_value => to_val av.(av_val).(c_val)) vals = Ok l0 -> Forall2 same_shape l0 l ->
  (forall x, In x l -> all_valid x) ->
  all2 (fun av x => same_structure av.(av_val).(c_val) x) vals l = true /\
  exists ws, rzip (fun av x => replace_values av.(av_val).(c_id) av.(av_val).(c_val) x) vals l = Ok ws /\
    rmap (fun av : array_value => to_val av.(av_val).(c_val)) (zip_fill fill vals l) = Ok l /\
    (forall n1 n2, ids (tcells (TArray (zip_fill fill vals l) n1 n2)) = ids (tcells (TArray vals n1 n2))) /\
    (forall p id n1 n2, NoDup (ids (subcells (Cell id (TArray (p ++ vals) n1 n2)))) ->
       upds ws (Cell id (TArray (p ++ vals) n1 n2)) = Cell id (TArray (p ++ zip_fill fill vals l) n1 n2)) /\
    wv (map spelling (flat_map leaves l0)) (map spelling (flat_map leaves l))
       (concat (map av_src vals)) (concat (map av_src (zip_fill fill vals l))) /\
    (Forall (fun av => tv_printable av.(av_val).(c_val)) vals ->
     Forall (fun av => tv_printable av.(av_val).(c_val)) (zip_fill fill vals l)).
Proof.
  induction vals as [|[[ai at_] sp nls] vals IH]; intros l0 l F R S V.
  - inversion R; subst. inversion S; subst. split; [reflexivity|]. exists []. repeat split; auto. apply wv_same.
  - apply rmap_cons in R as (v0 & b & E & R & ->). inversion S as [|? v ? l' S1 S2]; subst. inversion F as [|? ? F1 F2]; subst.
    cbn [av_val c_val] in *. destruct (F1 v0 v ai E S1) as (ws1 & [A1 A2 A3 A4 A5 A6 A7]); [apply V; left; auto|].
    destruct (IH b l' F2 R S2) as (B1 & ws2 & B2 & B3 & B4 & B5 & B6 & B7); [intros; apply V; right; auto|].
    split. { cbn [all2 av_val c_val]. rewrite A1. exact B1. }
    exists (ws1 ++ ws2). repeat split.
    + apply rzip_eq; auto.
    + apply (rmap_eq _ _ (fun av : array_value => to_val av.(av_val).(c_val))); auto.
    + intros n1 n2. specialize (B4 n1 n2).
      change (tcells (TArray (zip_fill fill ({| av_val := {| c_id := ai; c_val := at_ |}; av_sep := sp; av_nls := nls |} :: vals) (v :: l')) n1 n2))
        with (Cell ai (fill at_ v) :: tcells (fill at_ v) ++ tcells (TArray (zip_fill fill vals l') n1 n2)).
      change (tcells (TArray ({| av_val := {| c_id := ai; c_val := at_ |}; av_sep := sp; av_nls := nls |} :: vals) n1 n2))
        with (Cell ai at_ :: tcells at_ ++ tcells (TArray vals n1 n2)).
      cbn [ids map c_id]. f_equal. fold (ids (tcells (fill at_ v) ++ tcells (TArray (zip_fill fill vals l') n1 n2))).
      fold (ids (tcells at_ ++ tcells (TArray vals n1 n2))). rewrite !ids_app. congruence.
    + intros p id n1 n2 ND. rewrite upds_app.
      pose proof (place_arr id p vals sp nls n1 n2 _ _ _ _ _ place_self) as P.
      pose proof (pl_ids _ _ _ _ _ _ _ _ _ P (Cell ai at_)) as PI. cbv beta in PI. rewrite PI in ND.
      assert (Nw : NoDup (ids (subcells (Cell ai at_)))).
      { clear - ND. apply nodup_drop in ND. apply NoDup_app_l in ND. auto. }
      pose proof (place_upds _ _ _ _ _ ws1 (Cell ai at_) P) as PU. cbv beta in PU. rewrite PU.
      2:{ eapply Forall_impl; [|eapply replace_writes; exact A2]. cbv beta. intros w [_ W]. eapply nodup_around; [exact ND|exact W]. }
      rewrite A5 by auto. change (p ++ {| av_val := {| c_id := ai; c_val := fill at_ v |}; av_sep := sp; av_nls := nls |} :: vals)
        with (p ++ [ArrayValue (Cell ai (fill at_ v)) sp nls] ++ vals). rewrite app_assoc.
      rewrite B5; [rewrite <- app_assoc; reflexivity|]. rewrite <- app_assoc. cbn [app].
      pose proof (pl_ids _ _ _ _ _ _ _ _ _ P (Cell ai (fill at_ v))) as PJ. cbv beta in PJ. rewrite PJ.
      rewrite ids_subcells in ND |- *. cbn [c_id c_val] in *. rewrite A4. exact ND.
    + cbn [flat_map zip_fill map concat]. rewrite !map_app. apply wv_app; [|exact B6].
      unfold av_src, av_src_. cbn [av_val av_sep av_nls c_val]. apply wv_post. exact A6.
    + intros PR. inversion PR; subst. cbn [zip_fill]. constructor; cbn [av_val c_val] in *; auto.
Qed.
Lemma fill_list2 : forall (vals : list table_keyval) l0 l,
  Forall (fun tk => forall v0 v id, to_val tk.(tk_kv).(kv_val).(c_val) = Ok v0 -> same_shape v0 v -> all_valid v ->
     exists ws, filled tk.(tk_kv).(kv_val).(c_val) v0 v id ws) vals ->
  rmap (fun tk : table_keyval => let? x := to_val tk.(tk_kv).(kv_val).(c_val) in Ok (tk.(tk_kv).(kv_key), x)) vals = Ok l0 ->
  Forall2 (fun x y => fst x = fst y /\ same_shape (snd x) (snd y)) l0 l ->
  (forall x, In x l -> all_valid (snd x)) ->
  all2 (fun tk x => str_eqb tk.(tk_kv).(kv_key) (fst x) && same_structure tk.(tk_kv).(kv_val).(c_val) (snd x)) vals l = true /\
  exists ws, rzip (fun tk x => replace_values tk.(tk_kv).(kv_val).(c_id) tk.(tk_kv).(kv_val).(c_val) (snd x)) vals l = Ok ws /\
    rmap (fun tk : table_keyval => let? x := to_val tk.(tk_kv).(kv_val).(c_val) in Ok (tk.(tk_kv).(kv_key), x)) (zip_fill2 fill vals l) = Ok l /\
    (forall w, ids (tcells (TInlineTable (zip_fill2 fill vals l) w)) = ids (tcells (TInlineTable vals w))) /\
    (forall p id w, NoDup (ids (subcells (Cell id (TInlineTable (p ++ vals) w)))) ->
       upds ws (Cell id (TInlineTable (p ++ vals) w)) = Cell id (TInlineTable (p ++ zip_fill2 fill vals l) w)) /\
    wv (map spelling (flat_map (fun kv => leaves (snd kv)) l0)) (map spelling (flat_map (fun kv => leaves (snd kv)) l))
       (concat (map tk_src vals)) (concat (map tk_src (zip_fill2 fill vals l))) /\
    (Forall (fun tk => tv_printable tk.(tk_kv).(kv_val).(c_val)) vals ->
     Forall (fun tk => tv_printable tk.(tk_kv).(kv_val).(c_val)) (zip_fill2 fill vals l)).
Proof.
  induction vals as [|[[k ks [ai at_]] sp nls] vals IH]; intros l0 l F R S V.
  - inversion R; subst. inversion S; subst. split; [reflexivity|]. exists []. repeat split; auto. apply wv_same.
  - apply rmap_cons in R as (v0' & b & E0 & R & ->). cbn [tk_kv kv_val kv_key c_val] in E0.
    apply rbind_ok in E0 as (v0 & E & E0). inversion E0; subst v0'; clear E0.
    inversion S as [|? [k' v] ? l' [S0 S1] S2]; subst. inversion F as [|? ? F1 F2]; subst.
    cbn [tk_kv kv_val kv_key c_val fst snd] in *. subst k'.
    destruct (F1 v0 v ai E S1) as (ws1 & [A1 A2 A3 A4 A5 A6 A7]); [apply (V (k, v)); left; auto|].
    destruct (IH b l' F2 R S2) as (B1 & ws2 & B2 & B3 & B4 & B5 & B6 & B7); [intros; apply V; right; auto|].
    split. { cbn [all2 tk_kv kv_val kv_key c_val fst snd]. rewrite str_eqb_refl, A1. exact B1. }
    exists (ws1 ++ ws2). repeat split.
    + apply rzip_eq; auto.
    + cbn [zip_fill2]. apply rmap_eq; [|exact B3]. cbn [tk_kv kv_val kv_key c_val snd]. rewrite A3. reflexivity.
    + intros w. specialize (B4 w).
      change (tcells (TInlineTable (zip_fill2 fill (TableKeyVal (KeyVal k ks (Cell ai at_)) sp nls :: vals) ((k, v) :: l')) w))
        with (Cell ai (fill at_ v) :: tcells (fill at_ v) ++ tcells (TInlineTable (zip_fill2 fill vals l') w)).
      change (tcells (TInlineTable (TableKeyVal (KeyVal k ks (Cell ai at_)) sp nls :: vals) w))
        with (Cell ai at_ :: tcells at_ ++ tcells (TInlineTable vals w)).
      cbn [ids map c_id]. f_equal. fold (ids (tcells (fill at_ v) ++ tcells (TInlineTable (zip_fill2 fill vals l') w))).
      fold (ids (tcells at_ ++ tcells (TInlineTable vals w))). rewrite !ids_app. congruence.
    + intros p id w ND. rewrite upds_app.
      pose proof (place_inl id p vals k ks sp nls w _ _ _ _ _ place_self) as P.
      pose proof (pl_ids _ _ _ _ _ _ _ _ _ P (Cell ai at_)) as PI. cbv beta in PI. rewrite PI in ND.
      assert (Nw : NoDup (ids (subcells (Cell ai at_)))).
      { clear - ND. apply nodup_drop in ND. apply NoDup_app_l in ND. auto. }
      pose proof (place_upds _ _ _ _ _ ws1 (Cell ai at_) P) as PU. cbv beta in PU. rewrite PU.
      2:{ eapply Forall_impl; [|eapply replace_writes; exact A2]. cbv beta. intros x [_ W]. eapply nodup_around; [exact ND|exact W]. }
      rewrite A5 by auto.
      change (p ++ TableKeyVal (KeyVal k ks (Cell ai (fill at_ v))) sp nls :: vals)
        with (p ++ [TableKeyVal (KeyVal k ks (Cell ai (fill at_ v))) sp nls] ++ vals). rewrite app_assoc.
      rewrite B5; [rewrite <- app_assoc; reflexivity|]. rewrite <- app_assoc. cbn [app].
      pose proof (pl_ids _ _ _ _ _ _ _ _ _ P (Cell ai (fill at_ v))) as PJ. cbv beta in PJ. rewrite PJ.
      rewrite ids_subcells in ND |- *. cbn [c_id c_val] in *. rewrite A4. exact ND.
    + cbn [flat_map zip_fill2 map concat snd]. rewrite !map_app. apply wv_app; [|exact B6].
      unfold tk_src, tk_src_, sep_src. cbn [tk_kv kv_key kv_sep kv_val tk_sep tk_nls c_val]. apply wv_post.
      repeat (rewrite ?app_assoc; apply wv_pre). exact A6.
    + intros PR. inversion PR; subst. cbn [zip_fill2]. constructor; cbn [tk_kv kv_val c_val] in *; auto.
Qed.

Lemma fill_ok : forall t v0 v id, to_val t = Ok v0 -> same_shape v0 v -> all_valid v -> exists ws, filled t v0 v id ws.
Proof.
  induction t using tval_ind'; intros v0 v id E S V.
  7:{ cbn [to_val] in E. apply rbind_ok in E as (l0 & E & Q). inversion Q; subst. inversion S as [a b SA| |l l' S1]; subst; [destruct SA|].
      destruct (fill_list2 kvs l0 l' H E S1) as (A1 & wl & A2 & A3 & A4 & A5 & A6 & A7).
      { intros x I y J. apply V. cbn [leaves]. apply in_flat_map. eauto. }
      exists wl. constructor.
      - exact A1.
      - exact A2.
      - change (fill (TInlineTable kvs ws) (VInlineTable l')) with (TInlineTable (zip_fill2 fill kvs l') ws).
        cbn [to_val]. rewrite A3. reflexivity.
      - apply (A4 ws).
      - intros N. apply (A5 [] id ws N).
      - cbn [tsrc fill leaves]. do 2 apply wv_pre. apply wv_post. exact A6.
      - intros P. inversion P as [| | | | | | |k w NE F]; subst.
        change (fill (TInlineTable kvs ws) (VInlineTable l')) with (TInlineTable (zip_fill2 fill kvs l') ws).
        constructor; auto. destruct kvs as [|tk kvs]; [congruence|].
        apply rmap_cons in E as (x & y & _ & _ & ->). inversion S1; subst. discriminate. }
  5:{ cbn [to_val] in E. apply rbind_ok in E as (l0 & E & Q). inversion Q; subst. inversion S as [a b SA|l l' S1|]; subst; [destruct SA|].
      destruct (fill_list vals l0 l' H E S1) as (A1 & wl & A2 & A3 & A4 & A5 & A6 & A7).
      { intros x I y J. apply V. cbn [leaves]. apply in_flat_map. eauto. }
      exists wl. constructor.
      - exact A1.
      - exact A2.
      - change (fill (TArray vals n1 n2) (VArray l')) with (TArray (zip_fill fill vals l') n1 n2).
        cbn [to_val]. rewrite A3. reflexivity.
      - apply (A4 n1 n2).
      - intros N. apply (A5 [] id n1 n2 N).
      - cbn [tsrc fill leaves]. do 2 apply wv_pre. apply wv_post. exact A6.
      - intros P. inversion P; subst. change (fill (TArray vals n1 n2) (VArray l')) with (TArray (zip_fill fill vals l') n1 n2).
        constructor; auto. }
  6:{ discriminate. }
  all: assert (S0 : scalar_value v0) by (inversion E; exact I);
    assert (SV : scalar_value v) by (inversion S; subst; auto; destruct S0);
    rewrite (scalar_tval _ _ E S0); eexists; apply filled_scalar; auto; apply V; rewrite scalar_leaves by auto; left; auto.
Qed.
