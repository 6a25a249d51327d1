(** The effects of set_value on lookups and on the text. *)
From Coq Require Import Lia ZifyBool ZifyNat ZifyN.
From Verif Require Import Str Regex Types Ast State Nom Keys Grammar Api Facts Spec NomFacts CtorFacts ScalarFacts RoundTrip.
From Verif Require Import FlatFacts ParseFacts WalkFacts DocFacts IdFacts WriteFacts SetFacts ApiSpec ApiFacts.

Lemma valof_hget : forall m k c, valof m k = Some c -> exists hv, hget k m = Some hv /\ hv.(hv_value) = Some c.
Proof. intros m k c V. unfold valof in V. destruct (hget k m) as [hv|]; [eauto|discriminate]. Qed.
Lemma set_value_none : forall s key v, valof s.(p_map) key = None -> set_value s key v = Ok (s, false).
Proof.
  intros s key v V. unfold set_value, valof in *. destruct (hget key (p_map s)) as [hv|]; auto.
  rewrite V. auto.
Qed.

(** ** Same structure *)
Lemma set_same : forall s key c v0 v ws, valof s.(p_map) key = Some c -> filled c.(c_val) v0 v c.(c_id) ws ->
  set_value s key v = Ok (fold_left write ws s, true).
Proof.
  intros s key c v0 v ws V F. destruct (valof_hget _ _ _ V) as (hv & G & HV). unfold set_value. rewrite G, HV.
  rewrite (fi_same _ _ _ _ _ F), (fi_ws _ _ _ _ _ F). reflexivity.
Qed.

Lemma printable_place : forall F a b pre post c c', toml_place F a b pre post -> doc_printable (F c) ->
  tv_printable c'.(c_val) -> doc_printable (F c').
Proof. intros F a b pre post c c' P D T. eapply (pl_ok _ _ _ _ _ _ _ _ _ P); eauto. Qed.

(** the printed text, when a place of the document is rewritten *)
Lemma show_place : forall s s' F a b pre post c c', toml_place F a b pre post -> shaped s.(p_root) -> shaped s'.(p_root) ->
  s.(p_root) = F c -> s'.(p_root) = F c' -> (tv_printable c.(c_val) -> tv_printable c'.(c_val)) ->
  forall t, show_parser s = Ok t ->
  t = pre ++ tsrc c.(c_val) ++ post /\ show_parser s' = Ok (pre ++ tsrc c'.(c_val) ++ post).
Proof.
  intros s s' F a b pre post c c' P Sh Sh' E E' T t H.
  apply (shaped_show s t Sh) in H as (N & D & ->). rewrite E in N, D |- *. split; [apply (pl_src _ _ _ _ _ _ _ _ _ P)|].
  apply shaped_show; auto. rewrite E'. split; [|split].
  - intros Q. pose proof (pl_ids _ _ _ _ _ _ _ _ _ P c') as I. rewrite Q, ids_subcells in I. destruct a; discriminate.
  - eapply printable_place; eauto. apply T. eapply (pl_ok2 _ _ _ _ _ _ _ _ _ P); eauto.
  - symmetry. apply (pl_src _ _ _ _ _ _ _ _ _ P).
Qed.

(** cells of the map and of the document that are the same cell *)
Lemma wf_cells_nodup : forall h s k c, wf h s -> valof s.(p_map) k = Some c -> NoDup (ids (subcells c)).
Proof. intros h s k c W V. eapply (co_dup _ _ (wf_co _ _ W)); eauto. Qed.

Lemma set_same_all : forall h s key v0 v, wf h s -> shaped s.(p_root) -> get_value s key = Ok (Some v0) ->
  same_shape v0 v -> all_valid v ->
  exists s', set_value s key v = Ok (s', true) /\ get_value s' key = Ok (Some v) /\
    (forall k, get_children s' k = get_children s k) /\
    (forall pre post t, key_at s key pre post -> show_parser s = Ok t ->
       exists f, length f = S (length (leaves v0)) /\ length (leaves v) = length (leaves v0) /\
         t = pre ++ weave f (map spelling (leaves v0)) ++ post /\
         show_parser s' = Ok (pre ++ weave f (map spelling (leaves v)) ++ post)).
Proof.
  intros h s key v0 v W Sh G SS AV. apply get_value_some in G as (c & V & T).
  destruct (fill_ok _ _ _ c.(c_id) T SS AV) as (ws & F). pose proof (wf_cells_nodup _ _ _ _ W V) as ND.
  assert (U : upds ws c = Cell c.(c_id) (fill c.(c_val) v)).
  { destruct c as [ci ct]. apply (fi_upd _ _ _ _ _ F). exact ND. }
  eexists. split; [eapply set_same; eauto|]. split; [|split].
  - apply get_value_some. rewrite map_writes, V. eexists. split; [reflexivity|]. rewrite U. apply (fi_val _ _ _ _ _ F).
  - intros k. apply get_children_writes.
  - intros pre post t (c' & V' & L) S. rewrite V in V'. inversion V'; subst c'.
    destruct (located_place _ _ _ _ L) as (P & a & b & E & TP).
    pose proof (wf_dup _ _ W) as D. rewrite <- E, (pl_ids _ _ _ _ _ _ _ _ _ TP) in D.
    assert (R : (fold_left write ws s).(p_root) = P (upds ws c)).
    { eapply root_writes; eauto. eapply Forall_impl; [|eapply replace_writes; apply (fi_ws _ _ _ _ _ F)].
      cbv beta. intros w [_ I]. destruct c as [ci ct]. cbn [c_id c_val] in *. eapply nodup_around; eauto. }
    rewrite U in R. destruct (fi_src _ _ _ _ _ F) as (f & L1 & L2 & S1 & S2). rewrite !map_length in *.
    destruct (show_place s (fold_left write ws s) P a b pre post c _ TP Sh (shaped_writes ws s Sh) (eq_sym E) R) with (t := t)
      as [X Y]; auto.
    { apply (fi_ok _ _ _ _ _ F). }
    exists f. repeat split; auto; [congruence|]. rewrite Y. cbn [c_val]. congruence.
Qed.

(** ** Scalars *)
Lemma same_scalars : forall a b, scalar_value a -> scalar_value b -> same_shape a b.
Proof. intros. apply SS_scalar; auto. Qed.
Lemma valid_scalar : forall v, scalar_value v -> validate v = true -> all_valid v.
Proof. intros v S V x I. rewrite scalar_leaves in I by auto. destruct I as [<-|[]]. auto. Qed.

Lemma set_scalar : forall s key c v0 v, valof s.(p_map) key = Some c -> to_val c.(c_val) = Ok v0 -> scalar_value v0 ->
  scalar_value v -> validate v = true -> set_value s key v = Ok (write s (c.(c_id), leaf_of v), true).
Proof.
  intros s key c v0 v V T S0 S Va. pose proof (filled_scalar v0 v c.(c_id) S0 S Va) as F.
  rewrite <- (scalar_tval _ _ T S0) in F. apply (set_same s key c v0 v _ V F).
Qed.
(** a value that the write leaves alone *)
Lemma other_scalar : forall h s key c k nv, wf h s -> valof s.(p_map) key = Some c -> k <> key ->
  (get_value s k = Ok None \/ exists w, get_value s k = Ok (Some w) /\ scalar_value w) ->
  get_value (write s (c.(c_id), nv)) k = get_value s k.
Proof.
  intros h s key c k nv W V N [G|(w & G & S)].
  - rewrite G. apply get_value_none in G. apply get_value_none. cbn [write p_map set_root set_map]. rewrite valof_upd, G. auto.
  - rewrite G. apply get_value_some in G as (c' & V' & T). apply get_value_some. cbn [write p_map set_root set_map].
    rewrite valof_upd, V'. eexists. split; [reflexivity|]. rewrite upd_c_absent; auto.
    rewrite ids_subcells, (scalar_tval _ _ T S), leaf_cells by apply scalar_leaf. intros [I|[]].
    apply N. eapply (co_inj _ _ (wf_co _ _ W)); eauto.
Qed.

Lemma set_scalar_all : forall h s key v0 v, wf h s -> shaped s.(p_root) -> get_value s key = Ok (Some v0) ->
  scalar_value v0 -> scalar_value v -> validate v = true ->
  exists s', set_value s key v = Ok (s', true) /\ get_value s' key = Ok (Some v) /\
    (forall k, k <> key -> (get_value s k = Ok None \/ exists w, get_value s k = Ok (Some w) /\ scalar_value w) ->
       get_value s' k = get_value s k) /\
    (forall k, get_children s' k = get_children s k) /\
    (forall pre post t, key_at s key pre post -> show_parser s = Ok t ->
       t = pre ++ spelling v0 ++ post /\ show_parser s' = Ok (pre ++ spelling v ++ post)).
Proof.
  intros h s key v0 v W Sh G S0 S Va.
  destruct (set_same_all h s key v0 v W Sh G (same_scalars _ _ S0 S) (valid_scalar _ S Va)) as (s' & A & B & C & D).
  exists s'. split; auto. split; auto. split; [|split; auto].
  - intros k N K. apply get_value_some in G as (c & V & T). pose proof (set_scalar s key c v0 v V T S0 S Va) as E.
    rewrite A in E. inversion E; subst. eapply other_scalar; eauto.
  - intros pre post t K H. destruct (D pre post t K H) as (f & L & _ & X & Y). rewrite scalar_leaves in L, X by auto.
    rewrite scalar_leaves in Y by auto. cbn [length] in L. destruct f as [|f0 [|f1 [|]]]; try discriminate.
    cbn [map weave] in X, Y.
    apply get_value_some in G as (c & V & T). destruct K as (c' & V' & Lo). rewrite V in V'. inversion V'; subst c'.
    destruct (located_place _ _ _ _ Lo) as (P & a & b & E & TP).
    apply (shaped_show s t Sh) in H as (_ & _ & H). rewrite <- E, (pl_src _ _ _ _ _ _ _ _ _ TP) in H.
    rewrite (scalar_tval _ _ T S0), tsrc_leaf in H by auto. rewrite H in X.
    apply app_inv_head in X. rewrite <- app_assoc in X.
    assert (Z : f0 = [] /\ f1 = []).
    { apply (f_equal (@length N)) in X. rewrite !app_length in X. destruct f0; [|cbn [length] in X; lia].
      destruct f1; [auto|cbn [length] in X; lia]. }
    destruct Z as [-> ->]. cbn [app] in *. rewrite app_nil_r in Y. auto.
Qed.

(** ** Restructuring to a flat array or inline table *)
Lemma same_structure_shape : forall t v0 v, to_val t = Ok v0 -> same_structure t v = true -> same_shape v0 v.
Proof.
  induction t using tval_ind'; intros v0 v T S; cbn [same_structure] in S;
    (match type of S with (if negb ?b then _ else _) = _ => destruct b eqn:Va end; cbn [negb] in S; [|discriminate]).
  5:{ destruct v as [| | | | |l|]; try discriminate. cbn [to_val] in T. apply rbind_ok in T as (l0 & T & Q). inversion Q; subst.
      apply SS_array. clear Va Q. revert l0 l T S. induction vals as [|x vals IH]; intros l0 l T S.
      - inversion T; subst. destruct l; [constructor|discriminate].
      - apply rmap_cons in T as (a & b & T1 & T2 & ->). destruct l as [|y l]; [discriminate|].
        inversion H; subst. cbn [all2] in S. apply andb_true_iff in S as [S1 S2]. constructor; auto. }
  6:{ destruct v as [| | | | | |l]; try discriminate. cbn [to_val] in T. apply rbind_ok in T as (l0 & T & Q). inversion Q; subst.
      apply SS_table. clear Va Q. revert l0 l T S. induction kvs as [|x vals IH]; intros l0 l T S.
      - inversion T; subst. destruct l; [constructor|discriminate].
      - apply rmap_cons in T as (a & b & T1 & T2 & ->). destruct l as [|y l]; [discriminate|].
        apply rbind_ok in T1 as (a0 & T1 & Q). inversion Q; subst.
        inversion H; subst. cbn [all2] in S. apply andb_true_iff in S as [S1 S2]. apply andb_true_iff in S1 as [S0 S1].
        constructor; [split; [apply str_eqb_eq; auto|cbn [snd]; auto]|auto]. }
  6:{ discriminate. }
  all: inversion T; subst; apply SS_scalar; [exact I|]; destruct v; try exact I; discriminate.
Qed.

Lemma flat_cons : forall x l, flat (x :: l) -> scalar_value x /\ validate x = true /\ flat l.
Proof. intros x l F. destruct (F x) as [A B]; [left; auto|]. split; auto. split; auto. intros y I. apply F. right; auto. Qed.
Lemma flat2_cons : forall x l, flat2 (x :: l) -> scalar_value (snd x) /\ validate (snd x) = true /\ flat2 l.
Proof. intros x l F. destruct (F x) as [A B]; [left; auto|]. split; auto. split; auto. intros y I. apply F. right; auto. Qed.

Fixpoint conv_avs (l : list value) (n : N) : list array_value :=
  match l with
  | [] => []
  | x :: l' => (match l' with [] => av_last (Cell n (leaf_of x)) | _ => av_default (Cell n (leaf_of x)) end) :: conv_avs l' (n + 1)
  end.
Fixpoint conv_tks (l : list (str * value)) (n : N) : list table_keyval :=
  match l with
  | [] => []
  | x :: l' => (match l' with [] => tkv_last (fst x) (Cell n (leaf_of (snd x))) | _ => tkv_default (fst x) (Cell n (leaf_of (snd x))) end)
                 :: conv_tks l' (n + 1)
  end.
Lemma convert_scalar : forall v n, scalar_value v -> validate v = true -> convert_vector v n = Ok (Some (leaf_of v), n).
Proof. intros v n S V. destruct v; try destruct S; cbn [convert_vector]; rewrite V; reflexivity. Qed.
Lemma conv_array_eq : forall f x l n t n1 vs n2, f x n = Ok (Some t, n1) -> conv_array f l (n1 + 1) = Ok (Some vs, n2) ->
  conv_array f (x :: l) n = Ok (Some ((match l with [] => av_last (Cell n1 t) | _ => av_default (Cell n1 t) end) :: vs), n2).
Proof. intros f x l n t n1 vs n2 E1 E2. unfold conv_array in *. rewrite E1. cbn [rbind]. rewrite E2. reflexivity. Qed.
Lemma conv_table_eq : forall f x l n t n1 vs n2, f (snd x) n = Ok (Some t, n1) -> conv_table f l (n1 + 1) = Ok (vs, n2) ->
  conv_table f (x :: l) n = Ok ((match l with [] => tkv_last (fst x) (Cell n1 t) | _ => tkv_default (fst x) (Cell n1 t) end) :: vs, n2).
Proof. intros f x l n t n1 vs n2 E1 E2. unfold conv_table in *. rewrite E1. cbn [rbind]. rewrite E2. reflexivity. Qed.
Lemma conv_array_flat : forall l n, flat l -> conv_array convert_vector l n = Ok (Some (conv_avs l n), n + nlen l).
Proof.
  induction l as [|x l IH]; intros n F; [cbn; f_equal; f_equal; lia|]. apply flat_cons in F as (S & V & F).
  rewrite (conv_array_eq _ _ _ _ _ _ _ _ (convert_scalar x n S V) (IH (n + 1) F)). cbn [conv_avs]. unfold nlen. cbn [length].
  do 2 f_equal. lia.
Qed.
Lemma conv_table_flat : forall l n, flat2 l -> conv_table convert_vector l n = Ok (conv_tks l n, n + nlen l).
Proof.
  induction l as [|x l IH]; intros n F; [cbn; f_equal; f_equal; lia|]. apply flat2_cons in F as (S & V & F).
  rewrite (conv_table_eq _ _ _ _ _ _ _ _ (convert_scalar (snd x) n S V) (IH (n + 1) F)). cbn [conv_tks]. unfold nlen. cbn [length].
  do 2 f_equal. lia.
Qed.

Definition flat_array (l : list value) (n : N) : tval := TArray (conv_avs l n) [] [].
Definition flat_table (l : list (str * value)) (n : N) : tval := TInlineTable (conv_tks l n) {| ws1 := lit " "; ws2 := lit " " |}.
Lemma convert_array : forall l n, flat l -> convert_vector (VArray l) n = Ok (Some (flat_array l n), n + nlen l).
Proof. intros l n F. cbn [convert_vector validate negb]. rewrite conv_array_flat by auto. reflexivity. Qed.
Lemma convert_table : forall l n, flat2 l -> convert_vector (VInlineTable l) n = Ok (Some (flat_table l n), n + nlen l).
Proof. intros l n F. cbn [convert_vector validate negb]. rewrite conv_table_flat by auto. reflexivity. Qed.

Lemma to_val_array : forall l n, flat l -> to_val (flat_array l n) = Ok (VArray l).
Proof.
  intros l n F. unfold flat_array. cbn [to_val].
  assert (E : rmap (fun av : array_value => to_val av.(av_val).(c_val)) (conv_avs l n) = Ok l).
  { revert n. induction l as [|x l IH]; intros n; auto. apply flat_cons in F as (S & V & F). cbn [conv_avs].
    apply rmap_eq; [|apply IH; auto]. destruct l; apply to_val_leaf; auto. }
  rewrite E. reflexivity.
Qed.
Lemma to_val_table : forall l n, flat2 l -> to_val (flat_table l n) = Ok (VInlineTable l).
Proof.
  intros l n F. unfold flat_table. cbn [to_val].
  assert (E : rmap (fun tk : table_keyval => let? x := to_val tk.(tk_kv).(kv_val).(c_val) in Ok (tk.(tk_kv).(kv_key), x)) (conv_tks l n) = Ok l).
  { revert n. induction l as [|[k x] l IH]; intros n; auto. apply flat2_cons in F as (S & V & F). cbn [conv_tks fst snd] in *.
    apply rmap_eq; [|apply IH; auto]. destruct l; cbn [tkv_last tkv_default tk_kv kv_val kv_key c_val]; rewrite to_val_leaf by auto; auto. }
  rewrite E. reflexivity.
Qed.
Lemma src_last : forall c, av_src_ tsrc (av_last c) = tsrc c.(c_val).
Proof. intros c. unfold av_src_, av_last. cbn [av_val av_sep av_nls show_sep]. change (show_cons []) with (@nil N). rewrite !app_nil_r. auto. Qed.
Lemma src_default : forall c, av_src_ tsrc (av_default c) = tsrc c.(c_val) ++ lit ", ".
Proof. reflexivity. Qed.
Lemma src_last2 : forall k c, tk_src_ tsrc (tkv_last k c) = k ++ lit " = " ++ tsrc c.(c_val).
Proof.
  intros k c. unfold tk_src_, sep_src, tkv_last. cbn [tk_kv tk_sep tk_nls kv_key kv_sep kv_val ws1 ws2 show_sep].
  change (show_cons []) with (@nil N). rewrite !app_nil_r. reflexivity.
Qed.
Lemma src_default2 : forall k c, tk_src_ tsrc (tkv_default k c) = (k ++ lit " = " ++ tsrc c.(c_val)) ++ lit ", ".
Proof. intros k c. unfold tk_src_, sep_src, tkv_default. cbn [tk_kv tk_sep tk_nls kv_key kv_sep kv_val ws1 ws2]. reflexivity. Qed.

Lemma comma_cons : forall x y l, comma_list (x :: y :: l) = (x ++ lit ", ") ++ comma_list (y :: l).
Proof. intros. cbn [comma_list]. rewrite <- app_assoc. reflexivity. Qed.
Lemma src_array : forall l n, flat l -> tsrc (flat_array l n) = lit "[" ++ comma_list (map spelling l) ++ lit "]".
Proof.
  intros l n F. unfold flat_array. cbn [tsrc]. f_equal. change (show_cons []) with (@nil N). cbn [app]. f_equal.
  revert n. induction l as [|x l IH]; intros n; auto. apply flat_cons in F as (S & V & F). cbn [conv_avs map concat].
  rewrite IH by auto. destruct l as [|y l].
  - rewrite src_last. cbn [c_val]. rewrite tsrc_leaf by auto. apply app_nil_r.
  - rewrite src_default. cbn [c_val]. rewrite tsrc_leaf by auto. cbn [map]. rewrite comma_cons. reflexivity.
Qed.
Lemma src_table : forall l n, flat2 l ->
  tsrc (flat_table l n) = lit "{ " ++ comma_list (map (fun kv => fst kv ++ lit " = " ++ spelling (snd kv)) l) ++ lit " }".
Proof.
  intros l n F. unfold flat_table. cbn [tsrc ws1 ws2]. change (lit "{ ") with (lit "{" ++ lit " "). rewrite <- !app_assoc.
  do 2 f_equal. change (lit " }") with (lit " " ++ lit "}"). f_equal.
  revert n. induction l as [|x l IH]; intros n; auto. apply flat2_cons in F as (S & V & F). cbn [conv_tks map concat].
  rewrite IH by auto. destruct l as [|y l].
  - rewrite src_last2. cbn [c_val]. rewrite tsrc_leaf by auto. apply app_nil_r.
  - rewrite src_default2. cbn [c_val]. rewrite tsrc_leaf by auto. cbn [map]. rewrite comma_cons. reflexivity.
Qed.
Lemma printable_array : forall l n, tv_printable (flat_array l n).
Proof.
  intros l n. constructor. revert n. induction l as [|x l IH]; intros n; cbn [conv_avs]; constructor; auto.
  destruct l; apply leaf_printable, scalar_leaf.
Qed.
Lemma printable_table : forall l n, l <> [] -> tv_printable (flat_table l n).
Proof.
  intros l n NE. constructor; [destruct l; [congruence|discriminate]|]. clear NE. revert n.
  induction l as [|x l IH]; intros n; cbn [conv_tks]; constructor; auto.
  destruct l; apply leaf_printable, scalar_leaf.
Qed.

(** ** rebuild_vector on flat values *)
Lemma rebuild_leaf : forall v id k m, rebuild_vector (leaf_of v) id k false m =
  Ok (if hmem k m then m else hput k (hv_new_count (Cell id (leaf_of v))) m).
Proof. intros [] id k m; reflexivity. Qed.
Lemma rfold_eq : forall A S (f : N -> A -> S -> res S) i x l s s1, f i x s = Ok s1 -> rfold f i (x :: l) s = rfold f (i + 1) l s1.
Proof. intros A S f i x l s s1 E. unfold rfold. rewrite E. reflexivity. Qed.
Lemma idx_inj : forall key i j, key ++ idx_str i = key ++ idx_str j -> i = j.
Proof.
  intros key i j H. apply app_inv_head in H. unfold idx_str in H. apply app_inv_head in H. apply app_inv_tail in H.
  apply dec_inj; auto.
Qed.
Lemma hmem_hget : forall k (m : vmap), hmem k m = match hget k m with Some _ => true | None => false end.
Proof. intros k m. unfold hmem. destruct (hget k m); auto. Qed.
Lemma leafput_other : forall k k' c (m : vmap), k' <> k -> hget k' (if hmem k m then m else hput k (hv_new_count c) m) = hget k' m.
Proof. intros k k' c m N. destruct (hmem k m); auto. apply hget_hput_other; auto. Qed.
Lemma leafput_same : forall k c (m : vmap), hget k m = None -> hget k (if hmem k m then m else hput k (hv_new_count c) m) = Some (hv_new_count c).
Proof. intros k c m N. rewrite hmem_hget, N. apply hget_hput_same. Qed.

Definition elem_step (key : str) : N -> array_value -> vmap -> res vmap :=
  fun i av m => rebuild_vector av.(av_val).(c_val) av.(av_val).(c_id) (key ++ idx_str i) false m.
Definition entry_step (key : str) : N -> table_keyval -> vmap -> res vmap :=
  fun _ tk m => rebuild_vector tk.(tk_kv).(kv_val).(c_val) tk.(tk_kv).(kv_val).(c_id) (key ++ lit "." ++ tk.(tk_kv).(kv_key)) false m.

Lemma rebuild_elems : forall l n key i m, exists m', rfold (elem_step key) i (conv_avs l n) m = Ok m' /\
  (forall k, (forall j, i <= j < i + nlen l -> k <> key ++ idx_str j) -> hget k m' = hget k m) /\
  ((forall j, i <= j -> hget (key ++ idx_str j) m = None) ->
   forall j x, nth_error l j = Some x -> exists id, hget (key ++ idx_str (i + N.of_nat j)) m' = Some (hv_new_count (Cell id (leaf_of x)))).
Proof.
  induction l as [|x l IH]; intros n key i m.
  - exists m. split; [reflexivity|]. split; auto. intros _ [|j] y H; discriminate.
  - cbn [conv_avs]. set (c := Cell n (leaf_of x)).
    set (m1 := if hmem (key ++ idx_str i) m then m else hput (key ++ idx_str i) (hv_new_count c) m).
    assert (E : elem_step key i (match l with [] => av_last c | _ => av_default c end) m = Ok m1).
    { unfold elem_step. destruct l; apply rebuild_leaf. }
    destruct (IH (n + 1) key (i + 1) m1) as (m' & R & O & V).
    exists m'. split; [rewrite (rfold_eq _ _ _ _ _ _ _ _ E); exact R|].
    assert (L : nlen (x :: l) = nlen l + 1) by (unfold nlen; cbn [length]; lia). rewrite L. split.
    + intros k N. rewrite O by (intros j J; apply N; lia). unfold m1. apply leafput_other. apply N. lia.
    + intros A j y H. destruct j as [|j]; cbn [nth_error] in H.
      * inversion H; subst. exists n. replace (i + N.of_nat 0) with i by lia. rewrite O.
        -- unfold m1. apply leafput_same. apply A. lia.
        -- intros j J Q. apply idx_inj in Q. lia.
      * destruct (V) with (j := j) (x := y) as (id & Q); auto.
        -- intros q J. unfold m1. rewrite leafput_other; [apply A; lia|]. intros Q. apply idx_inj in Q. lia.
        -- exists id. rewrite <- Q. do 3 f_equal. lia.
Qed.
Lemma dot_inj : forall key a b, key ++ lit "." ++ a = key ++ lit "." ++ b -> a = b.
Proof. intros key a b H. apply app_inv_head, app_inv_head in H. auto. Qed.
Lemma rebuild_entries : forall l n key i m, exists m', rfold (entry_step key) i (conv_tks l n) m = Ok m' /\
  (forall k, (forall e, In e (map fst l) -> k <> key ++ lit "." ++ e) -> hget k m' = hget k m) /\
  (NoDup (map fst l) -> (forall e, In e (map fst l) -> hget (key ++ lit "." ++ e) m = None) ->
   forall e x, In (e, x) l -> exists id, hget (key ++ lit "." ++ e) m' = Some (hv_new_count (Cell id (leaf_of x)))).
Proof.
  induction l as [|[e x] l IH]; intros n key i m.
  - exists m. split; [reflexivity|]. split; auto. intros _ _ e y [].
  - cbn [conv_tks fst snd map]. set (c := Cell n (leaf_of x)).
    set (m1 := if hmem (key ++ lit "." ++ e) m then m else hput (key ++ lit "." ++ e) (hv_new_count c) m).
    assert (E : entry_step key i (match l with [] => tkv_last e c | _ => tkv_default e c end) m = Ok m1).
    { unfold entry_step. destruct l; apply rebuild_leaf. }
    destruct (IH (n + 1) key (i + 1) m1) as (m' & R & O & V).
    exists m'. split; [rewrite (rfold_eq _ _ _ _ _ _ _ _ E); exact R|]. split.
    + intros k N. rewrite O by (intros j J; apply N; right; auto). unfold m1. apply leafput_other. apply N. left; auto.
    + intros ND A e' y I. inversion ND; subst. destruct I as [I|I].
      * inversion I; subst. exists n. rewrite O.
        -- unfold m1. apply leafput_same. apply A. left; auto.
        -- intros j J Q. apply dot_inj in Q. subst. auto.
      * apply V; auto. intros e2 J. unfold m1. rewrite leafput_other; [apply A; right; auto|].
        intros Q. apply dot_inj in Q. subst. auto.
Qed.

(** ** set_value on the restructuring path *)
Lemma set_restructure : forall s key c v ks nv n m s1, valof s.(p_map) key = Some c -> same_structure c.(c_val) v = false ->
  get_all_subkeys s.(p_map) key = Ok ks -> convert_vector v s.(p_next) = Ok (Some nv, n) -> ~ leaf nv ->
  s1 = write (set_next n (set_map (removed ks s.(p_map)) s)) (c.(c_id), nv) ->
  rebuild_vector nv n key true s1.(p_map) = Ok m ->
  set_value s key v = Ok (set_map m (set_next (n + 1) s1), true).
Proof.
  intros s key c v ks nv n m s1 V SS K C L E R. destruct (valof_hget _ _ _ V) as (hv & G & HV). unfold set_value.
  rewrite G, HV, SS, K. cbn [rbind]. fold (removed ks (p_map s)). cbn [p_next set_map]. rewrite C. cbn [rbind p_map set_next set_map].
  destruct (get_all_subkeys_ok (p_map s) key) as (l & E3 & F). rewrite K in E3. inversion E3; subst l.
  rewrite removed_keep by (intros I; rewrite Forall_forall in F; apply F in I; apply below_neq in I; auto).
  rewrite G, HV. cbn [rbind]. subst s1. destruct nv; try (exfalso; apply L; exact I).
  - unfold new_cell. match goal with |- rbind ?x _ = _ => replace x with (Ok m) by (symmetry; exact R) end. reflexivity.
  - unfold new_cell. match goal with |- rbind ?x _ = _ => replace x with (Ok m) by (symmetry; exact R) end. reflexivity.
Qed.

Lemma below_index : forall key i, below key (key ++ idx_str i).
Proof. intros key i. exists 91, (dec i ++ lit "]"). auto. Qed.
Lemma below_dot : forall key k, below key (key ++ lit "." ++ k).
Proof. intros key k. exists 46, k. auto. Qed.


Lemma not_below_root : forall key, ~ below key root_key.
Proof.
  intros key (c & r & E & D). assert (I : In c root_key) by (rewrite E; apply in_app_iff; right; left; auto).
  revert I. destruct D as [-> | ->]; vm_compute; intuition discriminate.
Qed.

Section Restructure.
Variables (h : N -> tval) (s : pst) (key : str) (c : cell) (v : value) (ks : list str) (nv : tval) (n : N) (m : vmap).
Let s1 := write (set_next n (set_map (removed ks s.(p_map)) s)) (c.(c_id), nv).
Let s' := set_map m (set_next (n + 1) s1).
Hypothesis W : wf h s.
Hypothesis Sh : shaped s.(p_root).
Hypothesis V : valof s.(p_map) key = Some c.
Hypothesis K : get_all_subkeys s.(p_map) key = Ok ks.
Hypothesis R : forall k, k <> key -> ~ below key k -> hget k m = hget k s1.(p_map).

Lemma re_keys : Forall (below key) ks.
Proof using K. clear R. destruct (get_all_subkeys_ok (p_map s) key) as (l & E & F). rewrite K in E. injection E as E. rewrite E; auto. Qed.
Lemma re_keep : forall k, ~ below key k -> hget k (removed ks s.(p_map)) = hget k s.(p_map).
Proof using K. clear R. intros k N. apply removed_keep. intros I. apply N. pose proof re_keys as F. rewrite Forall_forall in F. auto. Qed.

Lemma re_write : exists s0, s0 = set_next n (set_map (removed ks s.(p_map)) s) /\ s1 = write s0 (c.(c_id), nv).
Proof. eexists. split; reflexivity. Qed.

Lemma re_other : key <> root_key -> other_same key s s'.
Proof.
  intros NR k N B. split.
  - unfold get_children, s'. cbn [p_map set_map set_next].
    assert (X : (match k with [] => root_key | _ => k end) <> key /\ ~ below key (match k with [] => root_key | _ => k end)).
    { destruct k; split; auto. apply not_below_root. }
    rewrite R by tauto. unfold s1. cbn [write p_map set_root set_map set_next]. rewrite hget_upd, re_keep by tauto.
    destruct (hget _ (p_map s)) as [[]|]; auto.
  - assert (Vk : valof m k = match valof s.(p_map) k with Some c0 => Some (upd_c c.(c_id) nv c0) | None => None end).
    { unfold valof at 1. rewrite R by auto. unfold s1. cbn [write p_map set_root set_map set_next]. 
      change (match hget k (upd_map (c_id c) nv (removed ks (p_map s))) with Some hv => hv_value hv | None => None end)
        with (valof (upd_map (c_id c) nv (removed ks (p_map s))) k). rewrite valof_upd.
      unfold valof. rewrite re_keep by auto. auto. }
    intros [G|(w & G & S)].
    + rewrite G. apply get_value_none in G. apply get_value_none. cbn [s' p_map set_map set_next]. rewrite Vk, G. auto.
    + rewrite G. apply get_value_some in G as (c' & V' & T). apply get_value_some. cbn [s' p_map set_map set_next].
      rewrite Vk, V'. eexists. split; [reflexivity|]. rewrite upd_c_absent; auto.
      rewrite ids_subcells, (scalar_tval _ _ T S), leaf_cells by apply scalar_leaf. intros [I|[]].
      apply N. eapply (co_inj _ _ (wf_co _ _ W)); eauto.
Qed.
Lemma re_text : tv_printable nv -> forall pre post t, key_at s key pre post -> show_parser s = Ok t ->
  t = pre ++ tsrc c.(c_val) ++ post /\ show_parser s' = Ok (pre ++ tsrc nv ++ post).
Proof.
  intros P pre post t (c' & V' & L) S. rewrite V in V'. inversion V'; subst c'.
  destruct (located_place _ _ _ _ L) as (F & a & b & E & TP).
  pose proof (wf_dup _ _ W) as D. rewrite <- E, (pl_ids _ _ _ _ _ _ _ _ _ TP) in D.
  assert (RT : s'.(p_root) = F (Cell c.(c_id) nv)).
  { change (upd_toml c.(c_id) nv s.(p_root) = F (Cell c.(c_id) nv)). rewrite <- E.
    destruct (nodup_around _ _ _ D c.(c_id)) as [A B]; [rewrite ids_subcells; left; auto|].
    rewrite (pl_up _ _ _ _ _ _ _ _ _ TP) by auto. f_equal. rewrite upd_c_eq, N.eqb_refl. auto. }
  eapply (show_place s s' F a b pre post c (Cell c.(c_id) nv) TP); eauto.
  change (shaped (write s (c.(c_id), nv)).(p_root)). apply shaped_write; auto.
Qed.
Lemma re_key : forall hv, hget key s.(p_map) = Some hv ->
  hget key s1.(p_map) = Some (HashValue (Some (Cell c.(c_id) nv)) hv.(hv_subkeys)).
Proof using V K.
  clear R. intros hv G. unfold s1. cbn [write p_map set_root set_map set_next]. rewrite hget_upd, re_keep, G by apply below_neq.
  unfold valof in V. rewrite G in V. rewrite V, upd_c_eq, N.eqb_refl. auto.
Qed.
Lemma re_none : forall k, hget k s.(p_map) = None \/ In k ks -> hget k s1.(p_map) = None.
Proof.
  intros k H. unfold s1. cbn [write p_map set_root set_map set_next]. rewrite hget_upd, hget_removed.
  destruct (vcontains ks k) eqn:E; auto. destruct H as [H|H]; [rewrite H; auto|]. apply vcontains_in in H. congruence.
Qed.
End Restructure.

Lemma shape_differs : forall c v0 v, to_val c.(c_val) = Ok v0 -> ~ same_shape v0 v -> same_structure c.(c_val) v = false.
Proof.
  intros c v0 v T N. destruct (same_structure (c_val c) v) eqn:E; auto. exfalso. apply N. eapply same_structure_shape; eauto.
Qed.
Lemma nrange_in : forall n i, In i (nrange n) <-> i < n.
Proof.
  intros n i. unfold nrange. rewrite in_map_iff. split.
  - intros (x & <- & I). apply in_seq in I. lia.
  - intros L. exists (N.to_nat i). split; [lia|]. apply in_seq. lia.
Qed.
Lemma children_get : forall s k, k <> [] -> get_children s k =
  match hget k s.(p_map) with Some hv => Some hv.(hv_subkeys) | None => None end.
Proof. intros s [|x k] N; [congruence|]. reflexivity. Qed.
Lemma key_idx_ne : forall key i, key ++ idx_str i <> [].
Proof. intros key i H. apply app_eq_nil in H as [_ H]. discriminate. Qed.
Lemma key_dot_ne : forall key k, key ++ lit "." ++ k <> [].
Proof. intros key i H. apply app_eq_nil in H as [_ H]. discriminate. Qed.

Lemma set_flat_array : forall h s key v0 l, wf h s -> shaped s.(p_root) -> key <> root_key ->
  get_value s key = Ok (Some v0) -> flat l -> ~ same_shape v0 (VArray l) ->
  exists s', set_value s key (VArray l) = Ok (s', true) /\ get_value s' key = Ok (Some (VArray l)) /\ other_same key s s' /\
    (key <> [] -> get_children s' key = Some (Count (nlen l))) /\
    (forall n, key <> [] -> get_children s key = Some (Count n) -> (forall i, n <= i -> get_children s (key ++ idx_str i) = None) ->
       forall i, get_value s' (key ++ idx_str i) = Ok (nth_error l (N.to_nat i)) /\
                 get_children s' (key ++ idx_str i) = match nth_error l (N.to_nat i) with Some _ => Some (Count 0) | None => None end) /\
    (forall pre post t, key_at s key pre post -> show_parser s = Ok t ->
       (exists old, t = pre ++ old ++ post) /\
       show_parser s' = Ok (pre ++ lit "[" ++ comma_list (map spelling l) ++ lit "]" ++ post)).
Proof.
  intros h s key v0 l W Sh NR G F NS. apply get_value_some in G as (c & V & T).
  destruct (get_all_subkeys_ok (p_map s) key) as (ks & K & B).
  pose proof (shape_differs _ _ _ T NS) as SS. pose proof (convert_array l s.(p_next) F) as C.
  set (n := p_next s + nlen l) in *. set (nv := flat_array l (p_next s)) in *.
  set (s1 := write (set_next n (set_map (removed ks s.(p_map)) s)) (c.(c_id), nv)).
  destruct (valof_hget _ _ _ V) as (hv & Gk & HV).
  pose proof (re_key s key c ks nv n V K hv Gk) as K1. fold s1 in K1.
  set (m1 := hput key (HashValue (Some (Cell c.(c_id) nv)) (Count (nlen (conv_avs l (p_next s))))) s1.(p_map)).
  destruct (rebuild_elems l (p_next s) key 0 m1) as (m & R & O & E).
  assert (RV : rebuild_vector nv n key true s1.(p_map) = Ok m).
  { unfold nv, flat_array. cbn [rebuild_vector]. rewrite K1. cbn [hv_value]. exact R. }
  assert (LN : nlen (conv_avs l (p_next s)) = nlen l).
  { clear. generalize (p_next s). induction l as [|x l IH]; intros n; auto. cbn [conv_avs]. unfold nlen in *. cbn [length].
    specialize (IH (n + 1)). lia. }
  assert (OK : hget key m = Some (HashValue (Some (Cell c.(c_id) nv)) (Count (nlen l)))).
  { rewrite O; [|intros j _ Q; symmetry in Q; pose proof (below_index key j) as X; rewrite Q in X; apply below_neq in X; auto].
    unfold m1. rewrite hget_hput_same, LN. auto. }
  assert (OO : forall k, k <> key -> ~ below key k -> hget k m = hget k (p_map s1)).
  { intros k Nk Bk. rewrite O by (intros j _ ->; apply Bk, below_index). apply hget_hput_other. auto. }
  exists (set_map m (set_next (n + 1) s1)).
  split; [eapply set_restructure; eauto; intros []|]. split; [|split; [|split; [|split]]].
  - apply get_value_some. exists (Cell c.(c_id) nv). cbn [p_map set_map set_next]. unfold valof. rewrite OK. split; auto.
    cbn [c_val]. apply to_val_array; auto.
  - eapply re_other; eauto.
  - intros Nk. rewrite children_get by auto. cbn [p_map set_map set_next]. rewrite OK. auto.
  - intros q Nk Ch Ab i.
    assert (NO : forall j, hget (key ++ idx_str j) m1 = None).
    { intros j. unfold m1. rewrite hget_hput_other by (intros Q; pose proof (below_index key j) as X; rewrite Q in X; apply below_neq in X; auto).
      apply re_none. destruct (N.lt_ge_cases j q) as [L|L].
      - right. rewrite children_get in Ch by auto. rewrite Gk in Ch. injection Ch as Ch.
        eapply subkeys_direct; [exact K|exact Gk|]. rewrite Ch. cbn [direct]. apply in_map_iff. exists j. split; auto.
        apply nrange_in; auto.
      - left. specialize (Ab j L). rewrite children_get in Ab; [|apply key_idx_ne].
        destruct (hget (key ++ idx_str j) (p_map s)); auto. discriminate. }
    assert (X : hget (key ++ idx_str i) m = match nth_error l (N.to_nat i) with
                | Some x => match hget (key ++ idx_str i) m with Some hv => Some (HashValue (hv_value hv) (Count 0)) | None => None end
                | None => None end /\ valof m (key ++ idx_str i) = match nth_error l (N.to_nat i) with
                | Some x => match valof m (key ++ idx_str i) with Some c => Some (Cell c.(c_id) (leaf_of x)) | None => None end
                | None => None end /\ (nth_error l (N.to_nat i) <> None -> valof m (key ++ idx_str i) <> None)).
    { destruct (nth_error l (N.to_nat i)) as [x|] eqn:Q.
      - destruct (E (fun j _ => NO j) _ _ Q) as (id & H). replace (0 + N.of_nat (N.to_nat i)) with i in H by lia.
        unfold valof. rewrite H. cbn [hv_new_count hv_value hv_subkeys c_id]. repeat split; auto. discriminate.
      - apply nth_error_None in Q. unfold valof. rewrite O, NO; [repeat split; auto|].
        intros j J Z. apply idx_inj in Z. unfold nlen in J. lia. }
    destruct X as (X1 & X2 & X3). split.
    + destruct (nth_error l (N.to_nat i)) as [x|] eqn:Q.
      * apply get_value_some. cbn [p_map set_map set_next]. destruct (valof m (key ++ idx_str i)) as [c0|]; [|exfalso; apply X3; auto; discriminate].
        eexists. split; [reflexivity|]. injection X2 as X2. rewrite X2. cbn [c_val]. apply to_val_leaf. apply nth_error_In in Q. apply F in Q. tauto.
      * apply get_value_none. exact X2.
    + rewrite children_get by apply key_idx_ne. cbn [p_map set_map set_next].
      destruct (nth_error l (N.to_nat i)) as [x|].
      * destruct (hget (key ++ idx_str i) m) as [hv0|] eqn:H; [injection X1 as X1; rewrite X1; auto|].
        exfalso. apply X3; [discriminate|]. unfold valof. rewrite H. auto.
      * rewrite X1. auto.
  - intros pre post t KA S.
    destruct (re_text h s key c ks nv n m W Sh V (printable_array _ _) pre post t KA S) as [X Y].
    split; [eauto|]. fold s1 in Y. rewrite Y. unfold nv. rewrite src_array by auto. rewrite <- !app_assoc. auto.
Qed.

Lemma vinsert_all : forall kvs l0, fold_left (fun l (tk : table_keyval) => fst (vinsert l tk.(tk_kv).(kv_key))) kvs l0 =
  fold_left (fun l k => fst (vinsert l k)) (map (fun tk : table_keyval => tk.(tk_kv).(kv_key)) kvs) l0.
Proof. induction kvs; intros; cbn [fold_left map]; auto. Qed.
Lemma conv_tks_keys : forall l n, map (fun tk : table_keyval => tk.(tk_kv).(kv_key)) (conv_tks l n) = map fst l.
Proof. induction l as [|x l IH]; intros n; auto. cbn [conv_tks map]. rewrite IH. destruct l; auto. Qed.
Lemma vinsert_list : forall new l0, NoDup new -> fold_left (fun l k => fst (vinsert l k)) new l0 =
  l0 ++ filter (fun k => negb (vcontains l0 k)) new.
Proof.
  intros new l0 N. assert (G : forall done l, NoDup new -> (forall k, In k new -> In k l <-> In k l0) ->
    l = done -> fold_left (fun l k => fst (vinsert l k)) new l = l ++ filter (fun k => negb (vcontains l0 k)) new).
  { clear N. induction new as [|k new IH]; intros done l N H E; [cbn; rewrite app_nil_r; auto|].
    inversion N; subst. cbn [fold_left filter].
    destruct (vcontains done k) eqn:C.
    - assert (C0 : vcontains l0 k = true).
      { apply vcontains_in. apply H; [left; auto|]. apply vcontains_in; auto. }
      replace (fst (vinsert done k)) with done by (unfold vinsert; rewrite C; auto).
      rewrite C0. cbn [negb]. eapply IH; auto. intros k' I. apply H. right; auto.
    - assert (C0 : vcontains l0 k = false).
      { destruct (vcontains l0 k) eqn:Q; auto. apply vcontains_in in Q. apply H in Q; [|left; auto].
        apply vcontains_in in Q. congruence. }
      replace (fst (vinsert done k)) with (done ++ [k]) by (unfold vinsert; rewrite C; auto).
      rewrite C0. cbn [negb]. rewrite (IH (done ++ [k]) (done ++ [k])); auto.
      + rewrite <- app_assoc. reflexivity.
      + intros k' I. rewrite in_app_iff. rewrite H by (right; auto). split; auto. intros [J|[<-|[]]]; auto. contradiction. }
  apply (G l0); auto. intros; tauto.
Qed.

Lemma set_flat_table : forall h s key v0 l, wf h s -> shaped s.(p_root) -> key <> root_key ->
  get_value s key = Ok (Some v0) -> flat2 l -> ~ same_shape v0 (VInlineTable l) ->
  exists s', set_value s key (VInlineTable l) = Ok (s', true) /\ get_value s' key = Ok (Some (VInlineTable l)) /\ other_same key s s' /\
    (key <> [] -> NoDup (map fst l) -> get_children s' key = match get_children s key with
       | Some (Keys l0) => Some (Keys (l0 ++ filter (fun k => negb (vcontains l0 k)) (map fst l)))
       | ch => ch end) /\
    (forall l0, key <> [] -> NoDup (map fst l) -> get_children s key = Some (Keys l0) ->
       (forall k, In k (map fst l) -> ~ In k l0 -> get_children s (key ++ lit "." ++ k) = None) ->
       (forall k x, In (k, x) l -> get_value s' (key ++ lit "." ++ k) = Ok (Some x)) /\
       (forall k, In k l0 -> ~ In k (map fst l) -> get_value s' (key ++ lit "." ++ k) = Ok None)) /\
    (forall pre post t, l <> [] -> key_at s key pre post -> show_parser s = Ok t ->
       (exists old, t = pre ++ old ++ post) /\
       show_parser s' = Ok (pre ++ lit "{ " ++ comma_list (map (fun kv => fst kv ++ lit " = " ++ spelling (snd kv)) l) ++ lit " }" ++ post)).
Proof.
  intros h s key v0 l W Sh NR G F NS. apply get_value_some in G as (c & V & T).
  destruct (get_all_subkeys_ok (p_map s) key) as (ks & K & B).
  pose proof (shape_differs _ _ _ T NS) as SS. pose proof (convert_table l s.(p_next) F) as C.
  set (n := p_next s + nlen l) in *. set (nv := flat_table l (p_next s)) in *.
  set (s1 := write (set_next n (set_map (removed ks s.(p_map)) s)) (c.(c_id), nv)).
  destruct (valof_hget _ _ _ V) as (hv & Gk & HV).
  pose proof (re_key s key c ks nv n V K hv Gk) as K1. fold s1 in K1.
  set (sub := match hv.(hv_subkeys) with
              | Keys l1 => Keys (fold_left (fun l (tk : table_keyval) => fst (vinsert l tk.(tk_kv).(kv_key))) (conv_tks l (p_next s)) l1)
              | Count n => Count n end).
  set (m1 := hput key (HashValue (Some (Cell c.(c_id) nv)) sub) s1.(p_map)).
  destruct (rebuild_entries l (p_next s) key 0 m1) as (m & R & O & E).
  assert (RV : rebuild_vector nv n key true s1.(p_map) = Ok m).
  { unfold nv, flat_table. cbn [rebuild_vector]. rewrite K1. cbn [hv_value hv_subkeys]. exact R. }
  assert (OK : hget key m = Some (HashValue (Some (Cell c.(c_id) nv)) sub)).
  { rewrite O; [|intros j _ Q; pose proof (below_dot key j) as X; rewrite <- Q in X; apply below_neq in X; auto].
    unfold m1. rewrite hget_hput_same. auto. }
  assert (OO : forall k, k <> key -> ~ below key k -> hget k m = hget k (p_map s1)).
  { intros k Nk Bk. rewrite O by (intros j _ ->; apply Bk, below_dot). apply hget_hput_other. auto. }
  exists (set_map m (set_next (n + 1) s1)).
  split; [eapply set_restructure; eauto; intros []|]. split; [|split; [|split; [|split]]].
  - apply get_value_some. exists (Cell c.(c_id) nv). cbn [p_map set_map set_next]. unfold valof. rewrite OK. split; auto.
    cbn [c_val]. apply to_val_table; auto.
  - eapply re_other; eauto.
  - intros Nk ND. rewrite children_get by auto. cbn [p_map set_map set_next]. rewrite OK. cbn [hv_subkeys]. unfold sub.
    destruct (get_children s key) as [ch|] eqn:CH; rewrite children_get in CH by auto; rewrite Gk in CH; [|discriminate].
    injection CH as <-. destruct (hv_subkeys hv); auto. rewrite vinsert_all, conv_tks_keys, vinsert_list; auto.
  - intros l0 Nk ND Ch Ab. rewrite children_get in Ch by auto. rewrite Gk in Ch. injection Ch as Ch.
    assert (NB : forall j, key ++ lit "." ++ j <> key).
    { intros j Q; pose proof (below_dot key j) as X; rewrite Q in X; apply below_neq in X; auto. }
    assert (NO : forall j, In j (map fst l) \/ In j l0 -> hget (key ++ lit "." ++ j) m1 = None).
    { intros j J. unfold m1. rewrite hget_hput_other by auto.
      apply re_none. destruct (in_dec (list_eq_dec N.eq_dec) j l0) as [L|L].
      - right. eapply subkeys_direct; [exact K|exact Gk|]. rewrite Ch. cbn [direct]. apply in_map_iff. exists j. auto.
      - left. destruct J as [J|J]; [|contradiction]. specialize (Ab j J L). rewrite children_get in Ab; [|apply key_dot_ne].
        destruct (hget (key ++ lit "." ++ j) (p_map s)); auto. discriminate. }
    split.
    + intros k x I. destruct (E ND (fun e J => NO e (or_introl J)) k x I) as (id & H).
      apply get_value_some. cbn [p_map set_map set_next]. unfold valof. rewrite H. cbn [hv_new_count hv_value].
      eexists. split; [reflexivity|]. cbn [c_val]. apply to_val_leaf. apply F in I. tauto.
    + intros k I1 I2. apply get_value_none. cbn [p_map set_map set_next]. unfold valof. rewrite O; [rewrite NO; auto|].
      intros e J Q. apply dot_inj in Q. subst. auto.
  - intros pre post t NE KA S.
    destruct (re_text h s key c ks nv n m W Sh V (printable_table _ _ NE) pre post t KA S) as [X Y].
    split; [eauto|]. fold s1 in Y. rewrite Y. unfold nv. rewrite src_table by auto. rewrite <- !app_assoc. auto.
Qed.

(** ** Refusals *)
Lemma refused : forall s key v s', set_value s key v = Ok (s', false) ->
  show_parser s' = show_parser s /\
  (forall k, ~ below key k -> get_value s' k = get_value s k /\ get_children s' k = get_children s k) /\
  (key <> [] -> get_children s key = Some (Count 0) \/ get_children s key = Some (Keys []) ->
   forall k, get_value s' k = get_value s k /\ get_children s' k = get_children s k).
Proof.
  intros s key v s' H. apply set_value_cases in H. inversion H as [V|c ws V SS R|c ks n V SS K C|c ks n nv m s1 V SS K C L E R]; subst; auto.
  split; [reflexivity|].
  destruct (get_all_subkeys_ok (p_map s) key) as (l & E & F). rewrite K in E. injection E as <-.
  assert (X : forall k, ~ In k ks -> get_value (set_next n (set_map (removed ks (p_map s)) s)) k = get_value s k).
  { intros k N. unfold get_value. cbn [p_map set_map set_next]. rewrite removed_keep; auto. }
  assert (Y : forall k, ~ In k ks -> ~ In root_key ks -> get_children (set_next n (set_map (removed ks (p_map s)) s)) k = get_children s k).
  { intros k N N2. unfold get_children. cbn [p_map set_map set_next]. rewrite removed_keep; auto. destruct k; auto. }
  rewrite Forall_forall in F. assert (NR : ~ In root_key ks) by (intros I; apply F in I; apply not_below_root in I; auto).
  split.
  - intros k N. split; [apply X|apply Y]; auto.
  - intros Nk Ch k. destruct (valof_hget _ _ _ V) as (hv & G & HV). rewrite children_get, G in Ch by auto.
    assert (D : direct key (hv_subkeys hv) = []).
    { destruct Ch as [Ch|Ch]; injection Ch as Ch; rewrite Ch; auto. }
    pose proof (subkeys_none _ _ _ G D) as Q. rewrite K in Q. injection Q as ->. split; [apply X|apply Y]; auto.
Qed.

(** ** Fuel *)
Lemma rebuild_no_fuel : forall t id key b m, rebuild_vector t id key b m <> Fuel.
Proof.
  assert (FO : forall A (f : N -> A -> vmap -> res vmap) l, (forall i x m, In x l -> f i x m <> Fuel) -> forall i m, rfold f i l m <> Fuel).
  { induction l as [|x l IH]; intros H i m; [discriminate|]. cbn [rfold]. destruct (f i x m) eqn:E; try discriminate.
    - apply IH. intros. apply H. right; auto.
    - exfalso. eapply H; [left; reflexivity|exact E]. }
  induction t using tval_ind'; intros id key sk m; cbn [rebuild_vector]; try discriminate.
  - destruct (hget key m); [|discriminate]. apply FO. intros i x m0 I. rewrite Forall_forall in H. apply H; auto.
  - destruct (hget key m); [|discriminate]. apply FO. intros i x m0 I. rewrite Forall_forall in H. apply H; auto.
Qed.
Lemma replace_no_fuel : forall t id v, replace_values id t v <> Fuel.
Proof.
  assert (FO : forall A B C (f : A -> B -> res (list C)) l, (forall x y, In x l -> f x y <> Fuel) -> forall l2, rzip f l l2 <> Fuel).
  { induction l as [|x l IH]; intros H l2; [discriminate|]. destruct l2 as [|y l2]; [discriminate|].
    change (rzip f (x :: l) (y :: l2)) with (let? a := f x y in let? b := rzip f l l2 in Ok (a ++ b)).
    specialize (H x) as Hx. specialize (Hx y (or_introl eq_refl)). specialize (IH (fun x0 y0 I => H x0 y0 (or_intror I)) l2).
    destruct (f x y); cbn [rbind]; [|discriminate|congruence]. destruct (rzip f l l2); cbn [rbind]; [discriminate|discriminate|congruence]. }
  induction t using tval_ind'; intros id v; cbn [replace_values]; destruct v; try discriminate.
  - apply FO. intros x y I. rewrite Forall_forall in H. apply H; auto.
  - apply FO. intros x y I. rewrite Forall_forall in H. apply H; auto.
Qed.
Lemma convert_no_fuel : forall v n, convert_vector v n <> Fuel.
Proof.
  induction v using value_ind'; intros n; cbn [convert_vector];
    match goal with |- (if negb ?b then _ else _) <> _ => destruct b end; cbn [negb]; try discriminate.
  - assert (X : forall n, conv_array convert_vector l n <> Fuel).
    { induction l as [|x l IH]; intros n0; [discriminate|]. inversion H; subst.
      change (conv_array convert_vector (x :: l) n0) with (let? (o, n) := convert_vector x n0 in
        match o with None => Ok (None, n) | Some t => let c := Cell n t in
          let? (r, n2) := conv_array convert_vector l (n + 1) in
          Ok (match r with None => None | Some vs => Some ((match l with [] => av_last c | _ => av_default c end) :: vs) end, n2) end).
      specialize (H2 n0). destruct (convert_vector x n0) as [[[t|] n1]| |]; cbn [rbind]; [|discriminate|discriminate|congruence].
      specialize (IH H3 (n1 + 1)). destruct (conv_array convert_vector l (n1 + 1)) as [[]| |]; cbn [rbind]; [discriminate|discriminate|congruence]. }
    specialize (X n). destruct (conv_array convert_vector l n) as [[]| |]; cbn [rbind]; try discriminate. congruence.
  - assert (X : forall n, conv_table convert_vector l n <> Fuel).
    { induction l as [|x l IH]; intros n0; [discriminate|]. inversion H; subst.
      change (conv_table convert_vector (x :: l) n0) with (let? (o, n) := convert_vector (snd x) n0 in
        match o with None => Panic | Some t => let c := Cell n t in
          let? (r, n2) := conv_table convert_vector l (n + 1) in
          Ok ((match l with [] => tkv_last (fst x) c | _ => tkv_default (fst x) c end) :: r, n2) end).
      specialize (H2 n0). destruct (convert_vector (snd x) n0) as [[[t|] n1]| |]; cbn [rbind]; [|discriminate|discriminate|congruence].
      specialize (IH H3 (n1 + 1)). destruct (conv_table convert_vector l (n1 + 1)) as [[]| |]; cbn [rbind]; [discriminate|discriminate|congruence]. }
    specialize (X n). destruct (conv_table convert_vector l n) as [[]| |]; cbn [rbind]; try discriminate. congruence.
Qed.
Lemma set_no_fuel : forall s key v, set_value s key v <> Fuel.
Proof.
  intros s key v. unfold set_value. destruct (hget key (p_map s)) as [hv|]; [|discriminate].
  destruct (hv_value hv) as [c|]; [|discriminate]. destruct (same_structure (c_val c) v).
  - pose proof (replace_no_fuel (c_val c) (c_id c) v). destruct (replace_values _ _ _); cbn [rbind]; try discriminate. congruence.
  - destruct (get_all_subkeys_ok (p_map s) key) as (ks & K & _). rewrite K. cbn [rbind].
    pose proof (convert_no_fuel v (p_next s)) as C. cbn [p_next set_map].
    destruct (convert_vector v (p_next s)) as [[[nv|] n]| |]; cbn [rbind]; try discriminate; [|congruence].
    assert (X : forall s2, (let (s3, c2) := new_cell s2 nv in let? m := rebuild_vector (c_val c2) (c_id c2) key true (p_map s3) in Ok (set_map m s3, true)) <> Fuel).
    { intros s2. unfold new_cell. match goal with |- rbind ?x _ <> _ => pose proof (rebuild_no_fuel nv (p_next s2) key true (p_map s2)) as Y; change x with (rebuild_vector nv (p_next s2) key true (p_map s2)) end.
      destruct (rebuild_vector _ _ _ _ _); cbn [rbind]; try discriminate. congruence. }
    destruct nv; try discriminate;
      (match goal with |- rbind ?x _ <> _ => destruct x eqn:Q end; cbn [rbind]; [apply X|discriminate|]);
      destruct (hget _ _) as [hv2|]; try discriminate; destruct (hv_value hv2); discriminate.
Qed.
