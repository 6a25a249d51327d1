(** set_value on the name of a declared table: the document is not touched. *)
From Coq Require Import Lia ZifyBool ZifyNat ZifyN.
From Verif Require Import TotalFacts.
From Verif Require Import Str Regex Types Ast State Nom Keys Grammar Api Facts Spec RegexFacts NomFacts DateFacts RoundTrip Effects ScalarFacts ParseFacts WalkFacts IdFacts WriteFacts
  ApiSpec ApiFacts SetFacts UpdateFacts SafeFacts CtorFacts OutcomeSpec OutcomeFacts.

(** ** The word for a table is only ever at a key, never inside a value or in the document *)
Definition nt (c : cell) : Prop := c.(c_val) <> TTable.
Definition clear (t : tval) : Prop := Forall nt (tcells t).
Definition solid (acc : list cell) (s : pst) : Prop :=
  (forall k c, valof s.(p_map) k = Some c -> clear c.(c_val)) /\ Forall nt acc.

Lemma solid_same : forall acc s s', solid acc s -> s'.(p_map) = s.(p_map) -> solid acc s'.
Proof. intros acc s s' [A B] M. split; auto. rewrite M. auto. Qed.
Lemma solid_sub : forall acc s s', solid acc s -> sub s.(p_map) s'.(p_map) -> solid acc s'.
Proof. intros acc s s' [A B] M. split; auto. intros k c V. apply M in V. eauto. Qed.
Lemma solid_toml : ispec solid toml_p toml_cells.
Proof.
  apply i_toml with (FR := fun c _ => clear c.(c_val)) (Vok := fun t _ => t <> TTable); auto;
    try (intros; eapply solid_same; eauto; fail).
  - intros acc x s [A B]. split; auto. apply Forall_app in B. tauto.
  - intros acc w1 w2 k l s s' t H [A B]. apply std_adds in H as [[M X]|[X [k0 D]]]; [eapply solid_same; eauto; split; auto|].
    split; auto. intros k' c V. apply D in V as [V|[_ ->]]; eauto. constructor.
  - intros acc w1 w2 k l s s' t H S. apply arr_sub in H as [X M]. eapply solid_sub; eauto.
  - intros acc t s NT [A B]. apply Forall_app in B as [B1 B2]. split; [|exact B2]. split; auto.
    apply Forall_app. split; auto.
  - intros acc c s s' [A B] F I. apply insert_adds in I as [[e ->]|(m & -> & k0 & D)]; [split; auto|].
    split; auto. cbn [p_map set_map]. intros k c' V. apply D in V as [V|[_ ->]]; eauto.
  - intros t s H E. subst. exact H.
  - intros f s i s' r t E. unfold array_ in E. apply rbind_ok in E as ([s1 r1] & E1 & E). inversion E; subst.
    unfold array_internal_ in E1. pinv. discriminate.
  - discriminate.
  - discriminate.
Qed.

(** ** It is kept by set_value *)
Lemma nt_upd : forall id nv, nv <> TTable -> clear nv -> forall c, Forall nt (subcells c) -> Forall nt (subcells (upd_c id nv c)).
Proof.
  intros id nv NV CV c. induction c as [i t IH] using cell_ind'. intros G. rewrite upd_c_eq. cbn [c_id c_val].
  unfold subcells in *. cbn [c_id c_val] in *. apply Forall_cons_iff in G as [G1 G]. cbn in G1. destruct (i =? id).
  - constructor; auto.
  - constructor.
    + unfold nt in *. cbn [c_val] in *. destruct t; cbn [upd_tval]; congruence.
    + rewrite tcells_kids in G |- *. rewrite upd_kids. rewrite Forall_forall in *. intros x X.
      apply in_flat_map in X as (k & K & X). apply in_map_iff in K as (k0 & <- & K).
      specialize (IH k0 K). cbn beta in IH. rewrite !Forall_forall in IH. apply IH; auto.
      intros y Y. apply G. apply in_flat_map. eauto.
Qed.
Lemma nt_flat : forall id nv, nv <> TTable -> clear nv -> forall cs, Forall nt (flat_map subcells cs) ->
  Forall nt (flat_map subcells (map (upd_c id nv) cs)).
Proof.
  intros id nv NV CV cs G. rewrite Forall_forall in *. intros x X. apply in_flat_map in X as (k & K & X).
  apply in_map_iff in K as (k0 & <- & K). pose proof (nt_upd id nv NV CV k0) as U. rewrite !Forall_forall in U. apply U; auto.
  intros y Y. apply G. apply in_flat_map; eauto.
Qed.
Lemma clear_upd : forall id nv, nv <> TTable -> clear nv -> forall c, clear c.(c_val) -> clear (upd_c id nv c).(c_val).
Proof.
  intros id nv NV CV [i t] C. rewrite upd_c_eq. cbn [c_id c_val] in *. destruct (i =? id); auto.
  unfold clear in *. rewrite tcells_kids in C |- *. rewrite upd_kids. apply nt_flat; auto.
Qed.
Definition sound (s : pst) : Prop := solid (toml_cells s.(p_root)) s.
Lemma sound_write : forall s id nv, nv <> TTable -> clear nv -> sound s -> sound (write s (id, nv)).
Proof.
  intros s id nv NV CV [A B]. split; cbn [write p_map p_root set_root set_map].
  - intros k c V. rewrite valof_upd in V. destruct (valof (p_map s) k) as [c0|] eqn:E; inversion V; subst. apply clear_upd; eauto.
  - rewrite toml_cells_tops in B |- *. rewrite upd_tops. apply nt_flat; auto.
Qed.
Lemma sound_writes : forall ws s, Forall (fun w => snd w <> TTable /\ leaf (snd w)) ws -> sound s -> sound (fold_left write ws s).
Proof.
  induction ws as [|[id nv] ws IH]; intros s F S; auto. inversion F as [|x y [N L] F2]; subst. cbn [fold_left snd] in *.
  apply IH; auto. apply sound_write; auto. unfold clear. rewrite leaf_cells; auto.
Qed.
Lemma replace_nt : forall t id v ws, replace_values id t v = Ok ws -> Forall (fun w => snd w <> TTable) ws.
Proof.
  induction t using tval_ind'; intros id v ws0 E; cbn [replace_values] in E; destruct v; inversion E; subst;
    try (constructor; [cbn [snd]; discriminate|constructor]).
  - eapply rzip_all; [exact E|]. cbv beta. intros x y a J K. rewrite Forall_forall in H. eapply H in K; eauto.
  - eapply rzip_all; [exact E|]. cbv beta. intros x y a J K. rewrite Forall_forall in H. eapply H in K; eauto.
Qed.

Definition conv_nt (v : value) : Prop := forall n o n', convert_vector v n = Ok (o, n') -> forall t, o = Some t -> t <> TTable /\ clear t.
Lemma conv_nt_all : forall v, conv_nt v.
Proof.
  induction v using value_ind'; intros n o n' E; cbn [convert_vector] in E;
    match type of E with (if negb ?b then _ else _) = _ => destruct b eqn:V end; cbn [negb] in E;
    try (inversion E; subst; intros t0 Q; discriminate Q);
    try (inversion E; subst; intros t0 Q; injection Q as <-; split; [discriminate|constructor]).
  - apply rbind_ok in E as ([o1 n1] & E1 & E). inversion E; subst. clear E V. intros t Q. destruct o1 as [vs|]; inversion Q; subst. split; [discriminate|].
    clear Q. revert n vs n' E1. induction l as [|x l IH]; intros n vs n' H2; cbn [conv_array] in H2; [inversion H2; subst; constructor|].
    apply Forall_cons_iff in H as [HX HL]. apply rbind_ok in H2 as ([o1 n1] & E1 & H2). destruct o1 as [t|]; [|discriminate].
    apply rbind_ok in H2 as ([r n2] & E2 & H2). destruct r as [vs0|]; inversion H2; subst.
    destruct (HX _ _ _ E1 _ eq_refl) as [T1 T2]. specialize (IH HL _ _ _ E2).
    unfold clear in *. cbn [tcells flat_map]. apply Forall_app. split; [|exact IH].
    destruct l; cbn [av_val av_last av_default]; constructor; auto.
  - apply rbind_ok in E as ([kvs n1] & E1 & E). inversion E; subst. clear E V. intros t Q. inversion Q; subst. split; [discriminate|].
    clear Q. revert n kvs n' E1. induction l as [|x l IH]; intros n kvs n' H2; cbn [conv_table] in H2; [inversion H2; subst; constructor|].
    apply Forall_cons_iff in H as [HX HL]. apply rbind_ok in H2 as ([o1 n1] & E1 & H2). destruct o1 as [t|]; [|discriminate].
    apply rbind_ok in H2 as ([r n2] & E2 & H2). inversion H2; subst.
    destruct (HX _ _ _ E1 _ eq_refl) as [T1 T2]. specialize (IH HL _ _ _ E2).
    unfold clear in *. cbn [tcells flat_map]. apply Forall_app. split; [|exact IH].
    destruct l; cbn [tk_kv kv_val tkv_last tkv_default]; constructor; auto.
Qed.
Lemma removed_sound : forall ks n s, sound s -> sound (set_next n (set_map (removed ks s.(p_map)) s)).
Proof.
  intros ks n s [A B]. split; cbn [p_map p_root set_map set_next]; auto. intros k c V. apply removed_sub in V. eauto.
Qed.
Lemma clear_sub : forall l c, Forall nt l -> (forall x, In x (tcells c.(c_val)) -> In x l) -> clear c.(c_val).
Proof. intros l c F H. unfold clear. rewrite Forall_forall in *. auto. Qed.
Lemma sub_sub : forall c x, In x (subcells c) -> forall y, In y (subcells x) -> In y (subcells c).
Proof.
  intros c. induction c as [i t IH] using cell_ind'. intros x [<-|X] y Y; auto. right. cbn [c_val] in *.
  rewrite tcells_kids in X |- *. apply in_flat_map in X as (k & K & X). apply in_flat_map. exists k. split; auto.
  rewrite Forall_forall in IH. eapply IH; eauto.
Qed.
Lemma sound_set : forall s key v s' b, sound s -> set_value s key v = Ok (s', b) -> sound s'.
Proof.
  intros s key v s' b S H. apply set_value_cases in H. destruct H as [V|c ws V SS R|c ks n V SS K C|c ks n nv m s1 V SS K C L E R]; auto.
  - apply sound_writes; auto. pose proof (replace_nt _ _ _ _ R) as A. pose proof (replace_writes _ _ _ _ R) as B.
    rewrite Forall_forall in *. intros w I. split; [apply A; auto|apply B in I; tauto].
  - apply removed_sound; auto.
  - destruct (conv_nt_all v _ _ _ C _ eq_refl) as [N1 N2].
    assert (S1 : sound s1) by (subst s1; apply sound_write; auto; apply removed_sound; auto).
    apply rebuild_top in R; auto. destruct R as [GI _]. destruct S1 as [A B]. split; cbn [p_map p_root set_map set_next]; auto.
    intros k c0 V0. apply GI in V0 as [V0|I]; [eauto|]. eapply clear_sub; [exact N2|]. intros x X.
    rewrite tcells_kids in I |- *. apply in_flat_map in I as (k0 & I1 & I2). apply in_flat_map. exists k0. split; auto.
    eapply sub_sub; [exact I2|]. right. exact X.
Qed.
Lemma reach_sound : forall ovf s, reach ovf s -> sound s.
Proof.
  intros ovf s R. induction R as [|s i s' r R IH P|s k v s' b R IH S].
  - split; [|constructor]. intros k c V. cbn [new_parser p_map] in V. rewrite valof_put in V. destruct (str_eqb k root_key); discriminate.
  - destruct (parse_inv _ _ _ _ P) as (s1 & rest & t & T & E & -> & _). apply (solid_toml []) in T; [exact T|].
    destruct IH as [A _]. split; [exact A|constructor].
  - eapply sound_set; eauto.
Qed.

(** ** The name of a table *)
Lemma clear_value : forall c, Forall nt (subcells c) -> vgood c.(c_val).
Proof.
  intros c. induction c as [i t IH] using cell_ind'. intros F. apply Forall_cons_iff in F as [N F]. cbn [c_val] in *.
  apply good_kids; auto. clear N. rewrite tcells_kids in F |- *. rewrite Forall_forall in *. intros x X. apply in_flat_map in X as (k & K & X).
  assert (FK : Forall nt (subcells k)) by (apply Forall_forall; intros y Y; apply F, in_flat_map; eauto).
  clear - X FK. revert x X FK. induction k as [j u IH] using cell_ind'. intros x X F.
  assert (Q : forall y, In y (subcells (Cell j u)) -> Forall nt (subcells y)).
  { intros y Y. apply Forall_forall. intros z Z. rewrite Forall_forall in F. apply F. eapply sub_sub; eauto. }
  destruct X as [<-|X].
  - cbn [c_val]. apply good_kids; [exact (Forall_inv F)|]. rewrite tcells_kids. apply Forall_forall. intros y Y.
    apply in_flat_map in Y as (k & K & Y). rewrite Forall_forall in IH. apply (IH k K y Y). apply Q. right. cbn [c_val].
    rewrite tcells_kids. apply in_flat_map. exists k. split; auto. left; auto.
  - cbn [c_val] in X. rewrite tcells_kids in X. apply in_flat_map in X as (k & K & X). rewrite Forall_forall in IH. apply (IH k K x X).
    apply Q. right. cbn [c_val]. rewrite tcells_kids. apply in_flat_map. exists k. split; auto. left; auto.
Qed.
Lemma table_cell : forall s key, sound s -> get_value s key = Panic ->
  exists id, valof s.(p_map) key = Some (Cell id TTable).
Proof.
  intros s key [A B] G. unfold get_value in G. destruct (hget key (p_map s)) as [hv|] eqn:H; [|discriminate].
  destruct (hv_value hv) as [[id t]|] eqn:V; [|discriminate]. assert (VC : valof (p_map s) key = Some (Cell id t)) by (unfold valof; rewrite H; auto).
  exists id. rewrite VC. destruct (to_val t) eqn:T; cbn [c_val rbind] in G; try (rewrite T in G; discriminate).
  all: assert (D : t = TTable \/ t <> TTable) by (destruct t; (left; reflexivity) || (right; discriminate));
    destruct D as [->|D]; auto; destruct (clear_value (Cell id t)) as [v E];
    [constructor; [exact D|apply (A _ _ VC)]|cbn [c_val] in E; congruence].
Qed.
(** rebuild_vector changes only the key it is given and the keys below it *)
Lemma below_trans : forall a b c, below a b -> below b c -> below a c.
Proof.
  intros a b c (x & r & -> & D) (y & q & -> & _). exists x, (r ++ y :: q). split; auto. rewrite <- app_assoc. reflexivity.
Qed.
Lemma rfold_only : forall A (f : N -> A -> vmap -> res vmap) (k : str) l,
  (forall i x m m', In x l -> f i x m = Ok m' -> hget k m' = hget k m) ->
  forall i m m', rfold f i l m = Ok m' -> hget k m' = hget k m.
Proof.
  induction l as [|x l IH]; intros H i m m' E; cbn [rfold] in E; [inversion E; auto|].
  apply rbind_ok in E as (m1 & E1 & E). apply H in E1; [|left; auto]. rewrite <- E1. eapply IH; eauto. intros. eapply H; eauto. right; auto.
Qed.
Lemma rebuild_only : forall t id key b m m' k, rebuild_vector t id key b m = Ok m' -> k <> key -> ~ below key k -> hget k m' = hget k m.
Proof.
  induction t using tval_ind'; intros id key sk m m' k E NK NB; cbn [rebuild_vector] in E;
    try (inversion E; destruct (hmem key m); [auto|apply hget_hput_other; auto]).
  - destruct (hget key m); [|discriminate]. apply rfold_only with (k := k) in E; [rewrite E; apply hget_hput_other; auto|].
    intros i x ma mb I E1. rewrite Forall_forall in H. eapply (H x I); [exact E1| |].
    + intros ->. apply NB, below_index.
    + intros Q. apply NB. eapply below_trans; [apply below_index|exact Q].
  - destruct (hget key m); [|discriminate]. apply rfold_only with (k := k) in E; [rewrite E; apply hget_hput_other; auto|].
    intros i x ma mb I E1. rewrite Forall_forall in H. eapply (H x I); [exact E1| |].
    + intros ->. apply NB, below_dot.
    + intros Q. apply NB. eapply below_trans; [apply below_dot|exact Q].
Qed.

Section Table.
Variables (h : N -> tval) (s : pst) (key : str) (id : N).
Hypothesis W : wf h s.
Hypothesis S : sound s.
Hypothesis V : valof s.(p_map) key = Some (Cell id TTable).

Lemma tab_heap : h id = TTable.
Proof. apply (co_good _ _ (wf_co _ _ W)) in V. apply Forall_inv in V as [_ E]. exact E. Qed.
Lemma tab_absent : ~ In id (ids (toml_cells s.(p_root))).
Proof.
  intros I. apply in_ids_cell in I as (c & I & E). destruct S as [_ B]. rewrite Forall_forall in B. apply (B c I).
  pose proof (wf_root _ _ W) as R. rewrite Forall_forall in R. destruct (R c I) as [_ Q]. rewrite <- Q, E. apply tab_heap.
Qed.
Lemma tab_root : forall nv, upd_toml id nv s.(p_root) = s.(p_root).
Proof. intros nv. apply upd_toml_absent, tab_absent. Qed.
Lemma tab_other : forall k c nv, k <> key -> valof s.(p_map) k = Some c -> upd_c id nv c = c.
Proof.
  intros k c nv NE Vk. apply upd_c_absent. rewrite ids_subcells. intros [E|I].
  - apply NE. eapply (co_inj _ _ (wf_co _ _ W)); eauto.
  - apply in_ids_cell in I as (x & I & E). destruct S as [A _]. specialize (A _ _ Vk). unfold clear in A. rewrite Forall_forall in A.
    apply (A x I). pose proof (co_good _ _ (wf_co _ _ W) _ _ Vk) as G. rewrite Forall_forall in G.
    destruct (G x (or_intror I)) as [_ Q]. rewrite <- Q, E. apply tab_heap.
Qed.
Lemma tab_text : forall v s' b, set_value s key v = Ok (s', b) -> show_parser s' = show_parser s.
Proof.
  intros v s' b H. apply set_value_cases in H. destruct H as [V0|c ws V0 SS R|c ks n V0 SS K C|c ks n nv m s1 V0 SS K C L E R]; auto.
  - rewrite V in V0. inversion V0; subst. cbn [c_val c_id] in *.
    assert (X : exists nv, ws = [(id, nv)]) by (destruct v; inversion R; subst; eauto).
    destruct X as [nv ->]. unfold show_parser. cbn [fold_left write p_root set_root]. rewrite tab_root. auto.
  - rewrite V in V0. inversion V0; subst. unfold show_parser. cbn [p_root set_map set_next write set_root c_id]. rewrite tab_root. auto.
Qed.
Lemma tab_scalar : forall v, scalar_value v -> validate v = true ->
  exists s', set_value s key v = Ok (s', true) /\ get_value s' key = Ok (Some v) /\
    (forall k, k <> key -> get_value s' k = get_value s k) /\ (forall k, get_children s' k = get_children s k).
Proof.
  intros v Sc Va. exists (write s (id, leaf_of v)). split; [|split; [|split]].
  - unfold set_value. destruct (valof_hget _ _ _ V) as (hv & G & HV). rewrite G, HV. cbn [c_val c_id].
    assert (X : same_structure TTable v = true) by (destruct v; cbn [same_structure]; rewrite Va; try destruct Sc; reflexivity).
    rewrite X. destruct v; try destruct Sc; reflexivity.
  - apply get_value_some. exists (Cell id (leaf_of v)). cbn [write p_map set_root set_map]. rewrite valof_upd, V, upd_c_eq. cbn [c_id].
    rewrite N.eqb_refl. split; auto. apply to_val_leaf; auto.
  - intros k NE. apply get_value_same. cbn [write p_map set_root set_map]. rewrite valof_upd.
    destruct (valof (p_map s) k) as [c|] eqn:E; auto. rewrite (tab_other k c); auto.
  - intros k. apply get_children_write.
Qed.
Lemma tab_invalid : forall v, scalar_value v -> validate v = false -> exists s', set_value s key v = Ok (s', false).
Proof.
  intros v Sc Va. unfold set_value. destruct (valof_hget _ _ _ V) as (hv & G & HV). rewrite G, HV. cbn [c_val c_id].
  assert (X : same_structure TTable v = false) by (destruct v; cbn [same_structure]; rewrite Va; reflexivity). rewrite X.
  destruct (get_all_subkeys_ok (p_map s) key) as (ks & K & _). rewrite K. cbn [rbind].
  assert (Y : forall n, convert_vector v n = Ok (None, n)) by (intros n; destruct v; cbn [convert_vector]; rewrite Va; reflexivity).
  rewrite Y. cbn [rbind]. eauto.
Qed.
Lemma tab_array : forall l, flat l -> key <> [] ->
  exists s', set_value s key (VArray l) = Ok (s', true) /\ get_value s' key = Ok (Some (VArray l)) /\
    get_children s' key = Some (Count (nlen l)) /\
    (forall names n, get_children s key = Some (Keys names) -> In n names ->
       get_value s' (key ++ lit "." ++ n) = Ok None /\ get_children s' (key ++ lit "." ++ n) = None).
Proof.
  intros l F NE. set (c := Cell id TTable) in *.
  destruct (get_all_subkeys_ok (p_map s) key) as (ks & K & B).
  assert (SS : same_structure c.(c_val) (VArray l) = false).
  { cbn [c c_val same_structure]. destruct (negb _); reflexivity. }
  pose proof (convert_array l s.(p_next) F) as C.
  set (n := p_next s + nlen l) in *. set (nv := flat_array l (p_next s)) in *.
  set (s1 := write (set_next n (set_map (removed ks s.(p_map)) s)) (c.(c_id), nv)).
  destruct (valof_hget _ _ _ V) as (hv & Gk & HV).
  pose proof (re_key s key c ks nv n V K hv Gk) as K1. fold s1 in K1.
  set (m1 := hput key (HashValue (Some (Cell c.(c_id) nv)) (Count (nlen (conv_avs l (p_next s))))) s1.(p_map)).
  destruct (rebuild_elems l (p_next s) key 0 m1) as (m & R & O & E).
  assert (RV : rebuild_vector nv n key true s1.(p_map) = Ok m).
  { unfold nv, flat_array. cbn [rebuild_vector]. rewrite K1. cbn [hv_value]. exact R. }
  assert (LN : nlen (conv_avs l (p_next s)) = nlen l).
  { clear. generalize (p_next s). induction l as [|x l IH]; intros n; auto. cbn [conv_avs]. unfold nlen in *. cbn [length].
    specialize (IH (n + 1)). lia. }
  assert (OK : hget key m = Some (HashValue (Some (Cell c.(c_id) nv)) (Count (nlen l)))).
  { rewrite O; [|intros j _ Q; symmetry in Q; pose proof (below_index key j) as X; rewrite Q in X; apply below_neq in X; auto].
    unfold m1. rewrite hget_hput_same, LN. auto. }
  exists (set_map m (set_next (n + 1) s1)).
  split; [eapply set_restructure; eauto; intros []|]. split; [|split].
  - apply get_value_some. exists (Cell c.(c_id) nv). cbn [p_map set_map set_next]. unfold valof. rewrite OK. split; auto.
    cbn [c_val]. apply to_val_array; auto.
  - rewrite children_get by auto. cbn [p_map set_map set_next]. rewrite OK. auto.
  - intros names x Ch I. rewrite children_get, Gk in Ch by auto. injection Ch as Ch.
    assert (NK : hget (key ++ lit "." ++ x) m = None).
    { rewrite O by (intros j _ Q; apply app_inv_head in Q; discriminate). unfold m1.
      rewrite hget_hput_other by (intros Q; pose proof (below_dot key x) as X; rewrite Q in X; apply below_neq in X; auto).
      apply re_none. right. eapply subkeys_direct; [exact K|exact Gk|]. rewrite Ch. cbn [direct]. apply in_map_iff. eauto. }
    split.
    + apply get_value_none. cbn [p_map set_map set_next]. unfold valof. rewrite NK. auto.
    + rewrite children_get by apply key_dot_ne. cbn [p_map set_map set_next]. rewrite NK. auto.
Qed.

Lemma tab_inline : forall l, flat2 l -> exists s', set_value s key (VInlineTable l) = Ok (s', true) /\ get_value s' key = Ok (Some (VInlineTable l)) /\
  (key <> [] -> NoDup (map fst l) -> get_children s' key = match get_children s key with
       | Some (Keys l0) => Some (Keys (l0 ++ filter (fun k => negb (vcontains l0 k)) (map fst l)))
       | ch => ch end).
Proof.
  intros l F. set (c := Cell id TTable) in *.
  destruct (get_all_subkeys_ok (p_map s) key) as (ks & K & B).
  assert (SS : same_structure c.(c_val) (VInlineTable l) = false).
  { cbn [c c_val same_structure]. destruct (negb _); reflexivity. }
  pose proof (convert_table l s.(p_next) F) as C.
  set (n := p_next s + nlen l) in *. set (nv := flat_table l (p_next s)) in *.
  set (s1 := write (set_next n (set_map (removed ks s.(p_map)) s)) (c.(c_id), nv)).
  destruct (valof_hget _ _ _ V) as (hv & Gk & HV).
  pose proof (re_key s key c ks nv n V K hv Gk) as K1. fold s1 in K1.
  set (sub := match hv.(hv_subkeys) with
              | Keys l1 => Keys (fold_left (fun l (tk : table_keyval) => fst (vinsert l tk.(tk_kv).(kv_key))) (conv_tks l (p_next s)) l1)
              | Count n => Count n end).
  set (m1 := hput key (HashValue (Some (Cell c.(c_id) nv)) sub) s1.(p_map)).
  destruct (rebuild_entries l (p_next s) key 0 m1) as (m & R & O & E).
  assert (RV : rebuild_vector nv n key true s1.(p_map) = Ok m).
  { unfold nv, flat_table. cbn [rebuild_vector]. rewrite K1. cbn [hv_value hv_subkeys]. exact R. }
  assert (OK : hget key m = Some (HashValue (Some (Cell c.(c_id) nv)) sub)).
  { rewrite O; [|intros j _ Q; pose proof (below_dot key j) as X; rewrite <- Q in X; apply below_neq in X; auto].
    unfold m1. rewrite hget_hput_same. auto. }
  exists (set_map m (set_next (n + 1) s1)).
  split; [eapply set_restructure; eauto; intros []|]. split.
  - apply get_value_some. exists (Cell c.(c_id) nv). cbn [p_map set_map set_next]. unfold valof. rewrite OK. split; auto.
    cbn [c_val]. apply to_val_table; auto.
  - intros Nk ND. rewrite children_get by auto. cbn [p_map set_map set_next]. rewrite OK. cbn [hv_subkeys]. unfold sub.
    destruct (get_children s key) as [ch|] eqn:CH; rewrite children_get in CH by auto; rewrite Gk in CH; [|discriminate].
    injection CH as <-. destruct (hv_subkeys hv); auto. rewrite vinsert_all, conv_tks_keys, vinsert_list; auto.
Qed.

(** *** All outcomes *)
Lemma flat_of : forall v, all_valid v -> flat_value v ->
  (exists l, v = VArray l /\ flat l) \/ (exists l, v = VInlineTable l /\ flat2 l).
Proof.
  intros v AV F. destruct v as [| | | | |l|l]; try (exfalso; exact F); [left|right]; exists l; split; auto; intros x I;
    cbn [flat_value] in F; rewrite Forall_forall in F; split; auto; apply AV; cbn [leaves]; apply in_flat_map; exists x; split; auto;
    rewrite scalar_leaves by auto; left; auto.
Qed.
Lemma valid_one : forall v, scalar_value v -> all_valid v -> validate v = true.
Proof. intros v Sc AV. apply AV. rewrite scalar_leaves by auto. left; auto. Qed.
Lemma tab_outcome : forall v, key <> [] -> new_names s key v ->
  (all_valid v -> scalar_value v \/ flat_value v -> exists s', set_value s key v = Ok (s', true) /\ get_value s' key = Ok (Some v)) /\
  (first_bad v false -> exists s', set_value s key v = Ok (s', false)) /\
  (first_bad v true -> set_value s key v = Panic) /\
  (all_valid v -> ~ scalar_value v -> ~ flat_value v -> set_value s key v = Panic).
Proof.
  intros v NE [ND NN].
  assert (FV : forall b, first_bad v b -> ~ all_valid v).
  { intros b F A. apply (bad_one (boxed false v)); [apply valid_all_leaves; auto|]. destruct b; auto. }
  assert (SS : ~ (all_valid v /\ scalar_value v) -> same_structure (c_val (Cell id TTable)) v = false).
  { intros Q. cbn [c_val]. destruct (same_structure TTable v) eqn:E; auto. exfalso. apply Q. split; [eapply bad_same; eauto|].
    destruct v; cbn [same_structure] in E; destruct (negb _) in E; try discriminate; exact Logic.I. }
  destruct (get_all_subkeys_ok (p_map s) key) as (ks & K & _).
  destruct (convert_spec v (p_next s)) as (C1 & C2 & C3).
  split; [|split; [|split]].
  - intros AV [Sc|Fl].
    + destruct (tab_scalar v Sc (valid_one v Sc AV)) as (s' & A & B & _). eauto.
    + destruct (flat_of v AV Fl) as [(l & -> & F)|(l & -> & F)].
      * destruct (tab_array l F NE) as (s' & A & B & _). eauto.
      * destruct (tab_inline l F) as (s' & A & B & _). eauto.
  - intros B. destruct (set_other s key _ v ks V (SS (fun q => FV _ B (proj1 q))) K) as (P1 & P2 & P3 & P4).
    destruct (C2 B) as (n & E). eapply P2; eauto.
  - intros B. destruct (set_other s key _ v ks V (SS (fun q => FV _ B (proj1 q))) K) as (P1 & P2 & P3 & P4). apply P1, C3, B.
  - intros AV NS NF. destruct (shape_cases key v ND) as [Q|[Q|(k & Q)]]; [contradiction|contradiction|].
    eapply set_nested; [exact V|exact NE|apply SS; tauto|exact AV|exact Q|auto].
Qed.
Lemma tab_outcome_iff : forall v, key <> [] -> new_names s key v ->
  ((exists s', set_value s key v = Ok (s', true)) <-> all_valid v /\ (scalar_value v \/ flat_value v)) /\
  ((exists s', set_value s key v = Ok (s', false)) <-> first_bad v false) /\
  (set_value s key v = Panic <-> first_bad v true \/ (all_valid v /\ ~ scalar_value v /\ ~ flat_value v)) /\
  (forall s', set_value s key v = Ok (s', true) -> get_value s' key = Ok (Some v)).
Proof.
  intros v NE NN. destruct (tab_outcome v NE NN) as (A & B & C & D).
  assert (FV : forall b, first_bad v b -> ~ all_valid v).
  { intros b F AV. apply (bad_one (boxed false v)); [apply valid_all_leaves; auto|]. destruct b; auto. }
  assert (U : first_bad v true -> first_bad v false -> False) by (apply bad_unique).
  assert (FD : flat_value v \/ ~ flat_value v).
  { destruct v as [| | | | |l|l]; cbn [flat_value]; try (right; tauto).
    - destruct (first_of _ scalar_value l scalar_dec) as [F|(l1 & x & l2 & -> & _ & X)]; [left; auto|right]. intros F.
      apply Forall_app in F as [_ F]. inversion F; auto.
    - destruct (first_of _ (fun kv => scalar_value (snd kv)) l (fun kv => scalar_dec (snd kv))) as [F|(l1 & x & l2 & -> & _ & X)]; [left; auto|right].
      intros F. apply Forall_app in F as [_ F]. inversion F; auto. }
  destruct (bad_or_valid v) as [AV|[F|F]].
  - destruct (scalar_dec v) as [Sc|Sc]; [|destruct FD as [Fl|Fl]].
    1,2: destruct (A AV) as (s2 & E & G); [tauto|]; rewrite E.
    1,2: split; [split; [tauto|intros _; exists s2; auto]|].
    1,2: split; [split; [intros (s3 & Q); discriminate Q|intros Q; exfalso; eapply FV; eauto]|].
    1,2: split; [split; [discriminate|intros [Q|Q]; exfalso; [eapply FV; eauto|tauto]]|].
    1,2: intros s3 Q; injection Q as <-; exact G.
    rewrite (D AV Sc Fl).
    split; [split; [intros (s3 & Q); discriminate Q|tauto]|].
    split; [split; [intros (s3 & Q); discriminate Q|intros Q; exfalso; eapply FV; eauto]|].
    split; [split; auto|]. intros s3 Q; discriminate Q.
  - rewrite (C F).
    split; [split; [intros (s3 & Q); discriminate Q|intros (Q & _); exfalso; eapply FV; eauto]|].
    split; [split; [intros (s3 & Q); discriminate Q|intros Q; exfalso; auto]|].
    split; [split; auto|]. intros s3 Q; discriminate Q.
  - destruct (B F) as (s2 & E). rewrite E.
    split; [split; [intros (s3 & Q); discriminate Q|intros (Q & _); exfalso; eapply FV; eauto]|].
    split; [split; [auto|intros _; exists s2; auto]|].
    split; [split; [discriminate|intros [Q|(Q & _)]; exfalso; [auto|eapply FV; eauto]]|]. intros s3 Q; discriminate Q.
Qed.

(** *** Nothing else changes *)
Lemma tab_elsewhere : forall v s' b, key <> root_key -> set_value s key v = Ok (s', b) ->
  forall k, k <> key -> ~ below key k -> get_value s' k = get_value s k /\ get_children s' k = get_children s k.
Proof.
  intros v s' b NR H k NK NB. apply set_value_cases in H as H2.
  destruct H2 as [V0|c ws V0 SS R|c ks n V0 SS K C|c ks n nv m s1 V0 SS K C L E R]; auto.
  - rewrite V in V0. inversion V0; subst. cbn [c_val c_id] in *.
    assert (X : exists nv, ws = [(id, nv)]) by (destruct v; inversion R; subst; eauto).
    destruct X as [nv ->]. cbn [fold_left]. split; [|apply get_children_write].
    apply get_value_same. cbn [write p_map set_root set_map]. rewrite valof_upd.
    destruct (valof (p_map s) k) as [c|] eqn:E; auto. rewrite (tab_other k c); auto.
  - apply refused in H as (_ & X & _). apply X; auto.
  - rewrite V in V0. inversion V0; subst c. cbn [c_id c_val] in *.
    assert (Q : forall x, x <> key -> ~ below key x -> hget x m = hget x (p_map s1)).
    { intros x X1 X2. eapply rebuild_only; eauto. }
    assert (Q2 : forall x, x <> key -> ~ below key x -> hget x m =
       match hget x (p_map s) with Some hv => Some (HashValue (match hv.(hv_value) with Some c => Some (upd_c id nv c) | None => None end) hv.(hv_subkeys)) | None => None end).
    { intros x X1 X2. rewrite Q by auto. subst s1. cbn [write p_map set_root set_map set_next]. rewrite hget_upd, removed_keep; auto.
      intros I. destruct (get_all_subkeys_ok (p_map s) key) as (l & E3 & F). rewrite K in E3. inversion E3; subst.
      rewrite Forall_forall in F. auto. }
    split.
    + apply get_value_same. cbn [p_map set_map set_next]. unfold valof. rewrite Q2 by auto.
      destruct (hget k (p_map s)) as [[[c|] sb]|] eqn:Hk; auto. cbn [hv_value]. rewrite (tab_other k c); auto. unfold valof. rewrite Hk. auto.
    + unfold get_children. cbn [p_map set_map set_next].
      assert (X : (match k with [] => root_key | _ => k end) <> key /\ ~ below key (match k with [] => root_key | _ => k end)).
      { destruct k; split; auto. apply not_below_root. }
      rewrite Q2 by tauto. destruct (hget _ (p_map s)) as [[]|]; auto.
Qed.
End Table.
