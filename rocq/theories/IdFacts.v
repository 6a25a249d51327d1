(** Cell identities: the cells of the document and of the map never get mixed up. *)
From Coq Require Import Lia ZifyBool ZifyNat ZifyN.
From Verif Require Import Str Regex Types Ast State Nom Keys Grammar Api Facts Spec NomFacts DateFacts RoundTrip Effects.
From Verif Require Import ScalarFacts ParseFacts WalkFacts DocFacts.

(** ** The cell stored under a key *)
Definition valof (m : vmap) (k : str) : option cell :=
  match hget k m with Some hv => hv.(hv_value) | None => None end.
(** no cell appears, some may go *)
Definition sub (m m' : vmap) : Prop := forall k c, valof m' k = Some c -> valof m k = Some c.
(** as [sub], but the cell [c] may be new under one key *)
Definition adds (c : cell) (m m' : vmap) : Prop :=
  exists k0, forall k c', valof m' k = Some c' -> valof m k = Some c' \/ (k = k0 /\ c' = c).

Lemma sub_refl : forall m, sub m m.
Proof. intros m k c H; auto. Qed.
Lemma sub_trans : forall a b c, sub a b -> sub b c -> sub a c.
Proof. intros a b c H H2 k x E. auto. Qed.
Lemma adds_sub : forall c a b d, adds c a b -> sub b d -> adds c a d.
Proof. intros c a b d [k0 H] S. exists k0. intros k c' E. apply H, S, E. Qed.
Lemma sub_adds : forall c a b d, sub a b -> adds c b d -> adds c a d.
Proof. intros c a b d S [k0 H]. exists k0. intros k c' E. apply H in E as [E|E]; auto. Qed.
Lemma valof_put : forall k v m k', valof (hput k v m) k' = if str_eqb k' k then v.(hv_value) else valof m k'.
Proof.
  intros. unfold valof. destruct (str_eqb k' k) eqn:E.
  - apply str_eqb_eq in E. subst. rewrite hget_hput_same. auto.
  - rewrite hget_hput_other; auto. intros ->. rewrite str_eqb_refl in E. discriminate.
Qed.
Lemma sub_put : forall k v m, v.(hv_value) = None \/ v.(hv_value) = valof m k -> sub m (hput k v m).
Proof.
  intros k v m H k' c E. rewrite valof_put in E. destruct (str_eqb k' k) eqn:Q; auto.
  apply str_eqb_eq in Q. subst. destruct H as [H|H]; congruence.
Qed.
Lemma sub_put_get : forall k v m hv, hget k m = Some hv -> v.(hv_value) = hv.(hv_value) -> sub m (hput k v m).
Proof. intros. apply sub_put. right. unfold valof. rewrite H. auto. Qed.
Lemma adds_put : forall k c x m, adds c m (hput k (HashValue (Some c) x) m).
Proof.
  intros. exists k. intros k' c' E. rewrite valof_put in E. destruct (str_eqb k' k) eqn:Q; auto.
  apply str_eqb_eq in Q. cbn in E. inversion E; auto.
Qed.

Ltac subs := repeat first
  [ apply sub_refl
  | eapply sub_put_get; [eassumption|reflexivity]
  | apply sub_put; left; reflexivity ].

Lemma update_parent_sub : forall m pk kc m', update_parent m pk kc = Ok m' -> sub m m'.
Proof.
  intros m pk kc m' H. unfold update_parent in H. destruct (hget pk m) as [hv|] eqn:E.
  - destruct (hv_subkeys hv); [|destruct (vlast kc) as [[]|]]; inversion H; subst; subs.
  - destruct (vlast kc) as [[]|]; inversion H; subst; subs.
Qed.

Lemma ait_sub : forall ks m first lk m', ait_loop m ks first lk = Ok m' -> sub m m'.
Proof.
  induction ks as [|k ks IH]; intros m first lk m' H; cbn [ait_loop] in H; [inversion H; subst; subs|].
  apply rbind_ok in H as ([[m1 ins] f1] & H1 & H).
  assert (S : sub m m1).
  { destruct (hget lk m) as [hv|] eqn:E; [|inversion H1; subst; subs].
    destruct (hv_subkeys hv); [destruct first; inversion H1; subst; subs|].
    destruct (vinsert l (wk_key k)). inversion H1; subst; subs. }
  destruct ks; [inversion H; subst; auto|]. apply IH in H. eapply sub_trans; [exact S|].
  eapply sub_trans; [|exact H]. destruct ins; subs.
Qed.
Lemma implicit_sub : forall ovf m ts ti t m', add_implicit_tables ovf m ts ti t = Ok m' -> sub m m'.
Proof.
  intros ovf m ts ti t m' H. unfold add_implicit_tables in H. apply rbind_ok in H as ([[v lk] pk] & _ & H).
  destruct v; cbn [negb] in H; [|inversion H; subst; subs].
  match type of H with (let (_, _) := ?x in _) = _ => destruct x end. apply ait_sub in H. auto.
Qed.
Lemma increment_sub : forall m ts ti m' ti', increment_array_table_index m ts ti = Ok (m', ti') -> sub m m'.
Proof.
  intros m ts ti m' ti' H. unfold increment_array_table_index in H. apply rbind_ok in H as (pk & _ & H).
  destruct (vlast ti); inversion H; subst. destruct (hget pk m) as [hv|] eqn:E; [|subs].
  destruct (hv_subkeys hv); subs.
Qed.
Lemma table_set_sub : forall m ts ti k m', add_to_table_set m ts ti k = Ok m' -> sub m m'.
Proof.
  intros m ts ti k m' H. unfold add_to_table_set in H. apply rbind_ok in H as (pk & _ & H).
  destruct (hget pk m) as [hv|] eqn:E; [|inversion H; subst; subs].
  destruct (hv_subkeys hv); inversion H; subst; subs.
Qed.

Lemma insert_adds : forall s c s', insert_keyval_into_map s c = Ok s' ->
  (exists e, s' = push_error e s) \/ (exists m, s' = set_map m s /\ adds c s.(p_map) m).
Proof.
  intros s c s' H. unfold insert_keyval_into_map in H. apply rbind_ok in H as ([fk pk] & _ & H).
  destruct (hget fk (p_map s)) as [[[c0|] sb]|].
  - apply rbind_ok in H as (v & _ & H). inversion H; subst. eauto.
  - apply rbind_ok in H as (m & U & H). inversion H; subst. right. exists m. split; auto.
    eapply adds_sub; [apply adds_put|eapply update_parent_sub; eauto].
  - apply rbind_ok in H as (m & U & H). inversion H; subst. right. exists m. split; auto.
    eapply adds_sub; [|eapply update_parent_sub; eauto].
    destruct (c_val c); apply adds_put.
Qed.

Lemma std_adds : forall w1 w2 k l s s' t, std_table_act w1 w2 k l s = Ok (s', t) ->
  (s'.(p_map) = s.(p_map) /\ s'.(p_next) = s.(p_next)) \/
  (s'.(p_next) = s.(p_next) + 1 /\ adds (Cell s.(p_next) TTable) s.(p_map) s'.(p_map)).
Proof.
  intros w1 w2 k l s s' t H. unfold std_table_act in H. apply rbind_ok in H as (s1 & K & H).
  unfold keychain_drop in K. destruct (Nat.ltb _ _); [discriminate|].
  match type of K with Ok (set_keychain ?c _) = _ => set (kc := c) in K; clearbody kc end.
  inversion K; subst; clear K.
  match type of H with (let '(_, _) := ?x in _) = _ => destruct x as [ts ti] end.
  match type of H with (let '(_, _) := ?x in _) = _ => destruct x as [ts2 ti2] end.
  apply rbind_ok in H as ([[e tk] pk] & _ & H). destruct e.
  - apply rbind_ok in H as ([[x y] z] & _ & H). inversion H; subst. left. auto.
  - apply rbind_ok in H as (m & I1 & H). apply rbind_ok in H as (m2 & I2 & H).
    unfold new_cell in H. apply rbind_ok in H as (m3 & I3 & H). inversion H; subst. right. split; auto.
    cbn [p_map set_last_table set_array_error set_map set_tables p_next set_keychain] in *.
    apply implicit_sub in I1. apply table_set_sub in I2.
    eapply sub_adds; [eapply sub_trans; eauto|].
    match type of I3 with match hget _ ?m with _ => _ end = _ => apply adds_sub with m end.
    + destruct (hget tk m2); apply adds_put.
    + match type of I3 with match ?x with _ => _ end = _ => destruct x as [hv|] eqn:E end; [|inversion I3; subst; subs].
      destruct (hv_subkeys hv); inversion I3; subst; subs.
Qed.

Lemma arr_sub : forall w1 w2 k l s s' t, array_table_act w1 w2 k l s = Ok (s', t) ->
  s'.(p_next) = s.(p_next) /\ sub s.(p_map) s'.(p_map).
Proof.
  intros w1 w2 k l s s' t H. unfold array_table_act in H. apply rbind_ok in H as (s1 & K & H).
  unfold keychain_drop in K. destruct (Nat.ltb _ _); [discriminate|].
  match type of K with Ok (set_keychain ?c _) = _ => set (kc := c) in K; clearbody kc end.
  inversion K; subst; clear K.
  match type of H with (let '(_, _) := ?x in _) = _ => destruct x as [ts ti] end.
  apply rbind_ok in H as ([[m ts2] ti2] & M & H).
  assert (S : sub (p_map s) m).
  { cbn [p_map p_ovf set_array_error set_keychain] in M. destruct (vlast ts) as [l0|].
    - destruct (str_eqb _ _).
      + apply rbind_ok in M as ([m1 ti1] & I & M). inversion M; subst. eapply increment_sub; eauto.
      + destruct (is_subtable_of _ _).
        * apply rbind_ok in M as (m1 & I & M). inversion M; subst. eapply implicit_sub; eauto.
        * destruct (pop_until_key _ _ _) as [a b]. destruct (rev a) as [|x y].
          -- apply rbind_ok in M as (m1 & I & M). apply rbind_ok in M as (pk & _ & M). apply implicit_sub in I.
             destruct (hmem pk m1); [|inversion M; subst; auto].
             apply rbind_ok in M as ([m2 ti3] & I2 & M). inversion M; subst. apply increment_sub in I2.
             eapply sub_trans; eauto.
          -- apply rbind_ok in M as ([m1 ti1] & I & M). inversion M; subst. eapply increment_sub; eauto.
    - apply rbind_ok in M as (m1 & I & M). inversion M; subst. eapply implicit_sub; eauto. }
  apply rbind_ok in H as ([[v fk] pk] & _ & H). destruct v; cbn [negb] in H; inversion H; subst; split; auto.
  cbn [p_map set_last_table set_map]. eapply sub_trans; [exact S|].
  destruct (hmem pk m); [subs|]. eapply sub_trans; [|apply sub_put; left; reflexivity]. subs.
Qed.

(** ** Coherence: a heap that gives the contents of every cell *)
Definition good (h : N -> tval) (n : N) (c : cell) : Prop := c.(c_id) < n /\ h c.(c_id) = c.(c_val).

Definition ids (l : list cell) : list N := map c_id l.

Record coherent (h : N -> tval) (s : pst) : Prop := {
  co_inj : forall k1 k2 c1 c2, valof s.(p_map) k1 = Some c1 -> valof s.(p_map) k2 = Some c2 ->
             c1.(c_id) = c2.(c_id) -> k1 = k2;
  co_good : forall k c, valof s.(p_map) k = Some c -> Forall (good h s.(p_next)) (subcells c);
  co_dup : forall k c, valof s.(p_map) k = Some c -> NoDup (ids (subcells c))
}.

Definition linked (acc : list cell) (s : pst) : Prop :=
  exists h, coherent h s /\ NoDup (ids acc) /\ Forall (good h s.(p_next)) acc.
Definition newest (c : cell) (s : pst) : Prop :=
  s.(p_next) = c.(c_id) + 1 /\ forall k c', valof s.(p_map) k = Some c' -> c'.(c_id) < c.(c_id).

Lemma coherent_same : forall h s s', coherent h s -> s'.(p_map) = s.(p_map) -> s'.(p_next) = s.(p_next) -> coherent h s'.
Proof. intros h s s' [A B D] M N. constructor; rewrite M; auto. rewrite N; auto. Qed.
Lemma linked_same : forall acc s s', linked acc s -> s'.(p_map) = s.(p_map) -> s'.(p_next) = s.(p_next) -> linked acc s'.
Proof.
  intros acc s s' (h & C & N & F) M X. exists h. split; [eapply coherent_same; eauto|]. rewrite X. auto.
Qed.
Lemma coherent_sub : forall h s s', coherent h s -> sub s.(p_map) s'.(p_map) -> s'.(p_next) = s.(p_next) -> coherent h s'.
Proof. intros h s s' [A B D] M N. constructor; [|rewrite N|]; eauto. Qed.

Lemma good_more : forall h h' n n' c, n <= n' -> (forall x, x < n -> h' x = h x) -> good h n c -> good h' n' c.
Proof. intros h h' n n' c L E [A B]. split; [lia|]. rewrite E; auto. Qed.

(** allocating a cell *)
Definition heap_put (x : N) (t : tval) (h : N -> tval) : N -> tval := fun y => if y =? x then t else h y.
Lemma heap_put_old : forall n t h x, x < n -> heap_put n t h x = h x.
Proof. intros. unfold heap_put. destruct (x =? n) eqn:E; auto. lia. Qed.

Lemma coherent_new : forall h s t n, coherent h s -> n = s.(p_next) ->
  coherent (heap_put n t h) (set_next (n + 1) s).
Proof.
  intros h s t n [A B D] ->. constructor; cbn [p_map set_next p_next]; auto. intros k c V.
  eapply Forall_impl; [|eapply B; eauto]. intros c' G. eapply good_more; [| |exact G]; [lia|].
  intros. apply heap_put_old. auto.
Qed.
Lemma coherent_adds : forall h s s' c, coherent h s -> s'.(p_next) = s.(p_next) -> adds c s.(p_map) s'.(p_map) ->
  (forall k c', valof s.(p_map) k = Some c' -> c'.(c_id) <> c.(c_id)) ->
  Forall (good h s.(p_next)) (subcells c) -> NoDup (ids (subcells c)) -> coherent h s'.
Proof.
  intros h s s' c [A B D] N [k0 H] F G GD. constructor.
  - intros k1 k2 c1 c2 V1 V2 E. apply H in V1 as [V1|[-> ->]]; apply H in V2 as [V2|[-> ->]]; eauto.
    + exfalso. eapply F; eauto.
    + exfalso. eapply F; eauto.
  - intros k c' V. rewrite N. apply H in V as [V|[-> ->]]; eauto.
  - intros k c' V. apply H in V as [V|[-> ->]]; eauto.
Qed.

Lemma ids_app : forall a b, ids (a ++ b) = ids a ++ ids b.
Proof. intros. apply map_app. Qed.
Lemma NoDup_app_l : forall A (a b : list A), NoDup (a ++ b) -> NoDup a.
Proof. induction a; intros b H; [constructor|]. inversion H; subst. constructor; eauto. intros I. apply H2. apply in_app_iff; auto. Qed.
Lemma NoDup_middle : forall A (a b : list A) x, NoDup (a ++ b) -> ~ In x (a ++ b) -> NoDup (a ++ x :: b).
Proof. intros A a b x H I. apply NoDup_Add with (a := x) (l := a ++ b); auto. apply Add_app. Qed.

Lemma linked_toml : ispec linked toml_p toml_cells.
Proof.
  apply i_toml with (FR := newest) (Vok := fun _ _ => True); auto.
  - intros acc x s (h & C & N & F). exists h. split; auto. rewrite ids_app in N. apply Forall_app in F.
    split; [eapply NoDup_app_l; eauto|tauto].
  - intros. eapply linked_same; eauto.
  - intros. eapply linked_same; eauto.
  - intros. eapply linked_same; eauto.
  - intros. eapply linked_same; eauto.
  - intros. eapply linked_same; eauto.
  - intros. eapply linked_same; eauto.
  - intros acc w1 w2 k l s s' t H (h & C & N & F). apply std_adds in H as [[M X]|[X A]].
    + eapply linked_same; eauto. exists h. auto.
    + exists (heap_put s.(p_next) TTable h). split; [|split; auto].
      * pose proof (coherent_new h s TTable _ C eq_refl) as C2.
        eapply coherent_adds with (c := Cell s.(p_next) TTable); [exact C2|exact X|exact A| | |].
        -- cbn [p_map set_next]. intros k' c' V. apply (co_good _ _ C) in V. inversion V as [|x y [L _] _]; subst.
           cbn [c_id]. lia.
        -- constructor; [|constructor]. split; cbn [c_id c_val p_next set_next]; [lia|]. unfold heap_put.
           rewrite N.eqb_refl. auto.
        -- constructor; [intros []|constructor].
      * eapply Forall_impl; [|exact F]. intros c G. eapply good_more; [| |exact G]; [lia|].
        intros. apply heap_put_old; auto.
  - intros acc w1 w2 k l s s' t H (h & C & N & F). apply arr_sub in H as [X S]. exists h.
    split; [eapply coherent_sub; eauto|]. rewrite X. auto.
  - intros acc t s _ (h & C & N & F). split.
    + exists (heap_put s.(p_next) t h). split; [apply coherent_new; auto|]. cbn [p_next set_next].
      assert (F2 : Forall (good (heap_put s.(p_next) t h) (s.(p_next) + 1)) (acc ++ tcells t)).
      { eapply Forall_impl; [|exact F]. intros c G. eapply good_more; [| |exact G]; [lia|].
        intros. apply heap_put_old; auto. }
      split.
      * rewrite ids_app. cbn [ids map c_id]. fold (ids (tcells t)). apply NoDup_middle; [rewrite <- ids_app; auto|].
        rewrite <- ids_app. intros I. apply in_map_iff in I as (c & E & I). rewrite Forall_forall in F.
        apply F in I as [L _]. lia.
      * apply Forall_app in F2 as [F2 F3]. apply Forall_app. split; auto. constructor; auto.
        split; cbn [c_id c_val]; [lia|]. unfold heap_put. rewrite N.eqb_refl. auto.
    + split; cbn [p_next set_next c_id p_map]; auto. intros k c' V. apply (co_good _ _ C) in V.
      inversion V as [|x y [L _] _]; subst. auto.
  - intros acc c s s' (h & C & N & F) [X W] I. apply insert_adds in I as [[e ->]|(m & -> & A)].
    + exists h. split; auto. eapply coherent_same; eauto.
    + exists h. split; auto. eapply coherent_adds; eauto.
      * intros k c' V. apply W in V. lia.
      * apply Forall_app in F. tauto.
      * rewrite ids_app in N. clear - N. induction (ids acc); auto. inversion N; auto.
Qed.

(** ** The invariant of parsers *)
Record wf (h : N -> tval) (s : pst) : Prop := {
  wf_co : coherent h s;
  wf_dup : NoDup (ids (toml_cells s.(p_root)));
  wf_root : Forall (good h s.(p_next)) (toml_cells s.(p_root))
}.

Lemma wf_new : forall ovf, wf (fun _ => TTable) (new_parser ovf).
Proof.
  intros. assert (V : forall k c, valof (p_map (new_parser ovf)) k = Some c -> False).
  { intros k c V. cbn [new_parser p_map] in V. rewrite valof_put in V.
    destruct (str_eqb k root_key); inversion V. }
  constructor; [constructor|constructor|constructor].
  - intros k1 k2 c1 c2 V1. destruct (V _ _ V1).
  - intros k c V1. destruct (V _ _ V1).
  - intros k c V1. destruct (V _ _ V1).
Qed.
Lemma wf_parse : forall h s i s' r, wf h s -> parse s i = Ok (s', r) -> exists h', wf h' s'.
Proof.
  intros h s i s' r W P. destruct (parse_inv _ _ _ _ P) as (s1 & rest & t & T & E & -> & R).
  apply (linked_toml []) in T.
  - destruct T as (h' & C & N & F). exists h'. constructor; cbn [p_root set_leftover set_root p_next]; auto.
    eapply coherent_same; eauto.
  - exists h. split; [apply W|]. split; constructor.
Qed.
