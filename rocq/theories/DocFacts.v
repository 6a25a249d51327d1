(** What an error-free parse says about the values in the document. *)
From Coq Require Import Lia ZifyBool ZifyNat ZifyN.
From Verif Require Import Str Regex Types Ast State Nom Keys Grammar Api Facts Spec NomFacts DateFacts RoundTrip Effects.
From Verif Require Import ScalarFacts ParseFacts WalkFacts.

(** ** occurrences and cells *)
Lemma inside_cells : forall c x, inside x c.(c_val) <-> exists c', In c' (subcells c) /\ c'.(c_val) = x.
Proof.
  intros c. induction c as [id t IH] using cell_ind'. intros x. cbn [c_val]. split.
  - intros H. inversion H; subst; cbn [kids] in IH; unfold subcells; cbn [c_val].
    + eexists. split; [left; reflexivity|reflexivity].
    + assert (K : In av.(av_val) (map (fun av => av.(av_val)) vals)) by (apply in_map_iff; eauto).
      rewrite Forall_forall in IH. apply (IH _ K) in H1 as (c' & I & E). exists c'. split; auto. right.
      rewrite tcells_kids. cbn [kids]. apply in_flat_map. eauto.
    + assert (K : In tk.(tk_kv).(kv_val) (map (fun tk => tk.(tk_kv).(kv_val)) kvs)) by (apply in_map_iff; eauto).
      rewrite Forall_forall in IH. apply (IH _ K) in H1 as (c' & I & E). exists c'. split; auto. right.
      rewrite tcells_kids. cbn [kids]. apply in_flat_map. eauto.
  - intros (c' & I & E). unfold subcells in I. cbn [c_val] in I. destruct I as [<-|I]; [subst; constructor|].
    rewrite tcells_kids in I. apply in_flat_map in I as (k & K & I). rewrite Forall_forall in IH.
    assert (X : inside x k.(c_val)) by (apply (IH _ K); eauto).
    destruct t; cbn [kids] in K; try contradiction; apply in_map_iff in K as (y & <- & K); econstructor; eauto.
Qed.

Lemma in_doc_cells : forall d x, in_doc x d <-> exists c, In c (toml_cells d) /\ c.(c_val) = x.
Proof.
  intros d x. unfold in_doc, toml_cells. split.
  - intros (ne & kv & I & E & H). apply inside_cells in H as (c & C & V). exists c. split; auto.
    apply in_flat_map. exists ne. split; auto. unfold ex_cells. rewrite E. auto.
  - intros (c & I & V). apply in_flat_map in I as (ne & I & C). unfold ex_cells in C.
    destruct (e_keyval (ne_expr ne)) as [kv|] eqn:E; [|contradiction]. exists ne, kv. split; auto. split; auto.
    apply inside_cells. eauto.
Qed.

(** ** invalid date-times are reported *)
Definition date_rep (s : pst) (t : tval) : Prop :=
  match t with
  | TDateTime d => datetime_digits d /\
      (datetime_validate d = true \/ exists k l, In (EInvalidDateTime k l (show_datetime d)) s.(p_errors))
  | _ => True
  end.
Lemma date_rep_grow : forall s s' t, errors_grow s s' -> date_rep s t -> date_rep s' t.
Proof.
  intros s s' v (a & b & E & F) H. destruct v; cbn [date_rep] in *; auto. destruct H as [D [V|(k & l & I)]]; auto. split; auto.
  right. exists k, l. rewrite E. apply in_app_iff. left. clear E b.
  induction F as [|x y u v K F IH]; [contradiction|]. destruct I as [->|I]; [|right; auto].
  destruct K as [<-|(? & ? & ? & ? & X & _)]; [left; auto|discriminate].
Qed.
Definition dates_rep (acc : list cell) (s : pst) : Prop := Forall (fun c => date_rep s c.(c_val)) acc.
Lemma dates_grow : forall acc s s', errors_grow s s' -> dates_rep acc s -> dates_rep acc s'.
Proof. intros acc s s' E H. eapply Forall_impl; [|exact H]. intros. eapply date_rep_grow; eauto. Qed.

Lemma dates_toml : ispec dates_rep toml_p toml_cells.
Proof.
  apply i_toml with (FR := fun _ _ => True) (Vok := fun t s => date_rep s t); auto.
  - intros acc x s H. apply Forall_app in H. tauto.
  - intros acc s k t H. eapply dates_grow; eauto. eapply grow_push; reflexivity.
  - intros acc s k H. eapply dates_grow; eauto. eapply grow_push; reflexivity.
  - intros acc s e A X H. eapply dates_grow; eauto. apply grow_ext; auto.
  - intros. eapply dates_grow; eauto. eapply grow_std; eauto.
  - intros. eapply dates_grow; eauto. eapply grow_arr; eauto.
  - intros acc t s V H. split; auto. apply Forall_app in H as [A B]. apply Forall_app. split; auto.
  - intros acc c s s' H _ I. eapply dates_grow; eauto. eapply grow_insert; eauto.
  - intros v s H. destruct v; cbn [date_rep]; auto. contradiction.
  - intros f s i s' r t E. unfold array_ in E. apply rbind_ok in E as ([s1 r1] & E1 & E). inversion E; subst.
    unfold array_internal_ in E1. pinv. exact I.
  - intros d s D V. split; auto.
  - intros d s k D. split; auto. right. exists k, s.(p_line). unfold push_error, vpush. cbn. apply in_app_iff. right. left. auto.
Qed.

Lemma parse_dates : forall s i s' r d, parse s i = Ok (s', r) -> in_doc (TDateTime d) s'.(p_root) ->
  datetime_digits d /\ (datetime_validate d = true \/ exists k l, In (EInvalidDateTime k l (show_datetime d)) s'.(p_errors)).
Proof.
  intros s i s' r d P I. destruct (parse_inv _ _ _ _ P) as (s1 & rest & t & T & E & -> & R).
  cbn [p_root set_leftover set_root p_errors] in *. apply (dates_toml []) in T; [|constructor].
  apply in_doc_cells in I as (c & C & V). cbn [app] in T. unfold dates_rep in T. rewrite Forall_forall in T.
  apply T in C. rewrite V in C. exact C.
Qed.

(** ** Arrays of an error-free parse have elements of one type *)
Lemma no_errors_before : forall s s', errors_grow s s' -> s'.(p_errors) = [] -> s.(p_errors) = [].
Proof.
  intros s s' (a & b & E & F) H. rewrite H in E. symmetry in E. apply app_eq_nil in E as [-> ->].
  inversion F. auto.
Qed.

Definition types_same (s s' : pst) : Prop := s'.(p_atypes) = s.(p_atypes).
Definition types_top (s s' : pst) : Prop := s.(p_atypes) <> [] ->
  s'.(p_atypes) <> [] /\ vpop s'.(p_atypes) = vpop s.(p_atypes).

Lemma types_insert : forall s c s', insert_keyval_into_map s c = Ok s' -> types_same s s'.
Proof. intros s c s' H. apply insert_effect in H as [(fk & v & ->)|(m & ->)]; reflexivity. Qed.
Lemma types_keyval : forall k sep v s s' kv, keyval_act k sep v s = Ok (s', kv) -> types_same s s'.
Proof.
  intros k sep v s s' kv H. apply keyval_effect in H as [_ [[A (e & _ & ->)]|[_ (s1 & I & ->)]]]; [reflexivity|].
  apply types_insert in I. exact I.
Qed.
Lemma types_array_value : forall v sep nls s s' a, array_value_act v sep nls s = Ok (s', a) ->
  exists t, map_val_to_array_type v.(c_val) = Ok t /\ s'.(p_atypes) = vpush (vpop s.(p_atypes)) t.
Proof.
  intros v sep nls s s' a H. apply array_value_effect in H as [_ (t & s1 & s2 & kc & T & M & I & ->)].
  exists t. split; auto. apply types_insert in I. unfold types_same in I. cbn [p_atypes set_keychain].
  rewrite I. cbn [p_atypes set_atypes]. apply mixed_effect in M as [->|[pk ->]]; reflexivity.
Qed.

Section Types.
  Variable pval : P cell.
  Hypothesis PV : pres types_same pval.
  Lemma types_trans : forall a b c, types_same a b -> types_same b c -> types_same a c.
  Proof. unfold types_same. congruence. Qed.
  Lemma top_trans : forall a b c, types_top a b -> types_top b c -> types_top a c.
  Proof. unfold types_top. intros a b c H H2 N. destruct (H N) as [N2 E]. destruct (H2 N2) as [N3 E2]. split; congruence. Qed.
  Lemma same_top : forall a b, types_same a b -> types_top a b.
  Proof. unfold types_top, types_same. intros a b E N. rewrite E. auto. Qed.
  Lemma top_array_value : pres types_top (array_value_ pval).
  Proof.
    unfold array_value_. apply pres_bind; [exact top_trans| |].
    - intros s i s' r E. apply same_top. eapply PV; eauto.
    - intros v. apply pres_bind; [exact top_trans| |].
      + intros s i s' r E. apply same_top. revert E. apply pres_opt, pres_complete, pres_array_sep;
          unfold types_same; auto; congruence.
      + intros sep. apply pres_bind; [exact top_trans| |].
        * intros s i s' r E. apply same_top. revert E. apply pres_complete, pres_comment_or_nls;
            unfold types_same; auto; congruence.
        * intros nls. apply pres_act. intros s s' a E N. apply types_array_value in E as (t & _ & ->).
          unfold vpush. split; [destruct (vpop (p_atypes s)); discriminate|]. apply removelast_last.
  Qed.
  Lemma types_array : pres types_same (array_ pval).
  Proof.
    intros s i s' r E. unfold array_ in E. apply rbind_ok in E as ([s1 r1] & E1 & E). inversion E; subst.
    assert (T : pres types_top (array_internal_ pval)).
    { assert (RF : forall s, types_top s s) by (intros s0 N; auto).
      unfold array_internal_, array_values_.
      repeat (apply pres_bind; [exact top_trans| |intros ?];
        [first [apply pres_tag; exact RF | apply pres_comment_or_nls; [exact RF|exact top_trans] |
                apply pres_many0; [exact RF|exact top_trans|exact top_array_value]]|]).
      apply pres_ret. exact RF. }
    apply T in E1. destruct E1 as [N E2].
    - cbn. unfold vpush. destruct (p_atypes s); discriminate.
    - unfold types_same. cbn [p_atypes set_atypes pop_key set_keychain]. rewrite E2. cbn. apply removelast_last.
  Qed.
  Lemma types_val_ : pres types_same (val_ pval).
  Proof.
    assert (RF : forall s, types_same s s) by (intros s; reflexivity).
    assert (KV : pres types_same (keyval_p_ pval)).
    { unfold keyval_p_. apply pres_bind; [exact types_trans|apply pres_key; auto; try exact types_trans; intros; reflexivity|intros k].
      apply pres_bind; [exact types_trans|apply pres_keyval_sep; auto; exact types_trans|intros sep].
      apply pres_bind; [exact types_trans|exact PV|intros v]. apply pres_act. intros. eapply types_keyval; eauto. }
    unfold val_. repeat (apply pres_alt; [exact types_trans| |]);
      (apply pres_pcell; [exact types_trans|intros; reflexivity|]).
    - apply types_array.
    - unfold inline_table_, inline_table_keyvals_, table_keyval_p_.
      apply pres_bind; [exact types_trans|apply pres_tag; auto|intros _].
      apply pres_bind; [exact types_trans|apply pres_re; auto|intros w1].
      apply pres_bind; [exact types_trans| |intros kvs].
      + apply pres_opt, pres_complete, pres_many0; auto; [exact types_trans|].
        apply pres_bind; [exact types_trans|exact KV|intros kv].
        apply pres_bind; [exact types_trans|apply pres_opt, pres_complete, pres_array_sep; auto; exact types_trans|intros sep].
        apply pres_bind; [exact types_trans|apply pres_complete, pres_comment_or_nls; auto; exact types_trans|intros nls].
        apply pres_ret; auto.
      + apply pres_bind; [exact types_trans|apply pres_re; auto|intros w2].
        apply pres_bind; [exact types_trans|apply pres_tag; auto|intros _]. apply pres_ret; auto.
    - apply pres_date_time; auto; try exact types_trans; intros; reflexivity.
    - apply pres_re; auto.
    - apply pres_re; auto.
    - apply pres_boolean; auto. exact types_trans.
    - apply pres_string; auto; try exact types_trans; intros; reflexivity.
  Qed.
End Types.
Lemma types_val : forall f, pres types_same (val f).
Proof. induction f; cbn [val]; [intros s i s' r E; discriminate|apply types_val_; auto]. Qed.

Lemma mixed_none : forall t s s' l, check_mixed t s = Ok s' -> s'.(p_errors) = [] -> vlast s.(p_atypes) = Some l ->
  l = ANone \/ l = t.
Proof.
  intros t s s' l H E L. unfold check_mixed in H. rewrite L in H.
  destruct (array_type_eqb l ANone) eqn:A; [left; destruct l; try discriminate; auto|].
  destruct (array_type_eqb l t) eqn:B; [right; destruct l, t; try discriminate; auto|]. cbn [negb andb] in H.
  apply rbind_ok in H as ([[x fk] pk] & _ & H). inversion H; subst; clear H. exfalso.
  destruct (vlast (p_errors s)) as [e|] eqn:V.
  - assert (p_errors s = []).
    { match type of E with p_errors (if ?b then _ else _) = [] => destruct b end; auto.
      unfold push_error, vpush in E. cbn in E. destruct (p_errors s); discriminate. }
    rewrite H in V. discriminate.
  - unfold push_error, vpush in E. cbn in E. destruct (p_errors s); discriminate.
Qed.

Definition has_type (t : array_type) (av : array_value) : Prop := map_val_to_array_type av.(av_val).(c_val) = Ok t.

Lemma vlast_push : forall A (l : list A) x, vlast (vpush l x) = Some x.
Proof. intros. apply vlast_app. Qed.

Lemma grow_refl : forall s, errors_grow s s.
Proof. intros. apply grow_same. auto. Qed.
Lemma grow_array_value : forall f, pres errors_grow (array_value_ (val f)).
Proof.
  intros f. unfold array_value_. apply pres_bind; [exact grow_trans|apply grow_val|intros v].
  apply pres_bind; [exact grow_trans|apply pres_opt, pres_complete, pres_array_sep; [exact grow_refl|exact grow_trans]|intros sep].
  apply pres_bind; [exact grow_trans|apply pres_complete, pres_comment_or_nls; [exact grow_refl|exact grow_trans]|intros nls].
  apply pres_act. intros s s' a H. apply array_value_effect in H as [_ (t & s1 & s2 & kc & _ & M & I & ->)].
  eapply grow_trans with s1.
  - apply mixed_effect in M as [->|[pk ->]]; [apply grow_refl|eapply grow_push; reflexivity].
  - apply grow_insert in I. exact I.
Qed.

Lemma element_step : forall f s i s' r a l, array_value_ (val f) s i = Ok (s', Done r a) ->
  s'.(p_errors) = [] -> vlast s.(p_atypes) = Some l ->
  exists t, has_type t a /\ (l = ANone \/ l = t) /\ vlast s'.(p_atypes) = Some t.
Proof.
  intros f s i s' r a l H E L. unfold array_value_ in H. apply bind_done in H as (s1 & i1 & v & H1 & H).
  apply bind_done in H as (s2 & i2 & sep & H2 & H). apply bind_done in H as (s3 & i3 & nls & H3 & H).
  apply act_done in H as [-> H].
  apply types_val in H1.
  assert (s2 = s1) as -> by (eapply pure_state; [|exact H2]; pure_tac; apply pure_sep).
  assert (s3 = s1) as ->.
  { revert H3. apply (pres_complete (fun s s' => s' = s)). apply pres_comment_or_nls; intros; subst; auto. }
  apply array_value_effect in H as [-> (t & s4 & s5 & kc & T & M & I & ->)].
  exists t. split; auto.
  pose proof (types_insert _ _ _ I) as TI. unfold types_same in *. cbn [p_atypes set_atypes] in TI.
  cbn [p_errors set_keychain p_atypes] in *. split.
  - eapply mixed_none; eauto; [|rewrite H1; auto].
    apply grow_insert in I. apply no_errors_before in I; auto.
  - rewrite TI. apply vlast_push.
Qed.

Lemma type_not_none : forall v, map_val_to_array_type v <> Ok ANone.
Proof. intros []; discriminate. Qed.

Lemma elements_uniform : forall f n s i s' r l, many_loop n (array_value_ (val f)) s i = Ok (s', Done r l) ->
  s'.(p_errors) = [] -> forall x, vlast s.(p_atypes) = Some x ->
  exists t, Forall (has_type t) l /\ (x = ANone \/ x = t \/ l = []).
Proof.
  intros f. induction n; intros s i s' r l H E x L; [discriminate|]. cbn [many_loop] in H.
  destruct i as [|c i]; [inversion H; subst; exists ANone; auto|].
  apply rbind_ok in H as ([s1 r1] & H1 & H).
  destruct r1 as [i1 a| |]; [|inversion H; subst; exists ANone; auto|discriminate].
  destruct (Nat.eqb _ _); [inversion H; subst; exists ANone; auto|].
  apply rbind_ok in H as ([s2 r2] & H2 & H). destruct r2 as [i2 l2| |]; inversion H; subst.
  assert (GE : errors_grow s1 s').
  { revert H2. apply (pres_loop errors_grow); [apply grow_refl|apply grow_trans|].
    intros a1 a2 a3 a4 X. clear - X. revert X. apply grow_array_value. }
  destruct (element_step _ _ _ _ _ _ x H1) as (t & T & O & L2); auto; [eapply no_errors_before; eauto|].
  destruct (IHn _ _ _ _ _ H2 E _ L2) as (t2 & F & O2). exists t. split; [|tauto]. constructor; auto.
  destruct O2 as [->|[->| ->]]; auto. exfalso. eapply type_not_none; exact T.
Qed.

Definition one_type (t : tval) : Prop :=
  match t with TArray vals _ _ => exists k, Forall (has_type k) vals | _ => True end.

Lemma array_uniform : forall f s i s' r t, array_ (val f) s i = Ok (s', Done r t) -> s'.(p_errors) = [] -> one_type t.
Proof.
  intros f s i s' r t H E. unfold array_ in H. apply rbind_ok in H as ([s1 r1] & H1 & H). inversion H; subst; clear H.
  cbn [p_errors set_atypes pop_key set_keychain] in E.
  unfold array_internal_ in H1. apply bind_done in H1 as (a1 & b1 & x1 & T1 & H1). apply tag_done in T1 as (-> & _ & _).
  apply bind_done in H1 as (a2 & b2 & cn1 & C1 & H1).
  apply bind_done in H1 as (a3 & b3 & vals & V & H1). apply bind_done in H1 as (a4 & b4 & cn2 & C2 & H1).
  apply bind_done in H1 as (a5 & b5 & x2 & T2 & H1). apply tag_done in T2 as (-> & _ & _).
  apply ret_done in H1 as (-> & -> & ->).
  assert (NC : pres (fun s s' => s' = s) comment_or_nls) by (apply pres_comment_or_nls; intros; subst; auto).
  apply NC in C1. apply NC in C2. subst a2 a4.
  unfold array_values_, many0 in V. destruct (elements_uniform _ _ _ _ _ _ _ V E ANone) as (k & F & _).
  - cbn [p_atypes set_atypes push_key set_keychain]. apply vlast_push.
  - exists k. auto.
Qed.

Definition arrays_ok (acc : list cell) (s : pst) : Prop :=
  s.(p_errors) = [] -> Forall (fun c => one_type c.(c_val)) acc.
Lemma arrays_grow : forall acc s s', errors_grow s s' -> arrays_ok acc s -> arrays_ok acc s'.
Proof. intros acc s s' G H E. apply H. eapply no_errors_before; eauto. Qed.

Lemma arrays_toml : ispec arrays_ok toml_p toml_cells.
Proof.
  apply i_toml with (FR := fun _ _ => True) (Vok := fun t s => s.(p_errors) = [] -> one_type t); auto.
  - intros acc x s H E. specialize (H E). apply Forall_app in H. tauto.
  - intros acc s k t H. eapply arrays_grow; eauto. eapply grow_push; reflexivity.
  - intros acc s k H. eapply arrays_grow; eauto. eapply grow_push; reflexivity.
  - intros acc s e A X H. eapply arrays_grow; eauto. apply grow_ext; auto.
  - intros. eapply arrays_grow; eauto. eapply grow_std; eauto.
  - intros. eapply arrays_grow; eauto. eapply grow_arr; eauto.
  - intros acc t s V H. split; auto. intros E. specialize (H E). apply Forall_app in H as [A B].
    apply Forall_app. split; auto.
  - intros acc c s s' H _ I. eapply arrays_grow; eauto. eapply grow_insert; eauto.
  - intros v s H E. destruct v; cbn [one_type]; auto. contradiction.
  - intros f s i s' r t H E. eapply array_uniform; eauto.
  - intros d s D V E. exact I.
  - intros d s k D E. exact I.
Qed.

Lemma has_type_kind : forall t a b, map_val_to_array_type a = Ok t -> map_val_to_array_type b = Ok t -> same_kind a b.
Proof. intros t [] [] H H2; cbn in *; congruence || exact I. Qed.

Lemma parse_arrays : forall s i s' r vals n1 n2 a b, parse s i = Ok (s', r) -> s'.(p_errors) = [] ->
  in_doc (TArray vals n1 n2) s'.(p_root) -> In a vals -> In b vals -> same_kind a.(av_val).(c_val) b.(av_val).(c_val).
Proof.
  intros s i s' r vals n1 n2 a b P N D A B. destruct (parse_inv _ _ _ _ P) as (s1 & rest & t & T & E & -> & R).
  cbn [p_root set_leftover set_root p_errors] in *. apply (arrays_toml []) in T; [|constructor].
  apply in_doc_cells in D as (c & C & V). cbn [app] in T. specialize (T N). rewrite Forall_forall in T.
  apply T in C. rewrite V in C. destruct C as [k F]. rewrite Forall_forall in F.
  eapply has_type_kind; [apply F; exact A|apply F; exact B].
Qed.
