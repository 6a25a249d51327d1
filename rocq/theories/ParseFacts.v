(** Termination of parsing, and printing of parsed documents. *)
From Coq Require Import Lia ZifyBool ZifyNat ZifyN.
From Verif Require Import Str Regex Types Ast State Nom Keys Grammar Api Facts Spec.
From Verif Require Import RegexFacts NomFacts RoundTrip Effects.

(** ** The bookkeeping functions never run out of fuel *)
Lemma rbind_nf : forall A B (r : res A) (f : A -> res B), r <> Fuel -> (forall a, r = Ok a -> f a <> Fuel) ->
  rbind r f <> Fuel.
Proof. intros A B [a| |] f H1 H2; simpl; auto; discriminate. Qed.

Lemma vindex_nf : forall A (l : list A) i, vindex l i <> Fuel.
Proof. intros. unfold vindex. destruct (nth_error l i); discriminate. Qed.

Ltac nf_tac := repeat (match goal with
  | H : forall _, _ |- _ <> Fuel => solve [apply H]
  | |- rbind _ _ <> Fuel => apply rbind_nf; [|intros]
  | |- Ok _ <> Fuel => discriminate
  | |- Panic <> Fuel => discriminate
  | |- vindex _ _ <> Fuel => apply vindex_nf
  | |- (match ?x with _ => _ end) <> Fuel => destruct x
  | |- (let '(_, _) := ?x in _) <> Fuel => destruct x
  | |- _ <> Fuel => solve [eauto]
  end).

Lemma gkp_nf : forall n ts ti i pe kp, gkp_loop ts ti n i pe kp <> Fuel.
Proof. induction n; intros; cbn [gkp_loop]; nf_tac. Qed.
Lemma gatk_arr_nf : forall m ks fk, gatk_arr m ks fk <> Fuel.
Proof.
  induction ks as [|k [|k1 ks] IH]; intros; cbn [gatk_arr] in *; nf_tac.
Qed.
Lemma gatk_nf : forall ovf m ts ti n i pe v fk pk, gatk_loop ovf m ts ti n i pe v fk pk <> Fuel.
Proof.
  induction n; intros; cbn [gatk_loop]; nf_tac.
  - apply gatk_arr_nf.
  - unfold dec_usize. nf_tac.
Qed.
Lemma get_full_key_nf : forall ovf m ts ti kc, get_full_key ovf m ts ti kc <> Fuel.
Proof.
  intros. unfold get_full_key. nf_tac. apply gatk_nf.
Qed.
Lemma keyval_keys_nf : forall s, keyval_keys s <> Fuel.
Proof. intros. unfold keyval_keys. nf_tac; apply get_full_key_nf. Qed.
Lemma update_parent_nf : forall m pk kc, update_parent m pk kc <> Fuel.
Proof. intros. unfold update_parent. nf_tac. Qed.

Lemma rmap_nf : forall A B (f : A -> res B) l, Forall (fun x => f x <> Fuel) l -> rmap f l <> Fuel.
Proof.
  intros A B f l H. induction H; cbn [rmap]; [discriminate|].
  change ((fix go (l : list A) : res (list B) := match l with
    | [] => Ok [] | x :: l' => let? a := f x in let? b := go l' in Ok (a :: b) end) l) with (rmap f l) in *. nf_tac.
Qed.
Lemma to_val_nf : forall v, to_val v <> Fuel.
Proof.
  induction v using tval_ind'; cbn [to_val]; try discriminate.
  - nf_tac. apply rmap_nf. auto.
  - nf_tac. apply rmap_nf. eapply Forall_impl; [|exact H]. intros tk Hk. cbv beta. nf_tac.
Qed.
Lemma insert_nf : forall s c, insert_keyval_into_map s c <> Fuel.
Proof.
  intros. unfold insert_keyval_into_map. apply rbind_nf; [apply keyval_keys_nf|]. intros [fk pk] _.
  nf_tac; try apply to_val_nf; apply update_parent_nf.
Qed.
Lemma keyval_act_nf : forall k sep v s, keyval_act k sep v s <> Fuel.
Proof. intros. unfold keyval_act. nf_tac; try apply to_val_nf; apply insert_nf. Qed.
Lemma array_value_act_nf : forall v sep nls s, array_value_act v sep nls s <> Fuel.
Proof.
  intros. unfold array_value_act. apply rbind_nf.
  - destruct v as [id []]; discriminate.
  - intros t _. apply rbind_nf.
    + unfold check_mixed. nf_tac. apply get_full_key_nf.
    + intros s1 _. apply rbind_nf; [apply insert_nf|]. intros s2 _. nf_tac.
Qed.
Lemma ait_nf : forall m ks f k, ait_loop m ks f k <> Fuel.
Proof.
  intros m ks. revert m. induction ks as [|k ks IH]; intros m f lk; cbn [ait_loop]; [discriminate|].
  apply rbind_nf.
  - nf_tac.
  - intros [[m1 i1] f1] _. destruct ks; [discriminate|apply IH].
Qed.
Lemma add_implicit_nf : forall ovf m ts ti t, add_implicit_tables ovf m ts ti t <> Fuel.
Proof.
  intros. unfold add_implicit_tables. apply rbind_nf; [apply gatk_nf|]. intros [[v lk] pk] _.
  destruct (negb v); [discriminate|]. destruct (vlast ts); apply ait_nf.
Qed.
Lemma incr_nf : forall m ts ti, increment_array_table_index m ts ti <> Fuel.
Proof. intros. unfold increment_array_table_index. apply rbind_nf; [apply gkp_nf|]. intros. destruct (vlast ti); discriminate. Qed.
Lemma add_set_nf : forall m ts ti k, add_to_table_set m ts ti k <> Fuel.
Proof. intros. unfold add_to_table_set. apply rbind_nf; [apply gkp_nf|]. intros. nf_tac. Qed.
Lemma drop_nf : forall n s, keychain_drop n s <> Fuel.
Proof. intros. unfold keychain_drop. nf_tac. Qed.
Lemma khc_nf : forall m k, key_has_children_with_values m k <> Fuel.
Proof. intros. unfold key_has_children_with_values. nf_tac. Qed.

Lemma std_table_act_nf : forall w1 w2 k l s, std_table_act w1 w2 k l s <> Fuel.
Proof.
  intros. unfold std_table_act. apply rbind_nf; [apply drop_nf|]. intros s1 _.
  match goal with |- (let '(_, _) := ?x in _) <> _ => destruct x as [ts ti] end.
  match goal with |- (let '(_, _) := ?x in _) <> _ => destruct x as [ts2 ti2] end.
  apply rbind_nf.
  - match goal with |- (if ?b then _ else _) <> _ => destruct b end; [discriminate|].
    apply rbind_nf; [apply gatk_nf|]. intros [[v tk] pk] _. destruct (negb v); [discriminate|].
    apply rbind_nf; [apply khc_nf|]. intros b _. destruct b; discriminate.
  - intros [[e tk] pk] _. destruct e.
    + apply rbind_nf; [apply gatk_nf|]. intros [[x y] z] _. discriminate.
    + apply rbind_nf; [apply add_implicit_nf|]. intros m _. apply rbind_nf; [apply add_set_nf|]. intros m2 _.
      unfold new_cell. apply rbind_nf; [|discriminate]. nf_tac.
Qed.
Lemma array_table_act_nf : forall w1 w2 k l s, array_table_act w1 w2 k l s <> Fuel.
Proof.
  intros. unfold array_table_act. apply rbind_nf; [apply drop_nf|]. intros s1 _.
  match goal with |- (let '(_, _) := ?x in _) <> _ => destruct x as [ts ti] end.
  apply rbind_nf.
  - destruct (vlast ts).
    + match goal with |- (if ?b then _ else _) <> _ => destruct b end.
      { apply rbind_nf; [apply incr_nf|]. intros [m t2] _. discriminate. }
      match goal with |- (if ?b then _ else _) <> _ => destruct b end.
      { apply rbind_nf; [apply add_implicit_nf|]. discriminate. }
      match goal with |- (let '(_, _) := ?x in _) <> _ => destruct x as [a b] end.
      destruct (rev a).
      * apply rbind_nf; [apply add_implicit_nf|]. intros m _. apply rbind_nf; [apply gkp_nf|]. intros pk _.
        match goal with |- (if ?b then _ else _) <> _ => destruct b end; [|discriminate].
        apply rbind_nf; [apply incr_nf|]. intros [m2 t2] _. discriminate.
      * apply rbind_nf; [apply incr_nf|]. intros [m t2] _. discriminate.
    + apply rbind_nf; [apply add_implicit_nf|]. discriminate.
  - intros [[m ts2] ti2] _. apply rbind_nf; [apply gatk_nf|]. intros [[v fk] pk] _. destruct (negb v); discriminate.
Qed.

(** ** The parsers never run out of fuel *)
Definition nf {A} (n : nat) (p : P A) : Prop := forall s i, (length i <= n)%nat -> p s i <> Fuel.
Definition shorter {A} (p : P A) : Prop :=
  forall s i s' r a, p s i = Ok (s', Done r a) -> (length r <= length i)%nat.

Lemma reads_shorter : forall A (p : P A) f, reads p f -> shorter p.
Proof. intros A p f H s i s' r a E. apply H in E. subst. rewrite app_length. lia. Qed.

Lemma nf_bind : forall A B n (p : P A) (f : A -> P B), nf n p -> shorter p -> (forall a, nf n (f a)) ->
  nf n (bind p f).
Proof.
  intros A B n p f H S H2 s i L. unfold bind. apply rbind_nf; [apply H; auto|].
  intros [s1 [r a| |]] E; try discriminate. apply H2. apply S in E. lia.
Qed.
Lemma nf_ret : forall A n (a : A), nf n (ret a).
Proof. intros A n a s i L. discriminate. Qed.
Lemma nf_pmap : forall A B n (p : P A) (f : A -> B), nf n p -> nf n (pmap p f).
Proof.
  intros A B n p f H s i L. unfold pmap, bind. apply rbind_nf; [apply H; auto|].
  intros [s1 [r a| |]] E; discriminate.
Qed.
Lemma nf_complete : forall A n (p : P A), nf n p -> nf n (complete p).
Proof. intros A n p H s i L. unfold complete. apply rbind_nf; [apply H; auto|]. intros [s1 r] _. discriminate. Qed.
Lemma nf_opt : forall A n (p : P A), nf n p -> nf n (opt p).
Proof. intros A n p H s i L. unfold opt. apply rbind_nf; [apply H; auto|]. intros [s1 r] _. discriminate. Qed.
Lemma nf_alt : forall A n (p q : P A), nf n p -> nf n q -> nf n (alt p q).
Proof.
  intros A n p q H H2 s i L. unfold alt. apply rbind_nf; [apply H; auto|].
  intros [s1 [r a| |]] E; try discriminate. apply H2; auto.
Qed.
Lemma nf_tag : forall n t, nf n (tag t).
Proof. intros n t s i L. discriminate. Qed.
Lemma nf_re : forall n t, nf n (re_find t).
Proof. intros n t s i L. discriminate. Qed.
Lemma nf_tw : forall n f, nf n (take_while f).
Proof. intros n f s i L. unfold take_while. destruct (span f i). discriminate. Qed.
Lemma nf_tw1 : forall n f, nf n (take_while1 f).
Proof. intros n f s i L. unfold take_while1. destruct (span f i). discriminate. Qed.
Lemma nf_act : forall A n (f : pst -> res (pst * A)), (forall s, f s <> Fuel) -> nf n (act f).
Proof. intros A n f H s i L. unfold act. apply rbind_nf; auto. intros [s1 a] _. discriminate. Qed.
Lemma nf_loop : forall A n (p : P A), nf n p -> shorter p ->
  forall m s i, (length i <= n)%nat -> (length i < m)%nat -> many_loop m p s i <> Fuel.
Proof.
  intros A n p H S. induction m; intros s i L1 L2; [lia|]. cbn [many_loop]. destruct i as [|c i]; [discriminate|].
  apply rbind_nf; [apply H; auto|]. intros [s1 [r a| |]] E; try discriminate. apply S in E.
  destruct (Nat.eqb_spec (length r) (length (c :: i))); [discriminate|].
  apply rbind_nf; [apply IHm; simpl in *; lia|]. intros [s2 r2] _. discriminate.
Qed.
Lemma nf_many0 : forall A n (p : P A), nf n p -> shorter p -> nf n (many0 p).
Proof. intros A n p H S s i L. unfold many0. eapply nf_loop; eauto. Qed.
Lemma nf_many1 : forall A n (p : P A), nf n p -> shorter p -> nf n (many1 p).
Proof.
  intros A n p H S s i L. unfold many1. apply rbind_nf; [apply H; auto|].
  intros [s1 [r a| |]] E; try discriminate. apply S in E.
  apply rbind_nf; [eapply nf_loop; eauto; lia|]. intros [s2 r2] _. discriminate.
Qed.

Lemma shorter_bind : forall A B (p : P A) (f : A -> P B), shorter p -> (forall a, shorter (f a)) -> shorter (bind p f).
Proof.
  intros A B p f H H2 s i s' r b E. apply bind_done in E as (s1 & i1 & a & E1 & E). apply H in E1. apply H2 in E. lia.
Qed.
Lemma shorter_act : forall A (f : pst -> res (pst * A)), shorter (act f).
Proof. intros A f s i s' r a E. apply act_done in E as [-> _]. auto. Qed.

Lemma shorter_ret : forall A (a : A), shorter (ret a).
Proof. intros A a s i s' r b E. inversion E; subst. auto. Qed.
Lemma shorter_pmap : forall A B (p : P A) (f : A -> B), shorter p -> shorter (pmap p f).
Proof. intros A B p f H s i s' r b E. apply pmap_done in E as (a & E & _). eauto. Qed.
Lemma shorter_complete : forall A (p : P A), shorter p -> shorter (complete p).
Proof. intros A p H s i s' r b E. apply complete_done in E. eauto. Qed.
Lemma shorter_opt : forall A (p : P A), shorter p -> shorter (opt p).
Proof. intros A p H s i s' r b E. apply opt_done in E as [(x & -> & E)|(-> & -> & E)]; eauto. Qed.
Lemma shorter_alt : forall A (p q : P A), shorter p -> shorter q -> shorter (alt p q).
Proof. intros A p q H H2 s i s' r b E. apply alt_done in E as [E|(s1 & _ & E)]; eauto. Qed.
Lemma shorter_tag : forall t, shorter (tag t).
Proof. intros. eapply reads_shorter, reads_tag. Qed.
Lemma shorter_re : forall t, shorter (re_find t).
Proof. intros. eapply reads_shorter, reads_re. Qed.

Ltac sh := eapply reads_shorter; eauto with reads.
Ltac nfp := repeat (match goal with
  | |- forall _, _ => intro
  | |- nf _ (bind _ _) => apply nf_bind
  | |- nf _ (alt _ _) => apply nf_alt
  | |- nf _ (opt _) => apply nf_opt
  | |- nf _ (complete _) => apply nf_complete
  | |- nf _ (pmap _ _) => apply nf_pmap
  | |- nf _ (re_find _) => apply nf_re
  | |- nf _ (tag _) => apply nf_tag
  | |- nf _ (ret _) => apply nf_ret
  | |- nf _ (take_while _) => apply nf_tw
  | |- nf _ (take_while1 _) => apply nf_tw1
  | |- nf _ (many0 _) => apply nf_many0
  | |- nf _ (many1 _) => apply nf_many1
  | |- nf _ (act _) => apply nf_act; try (intros; discriminate)
  | |- nf _ _ => assumption
  | |- shorter (act _) => apply shorter_act
  | |- shorter (bind _ _) => apply shorter_bind
  | |- shorter (alt _ _) => apply shorter_alt
  | |- shorter (opt _) => apply shorter_opt
  | |- shorter (complete _) => apply shorter_complete
  | |- shorter (pmap _ _) => apply shorter_pmap
  | |- shorter (re_find _) => apply shorter_re
  | |- shorter (tag _) => apply shorter_tag
  | |- shorter (ret _) => apply shorter_ret
  | |- shorter _ => assumption
  | |- shorter _ => solve [eapply reads_shorter; eauto with reads]
  end).

Lemma nf_newline : forall n, nf n newline.
Proof. intros. unfold newline. nfp. Qed.
Lemma nf_ws : forall n, nf n ws.
Proof. intros. apply nf_re. Qed.
Lemma nf_comment : forall n, nf n comment.
Proof. intros. unfold comment. nfp. Qed.
Lemma nf_string : forall n, nf n string_p.
Proof.
  intros. unfold string_p, ml_literal_string_p, ml_basic_string_p, basic_string_p, literal_string_p,
    raw_ml_literal_string, raw_ml_basic_string, raw_basic_string, raw_literal_string. nfp.
Qed.
Lemma nf_boolean : forall n, nf n boolean.
Proof. intros. unfold boolean. nfp. Qed.

Lemma nf_dti : forall n, nf n date_time_internal.
Proof.
  intros. unfold date_time_internal, date_p, time_p, fractional, time_offset_p, time_offset_amount_p. nfp.
Qed.
Lemma nf_date_time : forall n, nf n date_time.
Proof.
  intros n s i L. unfold date_time. apply rbind_nf; [apply (nf_dti n); auto|].
  intros [s1 [r a| |]] E; try discriminate. destruct (datetime_validate a); [discriminate|].
  apply rbind_nf; [apply get_full_key_nf|]. intros [[x fk] pk] _. discriminate.
Qed.
Lemma nf_key : forall n, nf n key_p.
Proof. intros. unfold key_p, quoted_key, unquoted_key. nfp. Qed.
Lemma nf_keyval_sep : forall n, nf n keyval_sep.
Proof. intros. unfold keyval_sep, ws. nfp. Qed.
Lemma nf_array_sep : forall n, nf n array_sep.
Proof. intros. unfold array_sep, ws. nfp. Qed.
Lemma nf_comment_or_nls : forall n, nf n comment_or_nls.
Proof.
  intros. unfold comment_or_nls. apply nf_many1; [|sh; apply reads_comment_or_nl].
  unfold comment_or_nl, comment_nl, comment, ws_newline. nfp.
Qed.

Section NfVal.
  Variable n : nat.
  Variable pval : P cell.
  Hypothesis PV : nf n pval.
  Hypothesis RV : reads pval cell_src.

  Lemma nf_array_value : nf n (array_value_ pval).
  Proof.
    unfold array_value_. nfp; try apply nf_array_sep; try apply nf_comment_or_nls.
    apply array_value_act_nf.
  Qed.
  Lemma nf_keyval : nf n (keyval_p_ pval).
  Proof.
    unfold keyval_p_. nfp; try apply nf_key; try apply nf_keyval_sep. apply keyval_act_nf.
  Qed.
  Lemma nf_table_keyval : nf n (table_keyval_p_ pval).
  Proof.
    pose proof (reads_keyval _ RV) as RK. pose proof nf_keyval as NK.
    unfold table_keyval_p_. nfp; try apply nf_array_sep; try apply nf_comment_or_nls.
  Qed.
End NfVal.

(** the first character is consumed before a nested value is parsed *)
Lemma nf_after_tag : forall A n c (f : str -> P A), nf n (f [c]) -> nf (S n) (bind (tag [c]) f).
Proof.
  intros A n c f H s i L. unfold bind. apply rbind_nf; [discriminate|].
  intros [s1 [r a| |]] E; try discriminate. apply tag_done in E as (_ & -> & ->). apply H. simpl in L. lia.
Qed.

Lemma nf_array : forall n pval, nf n pval -> reads pval cell_src -> nf (S n) (array_ pval).
Proof.
  intros n pval PV RV s i L. unfold array_. apply rbind_nf; [|intros [s1 r] _; discriminate].
  revert L. generalize (push_key (KIndex 0) (set_atypes (vpush (p_atypes s) ANone) s)). intros s1 L.
  pose proof (nf_array_value n pval PV RV) as NV. pose proof (reads_array_value pval RV) as RA.
  assert (X : nf (S n) (array_internal_ pval)); [|apply X; auto].
  unfold array_internal_. apply nf_after_tag. unfold array_values_. nfp; try apply nf_comment_or_nls; auto.
Qed.
Lemma nf_inline : forall n pval, nf n pval -> reads pval cell_src -> nf (S n) (inline_table_ pval).
Proof.
  intros n pval PV RV. unfold inline_table_. apply nf_after_tag.
  pose proof (nf_table_keyval n pval PV RV) as NT. pose proof (reads_table_keyval pval RV) as RT.
  unfold inline_table_keyvals_. nfp; try apply nf_ws.
Qed.

Lemma nf_pcell : forall A n (p : P A) f, nf n p -> shorter p -> nf n (pcell p f).
Proof. intros. unfold pcell. nfp. Qed.

Lemma nf_val : forall f n, (n < f)%nat -> nf n (val f).
Proof.
  induction f; intros n L; [lia|]. cbn [val]. 
  assert (N : nf n (val_ (val f))); auto.
  assert (A : nf n (array_ (val f)) /\ nf n (inline_table_ (val f))).
  { destruct n as [|n].
    - split; intros s i LI; destruct i; simpl in LI; try lia; discriminate.
    - pose proof (IHf n ltac:(lia)) as NV. pose proof (reads_val f) as RV.
      split; [apply nf_array|apply nf_inline]; auto. }
  destruct A as [NA NI]. pose proof (reads_val f) as RV.
  unfold val_. repeat apply nf_alt; apply nf_pcell; auto; try apply shorter_re; try apply nf_re.
  - sh. apply reads_array; auto.
  - sh. apply reads_inline; auto.
  - apply nf_date_time.
  - sh.
  - apply nf_boolean.
  - sh.
  - apply nf_string.
  - sh.
Qed.

Lemma nf_val_p : forall n, nf n val_p.
Proof. intros n s i L. unfold val_p. apply (nf_val (S (length i)) (length i)); lia. Qed.

Lemma nf_keyval_p : forall n, nf n keyval_p.
Proof. intros. apply nf_keyval; [apply nf_val_p|apply reads_val_p]. Qed.

Lemma nf_table : forall n, nf n table_p.
Proof.
  intros. unfold table_p, array_table, std_table, table_subkeys.
  assert (K : nf n table_subkey). { unfold table_subkey, ws. nfp; apply nf_key. }
  pose proof reads_table_subkey.
  nfp; try apply nf_ws; try apply nf_key; try apply array_table_act_nf; try apply std_table_act_nf.
Qed.
Lemma nf_expression : forall n, nf n expression_p.
Proof.
  intros. unfold expression_p, table_comment, keyval_comment, ws_comment, ws_expr.
  nfp; try apply nf_ws; try apply nf_table; try apply nf_keyval_p; try apply nf_comment.
Qed.
Lemma nf_toml : forall n, nf n toml_p.
Proof.
  intros. unfold toml_p, nl_expressions.
  assert (K : nf n nl_expression_p).
  { unfold nl_expression_p. nfp; [apply nf_newline|apply nf_expression]. }
  nfp. apply nf_expression.
Qed.

(** ** The document parser never fails *)
Lemma complete_not_inc : forall A (p : P A) s i s' , complete p s i <> Ok (s', Incomplete).
Proof.
  intros A p s i s' H. unfold complete in H. apply rbind_ok in H as ([s1 r] & _ & H). destruct r; inversion H.
Qed.
Lemma alt_not_inc : forall A (p q : P A), (forall s i s', p s i <> Ok (s', Incomplete)) ->
  (forall s i s', q s i <> Ok (s', Incomplete)) -> forall s i s', alt p q s i <> Ok (s', Incomplete).
Proof.
  intros A p q H H2 s i s' E. unfold alt in E. apply rbind_ok in E as ([s1 r] & E1 & E).
  destruct r; [inversion E|eapply H2; eauto|]. inversion E; subst. eapply H; eauto.
Qed.

Lemma ws_done : forall s i, exists a r, ws s i = Ok (s, Done r a).
Proof.
  intros. unfold ws, re_find. destruct (re_match re_ws i) as [[m r]|] eqn:E; eauto.
  exfalso. apply (re_match_none re_ws i (wfb_wf re_ws eq_refl) E [] i eq_refl). apply LStar0.
Qed.

Lemma expression_done : forall s i s' r, expression_p s i = Ok (s', r) -> exists rest e, r = Done rest e.
Proof.
  intros s i s' r H. unfold expression_p in H. unfold alt at 1 in H.
  apply rbind_ok in H as ([s1 r1] & E1 & H). destruct r1; [inversion H; eauto| |exfalso; eapply complete_not_inc; eauto].
  unfold alt at 1 in H. apply rbind_ok in H as ([s2 r2] & E2 & H).
  destruct r2; [inversion H; eauto| |exfalso; eapply complete_not_inc; eauto].
  unfold alt at 1 in H. apply rbind_ok in H as ([s3 r3] & E3 & H).
  destruct r3; [inversion H; eauto| |exfalso; eapply complete_not_inc; eauto].
  unfold complete, ws_expr, bind in H. destruct (ws_done s3 i) as (a & rr & E). rewrite E in H. simpl in H.
  inversion H; eauto.
Qed.

Lemma loop_not_err : forall A n (p : P A), (forall s i s', p s i <> Ok (s', Incomplete)) ->
  forall s i s' r, many_loop n p s i = Ok (s', r) -> exists rest l, r = Done rest l.
Proof.
  intros A n p H. induction n; intros s i s' r E; [discriminate|]. cbn [many_loop] in E.
  destruct i; [inversion E; eauto|]. apply rbind_ok in E as ([s1 r1] & E1 & E).
  destruct r1; [|inversion E; eauto|exfalso; eapply H; eauto].
  destruct (Nat.eqb _ _); [inversion E; eauto|].
  apply rbind_ok in E as ([s2 r2] & E2 & E). apply IHn in E2 as (x & y & ->). inversion E; eauto.
Qed.

Lemma nl_expression_not_inc : forall s i s', nl_expression_p s i <> Ok (s', Incomplete).
Proof.
  intros s i s' H. unfold nl_expression_p, bind in H. apply rbind_ok in H as ([s1 r1] & E1 & H).
  destruct r1; [|inversion H|].
  - apply rbind_ok in H as ([s2 r2] & E2 & H). apply expression_done in E2 as (x & y & ->). inversion H.
  - revert E1. unfold newline. apply alt_not_inc; intros s0 i0 s0' E; unfold bind in E;
      apply rbind_ok in E as ([s2 r2] & E2 & E); destruct r2; try (inversion E; fail);
      eapply complete_not_inc; eauto.
Qed.

Lemma toml_done : forall s i s' r, toml_p s i = Ok (s', r) -> exists rest t, r = Done rest t.
Proof.
  intros s i s' r H. unfold toml_p, bind in H. apply rbind_ok in H as ([s1 r1] & E1 & H).
  apply expression_done in E1 as (x & y & ->). apply rbind_ok in H as ([s2 r2] & E2 & H).
  unfold nl_expressions, many0 in E2. apply loop_not_err in E2 as (x2 & y2 & ->); [inversion H; eauto|].
  apply nl_expression_not_inc.
Qed.

(** the result of parse, spelled out *)
Lemma parse_inv : forall s i s' r, parse s i = Ok (s', r) ->
  exists s1 rest t, toml_p s i = Ok (s1, Done rest t) /\ i = toml_src t ++ rest /\
    s' = set_leftover rest (set_root t s1) /\
    r = match rest with
        | _ :: _ => match s'.(p_errors) with
                    | _ :: _ => PartialError s1.(p_leftover) s1.(p_line) s'.(p_errors)
                    | [] => Partial s1.(p_leftover) s1.(p_line)
                    end
        | [] => match s'.(p_errors) with _ :: _ => FullError s'.(p_errors) | [] => Full end
        end.
Proof.
  intros s i s' r H. unfold parse in H. apply rbind_ok in H as ([s1 r1] & E & H).
  destruct (toml_done _ _ _ _ E) as (rest & t & ->). inversion H; subst.
  exists s1, rest, t. split; auto. split; [eapply reads_toml; eauto|]. split; reflexivity.
Qed.

(** ** Printing *)

Lemma show_all_ok : forall A (f : A -> res str) (g : A -> str) l,
  (forall x, In x l -> f x = Ok (g x)) -> show_all f l = Ok (concat (map g l)).
Proof.
  intros A f g. induction l; intros H; [reflexivity|]. cbn [show_all map concat].
  change ((fix go (l : list A) : res str := match l with
    | [] => Ok [] | x :: l' => let? a := f x in let? b := go l' in Ok (a ++ b) end) l) with (show_all f l).
  rewrite H by (left; auto). cbn [rbind]. rewrite IHl by (intros; apply H; right; auto). reflexivity.
Qed.
Lemma show_all_inv : forall A (f : A -> res str) l t, show_all f l = Ok t ->
  forall x, In x l -> exists y, f x = Ok y.
Proof.
  intros A f. induction l; intros t H x I; [destruct I|]. cbn [show_all] in H.
  apply rbind_ok in H as (a1 & E1 & H). apply rbind_ok in H as (b1 & E2 & H).
  destruct I as [->|I]; eauto.
Qed.

Lemma show_printable : forall v, tv_printable v -> show_tval v = Ok (tsrc v).
Proof.
  induction v using tval_ind'; intros P; cbn [show_tval tsrc]; auto.
  - inversion P; subst. erewrite show_all_ok with (g := av_src_ tsrc); [reflexivity|].
    intros x I. rewrite Forall_forall in *. rewrite H; auto.
  - inversion P; subst. destruct kvs as [|k0 kvs]; [congruence|].
    erewrite show_all_ok with (g := tk_src_ tsrc); [reflexivity|].
    intros x I. rewrite Forall_forall in *. rewrite H; auto. cbn [rbind]. unfold tk_src_, sep_src.
    rewrite <- !app_assoc. reflexivity.
Qed.

Lemma show_ok_printable : forall v t, show_tval v = Ok t -> tv_printable v.
Proof.
  induction v using tval_ind'; intros t0 E; try constructor.
  - cbn [show_tval] in E. apply rbind_ok in E as (b & E & _). rewrite Forall_forall in *.
    intros x I. destruct (show_all_inv _ _ _ _ E x I) as (y & E2). apply rbind_ok in E2 as (z & E2 & _). eauto.
  - intros ->. discriminate.
  - cbn [show_tval] in E. destruct kvs as [|k0 kvs]; [discriminate|].
    apply rbind_ok in E as (b & E & _). rewrite Forall_forall in *.
    intros x I. destruct (show_all_inv _ _ _ _ E x I) as (y & E2). apply rbind_ok in E2 as (z & E2 & _). eauto.
Qed.

Lemma show_tval_iff : forall v t, show_tval v = Ok t <-> tv_printable v /\ t = tsrc v.
Proof.
  intros. split.
  - intros H. pose proof (show_ok_printable _ _ H) as P. split; auto. rewrite show_printable in H by auto. congruence.
  - intros [P ->]. apply show_printable; auto.
Qed.

(** expressions as the parser makes them *)
Definition expr_shape (e : expression) : Prop :=
  match e.(e_keyval), e.(e_table) with
  | None, None => e.(e_ws).(ws2) = []
  | Some _, Some _ => False
  | _, _ => True
  end.
Definition doc_shape (t : toml) : Prop := t <> [] /\ Forall (fun e => expr_shape e.(ne_expr)) t.

Lemma show_keyval_iff : forall kv t, show_keyval kv = Ok t <-> tv_printable kv.(kv_val).(c_val) /\ t = kv_src kv.
Proof.
  intros kv t. unfold show_keyval, show_keyval_with. split.
  - intros H. apply rbind_ok in H as (v & E & H). apply show_tval_iff in E as [P ->]. inversion H; subst. auto.
  - intros [P ->]. rewrite show_printable by auto. reflexivity.
Qed.

Lemma show_expression_iff : forall e t, expr_shape e ->
  (show_expression e = Ok t <-> ex_printable e /\ t = ex_src e).
Proof.
  intros [w kv tb c] t S. unfold expr_shape, ex_printable, show_expression, ex_src in *.
  cbn [e_ws e_keyval e_table e_comment] in *. destruct kv as [kv|], tb as [tb|]; try contradiction.
  - assert (X : forall x, show_keyval kv = Ok x <-> tv_printable kv.(kv_val).(c_val) /\ x = kv_src kv) by (apply show_keyval_iff).
    split.
    + intros H. destruct c; apply rbind_ok in H as (x & E & H); apply X in E as [P ->]; inversion H; subst;
        split; auto; cbn [com_src app]; rewrite ?app_nil_r; auto.
    + intros [P ->]. assert (E : show_keyval kv = Ok (kv_src kv)) by (apply X; auto). rewrite E.
      destruct c; cbn [rbind com_src app]; rewrite ?app_nil_r; auto.
  - split.
    + intros H. split; auto. destruct c; inversion H; subst; cbn [com_src app]; rewrite ?app_nil_r; auto.
    + intros [_ ->]. destruct c; cbn [com_src app]; rewrite ?app_nil_r; auto.
  - rewrite S. split.
    + intros H. split; auto. destruct c; inversion H; subst; cbn [com_src app]; rewrite ?app_nil_r; auto.
    + intros [_ ->]. destruct c; cbn [com_src app]; rewrite ?app_nil_r; auto.
Qed.

Lemma show_toml_iff : forall d t, doc_shape d -> (show_toml d = Ok t <-> doc_printable d /\ t = toml_src d).
Proof.
  intros d t [N S]. unfold show_toml, doc_printable, toml_src. destruct d as [|e0 d]; [congruence|].
  clear N. split.
  - intros H.
    assert (P : Forall (fun e => ex_printable (ne_expr e)) (e0 :: d)).
    { rewrite Forall_forall in *. intros x I. destruct (show_all_inv _ _ _ _ H x I) as (y & E).
      unfold show_nl_expression in E. apply rbind_ok in E as (z & E & _).
      apply show_expression_iff in E; auto. tauto. }
    split; auto. erewrite show_all_ok with (g := ne_src) in H.
    + inversion H; auto.
    + intros x I. rewrite Forall_forall in *. unfold show_nl_expression.
      assert (E : show_expression (ne_expr x) = Ok (ex_src (ne_expr x))) by (apply show_expression_iff; auto).
      rewrite E. reflexivity.
  - intros [P ->]. erewrite show_all_ok with (g := ne_src); [reflexivity|].
    intros x I. rewrite Forall_forall in *. unfold show_nl_expression.
    assert (E : show_expression (ne_expr x) = Ok (ex_src (ne_expr x))) by (apply show_expression_iff; auto).
    rewrite E. reflexivity.
Qed.

Lemma expression_shape : forall s i s' r e, expression_p s i = Ok (s', Done r e) -> expr_shape e.
Proof.
  intros s i s' r e H. unfold expression_p in H.
  apply alt_done in H as [H|(s1 & _ & H)]; [|apply alt_done in H as [H|(s2 & _ & H)];
    [|apply alt_done in H as [H|(s3 & _ & H)]]]; apply complete_done in H;
    unfold table_comment, keyval_comment, ws_comment, ws_expr in H; repeat rd1; exact I || reflexivity.
Qed.
Lemma loop_forall : forall A (p : P A) (Q : A -> Prop), (forall s i s' r a, p s i = Ok (s', Done r a) -> Q a) ->
  forall n s i s' r l, many_loop n p s i = Ok (s', Done r l) -> Forall Q l.
Proof.
  intros A p Q H. induction n; intros s i s' r l E; [discriminate|]. cbn [many_loop] in E.
  destruct i; [inversion E; constructor|]. apply rbind_ok in E as ([s1 r1] & E1 & E).
  destruct r1 as [i1 a| |]; try (inversion E; constructor; fail).
  destruct (Nat.eqb _ _); [inversion E; constructor|].
  apply rbind_ok in E as ([s2 r2] & E2 & E). destruct r2; inversion E; subst. constructor; eauto.
Qed.
Lemma toml_shape : forall s i s' r t, toml_p s i = Ok (s', Done r t) -> doc_shape t.
Proof.
  intros s i s' r t H. unfold toml_p in H. apply bind_done in H as (s1 & i1 & e & E1 & H).
  apply bind_done in H as (s2 & i2 & l & E2 & H). apply ret_done in H as (-> & -> & ->).
  split; [discriminate|]. constructor; [eapply expression_shape; eauto|].
  eapply loop_forall; [|exact E2]. clear. intros s i s' r a E. unfold nl_expression_p in E.
  apply bind_done in E as (s1 & i1 & nl & _ & E). apply bind_done in E as (s2 & i2 & e & E & H).
  apply ret_done in H as (-> & -> & ->). eapply expression_shape; eauto.
Qed.

Lemma parse_show : forall s i s' r, parse s i = Ok (s', r) ->
  exists rest, i = toml_src s'.(p_root) ++ rest /\ s'.(p_leftover) = rest /\
    forall t, show_parser s' = Ok t <-> doc_printable s'.(p_root) /\ t = toml_src s'.(p_root).
Proof.
  intros s i s' r H. destruct (parse_inv _ _ _ _ H) as (s1 & rest & t & T & E & -> & _).
  exists rest. split; [exact E|]. split; [reflexivity|]. intros x.
  apply (show_toml_iff t x). eapply toml_shape; eauto.
Qed.
