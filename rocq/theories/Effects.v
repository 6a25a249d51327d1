(** What the actions of the parsers do to the parser state, and relations
    between the states before and after that every parser preserves. *)
From Coq Require Import Lia ZifyBool ZifyNat ZifyN.
From Verif Require Import Str Regex Types Ast State Nom Keys Grammar Api Facts Spec NomFacts.

(** ** Effects of the actions *)
Lemma insert_effect : forall s c s', insert_keyval_into_map s c = Ok s' ->
  (exists fk v, s' = push_error (EDuplicateKey fk s.(p_line) v) s) \/ (exists m, s' = set_map m s).
Proof.
  intros s c s' H. unfold insert_keyval_into_map in H. apply rbind_ok in H as ([fk pk] & _ & H).
  destruct (hget fk (p_map s)) as [[[c0|] sub]|].
  - apply rbind_ok in H as (v & _ & H). inversion H; subst. left. eauto.
  - apply rbind_ok in H as (m & _ & H). inversion H; subst. right. eauto.
  - apply rbind_ok in H as (m & _ & H). inversion H; subst. right. eauto.
Qed.

Lemma mixed_effect : forall t s s', check_mixed t s = Ok s' ->
  s' = s \/ (exists pk, s' = push_error (EMixedArray pk s.(p_line)) s).
Proof.
  intros t s s' H. unfold check_mixed in H. destruct (vlast (p_atypes s)); [|inversion H; auto].
  destruct (negb _ && negb _); [|inversion H; auto].
  apply rbind_ok in H as ([[x fk] pk] & _ & H). inversion H; subst.
  match goal with |- context [if ?b then _ else _] => destruct b end; eauto.
Qed.

(** a mixed array is reported if there is no error so far, or the last one is a mixed
    array with a key that is no prefix of the key of this one *)
Definition may_mix (s : pst) (k : str) : Prop :=
  match vlast s.(p_errors) with
  | Some (EMixedArray k0 _) => starts_with k0 k = false
  | Some _ => False
  | None => True
  end.
Lemma chain_grows : forall kc a, exists z, fold_left chain_step kc a = a ++ z.
Proof.
  induction kc as [|k kc IH]; intros a; [exists []; rewrite app_nil_r; auto|]. cbn [fold_left].
  destruct (IH (chain_step a k)) as (z & ->). destruct k as [x|n]; cbn [chain_step].
  - destruct a; eexists; rewrite <- ?app_assoc; [cbn [app]; reflexivity|reflexivity].
  - eexists. rewrite <- app_assoc. reflexivity.
Qed.
Lemma parent_prefix : forall ovf m ts ti kc v fk pk, get_full_key ovf m ts ti kc = Ok (v, fk, pk) -> exists z, fk = pk ++ z.
Proof.
  intros ovf m ts ti kc v fk pk H. unfold get_full_key in H. apply rbind_ok in H as ([[x a] y] & _ & H).
  unfold get_keychain_key in H.
  set (p := match kc with [] | [_] => [] | _ => fold_left chain_step (removelast kc) [] end) in H.
  assert (G : exists z, fold_left chain_step kc [] = p ++ z).
  { destruct kc as [|k kc] using rev_ind; [exists []; reflexivity|]. clear IHkc. subst p. rewrite removelast_last, fold_left_app.
    destruct (kc ++ [k]) as [|? [|? ?]]; [eexists; reflexivity..|]. apply chain_grows. }
  destruct G as (z & G). rewrite G in H. clearbody p. destruct a as [|c a].
  - inversion H; subst. eauto.
  - inversion H; subst. destruct p as [|b p].
    + exists (lit "." ++ z). rewrite app_nil_r. reflexivity.
    + exists z. cbn [app]. rewrite <- !app_assoc. reflexivity.
Qed.
Lemma mixed_when : forall t s s', check_mixed t s = Ok s' ->
  s' = s \/ (exists pk, may_mix s pk /\ s' = push_error (EMixedArray pk s.(p_line)) s).
Proof.
  intros t s s' H. unfold check_mixed in H. destruct (vlast (p_atypes s)); [|inversion H; auto].
  destruct (negb _ && negb _); [|inversion H; auto].
  apply rbind_ok in H as ([[x fk] pk] & G & H). inversion H; subst. apply parent_prefix in G as (z & ->).
  match goal with |- context [if ?b then _ else _] => destruct b eqn:B end; auto. right. exists pk. split; auto.
  unfold may_mix. destruct (vlast (p_errors s)) as [[k0 n0| | |]|]; try discriminate; auto.
  apply Bool.negb_true_iff in B. destruct (starts_with k0 pk) eqn:S; auto. apply starts_with_app in S as (r & ->).
  rewrite <- B. symmetry. apply starts_with_app. exists (r ++ z). rewrite <- app_assoc. reflexivity.
Qed.

(** [last_ext e e']: the last error was replaced by one with more key/values *)
Definition last_ext (e e' : list parse_error) : Prop :=
  exists l tk line kvs k x, e = l ++ [EInvalidTable tk line kvs] /\
    e' = l ++ [EInvalidTable tk line (hput k x kvs)].

Lemma keyval_effect : forall k sep v s s' kv, keyval_act k sep v s = Ok (s', kv) ->
  kv = KeyVal k sep v /\
  ((s.(p_array_error) = true /\ exists e, (e = s.(p_errors) \/ last_ext s.(p_errors) e) /\ s' = pop_key (set_errors e s)) \/
   (s.(p_array_error) = false /\ exists s1, insert_keyval_into_map s v = Ok s1 /\ s' = pop_key s1)).
Proof.
  intros k sep v s s' kv H. unfold keyval_act in H. apply rbind_ok in H as (s1 & H1 & H).
  inversion H; subst. split; auto. destruct (p_array_error s).
  - left. split; auto. destruct (vlast (p_errors s)) as [e|] eqn:E; [|discriminate].
    pose proof (vlast_some_app _ _ E) as A. unfold vpush in H1. destruct e.
    1,2,4: inversion H1; subst; rewrite <- A; exists (p_errors s); auto.
    apply rbind_ok in H1 as (x & _ & H1). inversion H1; subst. eexists. split; [|reflexivity]. right.
    exists (vpop (p_errors s)), key, line, keyvals, k, x. auto.
  - right. eauto.
Qed.

Lemma array_value_effect : forall v sep nls s s' a, array_value_act v sep nls s = Ok (s', a) ->
  a = ArrayValue v sep nls /\
  exists t s1 s2 kc, map_val_to_array_type v.(c_val) = Ok t /\ check_mixed t s = Ok s1 /\
    insert_keyval_into_map (set_atypes (vpush (vpop s1.(p_atypes)) t) s1) v = Ok s2 /\
    s' = set_keychain kc s2.
Proof.
  intros v sep nls s s' a H. unfold array_value_act in H.
  apply rbind_ok in H as (t & T & H). apply rbind_ok in H as (s1 & M & H).
  apply rbind_ok in H as (s2 & I & H). destruct (nth_error _ _); inversion H; subst. split; auto.
  exists t, s1, s2. eexists. auto.
Qed.

Lemma std_table_effect : forall w1 w2 k l s s' t, std_table_act w1 w2 k l s = Ok (s', t) ->
  t = TStandard (table_new {| ws1 := w1; ws2 := w2 |} k l) /\
  ((exists kc ts ti tk, s' = set_array_error true (push_error (EInvalidTable tk s.(p_line) [])
      (set_tables ts ti (set_keychain kc s)))) \/
   (exists kc ts ti m, s' = set_last_table (Some t) (set_array_error false (set_map m
      (set_tables ts ti (set_next (s.(p_next) + 1) (set_keychain kc s))))))).
Proof.
  intros w1 w2 k l s s' t H. unfold std_table_act in H. apply rbind_ok in H as (s1 & K & H).
  unfold keychain_drop in K. destruct (Nat.ltb _ _); [discriminate|].
  match type of K with Ok (set_keychain ?c _) = _ => set (kc := c) in K; clearbody kc end.
  inversion K; subst; clear K.
  match type of H with (let '(_, _) := ?x in _) = _ => destruct x as [ts ti] end.
  match type of H with (let '(_, _) := ?x in _) = _ => destruct x as [ts2 ti2] end.
  apply rbind_ok in H as ([[e tk] pk] & _ & H). destruct e.
  - apply rbind_ok in H as ([[x y] z] & _ & H). inversion H; subst. split; auto. left.
    exists kc, ts2, ti2, y. reflexivity.
  - apply rbind_ok in H as (m & _ & H). apply rbind_ok in H as (m2 & _ & H).
    unfold new_cell in H. apply rbind_ok in H as (m3 & _ & H). inversion H; subst. split; auto. right.
    exists kc. do 2 eexists. exists m3. reflexivity.
Qed.

Lemma array_table_effect : forall w1 w2 k l s s' t, array_table_act w1 w2 k l s = Ok (s', t) ->
  t = TArrayOf (table_new {| ws1 := w1; ws2 := w2 |} k l) /\
  ((exists kc ts ti m tk, s' = push_error (EInvalidTable tk s.(p_line) [])
      (set_map m (set_tables ts ti (set_array_error false (set_keychain kc s))))) \/
   (exists kc ts ti m, s' = set_last_table (Some t) (set_map m
      (set_tables ts ti (set_array_error false (set_keychain kc s)))))).
Proof.
  intros w1 w2 k l s s' t H. unfold array_table_act in H. apply rbind_ok in H as (s1 & K & H).
  unfold keychain_drop in K. destruct (Nat.ltb _ _); [discriminate|].
  match type of K with Ok (set_keychain ?c _) = _ => set (kc := c) in K; clearbody kc end.
  inversion K; subst; clear K.
  match type of H with (let '(_, _) := ?x in _) = _ => destruct x as [ts ti] end.
  apply rbind_ok in H as ([[m ts2] ti2] & _ & H).
  apply rbind_ok in H as ([[v fk] pk] & _ & H). destruct v; inversion H; subst; split; auto.
  - right. exists kc, ts2, ti2. eexists. reflexivity.
  - left. exists kc, ts2, ti2, m, fk. reflexivity.
Qed.

(** ** Relations preserved by all parsers *)
Definition pres {A} (R : pst -> pst -> Prop) (p : P A) : Prop :=
  forall s i s' r, p s i = Ok (s', r) -> R s s'.

Section Pres.
  Variable R : pst -> pst -> Prop.
  Hypothesis R_refl : forall s, R s s.
  Hypothesis R_trans : forall a b c, R a b -> R b c -> R a c.

  Lemma pres_bind : forall A B (p : P A) (f : A -> P B), pres R p -> (forall a, pres R (f a)) ->
    pres R (bind p f).
  Proof.
    intros A B p f H H2 s i s' r E. unfold bind in E. apply rbind_ok in E as ([s1 r1] & E1 & E).
    apply H in E1. destruct r1; [apply H2 in E; eauto|inversion E; subst; auto..].
  Qed.
  Lemma pres_ret : forall A (a : A), pres R (ret a).
  Proof. intros A a s i s' r E. inversion E; subst; auto. Qed.
  Lemma pres_pmap : forall A B (p : P A) (f : A -> B), pres R p -> pres R (pmap p f).
  Proof. intros. apply pres_bind; auto. intros. apply pres_ret. Qed.
  Lemma pres_complete : forall A (p : P A), pres R p -> pres R (complete p).
  Proof.
    intros A p H s i s' r E. unfold complete in E. apply rbind_ok in E as ([s1 r1] & E1 & E).
    inversion E; subst. eauto.
  Qed.
  Lemma pres_alt : forall A (p q : P A), pres R p -> pres R q -> pres R (alt p q).
  Proof.
    intros A p q H H2 s i s' r E. unfold alt in E. apply rbind_ok in E as ([s1 r1] & E1 & E).
    apply H in E1. destruct r1; [inversion E; subst; auto|apply H2 in E; eauto|inversion E; subst; auto].
  Qed.
  Lemma pres_opt : forall A (p : P A), pres R p -> pres R (opt p).
  Proof.
    intros A p H s i s' r E. unfold opt in E. apply rbind_ok in E as ([s1 r1] & E1 & E).
    inversion E; subst. eauto.
  Qed.
  Lemma pres_tag : forall t, pres R (tag t).
  Proof. intros t s i s' r E. inversion E; subst; auto. Qed.
  Lemma pres_re : forall re, pres R (re_find re).
  Proof. intros t s i s' r E. inversion E; subst; auto. Qed.
  Lemma pres_tw : forall f, pres R (take_while f).
  Proof. intros f s i s' r E. unfold take_while in E. destruct (span f i). inversion E; subst; auto. Qed.
  Lemma pres_tw1 : forall f, pres R (take_while1 f).
  Proof. intros f s i s' r E. unfold take_while1 in E. destruct (span f i). inversion E; subst; auto. Qed.
  Lemma pres_loop : forall A (p : P A), pres R p -> forall n s i s' r, many_loop n p s i = Ok (s', r) -> R s s'.
  Proof.
    intros A p H. induction n; intros s i s' r E; [discriminate|]. cbn [many_loop] in E.
    destruct i; [inversion E; subst; auto|]. apply rbind_ok in E as ([s1 r1] & E1 & E). apply H in E1.
    destruct r1; try (inversion E; subst; auto; fail).
    destruct (Nat.eqb _ _); [inversion E; subst; auto|].
    apply rbind_ok in E as ([s2 r2] & E2 & E). inversion E; subst. eauto.
  Qed.
  Lemma pres_many0 : forall A (p : P A), pres R p -> pres R (many0 p).
  Proof. intros A p H s i s' r E. eapply pres_loop; eauto. Qed.
  Lemma pres_many1 : forall A (p : P A), pres R p -> pres R (many1 p).
  Proof.
    intros A p H s i s' r E. unfold many1 in E. apply rbind_ok in E as ([s1 r1] & E1 & E). apply H in E1.
    destruct r1; try (inversion E; subst; auto; fail).
    apply rbind_ok in E as ([s2 r2] & E2 & E). inversion E; subst. eapply R_trans; eauto. eapply pres_loop; eauto.
  Qed.
  Lemma pres_act : forall A (f : pst -> res (pst * A)), (forall s s' a, f s = Ok (s', a) -> R s s') -> pres R (act f).
  Proof.
    intros A f H s i s' r E. unfold act in E. apply rbind_ok in E as ([s1 a] & E1 & E). inversion E; subst. eauto.
  Qed.

  (** the single changes *)
  Hypothesis R_line : forall n s, R s (add_lines n s).
  Hypothesis R_chain : forall k s, R s (set_keychain k s).
  Hypothesis R_types : forall a s, R s (set_atypes a s).
  Hypothesis R_cell : forall s v, R s (fst (new_cell s v)).
  Hypothesis R_date : forall s k t, R s (push_error (EInvalidDateTime k s.(p_line) t) s).
  Hypothesis R_mixed : forall s k, may_mix s k -> R s (push_error (EMixedArray k s.(p_line)) s).
  Hypothesis R_insert : forall s c s', insert_keyval_into_map s c = Ok s' -> R s s'.
  Hypothesis R_ext : forall s e, s.(p_array_error) = true -> last_ext s.(p_errors) e -> R s (set_errors e s).
  Hypothesis R_std : forall w1 w2 k l s s' t, std_table_act w1 w2 k l s = Ok (s', t) -> R s s'.
  Hypothesis R_arr : forall w1 w2 k l s s' t, array_table_act w1 w2 k l s = Ok (s', t) -> R s s'.

  Ltac pres_tac := repeat (match goal with
    | |- forall _, _ => intro
    | |- pres _ (bind _ _) => apply pres_bind
    | |- pres _ (alt _ _) => apply pres_alt
    | |- pres _ (opt _) => apply pres_opt
    | |- pres _ (complete _) => apply pres_complete
    | |- pres _ (pmap _ _) => apply pres_pmap
    | |- pres _ (re_find _) => apply pres_re
    | |- pres _ (tag _) => apply pres_tag
    | |- pres _ (ret _) => apply pres_ret
    | |- pres _ (take_while _) => apply pres_tw
    | |- pres _ (take_while1 _) => apply pres_tw1
    | |- pres _ (many0 _) => apply pres_many0
    | |- pres _ (many1 _) => apply pres_many1
    | |- pres _ _ => assumption
    end).

  Lemma pres_newline : pres R newline.
  Proof. unfold newline. pres_tac; apply pres_act; intros s s' x E; inversion E; subst; auto. Qed.
  Lemma pres_string : pres R string_p.
  Proof.
    unfold string_p, ml_literal_string_p, ml_basic_string_p, basic_string_p, literal_string_p,
      raw_ml_literal_string, raw_ml_basic_string, raw_basic_string, raw_literal_string.
    pres_tac; apply pres_act; intros s s' x E; inversion E; subst; auto.
  Qed.
  Lemma pres_boolean : pres R boolean.
  Proof. unfold boolean. pres_tac. Qed.
  Lemma pres_dti : pres R date_time_internal.
  Proof.
    unfold date_time_internal, date_p, time_p, fractional, time_offset_p, time_offset_amount_p. pres_tac.
  Qed.
  Lemma pres_date_time : pres R date_time.
  Proof.
    intros s i s' r E. unfold date_time in E. apply rbind_ok in E as ([s1 r1] & E1 & E).
    apply pres_dti in E1. destruct r1; try (inversion E; subst; auto; fail).
    destruct (datetime_validate a); [inversion E; subst; auto|].
    apply rbind_ok in E as ([[x fk] pk] & _ & E). inversion E; subst. eauto.
  Qed.
  Lemma pres_key : pres R key_p.
  Proof.
    unfold key_p, quoted_key, unquoted_key. pres_tac; apply pres_act; intros s s' x E; inversion E; subst;
      apply R_chain.
  Qed.
  Lemma pres_comment_or_nls : pres R comment_or_nls.
  Proof. unfold comment_or_nls, comment_or_nl, comment_nl, comment, ws_newline. pres_tac. Qed.
  Lemma pres_array_sep : pres R array_sep.
  Proof. unfold array_sep, ws. pres_tac. Qed.
  Lemma pres_keyval_sep : pres R keyval_sep.
  Proof. unfold keyval_sep, ws. pres_tac. Qed.

  Lemma R_keyval_act : forall k sep v s s' kv, keyval_act k sep v s = Ok (s', kv) -> R s s'.
  Proof.
    intros k sep v s s' kv H. apply keyval_effect in H as [_ [[A (e & [->|X] & ->)]|[_ (s1 & I & ->)]]].
    - replace (set_errors (p_errors s) s) with s by (destruct s; auto). apply R_chain.
    - eapply R_trans; [apply R_ext; eauto|apply R_chain].
    - eapply R_trans; [eapply R_insert; eauto|apply R_chain].
  Qed.
  Lemma R_array_value_act : forall v sep nls s s' a, array_value_act v sep nls s = Ok (s', a) -> R s s'.
  Proof.
    intros v sep nls s s' a H. apply array_value_effect in H as [_ (t & s1 & s2 & kc & _ & M & I & ->)].
    apply R_trans with s1.
    - apply mixed_when in M as [->|(pk & MM & ->)]; auto.
    - eapply R_trans; [apply R_types|]. eapply R_trans; [eapply R_insert; eauto|apply R_chain].
  Qed.

  Section PresVal.
    Variable pval : P cell.
    Hypothesis PV : pres R pval.
    Lemma pres_array : pres R (array_ pval).
    Proof.
      intros s i s' r E. unfold array_ in E. apply rbind_ok in E as ([s1 r1] & E1 & E). inversion E; subst.
      eapply R_trans; [apply R_types|]. eapply R_trans; [apply R_chain|].
      eapply R_trans; [|eapply R_trans; [apply R_chain|apply R_types]].
      assert (PA : pres R (array_internal_ pval)).
      { unfold array_internal_, array_values_, array_value_. pres_tac;
          try apply pres_comment_or_nls; try apply pres_array_sep.
        apply pres_act. apply R_array_value_act. }
      eapply PA; eauto.
    Qed.
    Lemma pres_keyval : pres R (keyval_p_ pval).
    Proof.
      unfold keyval_p_. pres_tac; try apply pres_key; try apply pres_keyval_sep.
      apply pres_act. apply R_keyval_act.
    Qed.
    Lemma pres_inline : pres R (inline_table_ pval).
    Proof.
      unfold inline_table_, inline_table_keyvals_, table_keyval_p_, ws. pres_tac;
        try apply pres_keyval; try apply pres_comment_or_nls; try apply pres_array_sep.
    Qed.
    Lemma pres_pcell : forall A (p : P A) f, pres R p -> pres R (pcell p f).
    Proof.
      intros. unfold pcell. pres_tac. apply pres_act. intros s s' x E. inversion E; subst.
      apply (R_cell s (f a)).
    Qed.
    Lemma pres_val_ : pres R (val_ pval).
    Proof.
      unfold val_. repeat apply pres_alt; apply pres_pcell.
      - apply pres_array.
      - apply pres_inline.
      - apply pres_date_time.
      - apply pres_re.
      - apply pres_re.
      - apply pres_boolean.
      - apply pres_string.
    Qed.
  End PresVal.

  Lemma pres_val : forall f, pres R (val f).
  Proof. induction f; cbn [val]; [intros s i s' r E; discriminate|apply pres_val_; auto]. Qed.
  Lemma pres_val_p : pres R val_p.
  Proof. intros s i s' r E. eapply pres_val; eauto. Qed.
  Lemma pres_keyval_p : pres R keyval_p.
  Proof. apply pres_keyval. apply pres_val_p. Qed.

  Lemma pres_table : pres R table_p.
  Proof.
    unfold table_p, array_table, std_table, table_subkeys, table_subkey, ws. pres_tac; try apply pres_key;
      apply pres_act; intros; eauto.
  Qed.
  Lemma pres_expression : pres R expression_p.
  Proof.
    unfold expression_p, table_comment, keyval_comment, ws_comment, ws_expr, comment, ws. pres_tac;
      try apply pres_table; try apply pres_keyval_p.
  Qed.
  Lemma pres_toml : pres R toml_p.
  Proof.
    unfold toml_p, nl_expressions, nl_expression_p. pres_tac; try apply pres_expression; apply pres_newline.
  Qed.
End Pres.

(** ** Errors only grow *)

(** a report is kept; the key/values of an invalid table may grow *)
Definition kept (e e' : parse_error) : Prop :=
  e = e' \/ exists k l kvs kvs', e = EInvalidTable k l kvs /\ e' = EInvalidTable k l kvs' /\
                                 incl (map fst kvs) (map fst kvs').
Definition errors_grow (s s' : pst) : Prop :=
  exists a b, s'.(p_errors) = a ++ b /\ Forall2 kept s.(p_errors) a.

Lemma kept_refl : forall e, kept e e.
Proof. left; auto. Qed.
Lemma kept_trans : forall a b c, kept a b -> kept b c -> kept a c.
Proof.
  intros a b c [->|(k & l & u & v & -> & -> & I)] H; auto.
  destruct H as [<-|(k2 & l2 & u2 & v2 & E & -> & I2)].
  - right. exists k, l, u, v. auto.
  - inversion E; subst. right. exists k2, l2, u, v2. split; auto. split; auto. eapply incl_tran; eauto.
Qed.
Lemma kept_all_refl : forall l, Forall2 kept l l.
Proof. induction l; constructor; auto. apply kept_refl. Qed.
Lemma kept_all_trans : forall a b c, Forall2 kept a b -> Forall2 kept b c -> Forall2 kept a c.
Proof.
  intros a b c H. revert c. induction H; intros c H2; inversion H2; subst; constructor; auto.
  eapply kept_trans; eauto.
Qed.

Lemma grow_same : forall s s', s'.(p_errors) = s.(p_errors) -> errors_grow s s'.
Proof. intros s s' E. exists (p_errors s), []. rewrite E, app_nil_r. split; auto. apply kept_all_refl. Qed.
Lemma grow_push : forall s s' e, s'.(p_errors) = vpush s.(p_errors) e -> errors_grow s s'.
Proof. intros s s' e E. exists (p_errors s), [e]. split; auto. apply kept_all_refl. Qed.
Lemma grow_trans : forall a b c, errors_grow a b -> errors_grow b c -> errors_grow a c.
Proof.
  intros a b c (x & y & E & F) (u & v & E2 & F2). rewrite E in F2.
  apply Forall2_app_inv_l in F2 as (u1 & u2 & F3 & F4 & ->).
  exists u1, (u2 ++ v). rewrite E2, app_assoc. split; auto. eapply kept_all_trans; eauto.
Qed.

Lemma hput_keys : forall V k (v : V) m, incl (map fst m) (map fst (hput k v m)).
Proof.
  induction m as [|[a w] m IH]; cbn [hput map fst]; intros x H; [easy|].
  destruct (str_eqb k a); cbn [map fst]; auto. destruct H; [left; auto|right; auto].
Qed.

Lemma grow_insert : forall s c s', insert_keyval_into_map s c = Ok s' -> errors_grow s s'.
Proof.
  intros s c s' H. apply insert_effect in H as [(fk & v & ->)|(m & ->)].
  - eapply grow_push. reflexivity.
  - apply grow_same. reflexivity.
Qed.
Lemma grow_ext : forall s e, s.(p_array_error) = true -> last_ext s.(p_errors) e -> errors_grow s (set_errors e s).
Proof.
  intros s e _ (l & tk & line & kvs & k & x & E & ->). exists (l ++ [EInvalidTable tk line (hput k x kvs)]), [].
  split; [cbn [p_errors set_errors]; rewrite app_nil_r; auto|]. rewrite E. apply Forall2_app; [apply kept_all_refl|].
  constructor; [|constructor]. right. do 4 eexists. split; [reflexivity|]. split; [reflexivity|]. apply hput_keys.
Qed.
Lemma grow_std : forall w1 w2 k l s s' t, std_table_act w1 w2 k l s = Ok (s', t) -> errors_grow s s'.
Proof.
  intros w1 w2 k l s s' t H. apply std_table_effect in H as [_ [(kc & ts & ti & tk & ->)|(kc & ts & ti & m & ->)]].
  - eapply grow_push. reflexivity.
  - apply grow_same. reflexivity.
Qed.
Lemma grow_arr : forall w1 w2 k l s s' t, array_table_act w1 w2 k l s = Ok (s', t) -> errors_grow s s'.
Proof.
  intros w1 w2 k l s s' t H. apply array_table_effect in H as [_ [(kc & ts & ti & m & tk & ->)|(kc & ts & ti & m & ->)]].
  - eapply grow_push. reflexivity.
  - apply grow_same. reflexivity.
Qed.

Ltac grow_tac L := apply L; [intros; apply grow_same; reflexivity | exact grow_trans
  | intros; apply grow_same; reflexivity | intros; apply grow_same; reflexivity
  | intros; apply grow_same; reflexivity | intros; apply grow_same; reflexivity
  | intros; eapply grow_push; reflexivity | intros; eapply grow_push; reflexivity
  | exact grow_insert | exact grow_ext | .. ].

Lemma grow_val : forall f, pres errors_grow (val f).
Proof. grow_tac pres_val. Qed.
Lemma grow_expression : pres errors_grow expression_p.
Proof. grow_tac pres_expression; [exact grow_std|exact grow_arr]. Qed.
Lemma grow_toml : pres errors_grow toml_p.
Proof. grow_tac pres_toml; [exact grow_std|exact grow_arr]. Qed.
