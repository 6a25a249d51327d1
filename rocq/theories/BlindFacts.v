(** What is read does not depend on the state of the parser. *)
From Coq Require Import Lia ZifyBool ZifyNat ZifyN.
From Verif Require Import Str Regex Types Ast State Nom Keys Grammar Api Facts NomFacts ParseFacts EqualSpec EqualFacts.

Definition sim {A} (R : A -> A -> Prop) (r r' : ires A) : Prop :=
  match r, r' with
  | Done i a, Done j b => i = j /\ R a b
  | Error, Error | Incomplete, Incomplete => True
  | _, _ => False
  end.
(** two runs from any two states *)
Definition same {A} (R : A -> A -> Prop) (p q : P A) : Prop := forall s t i s' r t' r', p s i = Ok (s', r) -> q t i = Ok (t', r') ->
  sim R r r' /\ s'.(p_line) + t.(p_line) = t'.(p_line) + s.(p_line).
Definition blind {A} (R : A -> A -> Prop) (p : P A) : Prop := same R p p.

Lemma sm_bind : forall A B (R : A -> A -> Prop) (S : B -> B -> Prop) p q f g, same R p q -> (forall a b, R a b -> same S (f a) (g b)) -> same S (bind p f) (bind q g).
Proof.
  intros A B R S p q f g H H2 s t i s' r t' r' E E'. unfold bind in *. apply rbind_ok in E as ([s1 r1] & E1 & E). apply rbind_ok in E' as ([t1 r1'] & E1' & E').
  destruct (H _ _ _ _ _ _ _ E1 E1') as (X & L). destruct r1, r1'; cbn [sim] in X; try contradiction.
  - destruct X as (<- & X). destruct (H2 _ _ X _ _ _ _ _ _ _ E E') as (Y & L2). split; auto. lia.
  - inversion E; inversion E'; subst. split; auto; exact I.
  - inversion E; inversion E'; subst. split; auto; exact I.
Qed.
Lemma sm_ret : forall A (R : A -> A -> Prop) a b, R a b -> same R (ret a) (ret b).
Proof. intros A R a b H s t i s' r t' r' E E'. inversion E; inversion E'; subst. split; [split; auto|lia]. Qed.
Lemma sm_pmap : forall A B (R : A -> A -> Prop) (S : B -> B -> Prop) p (f : A -> B), blind R p -> (forall a b, R a b -> S (f a) (f b)) -> blind S (pmap p f).
Proof. intros. eapply sm_bind; eauto. intros. apply sm_ret; auto. Qed.
Lemma sm_complete : forall A (R : A -> A -> Prop) p, blind R p -> blind R (complete p).
Proof.
  intros A R p H s t i s' r t' r' E E'. unfold complete in *. apply rbind_ok in E as ([s1 r1] & E1 & E). apply rbind_ok in E' as ([t1 r1'] & E1' & E').
  destruct (H _ _ _ _ _ _ _ E1 E1') as (X & L). inversion E; inversion E'; subst. destruct r1, r1'; cbn [sim] in *; try contradiction; auto.
Qed.
Lemma sm_alt : forall A (R : A -> A -> Prop) p q, blind R p -> blind R q -> blind R (alt p q).
Proof.
  intros A R p q H H2 s t i s' r t' r' E E'. unfold alt in *. apply rbind_ok in E as ([s1 r1] & E1 & E). apply rbind_ok in E' as ([t1 r1'] & E1' & E').
  destruct (H _ _ _ _ _ _ _ E1 E1') as (X & L). destruct r1, r1'; cbn [sim] in X; try contradiction.
  - inversion E; inversion E'; subst. auto.
  - destruct (H2 _ _ _ _ _ _ _ E E') as (Y & L2). split; auto. lia.
  - inversion E; inversion E'; subst. auto.
Qed.
Definition orel {A} (R : A -> A -> Prop) (a b : option A) : Prop := match a, b with Some x, Some y => R x y | None, None => True | _, _ => False end.
Lemma sm_opt : forall A (R : A -> A -> Prop) p, blind R p -> blind (orel R) (opt p).
Proof.
  intros A R p H s t i s' r t' r' E E'. unfold opt in *. apply rbind_ok in E as ([s1 r1] & E1 & E). apply rbind_ok in E' as ([t1 r1'] & E1' & E').
  destruct (H _ _ _ _ _ _ _ E1 E1') as (X & L). inversion E; inversion E'; subst. destruct r1, r1'; cbn [sim orel] in *; try contradiction; auto.
Qed.
Lemma sm_opt_eq : forall A (p : P A), blind eq p -> blind eq (opt p).
Proof.
  intros A p H s t i s' r t' r' E E'. destruct (sm_opt _ _ _ H _ _ _ _ _ _ _ E E') as (X & L). split; auto. destruct r, r'; cbn [sim] in *; auto.
  destruct X as (<- & X). split; auto. destruct a, a0; cbn [orel] in X; try contradiction; subst; auto.
Qed.
Ltac sm_pure := let E := fresh in let E' := fresh in intros ? ? ? ? ? ? ? E E'; inversion E; inversion E'; subst; split; [|lia].
Lemma sm_tag : forall t, blind eq (tag t).
Proof. intros x. sm_pure. destruct (Nat.ltb _ _); [exact I|]. destruct (starts_with x i); cbn; auto. Qed.
Lemma sm_re : forall re, blind eq (re_find re).
Proof. intros x. sm_pure. destruct (re_match x i) as [[a b]|]; cbn; auto. Qed.
Lemma sm_tw : forall f, blind eq (take_while f).
Proof.
  intros f s t i s' r t' r' E E'. unfold take_while in *. destruct (span f i). inversion E; inversion E'; subst. split; [|lia].
  match goal with |- sim _ ?x _ => destruct x; cbn; auto end.
Qed.
Lemma sm_tw1 : forall f, blind eq (take_while1 f).
Proof.
  intros f s t i s' r t' r' E E'. unfold take_while1 in *. destruct (span f i). inversion E; inversion E'; subst. split; [|lia].
  match goal with |- sim _ ?x _ => destruct x; cbn; auto end.
Qed.
Lemma sm_loop : forall A (R : A -> A -> Prop) p, blind R p -> forall n, blind (Forall2 R) (many_loop n p).
Proof.
  intros A R p H. induction n as [|n IH]; intros s t i s' r t' r' E E'; [discriminate|]. cbn [many_loop] in *.
  destruct i as [|c i]; [inversion E; inversion E'; subst; split; [cbn; auto|lia]|].
  apply rbind_ok in E as ([s1 r1] & E1 & E). apply rbind_ok in E' as ([t1 r1'] & E1' & E').
  destruct (H _ _ _ _ _ _ _ E1 E1') as (X & L). destruct r1 as [i1 a| |], r1' as [i1' b| |]; cbn [sim] in X; try contradiction.
  2,3: inversion E; inversion E'; subst; split; cbn; auto.
  destruct X as (<- & X). destruct (Nat.eqb _ _); [inversion E; inversion E'; subst; split; cbn; auto|].
  apply rbind_ok in E as ([s2 r2] & E2 & E). apply rbind_ok in E' as ([t2 r2'] & E2' & E').
  destruct (IH _ _ _ _ _ _ _ E2 E2') as (Y & L2). inversion E; inversion E'; subst. split; [|lia].
  destruct r2, r2'; cbn [sim] in *; try contradiction; auto. destruct Y. auto.
Qed.
Lemma sm_many0 : forall A (R : A -> A -> Prop) p, blind R p -> blind (Forall2 R) (many0 p).
Proof. intros A R p H s t i s' r t' r' E E'. unfold many0 in *. eapply sm_loop; eauto. Qed.
Lemma sm_many1 : forall A (R : A -> A -> Prop) p, blind R p -> blind (Forall2 R) (many1 p).
Proof.
  intros A R p H s t i s' r t' r' E E'. unfold many1 in *. apply rbind_ok in E as ([s1 r1] & E1 & E). apply rbind_ok in E' as ([t1 r1'] & E1' & E').
  destruct (H _ _ _ _ _ _ _ E1 E1') as (X & L). destruct r1 as [i1 a| |], r1' as [i1' b| |]; cbn [sim] in X; try contradiction.
  2,3: inversion E; inversion E'; subst; split; cbn; auto.
  destruct X as (<- & X). apply rbind_ok in E as ([s2 r2] & E2 & E). apply rbind_ok in E' as ([t2 r2'] & E2' & E').
  destruct (sm_loop _ _ _ H _ _ _ _ _ _ _ _ E2 E2') as (Y & L2). inversion E; inversion E'; subst. split; [|lia].
  destruct r2, r2'; cbn [sim] in *; try contradiction; auto. destruct Y. auto.
Qed.
Lemma f2_eq : forall A (l l' : list A), Forall2 eq l l' -> l = l'.
Proof. induction 1; subst; auto. Qed.
Lemma sm_weak : forall A (R S : A -> A -> Prop) p q, (forall a b, R a b -> S a b) -> same R p q -> same S p q.
Proof.
  intros A R S p q W H s t i s' r t' r' E E'. destruct (H _ _ _ _ _ _ _ E E') as (X & L). split; auto. destruct r, r'; cbn [sim] in *; auto. destruct X; auto.
Qed.
Lemma sm_many0_eq : forall A (p : P A), blind eq p -> blind eq (many0 p).
Proof. intros. eapply sm_weak; [intros a b; apply f2_eq|]. apply sm_many0; auto. Qed.
Lemma sm_many1_eq : forall A (p : P A), blind eq p -> blind eq (many1 p).
Proof. intros. eapply sm_weak; [intros a b; apply f2_eq|]. apply sm_many1; auto. Qed.
(** an action with the value [a], that moves the line by [n] *)
Definition gives {A} (f : pst -> res (pst * A)) (a : A) (n : N) : Prop := forall s s' x, f s = Ok (s', x) -> x = a /\ s'.(p_line) = s.(p_line) + n.
Lemma sm_act : forall A (R : A -> A -> Prop) f g a b n, gives f a n -> gives g b n -> R a b -> same R (act f) (act g).
Proof.
  intros A R f g a b n F G H s t i s' r t' r' E E'. unfold act in *. apply rbind_ok in E as ([s1 x] & E1 & E). apply rbind_ok in E' as ([t1 y] & E1' & E').
  apply F in E1 as (-> & L). apply G in E1' as (-> & L'). inversion E; inversion E'; subst. split; [split; auto|lia].
Qed.
Ltac sm_eq := repeat (match goal with
  | |- forall _, _ => intro
  | H : ?a = ?b |- same eq _ _ => first [subst a | subst b]
  | |- same eq (bind ?p _) (bind ?p _) => apply (sm_bind _ _ eq)
  | |- blind eq (bind ?p _) => apply (sm_bind _ _ eq)
  | |- same eq ?p ?p => change (blind eq p)
  | |- blind eq (alt _ _) => apply sm_alt
  | |- blind eq (opt _) => apply sm_opt_eq
  | |- blind eq (complete _) => apply sm_complete
  | |- blind eq (pmap _ _) => apply (sm_pmap _ _ eq eq)
  | |- blind eq (re_find _) => apply sm_re
  | |- blind eq (tag _) => apply sm_tag
  | |- blind eq (ret _) => apply sm_ret
  | |- blind eq (take_while _) => apply sm_tw
  | |- blind eq (take_while1 _) => apply sm_tw1
  | |- blind eq (many0 _) => apply sm_many0_eq
  | |- blind eq (many1 _) => apply sm_many1_eq
  | |- _ = _ => congruence
  | |- blind _ _ => assumption
  end).
Lemma line_gives : forall A n (x : A), gives (fun s => Ok (add_lines n s, x)) x n.
Proof. intros A n x s s' y E. inversion E; subst. split; reflexivity. Qed.
Lemma key_gives : forall A k (x : A), gives (fun s => Ok (push_key k s, x)) x 0.
Proof. intros A k x s s' y E. inversion E; subst. split; [reflexivity|]. cbn. lia. Qed.

(** ** The actions *)
Lemma insert_line : forall s c s', insert_keyval_into_map s c = Ok s' -> s'.(p_line) = s.(p_line).
Proof.
  intros s c s' H. unfold insert_keyval_into_map in *. apply rbind_ok in H as ([fk pk] & K & H).
  destruct (hget fk (p_map s)) as [[[c0|] sub]|]; apply rbind_ok in H as (v & V & H); inversion H; subst; reflexivity.
Qed.
Lemma keyval_gives : forall k sep v, gives (keyval_act k sep v) (KeyVal k sep v) 0.
Proof.
  intros k sep v s s' x H. unfold keyval_act in *. apply rbind_ok in H as (s1 & K & H). inversion H; subst. split; [reflexivity|].
  cbn [pop_key p_line set_keychain]. rewrite N.add_0_r. destruct (p_array_error s); [|eapply insert_line; eauto].
  destruct (vlast (p_errors s)) as [e|]; [|discriminate K]. destruct e; try (inversion K; subst; reflexivity).
  apply rbind_ok in K as (y & X & K). inversion K; subst. reflexivity.
Qed.
Lemma mixed_line : forall t s s', check_mixed t s = Ok s' -> s'.(p_line) = s.(p_line).
Proof.
  intros t s s' H. unfold check_mixed in *. destruct (vlast (p_atypes s)) as [t0|]; [|inversion H; subst; reflexivity].
  destruct (negb _ && negb _); [|inversion H; subst; reflexivity]. apply rbind_ok in H as ([[v a] c] & G & H). inversion H; subst.
  match goal with |- p_line (if ?b then _ else _) = _ => destruct b end; reflexivity.
Qed.
Lemma value_gives : forall v sep nls, gives (array_value_act v sep nls) (ArrayValue v sep nls) 0.
Proof.
  intros v sep nls s s' a H. unfold array_value_act in *. apply rbind_ok in H as (t & T & H). apply rbind_ok in H as (s1 & M & H). apply mixed_line in M.
  apply rbind_ok in H as (s2 & I & H). apply insert_line in I. destruct (nth_error _ _); [|discriminate H]. inversion H; subst. split; [reflexivity|].
  cbn [p_line set_keychain set_atypes] in *. lia.
Qed.
Lemma drop_line : forall n s s', keychain_drop n s = Ok s' -> s'.(p_line) = s.(p_line).
Proof. intros n s s' H. unfold keychain_drop in *. destruct (Nat.ltb _ _); inversion H; subst. reflexivity. Qed.
Lemma std_gives : forall w1 w2 k l, gives (std_table_act w1 w2 k l) (TStandard (table_new {| ws1 := w1; ws2 := w2 |} k l)) 0.
Proof.
  intros w1 w2 k l s s' t H. unfold std_table_act in *. apply rbind_ok in H as (s1 & K & H). apply drop_line in K. rewrite N.add_0_r, <- K. clear K s.
  match type of H with (let '(_, _) := ?x in _) = _ => destruct x as [ts ti] end.
  match type of H with (let '(_, _) := ?x in _) = _ => destruct x as [ts2 ti2] end.
  apply rbind_ok in H as ([[e tk] pk] & TK & H). destruct e.
  - apply rbind_ok in H as ([[v a] c] & G & H). inversion H; subst. split; reflexivity.
  - apply rbind_ok in H as (m & M1 & H). apply rbind_ok in H as (m2 & M2 & H). unfold new_cell in *.
    apply rbind_ok in H as (m3 & M3 & H). inversion H; subst. split; reflexivity.
Qed.
Lemma arr_gives : forall w1 w2 k l, gives (array_table_act w1 w2 k l) (TArrayOf (table_new {| ws1 := w1; ws2 := w2 |} k l)) 0.
Proof.
  intros w1 w2 k l s s' t H. unfold array_table_act in *. apply rbind_ok in H as (s1 & K & H). apply drop_line in K. rewrite N.add_0_r, <- K. clear K s.
  match type of H with (let '(_, _) := ?x in _) = _ => destruct x as [ts ti] end.
  apply rbind_ok in H as ([[m ts2] ti2] & M & H). apply rbind_ok in H as ([[v a] c] & G & H).
  destruct v; cbn [negb] in *; inversion H; subst; split; reflexivity.
Qed.

(** ** The parsers *)
Lemma sm_newline : blind eq newline.
Proof. unfold newline. sm_eq; eapply sm_act; try apply line_gives; reflexivity. Qed.
Lemma sm_string : blind eq string_p.
Proof.
  unfold string_p, ml_literal_string_p, ml_basic_string_p, basic_string_p, literal_string_p, raw_ml_literal_string, raw_ml_basic_string, raw_basic_string, raw_literal_string.
  sm_eq; eapply sm_act; try apply line_gives; reflexivity.
Qed.
Lemma sm_date_internal : blind eq date_time_internal.
Proof. unfold date_time_internal, date_p, time_p, time_offset_p, time_offset_amount_p, fractional. sm_eq. Qed.
Lemma sm_date_time : blind eq date_time.
Proof.
  intros s t i s' r t' r' E E'. unfold date_time in *. apply rbind_ok in E as ([s1 r1] & E1 & E). apply rbind_ok in E' as ([t1 r1'] & E1' & E').
  destruct (sm_date_internal _ _ _ _ _ _ _ E1 E1') as (X & L). destruct r1 as [i1 a| |], r1' as [i1' b| |]; cbn [sim] in X; try contradiction.
  2,3: inversion E; inversion E'; subst; split; cbn; auto.
  destruct X as (<- & <-). destruct (datetime_validate a); [inversion E; inversion E'; subst; split; cbn; auto|].
  apply rbind_ok in E as ([[v x] c] & G & E). apply rbind_ok in E' as ([[v' x'] c'] & G' & E'). inversion E; inversion E'; subst. split; cbn; auto.
Qed.
Lemma sm_key : blind eq key_p.
Proof. unfold key_p, quoted_key, unquoted_key. sm_eq; eapply sm_act; try apply key_gives; reflexivity. Qed.
Lemma sm_conls : blind eq comment_or_nls.
Proof. unfold comment_or_nls, comment_or_nl, comment_nl, ws_newline, comment. sm_eq. Qed.
Lemma sm_sep : blind eq array_sep.
Proof. unfold array_sep, ws. sm_eq. Qed.
Lemma sm_ksep : blind eq keyval_sep.
Proof. unfold keyval_sep, ws. sm_eq. Qed.
Lemma sm_ws : blind eq ws.
Proof. unfold ws. sm_eq. Qed.
Lemma sm_comment : blind eq comment.
Proof. unfold comment. sm_eq. Qed.
(** equal without the identities *)
Definition ecell (a b : cell) : Prop := on_cell bare_tree a = on_cell bare_tree b.
Definition etval (a b : tval) : Prop := bare_tree a = bare_tree b.
Definition ekv (a b : keyval) : Prop := on_keyval bare_tree a = on_keyval bare_tree b.
Definition bare_av (v : array_value) := ArrayValue (on_cell bare_tree v.(av_val)) v.(av_sep) v.(av_nls).
Definition bare_tk (v : table_keyval) := TableKeyVal (on_keyval bare_tree v.(tk_kv)) v.(tk_sep) v.(tk_nls).
Definition eav (a b : array_value) : Prop := bare_av a = bare_av b.
Definition etk (a b : table_keyval) : Prop := bare_tk a = bare_tk b.
Lemma f2_map : forall A B (f : A -> B) l l', Forall2 (fun a b => f a = f b) l l' -> map f l = map f l'.
Proof. induction 1; cbn [map]; [auto|congruence]. Qed.
Section SameVal.
Variable pval : P cell.
Hypothesis PV : blind ecell pval.
Lemma sm_av : blind eav (array_value_ pval).
Proof.
  unfold array_value_. eapply sm_bind; [exact PV|]. intros a b X. eapply (sm_bind _ _ eq); [apply sm_opt_eq, sm_complete, sm_sep|]. intros c ? <-.
  eapply (sm_bind _ _ eq); [apply sm_complete, sm_conls|]. intros d ? <-. eapply sm_act; [apply value_gives..|].
  unfold eav, bare_av. cbn [av_val av_sep av_nls]. unfold ecell in X. rewrite X. reflexivity.
Qed.
Lemma sm_array : blind etval (array_ pval).
Proof.
  intros s t i s' r t' r' E E'. unfold array_ in *. apply rbind_ok in E as ([s1 r1] & E1 & E). apply rbind_ok in E' as ([t1 r1'] & E1' & E').
  assert (L : blind etval (array_internal_ pval)).
  { unfold array_internal_, array_values_. eapply (sm_bind _ _ eq); [apply sm_tag|]. intros _ _ _. eapply (sm_bind _ _ eq); [apply sm_conls|]. intros c ? <-.
    eapply sm_bind; [apply sm_many0, sm_av|]. intros a b X. eapply (sm_bind _ _ eq); [apply sm_conls|]. intros d ? <-.
    eapply (sm_bind _ _ eq); [apply sm_tag|]. intros _ _ _. apply sm_ret. unfold etval. cbn [bare_tree]. f_equal. apply f2_map. exact X. }
  destruct (L _ _ _ _ _ _ _ E1 E1') as (X & Y). inversion E; inversion E'; subst. split; [exact X|]. cbn in *. exact Y.
Qed.
Lemma sm_keyval : blind ekv (keyval_p_ pval).
Proof.
  unfold keyval_p_. eapply (sm_bind _ _ eq); [apply sm_key|]. intros k ? <-. eapply (sm_bind _ _ eq); [apply sm_ksep|]. intros w ? <-.
  eapply sm_bind; [exact PV|]. intros a b X. eapply sm_act; [apply keyval_gives..|]. unfold ekv, on_keyval. cbn [kv_key kv_sep kv_val]. unfold ecell in X. rewrite X. reflexivity.
Qed.
Lemma sm_inline : blind etval (inline_table_ pval).
Proof.
  unfold inline_table_, inline_table_keyvals_. eapply (sm_bind _ _ eq); [apply sm_tag|]. intros _ _ _. eapply (sm_bind _ _ eq); [apply sm_ws|]. intros w ? <-.
  eapply sm_bind; [apply sm_opt, sm_complete, (sm_many0 _ etk)|].
  - unfold table_keyval_p_. eapply sm_bind; [apply sm_keyval|]. intros a b X. eapply (sm_bind _ _ eq); [apply sm_opt_eq, sm_complete, sm_sep|]. intros c ? <-.
    eapply (sm_bind _ _ eq); [apply sm_complete, sm_conls|]. intros d ? <-. apply sm_ret. unfold etk, bare_tk. cbn [tk_kv tk_sep tk_nls]. unfold ekv in X. rewrite X. reflexivity.
  - intros a b X. eapply (sm_bind _ _ eq); [apply sm_ws|]. intros w2 ? <-. eapply (sm_bind _ _ eq); [apply sm_tag|]. intros _ _ _. apply sm_ret.
    unfold etval. cbn [bare_tree]. f_equal. destruct a, b; cbn [orel] in X; try contradiction; [|reflexivity]. apply f2_map. exact X.
Qed.
Lemma sm_pcell : forall A (R : A -> A -> Prop) (p : P A) f, blind R p -> (forall a b, R a b -> etval (f a) (f b)) -> blind ecell (pcell p f).
Proof.
  intros A R p f H H2. unfold pcell. eapply sm_bind; [apply sm_complete; exact H|]. intros a b X s t i s' r t' r' E E'. inversion E; inversion E'; subst. cbn.
  split; [split; auto; unfold ecell, on_cell; cbn; f_equal; apply H2; exact X|lia].
Qed.
Lemma sm_val_ : blind ecell (val_ pval).
Proof.
  unfold val_. repeat apply sm_alt.
  - eapply sm_pcell; [apply sm_array|auto].
  - eapply sm_pcell; [apply sm_inline|auto].
  - eapply sm_pcell; [apply sm_date_time|]. intros a ? <-. reflexivity.
  - eapply (sm_pcell _ eq); [unfold float; sm_eq|]. intros a ? <-. reflexivity.
  - eapply (sm_pcell _ eq); [unfold integer; sm_eq|]. intros a ? <-. reflexivity.
  - eapply (sm_pcell _ eq); [unfold boolean; sm_eq|]. intros a ? <-. reflexivity.
  - eapply sm_pcell; [apply sm_string|]. intros a ? <-. reflexivity.
Qed.
End SameVal.
Lemma sm_val : forall n, blind ecell (val n).
Proof. induction n; cbn [val]; [intros s t i s' r t' r' E; discriminate|apply sm_val_; auto]. Qed.
Lemma sm_keyval_p : blind ekv keyval_p.
Proof. apply sm_keyval. intros s t i s' r t' r' E E'. unfold val_p in *. eapply sm_val; eauto. Qed.
Lemma sm_subkeys : blind eq table_subkeys.
Proof. unfold table_subkeys, table_subkey, ws. sm_eq. apply sm_key. Qed.
Lemma sm_table : blind eq table_p.
Proof.
  unfold table_p, array_table, std_table, ws. sm_eq; try apply sm_key; try apply sm_subkeys; eapply sm_act; try apply arr_gives; try apply std_gives; reflexivity.
Qed.
Definition bare_expr (e : expression) : expression :=
  {| e_ws := e.(e_ws); e_keyval := option_map (on_keyval bare_tree) e.(e_keyval); e_table := e.(e_table); e_comment := e.(e_comment) |}.
Lemma sm_expression : blind (fun a b => bare_expr a = bare_expr b) expression_p.
Proof.
  unfold expression_p. repeat apply sm_alt; apply sm_complete.
  - apply (sm_weak _ eq); [congruence|]. unfold table_comment, comment, ws. sm_eq. apply sm_table.
  - unfold keyval_comment. eapply (sm_bind _ _ eq); [apply sm_ws|]. intros w ? <-. eapply sm_bind; [apply sm_keyval_p|]. intros a b X.
    eapply (sm_bind _ _ eq); [apply sm_ws|]. intros w2 ? <-. eapply (sm_bind _ _ eq); [apply sm_opt_eq, sm_complete, sm_comment|]. intros c ? <-.
    apply sm_ret. unfold bare_expr. cbn [e_ws e_keyval e_table e_comment option_map]. unfold ekv in X. rewrite X. reflexivity.
  - apply (sm_weak _ eq); [congruence|]. unfold ws_comment, comment, ws. sm_eq.
  - apply (sm_weak _ eq); [congruence|]. unfold ws_expr, ws. sm_eq.
Qed.
Lemma sm_toml : blind (fun a b => on_toml bare_tree a = on_toml bare_tree b) toml_p.
Proof.
  unfold toml_p, nl_expressions. eapply sm_bind; [apply sm_expression|]. intros a b X.
  eapply sm_bind; [apply (sm_many0 _ (fun a b => on_expr bare_tree a = on_expr bare_tree b))|].
  - unfold nl_expression_p. eapply (sm_bind _ _ eq); [apply sm_newline|]. intros n ? <-. eapply sm_bind; [apply sm_expression|]. intros c d Y. apply sm_ret.
    unfold on_expr. cbn [ne_nl ne_expr]. fold (bare_expr c) (bare_expr d). rewrite Y. reflexivity.
  - intros l m Y. apply sm_ret. unfold on_toml. cbn [map]. apply f2_map in Y. rewrite Y. f_equal. unfold on_expr. cbn [ne_nl ne_expr].
    fold (bare_expr a) (bare_expr b). rewrite X. reflexivity.
Qed.

Lemma blind_parse : forall s t i s' r t' r', parse s i = Ok (s', r) -> parse t i = Ok (t', r') ->
  on_toml bare_tree s'.(p_root) = on_toml bare_tree t'.(p_root) /\ s'.(p_leftover) = t'.(p_leftover) /\
  show_parser s' = show_parser t' /\ s'.(p_line) + t.(p_line) = t'.(p_line) + s.(p_line).
Proof.
  intros s t i s' r t' r' H H'. apply parse_inv in H as (s1 & rest & d & T & _ & -> & _). apply parse_inv in H' as (t1 & rest' & d' & T' & _ & -> & _).
  destruct (sm_toml _ _ _ _ _ _ _ T T') as ((<- & X) & L). cbn [p_root p_leftover p_line set_leftover set_root]. unfold show_parser. cbn [p_root set_leftover set_root].
  split; [exact X|]. split; [reflexivity|]. split; [|exact L]. rewrite <- (show_bare_doc d), X, show_bare_doc. reflexivity.
Qed.
