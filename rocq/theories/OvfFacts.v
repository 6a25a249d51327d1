(** A run that completes with overflow checks is the same without them. *)
From Coq Require Import Lia.
From Verif Require Import Str Regex Types Ast State Nom Keys Grammar Api Cli Main Facts NomFacts ParseFacts OvfSpec.

Notation low := unchecked.
Definition lowers {A} (p : P A) : Prop := forall s i s' r, p s i = Ok (s', r) -> p (low s) i = Ok (low s', r).
Definition lowacts {A} (f : pst -> res (pst * A)) : Prop := forall s s' a, f s = Ok (s', a) -> f (low s) = Ok (low s', a).

Lemma low_bind : forall A B (p : P A) (f : A -> P B), lowers p -> (forall a, lowers (f a)) -> lowers (bind p f).
Proof.
  intros A B p f H H2 s i s' r E. unfold bind in *. apply rbind_ok in E as ([s1 r1] & E1 & E). apply H in E1. rewrite E1. cbn [rbind].
  destruct r1; [apply H2 in E; exact E|inversion E; subst; reflexivity..].
Qed.
Lemma low_ret : forall A (a : A), lowers (ret a).
Proof. intros A a s i s' r E. inversion E; subst. reflexivity. Qed.
Lemma low_pmap : forall A B (p : P A) (f : A -> B), lowers p -> lowers (pmap p f).
Proof. intros. apply low_bind; auto. intros. apply low_ret. Qed.
Lemma low_complete : forall A (p : P A), lowers p -> lowers (complete p).
Proof.
  intros A p H s i s' r E. unfold complete in *. apply rbind_ok in E as ([s1 r1] & E1 & E). apply H in E1. rewrite E1. cbn [rbind].
  inversion E; subst. reflexivity.
Qed.
Lemma low_alt : forall A (p q : P A), lowers p -> lowers q -> lowers (alt p q).
Proof.
  intros A p q H H2 s i s' r E. unfold alt in *. apply rbind_ok in E as ([s1 r1] & E1 & E). apply H in E1. rewrite E1. cbn [rbind].
  destruct r1; [inversion E; subst; reflexivity|apply H2 in E; exact E|inversion E; subst; reflexivity].
Qed.
Lemma low_opt : forall A (p : P A), lowers p -> lowers (opt p).
Proof.
  intros A p H s i s' r E. unfold opt in *. apply rbind_ok in E as ([s1 r1] & E1 & E). apply H in E1. rewrite E1. cbn [rbind].
  inversion E; subst. reflexivity.
Qed.
Lemma low_tag : forall t, lowers (tag t).
Proof. intros t s i s' r E. inversion E; subst. reflexivity. Qed.
Lemma low_re : forall re, lowers (re_find re).
Proof. intros t s i s' r E. inversion E; subst. reflexivity. Qed.
Lemma low_tw : forall f, lowers (take_while f).
Proof. intros f s i s' r E. unfold take_while in *. destruct (span f i). inversion E; subst. reflexivity. Qed.
Lemma low_tw1 : forall f, lowers (take_while1 f).
Proof. intros f s i s' r E. unfold take_while1 in *. destruct (span f i). inversion E; subst. reflexivity. Qed.
Lemma low_loop : forall A (p : P A), lowers p -> forall n, lowers (many_loop n p).
Proof.
  intros A p H. induction n as [|n IH]; intros s i s' r E; [discriminate|]. cbn [many_loop] in *. destruct i as [|c i]; [inversion E; subst; reflexivity|].
  apply rbind_ok in E as ([s1 r1] & E1 & E). apply H in E1. rewrite E1. cbn [rbind]. destruct r1; [|inversion E; subst; reflexivity..].
  destruct (Nat.eqb _ _); [inversion E; subst; reflexivity|]. apply rbind_ok in E as ([s2 r2] & E2 & E). apply IH in E2. rewrite E2. cbn [rbind].
  inversion E; subst. reflexivity.
Qed.
Lemma low_many0 : forall A (p : P A), lowers p -> lowers (many0 p).
Proof. intros A p H s i s' r E. unfold many0 in *. eapply low_loop; eauto. Qed.
Lemma low_many1 : forall A (p : P A), lowers p -> lowers (many1 p).
Proof.
  intros A p H s i s' r E. unfold many1 in *. apply rbind_ok in E as ([s1 r1] & E1 & E). apply H in E1. rewrite E1. cbn [rbind].
  destruct r1; [|inversion E; subst; reflexivity..]. apply rbind_ok in E as ([s2 r2] & E2 & E). eapply low_loop in E2; eauto. rewrite E2. cbn [rbind].
  inversion E; subst. reflexivity.
Qed.
Lemma low_act : forall A (f : pst -> res (pst * A)), lowacts f -> lowers (act f).
Proof.
  intros A f H s i s' r E. unfold act in *. apply rbind_ok in E as ([s1 a] & E1 & E). apply H in E1. rewrite E1. cbn [rbind]. inversion E; subst. reflexivity.
Qed.
Ltac low_tac := repeat (match goal with
  | |- forall _, _ => intro
  | |- lowers (bind _ _) => apply low_bind
  | |- lowers (alt _ _) => apply low_alt
  | |- lowers (opt _) => apply low_opt
  | |- lowers (complete _) => apply low_complete
  | |- lowers (pmap _ _) => apply low_pmap
  | |- lowers (re_find _) => apply low_re
  | |- lowers (tag _) => apply low_tag
  | |- lowers (ret _) => apply low_ret
  | |- lowers (take_while _) => apply low_tw
  | |- lowers (take_while1 _) => apply low_tw1
  | |- lowers (many0 _) => apply low_many0
  | |- lowers (many1 _) => apply low_many1
  | |- lowers _ => assumption
  end).

(** ** The actions *)
Lemma dec_low : forall b n x, dec_usize b n = Ok x -> dec_usize false n = Ok x.
Proof. intros b n x H. unfold dec_usize in *. destruct (n =? 0); auto. destruct b; [discriminate|auto]. Qed.
Lemma gatk_loop_low : forall b m ts ti n i pe v fk pk x, gatk_loop b m ts ti n i pe v fk pk = Ok x -> gatk_loop false m ts ti n i pe v fk pk = Ok x.
Proof.
  intros b m ts ti. induction n as [|n IH]; intros i pe v fk pk x H; cbn [gatk_loop] in *; auto.
  apply rbind_ok in H as (t & V & H). rewrite V. cbn [rbind]. destruct t as [t|t].
  - destruct (gatk_std m (skipn pe (get_last_keys t)) v fk pk) as [[v1 fk1] pk1]. auto.
  - apply rbind_ok in H as (fk1 & F & H). rewrite F. cbn [rbind]. apply rbind_ok in H as (ix & I & H).
    assert (I' : match hget (fk1 ++ last (get_last_keys t) []) m with
      | Some hv => match hv.(hv_subkeys) with Count c => dec_usize false c | Keys _ => vindex ti i end
      | None => vindex ti i end = Ok ix).
    { destruct (hget _ m) as [hv|]; auto. destruct (hv_subkeys hv); auto. eapply dec_low; eauto. }
    rewrite I'. cbn [rbind]. destruct (Nat.ltb i (length ti - 1)); auto.
Qed.
Lemma gatk_low : forall b m ts ti x, get_array_table_key b m ts ti = Ok x -> get_array_table_key false m ts ti = Ok x.
Proof. intros b m ts ti x H. eapply gatk_loop_low; eauto. Qed.
Lemma full_low : forall b m ts ti kc x, get_full_key b m ts ti kc = Ok x -> get_full_key false m ts ti kc = Ok x.
Proof.
  intros b m ts ti kc x H. unfold get_full_key in *. apply rbind_ok in H as ([[v a] c] & G & H). apply gatk_low in G. rewrite G. exact H.
Qed.
Lemma implicit_low : forall b m ts ti t x, add_implicit_tables b m ts ti t = Ok x -> add_implicit_tables false m ts ti t = Ok x.
Proof.
  intros b m ts ti t x H. unfold add_implicit_tables in *. apply rbind_ok in H as ([[v a] c] & G & H). apply gatk_low in G. rewrite G. exact H.
Qed.
Lemma keys_low : forall s x, keyval_keys s = Ok x -> keyval_keys (low s) = Ok x.
Proof.
  intros s x H. unfold keyval_keys in *. cbn [unchecked p_last_table p_keychain p_tables p_tindex p_map p_ovf]. destruct (p_last_table s) as [[t|t]|]; auto;
    apply rbind_ok in H as ([[v a] c] & G & H); apply full_low in G; rewrite G; exact H.
Qed.
Lemma insert_low : forall s c s', insert_keyval_into_map s c = Ok s' -> insert_keyval_into_map (low s) c = Ok (low s').
Proof.
  intros s c s' H. unfold insert_keyval_into_map in *. apply rbind_ok in H as ([fk pk] & K & H). apply keys_low in K. rewrite K. cbn [rbind].
  cbn [unchecked p_map p_keychain p_line]. destruct (hget fk (p_map s)) as [[[c0|] sub]|];
    apply rbind_ok in H as (v & V & H); rewrite V; cbn [rbind]; inversion H; subst; reflexivity.
Qed.
Lemma keyval_low : forall k sep v, lowacts (keyval_act k sep v).
Proof.
  intros k sep v s s' a H. unfold keyval_act in *. apply rbind_ok in H as (s1 & K & H).
  match goal with |- rbind ?x _ = _ => assert (E : x = Ok (low s1)) end.
  { cbn [unchecked p_array_error p_errors]. destruct (p_array_error s); [|apply insert_low; auto].
    destruct (vlast (p_errors s)) as [e|]; [|discriminate K]. destruct e; try (inversion K; subst; reflexivity).
    apply rbind_ok in K as (x & X & K). rewrite X. cbn [rbind]. inversion K; subst. reflexivity. }
  rewrite E. cbn [rbind]. inversion H; subst. reflexivity.
Qed.
Lemma mixed_low : forall t s s', check_mixed t s = Ok s' -> check_mixed t (low s) = Ok (low s').
Proof.
  intros t s s' H. unfold check_mixed in *. cbn [unchecked p_atypes]. destruct (vlast (p_atypes s)) as [t0|]; [|inversion H; subst; reflexivity].
  destruct (negb _ && negb _); [|inversion H; subst; reflexivity].
  apply rbind_ok in H as ([[v a] c] & G & H). cbn [unchecked p_ovf p_map p_tables p_tindex p_keychain p_errors p_line]. apply full_low in G. rewrite G. cbn [rbind].
  inversion H; subst. match goal with |- Ok (if ?b then _ else _) = _ => destruct b end; reflexivity.
Qed.
Lemma value_low : forall v sep nls, lowacts (array_value_act v sep nls).
Proof.
  intros v sep nls s s' a H. unfold array_value_act in *. apply rbind_ok in H as (t & T & H). rewrite T. cbn [rbind].
  apply rbind_ok in H as (s1 & M & H). apply mixed_low in M. rewrite M. cbn [rbind].
  apply rbind_ok in H as (s2 & I & H). apply insert_low in I.
  change (set_atypes (vpush (vpop (p_atypes (low s1))) t) (low s1)) with (low (set_atypes (vpush (vpop (p_atypes s1)) t) s1)). rewrite I. cbn [rbind].
  cbn [unchecked p_keychain set_atypes] in *. destruct (nth_error _ _); [|discriminate H]. inversion H; subst. reflexivity.
Qed.
Lemma drop_low : forall n s s', keychain_drop n s = Ok s' -> keychain_drop n (low s) = Ok (low s').
Proof. intros n s s' H. unfold keychain_drop in *. cbn [unchecked p_keychain]. destruct (Nat.ltb _ _); inversion H; subst. reflexivity. Qed.
Lemma std_low : forall w1 w2 k l, lowacts (std_table_act w1 w2 k l).
Proof.
  intros w1 w2 k l s s' t H. unfold std_table_act in *. apply rbind_ok in H as (s1 & K & H). apply drop_low in K. rewrite K. cbn [rbind]. clear K s.
  cbn [unchecked p_tables p_tindex p_map p_ovf p_line]. set (res := TStandard (table_new {| ws1 := w1; ws2 := w2 |} k l)) in *.
  match type of H with (let '(_, _) := ?x in _) = _ => destruct x as [ts ti] end.
  match type of H with (let '(_, _) := ?x in _) = _ => destruct x as [ts2 ti2] end.
  apply rbind_ok in H as ([[e tk] pk] & TK & H).
  match goal with |- rbind ?x _ = _ => assert (E : x = Ok (e, tk, pk)) end.
  { match type of TK with (if ?b then _ else _) = _ => destruct b; [exact TK|] end.
    apply rbind_ok in TK as ([[v a] c] & G & TK). apply gatk_low in G. rewrite G. exact TK. }
  rewrite E. cbn [rbind]. clear E TK. destruct e.
  - apply rbind_ok in H as ([[v a] c] & G & H). apply gatk_low in G. rewrite G. cbn [rbind]. inversion H; subst. reflexivity.
  - apply rbind_ok in H as (m & M1 & H). apply implicit_low in M1. rewrite M1. cbn [rbind].
    apply rbind_ok in H as (m2 & M2 & H). rewrite M2. cbn [rbind]. unfold new_cell in *.
    apply rbind_ok in H as (m3 & M3 & H). cbn [unchecked p_next]. rewrite M3. cbn [rbind]. inversion H; subst. reflexivity.
Qed.
Lemma arr_low : forall w1 w2 k l, lowacts (array_table_act w1 w2 k l).
Proof.
  intros w1 w2 k l s s' t H. unfold array_table_act in *. apply rbind_ok in H as (s1 & K & H). apply drop_low in K. rewrite K. cbn [rbind]. clear K s.
  cbn [unchecked p_tables p_tindex p_map p_ovf p_line set_array_error set_tables]. cbn [p_tables p_tindex p_map p_ovf p_line set_array_error set_tables] in H.
  set (res := TArrayOf (table_new {| ws1 := w1; ws2 := w2 |} k l)) in *.
  match type of H with (let '(_, _) := ?x in _) = _ => destruct x as [ts ti] end.
  apply rbind_ok in H as ([[m ts2] ti2] & M & H).
  match goal with |- rbind ?x _ = _ => assert (E : x = Ok (m, ts2, ti2)) end.
  { destruct (vlast ts) as [l0|].
    - destruct (str_eqb _ _); [exact M|]. destruct (is_subtable_of _ _).
      + apply rbind_ok in M as (m1 & I & M). apply implicit_low in I. rewrite I. exact M.
      + destruct (pop_until_key _ _ _) as [a b]. destruct (rev a); [|exact M]. apply rbind_ok in M as (m1 & I & M). apply implicit_low in I. rewrite I. exact M.
    - apply rbind_ok in M as (m1 & I & M). apply implicit_low in I. rewrite I. exact M. }
  rewrite E. cbn [rbind]. clear E M. apply rbind_ok in H as ([[v a] c] & G & H). apply gatk_low in G. rewrite G. cbn [rbind].
  destruct v; cbn [negb] in *; inversion H; subst; reflexivity.
Qed.

(** ** The parsers *)
Ltac low_const := apply low_act; let E := fresh "E" in intros ? ? ? E; inversion E; subst; reflexivity.
Lemma low_newline : lowers newline.
Proof. unfold newline. low_tac; low_const. Qed.
Lemma low_string : lowers string_p.
Proof.
  unfold string_p, ml_literal_string_p, ml_basic_string_p, basic_string_p, literal_string_p, raw_ml_literal_string, raw_ml_basic_string, raw_basic_string, raw_literal_string.
  low_tac; low_const.
Qed.
Lemma low_date_time : lowers date_time.
Proof.
  intros s i s' r E. unfold date_time in *. apply rbind_ok in E as ([s1 r1] & E1 & E).
  assert (L : lowers date_time_internal).
  { unfold date_time_internal, date_p, time_p, time_offset_p, time_offset_amount_p, fractional. low_tac. }
  apply L in E1. rewrite E1. cbn [rbind]. destruct r1; [|inversion E; subst; reflexivity..]. destruct (datetime_validate a); [inversion E; subst; reflexivity|].
  apply rbind_ok in E as ([[v x] c] & G & E). cbn [unchecked p_ovf p_map p_tables p_tindex p_keychain p_errors p_line]. apply full_low in G. rewrite G. cbn [rbind].
  inversion E; subst. reflexivity.
Qed.
Lemma low_key : lowers key_p.
Proof. unfold key_p, quoted_key, unquoted_key. low_tac; low_const. Qed.
Section LowVal.
Variable pval : P cell.
Hypothesis PV : lowers pval.
Lemma low_array : lowers (array_ pval).
Proof.
  intros s i s' r E. unfold array_ in *. apply rbind_ok in E as ([s1 r1] & E1 & E).
  assert (L : lowers (array_internal_ pval)).
  { unfold array_internal_, array_values_, array_value_, comment_or_nls, comment_or_nl, comment_nl, ws_newline, comment, array_sep, ws. low_tac.
    apply low_act, value_low. }
  apply L in E1.
  change (push_key (KIndex 0) (set_atypes (vpush (p_atypes (low s)) ANone) (low s))) with (low (push_key (KIndex 0) (set_atypes (vpush (p_atypes s) ANone) s))).
  rewrite E1. cbn [rbind]. inversion E; subst. reflexivity.
Qed.
Lemma low_keyval : lowers (keyval_p_ pval).
Proof. unfold keyval_p_, keyval_sep, ws. low_tac; try apply low_key. apply low_act, keyval_low. Qed.
Lemma low_inline : lowers (inline_table_ pval).
Proof.
  unfold inline_table_, inline_table_keyvals_, table_keyval_p_, comment_or_nls, comment_or_nl, comment_nl, ws_newline, comment, array_sep, ws. low_tac.
  apply low_keyval.
Qed.
Lemma low_pcell : forall A (p : P A) f, lowers p -> lowers (pcell p f).
Proof. intros A p f H. unfold pcell. low_tac; low_const. Qed.
Lemma low_val_ : lowers (val_ pval).
Proof.
  unfold val_. repeat apply low_alt; apply low_pcell; [apply low_array|apply low_inline|apply low_date_time|unfold float; low_tac|unfold integer; low_tac|unfold boolean; low_tac|apply low_string].
Qed.
End LowVal.
Lemma low_val : forall n, lowers (val n).
Proof. induction n; cbn [val]; [intros s i s' r E; discriminate|apply low_val_; auto]. Qed.
Lemma low_keyval_p : lowers keyval_p.
Proof. apply low_keyval. intros s i s' r E. unfold val_p in *. eapply low_val; eauto. Qed.
Lemma low_table : lowers table_p.
Proof.
  unfold table_p, array_table, std_table, table_subkeys, table_subkey, ws. low_tac; try apply low_key; apply low_act; [apply arr_low|apply std_low].
Qed.
Lemma low_expression : lowers expression_p.
Proof.
  unfold expression_p, table_comment, keyval_comment, ws_comment, ws_expr, comment, ws. low_tac; [apply low_table|apply low_keyval_p].
Qed.
Lemma low_toml : lowers toml_p.
Proof. unfold toml_p, nl_expressions, nl_expression_p. low_tac; try apply low_expression; apply low_newline. Qed.

Lemma low_parse : forall s i s' r, parse s i = Ok (s', r) -> parse (low s) i = Ok (low s', r).
Proof.
  intros s i s' r H. unfold parse in *. apply rbind_ok in H as ([s1 r1] & E & H). apply low_toml in E. rewrite E. cbn [rbind].
  destruct r1; inversion H; subst; reflexivity.
Qed.

(** ** Updates *)
Definition lift (r : res (pst * bool)) : res (pst * bool) := let? (s, b) := r in Ok (low s, b).
Lemma low_write : forall ws s, fold_left write ws (low s) = low (fold_left write ws s).
Proof. induction ws as [|[id nv] ws IH]; intros s; [reflexivity|]. cbn [fold_left]. rewrite <- IH. reflexivity. Qed.
Lemma low_set : forall s k v, set_value (low s) k v = lift (set_value s k v).
Proof.
  intros s k v. unfold set_value, lift. cbn [unchecked p_map]. destruct (hget k (p_map s)) as [hv|]; [|reflexivity].
  destruct (hv_value hv) as [c|]; [|reflexivity]. destruct (same_structure (c_val c) v).
  - destruct (replace_values (c_id c) (c_val c) v); cbn [rbind]; try reflexivity. rewrite low_write. reflexivity.
  - destruct (get_all_subkeys (p_map s) k) as [ks| |]; cbn [rbind]; try reflexivity.
    change (p_next (set_map (fold_left (fun m k0 => hremove k0 m) ks (p_map s)) (low s))) with (p_next (set_map (fold_left (fun m k0 => hremove k0 m) ks (p_map s)) s)).
    destruct (convert_vector v _) as [[o n]| |]; cbn [rbind]; try reflexivity. destruct o as [nv|]; [|reflexivity].
    destruct nv; try reflexivity; cbn [p_map set_map set_next unchecked];
      (destruct (hget k _) as [hv2|]; [destruct (hv_value hv2); [|reflexivity]|]); cbn [rbind];
      unfold new_cell; cbn [c_val c_id];
      match goal with |- rbind (rebuild_vector ?a ?b ?c ?d ?m1) _ = rbind (rbind (rebuild_vector ?a ?b2 ?c ?d ?m2) _) _ =>
        change (rebuild_vector a b c d m1) with (rebuild_vector a b2 c d m2); destruct (rebuild_vector a b2 c d m2); reflexivity end.
Qed.

(** ** The tool *)
Lemma low_get_loop : forall sep strip s keys r, get_loop sep strip (low s) keys r = get_loop sep strip s keys r.
Proof. intros sep strip s. induction keys as [|k keys IH]; intros r; [reflexivity|]. cbn [get_loop]. change (get_value (low s) k) with (get_value s k).
  destruct (get_value s k) as [[v|]| |]; cbn [rbind]; try reflexivity. destruct (show_value v); cbn [rbind]; auto.
Qed.
Lemma low_children_loop : forall sep a b c d s keys r, children_loop sep a b c d (low s) keys r = children_loop sep a b c d s keys r.
Proof. intros sep a b c d s. induction keys as [|k keys IH]; intros r; [reflexivity|]. cbn [children_loop]. change (get_children (low s) k) with (get_children s k).
  destruct (get_children s k) as [[n|l]|]; auto. destruct (n =? 0); auto.
Qed.
Definition lift2 (r : res (pst * cres)) : res (pst * cres) := let? (s, b) := r in Ok (low s, b).
Lemma low_set_loop : forall sep q n fields r s, (length fields <= n)%nat -> set_loop sep q fields r (low s) = lift2 (set_loop sep q fields r s).
Proof.
  intros sep q. induction n as [|n IH]; intros fields r s L.
  - destruct fields; [reflexivity|cbn [length] in L; lia].
  - destruct fields as [|k [|v [|t rest]]]; try reflexivity. cbn [set_loop]. destruct (typed_value t v) as [[[w|]|]| |]; cbn [rbind]; try reflexivity.
    rewrite low_set. unfold lift. destruct (set_value s k w) as [[s1 [|]]| |]; cbn [rbind]; try reflexivity. apply IH. cbn [length] in L. lia.
Qed.
Lemma low_cli_set : forall x kvs sep q s, cli_set_value x kvs sep q (low s) = lift2 (cli_set_value x kvs sep q s).
Proof.
  intros x kvs sep q s. unfold cli_set_value. destruct (x_split x kvs) as [f|]; [|reflexivity]. destruct (negb _ || _); [reflexivity|].
  eapply low_set_loop. apply le_n.
Qed.
Lemma low_cli_get : forall x a sep st s, cli_get_value x a sep st (low s) = cli_get_value x a sep st s.
Proof. intros. unfold cli_get_value. destruct (x_split x a) as [[|k l]|]; try reflexivity. apply low_get_loop. Qed.
Lemma low_cli_children : forall x a sep b c d e s, cli_get_children x a sep b c d e (low s) = cli_get_children x a sep b c d e s.
Proof. intros. unfold cli_get_children. destruct (x_split x a) as [[|k l]|]; try reflexivity. apply low_children_loop. Qed.
Lemma parse_nf : forall b text, parse (new_parser b) text <> Fuel.
Proof.
  intros b text. unfold parse. pose proof (nf_toml (length text) (new_parser b) text (le_n _)) as N.
  intros H. destruct (toml_p _ text) as [[s r]| |] eqn:E; cbn [rbind] in H; [destruct r; discriminate|discriminate|]. exact (N eq_refl).
Qed.
Lemma low_document : forall x o m path text, x_ovf x = true -> process_document x o m path text <> Crash None ->
  process_document (with_checks false x) o m path text = process_document x o m path text.
Proof.
  intros x o m path text O N. unfold process_document in *. rewrite O in *. cbn [with_checks x_ovf].
  destruct (parse (new_parser true) text) as [[s pr]| |] eqn:E; cbn [orun] in N |- *; [clear N|congruence|exfalso; eapply parse_nf; eauto].
  apply low_parse in E. change (low (new_parser true)) with (new_parser false) in E. rewrite E. cbn [orun].
  change (refusal (with_checks false x) path pr) with (refusal x path pr). destruct (refusal x path pr); [reflexivity|].
  change (fun a => let? r := cli_get_value (with_checks false x) a (o_sep o) (o_strip o) (low s) in Ok (r, tt))
    with (fun a => let? r := cli_get_value x a (o_sep o) (o_strip o) (low s) in Ok (r, tt)).
  assert (G : forall d l, step (m_get m) l d (fun a => let? r := cli_get_value x a (o_sep o) (o_strip o) (low s) in Ok (r, tt)) =
                step (m_get m) l d (fun a => let? r := cli_get_value x a (o_sep o) (o_strip o) s in Ok (r, tt))).
  { intros d l. unfold step. destruct (m_get m); [|reflexivity]. rewrite low_cli_get. reflexivity. }
  rewrite G. destruct (step (m_get m) [] tt _) as [[rs u]| |]; cbn [orun]; try reflexivity.
  change (fun a => cli_has_value (with_checks false x) a (o_sep o) (o_true o) (o_false o) (low s)) with
    (fun a => cli_has_value x a (o_sep o) (o_true o) (o_false o) s).
  destruct (step (m_has m) rs 0 _) as [[rs1 kc]| |]; cbn [orun]; try reflexivity.
  change (fun a => Ok (cli_get_children (with_checks false x) a (o_sep o) (o_start o) (o_end o) (o_arr_sep o) (o_len o) (low s), tt)) with
    (fun a => Ok (cli_get_children x a (o_sep o) (o_start o) (o_end o) (o_arr_sep o) (o_len o) (low s), tt)).
  assert (C : forall l, step (m_children m) l tt (fun a => Ok (cli_get_children x a (o_sep o) (o_start o) (o_end o) (o_arr_sep o) (o_len o) (low s), tt)) =
                step (m_children m) l tt (fun a => Ok (cli_get_children x a (o_sep o) (o_start o) (o_end o) (o_arr_sep o) (o_len o) s, tt))).
  { intros l. unfold step. destruct (m_children m); [|reflexivity]. rewrite low_cli_children. reflexivity. }
  rewrite C. destruct (step (m_children m) rs1 tt _) as [[rs2 u2]| |]; cbn [orun]; try reflexivity.
  change (fun a => let? r := cli_has_children (with_checks false x) a (o_sep o) (o_true o) (o_false o) kc (low s) in Ok (r, tt)) with
    (fun a => let? r := cli_has_children x a (o_sep o) (o_true o) (o_false o) kc s in Ok (r, tt)).
  destruct (step (m_any m) rs2 tt _) as [[rs3 u3]| |]; cbn [orun]; try reflexivity.
  destruct (m_set m) as [a|]; [|destruct rs3; reflexivity]. destruct (last_good rs3); [|reflexivity].
  change (cli_set_value (with_checks false x) a (o_sep o) (o_quiet o) (low s)) with (cli_set_value x a (o_sep o) (o_quiet o) (low s)).
  rewrite low_cli_set. unfold lift2. destruct (cli_set_value x a (o_sep o) (o_quiet o) s) as [[s2 r2]| |]; cbn [rbind orun]; reflexivity.
Qed.
Lemma low_file : forall x o m y path, x_ovf x = true -> f_end (process_file x o m y path) <> Crashed ->
  process_file (with_checks false x) o m y path = process_file x o m y path.
Proof.
  intros x o m y path O H. unfold process_file in *. destruct (y_files y path) as [text|]; [|reflexivity].
  rewrite low_document; auto. intros C. rewrite C in H. apply H. reflexivity.
Qed.
Lemma low_names : forall x o m lines y, x_ovf x = true -> f_end (process_names x o m y lines) <> Crashed ->
  process_names (with_checks false x) o m y lines = process_names x o m y lines.
Proof.
  intros x o m. induction lines as [|l lines IH]; intros y O H; [reflexivity|]. cbn [process_names] in *.
  assert (F : f_end (process_file x o m y (trim l)) <> Crashed).
  { intros C. rewrite C in H. apply H. exact C. }
  rewrite low_file; auto. destruct (f_end (process_file x o m y (trim l))) eqn:E; try reflexivity.
  rewrite IH; auto.
Qed.
Lemma low_main : forall x o m y f stdin, x_ovf x = true -> f_end (main x o m y f stdin) <> Crashed ->
  main (with_checks false x) o m y f stdin = main x o m y f stdin.
Proof. intros x o m y [p|] stdin O H; [apply low_file|apply low_names]; auto. Qed.

(** ** For the properties *)
Lemma low_api : forall s,
  (forall k, get_value (low s) k = get_value s k) /\
  (forall k, get_children (low s) k = get_children s k) /\
  show_parser (low s) = show_parser s /\
  (forall k v s' b, set_value s k v = Ok (s', b) -> set_value (low s) k v = Ok (low s', b)) /\
  (forall k v, set_value (low s) k v = Panic <-> set_value s k v = Panic).
Proof.
  intros s. split; [reflexivity|]. split; [reflexivity|]. split; [reflexivity|]. split.
  - intros k v s' b H. rewrite low_set, H. reflexivity.
  - intros k v. rewrite low_set. unfold lift. destruct (set_value s k v) as [[s' b]| |]; cbn [rbind]; split; intros H; try discriminate; reflexivity.
Qed.
Lemma overflow_witness : exists i s r, parse (new_parser true) i = Panic /\ parse (new_parser false) i = Ok (s, r).
Proof.
  exists (lit "b = 1
[[b]]"). do 2 eexists. split; vm_compute; reflexivity.
Qed.
