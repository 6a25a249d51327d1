(** Blanks, comments, keys and whole lines. *)
From Coq Require Import Lia ZifyBool ZifyNat ZifyN.
From Verif Require Import Str Regex Types Ast State Nom Keys Grammar Api Facts Spec.
From Verif Require Import RegexFacts NomFacts TypesFacts DateFacts NumFacts StringFacts ScalarFacts.

(** ** blanks *)
Definition blank_b (c : N) : bool := (c =? 32) || (c =? 9).

Lemma det_blank : det (RAlt (RChr 32) (RChr 9))
  (fun s => match s with c :: s' => if blank_b c then Some s' else None | [] => None end).
Proof.
  intros s k. cbn [rm RChr]. destruct s as [|c s]; auto. unfold blank_b, in_ranges.
  destruct (N.eqb_spec c 32).
  - subst. simpl. destruct (k s); auto.
  - assert ((32 <=? c) && (c <=? 32) || false = false) as -> by lia.
    destruct (N.eqb_spec c 9).
    + subst. simpl. auto.
    + assert ((9 <=? c) && (c <=? 9) || false = false) as -> by lia. auto.
Qed.

Lemma iter_blank : forall n s, (length s <= n)%nat ->
  iter_step (fun s => match s with c :: s' => if blank_b c then Some s' else None | [] => None end) n s
  = drop_while blank_b s.
Proof.
  induction n; intros s H; destruct s; simpl in *; auto; try lia.
  destruct (blank_b n0); auto. apply IHn. lia.
Qed.

Lemma re_ws_match : forall s, re_match re_ws s = Some (take_wh blank_b s, drop_while blank_b s).
Proof.
  intros s. apply re_match_rm; [symmetry; apply take_drop|].
  unfold re_ws. rewrite rm_star, (star_greedy_det _ _ _ det_blank) by discriminate.
  rewrite iter_blank; auto.
Qed.

Lemma ws_eq : forall s i, ws s i = Ok (s, Done (drop_while blank_b i) (take_wh blank_b i)).
Proof. intros. unfold ws, re_find. rewrite re_ws_match. auto. Qed.

(** the rest does not go on with a blank *)
Definition no_blank (r : str) : Prop := match r with [] => True | c :: _ => c <> 32 /\ c <> 9 end.

Lemma ws_ok : forall w r s, blanks w -> no_blank r -> ws s (w ++ r) = Ok (s, Done r w).
Proof.
  intros. rewrite ws_eq. destruct (take_wh_app blank_b w r) as [-> ->]; auto.
  - eapply Forall_impl; [|exact H]. unfold blank_b. cbv beta. lia.
  - destruct r; auto. simpl in H0. unfold blank_b. lia.
Qed.

(** ** line ends *)
Definition line_start (r : str) : Prop := r = [] \/ exists nl r', line_end nl /\ r = nl ++ r'.

Lemma line_start_head : forall r, line_start r ->
  match r with [] => True | c :: _ => c = 10 \/ c = 13 end.
Proof. intros r [->|(nl & r' & [->| ->] & ->)]; simpl; auto. Qed.

Lemma line_start_no_blank : forall r, line_start r -> no_blank r.
Proof. intros r H. apply line_start_head in H. destruct r; simpl; auto. lia. Qed.

Lemma comment_ok : forall c r s, comment_text c -> line_start r ->
  comment s (lit "#" ++ c ++ r) = Ok (s, Done r c).
Proof.
  intros. unfold comment. erewrite bind_ok by apply tag_ok.
  erewrite bind_ok; [reflexivity|]. unfold take_while. rewrite span_eq.
  destruct (take_wh_app not_eol c r) as [-> ->]; auto.
  - eapply Forall_impl; [|exact H]. unfold not_eol. cbv beta. lia.
  - apply line_start_head in H0. destruct r; auto. unfold not_eol. lia.
Qed.

Lemma comment_err : forall s r, head_not 35 r -> complete comment s r = Ok (s, Error).
Proof.
  intros. apply complete_err. unfold comment. change (lit "#") with [35].
  destruct (tag1_err 35 s r H) as (x & E & [-> | ->]).
  - left. apply bind_err; exact E.
  - right. apply bind_inc; exact E.
Qed.

(** an optional comment at the end of a line *)
Lemma opt_comment : forall c r s, com_ok c -> line_start r ->
  opt (complete comment) s (com_text c ++ r) = Ok (s, Done r c).
Proof.
  intros [c|] r s C R; cbn [com_text com_ok] in *.
  - apply opt_ok, complete_ok. rewrite <- app_assoc. apply comment_ok; auto.
  - apply opt_err, comment_err. apply line_start_head in R. destruct r; simpl; auto. lia.
Qed.

Lemma com_no_blank : forall c r, line_start r -> no_blank (com_text c ++ r).
Proof.
  intros [c|] r R; cbn [com_text].
  - simpl. lia.
  - apply line_start_no_blank; auto.
Qed.

(** ** keys *)
Lemma bare_keychar : forall c, bare_char c <-> is_keychar c = true.
Proof. intros. unfold bare_char, is_keychar. lia. Qed.

Lemma bare_key_head : forall k, bare_key k -> exists c t, k = c :: t /\ bare_char c.
Proof. intros [|c t] [N F]; [congruence|]. inversion F; eauto. Qed.
Lemma key_head : forall k, key_name k -> exists c t, k = c :: t /\ (c = 34 \/ bare_char c).
Proof. intros k [K|(x & _ & _ & ->)]; [apply bare_key_head in K as (c & t & E & C); eauto|cbn [app]; eauto]. Qed.

Lemma key_ne : forall k, key_name k -> k <> [].
Proof. intros k K ->. apply key_head in K as (c & t & E & _). discriminate E. Qed.

Lemma quoted_err : forall s i, head_not 34 i -> complete quoted_key s i = Ok (s, Error).
Proof.
  intros. apply complete_err. left. unfold quoted_key. apply re_find_err. unfold re_quoted_key.
  apply raw_none1. destruct i; auto. apply starts1_false; auto.
Qed.

Lemma key_p_bare : forall k r s, key_name k ->
  match r with [] => True | c :: _ => ~ bare_char c end ->
  key_p s (k ++ r) = Ok (push_key (KStr k) s, Done r k).
Proof.
  intros k r s K R. destruct K as [K|(x & N & B & ->)].
  - pose proof (bare_key_head k K) as (c & t & E & C).
    unfold key_p. erewrite alt_err.
    2:{ apply bind_err. apply quoted_err. subst. simpl. unfold bare_char in C. lia. }
    erewrite bind_ok; [reflexivity|]. apply complete_ok. unfold unquoted_key, take_while1.
    rewrite span_eq. destruct (take_wh_app is_keychar k r) as [-> ->].
    + destruct K as [_ F]. eapply Forall_impl; [|exact F]. intros. apply bare_keychar; auto.
    + destruct r; auto. rewrite bare_keychar in R. destruct (is_keychar n); congruence.
    + destruct k; [destruct K; congruence|auto].
  - unfold key_p. erewrite alt_ok; [reflexivity|]. erewrite bind_ok; [reflexivity|]. apply complete_ok.
    unfold quoted_key. apply re_find_ok. apply read_quoted; auto.
Qed.

Lemma key_p_err : forall s i, match i with [] => True | c :: _ => c <> 34 /\ ~ bare_char c end ->
  key_p s i = Ok (s, Error).
Proof.
  intros s i H. unfold key_p. erewrite alt_err.
  2:{ apply bind_err, quoted_err. destruct i; simpl; tauto. }
  apply bind_err, complete_err. left. unfold unquoted_key, take_while1. rewrite span_eq.
  destruct i as [|c i]; auto. destruct H as [_ H]. rewrite bare_keychar in H.
  cbn [take_wh]. destruct (is_keychar c); [congruence|auto].
Qed.

Lemma keyval_sep_ok : forall w1 w2 r s, blanks w1 -> blanks w2 -> no_blank r ->
  keyval_sep s (w1 ++ lit "=" ++ w2 ++ r) = Ok (s, Done r {| ws1 := w1; ws2 := w2 |}).
Proof.
  intros. unfold keyval_sep. erewrite bind_ok by (apply ws_ok; auto; simpl; lia).
  erewrite bind_ok by apply tag_ok. erewrite bind_ok by (apply ws_ok; auto). reflexivity.
Qed.

(** ** tables do not start here *)
Lemma table_err : forall s i, head_not 91 i -> table_p s i = Ok (s, Error).
Proof.
  intros s i H. unfold table_p. erewrite alt_err.
  - apply complete_err. unfold std_table. destruct (tag1_err 91 s i H) as (r & E & [-> | ->]).
    + left. apply bind_err; exact E.
    + right. apply bind_inc; exact E.
  - apply complete_err. unfold array_table.
    assert (S : starts_with (lit "[[") i = false).
    { destruct i as [|c i]; auto. simpl in H.
      change (starts_with (lit "[[") (c :: i)) with ((91 =? c) && starts_with (lit "[") i).
      destruct (N.eqb_spec 91 c); [congruence|auto]. }
    destruct (tag_fail _ s i S) as [E|E].
    + left. apply bind_err; exact E.
    + right. apply bind_inc; exact E.
Qed.

Lemma table_comment_err : forall w r s, blanks w -> no_blank r -> head_not 91 r ->
  complete table_comment s (w ++ r) = Ok (s, Error).
Proof.
  intros. apply complete_err. left. unfold table_comment.
  erewrite bind_ok by (apply ws_ok; auto). apply bind_err, table_err; auto.
Qed.

(** ** one line of a document *)

(** the expression read from a line; [n] is the identity of the value's cell *)
Definition item_expr (n : N) (it : item) : expression :=
  match it with
  | Blank w c => {| e_ws := {| ws1 := w; ws2 := [] |}; e_keyval := None; e_table := None; e_comment := c |}
  | Line e => {| e_ws := {| ws1 := e.(en_w0); ws2 := e.(en_w3) |};
                 e_keyval := Some (KeyVal e.(en_key) {| ws1 := e.(en_w1); ws2 := e.(en_w2) |}
                                     (Cell n (tval_of e.(en_val))));
                 e_table := None; e_comment := e.(en_com) |}
  end.

(** reading the line from state [s] ends in state [s'] *)
Definition istep (s : pst) (it : item) (s' : pst) : Prop :=
  forall r, line_start r -> expression_p s (item_text it ++ r) = Ok (s', Done r (item_expr s.(p_next) it)).

Lemma istep_blank : forall s w c, item_ok (Blank w c) -> istep s (Blank w c) s.
Proof.
  intros s w c [W C] r R. cbn [item_text item_expr]. unfold expression_p. rewrite <- app_assoc.
  pose proof (com_no_blank c r R) as NB.
  assert (HH : match com_text c ++ r with [] => True | x :: _ => x = 35 \/ x = 10 \/ x = 13 end).
  { apply line_start_head in R. destruct c; simpl; auto. destruct r; auto. }
  erewrite alt_err.
  2:{ apply table_comment_err; auto. destruct (com_text c ++ r); simpl; auto. lia. }
  erewrite alt_err.
  2:{ apply complete_err. left. unfold keyval_comment. erewrite bind_ok by (apply ws_ok; auto).
      apply bind_err. unfold keyval_p, keyval_p_. apply bind_err, key_p_err.
      destruct (com_text c ++ r); auto. unfold bare_char. lia. }
  destruct c as [c|]; cbn [com_text] in *.
  - apply alt_ok, complete_ok. unfold ws_comment. erewrite bind_ok by (apply ws_ok; auto).
    rewrite <- app_assoc. erewrite bind_ok by (apply comment_ok; auto). reflexivity.
  - erewrite alt_err.
    2:{ apply complete_err. unfold ws_comment. erewrite bind_ok by (apply ws_ok; auto).
        unfold comment. change (lit "#") with [35]. change ([] ++ r) with r in *.
        destruct (tag1_err 35 s r) as (x & E & [-> | ->]).
        - apply line_start_head in R. destruct r; simpl; auto. lia.
        - left. apply bind_err. apply bind_err. exact E.
        - right. apply bind_inc. apply bind_inc. exact E. }
    apply complete_ok. unfold ws_expr. erewrite bind_ok by (apply ws_ok; auto). reflexivity.
Qed.

Lemma blanks_app_head : forall (P : N -> Prop) w r, blanks w -> P 9 -> P 32 ->
  match r with [] => True | c :: _ => P c end -> match w ++ r with [] => True | c :: _ => P c end.
Proof. intros P [|c w] r W A B R; auto. inversion W; subst. simpl. destruct H1; subst; auto. Qed.

Lemma ends_after : forall w c r, blanks w -> line_start r -> ends_value (w ++ com_text c ++ r).
Proof.
  intros w c r W R. unfold ends_value.
  apply (blanks_app_head (fun c => In c [9; 10; 13; 32; 35; 44; 93; 125])); auto; try (simpl; tauto).
  destruct c; simpl; [tauto|]. apply line_start_head in R. destruct r; simpl; auto. intuition.
Qed.

Lemma scalar_no_blank : forall v t r, scalar v t -> no_blank (t ++ r).
Proof.
  intros v t r H. destruct H; try (simpl; lia).
  - destruct H as (sg & b & -> & S & B). rewrite <- app_assoc.
    pose proof (sign_head sg b r S B) as X. destruct (sg ++ b ++ r); simpl; auto. unfold digit in X. lia.
  - destruct H as (sg & b & f & e & -> & S & B & _). rewrite <- !app_assoc.
    pose proof (sign_head sg b (f ++ e ++ r) S B) as X. destruct (sg ++ b ++ f ++ e ++ r); simpl; auto.
    unfold digit in X. lia.
  - destruct H as ([([Y L] & _) _] & _). unfold datetime_src. destruct (d_year (dt_date d)); [discriminate|].
    inversion Y; subst. simpl. unfold digit in *. lia.
Qed.

(** a value after `key =`, given how the value parser reads it *)
Lemma keyval_read : forall k w1 w2 t r s s1 c s2,
  key_name k -> blanks w1 -> blanks w2 -> no_blank (t ++ r) ->
  val_p (push_key (KStr k) s) (t ++ r) = Ok (s1, Done r c) ->
  s1.(p_array_error) = false -> insert_keyval_into_map s1 c = Ok s2 ->
  keyval_p s (k ++ w1 ++ lit "=" ++ w2 ++ t ++ r) =
  Ok (pop_key s2, Done r (KeyVal k {| ws1 := w1; ws2 := w2 |} c)).
Proof.
  intros k w1 w2 t r s s1 c s2 K W1 W2 NB V AE I. unfold keyval_p, keyval_p_.
  erewrite bind_ok.
  2:{ apply key_p_bare; auto.
      apply (blanks_app_head (fun c => ~ bare_char c)); auto; unfold bare_char; simpl; lia. }
  erewrite bind_ok by (apply keyval_sep_ok; auto).
  erewrite bind_ok by exact V. unfold act, keyval_act. rewrite AE, I. reflexivity.
Qed.

Lemma line_read : forall w0 k w1 w2 t w3 c r s s1 cl s2,
  blanks w0 -> key_name k -> blanks w1 -> blanks w2 -> blanks w3 -> com_ok c -> line_start r ->
  (forall r', no_blank (t ++ r')) ->
  (forall r', ends_value r' -> val_p (push_key (KStr k) s) (t ++ r') = Ok (s1, Done r' cl)) ->
  s1.(p_array_error) = false -> insert_keyval_into_map s1 cl = Ok s2 ->
  expression_p s ((w0 ++ k ++ w1 ++ lit "=" ++ w2 ++ t ++ w3 ++ com_text c) ++ r) =
  Ok (pop_key s2, Done r {| e_ws := {| ws1 := w0; ws2 := w3 |};
         e_keyval := Some (KeyVal k {| ws1 := w1; ws2 := w2 |} cl); e_table := None; e_comment := c |}).
Proof.
  intros w0 k w1 w2 t w3 c r s s1 cl s2 W0 K W1 W2 W3 C R NB V AE I.
  rewrite <- !app_assoc. pose proof (key_head k K) as (a & b & E & A).
  assert (NB0 : forall x, no_blank (k ++ x)).
  { intros. subst. simpl. unfold bare_char in A. lia. }
  unfold expression_p. erewrite alt_err.
  2:{ apply table_comment_err; auto. subst. simpl. unfold bare_char in A. lia. }
  apply alt_ok, complete_ok. unfold keyval_comment. erewrite bind_ok by (apply ws_ok; auto).
  erewrite bind_ok.
  2:{ eapply keyval_read; eauto. apply V. apply ends_after; auto. }
  erewrite bind_ok by (apply ws_ok; auto; apply com_no_blank; auto).
  erewrite bind_ok by (apply opt_comment; auto). reflexivity.
Qed.

Lemma istep_line : forall s e s2, entry_ok e -> s.(p_array_error) = false ->
  insert_keyval_into_map (after_scalar e.(en_text) (push_key (KStr e.(en_key)) s))
    (Cell s.(p_next) (tval_of e.(en_val))) = Ok s2 ->
  istep s (Line e) (pop_key s2).
Proof.
  intros s e s2 (W0 & K & W1 & W2 & V & W3 & C) AE I r R.
  cbn [item_text item_expr]. unfold entry_text.
  eapply line_read with (s1 := after_scalar e.(en_text) (push_key (KStr e.(en_key)) s)); eauto.
  - intros. eapply scalar_no_blank; eauto.
  - intros. apply (val_p_scalar _ _ r' (push_key (KStr (en_key e)) s) V); auto.
Qed.

(** ** the lines of a document *)

(** the lines after the first, from state [s] to state [s'] *)
Inductive isteps : pst -> list (str * item) -> pst -> toml -> Prop :=
| IS_nil : forall s, isteps s [] s []
| IS_cons : forall s nl it l s1 s2 es,
    istep (add_lines 1 s) it s1 -> isteps s1 l s2 es ->
    isteps s ((nl, it) :: l) s2 ({| ne_nl := nl; ne_expr := item_expr s.(p_next) it |} :: es).

Lemma newline_ok : forall nl r s, line_end nl -> newline s (nl ++ r) = Ok (add_lines 1 s, Done r nl).
Proof.
  intros nl r s [->| ->]; unfold newline.
  - erewrite alt_err by (apply bind_err, ctag_fail; reflexivity).
    erewrite bind_ok by apply ctag_ok. reflexivity.
  - apply alt_ok. erewrite bind_ok by apply ctag_ok. reflexivity.
Qed.

Lemma rest_start : forall l, rest_ok l -> line_start (rest_text l).
Proof.
  intros [|[nl it] l] H; [left; auto|]. inversion H; subst. destruct H2 as [H2 _].
  right. exists nl. eexists. split; auto. unfold rest_text. simpl. rewrite <- app_assoc. reflexivity.
Qed.

Lemma line_end_length : forall nl, line_end nl -> (0 < length nl)%nat.
Proof. intros nl [->| ->]; simpl; lia. Qed.

Lemma isteps_loop : forall s l s' es, isteps s l s' es -> rest_ok l ->
  forall n, (length (rest_text l) < n)%nat ->
  many_loop n nl_expression_p s (rest_text l) = Ok (s', Done [] es).
Proof.
  induction 1; intros OK n L.
  - destruct n; [simpl in L; lia|]. reflexivity.
  - inversion OK; subst. destruct H3 as [NL IT]. cbn [fst snd] in *.
    destruct n as [|n]; [lia|]. cbn [many_loop].
    assert (E : rest_text ((nl, it) :: l) = nl ++ item_text it ++ rest_text l)
      by (unfold rest_text; simpl; rewrite <- app_assoc; auto).
    rewrite E in *. rewrite !app_length in L. pose proof (line_end_length nl NL).
    destruct (nl ++ item_text it ++ rest_text l) as [|c x] eqn:F.
    { apply (f_equal (@length N)) in F. rewrite app_length in F. simpl in F. lia. }
    rewrite <- F. unfold nl_expression_p at 1. erewrite bind_ok by (apply newline_ok; auto).
    erewrite bind_ok by (apply H, rest_start; auto). cbn [rbind ret].
    assert (Nat.eqb (length (rest_text l)) (length (nl ++ item_text it ++ rest_text l)) = false) as ->.
    { apply Nat.eqb_neq. rewrite !app_length. lia. }
    rewrite IHisteps by (auto; lia). reflexivity.
Qed.

Lemma doc_read : forall s it l s1 s2 es, doc_ok it l -> istep s it s1 -> isteps s1 l s2 es ->
  toml_p s (doc_text it l) =
  Ok (s2, Done [] ({| ne_nl := []; ne_expr := item_expr s.(p_next) it |} :: es)).
Proof.
  intros s it l s1 s2 es [I R] H H0. unfold toml_p, doc_text.
  erewrite bind_ok by (apply H, rest_start; auto).
  erewrite bind_ok; [reflexivity|]. apply isteps_loop; auto.
Qed.
