(** Every parser reads exactly the source text of the tree it returns, and the
    printers write that source text. *)
From Coq Require Import Lia ZifyBool ZifyNat ZifyN.
From Verif Require Import Str Regex Types Ast State Nom Keys Grammar Api Facts Spec.
From Verif Require Import RegexFacts NomFacts TypesFacts DateFacts CtorFacts NumFacts StringFacts ScalarFacts LineFacts.

(** ** Induction over values *)
Definition tval_ind' (Q : tval -> Prop)
  (Hint : forall s, Q (TInteger s)) (Hfloat : forall s, Q (TFloat s))
  (Hbool : forall b, Q (TBoolean b)) (Hdate : forall d, Q (TDateTime d))
  (Harr : forall vals n1 n2, Forall (fun av => Q av.(av_val).(c_val)) vals -> Q (TArray vals n1 n2))
  (Hstr : forall s t, Q (TString s t))
  (Hinl : forall kvs ws, Forall (fun tk => Q tk.(tk_kv).(kv_val).(c_val)) kvs -> Q (TInlineTable kvs ws))
  (Htab : Q TTable) : forall v, Q v :=
  fix rec (v : tval) : Q v :=
    match v with
    | TInteger s => Hint s
    | TFloat s => Hfloat s
    | TBoolean b => Hbool b
    | TDateTime d => Hdate d
    | TArray vals n1 n2 => Harr vals n1 n2
        ((fix go (l : list array_value) : Forall (fun av => Q av.(av_val).(c_val)) l :=
           match l with
           | [] => Forall_nil _
           | x :: l' => Forall_cons x (rec x.(av_val).(c_val)) (go l')
           end) vals)
    | TString s t => Hstr s t
    | TInlineTable kvs ws => Hinl kvs ws
        ((fix go (l : list table_keyval) : Forall (fun tk => Q tk.(tk_kv).(kv_val).(c_val)) l :=
           match l with
           | [] => Forall_nil _
           | x :: l' => Forall_cons x (rec x.(tk_kv).(kv_val).(c_val)) (go l')
           end) kvs)
    | TTable => Htab
    end.

(** ** Source text of a tree (total, unlike the printers) *)
Definition sep_src (f : tval -> str) (kv : keyval) : str :=
  kv.(kv_key) ++ kv.(kv_sep).(ws1) ++ lit "=" ++ kv.(kv_sep).(ws2) ++ f kv.(kv_val).(c_val).
Definition av_src_ (f : tval -> str) (av : array_value) : str :=
  f av.(av_val).(c_val) ++ show_sep av.(av_sep) ++ show_cons av.(av_nls).
Definition tk_src_ (f : tval -> str) (tk : table_keyval) : str :=
  sep_src f tk.(tk_kv) ++ show_sep tk.(tk_sep) ++ show_cons tk.(tk_nls).

Fixpoint tsrc (v : tval) : str :=
  match v with
  | TInteger s | TFloat s => s
  | TBoolean b => show_bool b
  | TDateTime d => show_datetime d
  | TArray vals n1 n2 =>
      lit "[" ++ show_cons n1 ++ concat (map (av_src_ tsrc) vals) ++ show_cons n2 ++ lit "]"
  | TString s t => show_string s t
  | TInlineTable kvs w => lit "{" ++ w.(ws1) ++ concat (map (tk_src_ tsrc) kvs) ++ w.(ws2) ++ lit "}"
  | TTable => lit "$Table"
  end.

Definition av_src := av_src_ tsrc.
Definition tk_src := tk_src_ tsrc.
Definition kv_src := sep_src tsrc.

Definition com_src (o : option str) : str := match o with Some c => show_comment c | None => [] end.
Definition ex_src (e : expression) : str :=
  e.(e_ws).(ws1) ++
  (match e.(e_keyval) with Some kv => kv_src kv | None => [] end) ++
  (match e.(e_table) with Some t => show_table_type t | None => [] end) ++
  e.(e_ws).(ws2) ++ com_src e.(e_comment).
Definition ne_src (e : nl_expression) : str := e.(ne_nl) ++ ex_src e.(ne_expr).
Definition toml_src (t : toml) : str := concat (map ne_src t).

(** ** Reading *)
Definition reads {A} (p : P A) (src : A -> str) : Prop :=
  forall s i s' r a, p s i = Ok (s', Done r a) -> i = src a ++ r.

Lemma reads_complete : forall A (p : P A) f, reads p f -> reads (complete p) f.
Proof. intros A p f H s i s' r a E. apply complete_done in E. eauto. Qed.

Lemma reads_alt : forall A (p q : P A) f, reads p f -> reads q f -> reads (alt p q) f.
Proof. intros A p q f H H2 s i s' r a E. apply alt_done in E as [E|(s1 & _ & E)]; eauto. Qed.

Definition opt_src {A} (f : A -> str) (o : option A) : str := match o with Some a => f a | None => [] end.
Lemma reads_opt : forall A (p : P A) f, reads p f -> reads (opt p) (opt_src f).
Proof. intros A p f H s i s' r a E. apply opt_done in E as [(x & -> & E)|(-> & -> & E)]; simpl; eauto. Qed.

Lemma reads_tag : forall t, reads (tag t) (fun x => x).
Proof. intros t s i s' r a E. apply tag_done in E as (_ & -> & E). auto. Qed.
Lemma tag_reads : forall t s i s' r a, tag t s i = Ok (s', Done r a) -> i = t ++ r.
Proof. intros t s i s' r a E. apply tag_done in E as (_ & -> & E). auto. Qed.
Lemma reads_re : forall re, reads (re_find re) (fun x => x).
Proof. intros t s i s' r a E. apply re_find_done in E as (_ & E & _). auto. Qed.
Lemma reads_tw : forall f, reads (take_while f) (fun x => x).
Proof. intros f s i s' r a E. apply take_while_done in E as (_ & E & _). auto. Qed.
Lemma reads_tw1 : forall f, reads (take_while1 f) (fun x => x).
Proof. intros f s i s' r a E. apply take_while1_done in E as (_ & E & _). auto. Qed.
Lemma reads_ws : reads ws (fun x => x).
Proof. apply reads_re. Qed.

Lemma reads_many : forall A (p : P A) f, reads p f ->
  forall n s i s' r l, many_loop n p s i = Ok (s', Done r l) -> i = concat (map f l) ++ r.
Proof.
  intros A p f H. induction n; intros s i s' r l E; [discriminate|].
  cbn [many_loop] in E. destruct i as [|c i]; [inversion E; auto|].
  apply rbind_ok in E as ([s1 r1] & E1 & E). destruct r1 as [i1 a| |]; try (inversion E; subst; auto; fail).
  destruct (Nat.eqb _ _); [inversion E; subst; auto|].
  apply rbind_ok in E as ([s2 r2] & E2 & E). destruct r2 as [i2 l2| |]; inversion E; subst.
  apply H in E1. apply IHn in E2. rewrite E1, E2. cbn [map concat]. rewrite app_assoc. auto.
Qed.

Lemma reads_many0 : forall A (p : P A) f, reads p f -> reads (many0 p) (fun l => concat (map f l)).
Proof. intros A p f H s i s' r a E. eapply reads_many; eauto. Qed.

Lemma reads_many1 : forall A (p : P A) f, reads p f -> reads (many1 p) (fun l => concat (map f l)).
Proof.
  intros A p f H s i s' r a E. unfold many1 in E. apply rbind_ok in E as ([s1 r1] & E1 & E).
  destruct r1 as [i1 x| |]; try discriminate.
  apply rbind_ok in E as ([s2 r2] & E2 & E). destruct r2 as [i2 l2| |]; inversion E; subst.
  apply H in E1. eapply reads_many in E2; [|eauto]. rewrite E1, E2. cbn [map concat]. rewrite app_assoc. auto.
Qed.

Create HintDb reads.
#[global] Hint Resolve reads_complete reads_alt reads_opt reads_tag reads_re reads_tw reads_tw1 reads_ws
  reads_many0 reads_many1 : reads.

(** decompose a success into the texts of its parts *)
Ltac rd1 :=
  match goal with
  | H : bind _ _ _ _ = Ok (_, Done _ _) |- _ =>
      apply bind_done in H; destruct H as (?s & ?i & ?a & ?H & ?H)
  | H : pmap _ _ _ _ = Ok (_, Done _ _) |- _ =>
      apply pmap_done in H; destruct H as (?a & ?H & ->)
  | H : complete _ _ _ = Ok (_, Done _ _) |- _ => apply complete_done in H
  | H : ret _ _ _ = Ok (_, Done _ _) |- _ => apply ret_done in H; destruct H as (-> & -> & ->)
  | H : act _ _ _ = Ok (_, Done _ _) |- _ => apply act_done in H; destruct H as (-> & ?H)
  | H : tag _ _ _ = Ok (_, Done _ _) |- _ => apply tag_done in H; destruct H as (-> & -> & ->)
  end.
Ltac rd2 :=
  match goal with
  | H : ?p ?s ?i = Ok (_, Done ?r ?a) |- _ =>
      let R := fresh "R" in
      eassert (R : reads p _) by (eauto with reads); apply R in H; clear R;
      try (subst i)
  end.
Ltac rd := repeat rd1; repeat rd2; cbv beta in *; subst.
Ltac assoc := repeat (rewrite <- ?app_assoc; cbn [app]).

Lemma reads_newline : reads newline (fun x => x).
Proof.
  apply reads_alt; intros s i s' r a E; apply bind_done in E as (s1 & i1 & x & E1 & E);
    apply complete_done in E1; apply tag_done in E1 as (-> & -> & ->);
    apply act_done in E as [-> E]; inversion E; subst; auto.
Qed.

Lemma reads_comment : reads comment show_comment.
Proof.
  intros s i s' r a E. unfold comment in E. rd. unfold show_comment. auto.
Qed.

(** *** scalars *)
Lemma lang_seq : forall a b m, lang (RSeq a b) m -> exists x y, m = x ++ y /\ lang a x /\ lang b y.
Proof. intros a b m L. inversion L; subst. eauto. Qed.
Lemma lang_chr : forall q m, lang (RChr q) m -> m = [q].
Proof. intros q m L. inversion L; subst. simpl in H0. f_equal. lia. Qed.
Lemma lang_str : forall q m, lang (RStr q) m -> m = q.
Proof.
  induction q; intros m L; [inversion L; auto|]. cbn [RStr] in L.
  apply lang_seq in L as (x & y & -> & X & Y). apply lang_chr in X. apply IHq in Y. subst. auto.
Qed.

Lemma lang_delim : forall q b m, lang (RSeq (RStr q) (RSeq b (RStr q))) m ->
  exists x, m = q ++ x ++ q.
Proof.
  intros q b m L. apply lang_seq in L as (x & y & -> & X & Y). apply lang_seq in Y as (y1 & z & -> & Y & Z).
  apply lang_str in X. apply lang_str in Z. subst. eauto.
Qed.

Lemma lang_delim1 : forall q b m, lang (RSeq (RChr q) (RSeq b (RChr q))) m ->
  exists x, m = [q] ++ x ++ [q].
Proof.
  intros q b m L. apply lang_seq in L as (x & y & -> & X & Y). apply lang_seq in Y as (y1 & z & -> & Y & Z).
  apply lang_chr in X. apply lang_chr in Z. subst. eauto.
Qed.

Definition str_src (t : str_type) (x : str) : str := show_string x t.

Lemma reads_basic : reads basic_string_p (str_src SBasic).
Proof.
  intros s i s' r a E. unfold basic_string_p in E. apply pmap_done in E as (x & E & ->).
  apply re_find_done in E as (_ & -> & L). apply lang_delim1 in L as (y & ->).
  replace (strip 1 ([34] ++ y ++ [34])) with y by (symmetry; exact (strip_ok [34] y)). reflexivity.
Qed.
Lemma reads_literal : reads literal_string_p (str_src SLiteral).
Proof.
  intros s i s' r a E. unfold literal_string_p in E. apply pmap_done in E as (x & E & ->).
  apply re_find_done in E as (_ & -> & L). apply lang_delim1 in L as (y & ->).
  replace (strip 1 ([39] ++ y ++ [39])) with y by (symmetry; exact (strip_ok [39] y)). reflexivity.
Qed.
Lemma reads_ml_basic : reads ml_basic_string_p (str_src SMLBasic).
Proof.
  intros s i s' r a E. unfold ml_basic_string_p in E. apply pmap_done in E as (x & E & ->).
  unfold raw_ml_basic_string in E. apply bind_done in E as (s1 & i1 & y & E1 & E).
  apply re_find_done in E1 as (_ & -> & L). apply lang_delim in L as (z & ->).
  apply act_done in E as (-> & E). inversion E; subst.
  replace (strip 3 (34 :: 34 :: 34 :: z ++ [34;34;34])) with z by (symmetry; exact (strip_ok [34;34;34] z)). reflexivity.
Qed.
Lemma reads_ml_literal : reads ml_literal_string_p (str_src SMLLiteral).
Proof.
  intros s i s' r a E. unfold ml_literal_string_p in E. apply pmap_done in E as (x & E & ->).
  unfold raw_ml_literal_string in E. apply bind_done in E as (s1 & i1 & y & E1 & E).
  apply re_find_done in E1 as (_ & -> & L). apply lang_delim in L as (z & ->).
  apply act_done in E as (-> & E). inversion E; subst.
  replace (strip 3 (39 :: 39 :: 39 :: z ++ [39;39;39])) with z by (symmetry; exact (strip_ok [39;39;39] z)). reflexivity.
Qed.
#[global] Hint Resolve reads_newline reads_comment reads_basic reads_literal reads_ml_basic reads_ml_literal : reads.

Lemma reads_string : reads string_p tsrc.
Proof.
  unfold string_p. repeat apply reads_alt; intros s i s' r a E; rd; reflexivity.
Qed.

Lemma reads_boolean : reads boolean show_bool.
Proof.
  unfold boolean. repeat apply reads_alt; intros s i s' r a E; rd; reflexivity.
Qed.

Lemma reads_date_time : reads date_time show_datetime.
Proof.
  intros s i s' r a E. unfold date_time in E. apply rbind_ok in E as ([s1 r1] & E1 & E).
  destruct r1 as [rest o| |]; try (inversion E; fail). apply dti_done in E1 as (-> & -> & _).
  destruct (datetime_validate o); [inversion E; subst; auto|].
  apply rbind_ok in E as ([[x y] z] & _ & E). inversion E; subst; auto.
Qed.

Lemma reads_key : reads key_p (fun x => x).
Proof.
  unfold key_p. apply reads_alt; intros s i s' r a E; apply bind_done in E as (s1 & i1 & x & E1 & E);
    apply act_done in E as (-> & E); inversion E; subst; apply complete_done in E1.
  - apply reads_re in E1; auto.
  - apply reads_tw1 in E1; auto.
Qed.

Definition eq_src (w : wssep) : str := w.(ws1) ++ lit "=" ++ w.(ws2).
Lemma reads_keyval_sep : reads keyval_sep eq_src.
Proof. intros s i s' r a E. unfold keyval_sep in E. rd. unfold eq_src. cbn [ws1 ws2]. assoc. reflexivity. Qed.

Definition comma_src (w : wssep) : str := w.(ws1) ++ lit "," ++ w.(ws2).
Lemma reads_array_sep : reads array_sep comma_src.
Proof. intros s i s' r a E. unfold array_sep in E. rd. unfold comma_src. cbn [ws1 ws2]. assoc. reflexivity. Qed.

Lemma reads_ws_newline : reads ws_newline (fun x => x).
Proof. apply reads_re. Qed.
#[global] Hint Resolve reads_string reads_boolean reads_date_time reads_key reads_keyval_sep reads_array_sep
  reads_ws_newline : reads.

Lemma reads_comment_nl : reads comment_nl (fun c => show_con (CComment c)).
Proof.
  intros s i s' r a E. unfold comment_nl in E. rd. unfold show_con. cbn [cn_pre cn_comment cn_newlines].
  assoc. reflexivity.
Qed.
#[global] Hint Resolve reads_comment_nl : reads.
Lemma reads_comment_or_nl : reads comment_or_nl show_con.
Proof. unfold comment_or_nl. apply reads_alt; intros s i s' r a E; rd; reflexivity. Qed.
#[global] Hint Resolve reads_comment_or_nl : reads.
Lemma reads_comment_or_nls : reads comment_or_nls show_cons.
Proof. apply reads_many1. apply reads_comment_or_nl. Qed.
#[global] Hint Resolve reads_comment_or_nls : reads.

Lemma opt_comma : forall o, opt_src comma_src o = show_sep o.
Proof. intros [w|]; reflexivity. Qed.

(** *** values *)
Definition cell_src (c : cell) : str := tsrc c.(c_val).

Lemma array_value_act_same : forall v sep nls s s' a,
  array_value_act v sep nls s = Ok (s', a) -> a = ArrayValue v sep nls.
Proof.
  intros v sep nls s s' a H. unfold array_value_act in H.
  apply rbind_ok in H as (t & _ & H). apply rbind_ok in H as (s1 & _ & H).
  apply rbind_ok in H as (s2 & _ & H). destruct (nth_error _ _); inversion H; auto.
Qed.
Lemma keyval_act_same : forall k sep v s s' a, keyval_act k sep v s = Ok (s', a) -> a = KeyVal k sep v.
Proof.
  intros k sep v s s' a H. unfold keyval_act in H. apply rbind_ok in H as (t & _ & H). inversion H; auto.
Qed.

Section Reads.
  Variable pval : P cell.
  Hypothesis PV : reads pval cell_src.

  Lemma reads_array_value : reads (array_value_ pval) av_src.
  Proof.
    intros s i s' r a E. unfold array_value_ in E. rd.
    match goal with H : array_value_act _ _ _ _ = _ |- _ => apply array_value_act_same in H; subst end.
    rewrite opt_comma.
    unfold av_src, av_src_, cell_src. cbn [av_val av_sep av_nls]. assoc. reflexivity.
  Qed.

  Lemma reads_array : reads (array_ pval) tsrc.
  Proof.
    intros s i s' r a E. unfold array_ in E. apply rbind_ok in E as ([s1 r1] & E1 & E). inversion E; subst.
    pose proof reads_array_value as RA. unfold array_internal_, array_values_ in E1. rd.
    cbn [tsrc]. fold av_src. assoc. reflexivity.
  Qed.

  Lemma reads_keyval : reads (keyval_p_ pval) kv_src.
  Proof.
    intros s i s' r a E. unfold keyval_p_ in E. rd.
    match goal with H : keyval_act _ _ _ _ = _ |- _ => apply keyval_act_same in H; subst end.
    unfold kv_src, sep_src, cell_src, eq_src. cbn [kv_key kv_sep kv_val]. assoc. reflexivity.
  Qed.

  Lemma reads_table_keyval : reads (table_keyval_p_ pval) tk_src.
  Proof.
    pose proof reads_keyval as RK. intros s i s' r a E. unfold table_keyval_p_ in E. rd.
    rewrite opt_comma. unfold tk_src, tk_src_. cbn [tk_kv tk_sep tk_nls]. fold kv_src. assoc. reflexivity.
  Qed.

  Lemma reads_inline : reads (inline_table_ pval) tsrc.
  Proof.
    pose proof reads_table_keyval as RT. intros s i s' r a E.
    unfold inline_table_, inline_table_keyvals_ in E. rd.
    cbn [tsrc ws1 ws2]. fold tk_src. unfold opt_src.
    match goal with |- context [match ?o with Some _ => _ | None => _ end] => destruct o end; assoc; reflexivity.
  Qed.

  Lemma reads_pcell : forall A (p : P A) f, reads p (fun a => tsrc (f a)) -> reads (pcell p f) cell_src.
  Proof.
    intros A p f H s i s' r a E. unfold pcell in E. apply bind_done in E as (s1 & i1 & x & E1 & E).
    apply act_done in E as (-> & E). inversion E; subst. apply complete_done in E1. apply H in E1. exact E1.
  Qed.

  Lemma reads_val_ : reads (val_ pval) cell_src.
  Proof.
    unfold val_. repeat apply reads_alt; apply reads_pcell; cbn [tsrc].
    - apply reads_array.
    - apply reads_inline.
    - apply reads_date_time.
    - apply reads_re.
    - apply reads_re.
    - apply reads_boolean.
    - apply reads_string.
  Qed.
End Reads.

Lemma reads_val : forall f, reads (val f) cell_src.
Proof. induction f; cbn [val]; [intros s i s' r a H; discriminate|apply reads_val_; auto]. Qed.
Lemma reads_val_p : reads val_p cell_src.
Proof. intros s i s' r a E. eapply reads_val; eauto. Qed.
Lemma reads_keyval_p : reads keyval_p kv_src.
Proof. apply reads_keyval. apply reads_val_p. Qed.

(** *** tables and documents *)
Lemma reads_table_subkey : reads table_subkey show_wskey.
Proof.
  intros s i s' r a E. unfold table_subkey in E. rd. unfold show_wskey. cbn [wk_ws wk_key ws1 ws2].
  assoc. reflexivity.
Qed.
#[global] Hint Resolve reads_keyval_p reads_table_subkey : reads.

Lemma std_table_act_same : forall w1 w2 k l s s' t, std_table_act w1 w2 k l s = Ok (s', t) ->
  t = TStandard (table_new {| ws1 := w1; ws2 := w2 |} k l).
Proof.
  intros w1 w2 k l s s' t H. unfold std_table_act in H. apply rbind_ok in H as (s1 & _ & H).
  match type of H with (let '(_, _) := ?x in _) = _ => destruct x as [ts ti] end.
  match type of H with (let '(_, _) := ?x in _) = _ => destruct x as [ts2 ti2] end.
  apply rbind_ok in H as ([[e tk] pk] & _ & H). destruct e.
  - apply rbind_ok in H as ([[x y] z] & _ & H). inversion H; auto.
  - apply rbind_ok in H as (m & _ & H). apply rbind_ok in H as (m2 & _ & H).
    unfold new_cell in H. apply rbind_ok in H as (m3 & _ & H). inversion H; auto.
Qed.

Lemma array_table_act_same : forall w1 w2 k l s s' t, array_table_act w1 w2 k l s = Ok (s', t) ->
  t = TArrayOf (table_new {| ws1 := w1; ws2 := w2 |} k l).
Proof.
  intros w1 w2 k l s s' t H. unfold array_table_act in H. apply rbind_ok in H as (s1 & _ & H).
  match type of H with (let '(_, _) := ?x in _) = _ => destruct x as [ts ti] end.
  apply rbind_ok in H as ([[m ts2] ti2] & _ & H).
  apply rbind_ok in H as ([[v fk] pk] & _ & H). destruct v; inversion H; auto.
Qed.

Lemma reads_table : reads table_p show_table_type.
Proof.
  unfold table_p. apply reads_alt; apply reads_complete; intros s i s' r a E.
  - unfold array_table, table_subkeys in E. rd.
    match goal with H : array_table_act _ _ _ _ _ = _ |- _ => apply array_table_act_same in H; subst end.
    unfold show_table_type, table_new, show_table. cbn [wk_ws wk_key ws1 ws2].
    assoc. reflexivity.
  - unfold std_table, table_subkeys in E. rd.
    match goal with H : std_table_act _ _ _ _ _ = _ |- _ => apply std_table_act_same in H; subst end.
    unfold show_table_type, table_new, show_table. cbn [wk_ws wk_key ws1 ws2]. assoc. reflexivity.
Qed.
#[global] Hint Resolve reads_table : reads.

Lemma com_opt : forall o, opt_src show_comment o = com_src o.
Proof. destruct o; auto. Qed.

Lemma reads_expression : reads expression_p ex_src.
Proof.
  unfold expression_p. repeat apply reads_alt; apply reads_complete; intros s i s' r a E.
  - unfold table_comment in E. rd. rewrite com_opt. unfold ex_src. cbn [e_ws e_keyval e_table e_comment ws1 ws2].
    assoc. reflexivity.
  - unfold keyval_comment in E. rd. rewrite com_opt. unfold ex_src. cbn [e_ws e_keyval e_table e_comment ws1 ws2].
    assoc. reflexivity.
  - unfold ws_comment in E. rd. unfold ex_src. cbn [e_ws e_keyval e_table e_comment ws1 ws2 com_src].
    assoc. reflexivity.
  - unfold ws_expr in E. rd. unfold ex_src. cbn [e_ws e_keyval e_table e_comment ws1 ws2 com_src].
    assoc. reflexivity.
Qed.
#[global] Hint Resolve reads_expression : reads.

Lemma reads_nl_expression : reads nl_expression_p ne_src.
Proof.
  intros s i s' r a E. unfold nl_expression_p in E. rd. unfold ne_src. cbn [ne_nl ne_expr]. assoc. reflexivity.
Qed.
#[global] Hint Resolve reads_nl_expression : reads.

Lemma reads_toml : reads toml_p toml_src.
Proof.
  intros s i s' r a E. unfold toml_p, nl_expressions in E. rd. unfold toml_src. cbn [map concat].
  unfold ne_src at 2. cbn [ne_nl ne_expr app]. assoc. reflexivity.
Qed.
