(** Proofs about the comparisons. *)
From Coq Require Import Lia.
From Verif Require Import Str Types Ast Facts CtorFacts RoundTrip Equal EqualSpec.

Lemma vec_iff : forall A B (f : A -> A -> bool) (g : A -> B) l, Forall (fun x => forall y, f x y = true <-> g x = g y) l ->
  forall m, vec_eqb f l m = true <-> map g l = map g m.
Proof.
  intros A B f g l F. induction F as [|x l H F IH]; intros [|y m]; cbn [vec_eqb map]; try (split; [discriminate|intros Q; discriminate Q]); [tauto|].
  rewrite andb_true_iff, H, IH. split; [intros [-> ->]; auto|intros Q; injection Q; auto].
Qed.
Lemma vec_same : forall A (f : A -> A -> bool), (forall x y, f x y = true <-> x = y) -> forall l m, vec_eqb f l m = true <-> l = m.
Proof.
  intros A f H l m. rewrite (vec_iff A A f (fun x => x) l); [rewrite !map_id; tauto|]. apply Forall_forall. auto.
Qed.
Lemma opt_iff : forall A B (f : A -> A -> bool) (g : A -> B), (forall x y, f x y = true <-> g x = g y) ->
  forall a b, opt_eqb f a b = true <-> option_map g a = option_map g b.
Proof.
  intros A B f g H [x|] [y|]; cbn [opt_eqb option_map]; try (split; [discriminate|intros Q; discriminate Q]); [|tauto].
  rewrite H. split; [intros ->; auto|intros Q; injection Q; auto].
Qed.
Lemma opt_same : forall A (f : A -> A -> bool), (forall x y, f x y = true <-> x = y) -> forall l m, opt_eqb f l m = true <-> l = m.
Proof.
  intros A f H [x|] [y|]; cbn [opt_eqb]; try (split; [discriminate|intros Q; discriminate Q]); [|tauto].
  rewrite H. split; [intros ->; auto|intros Q; injection Q; auto].
Qed.
Lemma comp_opt_eq : forall A (f : A -> A -> bool) a b, comp_opt f a b = opt_eqb f a b.
Proof. intros A f [x|] [y|]; cbn [comp_opt opt_eqb]; auto. destruct (f x y); auto. Qed.
Lemma flag_iff : forall a b, flag_eqb a b = true <-> a = b.
Proof. intros [] []; split; auto; discriminate. Qed.
Lemma pn_iff : forall a b, pos_neg_eqb a b = true <-> a = b.
Proof. intros [] []; split; auto; discriminate. Qed.
Lemma st_iff : forall a b, str_type_eqb a b = true <-> a = b.
Proof. intros [] []; split; auto; discriminate. Qed.

Lemma toa_iff : forall a b, toa_eqb a b = true <-> a = b.
Proof.
  intros [a1 a2 a3] [b1 b2 b3]. unfold toa_eqb. cbn [toa_pn toa_hour toa_minute]. rewrite !andb_true_iff, pn_iff, !str_eqb_eq.
  split; [intros [[-> ->] ->]; auto|intros Q; injection Q as -> -> ->; auto].
Qed.
Lemma off_iff : forall a b, time_offset_eqb a b = true <-> a = b.
Proof.
  intros [|x] [|y]; cbn [time_offset_eqb]; try (split; [discriminate|intros Q; discriminate Q]); [tauto|]. rewrite toa_iff. split; congruence.
Qed.
Lemma date_iff : forall a b, date_eqb a b = true <-> a = b.
Proof.
  intros [a1 a2 a3] [b1 b2 b3]. unfold date_eqb. cbn [d_year d_month d_day]. rewrite !andb_true_iff, !str_eqb_eq.
  split; [intros [[-> ->] ->]; auto|intros Q; injection Q as -> -> ->; auto].
Qed.
Lemma time_iff : forall a b, time_eqb a b = true <-> a = b.
Proof.
  intros [a1 a2 a3 a4 a5] [b1 b2 b3 b4 b5]. unfold time_eqb. cbn [t_hour t_minute t_second t_fraction t_offset].
  rewrite !andb_true_iff, !str_eqb_eq, (opt_same _ _ str_eqb_eq), (opt_same _ _ off_iff).
  split; [intros [[[[-> ->] ->] ->] ->]; auto|intros Q; injection Q as -> -> -> -> ->; auto].
Qed.
Lemma datetime_iff : forall a b, datetime_eqb a b = true <-> a = b.
Proof.
  intros [a1 a2] [b1 b2]. unfold datetime_eqb. cbn [dt_date dt_time]. rewrite andb_true_iff, date_iff, (opt_same _ _ time_iff).
  split; [intros [-> ->]; auto|intros Q; injection Q as -> ->; auto].
Qed.
Lemma value_iff : forall a b, value_eqb a b = true <-> a = b.
Proof.
  induction a using value_ind'; intros []; cbn [value_eqb]; try (split; [discriminate|intros Q; discriminate Q]).
  - rewrite str_eqb_eq. split; congruence.
  - rewrite str_eqb_eq. split; congruence.
  - rewrite flag_iff. split; congruence.
  - rewrite datetime_iff. split; congruence.
  - rewrite andb_true_iff, str_eqb_eq, st_iff. split; [intros [-> ->]; auto|intros Q; injection Q; auto].
  - rewrite (vec_iff _ _ value_eqb (fun x => x)), !map_id by auto. split; congruence.
  - rewrite (vec_iff _ _ _ (fun x => x)), !map_id.
    + split; congruence.
    + apply Forall_impl with (2 := H). intros [k x] E [k2 y]. cbn [fst snd] in *. rewrite andb_true_iff, str_eqb_eq, E.
      split; [intros [-> ->]; auto|intros Q; injection Q; auto].
Qed.
Lemma children_iff : forall a b, children_eqb a b = true <-> a = b.
Proof.
  intros [] []; cbn [children_eqb]; try (split; [discriminate|intros Q; discriminate Q]).
  - rewrite N.eqb_eq. split; congruence.
  - rewrite (vec_same _ _ str_eqb_eq). split; congruence.
Qed.

(** ** Syntax trees *)
Lemma ws_iff : forall a b, wssep_eqb a b = true <-> a = b.
Proof.
  intros [a1 a2] [b1 b2]. unfold wssep_eqb. cbn [ws1 ws2]. rewrite andb_true_iff, !str_eqb_eq.
  split; [intros [-> ->]; auto|intros Q; injection Q as -> ->; auto].
Qed.
Lemma con_iff : forall a b, con_eqb a b = true <-> a = b.
Proof.
  intros [[a1 a2 a3]|s] [[b1 b2 b3]|t]; cbn [con_eqb]; try (split; [discriminate|intros Q; discriminate Q]).
  - unfold comment_newlines_eqb. cbn [cn_pre cn_comment cn_newlines]. rewrite !andb_true_iff, !str_eqb_eq.
    split; [intros [[-> ->] ->]; auto|intros Q; injection Q as -> -> ->; auto].
  - rewrite str_eqb_eq. split; congruence.
Qed.
Lemma keyval_iff : forall k, (forall t, tval_eqb k.(kv_val).(c_val) t = true <-> blurred k.(kv_val).(c_val) = blurred t) ->
  forall m, keyval_eqb tval_eqb k m = true <-> on_keyval blurred k = on_keyval blurred m.
Proof.
  intros [k s [i v]] H [k' s' [i' v']]. unfold keyval_eqb, on_keyval, on_cell. cbn [kv_key kv_sep kv_val c_val] in *.
  rewrite !andb_true_iff, str_eqb_eq, ws_iff, H.
  split; [intros [[-> ->] ->]; auto|intros Q; injection Q as -> -> ->; auto].
Qed.
Lemma tval_iff : forall a b, tval_eqb a b = true <-> blurred a = blurred b.
Proof.
  induction a using tval_ind'; intros []; cbn [tval_eqb blurred]; try (split; [discriminate|intros Q; discriminate Q]).
  - rewrite str_eqb_eq. split; congruence.
  - rewrite str_eqb_eq. split; congruence.
  - rewrite flag_iff. split; congruence.
  - rewrite datetime_iff. split; congruence.
  - rewrite !andb_true_iff, (vec_iff _ _ _ (fun v => ArrayValue (on_cell blurred v.(av_val)) v.(av_sep) v.(av_nls))), !(vec_same _ _ con_iff).
    + split; [intros [[-> ->] ->]; auto|intros Q; injection Q; auto].
    + apply Forall_impl with (2 := H). intros [[i v] s n] E [[i' v'] s' n']. unfold array_value_eqb, on_cell. cbn [av_val av_sep av_nls c_val] in *.
      rewrite comp_opt_eq, !andb_true_iff, (opt_same _ _ ws_iff), (vec_same _ _ con_iff), E.
      split; [intros [[-> ->] ->]; auto|intros Q; injection Q; auto].
  - rewrite str_eqb_eq. split; congruence.
  - rewrite andb_true_iff, (vec_iff _ _ _ (fun v => TableKeyVal (on_keyval blurred v.(tk_kv)) v.(tk_sep) [])), ws_iff.
    + split; [intros [-> ->]; auto|intros Q; injection Q; auto].
    + apply Forall_impl with (2 := H). intros [k s n] E [k' s' n']. unfold table_keyval_eqb. cbn [tk_kv tk_sep tk_nls] in *.
      rewrite !andb_true_iff, (opt_same _ _ ws_iff), (vec_same _ _ con_iff), (keyval_iff _ E).
      split; [intros [[-> ->] _]; auto|intros Q; split; [split; congruence|reflexivity]].
  - tauto.
Qed.
Lemma wskey_iff : forall a b, wskey_eqb a b = true <-> a = b.
Proof.
  intros [a1 a2] [b1 b2]. unfold wskey_eqb. cbn [wk_ws wk_key]. rewrite andb_true_iff, ws_iff, str_eqb_eq.
  split; [intros [-> ->]; auto|intros Q; injection Q as -> ->; auto].
Qed.
Lemma tt_iff : forall a b, table_type_eqb a b = true <-> a = b.
Proof.
  intros [] []; cbn [table_type_eqb]; try (split; [discriminate|intros Q; discriminate Q]); rewrite (vec_same _ _ wskey_iff); split; congruence.
Qed.
Lemma toml_iff : forall a b, toml_eqb a b = true <-> on_toml blurred a = on_toml blurred b.
Proof.
  intros a b. unfold toml_eqb, on_toml. apply vec_iff, Forall_forall. intros [n [w k t c]] _ [n' [w' k' t' c']].
  unfold nl_expression_eqb, expression_eqb, on_expr. cbn [ne_nl ne_expr e_ws e_keyval e_table e_comment].
  rewrite !comp_opt_eq, !andb_true_iff, str_eqb_eq, ws_iff, (opt_same _ _ tt_iff), (opt_same _ _ str_eqb_eq).
  rewrite (opt_iff _ _ _ (on_keyval blurred)) by (intros x; apply keyval_iff, tval_iff).
  split; [intros [-> [[[-> ->] ->] ->]]; auto|intros Q; injection Q; auto 10].
Qed.
Lemma hash_value_iff : forall a b, hash_value_eqb a b = true <->
  option_map (on_cell blurred) a.(hv_value) = option_map (on_cell blurred) b.(hv_value).
Proof.
  intros [a ?] [b ?]. unfold hash_value_eqb. cbn [hv_value]. apply opt_iff. intros [i x] [j y]. unfold on_cell. cbn [c_val].
  rewrite tval_iff. split; congruence.
Qed.

(** ** Text *)
Lemma sharp_blurred : forall t, sharp t -> blurred t = bare_tree t.
Proof.
  induction t using tval_ind'; intros S; inversion S; subst; auto; cbn [blurred bare_tree]; f_equal; apply map_ext_in.
  - intros [[i v] s n] I. unfold on_cell. cbn [av_val av_sep av_nls c_val]. do 2 f_equal. rewrite Forall_forall in *. apply (H _ I). apply (H1 _ I).
  - intros [[k s [i v]] sp n] I. unfold on_keyval, on_cell. cbn [tk_kv tk_sep tk_nls kv_key kv_sep kv_val c_val].
    rewrite Forall_forall in *. destruct (H1 _ I) as [A B]. cbn [tk_kv tk_nls kv_val c_val] in *. subst n. do 3 f_equal. apply (H _ I). auto.
Qed.
Lemma show_all_cons : forall A (f : A -> res str) x l, show_all f (x :: l) = (let? a := f x in let? b := show_all f l in Ok (a ++ b)).
Proof. reflexivity. Qed.
Lemma show_all_map : forall A (f g : A -> res str) (h : A -> A) l, Forall (fun x => f (h x) = g x) l -> show_all f (map h l) = show_all g l.
Proof.
  intros A f g h l F. induction F as [|x l H F IH]; [reflexivity|]. cbn [map]. rewrite !show_all_cons, H, IH. reflexivity.
Qed.
Lemma show_bare : forall t, show_tval (bare_tree t) = show_tval t.
Proof.
  induction t using tval_ind'; auto; cbn [bare_tree show_tval].
  - erewrite show_all_map; [reflexivity|]. apply Forall_impl with (2 := H). intros [[i v] s n] E. cbn [av_val av_sep av_nls on_cell c_val] in *. unfold on_cell. cbn [c_val]. rewrite E. reflexivity.
  - destruct kvs as [|x kvs]; [reflexivity|]. erewrite show_all_map; [reflexivity|]. apply Forall_impl with (2 := H).
    intros [[k s [i v]] sp n] E. cbn [tk_kv tk_sep tk_nls kv_key kv_sep kv_val c_val on_keyval on_cell] in *. rewrite E. reflexivity.
Qed.
Lemma show_bare_doc : forall t, show_toml (on_toml bare_tree t) = show_toml t.
Proof.
  intros [|x t]; [reflexivity|]. unfold show_toml, on_toml. cbn [map]. rewrite <- map_cons. apply (show_all_map _ show_nl_expression show_nl_expression (on_expr bare_tree)).
  apply Forall_forall. intros [n [w k tt c]] _. unfold on_expr, show_nl_expression, show_expression. cbn [ne_nl ne_expr e_ws e_keyval e_table e_comment].
  destruct k as [[k s [i v]]|]; cbn [option_map]; [|reflexivity]. unfold on_keyval, show_keyval, show_keyval_with. cbn [kv_key kv_sep kv_val on_cell c_val]. rewrite show_bare. reflexivity.
Qed.
Lemma sharp_toml : forall t, sharp_doc t -> on_toml blurred t = on_toml bare_tree t.
Proof.
  intros t F. unfold on_toml. apply map_ext_in. intros [n [w k tt c]] I. unfold on_expr. cbn [ne_nl ne_expr e_ws e_keyval e_table e_comment].
  do 2 f_equal. unfold sharp_doc in F. rewrite Forall_forall in F. specialize (F _ I). cbn [ne_expr e_keyval] in F.
  destruct k as [[k s [i v]]|]; auto. cbn [option_map kv_val c_val] in *. unfold on_keyval, on_cell. cbn [kv_key kv_sep kv_val c_val]. rewrite sharp_blurred; auto.
Qed.
