(** Documents made of key/value lines. *)
From Coq Require Import Lia ZifyBool ZifyNat ZifyN.
From Verif Require Import Str Regex Types Ast State Nom Keys Grammar Api Facts Spec.
From Verif Require Import RegexFacts NomFacts TypesFacts DateFacts NumFacts StringFacts ScalarFacts.
From Verif Require Import LineFacts.

(** ** keys of the specification *)
Lemma same_key_eqb : forall a b, same_key a b = str_eqb a b.
Proof.
  intros. unfold same_key. destruct (list_eq_dec N.eq_dec a b).
  - subst. symmetry. apply str_eqb_refl.
  - symmetry. apply str_eqb_neq. auto.
Qed.
Lemma same_key_eq : forall a b, same_key a b = true <-> a = b.
Proof. intros. rewrite same_key_eqb. apply str_eqb_eq. Qed.
Lemma same_key_refl : forall a, same_key a a = true.
Proof. intros. apply same_key_eq; auto. Qed.

Lemma seen_in : forall k l, seen k l = true <-> In k l.
Proof.
  intros. unfold seen. rewrite existsb_exists. split.
  - intros (x & H & E). apply same_key_eq in E. subst. auto.
  - intros. exists k. rewrite same_key_refl. auto.
Qed.
Lemma seen_ext : forall k l l', (forall x, In x l <-> In x l') -> seen k l = seen k l'.
Proof.
  intros. destruct (seen k l) eqn:E; destruct (seen k l') eqn:F; auto.
  - apply seen_in, H, seen_in in E. congruence.
  - apply seen_in, H, seen_in in F. congruence.
Qed.

Lemma first_keys_in : forall l old k, In k (first_keys old l) <-> In k l /\ ~ In k old.
Proof.
  induction l as [|a l IH]; intros old k; cbn [first_keys].
  - simpl. tauto.
  - destruct (seen a old) eqn:E.
    + apply seen_in in E. rewrite IH. simpl. split; [tauto|]. intros [[->|H] N]; tauto.
    + assert (~ In a old) by (rewrite <- seen_in; congruence).
      simpl. rewrite IH. simpl. destruct (str_dec a k); [subst; tauto|]. tauto.
Qed.

Lemma first_keys_snoc : forall l old k, first_keys old (l ++ [k]) =
  first_keys old l ++ (if seen k (old ++ l) then [] else [k]).
Proof.
  induction l as [|a l IH]; intros old k; cbn [app first_keys].
  - rewrite app_nil_r. destruct (seen k old); auto.
  - destruct (seen a old) eqn:E; rewrite IH.
    + f_equal. rewrite (seen_ext k (old ++ l) (old ++ a :: l)); auto. apply seen_in in E.
      intros. rewrite !in_app_iff. simpl. split; [tauto|]. intros [|[->|]]; auto.
    + cbn [app]. do 2 f_equal. rewrite (seen_ext k (a :: old ++ l) (old ++ a :: l)); auto.
      intros. simpl. rewrite !in_app_iff. simpl. tauto.
Qed.

Lemma vcontains_in : forall l k, vcontains l k = true <-> In k l.
Proof.
  induction l; simpl; intros; [split; easy|]. rewrite orb_true_iff, str_eqb_eq, IHl. tauto.
Qed.

Lemma vinsert_first : forall l k, fst (vinsert (first_keys [] l) k) = first_keys [] (l ++ [k]).
Proof.
  intros. rewrite first_keys_snoc. cbn [app]. unfold vinsert.
  destruct (vcontains (first_keys [] l) k) eqn:E.
  - apply vcontains_in, first_keys_in in E. assert (seen k l = true) as -> by (apply seen_in; tauto).
    rewrite app_nil_r. auto.
  - destruct (seen k l) eqn:F; auto. apply seen_in in F.
    assert (vcontains (first_keys [] l) k = true); [|congruence].
    apply vcontains_in, first_keys_in. auto.
Qed.

Lemma first_keys_nodup : forall l old, NoDup l -> (forall k, In k l -> ~ In k old) -> first_keys old l = l.
Proof.
  induction l; intros old N H; cbn [first_keys]; auto. inversion N; subst.
  destruct (seen a old) eqn:E.
  - apply seen_in in E. exfalso. apply (H a); simpl; auto.
  - f_equal. apply IHl; auto. intros k K [->|O]; auto. apply (H k); simpl; auto.
Qed.

Lemma first_value_none : forall l k, first_value k l = None <-> ~ In k (map fst l).
Proof.
  induction l as [|[a v] l IH]; intros k; simpl; [tauto|]. rewrite same_key_eqb.
  destruct (str_eqb k a) eqn:E.
  - apply str_eqb_eq in E. subst. split; [discriminate|]. tauto.
  - apply str_eqb_neq in E. rewrite IH. intuition.
Qed.
Lemma first_value_snoc : forall l k a v, first_value k (l ++ [(a, v)]) =
  match first_value k l with Some x => Some x | None => if same_key k a then Some v else None end.
Proof. induction l as [|[b w] l IH]; intros; simpl; auto. destruct (same_key k b); auto. Qed.

(** ** keyval lines inside a context *)

(** values are stored under [pre ++ key], with parent entry [par] *)
Record ctx (s : pst) (pre par : str) : Prop := {
  cx_chain : s.(p_keychain) = [];
  cx_err : s.(p_array_error) = false;
  cx_keys : forall s2 k, s2.(p_last_table) = s.(p_last_table) -> s2.(p_tables) = s.(p_tables) ->
              s2.(p_tindex) = s.(p_tindex) -> s2.(p_keychain) = [KStr k] ->
              keyval_keys s2 = Ok (pre ++ k, par) }.

Lemma ctx_same : forall s s' pre par, ctx s pre par ->
  s'.(p_keychain) = s.(p_keychain) -> s'.(p_array_error) = s.(p_array_error) ->
  s'.(p_last_table) = s.(p_last_table) -> s'.(p_tables) = s.(p_tables) ->
  s'.(p_tindex) = s.(p_tindex) -> ctx s' pre par.
Proof.
  intros s s' pre par [A B C] E1 E2 E3 E4 E5. constructor; try congruence.
  intros. apply C; congruence.
Qed.

Lemma pop_push : forall k t s, s.(p_keychain) = [] -> pop_key (after_scalar t (push_key k s)) = after_scalar t s.
Proof. intros k t [] E. cbn in E. subst. reflexivity. Qed.

(** a new key *)
Lemma flat_new : forall s pre par pv l e, ctx s pre par -> entry_ok e ->
  hget (pre ++ e.(en_key)) s.(p_map) = None -> pre ++ e.(en_key) <> par ->
  hget par s.(p_map) = Some (HashValue pv (Keys l)) ->
  istep s (Line e)
    (set_map (hput par (HashValue pv (Keys (fst (vinsert l e.(en_key)))))
                (hput (pre ++ e.(en_key)) (hv_new_count (Cell s.(p_next) (tval_of e.(en_val)))) s.(p_map)))
       (after_scalar e.(en_text) s)).
Proof.
  intros s pre par pv l e [A B C] OK N D PA.
  set (m' := hput par _ _).
  replace (set_map m' (after_scalar (en_text e) s)) with
    (pop_key (set_map m' (after_scalar (en_text e) (push_key (KStr (en_key e)) s)))).
  2:{ clearbody m'. clear - A. destruct s. cbn in A. subst. reflexivity. }
  apply istep_line; auto. unfold insert_keyval_into_map.
  rewrite (C _ e.(en_key)); [|reflexivity|reflexivity|reflexivity|].
  2:{ cbn. rewrite A. reflexivity. }
  cbn [rbind]. change (p_map (after_scalar _ _)) with (p_map s). rewrite N.
  destruct OK as (_ & _ & _ & _ & V & _).
  assert (match c_val {| c_id := p_next s; c_val := tval_of (en_val e) |} with
          | TInlineTable _ _ => hv_new_keys {| c_id := p_next s; c_val := tval_of (en_val e) |}
          | _ => hv_new_count {| c_id := p_next s; c_val := tval_of (en_val e) |} end =
          hv_new_count {| c_id := p_next s; c_val := tval_of (en_val e) |}) as ->.
  { destruct V; reflexivity. }
  unfold update_parent. rewrite hget_hput_other by auto. rewrite PA. cbn [hv_subkeys hv_value].
  assert (vlast (p_keychain (after_scalar (en_text e) (push_key (KStr (en_key e)) s))) = Some (KStr (en_key e))) as ->.
  { cbn. rewrite A. reflexivity. }
  cbn [rbind]. subst m'. reflexivity.
Qed.

(** a key that has a value already *)
Lemma flat_dup : forall s pre par c sub e, ctx s pre par -> entry_ok e ->
  hget (pre ++ e.(en_key)) s.(p_map) = Some (HashValue (Some c) sub) ->
  istep s (Line e)
    (push_error (EDuplicateKey (pre ++ e.(en_key)) (s.(p_line) + line_feeds e.(en_text)) e.(en_val))
       (after_scalar e.(en_text) s)).
Proof.
  intros s pre par c sub e [A B C] OK N.
  set (er := EDuplicateKey _ _ _).
  replace (push_error er (after_scalar (en_text e) s)) with
    (pop_key (push_error er (after_scalar (en_text e) (push_key (KStr (en_key e)) s)))).
  2:{ clearbody er. clear - A. destruct s. cbn in A. subst. reflexivity. }
  apply istep_line; auto. unfold insert_keyval_into_map.
  rewrite (C _ e.(en_key)); [|reflexivity|reflexivity|reflexivity|].
  2:{ cbn. rewrite A. reflexivity. }
  cbn [rbind]. change (p_map (after_scalar _ _)) with (p_map s). rewrite N.
  destruct OK as (_ & _ & _ & _ & V & _). cbn [c_val]. rewrite (to_val_of _ _ V). reflexivity.
Qed.

(** ** invariant while reading lines in a context *)

Record finv (m0 : vmap) (pre par : str) (pv : option cell) (old : list (str * value)) (s : pst) : Prop := {
  fi_ctx : ctx s pre par;
  fi_par : hget par s.(p_map) = Some (HashValue pv (Keys (first_keys [] (map fst old))));
  fi_hit : forall k v, first_value k old = Some v ->
             exists id, hget (pre ++ k) s.(p_map) = Some (HashValue (Some (Cell id (tval_of v))) (Count 0));
  fi_miss : forall x, x <> par -> (forall k, x = pre ++ k -> first_value k old = None) ->
              hget x s.(p_map) = hget x m0 }.

(** names below [pre] are free in [m0] *)
Definition free_below (m0 : vmap) (pre par : str) : Prop :=
  forall k, key_name k -> hget (pre ++ k) m0 = None /\ pre ++ k <> par.

Definition report (pre : str) (x : str * N * value) : parse_error :=
  let '(k, line, v) := x in EDuplicateKey (pre ++ k) line v.

Definition no_lf_list (s : str) : Prop := Forall (fun c => c <> 10) s.
Lemma blanks_lf : forall w, blanks w -> line_feeds w = 0.
Proof. intros w H. apply digits_lf. eapply Forall_impl; [|exact H]. cbv beta. lia. Qed.
Lemma com_lf : forall c, com_ok c -> line_feeds (com_text c) = 0.
Proof.
  intros [c|] H; auto. cbn [com_text]. rewrite line_feeds_app. rewrite (digits_lf c); auto.
  eapply Forall_impl; [|exact H]. cbv beta. lia.
Qed.
Lemma bare_lf : forall k, key_name k -> line_feeds k = 0.
Proof.
  intros k [[_ H]|(x & _ & B & ->)].
  - apply digits_lf. eapply Forall_impl; [|exact H]. unfold bare_char. cbv beta. lia.
  - rewrite !line_feeds_app, (basic_lf x B). auto.
Qed.
Lemma entry_lf : forall e, entry_ok e -> line_feeds (entry_text e) = line_feeds e.(en_text).
Proof.
  intros e (W0 & K & W1 & W2 & V & W3 & C). unfold entry_text. rewrite !line_feeds_app.
  rewrite (blanks_lf _ W0), (bare_lf _ K), (blanks_lf _ W1), (blanks_lf _ W2), (blanks_lf _ W3), (com_lf _ C).
  change (line_feeds (lit "=")) with 0. lia.
Qed.

Lemma app_same : forall (a b c : str), a ++ b = a ++ c -> b = c.
Proof. intros. eapply app_inv_head; eauto. Qed.

(** one line *)
Lemma flat_step : forall m0 pre par pv old s it, free_below m0 pre par -> item_ok it ->
  finv m0 pre par pv old s ->
  exists s', istep s it s' /\ finv m0 pre par pv (old ++ item_pair it) s' /\
    s'.(p_line) = s.(p_line) + line_feeds (item_text it) /\
    s'.(p_errors) = s.(p_errors) ++ map (report pre) (repeats s.(p_line) (map fst old) [([], it)]) /\
    s'.(p_last_table) = s.(p_last_table) /\ s'.(p_tables) = s.(p_tables) /\ s'.(p_tindex) = s.(p_tindex) /\
    s'.(p_leftover) = s.(p_leftover) /\ s'.(p_ovf) = s.(p_ovf).
Proof.
  intros m0 pre par pv old s it F OK FI. destruct it as [w c|e].
  - exists s. split; [apply istep_blank; auto|]. cbn [item_pair repeats map]. rewrite !app_nil_r.
    split; auto. cbn [item_text]. destruct OK as [W C]. rewrite line_feeds_app, blanks_lf, com_lf by auto.
    repeat split; auto. lia.
  - pose proof FI as [C PA HI MI]. cbn [item_ok] in OK. cbn [item_pair item_text].
    rewrite entry_lf by auto. cbn [repeats item_text app]. rewrite entry_lf by auto.
    pose proof OK as (_ & K & _). destruct (F _ K) as [F1 F2].
    destruct (first_value (en_key e) old) as [v0|] eqn:FV.
    + (* repeated *)
      destruct (HI _ _ FV) as [id HG].
      assert (seen (en_key e) (map fst old) = true) as ->.
      { apply seen_in. destruct (in_dec str_dec (en_key e) (map fst old)); auto.
        apply first_value_none in n. congruence. }
      eexists. split; [eapply flat_dup; eauto|]. cbn [map report]. split; [|repeat split].
      constructor.
      * eapply ctx_same; eauto.
      * change (p_map (push_error _ (after_scalar (en_text e) s))) with (p_map s). rewrite PA.
        rewrite map_app. cbn [map fst]. rewrite first_keys_snoc.
        assert (seen (en_key e) ([] ++ map fst old) = true) as ->; [|rewrite app_nil_r; auto].
        apply seen_in. destruct (in_dec str_dec (en_key e) (map fst old)); auto.
        apply first_value_none in n. congruence.
      * intros k v H. change (p_map (push_error _ (after_scalar (en_text e) s))) with (p_map s).
        apply HI. rewrite first_value_snoc in H. destruct (first_value k old) eqn:X; auto.
        destruct (same_key k (en_key e)) eqn:Y; [|discriminate]. apply same_key_eq in Y. congruence.
      * intros x X1 X2. change (p_map (push_error _ (after_scalar (en_text e) s))) with (p_map s).
        apply MI; auto. intros k ->. specialize (X2 k eq_refl). rewrite first_value_snoc in X2.
        destruct (first_value k old); [discriminate|auto].
    + assert (seen (en_key e) (map fst old) = false) as ->.
      { destruct (seen (en_key e) (map fst old)) eqn:S; auto. apply seen_in in S.
        apply first_value_none in FV. contradiction. }
      assert (HN : hget (pre ++ en_key e) (p_map s) = None).
      { rewrite MI; auto. intros k E. apply app_same in E. subst. auto. }
      eexists. split; [eapply flat_new; eauto|]. cbn [map]. rewrite app_nil_r.
      split; [|repeat split].
      constructor.
      * eapply ctx_same; eauto.
      * change (p_map (set_map ?m (after_scalar (en_text e) s))) with m.
        rewrite hget_hput_same, vinsert_first, map_app. auto.
      * intros k v H. change (p_map (set_map ?m (after_scalar (en_text e) s))) with m.
        rewrite first_value_snoc in H.
        destruct (first_value k old) as [v1|] eqn:X.
        -- inversion H; subst. destruct (HI _ _ X) as [id HG]. exists id.
           rewrite hget_hput_other.
           ++ rewrite hget_hput_other; auto. intros E. apply app_same in E. subst. congruence.
           ++ intros E. rewrite E in HG. rewrite PA in HG. inversion HG.
        -- destruct (same_key k (en_key e)) eqn:Y; [|discriminate]. apply same_key_eq in Y.
           inversion H; subst. eexists. rewrite hget_hput_other by auto. rewrite hget_hput_same. reflexivity.
      * intros x X1 X2. change (p_map (set_map ?m (after_scalar (en_text e) s))) with m.
        rewrite hget_hput_other by auto. rewrite hget_hput_other.
        -- apply MI; auto. intros k ->. specialize (X2 k eq_refl). rewrite first_value_snoc in X2.
           destruct (first_value k old); [discriminate|auto].
        -- intros ->. specialize (X2 _ eq_refl). rewrite first_value_snoc, FV, same_key_refl in X2. discriminate.
Qed.

Definition rest_pairs (l : list (str * item)) : list (str * value) := concat (map (fun x => item_pair (snd x)) l).

Lemma finv_lines : forall m0 pre par pv old s n, finv m0 pre par pv old s -> finv m0 pre par pv old (add_lines n s).
Proof.
  intros m0 pre par pv old s n [C PA HI MI]. constructor; auto. eapply ctx_same; eauto.
Qed.

Lemma repeats_old : forall l line o o', (forall x, In x o <-> In x o') -> repeats line o l = repeats line o' l.
Proof.
  induction l as [|[nl it] l IH]; intros line o o' H; cbn [repeats]; auto.
  destruct it; auto. rewrite (seen_ext _ o o' H). destruct (seen (en_key e) o').
  - f_equal. auto.
  - apply IH. intros. simpl. rewrite H. tauto.
Qed.

Lemma repeats_cons : forall nl it l line old,
  repeats line old ((nl, it) :: l) =
  repeats (line + line_feeds nl) old [([], it)] ++
  repeats (line + line_feeds (nl ++ item_text it)) (old ++ map fst (item_pair it)) l.
Proof.
  intros. cbn [repeats app]. rewrite line_feeds_app, N.add_assoc. destruct it as [w c|e]; cbn [item_pair map].
  - rewrite app_nil_r. auto.
  - destruct (seen (en_key e) old) eqn:S.
    + cbn [app]. f_equal. apply repeats_old. intros. rewrite in_app_iff. simpl. apply seen_in in S.
      split; [tauto|]. intros [|[<-|[]]]; auto.
    + cbn [app]. apply repeats_old. intros. rewrite in_app_iff. simpl. tauto.
Qed.

(** the remaining lines *)
Lemma flat_steps : forall m0 pre par pv l old s, free_below m0 pre par -> rest_ok l ->
  finv m0 pre par pv old s ->
  exists s' es, isteps s l s' es /\ finv m0 pre par pv (old ++ rest_pairs l) s' /\
    s'.(p_line) = s.(p_line) + line_feeds (rest_text l) /\
    s'.(p_errors) = s.(p_errors) ++ map (report pre) (repeats s.(p_line) (map fst old) l) /\
    s'.(p_last_table) = s.(p_last_table) /\ s'.(p_tables) = s.(p_tables) /\ s'.(p_tindex) = s.(p_tindex) /\
    s'.(p_leftover) = s.(p_leftover) /\ s'.(p_ovf) = s.(p_ovf).
Proof.
  intros m0 pre par pv. induction l as [|[nl it] l IH]; intros old s F R FI.
  - exists s, []. split; [constructor|]. unfold rest_pairs, rest_text. simpl. rewrite !app_nil_r.
    repeat split; try apply FI; auto. lia.
  - inversion R; subst. destruct H1 as [NL OK]. cbn [fst snd] in *.
    destruct (flat_step m0 pre par pv old (add_lines 1 s) it F OK (finv_lines _ _ _ _ _ _ _ FI))
      as (s1 & S1 & FI1 & L1 & E1 & T1 & T2 & T3 & T4 & T5).
    destruct (IH _ s1 F H2 FI1) as (s2 & es & S2 & FI2 & L2 & E2 & U1 & U2 & U3 & U4 & U5).
    assert (NLF : line_feeds nl = 1) by (destruct NL as [->| ->]; reflexivity).
    change (p_line (add_lines 1 s)) with (p_line s + 1) in *.
    exists s2. eexists. split; [econstructor; eauto|].
    split; [unfold rest_pairs; cbn [map concat snd]; rewrite app_assoc; exact FI2|].
    split.
    { rewrite L2, L1. unfold rest_text. cbn [map concat fst snd]. rewrite !line_feeds_app, NLF. unfold rest_text. lia. }
    split.
    { rewrite E2, E1. rewrite <- app_assoc. f_equal. rewrite <- map_app. f_equal.
      rewrite (repeats_cons nl it l), NLF. f_equal. rewrite L1. rewrite line_feeds_app, NLF, N.add_assoc, map_app. auto. }
    cbn [add_lines set_line p_last_table p_tables p_tindex p_leftover p_ovf] in *.
    repeat split; congruence.
Qed.

(** ** a whole document at the root *)

Lemma root_not_bare : forall k, key_name k -> k <> root_key.
Proof. intros k K ->. apply key_head in K as (c & t & E & C). injection E as <- _. unfold bare_char in C. lia. Qed.

Lemma finv_new : forall ovf, finv (hput root_key hv_none_keys []) [] root_key None [] (new_parser ovf).
Proof.
  intros. constructor.
  - constructor; auto. intros s2 k A B C D. unfold keyval_keys. rewrite A. cbn [new_parser p_last_table].
    rewrite D. reflexivity.
  - reflexivity.
  - discriminate.
  - auto.
Qed.

Lemma free_root : free_below (hput root_key hv_none_keys []) [] root_key.
Proof.
  intros k K. pose proof (root_not_bare k K) as N. cbn [app]. split; auto.
  rewrite hget_hput_other; auto.
Qed.

Definition flat_errors (it : item) (l : list (str * item)) : list parse_error :=
  map (report []) (repeats 1 [] (([], it) :: l)).

Lemma flat_doc : forall ovf it l, doc_ok it l ->
  exists s es, toml_p (new_parser ovf) (doc_text it l) =
      Ok (s, Done [] ({| ne_nl := []; ne_expr := item_expr 0 it |} :: es)) /\
    finv (hput root_key hv_none_keys []) [] root_key None (doc_pairs it l) s /\
    s.(p_errors) = flat_errors it l /\ s.(p_line) = 1 + line_feeds (doc_text it l).
Proof.
  intros ovf it l [I R].
  destruct (flat_step _ _ _ _ _ _ it free_root I (finv_new ovf)) as (s1 & S1 & FI1 & L1 & E1 & _).
  destruct (flat_steps _ _ _ _ _ _ _ free_root R FI1) as (s2 & es & S2 & FI2 & L2 & E2 & _).
  exists s2, es. split; [eapply doc_read; eauto; split; auto|].
  split; [exact FI2|]. split.
  - rewrite E2, E1. unfold flat_errors. cbn [p_errors new_parser app]. rewrite <- map_app. f_equal.
    symmetry. etransitivity; [apply (repeats_cons [] it l 1 [])|]. f_equal. rewrite L1. reflexivity.
  - rewrite L2, L1. unfold doc_text. rewrite line_feeds_app. cbn [p_line new_parser]. lia.
Qed.

Definition full_result (errs : list parse_error) : parse_result :=
  match errs with [] => Full | _ => FullError errs end.

Lemma tval_of_to_val : forall v, (exists t, scalar v t) -> to_val (tval_of v) = Ok v.
Proof. intros v [t H]. eapply to_val_of; eauto. Qed.

Lemma doc_pairs_scalar : forall it l k v, doc_ok it l -> first_value k (doc_pairs it l) = Some v ->
  exists t, scalar v t.
Proof.
  intros it l k v [I R] H.
  assert (X : Forall (fun p => exists t, scalar (snd p) t) (doc_pairs it l)).
  { unfold doc_pairs. apply Forall_app. split.
    - destruct it as [w c|e]; cbn [item_pair]; constructor; auto. cbn [snd item_ok] in *. destruct I as (_ & _ & _ & _ & V & _). eauto.
    - clear I H. induction R as [|[nl x] l' [A B] R' IH]; cbn [map concat]; [constructor|].
      apply Forall_app. split; [|exact IH].
      cbn [fst snd] in *. destruct x as [w c|e]; cbn [item_pair]; constructor; auto.
      cbn [snd item_ok] in *. destruct B as (_ & _ & _ & _ & V & _). eauto. }
  clear I R. induction (doc_pairs it l) as [|[a w] ps IH]; [discriminate|]. inversion X; subst.
  cbn [first_value] in H. destruct (same_key k a); auto. inversion H; subst. auto.
Qed.

Lemma flat_parse : forall ovf it l, doc_ok it l ->
  exists s, parse (new_parser ovf) (doc_text it l) = Ok (s, full_result (flat_errors it l)) /\
    (forall k, get_value s k = Ok (first_value k (doc_pairs it l))) /\
    get_children s [] = Some (Keys (first_keys [] (map fst (doc_pairs it l)))).
Proof.
  intros ovf it l OK. destruct (flat_doc ovf it l OK) as (s & es & T & FI & E & L).
  eexists. split; [|split].
  - unfold parse. rewrite T. cbn [rbind]. cbn [p_errors set_leftover set_root]. rewrite E.
    destruct (flat_errors it l); reflexivity.
  - intros k. unfold get_value. change (p_map (set_leftover _ (set_root _ s))) with (p_map s).
    destruct (first_value k (doc_pairs it l)) as [v|] eqn:V.
    + destruct (fi_hit _ _ _ _ _ _ FI _ _ V) as [id H]. cbn [app] in H. rewrite H. cbn [hv_value c_val].
      rewrite tval_of_to_val; auto. eapply doc_pairs_scalar; eauto.
    + destruct (str_dec k root_key) as [->|N].
      * rewrite (fi_par _ _ _ _ _ _ FI). reflexivity.
      * rewrite (fi_miss _ _ _ _ _ _ FI); auto.
        -- rewrite hget_hput_other; auto.
        -- intros k' ->. auto.
  - unfold get_children. change (p_map (set_leftover _ (set_root _ s))) with (p_map s).
    rewrite (fi_par _ _ _ _ _ _ FI). reflexivity.
Qed.

Lemma repeats_distinct : forall l line old, NoDup (old ++ map fst (rest_pairs l)) -> repeats line old l = [].
Proof.
  induction l as [|[nl it] l IH]; intros line old N; cbn [repeats]; auto.
  unfold rest_pairs in N. cbn [map concat snd] in N. destruct it as [w c|e]; cbn [item_pair app map] in *.
  - apply IH; auto.
  - destruct (seen (en_key e) old) eqn:S.
    + apply seen_in in S. apply NoDup_remove_2 in N. exfalso. apply N. apply in_app_iff. auto.
    + apply IH. cbn [fst] in N. apply NoDup_remove in N as [N1 N2]. constructor; auto.
Qed.
