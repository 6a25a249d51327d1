(** A Hoare-style walk over all parsers: an invariant of the parser state
    together with the cells of everything parsed so far. *)
From Coq Require Import Lia ZifyBool ZifyNat ZifyN.
From Verif Require Import Str Regex Types Ast State Nom Keys Grammar Api Facts Spec NomFacts DateFacts RoundTrip Effects.

(** ** The cells of a tree *)
(** the cells directly inside a value *)
Definition kids (t : tval) : list cell :=
  match t with
  | TArray vals _ _ => map (fun av => av.(av_val)) vals
  | TInlineTable kvs _ => map (fun tk => tk.(tk_kv).(kv_val)) kvs
  | _ => []
  end.
(** all cells inside a value *)
Fixpoint tcells (t : tval) : list cell :=
  match t with
  | TArray vals _ _ => flat_map (fun av => av.(av_val) :: tcells av.(av_val).(c_val)) vals
  | TInlineTable kvs _ => flat_map (fun tk => tk.(tk_kv).(kv_val) :: tcells tk.(tk_kv).(kv_val).(c_val)) kvs
  | _ => []
  end.
Definition subcells (c : cell) : list cell := c :: tcells c.(c_val).
Definition kv_cells (kv : keyval) : list cell := subcells kv.(kv_val).
Definition ex_cells (e : expression) : list cell :=
  match e.(e_keyval) with Some kv => kv_cells kv | None => [] end.
Definition toml_cells (t : toml) : list cell := flat_map (fun ne => ex_cells ne.(ne_expr)) t.

Lemma flat_map_map : forall A B C (f : B -> list C) (g : A -> B) l, flat_map f (map g l) = flat_map (fun x => f (g x)) l.
Proof. induction l; simpl; congruence. Qed.

Lemma tcells_kids : forall t, tcells t = flat_map subcells (kids t).
Proof. intros []; cbn [tcells kids]; auto; rewrite flat_map_map; reflexivity. Qed.

(** induction over cells *)
Lemma cell_ind' : forall (Q : cell -> Prop), (forall id t, Forall Q (kids t) -> Q (Cell id t)) -> forall c, Q c.
Proof.
  intros Q H. assert (A : forall t id, Q (Cell id t)).
  { induction t using tval_ind'; intros id; apply H; cbn [kids]; auto.
    - induction H0 as [|[[i v] sp n] l X Y IH]; simpl; constructor; auto.
    - induction H0 as [|[[k sp [i v]] sq n] l X Y IH]; simpl; constructor; auto. }
  intros [id t]. apply A.
Qed.

(** ** Hoare triples *)
Definition hoare {A} (Pre : pst -> Prop) (p : P A) (E : pst -> Prop) (Q : A -> pst -> Prop) : Prop :=
  forall s i s' r, Pre s -> p s i = Ok (s', r) -> match r with Done _ a => Q a s' | _ => E s' end.

Lemma h_conseq : forall A (Pre Pre' E E' : pst -> Prop) (p : P A) (Q Q' : A -> pst -> Prop), hoare Pre p E Q ->
  (forall s, Pre' s -> Pre s) -> (forall s, E s -> E' s) -> (forall a s, Q a s -> Q' a s) -> hoare Pre' p E' Q'.
Proof. intros A Pre Pre' E E' p Q Q' H HP HE HQ s i s' r S R. apply H in R; auto. destruct r; auto. Qed.
Lemma h_bind : forall A B Pre (p : P A) E Q1 (k : A -> P B) Q, hoare Pre p E Q1 ->
  (forall a, hoare (Q1 a) (k a) E Q) -> hoare Pre (bind p k) E Q.
Proof.
  intros A B Pre p E Q1 k Q H H2 s i s' r S R. unfold bind in R. apply rbind_ok in R as ([s1 r1] & R1 & R).
  apply H in R1; auto. destruct r1; [apply H2 in R; auto|inversion R; subst; auto..].
Qed.
Lemma h_ret : forall A (a : A) (Pre : pst -> Prop) E (Q : A -> pst -> Prop), (forall s, Pre s -> Q a s) -> hoare Pre (ret a) E Q.
Proof. intros A a Pre E Q H s i s' r S R. inversion R; subst; auto. Qed.
Lemma h_complete : forall A Pre (p : P A) E Q, hoare Pre p E Q -> hoare Pre (complete p) E Q.
Proof.
  intros A Pre p E Q H s i s' r S R. unfold complete in R. apply rbind_ok in R as ([s1 r1] & R1 & R).
  apply H in R1; auto. destruct r1; inversion R; subst; auto.
Qed.
Lemma h_alt : forall A (p q : P A) Pre E Q, hoare Pre p E Q -> hoare E q E Q -> hoare Pre (alt p q) E Q.
Proof.
  intros A p q Pre E Q H H2 s i s' r S R. unfold alt in R. apply rbind_ok in R as ([s1 r1] & R1 & R).
  apply H in R1; auto. destruct r1; [inversion R; subst; auto|eapply H2 in R; eauto|inversion R; subst; auto].
Qed.
Lemma h_opt : forall A (p : P A) Pre (E : pst -> Prop) (Q : option A -> pst -> Prop),
  hoare Pre p E (fun a => Q (Some a)) -> (forall s, E s -> Q None s) -> hoare Pre (opt p) E Q.
Proof.
  intros A p Pre E Q H H2 s i s' r S R. unfold opt in R. apply rbind_ok in R as ([s1 r1] & R1 & R).
  apply H in R1; auto. destruct r1; inversion R; subst; auto.
Qed.
Lemma h_act : forall A (f : pst -> res (pst * A)) (Pre E : pst -> Prop) (Q : A -> pst -> Prop),
  (forall s s' a, Pre s -> f s = Ok (s', a) -> Q a s') -> hoare Pre (act f) E Q.
Proof.
  intros A f Pre E Q H s i s' r S R. unfold act in R. apply rbind_ok in R as ([s1 a] & R1 & R).
  inversion R; subst. eauto.
Qed.
Lemma h_pure : forall A (p : P A) (Pre E : pst -> Prop) (Q : A -> pst -> Prop), pure p ->
  (forall s, Pre s -> E s) -> (forall a s, Pre s -> Q a s) -> hoare Pre p E Q.
Proof. intros A p Pre E Q H HE HQ s i s' r S R. apply (pure_state _ H) in R. subst. destruct r; auto. Qed.
(** a parser that only ever moves along [R] *)
Lemma h_pres : forall A (p : P A) R (Pre E : pst -> Prop) (Q : A -> pst -> Prop), pres R p ->
  (forall s s', Pre s -> R s s' -> E s') -> (forall a s s', Pre s -> R s s' -> Q a s') -> hoare Pre p E Q.
Proof. intros A p R Pre E Q H HE HQ s i s' r S X. apply H in X. destruct r; eauto. Qed.

(** ** The walk *)
Section Walk.
  Variable G : list cell -> pst -> Prop.
  Variable FR : cell -> pst -> Prop.
  Variable Vok : tval -> pst -> Prop.

  Hypothesis G_drop : forall acc x s, G (acc ++ x) s -> G acc s.
  Hypothesis G_line : forall acc n s, G acc s -> G acc (add_lines n s).
  Hypothesis G_chain : forall acc k s, G acc s -> G acc (set_keychain k s).
  Hypothesis G_types : forall acc a s, G acc s -> G acc (set_atypes a s).
  Hypothesis G_date : forall acc s k t, G acc s -> G acc (push_error (EInvalidDateTime k s.(p_line) t) s).
  Hypothesis G_mixed : forall acc s k, G acc s -> G acc (push_error (EMixedArray k s.(p_line)) s).
  Hypothesis G_ext : forall acc s e, s.(p_array_error) = true -> last_ext s.(p_errors) e -> G acc s -> G acc (set_errors e s).
  Hypothesis G_std : forall acc w1 w2 k l s s' t, std_table_act w1 w2 k l s = Ok (s', t) -> G acc s -> G acc s'.
  Hypothesis G_arr : forall acc w1 w2 k l s s' t, array_table_act w1 w2 k l s = Ok (s', t) -> G acc s -> G acc s'.
  Hypothesis G_new : forall acc t s, Vok t s -> G (acc ++ tcells t) s ->
    G (acc ++ Cell s.(p_next) t :: tcells t) (set_next (s.(p_next) + 1) s) /\
    FR (Cell s.(p_next) t) (set_next (s.(p_next) + 1) s).
  Hypothesis G_insert : forall acc c s s', G (acc ++ subcells c) s -> FR c s -> insert_keyval_into_map s c = Ok s' ->
    G (acc ++ subcells c) s'.
  Hypothesis FR_types : forall c a s, FR c s -> FR c (set_atypes a s).
  Hypothesis FR_mixed : forall c s k, FR c s -> FR c (push_error (EMixedArray k s.(p_line)) s).
  Hypothesis V_plain : forall t s, match t with TDateTime _ | TArray _ _ _ | TTable => False | _ => True end -> Vok t s.
  Hypothesis V_array : forall f s i s' r t, array_ (val f) s i = Ok (s', Done r t) -> Vok t s'.
  Hypothesis V_valid : forall d s, datetime_digits d -> datetime_validate d = true -> Vok (TDateTime d) s.
  Hypothesis V_report : forall d s k, datetime_digits d ->
    Vok (TDateTime d) (push_error (EInvalidDateTime k s.(p_line) (show_datetime d)) s).

  Definition ispec {A} (p : P A) (f : A -> list cell) : Prop :=
    forall acc, hoare (G acc) p (G acc) (fun a => G (acc ++ f a)).
  Definition nospec {A} (p : P A) : Prop := forall acc, hoare (G acc) p (G acc) (fun _ => G acc).

  Lemma i_ret : forall A (a : A) f, f a = [] -> ispec (ret a) f.
  Proof. intros A a f E acc. apply h_ret. intros. rewrite E, app_nil_r. auto. Qed.
  Lemma n_i : forall A (p : P A), nospec p -> ispec p (fun _ => []).
  Proof. intros A p H acc. eapply h_conseq; [exact (H acc)|auto|auto|]. cbv beta. intros a s S. rewrite app_nil_r. auto. Qed.
  Lemma n_pure : forall A (p : P A), pure p -> nospec p.
  Proof. intros A p H acc. apply h_pure; auto. Qed.

  Lemma i_loop : forall A (p : P A) f, ispec p f -> forall n s i s' r acc, G acc s ->
    many_loop n p s i = Ok (s', r) -> match r with Done _ l => G (acc ++ flat_map f l) s' | _ => G acc s' end.
  Proof.
    intros A p f H. induction n; intros s i s' r acc S R; [discriminate|]. cbn [many_loop] in R.
    destruct i as [|c i]; [inversion R; subst; simpl; rewrite app_nil_r; auto|].
    apply rbind_ok in R as ([s1 r1] & R1 & R). specialize (H _ _ _ _ _ S R1).
    destruct r1; try (inversion R; subst; simpl; rewrite ?app_nil_r; auto; fail).
    destruct (Nat.eqb _ _); [inversion R; subst; simpl; rewrite app_nil_r; eauto|].
    apply rbind_ok in R as ([s2 r2] & R2 & R). specialize (IHn _ _ _ _ _ H R2).
    destruct r2; inversion R; subst; eauto. simpl. rewrite app_assoc. auto.
  Qed.
  Lemma i_many0 : forall A (p : P A) f, ispec p f -> ispec (many0 p) (flat_map f).
  Proof. intros A p f H acc s i s' r S R. eapply i_loop; eauto. Qed.

  (** the plain pieces *)
  Lemma n_newline : nospec newline.
  Proof.
    intros acc. unfold newline. apply h_alt; (eapply h_bind; [apply n_pure; pure_tac|]);
      intros a; apply h_act; intros s s' x S E; inversion E; subst; auto.
  Qed.
  Lemma n_raw_ml : forall p : P str, pure p -> nospec (x <-- p ;; act (fun s => Ok (add_lines (count_lines x) s, x))).
  Proof.
    intros p H acc. eapply h_bind; [apply n_pure; auto|]. intros a. apply h_act. intros s s' x S E. inversion E; subst; auto.
  Qed.
  Lemma n_pmap : forall A B (p : P A) (f : A -> B), nospec p -> nospec (pmap p f).
  Proof. intros A B p f H acc. eapply h_bind; [apply H|]. intros. apply h_ret; auto. Qed.
  Lemma n_complete : forall A (p : P A), nospec p -> nospec (complete p).
  Proof. intros A p H acc. apply h_complete; auto. Qed.
  Lemma n_alt : forall A (p q : P A), nospec p -> nospec q -> nospec (alt p q).
  Proof. intros A p q H H2 acc. apply h_alt; auto. Qed.

  Lemma i_string : forall acc, hoare (G acc) string_p (G acc) (fun t s => G acc s /\ exists x st, t = TString x st).
  Proof.
    intros acc.
    assert (X : forall (p : P str) st, nospec p ->
      hoare (G acc) (pmap (complete p) (fun x => TString x st)) (G acc) (fun t s => G acc s /\ exists x st, t = TString x st)).
    { intros p st H. eapply h_bind; [apply n_complete, H|]. intros a. apply h_ret. eauto. }
    unfold string_p. repeat apply h_alt; apply X; unfold ml_literal_string_p, ml_basic_string_p, basic_string_p,
      literal_string_p, raw_ml_literal_string, raw_ml_basic_string, raw_basic_string, raw_literal_string;
      apply n_pmap; try apply n_raw_ml; try apply n_pure; pure_tac.
  Qed.

  Lemma pure_dti : pure date_time_internal.
  Proof. unfold date_time_internal, date_p, time_p, fractional, time_offset_p, time_offset_amount_p. pure_tac. Qed.
  Lemma i_date : forall acc, hoare (G acc) date_time (G acc) (fun d s => G acc s /\ Vok (TDateTime d) s).
  Proof.
    intros acc s i s' r S R. unfold date_time in R. apply rbind_ok in R as ([s1 r1] & R1 & R).
    pose proof (pure_state _ pure_dti _ _ _ _ R1). subst s1. destruct r1; try (inversion R; subst; auto; fail).
    apply dti_done in R1 as (_ & -> & DG). rewrite app_length, Nat.add_sub, firstn_app, firstn_all, Nat.sub_diag, firstn_O, app_nil_r in R.
    destruct (datetime_validate a) eqn:V; [inversion R; subst; auto|].
    apply rbind_ok in R as ([[x fk] pk] & _ & R). inversion R; subst. auto.
  Qed.
  Lemma n_key : nospec key_p.
  Proof.
    intros acc. unfold key_p. apply h_alt; (eapply h_bind; [apply n_pure; unfold quoted_key, unquoted_key; pure_tac|]);
      intros a; apply h_act; intros s s' x S E; inversion E; subst; apply G_chain; auto.
  Qed.
  Lemma pure_loop : forall A (p : P A), pure p -> forall n s i s' r, many_loop n p s i = Ok (s', r) -> s' = s.
  Proof.
    intros A p H. apply (pres_loop (fun s s' => s' = s)); try congruence.
    intros s i s' r E. eapply pure_state; eauto.
  Qed.
  Lemma n_cons : nospec comment_or_nls.
  Proof.
    intros acc. apply (h_pres _ _ (fun s s' => s' = s)); intros; subst; auto.
    apply pres_comment_or_nls; intros; subst; auto.
  Qed.
  Lemma pure_sep : pure array_sep.
  Proof. unfold array_sep, ws. pure_tac. Qed.
  Lemma pure_kvsep : pure keyval_sep.
  Proof. unfold keyval_sep, ws. pure_tac. Qed.

  Section WalkVal.
    Variable pval : P cell.
    Definition vspec (p : P cell) : Prop :=
      forall acc, hoare (G acc) p (G acc) (fun c s => G (acc ++ subcells c) s /\ FR c s).
    Hypothesis PV : vspec pval.

    Lemma i_array_value : ispec (array_value_ pval) (fun av => subcells av.(av_val)).
    Proof.
      intros acc. unfold array_value_. eapply h_bind; [apply PV|]. intros c.
      apply h_bind with (Q1 := fun _ s => G (acc ++ subcells c) s /\ FR c s).
      { apply h_pure; [pure_tac; apply pure_sep| |]; intuition eauto. }
      intros sep. apply h_bind with (Q1 := fun _ s => G (acc ++ subcells c) s /\ FR c s).
      { apply h_complete. apply (h_pres _ _ (fun s s' => s' = s)); intros; subst; intuition eauto.
        apply pres_comment_or_nls; intros; subst; auto. }
      intros nls. apply h_act. intros s s' a [S F] E.
      apply array_value_effect in E as [-> (t & s1 & s2 & kc & _ & M & I & ->)]. cbn [av_val].
      apply G_chain. eapply G_insert; [| |exact I].
      - apply G_types. apply mixed_effect in M as [->|[pk ->]]; auto.
      - apply FR_types. apply mixed_effect in M as [->|[pk ->]]; auto.
    Qed.
    Lemma i_array : ispec (array_ pval) tcells.
    Proof.
      intros acc s i s' r S R. unfold array_ in R. apply rbind_ok in R as ([s1 r1] & R1 & R). inversion R; subst.
      assert (X : ispec (array_internal_ pval) tcells).
      { clear - G_drop PV G_line G_chain G_types G_date G_mixed G_insert FR_types FR_mixed.
        intros acc. unfold array_internal_. eapply h_bind; [apply n_pure; pure_tac|]. intros ?u; cbv beta.
        eapply h_bind; [apply n_cons|]. intros cn1.
        eapply h_bind; [apply i_many0, i_array_value|]. intros vals.
        eapply h_bind; [eapply h_conseq; [apply n_cons|eauto..]|]. intros cn2. cbv beta.
        eapply h_bind; [eapply h_conseq; [apply n_pure; pure_tac|eauto..]|]. intros ?u; cbv beta.
        apply h_ret. auto. }
      eapply X in R1; [|apply G_chain, G_types, S]. destruct r; apply G_types, G_chain; auto.
    Qed.
    Lemma i_keyval : ispec (keyval_p_ pval) kv_cells.
    Proof.
      intros acc. unfold keyval_p_. eapply h_bind; [apply n_key|]. intros k.
      eapply h_bind; [apply n_pure, pure_kvsep|]. intros sep. eapply h_bind; [apply PV|]. intros c.
      apply h_act. intros s s' kv [S F] E. unfold kv_cells.
      apply keyval_effect in E as [-> [[A (e & [->|X] & ->)]|[_ (s1 & I & ->)]]]; cbn [kv_val]; apply G_chain; eauto.
    Qed.
    Lemma i_inline : ispec (inline_table_ pval) tcells.
    Proof.
      intros acc. unfold inline_table_. eapply h_bind; [apply n_pure; pure_tac|]. intros ?u; cbv beta.
      eapply h_bind; [apply n_pure; unfold ws; pure_tac|]. intros w1.
      assert (T : ispec (table_keyval_p_ pval) (fun tk => kv_cells tk.(tk_kv))).
      { clear acc. intros acc. unfold table_keyval_p_. eapply h_bind; [apply i_keyval|]. intros kv. cbv beta.
        eapply h_bind; [eapply h_conseq; [apply n_pure; pure_tac; apply pure_sep|eauto..]|]. intros sep. cbv beta.
        eapply h_bind; [eapply h_conseq; [apply n_complete, n_cons|eauto..]|]. intros nls.
        apply h_ret. auto. }
      apply h_bind with (Q1 := fun kvs => G (acc ++ flat_map (fun tk => kv_cells tk.(tk_kv))
                                 match kvs with Some l => l | None => [] end)).
      { apply h_opt; [apply h_complete, i_many0, T|]. intros. simpl. rewrite app_nil_r. auto. }
      intros kvs. eapply h_bind; [eapply h_conseq; [apply n_pure; unfold ws; pure_tac|eauto..]|]. intros w2. cbv beta.
      eapply h_bind; [eapply h_conseq; [apply n_pure; pure_tac|eauto..]|]. intros ?u; cbv beta. apply h_ret. auto.
    Qed.
    Lemma i_pcell : forall A (p : P A) f,
      (forall acc, hoare (G acc) p (G acc) (fun a s => G (acc ++ tcells (f a)) s /\ Vok (f a) s)) -> vspec (pcell p f).
    Proof.
      intros A p f H acc. unfold pcell. eapply h_bind; [apply h_complete, H|]. intros a. apply h_act.
      intros s s' c [S V] E. inversion E; subst. apply G_new; auto.
    Qed.
    Lemma i_plain : forall A (p : P A) f, pure p -> (forall a, tcells (f a) = []) ->
      (forall a, match f a with TDateTime _ | TArray _ _ _ | TTable => False | _ => True end) ->
      vspec (pcell p f).
    Proof.
      intros A p f H T D. apply i_pcell. intros acc. apply h_pure; auto. intros a s S. rewrite T, app_nil_r. split; auto. apply V_plain, D.
    Qed.
    Hypothesis VA : forall s i s' r t, array_ pval s i = Ok (s', Done r t) -> Vok t s'.
    Lemma i_val_ : vspec (val_ pval).
    Proof.
      unfold val_. intros acc.
      assert (N : forall p acc, ispec p tcells -> (forall s i s' r a, p s i = Ok (s', Done r a) -> Vok a s') ->
        hoare (G acc) p (G acc) (fun a s => G (acc ++ tcells a) s /\ Vok a s)).
      { intros p acc' H D s i s' r S R. pose proof (H _ _ _ _ _ S R). destruct r; eauto. }
      repeat apply h_alt.
      - apply i_pcell. intros. apply N; [apply i_array|exact VA].
      - apply i_pcell. intros. apply N; [apply i_inline|]. intros s i s' r a E. unfold inline_table_ in E. pinv.
        apply V_plain. auto.
      - apply i_pcell. intros acc'. eapply h_conseq; [exact (i_date acc')|auto|auto|]. intros d s [S V].
        cbn [tcells]. rewrite app_nil_r. auto.
      - apply i_plain; [unfold float; pure_tac|reflexivity|auto].
      - apply i_plain; [unfold integer; pure_tac|reflexivity|auto].
      - apply i_plain; [unfold boolean; pure_tac|reflexivity|auto].
      - apply i_pcell. intros acc'. eapply h_conseq; [exact (i_string acc')|auto|auto|]. intros t s [S (x & st & ->)].
        cbn [tcells]. rewrite app_nil_r. split; auto.
    Qed.
  End WalkVal.

  Lemma i_val : forall f, vspec (val f).
  Proof. induction f; cbn [val]; [intros acc s i s' r _ E; discriminate|apply i_val_; eauto]. Qed.
  Lemma i_val_p : vspec val_p.
  Proof. intros acc s i s' r S R. eapply i_val; eauto. Qed.
  Lemma n_table : nospec table_p.
  Proof.
    assert (SK : nospec table_subkeys).
    { intros acc. eapply h_conseq with (Q := fun a => G (acc ++ flat_map (fun _ => []) a)) (E := G acc) (Pre := G acc); auto; [|intros a s H; eauto].
      apply i_many0. intros acc'. unfold table_subkey. repeat (eapply h_bind; [solve [apply n_pure; unfold ws; pure_tac]|intros]).
        eapply h_bind; [apply n_key|]. intros. apply h_ret. intros. rewrite app_nil_r. auto. }
    intros acc. unfold table_p, array_table, std_table.
    apply h_alt; apply h_complete; repeat (eapply h_bind; [first [apply n_key|apply SK|apply n_pure; unfold ws; pure_tac]|intros]);
      apply h_act; intros; eauto.
  Qed.
  Lemma i_expression : ispec expression_p ex_cells.
  Proof.
    intros acc. unfold expression_p. repeat apply h_alt; apply h_complete.
    - unfold table_comment. repeat (eapply h_bind; [first [apply n_table|apply n_pure; unfold ws, comment; pure_tac]|intros]).
      apply h_ret. intros. unfold ex_cells. cbn [e_keyval]. rewrite app_nil_r. auto.
    - unfold keyval_comment. eapply h_bind; [apply n_pure; unfold ws; pure_tac|]. intros w.
      eapply h_bind; [apply i_keyval, i_val_p|]. intros kv. cbv beta.
      repeat (eapply h_bind; [eapply h_conseq; [apply n_pure; unfold ws, comment; pure_tac|eauto..]|cbv beta; intros]).
      apply h_ret. intros. auto.
    - unfold ws_comment. repeat (eapply h_bind; [apply n_pure; unfold ws, comment; pure_tac|intros]).
      apply h_ret. intros. unfold ex_cells. cbn [e_keyval]. rewrite app_nil_r. auto.
    - unfold ws_expr. repeat (eapply h_bind; [apply n_pure; unfold ws, comment; pure_tac|intros]).
      apply h_ret. intros. unfold ex_cells. cbn [e_keyval]. rewrite app_nil_r. auto.
  Qed.
  Lemma i_toml : ispec toml_p toml_cells.
  Proof.
    intros acc. unfold toml_p. eapply h_bind; [apply i_expression|]. intros e. cbv beta.
    eapply h_bind.
    - eapply h_conseq; [apply (i_many0 _ _ (fun ne => ex_cells ne.(ne_expr)))|eauto..].
      clear acc. intros acc. unfold nl_expression_p. eapply h_bind; [apply n_newline|]. intros nl.
      eapply h_bind; [apply i_expression|]. intros x. apply h_ret. auto.
    - intros l. apply h_ret. intros s S. unfold toml_cells. cbn [flat_map ne_expr]. rewrite app_assoc. auto.
  Qed.
End Walk.
