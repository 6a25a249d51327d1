(** The line numbers of errors. *)
From Coq Require Import Lia ZifyBool ZifyNat ZifyN Sorting.Sorted.
From Verif Require Import TotalFacts Str Regex Types Ast State Nom Keys Grammar Api Facts Spec RegexFacts NomFacts DateFacts RoundTrip Effects
  ParseFacts WalkFacts StringFacts LineFacts ScalarFacts HeadSpec SafeFacts CountFacts ReportFacts OrderSpec.

(** ** The errors that are added *)
Definition elines (s : pst) : list N := map error_line s.(p_errors).
Definition added (s s' : pst) (new : list N) : Prop :=
  s.(p_line) <= s'.(p_line) /\ elines s' = elines s ++ new /\ Forall (fun m => s.(p_line) <= m <= s'.(p_line)) new /\ StronglySorted N.le new.
Definition adds (s s' : pst) : Prop := exists new, added s s' new.

Lemma sorted_app : forall a b l r, Forall (fun m => m <= b) l -> Forall (fun m => a <= m) r -> b <= a ->
  StronglySorted N.le l -> StronglySorted N.le r -> StronglySorted N.le (l ++ r).
Proof.
  intros a b l r L R AB SL SR. induction SL as [|x l S IH H]; auto. cbn [app]. inversion L; subst. constructor; auto.
  apply Forall_app. split; auto. eapply Forall_impl; [|exact R]. cbn. intros. lia.
Qed.
Lemma added_trans : forall a b c x y, added a b x -> added b c y -> added a c (x ++ y).
Proof.
  intros a b c x y (L1 & E1 & F1 & S1) (L2 & E2 & F2 & S2). split; [lia|]. split; [rewrite E2, E1, app_assoc; auto|]. split.
  - apply Forall_app. split; (eapply Forall_impl; [|eassumption]); cbn; intros; lia.
  - apply (sorted_app (p_line b) (p_line b)); auto; try lia; (eapply Forall_impl; [|eassumption]); cbn; intros; lia.
Qed.
Lemma adds_trans : forall a b c, adds a b -> adds b c -> adds a c.
Proof. intros a b c (x & X) (y & Y). exists (x ++ y). eapply added_trans; eauto. Qed.
Lemma added_none : forall s s', s.(p_line) <= s'.(p_line) -> s'.(p_errors) = s.(p_errors) -> added s s' [].
Proof. intros s s' L E. split; auto. split; [unfold elines; rewrite E, app_nil_r; auto|]. split; constructor. Qed.
Lemma adds_same : forall s s', s.(p_line) <= s'.(p_line) -> s'.(p_errors) = s.(p_errors) -> adds s s'.
Proof. intros. exists []. apply added_none; auto. Qed.
Lemma adds_push : forall s s' e, s'.(p_line) = s.(p_line) -> s'.(p_errors) = vpush s.(p_errors) e -> error_line e = s.(p_line) -> adds s s'.
Proof.
  intros s s' e L E EL. exists [error_line e]. split; [lia|]. split; [unfold elines; rewrite E; unfold vpush; rewrite map_app; auto|].
  split; constructor; auto; [lia|constructor].
Qed.
Lemma adds_insert : forall s c s', insert_keyval_into_map s c = Ok s' -> adds s s'.
Proof.
  intros s c s' H. apply insert_effect in H as [(fk & v & ->)|(m & ->)]; [eapply adds_push; reflexivity|apply adds_same; [cbn; lia|reflexivity]].
Qed.
Lemma adds_ext : forall s e, s.(p_array_error) = true -> last_ext s.(p_errors) e -> adds s (set_errors e s).
Proof.
  intros s e _ (l & tk & line & kvs & k & x & E & ->). exists []. split; [cbn; lia|].
  split; [unfold elines; cbn [p_errors set_errors]; rewrite E, !map_app, app_nil_r; reflexivity|]. split; constructor.
Qed.
Lemma adds_std : forall w1 w2 k l s s' t, std_table_act w1 w2 k l s = Ok (s', t) -> adds s s'.
Proof.
  intros w1 w2 k l s s' t H. apply std_table_effect in H as [_ [(kc & ts & ti & tk & ->)|(kc & ts & ti & m & ->)]].
  - eapply adds_push; reflexivity.
  - apply adds_same; [cbn; lia|reflexivity].
Qed.
Lemma adds_arr : forall w1 w2 k l s s' t, array_table_act w1 w2 k l s = Ok (s', t) -> adds s s'.
Proof.
  intros w1 w2 k l s s' t H. apply array_table_effect in H as [_ [(kc & ts & ti & m & tk & ->)|(kc & ts & ti & m & ->)]].
  - eapply adds_push; reflexivity.
  - apply adds_same; [cbn; lia|reflexivity].
Qed.
Lemma adds_expression : pres adds expression_p.
Proof.
  apply pres_expression; try (intros; apply adds_same; [cbn; lia|reflexivity]); try (intros; eapply adds_push; reflexivity).
  - exact adds_trans.
  - exact adds_insert.
  - exact adds_ext.
  - exact adds_std.
  - exact adds_arr.
Qed.

(** ** One expression *)
(** the rest does not start with a key or a header *)
Definition void_head (j : str) : Prop := match j with [] => True | c :: _ => c <> 34 /\ c <> 91 /\ ~ bare_char c end.
Lemma void_key : forall s j s' r, void_head j -> key_p s j = Ok (s', r) -> s' = s /\ forall a b, r <> Done a b.
Proof.
  intros s j s' r V H. assert (X : s' = s \/ exists a b, r = Done a b).
  { unfold key_p, alt in H. apply rbind_ok in H as ([s1 r1] & E1 & H). unfold bind in E1. apply rbind_ok in E1 as ([s2 r2] & E2 & E1).
    assert (s2 = s) by (eapply (pure_state (complete quoted_key)); [unfold quoted_key; pure_tac|exact E2]). subst s2.
    destruct r2; inversion E1; subst; [inversion H; subst; eauto| |inversion H; auto].
    unfold bind in H. apply rbind_ok in H as ([s2 r2] & E3 & H).
    assert (s2 = s1) by (eapply (pure_state (complete unquoted_key)); [unfold unquoted_key; pure_tac|exact E3]). subst s2.
    destruct r2; inversion H; subst; eauto. }
  assert (ND : forall a b, r <> Done a b).
  { intros a b ->. apply key_text in H as [-> NT]. destruct (name_head b a NT) as (d & y & E & D). rewrite E in V. cbn in V. tauto. }
  split; auto. destruct X as [X|(a & b & ->)]; auto. destruct (ND a b eq_refl).
Qed.
Lemma void_keyval : forall s i s' w j, ws s i = Ok (s, Done j w) -> void_head j -> complete keyval_comment s i = Ok (s', Error) -> s' = s.
Proof.
  intros s i s' w j W V H. unfold complete in H. apply rbind_ok in H as ([s1 r1] & E & H).
  assert (s1 = s') by (inversion H; auto). subst s1. unfold keyval_comment in E. unfold bind at 1 in E. rewrite W in E. cbn [rbind] in E.
  unfold bind at 1 in E. apply rbind_ok in E as ([s2 r2] & E2 & E). unfold keyval_p, keyval_p_ in E2. unfold bind at 1 in E2.
  apply rbind_ok in E2 as ([s3 r3] & E3 & E2). apply void_key in E3 as [-> ND]; auto. destruct r3; [destruct (ND rest a eq_refl)| |];
    inversion E2; subst; inversion E; auto.
Qed.
Lemma void_table : forall s i s' w j, ws s i = Ok (s, Done j w) -> void_head j -> complete table_comment s i = Ok (s', Error) -> s' = s.
Proof.
  intros s i s' w j W V H. unfold complete in H. apply rbind_ok in H as ([s1 r1] & E & H).
  assert (s1 = s') by (inversion H; auto). subst s1. unfold table_comment in E. unfold bind at 1 in E. rewrite W in E. cbn [rbind] in E.
  unfold bind at 1 in E. apply rbind_ok in E as ([s2 r2] & E2 & E).
  assert (T : forall A t (f : P A), (t = lit "[" \/ t = lit "[[") -> forall q, (tag t ;;; f) s j = Ok q -> fst q = s /\ forall a b, snd q <> Done a b).
  { intros A t f HT q Q. unfold bind in Q. apply rbind_ok in Q as ([s3 r3] & E3 & Q).
    assert (s3 = s) by (eapply (pure_state (tag t)); [pure_tac|exact E3]). subst s3. destruct r3; [|inversion Q; subst; split; auto; discriminate..].
    exfalso. apply tag_done in E3 as (_ & -> & E3). subst j. destruct HT as [-> | ->]; cbn in V; tauto. }
  unfold table_p, alt in E2. apply rbind_ok in E2 as ([s3 r3] & E3 & E2). unfold complete in E3. apply rbind_ok in E3 as ([s4 r4] & E4 & E3).
  unfold array_table in E4. apply T in E4 as [X ND]; auto. cbn in X. subst s4. cbn [snd] in ND.
  destruct r4; [destruct (ND rest a eq_refl)| |]; inversion E3; subst.
  all: unfold complete in E2; apply rbind_ok in E2 as ([s5 r5] & E5 & E2); unfold std_table in E5; apply T in E5 as [X ND5]; auto; cbn in X; subst s5; cbn [snd] in ND5;
    (destruct r5 as [j5 a5| |]; [destruct (ND5 j5 a5 eq_refl)| |]); inversion E2; subst; inversion E; auto.
Qed.
Lemma busy_lines : forall s i s' r e, expression_p s i = Ok (s', Done r e) -> ~ idle e ->
  s'.(p_line) + expr_lines e = s.(p_line) + line_feeds (ex_src e).
Proof.
  intros s i s' r e H NI. unfold expression_p in H. apply alt_done in H as [H|(s1 & E1 & H)].
  - apply complete_done in H. pose proof (table_comment_line _ _ _ _ H) as L. unfold table_comment in H.
    apply bind_done in H as (s1 & i1 & w1 & E1 & H). apply bind_done in H as (s2 & i2 & t & E2 & H).
    apply bind_done in H as (s3 & i3 & w2 & E3 & H). apply bind_done in H as (s4 & i4 & c & E4 & H). apply ret_done in H as (_ & _ & ->).
    apply ws_blanks in E1 as (_ & _ & E1). apply ws_blanks in E3 as (_ & _ & E3). apply table_lf in E2. apply opt_comment_lf in E4 as [_ E4].
    unfold expr_lines, ex_src. cbn [e_ws e_keyval e_table e_comment ws1 ws2]. rewrite !line_feeds_app, (ws_lf w1), (ws_lf w2) by auto.
    change (line_feeds []) with 0. unfold same_line in L. lia.
  - assert (L1 : same_line s s1). { eapply (pres_complete same_line); [exact table_comment_line|exact E1]. }
    clear E1. apply alt_done in H as [H|(s2 & E2 & H)].
    + apply complete_done in H. unfold keyval_comment in H.
      apply bind_done in H as (s2 & i1 & w1 & E1 & H). apply bind_done in H as (s3 & i2 & kv & E2 & H).
      apply bind_done in H as (s4 & i3 & w2 & E3 & H). apply bind_done in H as (s5 & i4 & c & E4 & H). apply ret_done in H as (-> & -> & ->).
      apply ws_blanks in E1 as (-> & _ & E1). apply ws_blanks in E3 as (-> & _ & E3). apply opt_comment_lf in E4 as [L2 E4].
      apply (keyval_count val_p vcount_val_p) in E2.
      unfold expr_lines, ex_src. cbn [e_ws e_keyval e_table e_comment ws1 ws2]. rewrite !line_feeds_app, (ws_lf w1), (ws_lf w2) by auto.
      change (line_feeds []) with 0. unfold same_line in *. lia.
    + exfalso. apply NI. apply alt_done in H as [H|(s3 & E3 & H)]; apply complete_done in H; [unfold ws_comment in H|unfold ws_expr in H].
      * apply bind_done in H as (s3 & i1 & w & E1 & H). apply bind_done in H as (s4 & i2 & c & E3 & H).
        apply ret_done in H as (_ & _ & ->). split; reflexivity.
      * apply bind_done in H as (s4 & i1 & w & E1 & H). apply ret_done in H as (_ & _ & ->). split; reflexivity.
Qed.
Lemma idle_step : forall s i s' r e, expression_p s i = Ok (s', Done r e) -> idle e ->
  counted e = 0 /\ s'.(p_line) <= s.(p_line) + line_feeds r /\ (void_head r -> s' = s).
Proof.
  intros s i s' r e H [IK IT]. destruct (expr_extra _ _ _ _ _ H) as (d & L & [XL _]).
  pose proof (reads_expression _ _ _ _ _ H) as RE.
  assert (C : line_feeds (ex_src e) = 0 /\ (void_head r -> s' = s)).
  { unfold expression_p in H. apply alt_done in H as [H|(s1 & E1 & H)].
    { exfalso. apply complete_done in H. unfold table_comment in H.
      apply bind_done in H as (s1 & i1 & w1 & E1 & H). apply bind_done in H as (s2 & i2 & t & E2 & H).
      apply bind_done in H as (s3 & i3 & w2 & E3 & H). apply bind_done in H as (s4 & i4 & c & E4 & H). apply ret_done in H as (_ & _ & ->). discriminate. }
    apply alt_done in H as [H|(s2 & E2 & H)].
    { exfalso. apply complete_done in H. unfold keyval_comment in H.
      apply bind_done in H as (s2 & i1 & w1 & E3 & H). apply bind_done in H as (s3 & i2 & kv & E2 & H).
      apply bind_done in H as (s4 & i3 & w2 & E4 & H). apply bind_done in H as (s5 & i4 & c & E5 & H). apply ret_done in H as (-> & -> & ->). discriminate. }
    assert (V : forall j w x, ws x i = Ok (x, Done j w) -> void_head j -> s2 = s).
    { intros j w x W V. assert (W2 : forall y, ws y i = Ok (y, Done j w)). { intros y. rewrite ws_eq in *. inversion W. reflexivity. }
      eapply void_table in E1; [|apply W2|exact V]. subst s1. eapply void_keyval in E2; [|apply W2|exact V]. exact E2. }
    apply alt_done in H as [H|(s3 & E3 & H)]; apply complete_done in H.
    - unfold ws_comment in H. apply bind_done in H as (s3 & i1 & w & E3 & H). apply bind_done in H as (s4 & i2 & c & E4 & H).
      apply ret_done in H as (-> & -> & ->). pose proof (ws_blanks _ _ _ _ _ E3) as (-> & _ & B).
      assert (s2 = s). { eapply V; [exact E3|]. pose proof E4 as E5. apply reads_comment in E5. subst i1. cbn. unfold bare_char. lia. }
      subst s2. assert (s4 = s) by (eapply (pure_state comment); [unfold comment; pure_tac|exact E4]). subst s4. apply comment_lf in E4 as [_ E4].
      split; [|auto]. unfold ex_src. cbn [e_ws e_keyval e_table e_comment ws1 ws2 com_src]. unfold show_comment.
      rewrite !line_feeds_app, (ws_lf w), E4 by auto. reflexivity.
    - assert (s3 = s2). { eapply (pure_state (complete ws_comment)); [unfold ws_comment, comment, ws; pure_tac|exact E3]. }
      subst s3. unfold ws_expr in H. apply bind_done in H as (s3 & i1 & w & E4 & H). apply ret_done in H as (-> & -> & ->).
      pose proof (ws_blanks _ _ _ _ _ E4) as (-> & _ & B). split; [|intros VH; eapply V; eauto].
      unfold ex_src. cbn [e_ws e_keyval e_table e_comment ws1 ws2 com_src]. rewrite !line_feeds_app, (ws_lf w) by auto. reflexivity. }
  destruct C as [C V]. split; [|split; [|exact V]].
  - unfold counted. rewrite IK, C. reflexivity.
  - unfold expr_lines in L. rewrite IK, C in L. lia.
Qed.

(** ** A document *)
(** the errors [new] of expressions [d], from line [n] on, with the rest [r] *)
Definition spread (n : N) (d : toml) (r : str) (new : list N) (last : N) : Prop :=
  exists here rest, new = here ++ rest /\ placed n d here /\ Forall (fun m => end_line n d <= m) rest /\
    last <= end_line n d + line_feeds r /\ (r = [] -> rest = []).
Lemma expr_spread : forall s i s' r e nl n, expression_p s i = Ok (s', Done r e) -> s.(p_line) = n + line_feeds nl ->
  exists new, added s s' new /\
    spread n [{| ne_nl := nl; ne_expr := e |}] r new s'.(p_line) /\
    (void_head r -> s'.(p_line) = n + line_feeds nl + counted e /\ (idle e -> new = [])).
Proof.
  intros s i s' r e nl n H L. destruct (adds_expression _ _ _ _ H) as (new & A). exists new. split; auto.
  assert (D : idle e \/ ~ idle e). { unfold idle. destruct (e_keyval e), (e_table e); [right; intros []; congruence..|left; auto]. }
  destruct D as [D|D].
  - destruct (idle_step _ _ _ _ _ H D) as (C & U & V).
    assert (VN : void_head r -> new = []).
    { intros VH. rewrite (V VH) in A. destruct A as (_ & A & _). rewrite <- (app_nil_r (elines s)) in A at 1. apply app_inv_head in A. auto. }
    split; [|intros VH; split; auto; rewrite (V VH), C; lia].
    exists [], new. split; auto. split.
    { cbn [placed ne_nl ne_expr]. exists [], []. repeat split; auto. }
    cbn [end_line ne_nl ne_expr]. rewrite C. split; [|split].
    + destruct A as (_ & _ & F & _). eapply Forall_impl; [|exact F]. cbn. intros. lia.
    + lia.
    + intros ->. apply VN. exact I.
  - pose proof (busy_lines _ _ _ _ _ H D) as B. destruct A as (A1 & _ & F & _).
    assert (E : s'.(p_line) = n + line_feeds nl + counted e) by (unfold counted; fold (expr_lines e); lia).
    split; [|intros _; split; auto; intros; contradiction].
    exists new, []. rewrite app_nil_r. split; auto. split; [|split; [constructor|split; auto]].
    + cbn [placed ne_nl ne_expr]. exists new, []. rewrite app_nil_r. split; auto. split; [|split; [intros; contradiction|auto]].
      eapply Forall_impl; [|exact F]. cbn. intros. lia.
    + cbn [end_line ne_nl ne_expr]. lia.
Qed.
Lemma newline_quiet : forall s i s' r, newline s i = Ok (s', r) ->
  match r with
  | Done j nl => void_head i /\ s'.(p_line) = s.(p_line) + line_feeds nl /\ s'.(p_errors) = s.(p_errors)
  | _ => s' = s
  end.
Proof.
  intros s i s' r H. pose proof (newline_count _ _ _ _ H) as C. destruct r; auto. destruct C as [C _]. unfold newline in H.
  apply alt_done in H as [H|(s1 & E1 & H)].
  - apply bind_done in H as (s1 & i1 & a1 & E & H). apply complete_done in E. apply tag_done in E as (-> & -> & ->). inversion H; subst.
    split; [cbn; unfold bare_char; lia|]. split; auto.
  - assert (s1 = s). { unfold bind in E1. apply rbind_ok in E1 as ([s2 r2] & E2 & E1).
      assert (s2 = s) by (eapply (pure_state (complete (tag _))); [pure_tac|exact E2]). subst s2. destruct r2; inversion E1; subst; auto. }
    subst s1. apply bind_done in H as (s1 & i1 & a1 & E & H). apply complete_done in E. apply tag_done in E as (-> & -> & ->). inversion H; subst.
    split; [cbn; unfold bare_char; lia|]. split; auto.
Qed.
(** an expression and the ones after it *)
Lemma spread_cons : forall s s1 s2 n nl e r l r' new new2, 
  added s s1 new -> spread n [{| ne_nl := nl; ne_expr := e |}] r new s1.(p_line) ->
  (void_head r -> s1.(p_line) = n + line_feeds nl + counted e /\ (idle e -> new = [])) ->
  added s1 s2 new2 -> spread s1.(p_line) l r' new2 s2.(p_line) -> (void_head r \/ r = r' /\ l = [] /\ s2 = s1 /\ new2 = []) ->
  spread n ({| ne_nl := nl; ne_expr := e |} :: l) r' (new ++ new2) s2.(p_line).
Proof.
  intros s s1 s2 n nl e r l r' new new2 A SP V A2 SP2 [VH|(-> & -> & -> & ->)]; [|rewrite app_nil_r; exact SP].
  destruct (V VH) as [L ID]. destruct SP2 as (here & rest & E & P & F & U & R). rewrite L in *.
  assert (H : exists h, new = h /\ placed n [{| ne_nl := nl; ne_expr := e |}] h).
  { destruct SP as (h1 & r1 & E1 & P1 & F1 & U1 & R1). exists new. split; auto. cbn [placed ne_nl ne_expr end_line] in *.
    exists new, []. rewrite app_nil_r. split; auto. split; [|split; auto].
    destruct P1 as (h2 & l2 & -> & FH & _ & ->). rewrite app_nil_r in E1. subst new. apply Forall_app. split; auto.
    destruct A as (_ & _ & FA & _). apply Forall_app in FA as [_ FA]. rewrite Forall_forall in *. intros m IM. specialize (F1 m IM). specialize (FA m IM). lia. }
  destruct H as (h & <- & PH). exists (new ++ here), rest. split; [rewrite E, app_assoc; auto|].
  cbn [end_line placed ne_nl ne_expr] in *. split; [|auto].
  exists new, here. split; auto. split; [|split; auto].
  destruct PH as (h2 & l2 & -> & FH & _ & ->). rewrite app_nil_r. exact FH.
Qed.
Lemma loop_spread : forall n s i s' r l, many_loop n nl_expression_p s i = Ok (s', Done r l) ->
  exists new, added s s' new /\ spread s.(p_line) l r new s'.(p_line) /\ (void_head i \/ i = r /\ l = [] /\ s' = s /\ new = []).
Proof.
  induction n; intros s i s' r l H; [discriminate|]. cbn [many_loop] in H.
  assert (Z : forall s i, exists new, added s s new /\ spread s.(p_line) [] i new s.(p_line) /\ (void_head i \/ i = i /\ @nil nl_expression = [] /\ s = s /\ new = [])).
  { intros s0 i0. exists []. split; [apply added_none; auto; lia|]. split; [|right; auto]. exists [], []. cbn. repeat split; auto. lia. }
  destruct i as [|c i]; [inversion H; subst; apply Z|].
  apply rbind_ok in H as ([s1 r1] & E & H). unfold nl_expression_p in E at 1. unfold bind at 1 in E.
  apply rbind_ok in E as ([s2 r2] & E2 & E). pose proof (newline_quiet _ _ _ _ E2) as C2.
  destruct r2 as [i2 nl| |]; [|inversion E; subst; inversion H; subst; apply Z|inversion E; subst; inversion H].
  destruct C2 as (VH & L2 & EQ2). apply newline_short in E2. unfold bind at 1 in E. apply rbind_ok in E as ([s3 r3] & E3 & E).
  destruct (expression_done _ _ _ _ E3) as (i3 & e & ->). inversion E; subst. clear E. pose proof (reads_expression _ _ _ _ _ E3) as RE.
  match type of H with (if ?b then _ else _) = _ => destruct b eqn:NB end.
  { exfalso. apply Nat.eqb_eq in NB. subst i2. rewrite app_length in E2. lia. }
  apply rbind_ok in H as ([s4 r4] & E4 & H). destruct r4; inversion H; subst. apply IHn in E4 as (new2 & A2 & SP2 & D2).
  destruct (expr_spread _ _ _ _ _ nl (p_line s) E3 L2) as (new & A & SP & V).
  exists (new ++ new2). split; [|split; auto].
  - change (new ++ new2) with ([] ++ (new ++ new2)). eapply added_trans; [apply added_none; [|exact EQ2]; lia|]. eapply added_trans; eauto.
  - eapply spread_cons; eauto.
Qed.
Lemma toml_spread : forall s i s' r t, toml_p s i = Ok (s', Done r t) -> exists new, added s s' new /\ spread s.(p_line) t r new s'.(p_line).
Proof.
  intros s i s' r t T. unfold toml_p in T. apply bind_done in T as (s2 & i1 & e & E1 & T). apply bind_done in T as (s3 & i2 & l & E2 & T).
  apply ret_done in T as (-> & -> & ->). apply loop_spread in E2 as (new2 & A2 & SP2 & D2).
  destruct (expr_spread _ _ _ _ _ [] (p_line s) E1) as (new & A & SP & V); [cbn; lia|].
  exists (new ++ new2). split; [eapply added_trans; eauto|]. eapply spread_cons; eauto.
Qed.

Lemma errors_in_order : forall p i s r, parse p i = Ok (s, r) ->
  exists old new here rest, s.(p_errors) = old ++ new /\ Forall2 same_error p.(p_errors) old /\ listed r = s.(p_errors) /\
    map error_line new = here ++ rest /\ placed p.(p_line) s.(p_root) here /\
    Forall (fun m => end_line p.(p_line) s.(p_root) <= m <= end_line p.(p_line) s.(p_root) + line_feeds s.(p_leftover)) rest /\
    (s.(p_leftover) = [] -> rest = []) /\ StronglySorted N.le (map error_line new) /\
    forall n, reports r n -> Forall (fun m => p.(p_line) <= m <= n) (map error_line new).
Proof.
  intros p i s r H. destruct (parse_inv _ _ _ _ H) as (s1 & rest & t & T & EI & -> & L).
  cbn [p_root p_leftover p_errors set_leftover set_root] in *. destruct (grow_toml _ _ _ _ T) as (old & new & EN & F).
  apply toml_spread in T as (lines & (A1 & A2 & A3 & A4) & (here & left & E & P & FL & U & R)).
  exists old, new, here, left. split; auto.
  assert (F' : Forall2 same_error (p_errors p) old).
  { clear - F. induction F as [|a b la lb Q F IH]; constructor; auto. destruct Q as [<-|(k & n & x & y & -> & -> & _)]; [left; auto|right; eauto 8]. }
  assert (EL : map error_line new = lines).
  { unfold elines in A2. rewrite EN, map_app in A2. replace (map error_line old) with (map error_line (p_errors p)) in A2; [apply app_inv_head in A2; auto|].
    clear - F'. induction F' as [|a b la lb Q F IH]; auto. cbn [map]. f_equal; auto. destruct Q as [<-|(k & n & x & y & -> & ->)]; auto. }
  split; auto. split; [subst r; destruct rest, (p_errors s1); auto|]. rewrite EL. split; auto. split; auto. split; [|split; [auto|split; auto]].
  - rewrite Forall_forall in *. intros m IM. specialize (FL m IM). assert (IL : In m lines) by (rewrite E; apply in_or_app; auto). specialize (A3 m IL). lia.
  - intros n RN. assert (n = p_line s1) by (destruct RN as [(x & ->)|(x & e & ->)]; destruct rest; destruct (p_errors _); inversion L; auto). subst n. exact A3.
Qed.
Lemma end_within : forall t n, end_line n t <= n + line_feeds (toml_src t).
Proof.
  induction t as [|x t IH]; intros n; cbn [end_line]; [lia|]. specialize (IH (n + line_feeds (ne_nl x) + counted (ne_expr x))).
  unfold toml_src in *. cbn [map concat]. unfold ne_src at 1. rewrite !line_feeds_app. unfold counted in *. lia.
Qed.
Lemma end_after : forall t n, n <= end_line n t.
Proof. induction t as [|x t IH]; intros n; cbn [end_line]; [lia|]. specialize (IH (n + line_feeds (ne_nl x) + counted (ne_expr x))). lia. Qed.
Lemma placed_within : forall t n es, placed n t es -> Forall (fun m => n <= m <= end_line n t) es.
Proof.
  induction t as [|x t IH]; intros n es H; cbn [placed] in H; [subst; constructor|]. destruct H as (here & later & -> & F & _ & P).
  apply IH in P. cbn [end_line]. apply Forall_app. split; (eapply Forall_impl; [|eassumption]); cbn; intros m B; [|lia].
  pose proof (end_after t (n + line_feeds (ne_nl x) + counted (ne_expr x))). lia.
Qed.
Lemma errors_within : forall p i s r, parse p i = Ok (s, r) ->
  exists old new, s.(p_errors) = old ++ new /\ Forall2 same_error p.(p_errors) old /\
    Forall (fun e => p.(p_line) <= error_line e <= p.(p_line) + line_feeds i) new.
Proof.
  intros p i s r H. destruct (errors_in_order _ _ _ _ H) as (old & new & here & rest & E & F & _ & M & P & R & _).
  exists old, new. split; auto. split; auto. apply placed_within in P.
  destruct (parse_inv _ _ _ _ H) as (s1 & left & t & _ & EI & -> & _). cbn [p_root p_leftover p_errors set_leftover set_root] in *.
  pose proof (end_within t (p_line p)) as W. pose proof (end_after t (p_line p)) as W2. subst i. rewrite line_feeds_app. apply Forall_forall. intros e I. apply (in_map error_line) in I. rewrite M in I.
  rewrite Forall_forall in P, R. apply in_app_or in I as [I|I]; [apply P in I|apply R in I]; lia.
Qed.
