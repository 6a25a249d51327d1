(** How many lines the parser counts. *)
From Coq Require Import Lia ZifyBool ZifyNat ZifyN.
From Verif Require Import TotalFacts Str Regex Types Ast State Nom Keys Grammar Api Facts Spec RegexFacts NomFacts DateFacts NumFacts StringFacts RoundTrip Effects
  ScalarFacts LineFacts ParseFacts WalkFacts HeadSpec SafeFacts.

(** characters that no match of an expression contains *)
Fixpoint avoid (c : N) (r : re) : bool :=
  match r with
  | REps => true
  | RCls l => negb (in_ranges c l)
  | RSeq a b | RAlt a b => avoid c a && avoid c b
  | RStar _ a => avoid c a
  end.
Lemma avoid_lang : forall c r m, lang r m -> avoid c r = true -> ~ In c m.
Proof.
  intros c r m H. induction H; cbn [avoid]; intros A I; rewrite ?in_app_iff, ?Bool.andb_true_iff in *; cbn in I; try tauto.
  destruct I as [->|[]]. rewrite H in A. discriminate.
Qed.

Fixpoint bounded (r : re) : bool :=
  match r with
  | REps => true
  | RCls l => forallb (fun x => snd x <=? 0x10FFFF) l
  | RSeq a b | RAlt a b => bounded a && bounded b
  | RStar _ a => bounded a
  end.
Lemma bounded_lang : forall r m, lang r m -> bounded r = true -> uni m.
Proof.
  intros r m H. unfold uni. induction H; cbn [bounded]; intros A; rewrite ?Bool.andb_true_iff in A; try (apply Forall_app; tauto); try tauto; auto.
  constructor; auto. induction l as [|[lo hi] l IH]; cbn [in_ranges forallb snd] in *; [discriminate|].
  rewrite Bool.andb_true_iff in A. destruct A as [A1 A2]. destruct (in_ranges c l); [auto|]. lia.
Qed.

Definition same_line (s s' : pst) : Prop := s'.(p_line) = s.(p_line).
Lemma same_trans : forall a b c, same_line a b -> same_line b c -> same_line a c.
Proof. unfold same_line. congruence. Qed.
Lemma same_refl : forall a, same_line a a.
Proof. reflexivity. Qed.

Lemma same_key : pres same_line key_p.
Proof. apply pres_key; try exact same_trans; intros; reflexivity. Qed.
Lemma same_insert : forall s c s', insert_keyval_into_map s c = Ok s' -> same_line s s'.
Proof. intros s c s' I. apply insert_effect in I as [(fk & v & ->)|(m & ->)]; reflexivity. Qed.
Lemma same_date : pres same_line date_time.
Proof. apply pres_date_time; try exact same_trans; intros; reflexivity. Qed.
Lemma same_table : pres same_line table_p.
Proof.
  apply pres_table; try exact same_trans; try (intros; reflexivity).
  - intros w1 w2 k l s s' t H. apply std_table_effect in H as [_ [(? & ? & ? & ? & ->)|(? & ? & ? & ? & ->)]]; reflexivity.
  - intros w1 w2 k l s s' t H. apply array_table_effect in H as [_ [(? & ? & ? & ? & ? & ->)|(? & ? & ? & ? & ->)]]; reflexivity.
Qed.
Lemma same_keyval_act : forall k sep v s s' kv, keyval_act k sep v s = Ok (s', kv) -> same_line s s'.
Proof. apply R_keyval_act; try exact same_trans; try (intros; reflexivity). exact same_insert. Qed.
Lemma same_value_act : forall v sep nls s s' a, array_value_act v sep nls s = Ok (s', a) -> same_line s s'.
Proof. apply R_array_value_act; try exact same_trans; try (intros; reflexivity). exact same_insert. Qed.
Lemma same_pure : forall A (p : P A), pure p -> pres same_line p.
Proof. intros A p H s i s' r E. apply (pure_state _ H) in E. subst. reflexivity. Qed.

(** ** Strings *)
(** no scalar starts with one of these *)
Definition others : list N := [91; 123; 32; 9; 10; 13; 35; 93; 125].
Definition opens_value (i : str) : Prop := match i with [] => False | c :: _ => ~ In c others end.
Lemma string_lines : forall s i s' r, string_p s i = Ok (s', r) ->
  match r with
  | Done _ t => s'.(p_line) = s.(p_line) + line_feeds (tsrc t) /\ layout_lines t = 0 /\ opens_value i
  | _ => same_line s s'
  end.
Proof.
  intros s i s' r H.
  assert (HD : forall q q' m, (q' = 34 \/ q' = 39) -> q = q' -> opens_value (q :: m)).
  { intros q q' m Q ->. unfold opens_value. destruct Q as [-> | ->]; cbn; lia. }
  assert (X : forall (p : P str) st, (forall s i s' r, p s i = Ok (s', r) -> match r with
     | Done _ x => s'.(p_line) = s.(p_line) + line_feeds (show_string x st) /\ opens_value i | _ => same_line s s' end) ->
    forall s i s' r, pmap (complete p) (fun x => TString x st) s i = Ok (s', r) -> match r with
     | Done _ t => s'.(p_line) = s.(p_line) + line_feeds (tsrc t) /\ layout_lines t = 0 /\ opens_value i | _ => same_line s s' end).
  { clear. intros p st H s i s' r E. unfold pmap, bind, complete in E. apply rbind_ok in E as ([s1 r1] & E1 & E).
    apply rbind_ok in E1 as ([s2 r2] & E1 & E2). inversion E2; subst. apply H in E1. destruct r2; inversion E; subst; auto.
    cbn [tsrc layout_lines]. tauto. }
  assert (RE : forall re f s i s' r, avoid 10 re = true -> (forall m, lang re m -> exists q m', m = q :: m' /\ (q = 34 \/ q = 39)) ->
    forall st, reads (pmap (re_find re) f) (str_src st) ->
    pmap (re_find re) f s i = Ok (s', r) -> match r with
     | Done _ x => s'.(p_line) = s.(p_line) + line_feeds (show_string x st) /\ opens_value i | _ => same_line s s' end).
  { clear - HD. intros re f s i s' r AV HQ st RD E. assert (s' = s) by (eapply (pure_state (pmap (re_find re) f)); [pure_tac|exact E]).
    subst s'. destruct r as [rest x| |]; try reflexivity. pose proof (RD _ _ _ _ _ E) as SR. apply pmap_done in E as (m & E & ->).
    apply re_find_done in E as (_ & -> & L). apply app_inv_tail in SR. unfold str_src in SR. rewrite <- SR.
    rewrite no_lf by (eapply avoid_lang; eauto). split; [lia|]. apply HQ in L as (q & m' & -> & Q). apply (HD q q); auto. }
  assert (ML : forall re n s i s' r, bounded re = true -> (forall m, lang re m -> exists q m', m = q :: m' /\ (q = 34 \/ q = 39)) ->
    forall st, reads (pmap (x <-- re_find re ;; act (fun s => Ok (add_lines (count_lines x) s, x))) (strip n)) (str_src st) ->
    pmap (x <-- re_find re ;; act (fun s => Ok (add_lines (count_lines x) s, x))) (strip n) s i = Ok (s', r) -> match r with
     | Done _ x => s'.(p_line) = s.(p_line) + line_feeds (show_string x st) /\ opens_value i | _ => same_line s s' end).
  { clear - HD. intros re n s i s' r BD HQ st RD E. pose proof E as E0. unfold pmap, bind, re_find in E. cbn [rbind] in E.
    destruct (re_match re i) as [[m rest]|] eqn:M; cbn [rbind act ret] in E; [|inversion E; reflexivity].
    apply re_match_sound in M as (-> & L). unfold act in E. cbn [rbind] in E. inversion E; subst. apply RD in E0.
    apply app_inv_tail in E0. unfold str_src in E0. rewrite <- E0. cbn [p_line add_lines].
    rewrite count_lines_spec by (eapply bounded_lang; eauto). split; auto. apply HQ in L as (q & m' & -> & Q). apply (HD q q); auto. }
  assert (LQ : forall q a b m, lang (RSeq (RChr q) (RSeq a b)) m -> (q = 34 \/ q = 39) -> exists q m', m = q :: m' /\ (q = 34 \/ q = 39)).
  { clear. intros q a b m L Q. apply lang_seq in L as (x & y & -> & L & _). apply lang_chr in L. subst. exists q, y. auto. }
  assert (LQ3 : forall q a b m, lang (RSeq (RStr [q;q;q]) (RSeq a b)) m -> (q = 34 \/ q = 39) -> exists q m', m = q :: m' /\ (q = 34 \/ q = 39)).
  { clear. intros q a b m L Q. apply lang_seq in L as (x & y & -> & L & _). apply lang_str in L. subst. exists q, ([q;q] ++ y). auto. }
  pose proof (X _ SMLLiteral (fun s i s' r => ML re_raw_ml_literal 3%nat s i s' r eq_refl (fun m L => LQ3 39 _ _ m L (or_intror eq_refl)) SMLLiteral reads_ml_literal)) as X1.
  pose proof (X _ SMLBasic (fun s i s' r => ML re_raw_ml_basic 3%nat s i s' r eq_refl (fun m L => LQ3 34 _ _ m L (or_introl eq_refl)) SMLBasic reads_ml_basic)) as X2.
  pose proof (X _ SBasic (fun s i s' r => RE re_raw_basic (strip 1) s i s' r eq_refl (fun m L => LQ 34 _ _ m L (or_introl eq_refl)) SBasic reads_basic)) as X3.
  pose proof (X _ SLiteral (fun s i s' r => RE re_raw_literal (strip 1) s i s' r eq_refl (fun m L => LQ 39 _ _ m L (or_intror eq_refl)) SLiteral reads_literal)) as X4.
  clear X RE ML LQ LQ3 HD.
  unfold string_p, alt in H.
  apply rbind_ok in H as ([s1 r1] & E1 & H). apply X1 in E1. destruct r1; try (inversion H; subst; exact E1).
  apply rbind_ok in H as ([s2 r2] & E2 & H). apply X2 in E2. unfold same_line in *. destruct r2; try (inversion H; subst; rewrite <- E1; exact E2).
  apply rbind_ok in H as ([s3 r3] & E3 & H). apply X3 in E3. destruct r3; try (inversion H; subst; rewrite <- E1, <- E2; exact E3).
  apply X4 in H. rewrite <- E1, <- E2, <- E3. exact H.
Qed.

(** ** Scalars *)
Definition counts {A} (p : P A) (f : A -> tval) : Prop := forall s i s' r, p s i = Ok (s', r) ->
  match r with
  | Done _ t => s'.(p_line) = s.(p_line) + line_feeds (tsrc (f t)) /\ layout_lines (f t) = 0 /\ opens_value i
  | _ => same_line s s'
  end.
Lemma counts_pcell : forall A (p : P A) f, counts p f -> counts (pcell p f) c_val.
Proof.
  intros A p f H s i s' r E. unfold pcell, bind, complete in E. apply rbind_ok in E as ([s1 r1] & E1 & E).
  apply rbind_ok in E1 as ([s2 r2] & E1 & E2). inversion E2; subst. apply H in E1. destruct r2; inversion E; subst; auto.
Qed.
Lemma counts_alt : forall A (p q : P A) f, counts p f -> counts q f -> counts (alt p q) f.
Proof.
  intros A p q f H H2 s i s' r E. unfold alt in E. apply rbind_ok in E as ([s1 r1] & E1 & E). apply H in E1.
  destruct r1; try (inversion E; subst; exact E1). apply H2 in E. unfold same_line in *. rewrite <- E1. exact E.
Qed.
Lemma head_opens : forall m r, (forall x, In x others -> ~ In x m) -> m <> [] -> opens_value (m ++ r).
Proof.
  intros [|c m] r A N; [congruence|]. cbn [app opens_value]. intros I. apply (A c I). left. auto.
Qed.
Lemma counts_re : forall re f, (forall x, tsrc (f x) = x /\ layout_lines (f x) = 0) -> forallb (fun x => avoid x re) others = true ->
  nullable re = false -> counts (re_find re) f.
Proof.
  intros re f T A N s i s' r E. rewrite forallb_forall in A. assert (s' = s) by (eapply (pure_state (re_find re)); [pure_tac|exact E]).
  subst s'. destruct r as [rest x| |]; try reflexivity. apply re_find_done in E as (_ & -> & L). destruct (T x) as [-> ->].
  rewrite no_lf by (eapply avoid_lang; eauto; apply A; cbn; auto 8). split; [lia|]. split; auto.
  apply head_opens; [intros y I; eapply avoid_lang; eauto|]. intros E. rewrite (nullable_lang _ _ L E) in N. discriminate.
Qed.
Lemma counts_scalar : counts (alt (pcell date_time TDateTime)
    (alt (pcell float TFloat)
    (alt (pcell integer TInteger)
    (alt (pcell boolean TBoolean)
         (pcell string_p (fun v => v)))))) c_val.
Proof.
  repeat apply counts_alt; apply counts_pcell.
  - intros s i s' r E. pose proof (same_date _ _ _ _ E) as SL. destruct r as [rest d| |]; auto. cbn [tsrc layout_lines].
    unfold date_time in E. apply rbind_ok in E as ([s1 r1] & R1 & E). destruct r1 as [i1 d1| |]; try discriminate.
    assert (d1 = d). { destruct (datetime_validate d1); [inversion E; auto|]. apply rbind_ok in E as ([[x fk] pk] & _ & E). inversion E; auto. }
    subst d1. apply dti_done in R1 as (_ & -> & DG). unfold same_line in SL. rewrite <- datetime_src_show, datetime_lf by auto.
    split; [lia|]. split; auto. rewrite datetime_src_show. rewrite <- datetime_src_show. unfold datetime_src.
    destruct DG as [([Y L] & _) _]. destruct (d_year (dt_date d)) as [|c y]; [discriminate|]. inversion Y; subst. unfold digit in *.
    cbn [app opens_value others In]. lia.
  - apply counts_re; auto.
  - apply counts_re; auto.
  - intros s i s' r E. assert (s' = s) by (eapply (pure_state boolean); [unfold boolean; pure_tac|exact E]). subst s'.
    destruct r as [rest b| |]; try reflexivity. apply reads_boolean in E. subst i. cbn [tsrc layout_lines]. unfold show_bool.
    destruct b; (split; [change (line_feeds _) with 0; lia|]; split; [auto|]; cbn; lia).
  - intros s i s' r E. apply string_lines in E. exact E.
Qed.

(** ** All values *)
Definition vcount (p : P cell) : Prop :=
  (forall s i s' r c, p s i = Ok (s', Done r c) -> s'.(p_line) + layout_lines c.(c_val) = s.(p_line) + line_feeds (cell_src c)) /\
  (forall s i s' r, head_not 91 i -> head_not 123 i -> p s i = Ok (s', r) -> match r with Done _ _ => opens_value i | _ => same_line s s' end).

Lemma gaps_show : forall l, gaps_lines l = line_feeds (show_cons l).
Proof. reflexivity. Qed.

Lemma ws_lf : forall w, blanks w -> line_feeds w = 0.
Proof. intros w B. apply digits_lf. eapply Forall_impl; [|exact B]. cbv beta. lia. Qed.

Definition gap_chars : list N := [32; 9; 10; 13; 35; 93; 125].
Lemma gap_step : forall s i s' r x, comment_or_nl s i = Ok (s', Done r x) -> r = i \/ match i with [] => False | c :: _ => In c gap_chars end.
Proof.
  assert (WN : forall s i s' r x, ws_newline s i = Ok (s', Done r x) -> i = x ++ r /\ match x with [] => True | c :: _ => In c gap_chars end).
  { intros s i s' r x H. unfold ws_newline in H. apply re_find_done in H as (_ & -> & L). split; auto.
    destruct x as [|c x]; auto. destruct (in_dec N.eq_dec c gap_chars) as [I|NI]; auto. exfalso.
    apply (avoid_lang c) in L; [apply L; left; auto|]. unfold re_ws_newline. cbn [avoid RAlts RChr RStr in_ranges].
    unfold gap_chars in NI. cbn [In] in NI. lia. }
  intros s i s' r x H. unfold comment_or_nl in H. apply alt_done in H as [H|(s1 & _ & H)]; apply pmap_done in H as (y & H & ->); apply complete_done in H.
  - right. unfold comment_nl in H. apply bind_done in H as (s1 & i1 & p & E & H). apply WN in E as [-> E].
    destruct p as [|c p]; [|exact E]. apply bind_done in H as (s2 & i2 & q & E2 & _). unfold comment in E2.
    apply bind_done in E2 as (s3 & i3 & u & E3 & _). apply tag_done in E3 as (_ & _ & ->). unfold gap_chars. cbn. auto 8.
  - apply WN in H as [-> H]. destruct y; auto.
Qed.
Lemma gap_head : forall s i s' r l, comment_or_nls s i = Ok (s', Done r l) -> match r with [] => False | c :: _ => In c gap_chars end ->
  match i with [] => False | c :: _ => In c gap_chars end.
Proof.
  assert (LP : forall n s i s' r l, many_loop n comment_or_nl s i = Ok (s', Done r l) -> r = i \/ match i with [] => False | c :: _ => In c gap_chars end).
  { induction n; intros s i s' r l H; [discriminate|]. cbn [many_loop] in H. destruct i as [|c i]; [inversion H; auto|].
    apply rbind_ok in H as ([s1 r1] & E & H). destruct r1 as [i1 a| |]; [|inversion H; auto|discriminate].
    apply gap_step in E as [->|E]; auto. rewrite Nat.eqb_refl in H. inversion H; auto. }
  intros s i s' r l H R. unfold comment_or_nls, many1 in H. apply rbind_ok in H as ([s1 r1] & E & H). destruct r1 as [i1 a| |]; try discriminate.
  apply rbind_ok in H as ([s2 r2] & E2 & H). destruct r2; inversion H; subst. apply gap_step in E as [->|E]; auto. apply LP in E2 as [->|E2]; auto.
Qed.

Lemma cons_state : forall s i s' r, comment_or_nls s i = Ok (s', r) -> s' = s.
Proof. apply (pres_comment_or_nls (fun s s' => s' = s)); intros; subst; auto. Qed.

Section CountVal.
  Variable pval : P cell.
  Hypothesis PV : vcount pval.
  Hypothesis RV : reads pval cell_src.

  Definition av_lines (a : array_value) : N := layout_lines a.(av_val).(c_val) + gaps_lines a.(av_nls).
  Lemma value_count : forall s i s' r a, array_value_ pval s i = Ok (s', Done r a) ->
    s'.(p_line) + av_lines a = s.(p_line) + line_feeds (av_src a).
  Proof.
    intros s i s' r a H. unfold array_value_ in H. apply bind_done in H as (s1 & i1 & c & E1 & H).
    apply bind_done in H as (s2 & i2 & sep & E2 & H). apply bind_done in H as (s3 & i3 & nls & E3 & H).
    apply act_done in H as (-> & H).
    pose proof (same_value_act _ _ _ _ _ _ H) as L1. apply array_value_act_same in H. subst a.
    assert (s2 = s1) by (eapply (pure_state (opt (complete array_sep))); [pure_tac; apply pure_sep|exact E2]). subst s2.
    apply complete_done in E3. apply cons_state in E3. subst s3.
    destruct PV as [D _]. apply D in E1. unfold av_lines, av_src, av_src_. cbn [av_val av_sep av_nls]. rewrite gaps_show.
    assert (SP : line_feeds (show_sep sep) = 0).
    { apply opt_done in E2 as [(x & -> & E2)|(-> & _)]; [|reflexivity]. apply complete_done in E2. unfold array_sep in E2. pinv.
      cbn [show_sep ws1 ws2]. rewrite !line_feeds_app.
      repeat match goal with H : ws _ _ = _ |- _ => apply ws_blanks in H as (_ & _ & H); apply ws_lf in H; rewrite H end.
      reflexivity. }
    rewrite !line_feeds_app, SP. unfold same_line, cell_src in *. lia.
  Qed.

  Lemma loop_count : forall A (p : P A) src lines,
    reads p src -> (forall s i s' r a, p s i = Ok (s', Done r a) -> s'.(p_line) + lines a = s.(p_line) + line_feeds (src a)) ->
    (forall a, src a = [] -> lines a = 0) ->
    forall n s i s' r l, many_loop n p s i = Ok (s', Done r l) ->
    (forall s s', p s r = Ok (s', Error) -> same_line s s') ->
    s'.(p_line) + total (map lines l) = s.(p_line) + line_feeds (concat (map src l)).
  Proof.
    clear. intros A p src lines R C Z. induction n; intros s i s' r l H F; [discriminate|]. cbn [many_loop] in H.
    destruct i as [|c i]; [inversion H; subst; cbn; lia|]. apply rbind_ok in H as ([s1 r1] & E & H). destruct r1 as [i1 a| |].
    - match type of H with (if ?b then _ else _) = _ => destruct b eqn:NB end.
      + inversion H; subst. pose proof (C _ _ _ _ _ E) as X. apply R in E. apply Nat.eqb_eq in NB.
        assert (src a = []). { apply (f_equal (@length N)) in E. rewrite app_length in E. destruct (src a); auto. cbn [length] in *. lia. }
        rewrite (Z a), H0 in X by auto. cbn in *. lia.
      + apply rbind_ok in H as ([s2 r2] & E2 & H). destruct r2; inversion H; subst. apply C in E. specialize (IHn _ _ _ _ _ E2 F).
        cbn [map concat]. rewrite line_feeds_app. unfold total in *. cbn [fold_right]. lia.
    - inversion H; subst. apply F in E. unfold same_line in E. cbn. lia.
    - discriminate.
  Qed.
  Lemma lines_nonempty : forall v, tsrc v = [] -> layout_lines v = 0.
  Proof. destruct v; cbn [tsrc layout_lines]; auto; discriminate. Qed.

  Lemma stop_fails : forall s s' i r, match i with [] => False | c :: _ => In c gap_chars end ->
    pval s i = Ok (s', r) -> same_line s s' /\ (r = Error \/ r = Incomplete).
  Proof.
    intros s s' i r H E. destruct PV as [_ X]. destruct i as [|c i]; [contradiction|].
    assert (A : head_not 91 (c :: i) /\ head_not 123 (c :: i)) by (unfold head_not; unfold gap_chars in H; cbn [In] in H; lia). destruct A as [A B].
    specialize (X _ _ _ _ A B E). destruct r; auto. exfalso. unfold gap_chars in H. cbn [opens_value others In] in *. tauto.
  Qed.
  Lemma array_count : forall s i s' r t, array_ pval s i = Ok (s', Done r t) -> s'.(p_line) + layout_lines t = s.(p_line) + line_feeds (tsrc t).
  Proof.
    intros s i s' r t H. unfold array_ in H. apply rbind_ok in H as ([s1 r1] & E & H). inversion H; subst; clear H.
    cbn [p_line set_atypes pop_key set_keychain]. unfold array_internal_ in E.
    apply bind_done in E as (s2 & i2 & u & E2 & E). apply bind_done in E as (s3 & i3 & n1 & E3 & E).
    apply bind_done in E as (s4 & i4 & vals & E4 & E). apply bind_done in E as (s5 & i5 & n2 & E5 & E).
    apply bind_done in E as (s6 & i6 & u2 & E6 & E). apply ret_done in E as (-> & -> & ->).
    apply cons_state in E3 as E3'. subst s3. apply cons_state in E5 as E5'. subst s5.
    apply tag_done in E2 as (-> & -> & ->). apply tag_done in E6 as (-> & -> & ->).
    assert (GH := gap_head _ _ _ _ _ E5 ltac:(unfold gap_chars; cbn; auto 8)).
    unfold array_values_, many0 in E4.
    apply (loop_count _ _ av_src av_lines (reads_array_value pval RV) value_count) in E4.
    - cbn [layout_lines tsrc]. rewrite !line_feeds_app, !gaps_show. fold av_src. change (map _ vals) with (map av_lines vals) at 1.
      change (line_feeds (lit "[")) with 0. change (line_feeds (lit "]")) with 0. cbn [p_line push_key set_keychain set_atypes] in E4. lia.
    - intros a X. unfold av_src, av_src_ in X. apply app_eq_nil in X as [X Y]. apply app_eq_nil in Y as [_ Y].
      unfold av_lines. rewrite lines_nonempty, gaps_show, Y by auto. reflexivity.
    - intros s0 s0' X. unfold array_value_ in X. unfold bind at 1 in X. apply rbind_ok in X as ([s1 r1] & X1 & X).
      apply stop_fails in X1 as [X1 [-> | ->]]; [inversion X; subst; exact X1|inversion X|]. exact GH.
  Qed.

  Lemma keyval_count : forall s i s' r kv, keyval_p_ pval s i = Ok (s', Done r kv) ->
    s'.(p_line) + layout_lines kv.(kv_val).(c_val) = s.(p_line) + line_feeds (kv_src kv).
  Proof using PV.
    intros s i s' r kv H. unfold keyval_p_ in H. apply bind_done in H as (s1 & i1 & k & E1 & H).
    apply bind_done in H as (s2 & i2 & sep & E2 & H). apply bind_done in H as (s3 & i3 & c & E3 & H).
    apply act_done in H as (-> & H). pose proof (same_keyval_act _ _ _ _ _ _ H) as L1. apply keyval_act_same in H. subst kv.
    assert (s2 = s1) by (eapply (pure_state keyval_sep); [apply pure_kvsep|exact E2]). subst s2.
    pose proof (same_key _ _ _ _ E1) as L2. apply key_text in E1 as [_ NT]. destruct PV as [D _]. apply D in E3.
    unfold kv_src, sep_src. cbn [kv_key kv_sep kv_val].
    assert (K0 : line_feeds k = 0).
    { destruct NT as [[_ B]|(x & B & ->)].
      - apply digits_lf. eapply Forall_impl; [|exact B]. unfold bare_char. cbv beta. lia.
      - change (34 :: x ++ [34]) with ([34] ++ x ++ [34]). rewrite !line_feeds_app, (basic_lf x B). reflexivity. }
    assert (S0 : line_feeds (ws1 sep) = 0 /\ line_feeds (ws2 sep) = 0).
    { unfold keyval_sep in E2. pinv. repeat match goal with H : ws _ _ = _ |- _ => apply ws_blanks in H as (_ & _ & H); apply ws_lf in H end.
      auto. }
    rewrite !line_feeds_app, K0. change (line_feeds (lit "=")) with 0. unfold same_line, cell_src in *. lia.
  Qed.
  Definition tk_lines (k : table_keyval) : N := layout_lines k.(tk_kv).(kv_val).(c_val) + gaps_lines k.(tk_nls).
  Lemma sep_lf : forall s i s' r o, opt (complete array_sep) s i = Ok (s', Done r o) -> s' = s /\ line_feeds (show_sep o) = 0.
  Proof.
    clear. intros s i s' r o E2. split; [eapply (pure_state (opt (complete array_sep))); [pure_tac; apply pure_sep|exact E2]|].
    apply opt_done in E2 as [(x & -> & E2)|(-> & _)]; [|reflexivity]. apply complete_done in E2. unfold array_sep in E2. pinv.
    cbn [show_sep ws1 ws2]. rewrite !line_feeds_app.
    repeat match goal with H : ws _ _ = _ |- _ => apply ws_blanks in H as (_ & _ & H); apply ws_lf in H; rewrite H end. reflexivity.
  Qed.
  Lemma tk_count : forall s i s' r k, table_keyval_p_ pval s i = Ok (s', Done r k) ->
    s'.(p_line) + tk_lines k = s.(p_line) + line_feeds (tk_src k).
  Proof using PV.
    intros s i s' r k H. unfold table_keyval_p_ in H. apply bind_done in H as (s1 & i1 & kv & E1 & H).
    apply bind_done in H as (s2 & i2 & sep & E2 & H). apply bind_done in H as (s3 & i3 & nls & E3 & H). apply ret_done in H as (-> & -> & ->).
    apply sep_lf in E2 as [-> SP]. apply complete_done in E3. apply cons_state in E3. subst s3. apply keyval_count in E1.
    unfold tk_lines, tk_src, tk_src_. cbn [tk_kv tk_sep tk_nls]. fold kv_src. rewrite !line_feeds_app, SP, gaps_show. lia.
  Qed.
  Lemma tk_stop : forall s c i, c = 32 \/ c = 9 \/ c = 125 -> table_keyval_p_ pval s (c :: i) = Ok (s, Error).
  Proof.
    clear. intros s c i H. unfold table_keyval_p_. apply bind_err. unfold keyval_p_. apply bind_err. apply key_p_err. unfold bare_char. lia.
  Qed.
  Lemma inline_count : forall s i s' r t, inline_table_ pval s i = Ok (s', Done r t) -> s'.(p_line) + layout_lines t = s.(p_line) + line_feeds (tsrc t).
  Proof using PV RV.
    intros s i s' r t E. unfold inline_table_ in E.
    apply bind_done in E as (s2 & i2 & u & E2 & E). apply bind_done in E as (s3 & i3 & w1 & E3 & E).
    apply bind_done in E as (s4 & i4 & kvs & E4 & E). apply bind_done in E as (s5 & i5 & w2 & E5 & E).
    apply bind_done in E as (s6 & i6 & u2 & E6 & E). apply ret_done in E as (-> & -> & ->).
    apply tag_done in E2 as (-> & -> & ->). apply tag_done in E6 as (-> & -> & ->).
    apply ws_blanks in E3 as (-> & -> & B1). apply ws_blanks in E5 as (-> & -> & B2).
    assert (HD : exists c x, w2 ++ lit "}" ++ i6 = c :: x /\ (c = 32 \/ c = 9 \/ c = 125)).
    { destruct w2 as [|c w2]; cbn [app]; [exists 125, i6; auto|]. inversion B2; subst. exists c, (w2 ++ lit "}" ++ i6). split; auto. lia. }
    destruct HD as (c & x & HD & C). rewrite HD in E4.
    cbn [layout_lines tsrc ws1 ws2]. rewrite !line_feeds_app, (ws_lf w1), (ws_lf w2) by auto. fold tk_src.
    change (line_feeds (lit "{")) with 0. change (line_feeds (lit "}")) with 0.
    apply opt_done in E4 as [(l & -> & E4)|(-> & E & E4)].
    - apply complete_done in E4. unfold inline_table_keyvals_, many0 in E4.
      apply (loop_count _ _ tk_src tk_lines (reads_table_keyval pval RV) tk_count) in E4.
      + change (map _ l) with (map tk_lines l) at 1. lia.
      + intros a X. exfalso. unfold tk_src, tk_src_, sep_src in X. apply app_eq_nil in X as [X _]. do 2 apply app_eq_nil in X as [_ X]. apply app_eq_nil in X as [X _]. discriminate.
      + intros s0 s0' X. rewrite tk_stop in X by auto. inversion X. reflexivity.
    - exfalso. subst. unfold complete, inline_table_keyvals_, many0 in E4. cbn [length many_loop] in E4. rewrite tk_stop in E4 by auto.
      cbn [rbind] in E4. discriminate.
  Qed.
End CountVal.

Lemma pcell_line : forall A (p : P A) f s i s' r c, pcell p f s i = Ok (s', Done r c) ->
  exists s1 a, p s i = Ok (s1, Done r a) /\ c.(c_val) = f a /\ s'.(p_line) = s1.(p_line).
Proof.
  intros A p f s i s' r c H. unfold pcell in H. apply bind_done in H as (s1 & i1 & a & E & H). apply complete_done in E.
  apply act_done in H as (-> & H). inversion H; subst. eauto.
Qed.
Lemma vcount_val_ : forall p, vcount p -> reads p cell_src -> vcount (val_ p).
Proof.
  intros p PV RV. split.
  - intros s i s' r c H. unfold val_ in H. apply alt_done in H as [H|(s1 & E1 & H)].
    { apply pcell_line in H as (s1 & a & H & EC & EL). apply array_count in H; auto. unfold cell_src. rewrite EC, EL. auto. }
    apply alt_done in H as [H|(s2 & E2 & H)].
    { assert (s1 = s).
      { destruct i as [|x i]; [|destruct (N.eq_dec x 91)].
        - rewrite arr_err in E1 by exact I. inversion E1. auto.
        - exfalso. subst x. rewrite inl_err in H by (cbn; lia). discriminate.
        - rewrite arr_err in E1 by (cbn; auto). inversion E1. auto. }
      subst s1. apply pcell_line in H as (s1 & a & H & EC & EL). apply inline_count in H; auto. unfold cell_src. rewrite EC, EL. auto. }
    apply counts_scalar in H as (L1 & L2 & O). assert (head_not 91 i /\ head_not 123 i) as [O1 O2].
    { destruct i; cbn in *; lia. }
    rewrite arr_err in E1 by auto. inversion E1; subst. rewrite inl_err in E2 by auto. inversion E2; subst.
    rewrite L2. unfold cell_src. lia.
  - intros s i s' r O1 O2 H. unfold val_ in H. unfold alt at 1 in H. rewrite arr_err in H by auto. cbn [rbind] in H.
    unfold alt at 1 in H. rewrite inl_err in H by auto. cbn [rbind] in H. apply counts_scalar in H. destruct r; tauto.
Qed.
Lemma vcount_val : forall f, vcount (val f).
Proof.
  induction f; [|apply vcount_val_; auto; apply reads_val]. split; discriminate.
Qed.
Lemma vcount_val_p : vcount val_p.
Proof.
  split; intros *.
  - apply (proj1 (vcount_val _)).
  - apply (proj2 (vcount_val _)).
Qed.

(** ** Keys, headers and comments stay on their line *)
Lemma name_lf : forall k, name_text k -> line_feeds k = 0.
Proof.
  intros k [[_ B]|(x & B & ->)].
  - apply digits_lf. eapply Forall_impl; [|exact B]. unfold bare_char. cbv beta. lia.
  - rewrite !line_feeds_app, (basic_lf x B). reflexivity.
Qed.
Lemma comment_lf : forall s i s' r c, comment s i = Ok (s', Done r c) -> s' = s /\ line_feeds c = 0.
Proof.
  intros s i s' r c H. unfold comment in H. apply bind_done in H as (s1 & i1 & u & E1 & H). apply tag_done in E1 as (-> & _ & _).
  apply bind_done in H as (s2 & i2 & x & E2 & H). apply ret_done in H as (-> & -> & ->). apply take_while_done in E2 as (-> & _ & -> & _).
  split; auto. apply digits_lf. clear. induction i1 as [|c i IH]; cbn [take_wh]; [constructor|]. destruct (not_eol c) eqn:E; constructor; auto.
  unfold not_eol in E. lia.
Qed.
Lemma opt_comment_lf : forall s i s' r c, opt (complete comment) s i = Ok (s', Done r c) -> same_line s s' /\ line_feeds (com_src c) = 0.
Proof.
  intros s i s' r c H. split; [eapply (same_pure _ (opt (complete comment))); [unfold comment; pure_tac|exact H]|].
  apply opt_done in H as [(x & -> & H)|(-> & _)]; [|reflexivity].
  apply complete_done in H. apply comment_lf in H as (_ & H). cbn [com_src]. unfold show_comment. rewrite line_feeds_app, H. reflexivity.
Qed.
Lemma loop_all : forall A (p : P A) (Q : A -> Prop), (forall s i s' r a, p s i = Ok (s', Done r a) -> Q a) ->
  forall n s i s' r l, many_loop n p s i = Ok (s', Done r l) -> Forall Q l.
Proof.
  intros A p Q H. induction n; intros s i s' r l E; [discriminate|]. cbn [many_loop] in E. destruct i as [|c i]; [inversion E; constructor|].
  apply rbind_ok in E as ([s1 r1] & E1 & E). destruct r1 as [i1 a| |].
  - match type of E with (if ?b then _ else _) = _ => destruct b end; [inversion E; subst; constructor|].
    apply rbind_ok in E as ([s2 r2] & E2 & E). destruct r2; inversion E; subst. constructor; eauto.
  - inversion E; constructor.
  - discriminate.
Qed.
Lemma subkeys_lf : forall s i s' r l, table_subkeys s i = Ok (s', Done r l) -> line_feeds (concat (map show_wskey l)) = 0.
Proof.
  intros s i s' r l H. unfold table_subkeys, many0 in H. apply (loop_all _ _ (fun k => line_feeds (show_wskey k) = 0)) in H.
  - induction H; auto. cbn [map concat]. rewrite line_feeds_app. lia.
  - clear. intros s i s' r a H. unfold table_subkey in H. apply bind_done in H as (s1 & i1 & w1 & E1 & H).
    apply bind_done in H as (s2 & i2 & u & E2 & H). apply bind_done in H as (s3 & i3 & w2 & E3 & H).
    apply bind_done in H as (s4 & i4 & k & E4 & H). apply ret_done in H as (_ & _ & ->).
    apply ws_blanks in E1 as (_ & _ & E1). apply ws_blanks in E3 as (_ & _ & E3). apply key_text in E4 as (_ & E4).
    unfold show_wskey. cbn [wk_ws ws1 ws2 wk_key]. rewrite !line_feeds_app, (ws_lf w1), (ws_lf w2), (name_lf k) by auto. reflexivity.
Qed.
Lemma header_lf : forall open close f s i s' r t, (forall w1 w2 k l s s' t, f w1 w2 k l s = Ok (s', t) ->
    show_table_type t = open ++ show_table (table_new {| ws1 := w1; ws2 := w2 |} k l) ++ close) ->
  line_feeds open = 0 -> line_feeds close = 0 ->
  (tag open ;;; (w1 <-- ws ;; (k <-- key_p ;; (subkeys <-- table_subkeys ;; (w2 <-- ws ;;
    (tag close ;;; act (f w1 w2 k subkeys : pst -> res (pst * table_type)))))))) s i = Ok (s', Done r t) -> line_feeds (show_table_type t) = 0.
Proof.
  intros open close f s i s' r t F O C H.
  apply bind_done in H as (s1 & i1 & u & _ & H). apply bind_done in H as (s2 & i2 & w1 & E1 & H).
  apply bind_done in H as (s3 & i3 & k & E2 & H). apply bind_done in H as (s4 & i4 & l & E3 & H).
  apply bind_done in H as (s5 & i5 & w2 & E4 & H). apply bind_done in H as (s6 & i6 & u2 & _ & H). apply act_done in H as (_ & H).
  apply F in H. rewrite H. unfold table_new, show_table. cbn [wk_ws wk_key ws1 ws2].
  apply ws_blanks in E1 as (_ & _ & E1). apply ws_blanks in E4 as (_ & _ & E4). apply key_text in E2 as (_ & E2). apply subkeys_lf in E3.
  rewrite !line_feeds_app, (ws_lf w1), (ws_lf w2), (name_lf k) by auto. lia.
Qed.
Lemma table_lf : forall s i s' r t, table_p s i = Ok (s', Done r t) -> line_feeds (show_table_type t) = 0.
Proof.
  intros s i s' r t H. unfold table_p in H. apply alt_done in H as [H|(s1 & _ & H)]; apply complete_done in H.
  - eapply (header_lf (lit "[[") (lit "]]")); [|reflexivity|reflexivity|exact H].
    intros w1 w2 k l s0 s0' t0 A. apply array_table_act_same in A. subst t0. reflexivity.
  - eapply (header_lf (lit "[") (lit "]")); [|reflexivity|reflexivity|exact H].
    intros w1 w2 k l s0 s0' t0 A. apply std_table_act_same in A. subst t0. reflexivity.
Qed.

(** ** Lines *)
Definition expr_lines (e : expression) : N := match e.(e_keyval) with Some kv => layout_lines kv.(kv_val).(c_val) | None => 0 end.

Lemma keyval_fails : forall s i s' r, keyval_p s i = Ok (s', r) -> ~ starts_nested i -> (forall j kv, r <> Done j kv) -> same_line s s'.
Proof.
  intros s i s' r H NS ND. unfold keyval_p, keyval_p_ in H. unfold bind at 1 in H. apply rbind_ok in H as ([s1 r1] & E1 & H).
  pose proof (same_key _ _ _ _ E1) as L1. destruct r1 as [i1 k| |]; [|inversion H; subst; exact L1..].
  unfold bind at 1 in H. apply rbind_ok in H as ([s2 r2] & E2 & H).
  assert (s2 = s1) by (eapply (pure_state keyval_sep); [apply pure_kvsep|exact E2]). subst s2.
  destruct r2 as [i2 sep| |]; [|inversion H; subst; exact L1..].
  unfold bind at 1 in H. apply rbind_ok in H as ([s3 r3] & E3 & H).
  assert (HN : head_not 91 i2 /\ head_not 123 i2).
  { apply key_text in E1 as [-> NT]. unfold keyval_sep in E2. pinv.
    repeat match goal with H : ws _ _ = _ |- _ => apply ws_blanks in H as (? & ? & ?) end. subst.
    match goal with |- head_not _ ?j /\ _ => destruct j as [|c x]; [split; exact I|] end.
    cbn [head_not]. split; intros ->; apply NS; do 5 eexists; (split; [reflexivity|split; [exact NT|eauto 6]]). }
  apply (proj2 vcount_val_p) in E3; [|apply HN..]. destruct r3 as [i3 c| |]; [|inversion H; subst; eapply same_trans; eauto..].
  exfalso. unfold act in H. apply rbind_ok in H as ([s4 kv] & _ & H). inversion H. eapply ND. eauto.
Qed.
Lemma name_head : forall k x, name_text k -> exists c y, k ++ x = c :: y /\ (c = 34 \/ bare_char c).
Proof.
  intros k x [[NE B]|(y & _ & ->)].
  - destruct k as [|c k]; [congruence|]. inversion B; subst. cbn [app]. eauto.
  - cbn [app]. eauto.
Qed.
Lemma plain_head : forall i, match i with [] => True | c :: _ => c <> 34 /\ ~ bare_char c end -> ~ starts_nested i.
Proof.
  intros i H (k & w1 & w2 & c & x & -> & NT & _). destruct (name_head k (w1 ++ lit "=" ++ w2 ++ c :: x) NT) as (d & y & E & D).
  rewrite E in H. tauto.
Qed.
Lemma table_comment_line : pres same_line table_comment.
Proof.
  unfold table_comment. apply pres_bind; try exact same_trans; [apply same_pure; unfold ws; pure_tac|]. intros w1.
  apply pres_bind; try exact same_trans; [exact same_table|]. intros t. apply same_pure. unfold comment, ws. pure_tac.
Qed.

Lemma keyval_comment_fails : forall s i s' w j s0, complete keyval_comment s i = Ok (s', Error) -> ws s0 i = Ok (s0, Done j w) ->
  ~ starts_nested j -> same_line s s'.
Proof.
  intros s i s' w j s0 H W NS. unfold complete in H. apply rbind_ok in H as ([s1 r1] & E & H).
  assert (L : s1 = s' /\ (forall a b, r1 <> Done a b)). { inversion H; subst. split; auto. intros a b ->. discriminate. }
  destruct L as [-> ND]. clear H. unfold keyval_comment in E. unfold bind at 1 in E. rewrite ws_eq in W. inversion W; subst. rewrite ws_eq in E. cbn [rbind] in E.
  unfold bind at 1 in E. apply rbind_ok in E as ([s2 r2] & E2 & E). destruct r2 as [i2 kv| |].
  - exfalso. unfold bind at 1 in E. destruct (ws_done s2 i2) as (w2 & i3 & E3). rewrite E3 in E. cbn [rbind] in E.
    unfold bind at 1 in E. apply rbind_ok in E as ([s4 r4] & E4 & E). unfold opt in E4. apply rbind_ok in E4 as ([s5 r5] & E5 & E4).
    destruct r5; inversion E4; subst; cbn in E; inversion E; subst.
    + eapply ND. reflexivity.
    + eapply ND. reflexivity.
    + eapply complete_not_inc. eauto.
  - inversion E; subst. eapply keyval_fails; eauto. discriminate.
  - inversion E; subst. eapply keyval_fails; eauto. discriminate.
Qed.

Lemma expr_count : forall s i s' r e, expression_p s i = Ok (s', Done r e) -> ~ starts_nested r ->
  s'.(p_line) + expr_lines e = s.(p_line) + line_feeds (ex_src e).
Proof.
  intros s i s' r e H NS. unfold expression_p in H. apply alt_done in H as [H|(s1 & E1 & H)].
  - apply complete_done in H. pose proof (table_comment_line _ _ _ _ H) as L. unfold table_comment in H.
    apply bind_done in H as (s1 & i1 & w1 & E1 & H). apply bind_done in H as (s2 & i2 & t & E2 & H).
    apply bind_done in H as (s3 & i3 & w2 & E3 & H). apply bind_done in H as (s4 & i4 & c & E4 & H). apply ret_done in H as (_ & _ & ->).
    apply ws_blanks in E1 as (_ & _ & E1). apply ws_blanks in E3 as (_ & _ & E3). apply table_lf in E2. apply opt_comment_lf in E4 as [_ E4].
    unfold expr_lines, ex_src. cbn [e_ws e_keyval e_table e_comment ws1 ws2]. rewrite !line_feeds_app, (ws_lf w1), (ws_lf w2) by auto.
    change (line_feeds []) with 0. unfold same_line in L. lia.
  - assert (L1 : same_line s s1). { eapply (pres_complete same_line); [exact table_comment_line|exact E1]. }
    clear E1. apply alt_done in H as [H|(s2 & E2 & H)].
    + apply complete_done in H. unfold keyval_comment in H.
      apply bind_done in H as (s2 & i1 & w1 & E1 & H). apply bind_done in H as (s3 & i2 & kv & E2 & H).
      apply bind_done in H as (s4 & i3 & w2 & E3 & H). apply bind_done in H as (s5 & i4 & c & E4 & H). apply ret_done in H as (-> & -> & ->).
      apply ws_blanks in E1 as (-> & _ & E1). apply ws_blanks in E3 as (-> & _ & E3). apply opt_comment_lf in E4 as [L2 E4].
      apply (keyval_count val_p vcount_val_p) in E2.
      unfold expr_lines, ex_src. cbn [e_ws e_keyval e_table e_comment ws1 ws2]. rewrite !line_feeds_app, (ws_lf w1), (ws_lf w2) by auto.
      change (line_feeds []) with 0. unfold same_line in *. lia.
    + apply alt_done in H as [H|(s3 & E3 & H)]; apply complete_done in H.
      * unfold ws_comment in H. apply bind_done in H as (s3 & i1 & w & E1 & H). apply bind_done in H as (s4 & i2 & c & E3 & H).
        apply ret_done in H as (-> & -> & ->). pose proof (ws_blanks _ _ _ _ _ E1) as (-> & _ & B).
        assert (L2 : same_line s1 s2).
        { eapply keyval_comment_fails; [exact E2|exact E1|]. apply reads_comment in E3. subst i1. apply plain_head. cbn. unfold bare_char. lia. }
        apply comment_lf in E3 as [-> E3]. unfold expr_lines, ex_src. cbn [e_ws e_keyval e_table e_comment ws1 ws2 com_src]. unfold show_comment.
        rewrite !line_feeds_app, (ws_lf w), E3 by auto. change (line_feeds []) with 0. change (line_feeds (lit "#")) with 0.
        unfold same_line in *. lia.
      * assert (s3 = s2). { eapply (pure_state (complete ws_comment)); [unfold ws_comment, comment, ws; pure_tac|exact E3]. }
        subst s3. unfold ws_expr in H. apply bind_done in H as (s3 & i1 & w & E1 & H). apply ret_done in H as (-> & -> & ->).
        pose proof (ws_blanks _ _ _ _ _ E1) as (-> & _ & B). assert (L2 : same_line s1 s2) by (eapply keyval_comment_fails; [exact E2|exact E1|exact NS]).
        unfold expr_lines, ex_src. cbn [e_ws e_keyval e_table e_comment ws1 ws2 com_src].
        rewrite !line_feeds_app, (ws_lf w) by auto. change (line_feeds []) with 0. unfold same_line in *. lia.
Qed.

Lemma newline_count : forall s i s' r, newline s i = Ok (s', r) ->
  match r with
  | Done j nl => s'.(p_line) = s.(p_line) + line_feeds nl /\ ~ starts_nested i
  | _ => s' = s
  end.
Proof.
  intros s i s' r H. unfold newline, alt in H. apply rbind_ok in H as ([s1 r1] & E & H).
  assert (X : forall t s s1 r1 i, (t = [13; 10] \/ t = [10]) -> (x <-- complete (tag t) ;; act (fun s => Ok (add_lines 1 s, x))) s i = Ok (s1, r1) ->
    match r1 with Done j nl => s1.(p_line) = s.(p_line) + line_feeds nl /\ ~ starts_nested i | _ => s1 = s end).
  { clear. intros t s s1 r1 i T E. unfold bind in E. apply rbind_ok in E as ([s2 r2] & E2 & E).
    assert (s2 = s) by (eapply (pure_state (complete (tag t))); [pure_tac|exact E2]). subst s2. destruct r2; inversion E; subst; auto.
    apply complete_done in E2. apply tag_done in E2 as (_ & -> & ->). destruct T as [-> | ->]; (split; [reflexivity|apply plain_head; cbn; unfold bare_char; lia]). }
  apply X in E; auto. destruct r1; [inversion H; subst; auto| |inversion H; subst; auto]. subst s1. apply X in H; auto.
Qed.
Definition ne_lines (ne : nl_expression) : N := expr_lines ne.(ne_expr).
Lemma doc_count : forall n s i s' r l, many_loop n nl_expression_p s i = Ok (s', Done r l) -> ~ starts_nested r ->
  ~ starts_nested i /\ s'.(p_line) + total (map ne_lines l) = s.(p_line) + line_feeds (concat (map ne_src l)).
Proof.
  induction n; intros s i s' r l H NS; [discriminate|]. cbn [many_loop] in H.
  destruct i as [|c i]; [inversion H; subst; cbn; split; [auto|lia]|].
  apply rbind_ok in H as ([s1 r1] & E & H). unfold nl_expression_p in E at 1. unfold bind at 1 in E.
  apply rbind_ok in E as ([s2 r2] & E2 & E). pose proof (newline_count _ _ _ _ E2) as C2.
  destruct r2 as [i2 nl| |]; [|inversion E; subst; inversion H; subst; cbn; split; [auto|lia]|inversion E; subst; inversion H].
  destruct C2 as [C2 SN]. split; auto. apply newline_short in E2. unfold bind at 1 in E. apply rbind_ok in E as ([s3 r3] & E3 & E).
  destruct (expression_done _ _ _ _ E3) as (i3 & e & ->). inversion E; subst. clear E. pose proof (reads_expression _ _ _ _ _ E3) as RE.
  match type of H with (if ?b then _ else _) = _ => destruct b eqn:NB end.
  { exfalso. apply Nat.eqb_eq in NB. subst i2. rewrite app_length in E2. lia. }
  apply rbind_ok in H as ([s4 r4] & E4 & H). destruct r4; inversion H; subst. apply IHn in E4 as [SN3 C4]; auto.
  apply expr_count in E3; auto. cbn [map concat]. unfold ne_src at 1. cbn [ne_nl ne_expr]. rewrite !line_feeds_app.
  unfold total in *. cbn [fold_right]. change (ne_lines {| ne_nl := nl; ne_expr := e |}) with (expr_lines e). lia.
Qed.
Lemma toml_count : forall s i s' r t, toml_p s i = Ok (s', Done r t) -> ~ starts_nested r ->
  s'.(p_line) + doc_layout_lines t = s.(p_line) + line_feeds (toml_src t).
Proof.
  intros s i s' r t H NS. unfold toml_p in H. apply bind_done in H as (s1 & i1 & e & E1 & H). apply bind_done in H as (s2 & i2 & l & E2 & H).
  apply ret_done in H as (-> & -> & ->). apply doc_count in E2 as [SN E2]; auto. apply expr_count in E1; auto.
  unfold doc_layout_lines, toml_src. cbn [map concat]. unfold ne_src at 1. cbn [ne_nl ne_expr]. rewrite !line_feeds_app. change (line_feeds []) with 0.
  unfold total in *. cbn [fold_right]. fold (expr_lines e). change (map _ l) with (map ne_lines l) at 1. lia.
Qed.
(** the reported line, and the line ends it leaves out *)
Lemma reported_line : forall ovf i s r n, parse (new_parser ovf) i = Ok (s, r) -> reports r n -> ~ starts_nested s.(p_leftover) ->
  exists pre, i = pre ++ s.(p_leftover) /\ n + doc_layout_lines s.(p_root) = 1 + line_feeds pre.
Proof.
  intros ovf i s r n H R NS. destruct (parse_inv _ _ _ _ H) as (s1 & rest & t & T & EI & -> & L).
  cbn [p_root p_leftover set_leftover set_root] in *. exists (toml_src t). split; auto. apply toml_count in T; auto. cbn [p_line new_parser] in T.
  assert (n = p_line s1); [|subst; lia]. destruct R as [(x & ->)|(x & e & ->)]; destruct rest; destruct (p_errors _); inversion L; auto.
Qed.
