(** Nothing but the key/values of a document is found. *)
From Coq Require Import Lia ZifyBool ZifyNat ZifyN.
From Verif Require Import TotalFacts.
From Verif Require Import Str Regex Types Ast State Nom Keys Grammar Api Facts Spec.
From Verif Require Import NomFacts ScalarFacts LineFacts FlatFacts RoundTrip ParseFacts WalkFacts Effects IdFacts DocSpec MixSpec PathFacts NestFacts SectFacts LookFacts.
From Verif Require Import DateFacts HeadSpec SafeFacts CountFacts DotSpec DotFacts OrderSpec OrderFacts CauseSpec AfterFacts CauseFacts ReachSpec ReachFacts.
From Verif Require CalmWalk ClashFacts.

(** ** Keys that come *)
Definition has (m : vmap) (k : str) : Prop := key_has_value m k = true.
Lemma has_stored : forall m k, has m k <-> exists c, stored m k c.
Proof.
  intros m k. unfold has, key_has_value, stored. split.
  - intros H. destruct (hget k m) as [[[c|] sub]|]; cbn [hv_value] in H; try discriminate. exists c. split; [intros E; rewrite E in H; discriminate|eauto].
  - intros (c & N & sub & H). rewrite H. cbn [hv_value]. destruct (c_val c); congruence.
Qed.
Lemma novals_has : forall m m', novals m m' -> forall k, has m' k -> has m k.
Proof. intros m m' N k H. unfold has in *. destruct (key_has_value m k) eqn:E; auto. rewrite (N _ E) in H. discriminate. Qed.
Definition adds (m m' : vmap) (S : str -> Prop) : Prop := forall k, has m' k -> has m k \/ S k.
Lemma adds_same : forall m S, adds m m S.
Proof. intros m S k H. auto. Qed.
Lemma adds_eq : forall m m' S, m' = m -> adds m m' S.
Proof. intros m m' S -> k H. auto. Qed.
Lemma adds_trans : forall m1 m2 m3 S, adds m1 m2 S -> adds m2 m3 S -> adds m1 m3 S.
Proof. intros m1 m2 m3 S A B k H. apply B in H as [H|H]; auto. Qed.
Lemma adds_impl : forall m m' (S T : str -> Prop), (forall k, S k -> T k) -> adds m m' S -> adds m m' T.
Proof. intros m m' S T X A k H. apply A in H as [H|H]; auto. Qed.
Lemma adds_novals : forall m m' S, novals m m' -> adds m m' S.
Proof. intros m m' S N k H. left. eapply novals_has; eauto. Qed.
Lemma parent_novals : forall m pk kc m', update_parent m pk kc = Ok m' -> novals m m'.
Proof.
  intros m pk kc m' H. unfold update_parent in H. destruct (hget pk m) as [hv|] eqn:Q.
  - destruct (hv_subkeys hv) as [c|l].
    + inversion H; subst. apply novals_sub. auto.
    + destruct (vlast kc) as [[n|i]|]; inversion H; subst; [apply novals_sub; auto|intros x X; exact X].
  - destruct (vlast kc) as [[n|i]|]; inversion H; subst; apply novals_none.
Qed.
Lemma put_adds : forall (m : vmap) k hv, adds m (hput k hv m) (fun x => x = k).
Proof.
  intros m k hv x H. destruct (list_eq_dec N.eq_dec x k) as [->|NE]; auto. left. unfold has, key_has_value in *. rewrite hget_hput_other in H by auto. exact H.
Qed.
Lemma insert_adds : forall h s c s', tabs h s -> insert_keyval_into_map s c = Ok s' -> adds s.(p_map) s'.(p_map) (fun k => k = dpre h ++ chain s.(p_keychain)).
Proof.
  intros h s c s' T H. unfold insert_keyval_into_map in H. apply rbind_ok in H as ([fk pk] & K & H). apply (keys_of h) in K; auto. rewrite <- K.
  destruct (hget fk (p_map s)) as [[[c0|] sub]|] eqn:Q.
  - apply rbind_ok in H as (v & _ & H). inversion H; subst. apply adds_same.
  - apply rbind_ok in H as (m & U & H). inversion H; subst. cbn [p_map set_map]. eapply adds_trans; [apply put_adds|]. apply adds_novals. eapply parent_novals; eauto.
  - apply rbind_ok in H as (m & U & H). inversion H; subst. cbn [p_map set_map]. eapply adds_trans; [apply put_adds|]. apply adds_novals. eapply parent_novals; eauto.
Qed.

(** ** Values *)
Definition inside (b : str) (c : cell) (k : str) : Prop := exists p y, p <> [] /\ tat c p = Some y /\ k = b ++ path_text p.
Definition within (b : str) (c : cell) (k : str) : Prop := exists p y, tat c p = Some y /\ k = b ++ path_text p.
Lemma inside_within : forall b c k, inside b c k -> within b c k.
Proof. intros b c k (p & y & _ & H). exists p, y. exact H. Qed.
Lemma within_self : forall b c, within b c b.
Proof. intros b c. exists [], c. split; auto. unfold path_text. cbn [map concat]. rewrite app_nil_r. reflexivity. Qed.
Definition vadd (p : P cell) : Prop := forall h s i s' r c, p s i = Ok (s', Done r c) -> tabs h s -> s.(p_array_error) = false ->
  chain s.(p_keychain) <> [] -> clean s' -> adds s.(p_map) s'.(p_map) (inside (dpre h ++ chain s.(p_keychain)) c).

Section ExactVal.
  Variable pval : P cell.
  Hypothesis PV : vfault pval.
  Hypothesis RV : reads pval cell_src.
  Hypothesis NV : forall s i s' r c, pval s i = Ok (s', Done r c) -> r <> i.
  Hypothesis CV : pres calm pval.
  Hypothesis GV : pres errors_grow pval.
  Hypothesis WV : vput pval.
  Hypothesis WA : vadd pval.

  Lemma value_add : forall h s i s' r a kc j, array_value_ pval s i = Ok (s', Done r a) -> tabs h s -> s.(p_array_error) = false ->
    s.(p_keychain) = kc ++ [KIndex j] -> chain kc <> [] -> clean s' ->
    adds s.(p_map) s'.(p_map) (within ((dpre h ++ chain kc) ++ step_text (PIdx j)) a.(av_val)).
  Proof.
    intros h s i s' r a kc j H T AE K NC C. unfold array_value_ in H. apply bind_done in H as (s1 & i1 & c & E1 & H).
    apply bind_done in H as (s2 & i2 & sep & E2 & H). apply bind_done in H as (s3 & i3 & nls & E3 & H).
    apply act_done in H as (-> & H).
    assert (s2 = s1) by (eapply (pure_state (opt (complete array_sep))); [pure_tac; apply pure_sep|exact E2]). subst s2.
    apply complete_done in E3. apply cons_state in E3. subst s3.
    pose proof (CV _ _ _ _ E1) as C1. destruct PV as [D _]. destruct (D _ _ _ _ _ _ _ E1 K) as (K1 & _ & _ & _).
    pose proof H as HA. apply array_value_effect in HA as [EA _]. subst a. cbn [av_val].
    unfold array_value_act in H. apply rbind_ok in H as (ty & TY & H). apply rbind_ok in H as (s2 & M & H).
    apply rbind_ok in H as (s3 & I & H).
    assert (M2 : s2.(p_keychain) = s1.(p_keychain) /\ s2.(p_map) = s1.(p_map) /\ calm s1 s2 /\ errors_grow s1 s2).
    { unfold check_mixed in M. destruct (vlast (p_atypes s1)); [|inversion M; subst; split; auto; split; auto; split; [apply calm_same; auto|apply grow_same; auto]].
      destruct (_ && _); [|inversion M; subst; split; auto; split; auto; split; [apply calm_same; auto|apply grow_same; auto]].
      apply rbind_ok in M as ([[x fk] pk] & _ & M). destruct (match vlast (p_errors s1) with Some _ => _ | None => _ end); inversion M; subst; split; auto; split; auto;
        (split; [apply calm_same; auto|]); [eapply grow_push; reflexivity|apply grow_same; auto]. }
    destruct M2 as (K2 & MM & C2 & G2).
    match type of I with insert_keyval_into_map ?x _ = _ => set (s2' := x) in * end.
    assert (KK : s2'.(p_keychain) = kc ++ [KIndex j]) by (cbn; congruence).
    assert (T2 : tabs h s2') by (eapply tabs_calm; [|exact T]; eapply calm_trans; [exact C1|]; eapply calm_trans; [exact C2|apply calm_same; reflexivity]).
    assert (ES : s'.(p_map) = s3.(p_map) /\ s'.(p_errors) = s3.(p_errors)).
    { destruct (nth_error _ _) in H; inversion H; subst; split; reflexivity. }
    destruct ES as [ES1 ES2].
    assert (CL3 : clean s3) by (eapply clean_same; [|exact C]; congruence).
    assert (CL1 : clean s1).
    { eapply clean_back; [exact G2|]. apply (clean_same s2 s2'); [reflexivity|]. eapply clean_back; [|exact CL3]. eapply grow_insert; eauto. }
    assert (A1 : adds (p_map s) (p_map s1) (inside ((dpre h ++ chain kc) ++ step_text (PIdx j)) c)).
    { pose proof (WA h _ _ _ _ _ E1 T AE) as X. rewrite K, chain_snoc, app_assoc in X by auto. apply X; auto. rewrite <- chain_snoc with (k := KIndex j) by auto. apply chain_more; auto. }
    apply (insert_adds h) in I; auto. rewrite KK, chain_snoc, app_assoc in I by auto. cbn [key_step] in I. rewrite ES1.
    eapply adds_trans; [eapply adds_impl; [|exact A1]; apply inside_within|]. rewrite <- MM. eapply adds_impl; [|exact I]. intros k ->. apply within_self.
  Qed.
  Lemma values_add : forall n h s i s' r l kc j, many_loop n (array_value_ pval) s i = Ok (s', Done r l) ->
    (forall s s', array_value_ pval s r = Ok (s', Error) -> s' = s) -> tabs h s -> s.(p_array_error) = false ->
    s.(p_keychain) = kc ++ [KIndex j] -> chain kc <> [] -> clean s' ->
    adds s.(p_map) s'.(p_map) (fun k => exists x a, nth_error l x = Some a /\ within ((dpre h ++ chain kc) ++ step_text (PIdx (j + N.of_nat x))) a.(av_val) k).
  Proof.
    induction n; intros h s i s' r l kc j H F T AE K NC C; [discriminate|]. cbn [many_loop] in H.
    destruct i as [|c i]; [inversion H; subst; apply adds_same|]. apply rbind_ok in H as ([s1 r1] & E & H).
    destruct r1 as [i1 a| |]; [|inversion H; subst; apply adds_eq; rewrite (F _ _ E); reflexivity|discriminate].
    destruct (Nat.eqb _ _) eqn:NB; [exfalso; apply Nat.eqb_eq in NB; eapply (value_moves pval RV NV); eauto|]. apply rbind_ok in H as ([s2 r2] & E2 & H). destruct r2; inversion H; subst; clear H.
    assert (C1 : clean s1). { eapply clean_back; [|exact C]. eapply (pres_loop errors_grow); [intros; apply grow_same; auto|exact grow_trans|apply (grow_value pval GV)|exact E2]. }
    pose proof (calm_value pval CV _ _ _ _ E) as P0.
    destruct (value_put pval PV NV CV WV h _ _ _ _ _ _ _ E T AE K NC C1) as (K1 & _ & _).
    apply (value_add h _ _ _ _ _ kc j) in E; auto.
    eapply adds_trans; [eapply adds_impl; [|exact E]|].
    - intros k X. exists 0%nat, a. split; auto. rewrite N.add_0_r. exact X.
    - apply (IHn h _ _ _ _ _ kc (j + 1)) in E2; auto; [|eapply tabs_calm; eauto|rewrite (ca_aerr _ _ P0); auto].
      eapply adds_impl; [|exact E2]. intros k (x & b & X & W). exists (S x), b. split; auto. replace (j + N.of_nat (S x)) with (j + 1 + N.of_nat x) by lia. exact W.
  Qed.
  Lemma array_add : forall h s i s' r t n, array_ pval s i = Ok (s', Done r t) -> tabs h s -> s.(p_array_error) = false ->
    chain s.(p_keychain) <> [] -> clean s' -> adds s.(p_map) s'.(p_map) (inside (dpre h ++ chain s.(p_keychain)) (Cell n t)).
  Proof.
    intros h s i s' r t n H T AE NC C.
    unfold array_ in H. apply rbind_ok in H as ([s1 r1] & E & H). inversion H; subst s' r1; clear H. unfold array_internal_ in E.
    apply bind_done in E as (s2 & i2 & u & E2 & E). apply bind_done in E as (s3 & i3 & n1 & E3 & E).
    apply bind_done in E as (s4 & i4 & vals & E4 & E). apply bind_done in E as (s5 & i5 & n2 & E5 & E).
    apply bind_done in E as (s6 & i6 & u2 & E6 & E). apply ret_done in E as (-> & -> & ->).
    apply cons_state in E3 as E3'. subst s3. apply cons_state in E5 as E5'. subst s5.
    apply tag_done in E2 as (-> & -> & ->). apply tag_done in E6 as (-> & -> & ->).
    assert (GH := gap_head _ _ _ _ _ E5 ltac:(unfold gap_chars; cbn; auto 8)).
    unfold array_values_, many0 in E4.
    apply (values_add _ h _ _ _ _ _ s.(p_keychain) 0) in E4; auto.
    - eapply adds_impl; [|exact E4]. intros k (x & a & X & p & y & Y & ->). exists (PIdx (0 + N.of_nat x) :: p), y. split; [discriminate|]. split; [|rewrite path_cons; reflexivity].
      cbn [tat c_val]. replace (N.to_nat (0 + N.of_nat x)) with x by lia. rewrite X. exact Y.
    - intros s0 s0' X. unfold array_value_ in X. unfold bind at 1 in X. apply rbind_ok in X as ([s1 r1] & X1 & X).
      apply (stop_clean pval PV) in X1 as [X1 [-> | ->]]; [inversion X; subst; auto|inversion X|]. exact GH.
  Qed.
  Lemma keyval_add : forall h s i s' r kv kc, keyval_p_ pval s i = Ok (s', Done r kv) -> tabs h s -> s.(p_array_error) = false ->
    s.(p_keychain) = kc -> clean s' ->
    adds s.(p_map) s'.(p_map) (within (dpre h ++ chain (kc ++ [KStr kv.(kv_key)])) kv.(kv_val)).
  Proof.
    intros h s i s' r kv kc H T AE K C. unfold keyval_p_ in H. apply bind_done in H as (s1 & i1 & k & E1 & H).
    apply bind_done in H as (s2 & i2 & sep & E2 & H). apply bind_done in H as (s3 & i3 & c & E3 & H).
    apply act_done in H as (-> & H). pose proof (key_text _ _ _ _ _ E1) as [_ NK]. apply key_pushed in E1. subst s1.
    assert (s2 = push_key (KStr k) s) by (eapply (pure_state keyval_sep); [apply pure_kvsep|exact E2]). subst s2.
    destruct PV as [D _]. destruct (D _ _ _ _ _ s.(p_keychain) (KStr k) E3 eq_refl) as (K3 & _ & _ & _).
    pose proof (CV _ _ _ _ E3) as C3. unfold keyval_act in H.
    assert (A3 : p_array_error s3 = false) by (rewrite (ca_aerr _ _ C3); exact AE). rewrite A3 in H.
    apply rbind_ok in H as (s4 & I & H). inversion H; subst s' kv; clear H. cbn [kv_key kv_val p_keychain p_map pop_key set_keychain].
    cbn [push_key set_keychain p_keychain] in *. unfold vpush in *. rewrite K in *.
    assert (CL4 : clean s4) by (eapply clean_same; [|exact C]; reflexivity).
    assert (CL3 : clean s3) by (eapply clean_back; [eapply grow_insert; eauto|exact CL4]).
    assert (T2 : tabs h (push_key (KStr k) s)) by (destruct T; split; auto).
    assert (NC : chain (kc ++ [KStr k]) <> []).
    { unfold chain. rewrite fold_left_app. cbn [fold_left chain_step]. intros X. apply app_eq_nil in X as [_ X]. exact (name_ne _ NK X). }
    assert (KP : p_keychain (push_key (KStr k) s) = kc ++ [KStr k]) by (cbn; unfold vpush; congruence).
    pose proof (WA h _ _ _ _ _ E3 T2 AE) as X. rewrite KP in X. specialize (X NC CL3). cbn [p_map push_key set_keychain] in X.
    apply (insert_adds h) in I; [|eapply tabs_calm; eauto]. rewrite K3 in I.
    eapply adds_trans; [eapply adds_impl; [|exact X]; apply inside_within|]. eapply adds_impl; [|exact I]. intros x ->. apply within_self.
  Qed.
  Lemma entries_add : forall n h s i s' r l, many_loop n (table_keyval_p_ pval) s i = Ok (s', Done r l) ->
    (forall s s', table_keyval_p_ pval s r = Ok (s', Error) -> s' = s) ->
    tabs h s -> s.(p_array_error) = false -> chain s.(p_keychain) <> [] -> clean s' ->
    (forall t y, In t l -> ~ stored s.(p_map) ((dpre h ++ chain s.(p_keychain)) ++ step_text (PKey t.(tk_kv).(kv_key))) y) /\
    adds s.(p_map) s'.(p_map) (fun k => exists t, find (fun x => Spec.same_key t.(tk_kv).(kv_key) x.(tk_kv).(kv_key)) l = Some t /\
      within ((dpre h ++ chain s.(p_keychain)) ++ step_text (PKey t.(tk_kv).(kv_key))) t.(tk_kv).(kv_val) k).
  Proof.
    induction n; intros h s i s' r l H F T AE NC C; [discriminate|]. cbn [many_loop] in H.
    destruct i as [|c i]; [inversion H; subst; split; [intros ? ? []|apply adds_same]|]. apply rbind_ok in H as ([s1 r1] & E & H).
    destruct r1 as [i1 a| |]; [|inversion H; subst; split; [intros ? ? []|apply adds_eq; rewrite (F _ _ E); reflexivity]|discriminate].
    destruct (Nat.eqb _ _) eqn:NB.
    { exfalso. apply Nat.eqb_eq in NB. apply (reads_table_keyval pval RV) in E. apply (f_equal (@length N)) in E.
      unfold tk_src, tk_src_, sep_src in E. rewrite !app_length in E. change (length (lit "=")) with 1%nat in E. lia. }
    apply rbind_ok in H as ([s2 r2] & E2 & H). destruct r2; inversion H; subst; clear H.
    assert (C1 : clean s1). { eapply clean_back; [|exact C]. eapply (pres_loop errors_grow); [intros; apply grow_same; auto|exact grow_trans|apply (grow_entry pval GV)|exact E2]. }
    pose proof (calm_entry pval CV _ _ _ _ E) as P0.
    unfold table_keyval_p_ in E. apply bind_done in E as (s3 & i2 & kv & E1 & E).
    apply bind_done in E as (s4 & i3 & sep & E3 & E). apply bind_done in E as (s5 & i4 & nls & E4 & E). apply ret_done in E as (-> & -> & ->).
    apply sep_lf in E3 as [-> SP]. apply complete_done in E4. apply cons_state in E4. subst s5.
    pose proof (keyval_add h _ _ _ _ _ s.(p_keychain) E1 T AE eq_refl C1) as A1.
    apply (keyval_put pval PV CV WV h _ _ _ _ _ s.(p_keychain)) in E1 as (K1 & _ & NK & W & FR); auto.
    rewrite chain_snoc, app_assoc in A1, W, FR by auto. cbn [key_step] in A1, W, FR.
    destruct (IHn h _ _ _ _ _ E2) as (FR2 & A2); auto; [eapply tabs_calm; eauto|rewrite (ca_aerr _ _ P0); auto|rewrite K1; auto|]. rewrite K1 in FR2, A2.
    split.
    - intros t y [<-|I] Y; [exact (FR y Y)|]. eapply FR2; [exact I|]. apply (ca_map _ _ P0). exact Y.
    - eapply adds_trans; [eapply adds_impl; [|exact A1]|eapply adds_impl; [|exact A2]].
      + intros k X. match goal with |- exists t, find _ (?a :: _) = _ /\ _ => exists a end. cbn [tk_kv]. split; [|exact X]. cbn [find tk_kv]. unfold Spec.same_key. destruct (list_eq_dec _ _ _); [reflexivity|congruence].
      + intros k (t & FD & X). exists t. split; auto. cbn [find tk_kv]. unfold Spec.same_key at 1. destruct (list_eq_dec _ _ _) as [EQ|]; [exfalso|exact FD].
        apply find_some in FD as [I _]. apply (FR2 t (kv_val kv) I). rewrite EQ. specialize (W [] _ eq_refl). unfold path_text in W. cbn [map concat] in W.
        rewrite app_nil_r in W. exact W.
  Qed.
  Lemma inline_add : forall h s i s' r t n, inline_table_ pval s i = Ok (s', Done r t) -> tabs h s -> s.(p_array_error) = false ->
    chain s.(p_keychain) <> [] -> clean s' -> adds s.(p_map) s'.(p_map) (inside (dpre h ++ chain s.(p_keychain)) (Cell n t)).
  Proof.
    intros h s i s' r t n E T AE NC C. unfold inline_table_ in E.
    apply bind_done in E as (s2 & i2 & u & E2 & E). apply bind_done in E as (s3 & i3 & w1 & E3 & E).
    apply bind_done in E as (s4 & i4 & kvs & E4 & E). apply bind_done in E as (s5 & i5 & w2 & E5 & E).
    apply bind_done in E as (s6 & i6 & u2 & E6 & E). apply ret_done in E as (-> & -> & ->).
    apply tag_done in E2 as (-> & -> & ->). apply tag_done in E6 as (-> & -> & ->).
    apply ws_blanks in E3 as (-> & -> & B1). apply ws_blanks in E5 as (-> & -> & B2).
    assert (HD : exists c x, w2 ++ lit "}" ++ i6 = c :: x /\ (c = 32 \/ c = 9 \/ c = 125)).
    { destruct w2 as [|c w2]; cbn [app]; [exists 125, i6; auto|]. inversion B2; subst. exists c, (w2 ++ lit "}" ++ i6). split; auto. lia. }
    destruct HD as (c & x & HD & CC). rewrite HD in E4.
    apply opt_done in E4 as [(l & -> & E4)|(-> & E & E4)].
    - apply complete_done in E4. unfold inline_table_keyvals_, many0 in E4.
      apply (entries_add _ h) in E4 as [_ A]; auto.
      + eapply adds_impl; [|exact A]. intros k (tk & FD & p & y & Y & ->). exists (PKey (kv_key (tk_kv tk)) :: p), y. split; [discriminate|]. split; [|rewrite path_cons; reflexivity].
        cbn [tat c_val]. rewrite FD. exact Y.
      + intros s0 s0' X. rewrite (tk_stop pval) in X by auto. inversion X. reflexivity.
    - exfalso. subst. unfold complete, inline_table_keyvals_, many0 in E4. cbn [length many_loop] in E4. rewrite (tk_stop pval) in E4 by auto.
      cbn [rbind] in E4. discriminate.
  Qed.
End ExactVal.

Lemma scalar_map : pres mapsame (alt (pcell date_time TDateTime)
    (alt (pcell float TFloat)
    (alt (pcell integer TInteger)
    (alt (pcell boolean TBoolean)
         (pcell string_p (fun v => v)))))).
Proof.
  assert (R1 : forall s, mapsame s s) by reflexivity. assert (R2 : forall a b c, mapsame a b -> mapsame b c -> mapsame a c) by (unfold mapsame; intros; congruence).
  assert (R3 : forall s v, mapsame s (fst (new_cell s v))) by reflexivity.
  repeat apply pres_alt; auto; (apply pres_pcell; try exact R1; try exact R2; try exact R3).
  - apply pres_date_time; auto; reflexivity.
  - apply mapsame_pure. unfold float. pure_tac.
  - apply mapsame_pure. unfold integer. pure_tac.
  - apply pres_boolean; auto.
  - apply pres_string; auto; reflexivity.
Qed.
Lemma vadd_val_ : forall p, vfault p -> reads p cell_src -> (forall s i s' r c, p s i = Ok (s', Done r c) -> r <> i) ->
  pres calm p -> pres errors_grow p -> vput p -> vadd p -> vadd (val_ p).
Proof.
  intros p PV RV NV CV GV WV WA h s i s' r c H T AE NC C. unfold val_ in H. apply alt_done in H as [H|(s1 & E1 & H)].
  { apply pcell_map in H as (s1 & a & H & EC & M & EE). destruct c as [n t]. cbn [c_val] in *. subst t.
    rewrite M. eapply (array_add p); eauto. eapply clean_same; [|exact C]. auto. }
  apply alt_done in H as [H|(s2 & E2 & H)].
  { assert (s1 = s).
    { destruct i as [|x i]; [|destruct (N.eq_dec x 91)].
      - rewrite arr_err in E1 by exact I. inversion E1. auto.
      - exfalso. subst x. rewrite inl_err in H by (cbn; lia). discriminate.
      - rewrite arr_err in E1 by (cbn; auto). inversion E1. auto. }
    subst s1. apply pcell_map in H as (s1 & a & H & EC & M & EE). destruct c as [n t]. cbn [c_val] in *. subst t.
    rewrite M. eapply (inline_add p); eauto. eapply clean_same; [|exact C]. auto. }
  pose proof H as H0. apply holds_scalar in H as (_ & _ & _ & _ & O). assert (head_not 91 i /\ head_not 123 i) as [O1 O2] by (destruct i; cbn in *; lia).
  rewrite arr_err in E1 by auto. inversion E1; subst. rewrite inl_err in E2 by auto. inversion E2; subst. apply scalar_map in H0. apply adds_eq. exact H0.
Qed.
Lemma vadd_val : forall f, vadd (val f).
Proof.
  induction f; [discriminate|]. apply vadd_val_; auto; [apply vfault_val|apply reads_val|apply val_moves|apply calm_val|apply grow_val|apply vput_val].
Qed.
Lemma vadd_val_p : vadd val_p.
Proof. intros h s i s' r c H. eapply vadd_val. exact H. Qed.

(** ** Documents *)
Definition line_keys (d : list (list str * keyval)) (k : str) : Prop := exists x, In x d /\ within (line_name x) (snd x).(kv_val) k.
Definition own (h : list str) (e : expression) : list (list str * keyval) := match e.(e_keyval) with Some kv => [(under_head h e, kv)] | None => [] end.
Lemma keyed_own : forall h nl e l, keyed h ({| ne_nl := nl; ne_expr := e |} :: l) = own h e ++ keyed (under_head h e) l.
Proof. intros h nl e l. unfold own. cbn [keyed ne_expr]. fold (under_head h e). destruct (e_keyval e); reflexivity. Qed.
Lemma expr_adds : forall h s i s' r e, expression_p s i = Ok (s', Done r e) -> inv h s -> clean s' -> not_array e -> void_head r \/ ~ idle e ->
  adds s.(p_map) s'.(p_map) (line_keys (own h e)).
Proof.
  intros h s i s' r e H IV C NA V. pose proof H as H0. unfold expression_p in H. apply alt_done in H as [H|(s1 & E1 & H)].
  - clear H0. apply complete_done in H. unfold table_comment in H.
    apply bind_done in H as (s1 & i1 & w1 & E1 & H). apply bind_done in H as (s2 & i2 & t & E2 & H).
    apply bind_done in H as (s3 & i3 & w2 & E3 & H). apply bind_done in H as (s4 & i4 & c & E4 & H). apply ret_done in H as (-> & _ & ->).
    apply ws_blanks in E1 as (-> & _ & _). apply ws_blanks in E3 as (-> & _ & _).
    assert (s4 = s2) by (eapply (pure_state (opt (complete comment))); [unfold comment; pure_tac|exact E4]). subst s4.
    apply (table_std h) in E2 as (_ & _ & NV); auto. apply adds_novals. exact NV.
  - apply alt_done in H as [H|(s2 & E2 & H)].
    + clear H0. apply complete_done in H. unfold keyval_comment in H.
      apply bind_done in H as (s2 & i1 & w1 & W1 & H). apply bind_done in H as (s3 & i2 & kv & E2 & H).
      apply bind_done in H as (s4 & i3 & w2 & E3 & H). apply bind_done in H as (s5 & i4 & c & E4 & H). apply ret_done in H as (-> & -> & ->).
      assert (HN : head_not 91 i1). { unfold keyval_p, keyval_p_ in E2. apply bind_done in E2 as (? & ? & ? & E2 & _). eapply key_heads; eauto. }
      assert (s1 = s).
      { unfold complete in E1. apply rbind_ok in E1 as ([s6 r6] & E6 & E1). assert (s6 = s). { eapply table_not; [|exact HN|exact E6]. rewrite ws_eq in W1 |- *. inversion W1. reflexivity. }
        inversion E1. congruence. }
      subst s1. apply ws_blanks in W1 as (-> & _ & _). apply ws_blanks in E3 as (-> & _ & _).
      assert (s5 = s3) by (eapply (pure_state (opt (complete comment))); [unfold comment; pure_tac|exact E4]). subst s5.
      unfold keyval_p in E2. destruct IV as [T K AE].
      apply (keyval_add val_p vfault_val_p calm_val_p vadd_val_p h _ _ _ _ _ []) in E2; auto.
      eapply adds_impl; [|exact E2]. intros k X. unfold own. cbn [e_keyval]. exists (h, kv). split; [left; reflexivity|]. unfold line_name. cbn [fst snd].
      rewrite dotted_snoc. unfold chain in X. cbn [app fold_left chain_step] in X. exact X.
    + assert (ID : idle e).
      { apply alt_done in H as [H|(s3 & E3 & H)]; apply complete_done in H; [unfold ws_comment in H|unfold ws_expr in H].
        * apply bind_done in H as (s3 & i1 & w & W & H). apply bind_done in H as (s4 & i2 & c & E3 & H).
          apply ret_done in H as (_ & _ & ->). split; reflexivity.
        * apply bind_done in H as (s4 & i1 & w & W & H). apply ret_done in H as (_ & _ & ->). split; reflexivity. }
      destruct (idle_step _ _ _ _ _ H0 ID) as (_ & _ & VS). destruct V as [V|V]; [|contradiction]. rewrite (VS V). apply adds_same.
Qed.
Lemma loop_adds : forall n h s i s' r l, many_loop n nl_expression_p s i = Ok (s', Done r l) -> (void_head i -> inv h s) -> clean s' -> plain_tables l -> void_head r ->
  (i = r /\ s' = s) \/ void_head i /\ adds s.(p_map) s'.(p_map) (line_keys (keyed h l)).
Proof.
  induction n; intros h s i s' r l H IV C PT V; [discriminate|]. cbn [many_loop] in H.
  destruct i as [|c i]; [inversion H; subst; left; auto|].
  apply rbind_ok in H as ([s1 r1] & E & H). unfold nl_expression_p in E at 1. unfold bind at 1 in E.
  apply rbind_ok in E as ([s2 r2] & E2 & E). pose proof (newline_quiet _ _ _ _ E2) as C2.
  destruct r2 as [i2 nl| |]; [|inversion E; subst; inversion H; subst; left; auto|inversion E; subst; inversion H].
  destruct C2 as (VH & _ & _). destruct (newline_map _ _ _ _ E2) as [M2 I2]. apply newline_short in E2. unfold bind at 1 in E. apply rbind_ok in E as ([s3 r3] & E3 & E).
  destruct (expression_done _ _ _ _ E3) as (i3 & e & ->). inversion E; subst. clear E. pose proof (reads_expression _ _ _ _ _ E3) as RE.
  match type of H with (if ?b then _ else _) = _ => destruct b eqn:NB end.
  { exfalso. apply Nat.eqb_eq in NB. subst i2. rewrite app_length in E2. lia. }
  apply rbind_ok in H as ([s4 r4] & E4 & H). destruct r4 as [r4 l4| |]; inversion H; subst. inversion PT as [|? ? NA PT']; subst. rewrite <- M2.
  assert (C1 : clean s1). { eapply clean_back; [|exact C]. eapply (pres_loop errors_grow); [intros; apply grow_same; auto|exact grow_trans| |exact E4].
    apply ClashFacts.loop_pres; [intros; apply grow_same; auto|exact grow_trans|intros; apply grow_same; reflexivity|exact grow_expression]. }
  destruct (expr_step h _ _ _ _ _ E3 (I2 _ (IV VH)) C1 NA) as (_ & IV1 & _). right. split; auto. rewrite keyed_own.
  assert (X : void_head i3 /\ adds (p_map s1) (p_map s') (line_keys (keyed (under_head h e) l4))).
  { destruct (IHn (under_head h e) _ _ _ _ _ E4) as [[-> ->]|X]; auto. split; auto. apply adds_same. }
  destruct X as [VI X]. apply (expr_adds h) in E3; auto.
  eapply adds_trans; [eapply adds_impl; [|exact E3]|eapply adds_impl; [|exact X]]; intros k (x & I & W); exists x; (split; [apply in_or_app; auto|exact W]).
Qed.
Lemma toml_adds : forall h s i s' r t, toml_p s i = Ok (s', Done r t) -> inv h s -> clean s' -> plain_tables t -> void_head r ->
  adds s.(p_map) s'.(p_map) (line_keys (keyed h t)).
Proof.
  intros h s i s' r t T IV C PT V. unfold toml_p in T. apply bind_done in T as (s2 & i1 & e & E1 & T). apply bind_done in T as (s3 & i2 & l & E2 & T).
  apply ret_done in T as (-> & -> & ->). unfold nl_expressions, many0 in E2. inversion PT as [|? ? NA PT']; subst.
  assert (C1 : clean s2). { eapply clean_back; [|exact C]. eapply (pres_loop errors_grow); [intros; apply grow_same; auto|exact grow_trans| |exact E2].
    apply ClashFacts.loop_pres; [intros; apply grow_same; auto|exact grow_trans|intros; apply grow_same; reflexivity|exact grow_expression]. }
  destruct (expr_step h _ _ _ _ _ E1 IV C1 NA) as (P & IV1 & KV). rewrite keyed_own.
  assert (X : void_head i1 /\ adds (p_map s2) (p_map s3) (line_keys (keyed (under_head h e) l))).
  { apply (loop_adds _ (under_head h e)) in E2 as [[-> ->]|X]; auto. split; auto. apply adds_same. }
  destruct X as [VI X]. apply (expr_adds h) in E1; auto.
  eapply adds_trans; [eapply adds_impl; [|exact E1]|eapply adds_impl; [|exact X]]; intros k (x & I & W); exists x; (split; [apply in_or_app; auto|exact W]).
Qed.

Lemma found_only : forall ovf i s r k v, parse (new_parser ovf) i = Ok (s, r) -> plain_tables s.(p_root) -> all_taken s.(p_errors) -> s.(p_leftover) = [] ->
  get_value s k = Ok (Some v) ->
  exists x u p, In x (keyed [] s.(p_root)) /\ denotes (snd x).(kv_val).(c_val) u /\ at_path u p = Some v /\ k = line_name x ++ path_text p.
Proof.
  intros ovf i s r k v H PT C LO G. destruct (found_all _ _ _ _ H PT C) as [_ FA]. destruct (parse_inv _ _ _ _ H) as (s1 & rest & t & T & EI & -> & L).
  cbn [p_root p_leftover p_errors set_leftover set_root] in *. subst rest.
  assert (HK : has s1.(p_map) k).
  { unfold get_value in G. cbn [p_map set_leftover set_root] in G. unfold has, key_has_value. destruct (hget k (p_map s1)) as [[[c|] sub]|]; cbn [hv_value] in *; try discriminate.
    destruct (c_val c); auto. discriminate. }
  apply (toml_adds []) in T; auto; [|constructor; [|reflexivity..]; split; [|constructor]; cbn; auto|exact I].
  apply T in HK as [HK|(x & I & p & y & Y & ->)].
  - exfalso. unfold has, key_has_value in HK. cbn [p_map new_parser] in HK. cbn [hput hget] in HK. destruct (str_eqb k root_key); discriminate HK.
  - destruct (FA x I) as (u & D & GV). exists x, u, p. split; auto. split; auto. split; auto. pose proof (tat_at p _ _ (denotes_val _ _ D)) as TA.
    destruct (at_path u p) as [w|] eqn:Q; [|congruence]. apply GV in Q. congruence.
Qed.
Lemma denotes_one : forall t u v, denotes t u -> denotes t v -> u = v.
Proof. intros t u v A B. apply denotes_val in A, B. congruence. Qed.
Lemma found_exact : forall ovf i s r k v, parse (new_parser ovf) i = Ok (s, r) -> plain_tables s.(p_root) -> all_taken s.(p_errors) -> s.(p_leftover) = [] ->
  (get_value s k = Ok (Some v) <-> exists n u p, writes s.(p_root) n u /\ at_path u p = Some v /\ k = n ++ path_text p).
Proof.
  intros ovf i s r k v H PT C LO. split.
  - intros G. destruct (found_only _ _ _ _ _ _ H PT C LO G) as (x & u & p & I & D & A & E). exists (line_name x), u, p. split; [exists x; auto|auto].
  - intros (n & u & p & (x & I & <- & D) & A & ->). destruct (proj2 (found_all _ _ _ _ H PT C) x I) as (u2 & D2 & G). apply G. rewrite (denotes_one _ _ _ D2 D). exact A.
Qed.
Lemma found_same : forall o1 i1 s1 r1 o2 i2 s2 r2, parse (new_parser o1) i1 = Ok (s1, r1) -> parse (new_parser o2) i2 = Ok (s2, r2) ->
  plain_tables s1.(p_root) -> all_taken s1.(p_errors) -> s1.(p_leftover) = [] -> plain_tables s2.(p_root) -> all_taken s2.(p_errors) -> s2.(p_leftover) = [] ->
  (forall n u, writes s1.(p_root) n u <-> writes s2.(p_root) n u) ->
  forall k v, get_value s1 k = Ok (Some v) <-> get_value s2 k = Ok (Some v).
Proof.
  intros o1 i1 s1 r1 o2 i2 s2 r2 H1 H2 P1 C1 L1 P2 C2 L2 W k v. rewrite (found_exact _ _ _ _ k v H1 P1 C1 L1), (found_exact _ _ _ _ k v H2 P2 C2 L2).
  split; intros (n & u & p & X & Y); exists n, u, p; (split; [apply W; exact X|exact Y]).
Qed.
Lemma one_value : forall ovf i s r n u v, parse (new_parser ovf) i = Ok (s, r) -> plain_tables s.(p_root) -> all_taken s.(p_errors) ->
  writes s.(p_root) n u -> writes s.(p_root) n v -> u = v.
Proof.
  intros ovf i s r n u v H PT C (x & I & E & D) (x2 & I2 & E2 & D2). destruct (found_all _ _ _ _ H PT C) as [_ F].
  destruct (F x I) as (u' & DU & G). destruct (F x2 I2) as (v' & DV & G2). rewrite (denotes_one _ _ _ D DU), (denotes_one _ _ _ D2 DV).
  specialize (G [] _ eq_refl). specialize (G2 [] _ eq_refl). rewrite E in G. rewrite E2 in G2. congruence.
Qed.
Lemma val_denotes : forall t v, to_val t = Ok v -> denotes t v.
Proof.
  fix IH 1. intros t v H. destruct t as [x|x|b|d|avs n1 n2|x k|tks w|]; try (inversion H; subst; constructor).
  - cbn [to_val] in H. apply rbind_ok in H as (l & E & H). inversion H; subst. constructor. clear H. revert l E.
    induction avs as [|[[n t] sep nls] avs IHA]; intros l E.
    + inversion E. constructor.
    + rewrite rmap_cons in E. apply rbind_ok in E as (x & X & E). apply rbind_ok in E as (y & Y & E). inversion E; subst.
      constructor; [apply IH; exact X|apply IHA; exact Y].
  - cbn [to_val] in H. apply rbind_ok in H as (l & E & H). inversion H; subst. constructor. clear H. revert l E.
    induction tks as [|[[k sep [n t]] sep2 nls] tks IHA]; intros l E.
    + inversion E. constructor.
    + rewrite rmap_cons in E. apply rbind_ok in E as (x & X & E). apply rbind_ok in E as (y & Y & E). inversion E; subst.
      apply rbind_ok in X as (z & Z & X). inversion X; subst. constructor; [split; [reflexivity|apply IH; exact Z]|apply IHA; exact Y].
Qed.
