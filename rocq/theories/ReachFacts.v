(** Every key/value of a document is found. *)
From Coq Require Import Lia ZifyBool ZifyNat ZifyN.
From Verif Require Import TotalFacts.
From Verif Require Import Str Regex Types Ast State Nom Keys Grammar Api Facts Spec.
From Verif Require Import NomFacts ScalarFacts LineFacts FlatFacts RoundTrip ParseFacts WalkFacts Effects IdFacts DocSpec MixSpec PathFacts NestFacts SectFacts LookFacts.
From Verif Require Import DateFacts HeadSpec SafeFacts CountFacts DotSpec DotFacts OrderSpec OrderFacts CauseSpec AfterFacts CauseFacts ReachSpec.

From Verif Require CalmWalk ClashFacts.

(** ** Values that stay *)
Definition stored (m : vmap) (k : str) (c : cell) : Prop := c.(c_val) <> TTable /\ exists sub, hget k m = Some (HashValue (Some c) sub).
Definition persist (m m' : vmap) : Prop := forall k c, stored m k c -> stored m' k c.
Lemma persist_refl : forall m, persist m m.
Proof. intros m k c H. exact H. Qed.
Lemma persist_trans : forall a b c, persist a b -> persist b c -> persist a c.
Proof. intros a b c H H2 k x X. auto. Qed.
Lemma persist_gentle : forall m m', gentle (fun _ _ => True) m m' -> persist m m'.
Proof.
  intros m m' G k c [T (sub & H)]. split; auto. destruct (G k (Some c) _ _ I H) as (v & s & X & V & _). rewrite (V c eq_refl eq_refl) in X. eauto.
Qed.
Lemma persist_put : forall (m : vmap) k hv, (forall c sub, hget k m = Some (HashValue (Some c) sub) -> c.(c_val) <> TTable -> hv.(hv_value) = Some c) ->
  persist m (hput k hv m).
Proof.
  intros m k hv H x c [T (sub & X)]. split; auto. destruct (list_eq_dec N.eq_dec x k) as [->|NE].
  - rewrite hget_hput_same. destruct hv as [v su]. specialize (H _ _ X T). cbn in H. subst. eauto.
  - rewrite hget_hput_other by auto. eauto.
Qed.
Lemma persist_free : forall (m : vmap) k hv, key_has_value m k = false -> persist m (hput k hv m).
Proof.
  intros m k hv H. apply persist_put. intros c sub X T. exfalso. unfold key_has_value in H. rewrite X in H. cbn [hv_value] in H.
  destruct (c_val c); try discriminate. apply T. reflexivity.
Qed.
Lemma persist_sub : forall (m : vmap) k hv sub, hget k m = Some hv -> persist m (hput k (HashValue hv.(hv_value) sub) m).
Proof. intros m k hv sub H. apply persist_put. intros c su X _. rewrite H in X. inversion X. reflexivity. Qed.

(** ** Errors *)
Definition clean (s : pst) : Prop := all_taken s.(p_errors).
Lemma clean_back : forall s s', errors_grow s s' -> clean s' -> clean s.
Proof.
  intros s s' (a & b & E & F) C. unfold clean, all_taken in *. rewrite E in C. apply Forall_app in C as [C _]. clear E.
  induction F as [|x y l l' K F IH]; constructor; inversion C; subst; auto. destruct K as [->|(k & n & u & v & -> & -> & _)]; auto.
Qed.
(** what reading a value leaves *)
Record calm (s s' : pst) : Prop := {
  ca_map : persist s.(p_map) s'.(p_map);
  ca_tables : s'.(p_tables) = s.(p_tables);
  ca_tindex : s'.(p_tindex) = s.(p_tindex);
  ca_last : s'.(p_last_table) = s.(p_last_table);
  ca_aerr : s'.(p_array_error) = s.(p_array_error) }.
Lemma calm_same : forall s s', s'.(p_map) = s.(p_map) -> s'.(p_tables) = s.(p_tables) -> s'.(p_tindex) = s.(p_tindex) ->
  s'.(p_last_table) = s.(p_last_table) -> s'.(p_array_error) = s.(p_array_error) -> calm s s'.
Proof. intros s s' A B C D E. constructor; auto. rewrite A. apply persist_refl. Qed.
Lemma calm_trans : forall a b c, calm a b -> calm b c -> calm a c.
Proof. intros a b c [] []. constructor; try congruence. eapply persist_trans; eauto. Qed.
Lemma calm_insert : forall s c s', insert_keyval_into_map s c = Ok s' -> calm s s'.
Proof.
  intros s c s' H. assert (persist s.(p_map) s'.(p_map)) by (apply persist_gentle; eapply insert_gentle; eauto).
  apply insert_effect in H as [(fk & v & ->)|(m & ->)]; constructor; auto.
Qed.
Ltac calm_tac L := apply L; intros; first [assumption|eapply calm_trans; eassumption|eapply calm_insert; eassumption|apply calm_same; reflexivity].
Lemma calm_val : forall f, pres calm (val f).
Proof. calm_tac pres_val. Qed.
Lemma calm_val_p : pres calm val_p.
Proof. calm_tac pres_val_p. Qed.
Lemma calm_keyval_p : pres calm keyval_p.
Proof. calm_tac pres_keyval_p. Qed.

(** ** Full keys *)
Definition not_root (n : str) : Prop := str_eqb n root_key = false.
Lemma name_not : forall n, name_text n -> not_root n.
Proof.
  intros n H. unfold not_root. destruct (str_eqb_spec n root_key) as [->|]; auto. exfalso. destruct H as [[_ B]|(x & _ & E)].
  - inversion B as [|? ? C _]. unfold bare_char in C. lia.
  - discriminate.
Qed.
Lemma gatk_std_any : forall m names q v pk, Forall not_root names -> names <> [] ->
  exists v' pk', gatk_std m names v (dpre q) pk = (v', dpre (q ++ removelast names), pk').
Proof.
  intros m. induction names as [|n names IH]; intros q v pk F N; [congruence|]. inversion F as [|? ? B F']; subst.
  destruct names as [|n2 names].
  - cbn [gatk_std removelast]. rewrite app_nil_r. eauto.
  - rewrite gatk_std_eq, B.
    assert (E : dpre q ++ n = dpar (q ++ [n])) by (rewrite dpar_snoc, dotted_snoc; auto). rewrite E.
    assert (E2 : dpar (q ++ [n]) ++ lit "." = dpre (q ++ [n])) by (rewrite dpar_snoc; unfold dpre; destruct (q ++ [n]) eqn:Q; auto; destruct q; discriminate).
    rewrite E2. edestruct (IH (q ++ [n])) as (v' & pk' & X); auto; [discriminate|]. rewrite X. rewrite <- app_assoc. eauto.
Qed.
Lemma table_steps : forall m (t : table), t <> [] ->
  (forall v pk, gatk_std m (get_last_keys t) v [] pk = gatk_std m (map wk_key t) v [] pk) /\
  last (get_last_keys t) [] = last (map wk_key t) [] /\ map wk_key t <> [] /\
  dpre (removelast (map wk_key t)) ++ last (map wk_key t) [] = dotted_name (map wk_key t).
Proof.
  intros m t N. assert (NM : map wk_key t <> []) by (destruct t; [congruence|discriminate]). unfold get_last_keys.
  split; [|split; [|split; auto]].
  - intros v0 pk0. destruct (map wk_key t); [congruence|]. rewrite gatk_std_eq, str_eqb_refl. auto.
  - destruct (map wk_key t); [congruence|reflexivity].
  - rewrite <- dotted_snoc. rewrite <- app_removelast_last by auto. auto.
Qed.
Lemma gatk_any : forall ovf m t r, Forall not_root (map wk_key t) -> t <> [] ->
  exists v pk, get_array_table_key ovf m (TStandard t :: r) [0] = Ok (v, dotted_name (map wk_key t), pk).
Proof.
  intros ovf m t r F N. unfold get_array_table_key. cbn [length gatk_loop vindex nth_error rbind skipn].
  destruct (table_steps m t N) as (SK & LK & NM & D). rewrite SK, LK.
  destruct (gatk_std_any m (map wk_key t) [] true root_key F NM) as (v & pk & E). cbn [app dpre] in E. rewrite E, D. eauto.
Qed.
(** a valid name has no value on its way *)
Lemma gatk_std_valid : forall m names q v pk v' fk pk', Forall not_root names ->
  gatk_std m names v (dpre q) pk = (v', fk, pk') -> v' = true ->
  v = true /\ forall a b, names = a ++ b -> a <> [] -> b <> [] -> key_has_value m (dotted_name (q ++ a)) = false.
Proof.
  intros m. induction names as [|n names IH]; intros q v pk v' fk pk' F H V; [|inversion F as [|? ? B F']; subst; destruct names as [|n2 names]].
  - cbn [gatk_std] in H. inversion H; subst. split; auto. intros a b E NA. destruct a; [congruence|discriminate].
  - cbn [gatk_std] in H. inversion H; subst. split; auto. intros a b E NA NB. destruct a as [|x a]; [congruence|]. destruct a; [|discriminate].
    cbn [app] in E. inversion E; subst. congruence.
  - rewrite gatk_std_eq, B in H.
    assert (E : dpre q ++ n = dotted_name (q ++ [n])) by (rewrite dotted_snoc; auto). rewrite E in H.
    assert (E2 : dotted_name (q ++ [n]) ++ lit "." = dpre (q ++ [n])) by (unfold dpre; destruct (q ++ [n]) eqn:Q; auto; destruct q; discriminate).
    rewrite E2 in H. apply IH in H as [H X]; auto. apply andb_prop in H as [-> H]. split; auto.
    intros a b EQ NA NB. destruct a as [|y a]; [congruence|]. cbn [app] in EQ. injection EQ as <- EQ. destruct a as [|z a].
    + apply Bool.negb_true_iff in H. exact H.
    + replace (q ++ n :: z :: a) with ((q ++ [n]) ++ z :: a) by (rewrite <- app_assoc; auto). apply (X (z :: a) b); auto. discriminate.
Qed.
Lemma gatk_valid : forall ovf m t fk pk, Forall not_root (map wk_key t) -> t <> [] ->
  get_array_table_key ovf m [TStandard t] [0] = Ok (true, fk, pk) ->
  fk = dotted_name (map wk_key t) /\ forall a b, map wk_key t = a ++ b -> a <> [] -> key_has_value m (dotted_name a) = false.
Proof.
  intros ovf m t fk pk F N H. destruct (gatk_any ovf m t [] F N) as (v0 & pk0 & NM0). rewrite H in NM0. inversion NM0; subst v0 fk pk0. split; auto.
  unfold get_array_table_key in H. cbn [length gatk_loop vindex nth_error rbind skipn] in H.
  destruct (table_steps m t N) as (SK & LK & NM & D). rewrite SK, LK in H.
  destruct (gatk_std m (map wk_key t) true [] root_key) as [[v1 fk1] pk1] eqn:E.
  destruct (gatk_std_any m (map wk_key t) [] true root_key F NM) as (v & pk2 & E3). cbn [app dpre] in E3. rewrite E3 in E. inversion E; subst.
  rewrite D in H. inversion H as [[HV HP]]. apply andb_prop in HV as [HV HK]. rewrite HV in E3.
  apply (gatk_std_valid m _ []) in E3 as [_ X]; auto. intros a b EQ NA. destruct b as [|y b].
  - rewrite app_nil_r in EQ. rewrite <- EQ. apply Bool.negb_true_iff in HK. exact HK.
  - apply (X a (y :: b)); auto. discriminate.
Qed.

(** ** The state between expressions *)
Definition tabs (h : list str) (s : pst) : Prop := htabs h s /\ Forall name_text h.
Definition chain (kc : list key) : str := fold_left chain_step kc [].
Definition key_step (k : key) : pstep := match k with KStr n => PKey n | KIndex i => PIdx i end.
Lemma chain_snoc : forall kc k, chain kc <> [] -> chain (kc ++ [k]) = chain kc ++ step_text (key_step k).
Proof.
  intros kc k N. unfold chain in *. rewrite fold_left_app. cbn [fold_left]. destruct k as [n|i]; cbn [chain_step key_step step_text]; [|reflexivity].
  destruct (fold_left chain_step kc []); [congruence|]. rewrite <- app_assoc. reflexivity.
Qed.
Lemma chain_more : forall kc k, chain kc <> [] -> chain (kc ++ [k]) <> [].
Proof. intros kc k N. rewrite chain_snoc by auto. intros X. apply app_eq_nil in X as [X _]. auto. Qed.
Lemma name_ne : forall n, name_text n -> n <> [].
Proof. intros n [[H _]|(x & _ & ->)]; [auto|discriminate]. Qed.
Lemma names_not : forall h, Forall name_text h -> Forall not_root h.
Proof. intros h F. induction F; constructor; auto. apply name_not; auto. Qed.
Lemma keys_of : forall h s fk pk, tabs h s -> keyval_keys s = Ok (fk, pk) -> fk = dpre h ++ chain s.(p_keychain).
Proof.
  intros h s fk pk [T F] H. unfold keyval_keys in H. destruct h as [|n h].
  - destruct T as (L & _ & _). rewrite L in H. unfold get_keychain_key in H. inversion H. reflexivity.
  - destruct T as (t & L & TS & TI & E). rewrite L, TS, TI in H. unfold get_full_key in H. unfold vpush in H. cbn [app] in H.
    destruct (gatk_any s.(p_ovf) s.(p_map) t [TStandard t]) as (v & pk0 & X); [rewrite E; apply names_not; auto|destruct t; [discriminate E|discriminate]|].
    rewrite X in H. rewrite E in H. clear X E. unfold get_keychain_key in H. unfold dpre, chain.
    assert (D : exists c x, dotted_name (n :: h) = c :: x).
    { inversion F as [|? ? NT _]; subst. apply name_ne in NT. destruct n as [|c n]; [congruence|]. destruct h; cbn [dotted_name app]; eauto. }
    destruct D as (c & x & D). rewrite D in *. cbn [rbind] in H. inversion H. rewrite <- app_assoc. reflexivity.
Qed.
Lemma tabs_calm : forall h s s', calm s s' -> tabs h s -> tabs h s'.
Proof.
  intros h s s' [_ A B C _] [T F]. split; auto. unfold htabs in *. rewrite A, B, C. exact T.
Qed.
Lemma insert_stored : forall h s c s', tabs h s -> insert_keyval_into_map s c = Ok s' -> clean s' -> c.(c_val) <> TTable ->
  stored s'.(p_map) (dpre h ++ chain s.(p_keychain)) c /\ forall y, ~ stored s.(p_map) (dpre h ++ chain s.(p_keychain)) y.
Proof.
  intros h s c s' T H C NT. unfold insert_keyval_into_map in H. apply rbind_ok in H as ([fk pk] & K & H). apply (keys_of h) in K; auto. rewrite <- K.
  assert (P : forall hv m, update_parent (hput fk hv (p_map s)) pk (p_keychain s) = Ok m -> hv.(hv_value) = Some c -> stored m fk c).
  { intros hv m U V. apply (parent_gentle (fun _ _ => True)) in U. eapply persist_gentle; [exact U|]. split; auto. rewrite hget_hput_same. destruct hv as [v su]. cbn in V. subst. eauto. }
  destruct (hget fk (p_map s)) as [[[c0|] sub]|] eqn:Q.
  - exfalso. apply rbind_ok in H as (v & _ & H). inversion H; subst. unfold clean, all_taken in C. cbn [p_errors push_error set_errors] in C.
    apply Forall_app in C as [_ C]. inversion C; subst. assumption.
  - apply rbind_ok in H as (m & U & H). inversion H; subst. cbn [p_map set_map]. split; [eapply P; eauto|]. intros y [_ (su & Y)]. congruence.
  - apply rbind_ok in H as (m & U & H). inversion H; subst. cbn [p_map set_map]. split; [eapply P; [exact U|destruct (c_val c); reflexivity]|]. intros y [_ (su & Y)]. congruence.
Qed.

(** ** Values *)
Lemma denotes_table : forall t v, denotes t v -> t <> TTable.
Proof. intros t v H. destruct H; discriminate. Qed.
(** all that is in [c], and what is inside only *)
Definition whole (m : vmap) (k : str) (c : cell) : Prop := forall p y, tat c p = Some y -> stored m (k ++ path_text p) y.
Definition inner (m : vmap) (k : str) (c : cell) : Prop := forall p y, p <> [] -> tat c p = Some y -> stored m (k ++ path_text p) y.
Lemma whole_persist : forall m m' k c, persist m m' -> whole m k c -> whole m' k c.
Proof. intros m m' k c P H p y E. apply P. eapply H; eauto. Qed.
Lemma inner_persist : forall m m' k c, persist m m' -> inner m k c -> inner m' k c.
Proof. intros m m' k c P H p y N E. apply P. eapply H; eauto. Qed.
Lemma whole_inner : forall m k c, inner m k c -> stored m k c -> whole m k c.
Proof. intros m k c H S [|x p] y E; [|apply H; auto; discriminate]. inversion E; subst. unfold path_text. cbn [map concat]. rewrite app_nil_r. exact S. Qed.
Lemma path_cons : forall k x p, k ++ path_text (x :: p) = (k ++ step_text x) ++ path_text p.
Proof. intros. unfold path_text. cbn [map concat]. rewrite app_assoc. reflexivity. Qed.

Definition vput (p : P cell) : Prop := forall h s i s' r c, p s i = Ok (s', Done r c) -> tabs h s -> s.(p_array_error) = false ->
  chain s.(p_keychain) <> [] -> clean s' ->
  (exists v, denotes c.(c_val) v) /\ inner s'.(p_map) (dpre h ++ chain s.(p_keychain)) c.

Lemma clean_same : forall s s', s'.(p_errors) = s.(p_errors) -> clean s' -> clean s.
Proof. unfold clean. congruence. Qed.
Lemma chain_last : forall kc, chain kc <> [] -> exists a k, kc = a ++ [k].
Proof. intros kc N. destruct kc as [|k a] using rev_ind; [exfalso; apply N; reflexivity|eauto]. Qed.

Section ReachVal.
  Variable pval : P cell.
  Hypothesis PV : vfault pval.
  Hypothesis RV : reads pval cell_src.
  Hypothesis NV : forall s i s' r c, pval s i = Ok (s', Done r c) -> r <> i.
  Hypothesis CV : pres calm pval.
  Hypothesis GV : pres errors_grow pval.
  Hypothesis WV : vput pval.

  Lemma pure_pres : forall R : pst -> pst -> Prop, (forall s, R s s) -> forall A (p : P A), pure p -> pres R p.
  Proof. intros R H A p Q s i s' r X. apply pure_state with (1 := Q) in X. subst. apply H. Qed.
  Lemma calm_id : forall s, calm s s.
  Proof. intros s. apply calm_same; reflexivity. Qed.
  Lemma grow_id : forall s, errors_grow s s.
  Proof. intros s. apply grow_same. reflexivity. Qed.
  Lemma calm_value : pres calm (array_value_ pval).
  Proof.
    unfold array_value_. apply pres_bind; [exact calm_trans|exact CV|]. intros v.
    apply pres_bind; [exact calm_trans|apply (pure_pres calm calm_id); pure_tac; apply pure_sep|]. intros sep.
    apply pres_bind; [exact calm_trans|apply pres_complete; apply pres_comment_or_nls; [exact calm_id|exact calm_trans]|]. intros nls.
    apply pres_act. intros s s' a H. apply array_value_effect in H as [_ (t & s1 & s2 & kc & _ & M & I & ->)].
    eapply calm_trans with s1.
    - apply mixed_effect in M as [->|[pk ->]]; apply calm_same; reflexivity.
    - eapply calm_trans; [|eapply calm_trans; [eapply calm_insert; exact I|]]; apply calm_same; reflexivity.
  Qed.
  Lemma grow_value : pres errors_grow (array_value_ pval).
  Proof.
    unfold array_value_. apply pres_bind; [exact grow_trans|exact GV|]. intros v.
    apply pres_bind; [exact grow_trans|apply (pure_pres errors_grow grow_id); pure_tac; apply pure_sep|]. intros sep.
    apply pres_bind; [exact grow_trans|apply pres_complete; apply pres_comment_or_nls; [exact grow_id|exact grow_trans]|]. intros nls.
    apply pres_act. intros s s' a H. apply array_value_effect in H as [_ (t & s1 & s2 & kc & _ & M & I & ->)].
    eapply grow_trans with s1.
    - apply mixed_effect in M as [->|[pk ->]]; [apply grow_id|eapply grow_push; reflexivity].
    - apply grow_insert in I. exact I.
  Qed.
  Lemma calm_entry : pres calm (table_keyval_p_ pval).
  Proof.
    unfold table_keyval_p_. apply pres_bind; [exact calm_trans|calm_tac pres_keyval; auto|]. intros v.
    apply pres_bind; [exact calm_trans|apply (pure_pres calm calm_id); pure_tac; apply pure_sep|]. intros sep.
    apply pres_bind; [exact calm_trans|apply pres_complete; apply pres_comment_or_nls; [exact calm_id|exact calm_trans]|]. intros nls. apply pres_ret. exact calm_id.
  Qed.
  Lemma grow_entry : pres errors_grow (table_keyval_p_ pval).
  Proof.
    unfold table_keyval_p_. apply pres_bind; [exact grow_trans|apply pres_keyval; intros; first [assumption|eapply grow_trans; eassumption|eapply grow_insert; eassumption|eapply grow_ext; eassumption|apply grow_same; reflexivity|eapply grow_push; reflexivity]|]. intros v.
    apply pres_bind; [exact grow_trans|apply (pure_pres errors_grow grow_id); pure_tac; apply pure_sep|]. intros sep.
    apply pres_bind; [exact grow_trans|apply pres_complete; apply pres_comment_or_nls; [exact grow_id|exact grow_trans]|]. intros nls. apply pres_ret. exact grow_id.
  Qed.

  Lemma value_moves : forall s i s' r a, array_value_ pval s i = Ok (s', Done r a) -> length r <> length i.
  Proof.
    intros s i s' r a H L. pose proof (reads_array_value pval RV _ _ _ _ _ H) as R. unfold array_value_ in H. apply bind_done in H as (s1 & i1 & c & E1 & H).
    apply bind_done in H as (s2 & i2 & sep & E2 & H). apply bind_done in H as (s3 & i3 & nls & E3 & H). apply act_done in H as (-> & H).
    apply array_value_effect in H as [-> _]. pose proof (NV _ _ _ _ _ E1) as X. apply RV in E1.
    rewrite R, app_length in L. unfold av_src, av_src_ in L. cbn [av_val] in L. rewrite app_length in L. unfold cell_src in E1.
    destruct (tsrc (c_val c)); [cbn [app] in E1; congruence|cbn [length] in L; lia].
  Qed.
  Lemma value_put : forall h s i s' r a kc j, array_value_ pval s i = Ok (s', Done r a) -> tabs h s -> s.(p_array_error) = false ->
    s.(p_keychain) = kc ++ [KIndex j] -> chain kc <> [] -> clean s' ->
    s'.(p_keychain) = kc ++ [KIndex (j + 1)] /\ (exists v, denotes a.(av_val).(c_val) v) /\
    whole s'.(p_map) ((dpre h ++ chain kc) ++ step_text (PIdx j)) a.(av_val).
  Proof.
    intros h s i s' r a kc j H T AE K NC C. unfold array_value_ in H. apply bind_done in H as (s1 & i1 & c & E1 & H).
    apply bind_done in H as (s2 & i2 & sep & E2 & H). apply bind_done in H as (s3 & i3 & nls & E3 & H).
    apply act_done in H as (-> & H).
    assert (s2 = s1) by (eapply (pure_state (opt (complete array_sep))); [pure_tac; apply pure_sep|exact E2]). subst s2.
    apply complete_done in E3. apply cons_state in E3. subst s3.
    pose proof (CV _ _ _ _ E1) as C1. destruct PV as [D _]. destruct (D _ _ _ _ _ _ _ E1 K) as (K1 & _ & _ & _).
    unfold array_value_act in H. apply rbind_ok in H as (ty & TY & H). apply rbind_ok in H as (s2 & M & H).
    apply rbind_ok in H as (s3 & I & H).
    assert (M2 : s2.(p_keychain) = s1.(p_keychain) /\ calm s1 s2 /\ errors_grow s1 s2).
    { unfold check_mixed in M. destruct (vlast (p_atypes s1)); [|inversion M; subst; split; auto; split; [apply calm_same; auto|apply grow_same; auto]].
      destruct (_ && _); [|inversion M; subst; split; auto; split; [apply calm_same; auto|apply grow_same; auto]].
      apply rbind_ok in M as ([[x fk] pk] & _ & M). destruct (match vlast (p_errors s1) with Some _ => _ | None => _ end); inversion M; subst; split; auto;
        (split; [apply calm_same; auto|]); [eapply grow_push; reflexivity|apply grow_same; auto]. }
    destruct M2 as (K2 & C2 & G2).
    match type of I with insert_keyval_into_map ?x _ = _ => set (s2' := x) in * end.
    assert (KK : s2'.(p_keychain) = kc ++ [KIndex j]) by (cbn; congruence).
    assert (C3 : calm s2' s3) by (eapply calm_insert; eauto).
    assert (T2 : tabs h s2') by (eapply tabs_calm; [|exact T]; eapply calm_trans; [exact C1|]; eapply calm_trans; [exact C2|apply calm_same; reflexivity]).
    assert (K3 : s3.(p_keychain) = kc ++ [KIndex j]). { rewrite <- KK. apply insert_effect in I as [(fk & v & ->)|(m & ->)]; reflexivity. }
    rewrite K3, KK in H. rewrite app_length in H. cbn [length] in H.
    replace (length kc + 1 - 1)%nat with (length kc) in H by lia.
    rewrite nth_error_app2, Nat.sub_diag in H by lia. cbn [nth_error] in H.
    rewrite firstn_app, Nat.sub_diag, firstn_all in H. cbn [firstn] in H. rewrite app_nil_r in H.
    rewrite skipn_all2 in H by (rewrite app_length; cbn; lia). inversion H; subst s' a; clear H.
    cbn [p_keychain p_map set_keychain key_inc av_val]. split; auto.
    assert (CL3 : clean s3) by (eapply clean_same; [|exact C]; reflexivity).
    assert (CL1 : clean s1).
    { eapply clean_back; [exact G2|]. apply (clean_same s2 s2'); [reflexivity|]. eapply clean_back; [|exact CL3]. eapply grow_insert; eauto. }
    destruct (WV h _ _ _ _ _ E1 T AE) as (DN & IN); auto; [rewrite K; apply chain_more; auto|].
    split; auto. destruct DN as (v & DN). pose proof (denotes_table _ _ DN) as NT.
    apply (insert_stored h) in I as [ST _]; auto. rewrite KK, chain_snoc, app_assoc in ST by auto. cbn [key_step] in ST.
    rewrite K, chain_snoc, app_assoc in IN by auto. cbn [key_step] in IN.
    apply whole_inner; auto. eapply inner_persist; [|exact IN]. eapply persist_trans; [apply (ca_map _ _ C2)|]. apply (ca_map _ _ C3).
  Qed.
  Lemma values_put : forall n h s i s' r l kc j, many_loop n (array_value_ pval) s i = Ok (s', Done r l) ->
    (forall s s', array_value_ pval s r = Ok (s', Error) -> s' = s) -> tabs h s -> s.(p_array_error) = false ->
    s.(p_keychain) = kc ++ [KIndex j] -> chain kc <> [] -> clean s' ->
    (exists vs, Forall2 (fun a v => denotes a.(av_val).(c_val) v) l vs) /\
    forall x a, nth_error l x = Some a -> whole s'.(p_map) ((dpre h ++ chain kc) ++ step_text (PIdx (j + N.of_nat x))) a.(av_val).
  Proof.
    induction n; intros h s i s' r l kc j H F T AE K NC C; [discriminate|]. cbn [many_loop] in H.
    assert (Z : l = [] -> (exists vs, Forall2 (fun a v => denotes a.(av_val).(c_val) v) l vs) /\
      forall x a, nth_error l x = Some a -> whole s'.(p_map) ((dpre h ++ chain kc) ++ step_text (PIdx (j + N.of_nat x))) a.(av_val)).
    { intros ->. split; [exists []; constructor|]. intros x a X. destruct x; discriminate. }
    destruct i as [|c i]; [apply Z; inversion H; auto|]. apply rbind_ok in H as ([s1 r1] & E & H). destruct r1 as [i1 a| |]; [|apply Z; inversion H; auto|discriminate].
    destruct (Nat.eqb _ _) eqn:NB; [exfalso; apply Nat.eqb_eq in NB; eapply value_moves; eauto|]. apply rbind_ok in H as ([s2 r2] & E2 & H). destruct r2; inversion H; subst; clear H.
    assert (C1 : clean s1). { eapply clean_back; [|exact C]. eapply (pres_loop errors_grow); [intros; apply grow_same; auto|exact grow_trans|exact grow_value|exact E2]. }
    assert (P1 : calm s1 s'). { eapply (pres_loop calm); [intros; apply calm_same; auto|exact calm_trans|exact calm_value|exact E2]. }
    pose proof (calm_value _ _ _ _ E) as P0.
    destruct (value_put h _ _ _ _ _ _ _ E T AE K NC C1) as (K1 & (v & DN) & W).
    destruct (IHn h _ _ _ _ _ kc (j + 1) E2 F) as ((vs & DS) & WS); auto; [eapply tabs_calm; eauto|rewrite (ca_aerr _ _ P0); auto|].
    split; [exists (v :: vs); constructor; auto|]. intros [|x] b X; cbn [nth_error] in X.
    - inversion X; subst. rewrite N.add_0_r. eapply whole_persist; [apply (ca_map _ _ P1)|exact W].
    - apply WS in X. replace (j + N.of_nat (S x)) with (j + 1 + N.of_nat x) by lia. exact X.
  Qed.
  Lemma array_put : forall h s i s' r t n, array_ pval s i = Ok (s', Done r t) -> tabs h s -> s.(p_array_error) = false ->
    chain s.(p_keychain) <> [] -> clean s' ->
    (exists v, denotes t v) /\ inner s'.(p_map) (dpre h ++ chain s.(p_keychain)) (Cell n t).
  Proof.
    intros h s i s' r t n H T AE NC C.
    unfold array_ in H. apply rbind_ok in H as ([s1 r1] & E & H). inversion H; subst s' r1; clear H. unfold array_internal_ in E.
    apply bind_done in E as (s2 & i2 & u & E2 & E). apply bind_done in E as (s3 & i3 & n1 & E3 & E).
    apply bind_done in E as (s4 & i4 & vals & E4 & E). apply bind_done in E as (s5 & i5 & n2 & E5 & E).
    apply bind_done in E as (s6 & i6 & u2 & E6 & E). apply ret_done in E as (-> & -> & ->).
    apply cons_state in E3 as E3'. subst s3. apply cons_state in E5 as E5'. subst s5.
    apply tag_done in E2 as (-> & -> & ->). apply tag_done in E6 as (-> & -> & ->).
    assert (GH := gap_head _ _ _ _ _ E5 ltac:(unfold gap_chars; cbn; auto 8)).
    unfold array_values_, many0 in E4.
    apply (values_put _ h _ _ _ _ _ s.(p_keychain) 0) in E4 as [(vs & F) W]; auto.
    - split; [exists (VArray vs); constructor; auto|]. intros [|[x|k] p] y N Y; [congruence| |discriminate Y].
      cbn [tat c_val] in Y. destruct (nth_error vals (N.to_nat x)) as [a|] eqn:Q; [|discriminate]. apply W in Q.
      replace (0 + N.of_nat (N.to_nat x)) with x in Q by lia. rewrite path_cons. apply Q. exact Y.
    - intros s0 s0' X. unfold array_value_ in X. unfold bind at 1 in X. apply rbind_ok in X as ([s1 r1] & X1 & X).
      apply (stop_clean pval PV) in X1 as [X1 [-> | ->]]; [inversion X; subst; auto|inversion X|]. exact GH.
  Qed.

  Lemma keyval_put : forall h s i s' r kv kc, keyval_p_ pval s i = Ok (s', Done r kv) -> tabs h s -> s.(p_array_error) = false ->
    s.(p_keychain) = kc -> clean s' ->
    s'.(p_keychain) = kc /\ (exists v, denotes kv.(kv_val).(c_val) v) /\ name_text kv.(kv_key) /\
    whole s'.(p_map) (dpre h ++ chain (kc ++ [KStr kv.(kv_key)])) kv.(kv_val) /\
    (forall y, ~ stored s.(p_map) (dpre h ++ chain (kc ++ [KStr kv.(kv_key)])) y).
  Proof.
    intros h s i s' r kv kc H T AE K C. unfold keyval_p_ in H. apply bind_done in H as (s1 & i1 & k & E1 & H).
    apply bind_done in H as (s2 & i2 & sep & E2 & H). apply bind_done in H as (s3 & i3 & c & E3 & H).
    apply act_done in H as (-> & H). pose proof (key_text _ _ _ _ _ E1) as [_ NK]. apply key_pushed in E1. subst s1.
    assert (s2 = push_key (KStr k) s) by (eapply (pure_state keyval_sep); [apply pure_kvsep|exact E2]). subst s2.
    destruct PV as [D _]. destruct (D _ _ _ _ _ s.(p_keychain) (KStr k) E3 eq_refl) as (K3 & _ & _ & _).
    pose proof (CV _ _ _ _ E3) as C3. unfold keyval_act in H.
    assert (A3 : p_array_error s3 = false) by (rewrite (ca_aerr _ _ C3); exact AE). rewrite A3 in H.
    apply rbind_ok in H as (s4 & I & H). inversion H; subst s' kv; clear H. cbn [kv_key kv_val p_keychain p_map pop_key set_keychain].
    assert (K4 : s4.(p_keychain) = s3.(p_keychain)) by (apply insert_effect in I as [(fk & v & ->)|(m & ->)]; reflexivity).
    rewrite K4, K3. cbn [push_key set_keychain p_keychain] in *. unfold vpush in *. rewrite K in *. split; [unfold vpop; apply removelast_last|].
    assert (CL4 : clean s4) by (eapply clean_same; [|exact C]; reflexivity).
    assert (CL3 : clean s3) by (eapply clean_back; [eapply grow_insert; eauto|exact CL4]).
    assert (T2 : tabs h (push_key (KStr k) s)) by (destruct T; split; auto).
    assert (NC : chain (kc ++ [KStr k]) <> []).
    { unfold chain. rewrite fold_left_app. cbn [fold_left chain_step]. intros X. apply app_eq_nil in X as [_ X]. exact (name_ne _ NK X). }
    assert (KP : p_keychain (push_key (KStr k) s) = kc ++ [KStr k]) by (cbn; unfold vpush; congruence).
    destruct (WV h _ _ _ _ _ E3 T2 AE) as ((v & DN) & IN); auto; [rewrite KP; exact NC|]. rewrite KP in IN.
    split; [eauto|]. split; auto.
    pose proof (calm_insert _ _ _ I) as C4.
    apply (insert_stored h) in I as [ST FR]; auto; [|eapply tabs_calm; eauto|eapply denotes_table; eauto]. rewrite K3 in ST, FR. split.
    - apply whole_inner; auto. eapply inner_persist; [|exact IN]. apply (ca_map _ _ C4).
    - intros y Y. apply (FR y). apply (ca_map _ _ C3). exact Y.
  Qed.
  Lemma entries_put : forall n h s i s' r l, many_loop n (table_keyval_p_ pval) s i = Ok (s', Done r l) ->
    tabs h s -> s.(p_array_error) = false -> chain s.(p_keychain) <> [] -> clean s' ->
    (exists vs, Forall2 (fun t kv => fst kv = t.(tk_kv).(kv_key) /\ denotes t.(tk_kv).(kv_val).(c_val) (snd kv)) l vs) /\
    forall t, In t l -> whole s'.(p_map) ((dpre h ++ chain s.(p_keychain)) ++ step_text (PKey t.(tk_kv).(kv_key))) t.(tk_kv).(kv_val).
  Proof.
    induction n; intros h s i s' r l H T AE NC C; [discriminate|]. cbn [many_loop] in H.
    assert (Z : l = [] -> (exists vs, Forall2 (fun t kv => fst kv = t.(tk_kv).(kv_key) /\ denotes t.(tk_kv).(kv_val).(c_val) (snd kv)) l vs) /\
      forall t, In t l -> whole s'.(p_map) ((dpre h ++ chain s.(p_keychain)) ++ step_text (PKey t.(tk_kv).(kv_key))) t.(tk_kv).(kv_val)).
    { intros ->. split; [exists []; constructor|]. intros x []. }
    destruct i as [|c i]; [apply Z; inversion H; auto|]. apply rbind_ok in H as ([s1 r1] & E & H). destruct r1 as [i1 a| |]; [|apply Z; inversion H; auto|discriminate].
    destruct (Nat.eqb _ _) eqn:NB.
    { exfalso. apply Nat.eqb_eq in NB. apply (reads_table_keyval pval RV) in E. apply (f_equal (@length N)) in E.
      unfold tk_src, tk_src_, sep_src in E. rewrite !app_length in E. change (length (lit "=")) with 1%nat in E. lia. }
    apply rbind_ok in H as ([s2 r2] & E2 & H). destruct r2; inversion H; subst; clear H.
    assert (C1 : clean s1). { eapply clean_back; [|exact C]. eapply (pres_loop errors_grow); [intros; apply grow_same; auto|exact grow_trans|exact grow_entry|exact E2]. }
    assert (P1 : calm s1 s'). { eapply (pres_loop calm); [intros; apply calm_same; auto|exact calm_trans|exact calm_entry|exact E2]. }
    pose proof (calm_entry _ _ _ _ E) as P0.
    unfold table_keyval_p_ in E. apply bind_done in E as (s3 & i2 & kv & E1 & E).
    apply bind_done in E as (s4 & i3 & sep & E3 & E). apply bind_done in E as (s5 & i4 & nls & E4 & E). apply ret_done in E as (-> & -> & ->).
    apply sep_lf in E3 as [-> SP]. apply complete_done in E4. apply cons_state in E4. subst s5.
    apply (keyval_put h _ _ _ _ _ s.(p_keychain)) in E1 as (K1 & (v & DN) & NK & W & _); auto.
    rewrite chain_snoc, app_assoc in W by auto. cbn [key_step] in W.
    destruct (IHn h _ _ _ _ _ E2) as ((vs & DS) & WS); auto; [eapply tabs_calm; eauto|rewrite (ca_aerr _ _ P0); auto|rewrite K1; auto|].
    split; [exists ((kv_key kv, v) :: vs); constructor; auto|]. intros x [<-|X].
    - cbn [tk_kv]. eapply whole_persist; [apply (ca_map _ _ P1)|exact W].
    - apply WS in X. rewrite K1 in X. exact X.
  Qed.
  Lemma inline_put : forall h s i s' r t n, inline_table_ pval s i = Ok (s', Done r t) -> tabs h s -> s.(p_array_error) = false ->
    chain s.(p_keychain) <> [] -> clean s' ->
    (exists v, denotes t v) /\ inner s'.(p_map) (dpre h ++ chain s.(p_keychain)) (Cell n t).
  Proof.
    intros h s i s' r t n E T AE NC C. unfold inline_table_ in E.
    apply bind_done in E as (s2 & i2 & u & E2 & E). apply bind_done in E as (s3 & i3 & w1 & E3 & E).
    apply bind_done in E as (s4 & i4 & kvs & E4 & E). apply bind_done in E as (s5 & i5 & w2 & E5 & E).
    apply bind_done in E as (s6 & i6 & u2 & E6 & E). apply ret_done in E as (-> & -> & ->).
    apply tag_done in E2 as (-> & -> & ->). apply tag_done in E6 as (-> & -> & ->).
    apply ws_blanks in E3 as (-> & -> & B1). apply ws_blanks in E5 as (-> & -> & B2).
    apply opt_done in E4 as [(l & -> & E4)|(-> & E & E4)].
    - apply complete_done in E4. unfold inline_table_keyvals_, many0 in E4.
      apply (entries_put _ h) in E4 as [(vs & F) W]; auto.
      split; [exists (VInlineTable vs); constructor; auto|]. intros [|[x|k] p] y N Y; [congruence|discriminate Y|].
      cbn [tat c_val] in Y. destruct (find _ l) as [tk|] eqn:Q; [|discriminate]. apply find_some in Q as [I Q]. unfold Spec.same_key in Q.
      destruct (list_eq_dec N.eq_dec k (kv_key (tk_kv tk))) as [->|]; [|discriminate]. rewrite path_cons. apply (W tk I). exact Y.
    - split; [exists (VInlineTable []); constructor; constructor|]. intros [|[x|k] p] y N Y; [congruence|discriminate..].
  Qed.
End ReachVal.

Lemma pcell_map : forall A (p : P A) f s i s' r c, pcell p f s i = Ok (s', Done r c) ->
  exists s1 a, p s i = Ok (s1, Done r a) /\ c.(c_val) = f a /\ s'.(p_map) = s1.(p_map) /\ s'.(p_errors) = s1.(p_errors).
Proof.
  intros A p f s i s' r c H. unfold pcell in H. apply bind_done in H as (s1 & i1 & a & E & H). apply complete_done in E.
  apply act_done in H as (-> & H). inversion H; subst. exists s1, a. auto.
Qed.
Definition plain (t : tval) : Prop := (exists v, denotes t v) /\ match t with TArray _ _ _ | TInlineTable _ _ => False | _ => True end.
Lemma scalar_plain : forall s i s' r c, (alt (pcell date_time TDateTime)
    (alt (pcell float TFloat)
    (alt (pcell integer TInteger)
    (alt (pcell boolean TBoolean)
         (pcell string_p (fun v => v)))))) s i = Ok (s', Done r c) -> plain c.(c_val).
Proof.
  intros s i s' r c H. do 4 (apply alt_done in H as [H|(? & _ & H)]; [apply pcell_state in H as (s1 & a & _ & -> & _); split; [eexists; constructor|exact I]|]).
  apply pcell_state in H as (s1 & t & H & -> & _). unfold string_p in H.
  repeat (apply alt_done in H as [H|(? & _ & H)]; [apply pmap_done in H as (? & _ & ->); split; [eexists; constructor|exact I]|]).
  apply pmap_done in H as (? & _ & ->); split; [eexists; constructor|exact I].
Qed.
Lemma plain_inner : forall m k c, plain c.(c_val) -> inner m k c.
Proof. intros m k c [_ H] [|[x|x] p] y N E; [congruence| |]; cbn [tat] in E; destruct (c_val c); try discriminate; contradiction. Qed.

Lemma vput_val_ : forall p, vfault p -> reads p cell_src -> (forall s i s' r c, p s i = Ok (s', Done r c) -> r <> i) ->
  pres calm p -> pres errors_grow p -> vput p -> vput (val_ p).
Proof.
  intros p PV RV NV CV GV WV h s i s' r c H T AE NC C. unfold val_ in H. apply alt_done in H as [H|(s1 & E1 & H)].
  { apply pcell_map in H as (s1 & a & H & EC & M & EE). destruct c as [n t]. cbn [c_val] in *. subst t.
    rewrite M. eapply (array_put p); eauto. eapply clean_same; [|exact C]. auto. }
  apply alt_done in H as [H|(s2 & E2 & H)].
  { assert (s1 = s).
    { destruct i as [|x i]; [|destruct (N.eq_dec x 91)].
      - rewrite arr_err in E1 by exact I. inversion E1. auto.
      - exfalso. subst x. rewrite inl_err in H by (cbn; lia). discriminate.
      - rewrite arr_err in E1 by (cbn; auto). inversion E1. auto. }
    subst s1. apply pcell_map in H as (s1 & a & H & EC & M & EE). destruct c as [n t]. cbn [c_val] in *. subst t.
    rewrite M. eapply (inline_put p); eauto. eapply clean_same; [|exact C]. auto. }
  apply scalar_plain in H. split; [apply H|]. apply plain_inner. auto.
Qed.
Lemma vput_val : forall f, vput (val f).
Proof.
  induction f; [discriminate|]. apply vput_val_; auto; [apply vfault_val|apply reads_val|apply val_moves|apply calm_val|apply grow_val].
Qed.
Lemma vput_val_p : vput val_p.
Proof. intros h s i s' r c H. eapply vput_val. exact H. Qed.
Lemma val_p_moves : forall s i s' r c, val_p s i = Ok (s', Done r c) -> r <> i.
Proof. intros s i s' r c H. eapply val_moves. exact H. Qed.

(** ** Headers *)
Lemma subkey_push : forall s i s' r, table_subkey s i = Ok (s', r) ->
  match r with Done _ x => s' = push_key (KStr x.(wk_key)) s | _ => s' = s end.
Proof.
  intros s i s' r H. unfold table_subkey in H. unfold bind at 1 in H. apply rbind_ok in H as ([s1 r1] & E1 & H).
  assert (s1 = s) by (eapply (pure_state ws); [unfold ws; pure_tac|exact E1]). subst s1. destruct r1; [|inversion H; subst; auto..].
  unfold bind at 1 in H. apply rbind_ok in H as ([s1 r1] & E2 & H).
  assert (s1 = s) by (eapply (pure_state (tag (lit "."))); [pure_tac|exact E2]). subst s1. destruct r1; [|inversion H; subst; auto..].
  unfold bind at 1 in H. apply rbind_ok in H as ([s1 r1] & E3 & H).
  assert (s1 = s) by (eapply (pure_state ws); [unfold ws; pure_tac|exact E3]). subst s1. destruct r1; [|inversion H; subst; auto..].
  unfold bind at 1 in H. apply rbind_ok in H as ([s1 r1] & E4 & H). destruct r1.
  - apply key_pushed in E4. inversion H; subst. reflexivity.
  - apply CalmWalk.key_fail in E4; [|discriminate]. inversion H; subst. auto.
  - apply CalmWalk.key_fail in E4; [|discriminate]. inversion H; subst. auto.
Qed.
Lemma subkeys_push : forall n s i s' r l, many_loop n table_subkey s i = Ok (s', Done r l) ->
  s' = set_keychain (s.(p_keychain) ++ map (fun x => KStr x.(wk_key)) l) s.
Proof.
  induction n; intros s i s' r l H; [discriminate|]. cbn [many_loop] in H.
  assert (Z : s = set_keychain (s.(p_keychain) ++ []) s) by (rewrite app_nil_r; destruct s; reflexivity).
  destruct i as [|c i]; [inversion H; subst; exact Z|]. apply rbind_ok in H as ([s1 r1] & E & H). pose proof (subkey_push _ _ _ _ E) as X.
  destruct r1 as [i1 a| |]; [|inversion H; subst; exact Z|discriminate]. destruct (Nat.eqb _ _) eqn:NB.
  { exfalso. apply Nat.eqb_eq in NB. apply reads_table_subkey in E. apply (f_equal (@length N)) in E. unfold show_wskey in E. rewrite !app_length in E. change (length (lit ".")) with 1%nat in E. lia. }
  apply rbind_ok in H as ([s2 r2] & E2 & H). destruct r2; inversion H; subst. apply IHn in E2. rewrite E2. cbn [map]. cbn. unfold vpush. rewrite <- app_assoc. reflexivity.
Qed.

Lemma dotted_not : forall q, Forall name_text q -> q <> [] -> str_eqb (dotted_name q) root_key = false.
Proof.
  intros [|n q] F N; [congruence|]. inversion F as [|? ? NT _]; subst. destruct (str_eqb_spec (dotted_name (n :: q)) root_key) as [E|]; auto. exfalso.
  assert (X : exists c x, n = c :: x /\ c <> 36).
  { destruct NT as [[NE B]|(x & _ & ->)]; [|exists 34; eexists; split; [reflexivity|lia]]. destruct n as [|c n]; [congruence|]. inversion B; subst.
    exists c, n. split; auto. unfold bare_char in *. lia. }
  destruct X as (c & x & -> & C). apply (f_equal (hd 0)) in E. destruct q; cbn in E; lia.
Qed.
Definition novals (m m' : vmap) : Prop := forall x, key_has_value m x = false -> key_has_value m' x = false.
Lemma novals_sub : forall (m : vmap) k hv sub, hget k m = Some hv -> novals m (hput k (HashValue hv.(hv_value) sub) m).
Proof.
  intros m k hv sub H x X. unfold key_has_value in *. destruct (list_eq_dec N.eq_dec x k) as [->|NE].
  - rewrite hget_hput_same. rewrite H in X. exact X.
  - rewrite hget_hput_other by auto. exact X.
Qed.
Lemma novals_none : forall (m : vmap) k sub, novals m (hput k (HashValue None sub) m).
Proof.
  intros m k sub x X. unfold key_has_value in *. destruct (list_eq_dec N.eq_dec x k) as [->|NE].
  - rewrite hget_hput_same. reflexivity.
  - rewrite hget_hput_other by auto. exact X.
Qed.
Lemma novals_table : forall (m : vmap) k n sub, novals m (hput k (HashValue (Some (Cell n TTable)) sub) m).
Proof.
  intros m k n sub x X. unfold key_has_value in *. destruct (list_eq_dec N.eq_dec x k) as [->|NE].
  - rewrite hget_hput_same. reflexivity.
  - rewrite hget_hput_other by auto. exact X.
Qed.
Lemma ait_persist : forall ks m first q m', Forall name_text q -> Forall name_text (map wk_key ks) ->
  (forall a b, map wk_key ks = a ++ b -> a <> [] -> key_has_value m (dotted_name (q ++ a)) = false) ->
  ait_loop m ks first (dpar q) = Ok m' -> persist m m' /\ novals m m'.
Proof.
  induction ks as [|k ks IH]; intros m first q m' FQ F HV H; cbn [ait_loop] in H; [inversion H; subst; split; [apply persist_refl|intros x X; exact X]|].
  cbn [map] in F, HV. inversion F as [|? ? NK F']; subst. apply rbind_ok in H as ([[m1 ins] f1] & H1 & H).
  assert (G1 : persist m m1 /\ novals m m1).
  { destruct (hget (dpar q) m) as [hv|] eqn:Q.
    - destruct (hv_subkeys hv) as [c|l] eqn:S.
      + destruct first; inversion H1; subst. split; [apply persist_sub; auto|apply novals_sub; auto].
      + destruct (vinsert l (wk_key k)) as [l' i] eqn:V. inversion H1; subst. split; [apply persist_sub; auto|apply novals_sub; auto].
    - inversion H1; subst. split; [apply persist_refl|intros x X; exact X]. }
  destruct G1 as [G1 N1]. destruct ks as [|k2 ks]; [inversion H; subst; auto|].
  assert (LK : (if str_eqb (dpar q) root_key then wk_key k else dpar q ++ lit "." ++ wk_key k) = dpar (q ++ [wk_key k])).
  { rewrite dpar_snoc, dotted_snoc. destruct q as [|n q]; [rewrite str_eqb_refl; reflexivity|]. rewrite dpar_dotted by discriminate. rewrite dotted_not by (auto; discriminate).
    unfold dpre. rewrite <- app_assoc. reflexivity. }
  rewrite LK in H.
  set (m2 := if ins then hput (dpar (q ++ [wk_key k])) hv_none_keys m1 else m1) in *.
  assert (G2 : persist m1 m2 /\ novals m1 m2).
  { subst m2. destruct ins; [|split; [apply persist_refl|intros x X; exact X]]. split; [|apply novals_none]. apply persist_free. apply N1.
    rewrite dpar_snoc. apply (HV [wk_key k] (map wk_key (k2 :: ks))); [reflexivity|discriminate]. }
  destruct G2 as [G2 N2]. apply IH in H as [G3 N3]; auto.
  - split; [eapply persist_trans; [|eapply persist_trans]; eauto|]. intros x X. auto.
  - apply Forall_app. auto.
  - intros a b EQ NA. apply N2, N1. rewrite <- app_assoc. apply (HV (wk_key k :: a) b); [cbn [app]; congruence|discriminate].
Qed.

Lemma std_head : forall w1 w2 k l s s' t h, std_table_act w1 w2 k l s = Ok (s', t) -> length s.(p_keychain) = S (length l) -> htabs h s ->
  Forall name_text (k :: map wk_key l) -> clean s' ->
  t = TStandard (table_new {| ws1 := w1; ws2 := w2 |} k l) /\ tabs (k :: map wk_key l) s' /\ s'.(p_keychain) = [] /\ s'.(p_array_error) = false /\
  persist s.(p_map) s'.(p_map) /\ novals s.(p_map) s'.(p_map).
Proof.
  intros w1 w2 k l s s' t h H KL T F C. unfold std_table_act in H. apply rbind_ok in H as (s1 & K & H).
  unfold keychain_drop in K. rewrite KL, Nat.ltb_irrefl, Nat.sub_diag in K. cbn [firstn] in K. inversion K; subst s1; clear K.
  set (tb := table_new {| ws1 := w1; ws2 := w2 |} k l) in *. cbn [p_tables p_tindex p_map p_ovf set_keychain] in H.
  assert (MT : map wk_key tb = k :: map wk_key l) by reflexivity. assert (NT : tb <> []) by discriminate. clearbody tb.
  match type of H with (let '(_, _) := ?x in _) = _ => assert (E0 : x = ([], [])) end.
  { destruct h as [|n h]; [destruct T as (_ & -> & ->); reflexivity|]. destruct T as (t0 & _ & -> & -> & _). reflexivity. }
  rewrite E0 in H. clear E0. unfold vlast in H at 1 2. cbn [rev] in H. cbv iota beta zeta in H. unfold vpush in H at 1 2 3 4. cbn [app] in H.
  destruct (get_array_table_key (p_ovf s) (p_map s) [TStandard tb] [0]) as [[[v tk] pk]| |] eqn:G; cbn [rbind] in H; [|discriminate..].
  destruct v; cbn [negb] in H.
  2:{ exfalso. cbn [rbind] in H. inversion H; subst. unfold clean, all_taken in C. cbn [p_errors set_array_error push_error set_errors] in C.
      apply Forall_app in C as [_ C]. inversion C; subst. assumption. }
  apply gatk_valid in G as [-> HV]; [|rewrite MT; apply names_not; auto|exact NT].
  destruct (key_has_children_with_values (p_map s) pk) as [b| |]; cbn [rbind] in H; [|discriminate..].
  destruct b; cbn [rbind] in H.
  { exfalso. inversion H; subst. unfold clean, all_taken in C. cbn [p_errors set_array_error push_error set_errors] in C.
    apply Forall_app in C as [_ C]. inversion C; subst. assumption. }
  match type of H with (if ?b then _ else _) = _ => destruct b end.
  { exfalso. inversion H; subst. unfold clean, all_taken in C. cbn [p_errors set_array_error push_error set_errors] in C.
    apply Forall_app in C as [_ C]. inversion C; subst. assumption. }
  apply rbind_ok in H as (m & M1 & H). apply rbind_ok in H as (m2 & M2 & H).
  unfold new_cell in H. apply rbind_ok in H as (m3 & M3 & H). inversion H; subst s' t. clear H.
  split; auto. split.
  { split; [|exact F]. cbn [htabs]. exists tb. cbn. auto. }
  split; [reflexivity|]. split; [reflexivity|]. cbn [p_map set_last_table set_array_error set_map].
  unfold add_implicit_tables in M1. cbn [get_array_table_key length gatk_loop rbind negb] in M1. unfold get_array_table_key in M1. cbn [length gatk_loop rbind negb] in M1.
  unfold vlast in M1. cbn [rev app] in M1. change (str_eqb root_key root_key) with true in M1. cbn [Nat.sub skipn tt_table] in M1.
  change root_key with (dpar []) in M1. apply ait_persist in M1 as [P1 N1]; [|constructor|rewrite MT; auto|exact HV].
  assert (P2 : persist m m2 /\ novals m m2).
  { unfold add_to_table_set in M2. apply rbind_ok in M2 as (pk2 & _ & M2).
    destruct (hget pk2 m) as [hv|] eqn:Q; [destruct (hv_subkeys hv)|]; inversion M2; subst; try (split; [apply persist_refl|intros x X; exact X]).
    split; [apply persist_sub; auto|apply novals_sub; auto]. }
  destruct P2 as [P2 N2].
  assert (FREE : key_has_value m2 (dotted_name (map wk_key tb)) = false).
  { apply N2, N1. apply (HV (map wk_key tb) []); [rewrite app_nil_r; auto|destruct tb; [congruence|discriminate]]. }
  match type of M3 with match hget pk ?x with _ => _ end = _ => set (m4 := x) in *; assert (P4 : persist m2 m4 /\ novals m2 m4) end.
  { subst m4. destruct (hget _ m2); (split; [apply persist_free; exact FREE|apply novals_table; reflexivity]). }
  destruct P4 as [P4 N4]. clearbody m4.
  assert (P5 : persist m4 m3 /\ novals m4 m3).
  { destruct (hget pk m4) as [hv|] eqn:Q; [|inversion M3; subst; split; [apply persist_refl|intros x X; exact X]].
    destruct (hv_subkeys hv); inversion M3; subst. split; [apply persist_sub; auto|apply novals_sub; auto]. }
  destruct P5 as [P5 N5]. split; [|intros x X; auto]. eapply persist_trans; [exact P1|]. eapply persist_trans; [exact P2|]. eapply persist_trans; eauto.
Qed.


(** ** Expressions *)
(** a header that is not read leaves the map *)
Definition mapfail {A} (p : P A) : Prop := forall s i s' r, p s i = Ok (s', r) -> (forall a b, r <> Done a b) -> s'.(p_map) = s.(p_map).
Definition mapsame (s s' : pst) : Prop := s'.(p_map) = s.(p_map).
Lemma mapfail_bind : forall A B (p : P A) (f : A -> P B), pres mapsame p -> (forall a, mapfail (f a)) -> mapfail (bind p f).
Proof.
  intros A B p f H F s i s' r E ND. unfold bind in E. apply rbind_ok in E as ([s1 r1] & E1 & E). apply H in E1. unfold mapsame in E1.
  destruct r1; [|inversion E; subst; auto..]. rewrite <- E1. eapply F; eauto.
Qed.
Lemma mapfail_act : forall A (f : pst -> res (pst * A)), mapfail (act f).
Proof. intros A f s i s' r E ND. unfold act in E. apply rbind_ok in E as ([s1 a] & E1 & E). inversion E; subst. destruct (ND i a eq_refl). Qed.
Lemma mapfail_complete : forall A (p : P A), mapfail p -> mapfail (complete p).
Proof.
  intros A p H s i s' r E ND. unfold complete in E. apply rbind_ok in E as ([s1 r1] & E1 & E). inversion E; subst. apply (H _ _ _ _ E1).
  intros a b ->. destruct (ND a b eq_refl).
Qed.
Lemma mapfail_alt : forall A (p q : P A), mapfail p -> mapfail q -> mapfail (alt p q).
Proof.
  intros A p q H H2 s i s' r E ND. unfold alt in E. apply rbind_ok in E as ([s1 r1] & E1 & E). destruct r1.
  - inversion E; subst. destruct (ND rest a eq_refl).
  - rewrite <- (H _ _ _ _ E1); [|discriminate]. apply (H2 _ _ _ _ E ND).
  - inversion E; subst. apply (H _ _ _ _ E1). discriminate.
Qed.
Lemma mapsame_key : pres mapsame key_p.
Proof. apply pres_key; unfold mapsame; [intros; reflexivity|intros; congruence|intros; reflexivity..]. Qed.
Lemma mapsame_subkeys : pres mapsame table_subkeys.
Proof.
  unfold table_subkeys. apply pres_many0; [reflexivity|unfold mapsame; intros; congruence|]. intros s i s' r H. apply subkey_push in H. destruct r; subst; reflexivity.
Qed.
Lemma mapsame_pure : forall A (p : P A), pure p -> pres mapsame p.
Proof. intros A p H. apply (pure_pres mapsame); [reflexivity|exact H]. Qed.
Lemma mapfail_table : mapfail table_p.
Proof.
  unfold table_p. apply mapfail_alt; apply mapfail_complete; [unfold array_table|unfold std_table];
    (apply mapfail_bind; [apply mapsame_pure; pure_tac|]; intros ?;
     apply mapfail_bind; [apply mapsame_pure; unfold ws; pure_tac|]; intros ?;
     apply mapfail_bind; [apply mapsame_key|]; intros ?;
     apply mapfail_bind; [apply mapsame_subkeys|]; intros ?;
     apply mapfail_bind; [apply mapsame_pure; unfold ws; pure_tac|]; intros ?;
     apply mapfail_bind; [apply mapsame_pure; pure_tac|]; intros ?; apply mapfail_act).
Qed.
Lemma table_fails : mapfail table_comment.
Proof.
  unfold table_comment. apply mapfail_bind; [apply mapsame_pure; unfold ws; pure_tac|]. intros w s i s' r E ND.
  unfold bind at 1 in E. apply rbind_ok in E as ([s1 r1] & E1 & E). destruct r1 as [i1 t| |].
  - exfalso. unfold bind at 1 in E. destruct (ws_done s1 i1) as (w2 & i2 & W). rewrite W in E. cbn [rbind] in E.
    unfold bind at 1 in E. apply rbind_ok in E as ([s2 r2] & E2 & E). unfold opt, complete in E2. apply rbind_ok in E2 as ([s3 r3] & E3 & E2).
    apply rbind_ok in E3 as ([s4 r4] & E4 & E3). inversion E3; subst. destruct r4; inversion E2; subst; inversion E; subst; eapply ND; reflexivity.
  - inversion E; subst. apply (mapfail_table _ _ _ _ E1). discriminate.
  - inversion E; subst. apply (mapfail_table _ _ _ _ E1). discriminate.
Qed.

Record inv (h : list str) (s : pst) : Prop := { in_tabs : tabs h s; in_keys : s.(p_keychain) = []; in_aerr : s.(p_array_error) = false }.
Lemma table_std : forall h s i s' r t, table_p s i = Ok (s', Done r t) -> inv h s -> clean s' -> match t with TArrayOf _ => False | _ => True end ->
  inv (map wk_key (tt_table t)) s' /\ persist s.(p_map) s'.(p_map) /\ novals s.(p_map) s'.(p_map).
Proof.
  intros h s i s' r t H [T K AE] C NA. unfold table_p in H. apply alt_done in H as [H|(s1 & E1 & H)]; apply complete_done in H.
  - exfalso. unfold array_table in H. do 6 (apply bind_done in H as (? & ? & ? & _ & H)). apply act_done in H as (_ & H).
    apply array_table_effect in H as [-> _]. exact NA.
  - unfold std_table in H. apply bind_done in H as (s2 & i1 & u & E2 & H). apply bind_done in H as (s3 & i2 & w1 & E3 & H).
    apply bind_done in H as (s4 & i3 & k & E4 & H). apply bind_done in H as (s5 & i4 & l & E5 & H). apply bind_done in H as (s6 & i5 & w2 & E6 & H).
    apply bind_done in H as (s7 & i6 & u2 & E7 & H). apply act_done in H as (-> & H).
    apply tag_done in E2 as (-> & _ & EI). pose proof (ws_blanks _ _ _ _ _ E3) as (-> & -> & B1). pose proof (key_heads _ _ _ _ _ E4) as HN.
    assert (s1 = s).
    { unfold complete in E1. apply rbind_ok in E1 as ([s8 r8] & E8 & E1). inversion E1; subst. unfold array_table in E8. unfold bind at 1 in E8.
      apply rbind_ok in E8 as ([s9 r9] & E9 & E8). assert (s9 = s) by (eapply (pure_state (tag (lit "[["))); [pure_tac|exact E9]). subst s9.
      destruct r9; [|inversion E8; subst; auto..]. exfalso. apply tag_done in E9 as (_ & _ & E9). 
      destruct w1 as [|c w1]; [|inversion B1; subst; inversion E9; subst; lia]. cbn [app] in E9. inversion E9; subst. apply HN. reflexivity. }
    subst s1. pose proof (key_text _ _ _ _ _ E4) as [_ NK]. pose proof (subkeys_names _ _ _ _ _ E5) as NL. apply key_pushed in E4. subst s4.
    unfold table_subkeys, many0 in E5. apply subkeys_push in E5. subst s5. apply ws_blanks in E6 as (-> & _ & _). apply tag_done in E7 as (-> & _ & _).
    apply (std_head _ _ _ _ _ _ _ h) in H as (-> & T' & K' & A' & P & NV); auto.
    + cbn [tt_table]. change (map wk_key (table_new {| ws1 := w1; ws2 := w2 |} k l)) with (k :: map wk_key l). split; [constructor; auto|auto].
    + cbn [p_keychain set_keychain push_key]. unfold vpush. rewrite K. cbn [app length]. rewrite map_length. reflexivity.
    + destruct T as [T _]. exact T.
Qed.

Definition under_head (h : list str) (e : expression) : list str := match e.(e_table) with Some t => map wk_key (tt_table t) | None => h end.
Definition kept_line (m : vmap) (x : list str * keyval) : Prop := (exists v, denotes (snd x).(kv_val).(c_val) v) /\ whole m (line_name x) (snd x).(kv_val).
Definition free_line (m : vmap) (x : list str * keyval) : Prop := forall y, ~ stored m (line_name x) y.
Definition not_array (e : expression) : Prop := match e.(e_table) with Some (TArrayOf _) => False | _ => True end.
Lemma expr_step : forall h s i s' r e, expression_p s i = Ok (s', Done r e) -> inv h s -> clean s' -> not_array e ->
  persist s.(p_map) s'.(p_map) /\ (void_head r \/ ~ idle e -> inv (under_head h e) s') /\
  (forall kv, e.(e_keyval) = Some kv -> kept_line s'.(p_map) (under_head h e, kv) /\ free_line s.(p_map) (under_head h e, kv)).
Proof.
  intros h s i s' r e H IV C NA. pose proof H as H0. unfold expression_p in H. apply alt_done in H as [H|(s1 & E1 & H)].
  - clear H0. apply complete_done in H. unfold table_comment in H.
    apply bind_done in H as (s1 & i1 & w1 & E1 & H). apply bind_done in H as (s2 & i2 & t & E2 & H).
    apply bind_done in H as (s3 & i3 & w2 & E3 & H). apply bind_done in H as (s4 & i4 & c & E4 & H). apply ret_done in H as (-> & _ & ->).
    apply ws_blanks in E1 as (-> & _ & _). apply ws_blanks in E3 as (-> & _ & _).
    assert (s4 = s2) by (eapply (pure_state (opt (complete comment))); [unfold comment; pure_tac|exact E4]). subst s4.
    apply (table_std h) in E2 as (I2 & P & _); auto. split; auto. split; [auto|discriminate].
  - apply alt_done in H as [H|(s2 & E2 & H)].
    + clear H0. apply complete_done in H. unfold keyval_comment in H.
      apply bind_done in H as (s2 & i1 & w1 & W1 & H). apply bind_done in H as (s3 & i2 & kv & E2 & H).
      apply bind_done in H as (s4 & i3 & w2 & E3 & H). apply bind_done in H as (s5 & i4 & c & E4 & H). apply ret_done in H as (-> & -> & ->).
      assert (HN : head_not 91 i1). { unfold keyval_p, keyval_p_ in E2. apply bind_done in E2 as (? & ? & ? & E2 & _). eapply key_heads; eauto. }
      assert (s1 = s).
      { unfold complete in E1. apply rbind_ok in E1 as ([s6 r6] & E6 & E1). assert (s6 = s). { eapply table_not; [|exact HN|exact E6]. rewrite ws_eq in W1 |- *. inversion W1. reflexivity. }
        inversion E1. congruence. }
      subst s1. apply ws_blanks in W1 as (-> & _ & _). apply ws_blanks in E3 as (-> & _ & _).
      assert (s5 = s3) by (eapply (pure_state (opt (complete comment))); [unfold comment; pure_tac|exact E4]). subst s5.
      pose proof (calm_keyval_p _ _ _ _ E2) as CK. unfold keyval_p in E2. destruct IV as [T K AE].
      apply (keyval_put val_p vfault_val_p calm_val_p vput_val_p h _ _ _ _ _ []) in E2 as (K3 & DN & NK & W & FR); auto.
      split; [apply (ca_map _ _ CK)|]. split.
      * intros _. cbn [under_head e_table]. constructor; auto; [eapply tabs_calm; eauto|rewrite (ca_aerr _ _ CK); auto].
      * intros kv0 Q. cbn [e_keyval] in Q. inversion Q; subst kv0. cbn [under_head e_table]. unfold kept_line, free_line, line_name. cbn [fst snd].
        rewrite dotted_snoc. unfold chain in W, FR. cbn [app fold_left chain_step] in W, FR. auto.
    + assert (ID : idle e).
      { apply alt_done in H as [H|(s3 & E3 & H)]; apply complete_done in H; [unfold ws_comment in H|unfold ws_expr in H].
        * apply bind_done in H as (s3 & i1 & w & W & H). apply bind_done in H as (s4 & i2 & c & E3 & H).
          apply ret_done in H as (_ & _ & ->). split; reflexivity.
        * apply bind_done in H as (s4 & i1 & w & W & H). apply ret_done in H as (_ & _ & ->). split; reflexivity. }
      destruct (idle_step _ _ _ _ _ H0 ID) as (_ & _ & VS). destruct ID as [IK IT]. split; [|split].
      * assert (s' = s2). { eapply (pure_state (alt (complete ws_comment) (complete ws_expr))); [unfold ws_comment, ws_expr, comment, ws; pure_tac|exact H]. }
        subst s'. assert (M1 : p_map s1 = p_map s). { apply (mapfail_complete _ _ table_fails _ _ _ _ E1). discriminate. }
        assert (CK : calm s1 s2).
        { revert E2. assert (X : pres calm (complete keyval_comment)); [|intros E2; eapply X; exact E2]. apply pres_complete. unfold keyval_comment.
          apply pres_bind; [exact calm_trans|apply (pure_pres calm calm_id); unfold ws; pure_tac|]. intros ?.
          apply pres_bind; [exact calm_trans|apply calm_keyval_p|]. intros ?. apply (pure_pres calm calm_id). unfold ws, comment. pure_tac. }
        rewrite <- M1. apply (ca_map _ _ CK).
      * intros [V|V]; [|exfalso; apply V; split; auto]. rewrite (VS V). unfold under_head. rewrite IT. exact IV.
      * intros kv Q. congruence.
Qed.

(** ** Documents *)
Lemma kept_persist : forall m m' x, persist m m' -> kept_line m x -> kept_line m' x.
Proof. intros m m' x P [D W]. split; auto. eapply whole_persist; eauto. Qed.
Lemma free_back : forall m m' x, persist m m' -> free_line m' x -> free_line m x.
Proof. intros m m' x P F y Y. apply (F y), P, Y. Qed.
Definition told (h : list str) (m m' : vmap) (d : toml) : Prop :=
  persist m m' /\ Forall (kept_line m') (keyed h d) /\ Forall (free_line m) (keyed h d) /\ NoDup (map line_name (keyed h d)).
Lemma told_cons : forall h m m1 m2 nl e l, persist m m1 ->
  (forall kv, e.(e_keyval) = Some kv -> kept_line m1 (under_head h e, kv) /\ free_line m (under_head h e, kv)) ->
  told (under_head h e) m1 m2 l -> told h m m2 ({| ne_nl := nl; ne_expr := e |} :: l).
Proof.
  intros h m m1 m2 nl e l P K (P2 & K2 & F2 & ND). unfold told. cbn [keyed ne_expr]. fold (under_head h e).
  split; [eapply persist_trans; eauto|].
  assert (F3 : Forall (free_line m) (keyed (under_head h e) l)) by (eapply Forall_impl; [|exact F2]; intros x; eapply free_back; eauto).
  destruct (e_keyval e) as [kv|]; [|auto]. destruct (K kv eq_refl) as [KK KF]. split; [constructor; auto; eapply kept_persist; eauto|].
  split; [constructor; auto|]. cbn [map]. constructor; auto. intros I. apply in_map_iff in I as (x & E & I). rewrite Forall_forall in F2.
  destruct KK as [_ W]. specialize (W [] _ eq_refl). unfold path_text in W. cbn [map concat] in W. rewrite app_nil_r, <- E in W. exact (F2 x I _ W).
Qed.
Lemma told_nil : forall h m, told h m m [].
Proof. intros h m. split; [apply persist_refl|]. repeat constructor. Qed.
Lemma newline_map : forall s i s' r, newline s i = Ok (s', r) -> s'.(p_map) = s.(p_map) /\ forall h, inv h s -> inv h s'.
Proof.
  intros s i s' r H. assert (X : calm s s' /\ s'.(p_keychain) = s.(p_keychain) /\ p_map s' = p_map s).
  { revert H. apply (pres_newline (fun s s' => calm s s' /\ s'.(p_keychain) = s.(p_keychain) /\ p_map s' = p_map s)).
    - intros z. split; [apply calm_id|auto].
    - intros a b c (A & B & D) (A2 & B2 & D2). split; [eapply calm_trans; eauto|split; congruence].
    - intros n z. split; [apply calm_same; reflexivity|split; reflexivity]. }
  destruct X as (X & K & M). split; auto. intros h [T K0 AE]. constructor; [eapply tabs_calm; eauto|congruence|rewrite (ca_aerr _ _ X); auto].
Qed.
Lemma loop_told : forall n h s i s' r l, many_loop n nl_expression_p s i = Ok (s', Done r l) -> (void_head i -> inv h s) -> clean s' -> plain_tables l ->
  told h s.(p_map) s'.(p_map) l.
Proof.
  induction n; intros h s i s' r l H IV C PT; [discriminate|]. cbn [many_loop] in H.
  destruct i as [|c i]; [inversion H; subst; apply told_nil|].
  apply rbind_ok in H as ([s1 r1] & E & H). unfold nl_expression_p in E at 1. unfold bind at 1 in E.
  apply rbind_ok in E as ([s2 r2] & E2 & E). pose proof (newline_quiet _ _ _ _ E2) as C2.
  destruct r2 as [i2 nl| |]; [|inversion E; subst; inversion H; subst; apply told_nil|inversion E; subst; inversion H].
  destruct C2 as (VH & _ & _). destruct (newline_map _ _ _ _ E2) as [M2 I2]. apply newline_short in E2. unfold bind at 1 in E. apply rbind_ok in E as ([s3 r3] & E3 & E).
  destruct (expression_done _ _ _ _ E3) as (i3 & e & ->). inversion E; subst. clear E. pose proof (reads_expression _ _ _ _ _ E3) as RE.
  match type of H with (if ?b then _ else _) = _ => destruct b eqn:NB end.
  { exfalso. apply Nat.eqb_eq in NB. subst i2. rewrite app_length in E2. lia. }
  apply rbind_ok in H as ([s4 r4] & E4 & H). destruct r4; inversion H; subst. inversion PT as [|? ? NA PT']; subst. rewrite <- M2.
  assert (C1 : clean s1). { eapply clean_back; [|exact C]. eapply (pres_loop errors_grow); [intros; apply grow_same; auto|exact grow_trans| |exact E4].
    apply ClashFacts.loop_pres; [intros; apply grow_same; auto|exact grow_trans|intros; apply grow_same; reflexivity|exact grow_expression]. }
  destruct (expr_step h _ _ _ _ _ E3 (I2 _ (IV VH)) C1 NA) as (P & IV1 & KV).
  eapply told_cons; [exact P|exact KV|]. eapply IHn; [exact E4| |exact C|exact PT']. intros V. apply IV1. auto.
Qed.
Lemma toml_told : forall h s i s' r t, toml_p s i = Ok (s', Done r t) -> inv h s -> clean s' -> plain_tables t -> told h s.(p_map) s'.(p_map) t.
Proof.
  intros h s i s' r t T IV C PT. unfold toml_p in T. apply bind_done in T as (s2 & i1 & e & E1 & T). apply bind_done in T as (s3 & i2 & l & E2 & T).
  apply ret_done in T as (-> & -> & ->). unfold nl_expressions, many0 in E2. inversion PT as [|? ? NA PT']; subst.
  assert (C1 : clean s2). { eapply clean_back; [|exact C]. eapply (pres_loop errors_grow); [intros; apply grow_same; auto|exact grow_trans| |exact E2].
    apply ClashFacts.loop_pres; [intros; apply grow_same; auto|exact grow_trans|intros; apply grow_same; reflexivity|exact grow_expression]. }
  destruct (expr_step h _ _ _ _ _ E1 IV C1 NA) as (P & IV1 & KV). eapply told_cons; [exact P|exact KV|]. eapply loop_told; [exact E2|auto|exact C|exact PT'].
Qed.

Lemma rmap_cons : forall A B (f : A -> res B) a l, rmap f (a :: l) = (let? x := f a in let? y := rmap f l in Ok (x :: y)).
Proof. reflexivity. Qed.
Lemma denotes_val : forall t v, denotes t v -> to_val t = Ok v.
Proof.
  fix IH 3. intros t v H. destruct H as [x|x|b|d|x y|avs vs n1 n2 F|tks kvs w F]; try reflexivity.
  - cbn [to_val]. assert (E : rmap (fun av => to_val av.(av_val).(c_val)) avs = Ok vs).
    { clear n1 n2. induction F as [|a x l l' D F IHF]; [reflexivity|]. rewrite rmap_cons, (IH _ _ D), IHF. reflexivity. }
    rewrite E. reflexivity.
  - cbn [to_val]. assert (E : rmap (fun tk => let? x := to_val tk.(tk_kv).(kv_val).(c_val) in Ok (tk.(tk_kv).(kv_key), x)) tks = Ok kvs).
    { clear w. induction F as [|a [k x] l l' [DK D] F IHF]; [reflexivity|]. cbn [fst snd] in *. rewrite rmap_cons, (IH _ _ D), DK, IHF. reflexivity. }
    rewrite E. reflexivity.
Qed.
Lemma found_all : forall ovf i s r, parse (new_parser ovf) i = Ok (s, r) -> plain_tables s.(p_root) -> all_taken s.(p_errors) ->
  NoDup (map line_name (keyed [] s.(p_root))) /\
  forall x, In x (keyed [] s.(p_root)) -> exists v, denotes (snd x).(kv_val).(c_val) v /\
    forall p w, at_path v p = Some w -> get_value s (line_name x ++ path_text p) = Ok (Some w).
Proof.
  intros ovf i s r H PT C. destruct (parse_inv _ _ _ _ H) as (s1 & rest & t & T & EI & -> & L).
  cbn [p_root p_leftover p_errors set_leftover set_root] in *.
  apply (toml_told []) in T as (_ & K & _ & ND); auto.
  - split; auto. intros x I. rewrite Forall_forall in K. destruct (K x I) as [(v & D) W]. exists v. split; auto. intros p w A. pose proof (denotes_val _ _ D) as TV.
    pose proof (tat_at p _ _ TV) as Y. rewrite A in Y. destruct Y as (y & Y & TY). apply W in Y as [_ (sub & Y)]. unfold get_value. cbn [p_map set_leftover set_root].
    rewrite Y. cbn [hv_value]. rewrite TY. reflexivity.
  - constructor; [|reflexivity..]. split; [|constructor]. cbn. auto.
Qed.
Lemma clash_told : forall ovf i s r x y l1 l2 l3, parse (new_parser ovf) i = Ok (s, r) -> plain_tables s.(p_root) ->
  keyed [] s.(p_root) = l1 ++ x :: l2 ++ y :: l3 -> line_name x = line_name y ->
  Exists (fun e => match e with EDuplicateKey _ _ _ | EInvalidTable _ _ _ => True | _ => False end) s.(p_errors).
Proof.
  intros ovf i s r x y l1 l2 l3 H PT E Q.
  assert (D : all_taken s.(p_errors) \/ Exists (fun e => match e with EDuplicateKey _ _ _ | EInvalidTable _ _ _ => True | _ => False end) s.(p_errors)).
  { unfold all_taken. induction (p_errors s) as [|e es [IH|IH]]; [left; constructor| |right; auto]. destruct e; auto. }
  destruct D as [D|D]; auto. destruct (found_all _ _ _ _ H PT D) as [ND _]. rewrite E, map_app in ND. cbn [map] in ND.
  apply NoDup_remove_2 in ND. destruct ND. rewrite map_app. cbn [map]. rewrite Q, !in_app_iff. cbn [In]. auto.
Qed.
