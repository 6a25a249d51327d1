(** The causes of errors. *)
From Coq Require Import Lia ZifyBool ZifyNat ZifyN Sorting.Sorted.
From Verif Require Import TotalFacts Str Regex Types Ast State Nom Keys Grammar Api Facts Spec RegexFacts NomFacts DateFacts RoundTrip Effects
  ParseFacts WalkFacts StringFacts LineFacts ScalarFacts HeadSpec SafeFacts CountFacts ReportFacts OrderSpec OrderFacts CauseSpec.

(** ** Keys end with the name of the value *)
Definition key_name (k : key) : str := match k with KStr s => s | KIndex i => idx_str i end.
Lemma ends_step : forall acc k, ends (chain_step acc k) (key_name k).
Proof. intros acc [s|i]; cbn [chain_step key_name]; eexists; reflexivity. Qed.
Lemma ends_app : forall a k n, ends k n -> ends (a ++ k) n.
Proof. intros a k n (f & ->). exists (a ++ f). rewrite app_assoc. auto. Qed.
Lemma chain_ends : forall kc k, ends (fst (get_keychain_key (kc ++ [k]))) (key_name k).
Proof. intros kc k. cbn [get_keychain_key fst]. rewrite fold_left_app. apply ends_step. Qed.
Lemma full_ends : forall ovf m ts ti kc k v fk pk, get_full_key ovf m ts ti (kc ++ [k]) = Ok (v, fk, pk) -> ends fk (key_name k).
Proof.
  intros ovf m ts ti kc k v fk pk H. unfold get_full_key in H. apply rbind_ok in H as ([[v1 ak] pk1] & _ & H).
  pose proof (chain_ends kc k) as E. destruct (get_keychain_key (kc ++ [k])) as [ck pck]. cbn [fst] in E.
  destruct ak; [inversion H; subst; auto|]. assert (F : fk = (n :: ak) ++ lit "." ++ ck) by congruence. rewrite F.
  apply (ends_app (n :: ak)). apply ends_app. auto.
Qed.
Lemma parent_ends : forall ovf m ts ti kc k j v fk pk, get_full_key ovf m ts ti ((kc ++ [k]) ++ [j]) = Ok (v, fk, pk) -> ends pk (key_name k).
Proof.
  intros ovf m ts ti kc k j v fk pk H. unfold get_full_key in H. apply rbind_ok in H as ([[v1 ak] pk1] & _ & H).
  assert (E : ends (snd (get_keychain_key ((kc ++ [k]) ++ [j]))) (key_name k)).
  { unfold get_keychain_key. cbn [snd]. assert (X : exists a b l, (kc ++ [k]) ++ [j] = a :: b :: l).
    { destruct kc as [|a [|b kc]]; cbn [app]; eauto. }
    destruct X as (a & b & l & X). rewrite X. rewrite <- X. rewrite removelast_last. rewrite fold_left_app. apply ends_step. }
  destruct (get_keychain_key ((kc ++ [k]) ++ [j])) as [ck pck]. cbn [snd] in E.
  destruct ak; [inversion H; subst; auto|].
  assert (F : pk = (n :: ak) ++ (match pck with [] => [] | _ => lit "." end) ++ pck) by congruence. rewrite F.
  apply (ends_app (n :: ak)). apply ends_app. auto.
Qed.
Lemma keyval_ends : forall s kc k fk pk, s.(p_keychain) = kc ++ [k] -> keyval_keys s = Ok (fk, pk) -> ends fk (key_name k).
Proof.
  intros s kc k fk pk K H. unfold keyval_keys in H. rewrite K in H. pose proof (chain_ends kc k) as E.
  destruct (p_last_table s) as [[t|t]|].
  - apply rbind_ok in H as ([[v1 f] p] & G & H). inversion H; subst. eapply full_ends; eauto.
  - apply rbind_ok in H as ([[v1 f] p] & G & H). inversion H; subst. eapply full_ends; eauto.
  - destruct (get_keychain_key (kc ++ [k])). inversion H; subst. auto.
Qed.

(** ** Errors that are added *)
Definition gains (s s' : pst) (Q : parse_error -> Prop) : Prop :=
  exists old new, s'.(p_errors) = old ++ new /\ Forall2 same_error s.(p_errors) old /\ Forall Q new.
Definition steady (Q : parse_error -> Prop) : Prop := forall e e', same_error e e' -> Q e -> Q e'.
Lemma same_error_refl : forall e, same_error e e.
Proof. left. auto. Qed.
Lemma same_error_trans : forall a b c, same_error a b -> same_error b c -> same_error a c.
Proof.
  intros a b c [->|(k & n & l & l' & -> & ->)] [<-|(k2 & n2 & l2 & l2' & E & ->)]; try (right; eauto 8; fail); try (left; auto; fail).
  inversion E; subst. right. eauto 8.
Qed.
Lemma same_all_refl : forall l, Forall2 same_error l l.
Proof. induction l; constructor; auto. apply same_error_refl. Qed.
Lemma same_all_trans : forall a b c, Forall2 same_error a b -> Forall2 same_error b c -> Forall2 same_error a c.
Proof.
  intros a b c F. revert c. induction F; intros c G; inversion G; subst; constructor; auto. eapply same_error_trans; eauto.
Qed.
Lemma steady_all : forall Q l l', steady Q -> Forall2 same_error l l' -> Forall Q l -> Forall Q l'.
Proof. intros Q l l' S F. induction F; intros A; inversion A; subst; constructor; eauto. Qed.
Lemma gains_none : forall s s' Q, s'.(p_errors) = s.(p_errors) -> gains s s' Q.
Proof. intros s s' Q E. exists s.(p_errors), []. rewrite app_nil_r. split; auto. split; [apply same_all_refl|constructor]. Qed.
Lemma gains_push : forall s s' (Q : parse_error -> Prop) e, s'.(p_errors) = vpush s.(p_errors) e -> Q e -> gains s s' Q.
Proof. intros s s' Q e E H. exists s.(p_errors), [e]. split; auto. split; [apply same_all_refl|constructor; auto]. Qed.
Lemma gains_trans : forall a b c Q, steady Q -> gains a b Q -> gains b c Q -> gains a c Q.
Proof.
  intros a b c Q S (o1 & n1 & E1 & F1 & Q1) (o2 & n2 & E2 & F2 & Q2). rewrite E1 in F2.
  apply Forall2_app_inv_l in F2 as (x & y & FX & FY & ->). exists x, (y ++ n2). rewrite app_assoc. split; auto.
  split; [eapply same_all_trans; eauto|]. apply Forall_app. split; auto. eapply steady_all; eauto.
Qed.
Lemma gains_impl : forall s s' (Q Q' : parse_error -> Prop), (forall e, Q e -> Q' e) -> gains s s' Q -> gains s s' Q'.
Proof. intros s s' Q Q' I (o & n & E & F & G). exists o, n. split; auto. split; auto. eapply Forall_impl; eauto. Qed.
Lemma gains_ext : forall s e Q, last_ext s.(p_errors) e -> gains s (set_errors e s) Q.
Proof.
  intros s e Q (l & tk & line & kvs & k & x & E & ->). exists (l ++ [EInvalidTable tk line (hput k x kvs)]), [].
  split; [cbn; rewrite app_nil_r; auto|]. split; [|constructor]. rewrite E. apply Forall2_app; [apply same_all_refl|].
  constructor; [|constructor]. right. eauto 8.
Qed.
Lemma gains_eq : forall s s1 s' s1' Q, s1.(p_errors) = s.(p_errors) -> s1'.(p_errors) = s'.(p_errors) -> gains s s' Q -> gains s1 s1' Q.
Proof. intros s s1 s' s1' Q A B (o & n & E & F & G). exists o, n. rewrite A, B. auto. Qed.

Lemma about_steady : forall n x, steady (fun e => about e n x).
Proof. intros n x e e' [->|(k & m & l & l' & -> & ->)] A; auto. Qed.
Lemma fault_steady : forall n x, steady (fault n x).
Proof. intros n x e e' [->|(k & m & l & l' & -> & ->)] A; auto. Qed.

(** ** What the actions add *)
Lemma insert_gains : forall s c s' kc k, insert_keyval_into_map s c = Ok s' -> s.(p_keychain) = kc ++ [k] ->
  s'.(p_keychain) = s.(p_keychain) /\ s'.(p_atypes) = s.(p_atypes) /\ gains s s' (fun e => about e (key_name k) c.(c_val)).
Proof.
  intros s c s' kc k H K. unfold insert_keyval_into_map in H. apply rbind_ok in H as ([fk pk] & E & H).
  assert (M : forall m, (let? m := update_parent m pk s.(p_keychain) in Ok (set_map m s)) = Ok s' ->
    s'.(p_keychain) = s.(p_keychain) /\ s'.(p_atypes) = s.(p_atypes) /\ gains s s' (fun e => about e (key_name k) c.(c_val))).
  { intros m X. apply rbind_ok in X as (m' & _ & X). inversion X; subst. split; auto. split; auto. apply gains_none. reflexivity. }
  destruct (hget fk (p_map s)) as [[[c0|] sub]|]; [|eapply M; eauto..].
  apply rbind_ok in H as (v & V & H). inversion H; subst. split; auto. split; auto. eapply gains_push; [reflexivity|].
  cbn [about]. split; auto. eapply keyval_ends; eauto.
Qed.
Lemma keyval_gains : forall k sep v s s' kv kc, keyval_act k sep v s = Ok (s', kv) -> s.(p_keychain) = kc ++ [KStr k] ->
  kv = KeyVal k sep v /\ s'.(p_keychain) = kc /\ s'.(p_atypes) = s.(p_atypes) /\ gains s s' (fun e => about e k v.(c_val)).
Proof.
  intros k sep v s s' kv kc H K. apply keyval_effect in H as [-> [(_ & e & X & ->)|(_ & s1 & I & ->)]]; (split; [auto|]).
  - cbn [p_keychain p_atypes pop_key set_keychain set_errors]. split; [rewrite K; unfold vpop; apply removelast_last|]. split; auto.
    destruct X as [->|X]; [apply gains_none; reflexivity|].
    eapply gains_eq; [reflexivity| |eapply gains_ext; exact X]. reflexivity.
  - apply (insert_gains _ _ _ kc (KStr k)) in I as (I1 & I2 & I3); auto. cbn [p_keychain p_atypes pop_key set_keychain].
    split; [rewrite I1, K; unfold vpop; apply removelast_last|]. split; auto.
Qed.
Lemma kind_types : forall a b ta tb, map_val_to_array_type a = Ok ta -> map_val_to_array_type b = Ok tb ->
  array_type_eqb ta tb = false -> ~ same_kind a b.
Proof. intros a b ta tb A B E S. destruct a, b; cbn in *; try contradiction; inversion A; inversion B; subst; discriminate. Qed.
Lemma mixed_gains : forall t s s', check_mixed t s = Ok s' ->
  s'.(p_keychain) = s.(p_keychain) /\ s'.(p_atypes) = s.(p_atypes) /\
  forall kc k j, s.(p_keychain) = (kc ++ [k]) ++ [j] ->
  gains s s' (fun e => exists l key n, vlast s.(p_atypes) = Some l /\ l <> ANone /\ array_type_eqb l t = false /\ e = EMixedArray key n /\ ends key (key_name k)).
Proof.
  intros t s s' H. unfold check_mixed in H. assert (Z : s' = s -> s'.(p_keychain) = s.(p_keychain) /\ s'.(p_atypes) = s.(p_atypes) /\
    forall kc k j, s.(p_keychain) = (kc ++ [k]) ++ [j] -> gains s s' (fun e => exists l key n, vlast s.(p_atypes) = Some l /\ l <> ANone /\ array_type_eqb l t = false /\ e = EMixedArray key n /\ ends key (key_name k))).
  { intros ->. repeat split. intros. apply gains_none. auto. }
  destruct (vlast (p_atypes s)) as [l|] eqn:L; [|apply Z; congruence].
  match type of H with (if ?b then _ else _) = _ => destruct b eqn:B end; [|apply Z; congruence].
  apply rbind_ok in H as ([[v fk] pk] & G & H).
  match type of H with Ok (if ?b then _ else _) = _ => destruct b end; [|apply Z; congruence]. clear Z. inversion H; subst.
  split; auto. split; auto. intros kc k j K. eapply gains_push; [reflexivity|]. exists l, pk, (p_line s). split; auto.
  apply andb_prop in B as [B1 B2].
  split; [intros ->; discriminate|]. split; [apply negb_true_iff; auto|]. split; auto. rewrite K in G. eapply parent_ends; eauto.
Qed.

(** ** Values *)
Definition vfault (p : P cell) : Prop :=
  (forall s i s' r c kc k, p s i = Ok (s', Done r c) -> s.(p_keychain) = kc ++ [k] ->
     s'.(p_keychain) = s.(p_keychain) /\ s'.(p_atypes) = s.(p_atypes) /\ gains s s' (fault (key_name k) c.(c_val)) /\ r <> i) /\
  (forall s i s' r, head_not 91 i -> head_not 123 i -> p s i = Ok (s', r) -> match r with Done _ _ => opens_value i | _ => s' = s end).

Definition holds {A} (p : P A) (f : A -> tval) : Prop := forall s i s' r, p s i = Ok (s', r) ->
  match r with
  | Done j t => s'.(p_keychain) = s.(p_keychain) /\ s'.(p_atypes) = s.(p_atypes) /\
      (forall kc k, s.(p_keychain) = kc ++ [k] -> gains s s' (fault (key_name k) (f t))) /\ j <> i /\ opens_value i
  | _ => s' = s
  end.
Lemma holds_pcell : forall A (p : P A) f, holds p f -> holds (pcell p f) c_val.
Proof.
  intros A p f H s i s' r E. unfold pcell, bind, complete in E. apply rbind_ok in E as ([s1 r1] & E1 & E).
  apply rbind_ok in E1 as ([s2 r2] & E1 & E2). inversion E2; subst. apply H in E1. destruct r2; inversion E; subst; auto.
Qed.
Lemma holds_alt : forall A (p q : P A) f, holds p f -> holds q f -> holds (alt p q) f.
Proof.
  intros A p q f H H2 s i s' r E. unfold alt in E. apply rbind_ok in E as ([s1 r1] & E1 & E). apply H in E1.
  destruct r1; [inversion E; subst; exact E1| |inversion E; subst; auto]. subst s1. apply H2 in E. exact E.
Qed.
(** scalars that change nothing *)
Lemma holds_quiet : forall A (p : P A) f, counts p f -> (forall s i s' r, p s i = Ok (s', r) -> match r with
    | Done j t => s'.(p_keychain) = s.(p_keychain) /\ s'.(p_atypes) = s.(p_atypes) /\ s'.(p_errors) = s.(p_errors) /\ j <> i
    | _ => s' = s end) -> holds p f.
Proof.
  intros A p f C H s i s' r E. pose proof (C _ _ _ _ E) as X. apply H in E. destruct r; auto. destruct E as (E1 & E2 & E3 & E4).
  split; auto. split; auto. split; [intros; apply gains_none; auto|]. tauto.
Qed.
Lemma longer : forall (x r : str), x <> [] -> r <> x ++ r.
Proof. intros x r NE E. apply (f_equal (@length N)) in E. rewrite app_length in E. destruct x; [congruence|]. cbn [length] in E. lia. Qed.
Lemma holds_re : forall re f, (forall x, tsrc (f x) = x /\ layout_lines (f x) = 0) -> forallb (fun x => avoid x re) others = true ->
  nullable re = false -> holds (re_find re) f.
Proof.
  intros re f T A N. apply holds_quiet; [apply counts_re; auto|]. intros s i s' r E.
  assert (s' = s) by (eapply (pure_state (re_find re)); [pure_tac|exact E]). subst s'. destruct r; auto. repeat split; auto.
  apply re_find_done in E as (_ & -> & L). apply longer. intros X. rewrite (nullable_lang _ _ L X) in N. discriminate.
Qed.
(** parsers that change nothing when they fail *)
Definition clean {A} (p : P A) : Prop := forall s i s' r, p s i = Ok (s', r) -> match r with Done _ _ => True | _ => s' = s end.
Lemma clean_pure : forall A (p : P A), pure p -> clean p.
Proof. intros A p H s i s' r E. apply (pure_state _ H) in E. destruct r; auto. Qed.
Lemma clean_alt : forall A (p q : P A), clean p -> clean q -> clean (alt p q).
Proof.
  intros A p q H H2 s i s' r E. unfold alt in E. apply rbind_ok in E as ([s1 r1] & E1 & E). apply H in E1.
  destruct r1; try (inversion E; subst; auto; fail). subst s1. apply H2 in E. auto.
Qed.
Lemma clean_complete : forall A (p : P A), clean p -> clean (complete p).
Proof. intros A p H s i s' r E. unfold complete in E. apply rbind_ok in E as ([s1 r1] & E1 & E). apply H in E1. destruct r1; inversion E; subst; auto. Qed.
Lemma clean_pmap : forall A B (p : P A) (f : A -> B), clean p -> clean (pmap p f).
Proof. intros A B p f H s i s' r E. unfold pmap, bind in E. apply rbind_ok in E as ([s1 r1] & E1 & E). apply H in E1. destruct r1; inversion E; subst; auto. Qed.
Lemma clean_act : forall A B (p : P A) (f : A -> pst -> res (pst * B)), clean p -> clean (x <-- p ;; act (f x)).
Proof.
  intros A B p f H s i s' r E. unfold bind in E. apply rbind_ok in E as ([s1 r1] & E1 & E). apply H in E1. destruct r1; try (inversion E; subst; auto; fail).
  unfold act in E. apply rbind_ok in E as ([s2 b] & _ & E). inversion E; subst. auto.
Qed.
Lemma clean_string : clean string_p.
Proof.
  unfold string_p, ml_literal_string_p, ml_basic_string_p, basic_string_p, literal_string_p,
      raw_ml_literal_string, raw_ml_basic_string, raw_basic_string, raw_literal_string.
  repeat apply clean_alt; apply clean_pmap; apply clean_complete; apply clean_pmap.
  1,2: apply (clean_act _ _ (re_find _) (fun x s => Ok (add_lines (count_lines x) s, x))).
  all: apply clean_pure; pure_tac.
Qed.
Lemma string_quiet : forall s i s' r, string_p s i = Ok (s', r) -> match r with
    | Done j t => s'.(p_keychain) = s.(p_keychain) /\ s'.(p_atypes) = s.(p_atypes) /\ s'.(p_errors) = s.(p_errors) /\ j <> i
    | _ => s' = s end.
Proof.
  intros s i s' r H. pose proof H as H0. pose proof (clean_string _ _ _ _ H) as C. destruct r as [j t| |]; auto. split; [|split; [|split]].
  - eapply (pres_string (fun s s' => s'.(p_keychain) = s.(p_keychain))); [..|exact H]; intros; auto; congruence.
  - eapply (pres_string (fun s s' => s'.(p_atypes) = s.(p_atypes))); [..|exact H]; intros; auto; congruence.
  - eapply (pres_string (fun s s' => s'.(p_errors) = s.(p_errors))); [..|exact H]; intros; auto; congruence.
  - pose proof (reads_string _ _ _ _ _ H) as R. rewrite R. apply longer. intros X. apply string_lines in H as (_ & _ & O).
    rewrite X in R. cbn [app] in R. subst j.
    assert (T : exists x st, t = TString x st).
    { unfold string_p in H0. repeat (apply alt_done in H0 as [H0|(? & _ & H0)]; [apply pmap_done in H0 as (? & _ & ->); eauto|]).
      apply pmap_done in H0 as (? & _ & ->); eauto. }
    destruct T as (x & st & ->). cbn [tsrc] in X. destruct st; discriminate.
Qed.
Lemma holds_scalar : holds (alt (pcell date_time TDateTime)
    (alt (pcell float TFloat)
    (alt (pcell integer TInteger)
    (alt (pcell boolean TBoolean)
         (pcell string_p (fun v => v)))))) c_val.
Proof.
  repeat apply holds_alt; apply holds_pcell.
  - intros s i s' r E. unfold date_time in E. apply rbind_ok in E as ([s1 r1] & R1 & E).
    assert (s1 = s) by (eapply (pure_state date_time_internal); [apply pure_dti|exact R1]). subst s1.
    destruct r1 as [i1 d1| |]; [|inversion E; subst; auto..].
    apply dti_done in R1 as (_ & -> & DG). pose proof DG as DG0. destruct DG0 as [([Y L] & _) _].
    assert (LG : i1 <> show_datetime d1 ++ i1 /\ opens_value (show_datetime d1 ++ i1)).
    { rewrite <- datetime_src_show. unfold datetime_src. destruct (d_year (dt_date d1)) as [|c y]; [discriminate|]. inversion Y; subst. unfold digit in *.
      split; [apply longer; discriminate|]. cbn [app opens_value others In]. lia. }
    destruct LG as [LG OP]. destruct (datetime_validate d1) eqn:V; [inversion E; subst; repeat split; auto; intros; apply gains_none; auto|].
    apply rbind_ok in E as ([[x fk] pk] & G & E). inversion E; subst. split; auto. split; auto. split; auto.
    intros kc k K. eapply gains_push; [reflexivity|]. left. cbn [about]. split; [rewrite K in G; eapply full_ends; eauto|].
    exists d1. split; auto. split.
    + intros GD. rewrite (proj2 (datetime_validate_digits d1 DG)) in V; [discriminate|]. apply GD.
    + rewrite datetime_src_show, app_length. replace (length (show_datetime d1) + length i1 - length i1)%nat with (length (show_datetime d1)) by lia.
      rewrite firstn_app, Nat.sub_diag, firstn_all, app_nil_r. reflexivity.
  - apply holds_re; auto.
  - apply holds_re; auto.
  - apply holds_quiet.
    + intros s i s' r E. assert (s' = s) by (eapply (pure_state boolean); [unfold boolean; pure_tac|exact E]). subst s'.
      destruct r as [rest b| |]; try reflexivity. apply reads_boolean in E. subst i. cbn [tsrc layout_lines]. unfold show_bool.
      destruct b; (split; [change (line_feeds _) with 0; lia|]; split; [auto|]; cbn; lia).
    + intros s i s' r E. assert (s' = s) by (eapply (pure_state boolean); [unfold boolean; pure_tac|exact E]). subst s'.
      destruct r as [rest b| |]; auto. repeat split; auto. apply reads_boolean in E. rewrite E. apply longer. destruct b; discriminate.
  - apply holds_quiet; [exact string_lines|exact string_quiet].
Qed.

(** ** All values *)
Section CauseVal.
  Variable pval : P cell.
  Hypothesis PV : vfault pval.
  Hypothesis RV : reads pval cell_src.

  (** the type of the last element *)
  Definition last_type (pre : list array_value) (t : array_type) : Prop :=
    match vlast pre with
    | None => t = ANone
    | Some a => map_val_to_array_type a.(av_val).(c_val) = Ok t
    end.
  (** an element: [pre] were read before *)
  Lemma value_gains : forall s i s' r a kc k ts t pre, array_value_ pval s i = Ok (s', Done r a) ->
    s.(p_keychain) = (kc ++ [k]) ++ [KIndex (N.of_nat (length pre))] -> s.(p_atypes) = ts ++ [t] -> last_type pre t ->
    exists t', s'.(p_keychain) = (kc ++ [k]) ++ [KIndex (N.of_nat (length (pre ++ [a])))] /\ s'.(p_atypes) = ts ++ [t'] /\
      last_type (pre ++ [a]) t' /\ r <> i /\
      forall l n1 n2, gains s s' (fault (key_name k) (TArray ((pre ++ [a]) ++ l) n1 n2)).
  Proof.
    intros s i s' r a kc k ts t pre H K T LT. pose proof (reads_array_value pval RV _ _ _ _ _ H) as RA. unfold array_value_ in H. apply bind_done in H as (s1 & i1 & c & E1 & H).
    apply bind_done in H as (s2 & i2 & sep & E2 & H). apply bind_done in H as (s3 & i3 & nls & E3 & H).
    apply act_done in H as (-> & H).
    assert (s2 = s1) by (eapply (pure_state (opt (complete array_sep))); [pure_tac; apply pure_sep|exact E2]). subst s2.
    pose proof E3 as E3'. apply complete_done in E3. apply cons_state in E3. subst s3.
    pose proof (RV _ _ _ _ _ E1) as R1.
    destruct PV as [D _]. destruct (D _ _ _ _ _ _ _ E1 K) as (K1 & T1 & G1 & P1).
    unfold array_value_act in H. apply rbind_ok in H as (ty & TY & H). apply rbind_ok in H as (s2 & M & H).
    apply mixed_gains in M as (K2 & T2 & G2). rewrite K1, K in *. specialize (G2 kc k _ eq_refl).
    apply rbind_ok in H as (s3 & I & H).
    match type of I with insert_keyval_into_map ?x _ = _ => set (s2' := x) in * end.
    assert (KK : s2'.(p_keychain) = (kc ++ [k]) ++ [KIndex (N.of_nat (length pre))]) by (cbn; congruence).
    apply (insert_gains _ _ _ (kc ++ [k]) (KIndex (N.of_nat (length pre)))) in I as (K3 & T3 & G3); auto.
    rewrite K3, KK in H. rewrite app_length in H. cbn [length] in H.
    replace (length (kc ++ [k]) + 1 - 1)%nat with (length (kc ++ [k])) in H by lia.
    rewrite nth_error_app2, Nat.sub_diag in H by lia. cbn [nth_error] in H.
    rewrite firstn_app, Nat.sub_diag, firstn_all in H. cbn [firstn] in H. rewrite app_nil_r in H.
    rewrite skipn_all2 in H by (rewrite app_length; cbn; lia). inversion H; subst s' a; clear H.
    exists ty. cbn [p_keychain p_atypes set_keychain].
    split; [rewrite app_length; cbn [length key_inc]; do 3 f_equal; lia|]. 
    split; [rewrite T3; cbn; rewrite T2, T1, T; unfold vpush, vpop; rewrite removelast_last; auto|].
    split; [unfold last_type; rewrite vlast_app; exact TY|].
    split. { rewrite RA. apply longer. unfold av_src, av_src_. cbn [av_val]. intros X. apply app_eq_nil in X as [X _]. unfold cell_src in R1. rewrite X in R1. cbn [app] in R1. congruence. }
    intros l n1 n2. set (av := ArrayValue c sep nls) in *.
    assert (NE : nth_error ((pre ++ [av]) ++ l) (length pre) = Some av).
    { rewrite nth_error_app1 by (rewrite app_length; cbn; lia). rewrite nth_error_app2, Nat.sub_diag by lia. reflexivity. }
    pose proof (nth_error_In _ _ NE) as IN.
    assert (AB : forall e, about e (key_name (KIndex (N.of_nat (length pre)))) (c_val c) -> fault (key_name k) (TArray ((pre ++ [av]) ++ l) n1 n2) e).
    { intros e A. right. do 2 eexists. split; [|exact A]. eapply Part_elem; eauto. }
    eapply gains_trans; [apply fault_steady| |eapply gains_trans; [apply fault_steady| |]].
    - eapply gains_impl; [|exact G1]. intros e [A|(nm & x & PT & A)]; [apply AB; auto|]. right. exists nm, x. split; auto. eapply Part_arr; eauto.
    - eapply gains_impl; [|exact G2]. intros e (ty0 & key & n & L & NN & NEQ & -> & EN). left. cbn [about]. split; auto.
      rewrite T1, T, vlast_app in L. inversion L; subst ty0. unfold last_type in LT. destruct (vlast pre) as [b|] eqn:VB; [|congruence].
      exists ((pre ++ [av]) ++ l), n1, n2, b, av. split; auto. split.
      { apply vlast_some_app in VB. apply in_or_app. left. apply in_or_app. left. rewrite VB. apply in_or_app. right. left. auto. }
      split; auto. eapply kind_types; eauto.
    - eapply gains_eq; [| |eapply gains_impl; [|exact G3]]; auto.
  Qed.
  Lemma stop_clean : forall s s' i r, match i with [] => False | c :: _ => In c gap_chars end ->
    pval s i = Ok (s', r) -> s' = s /\ (r = Error \/ r = Incomplete).
  Proof.
    intros s s' i r H E. destruct PV as [_ X]. destruct i as [|c i]; [contradiction|].
    assert (A : head_not 91 (c :: i) /\ head_not 123 (c :: i)) by (unfold head_not; unfold gap_chars in H; cbn [In] in H; lia). destruct A as [A B].
    specialize (X _ _ _ _ A B E). destruct r; auto. exfalso. unfold gap_chars in H. cbn [opens_value others In] in *. tauto.
  Qed.
  Lemma values_gains : forall n s i s' r l kc k ts t pre, many_loop n (array_value_ pval) s i = Ok (s', Done r l) ->
    (forall s s', array_value_ pval s r = Ok (s', Error) -> s' = s) ->
    s.(p_keychain) = (kc ++ [k]) ++ [KIndex (N.of_nat (length pre))] -> s.(p_atypes) = ts ++ [t] -> last_type pre t ->
    exists j t', s'.(p_keychain) = (kc ++ [k]) ++ [j] /\ s'.(p_atypes) = ts ++ [t'] /\
      forall n1 n2, gains s s' (fault (key_name k) (TArray (pre ++ l) n1 n2)).
  Proof.
    induction n; intros s i s' r l kc k ts t pre H F K T LT; [discriminate|]. cbn [many_loop] in H.
    assert (Z : s' = s -> exists j t', s'.(p_keychain) = (kc ++ [k]) ++ [j] /\ s'.(p_atypes) = ts ++ [t'] /\
      forall n1 n2, gains s s' (fault (key_name k) (TArray (pre ++ l) n1 n2))).
    { intros ->. do 2 eexists. split; [exact K|]. split; [exact T|]. intros. apply gains_none. auto. }
    destruct i as [|c i]; [apply Z; congruence|]. apply rbind_ok in H as ([s1 r1] & E & H). destruct r1 as [i1 a| |].
    - destruct (value_gains _ _ _ _ _ _ _ _ _ _ E K T LT) as (t' & K1 & T1 & L1 & P1 & G1).
      match type of H with (if ?b then _ else _) = _ => destruct b eqn:NB end.
      + exfalso. apply Nat.eqb_eq in NB. apply (reads_array_value pval RV) in E. apply P1. apply (f_equal (@length N)) in E as E2.
        rewrite app_length in E2. destruct (av_src a); [exact (eq_sym E)|]. cbn [length] in *. lia.
      + apply rbind_ok in H as ([s2 r2] & E2 & H). destruct r2; inversion H; subst.
        destruct (IHn _ _ _ _ _ _ _ _ _ _ E2 F K1 T1 L1) as (j & t2 & K2 & T2 & G2). exists j, t2. split; auto. split; auto.
        intros n1 n2. specialize (G2 n1 n2). rewrite <- app_assoc in G2. cbn [app] in G2.
        specialize (G1 a0 n1 n2). rewrite <- app_assoc in G1. cbn [app] in G1. eapply gains_trans; [apply fault_steady| |]; eauto.
    - inversion H; subst. apply Z. eapply F; eauto.
    - discriminate.
  Qed.
  Lemma array_gains : forall s i s' r t kc k, array_ pval s i = Ok (s', Done r t) -> s.(p_keychain) = kc ++ [k] ->
    s'.(p_keychain) = s.(p_keychain) /\ s'.(p_atypes) = s.(p_atypes) /\ gains s s' (fault (key_name k) t) /\ r <> i.
  Proof.
    intros s i s' r t kc k H K. pose proof (reads_array pval RV _ _ _ _ _ H) as RD.
    unfold array_ in H. apply rbind_ok in H as ([s1 r1] & E & H). inversion H; subst s' r1; clear H.
    cbn [p_keychain p_atypes set_atypes pop_key set_keychain]. unfold array_internal_ in E.
    apply bind_done in E as (s2 & i2 & u & E2 & E). apply bind_done in E as (s3 & i3 & n1 & E3 & E).
    apply bind_done in E as (s4 & i4 & vals & E4 & E). apply bind_done in E as (s5 & i5 & n2 & E5 & E).
    apply bind_done in E as (s6 & i6 & u2 & E6 & E). apply ret_done in E as (-> & -> & ->).
    apply cons_state in E3 as E3'. subst s3. apply cons_state in E5 as E5'. subst s5.
    apply tag_done in E2 as (-> & -> & ->). apply tag_done in E6 as (-> & -> & ->).
    assert (GH := gap_head _ _ _ _ _ E5 ltac:(unfold gap_chars; cbn; auto 8)).
    unfold array_values_, many0 in E4.
    destruct (values_gains _ _ _ _ _ _ kc k s.(p_atypes) ANone [] E4) as (j & t' & K4 & T4 & G4).
    - intros s0 s0' X. unfold array_value_ in X. unfold bind at 1 in X. apply rbind_ok in X as ([s1 r1] & X1 & X).
      apply stop_clean in X1 as [X1 [-> | ->]]; [inversion X; subst; auto|inversion X|]. exact GH.
    - cbn [p_keychain push_key set_keychain set_atypes]. rewrite K. reflexivity.
    - reflexivity.
    - reflexivity.
    - split; [rewrite K4, K; unfold vpop; apply removelast_last|]. split; [rewrite T4; unfold vpop; apply removelast_last|]. split.
      + eapply gains_eq; [| |apply G4]; reflexivity.
      + rewrite RD. apply longer. discriminate.
  Qed.

  Lemma key_pushed : forall s i s' r k, key_p s i = Ok (s', Done r k) -> s' = push_key (KStr k) s.
  Proof.
    clear. intros s i s' r k H. unfold key_p in H. apply alt_done in H as [H|(s1 & E1 & H)].
    - apply bind_done in H as (s1 & i1 & x & E & H). apply complete_done in E. apply act_done in H as (-> & H). inversion H; subst.
      f_equal. eapply (pure_state quoted_key); [unfold quoted_key; pure_tac|exact E].
    - assert (s1 = s). { eapply (clean_act _ _ (complete quoted_key) (fun k s => Ok (push_key (KStr k) s, k))) in E1; auto. apply clean_pure. unfold quoted_key. pure_tac. }
      subst s1. apply bind_done in H as (s1 & i1 & x & E & H). apply complete_done in E. apply act_done in H as (-> & H). inversion H; subst.
      f_equal. eapply (pure_state unquoted_key); [unfold unquoted_key; pure_tac|exact E].
  Qed.
  Lemma keyval_fault : forall s i s' r kv, keyval_p_ pval s i = Ok (s', Done r kv) ->
    s'.(p_keychain) = s.(p_keychain) /\ s'.(p_atypes) = s.(p_atypes) /\ gains s s' (fault kv.(kv_key) kv.(kv_val).(c_val)).
  Proof.
    intros s i s' r kv H. unfold keyval_p_ in H. apply bind_done in H as (s1 & i1 & k & E1 & H).
    apply bind_done in H as (s2 & i2 & sep & E2 & H). apply bind_done in H as (s3 & i3 & c & E3 & H).
    apply act_done in H as (-> & H). apply key_pushed in E1. subst s1.
    assert (s2 = push_key (KStr k) s) by (eapply (pure_state keyval_sep); [apply pure_kvsep|exact E2]). subst s2.
    destruct PV as [D _]. destruct (D _ _ _ _ _ s.(p_keychain) (KStr k) E3 eq_refl) as (K & T & G & _).
    apply (keyval_gains _ _ _ _ _ _ s.(p_keychain)) in H as (-> & K2 & T2 & G2); [|exact K]. cbn [kv_key kv_val].
    split; auto. split; [rewrite T2, T; reflexivity|]. eapply gains_trans; [apply fault_steady| |].
    - eapply gains_eq; [| |exact G]; reflexivity.
    - eapply gains_impl; [|exact G2]. intros e A. left. exact A.
  Qed.
  Lemma entry_fault : forall s i s' r tk, table_keyval_p_ pval s i = Ok (s', Done r tk) ->
    s'.(p_keychain) = s.(p_keychain) /\ s'.(p_atypes) = s.(p_atypes) /\ gains s s' (fault tk.(tk_kv).(kv_key) tk.(tk_kv).(kv_val).(c_val)).
  Proof.
    intros s i s' r tk H. unfold table_keyval_p_ in H. apply bind_done in H as (s1 & i1 & kv & E1 & H).
    apply bind_done in H as (s2 & i2 & sep & E2 & H). apply bind_done in H as (s3 & i3 & nls & E3 & H). apply ret_done in H as (-> & -> & ->).
    apply sep_lf in E2 as [-> SP]. apply complete_done in E3. apply cons_state in E3. subst s3. apply keyval_fault in E1. exact E1.
  Qed.
  Lemma entries_fault : forall n s i s' r l, many_loop n (table_keyval_p_ pval) s i = Ok (s', Done r l) ->
    (forall s s', table_keyval_p_ pval s r = Ok (s', Error) -> s' = s) ->
    s'.(p_keychain) = s.(p_keychain) /\ s'.(p_atypes) = s.(p_atypes) /\
    gains s s' (fun e => exists tk, In tk l /\ fault tk.(tk_kv).(kv_key) tk.(tk_kv).(kv_val).(c_val) e).
  Proof.
    assert (ST : forall l, steady (fun e => exists tk, In tk l /\ fault tk.(tk_kv).(kv_key) tk.(tk_kv).(kv_val).(c_val) e)).
    { intros l e e' SE (tk & I & X). exists tk. split; auto. eapply fault_steady; eauto. }
    induction n; intros s i s' r l H F; [discriminate|]. cbn [many_loop] in H.
    assert (Z : s' = s -> s'.(p_keychain) = s.(p_keychain) /\ s'.(p_atypes) = s.(p_atypes) /\
      gains s s' (fun e => exists tk, In tk l /\ fault tk.(tk_kv).(kv_key) tk.(tk_kv).(kv_val).(c_val) e)).
    { intros ->. split; auto. split; auto. apply gains_none. auto. }
    destruct i as [|c i]; [apply Z; congruence|]. apply rbind_ok in H as ([s1 r1] & E & H). destruct r1 as [i1 a| |].
    - match type of H with (if ?b then _ else _) = _ => destruct b eqn:NB end.
      + exfalso. apply Nat.eqb_eq in NB. apply (reads_table_keyval pval RV) in E. apply (f_equal (@length N)) in E.
        unfold tk_src, tk_src_, sep_src in E. rewrite !app_length in E. change (length (lit "=")) with 1%nat in E. lia.
      + apply entry_fault in E as (K1 & T1 & G1). apply rbind_ok in H as ([s2 r2] & E2 & H). destruct r2; inversion H; subst.
        destruct (IHn _ _ _ _ _ E2 F) as (K2 & T2 & G2). split; [congruence|]. split; [congruence|]. eapply gains_trans; [apply ST| |].
        * eapply gains_impl; [|exact G1]. intros e X. exists a. split; [left|]; auto.
        * eapply gains_impl; [|exact G2]. intros e (tk & I & X). exists tk. split; [right|]; auto.
    - inversion H; subst. apply Z. eapply F; eauto.
    - discriminate.
  Qed.
  Lemma inline_gains : forall s i s' r t nm, inline_table_ pval s i = Ok (s', Done r t) ->
    s'.(p_keychain) = s.(p_keychain) /\ s'.(p_atypes) = s.(p_atypes) /\ gains s s' (fault nm t) /\ r <> i.
  Proof.
    intros s i s' r t nm E. pose proof (reads_inline pval RV _ _ _ _ _ E) as RD. unfold inline_table_ in E.
    apply bind_done in E as (s2 & i2 & u & E2 & E). apply bind_done in E as (s3 & i3 & w1 & E3 & E).
    apply bind_done in E as (s4 & i4 & kvs & E4 & E). apply bind_done in E as (s5 & i5 & w2 & E5 & E).
    apply bind_done in E as (s6 & i6 & u2 & E6 & E). apply ret_done in E as (-> & -> & ->).
    apply tag_done in E2 as (-> & -> & ->). apply tag_done in E6 as (-> & -> & ->).
    apply ws_blanks in E3 as (-> & -> & B1). apply ws_blanks in E5 as (-> & -> & B2).
    assert (HD : exists c x, w2 ++ lit "}" ++ i6 = c :: x /\ (c = 32 \/ c = 9 \/ c = 125)).
    { destruct w2 as [|c w2]; cbn [app]; [exists 125, i6; auto|]. inversion B2; subst. exists c, (w2 ++ lit "}" ++ i6). split; auto. lia. }
    destruct HD as (c & x & HD & C). rewrite HD in E4.
    assert (RN : i6 <> lit "{" ++ w1 ++ i3) by (rewrite RD; apply longer; discriminate).
    apply opt_done in E4 as [(l & -> & E4)|(-> & E & E4)].
    - apply complete_done in E4. unfold inline_table_keyvals_, many0 in E4. apply entries_fault in E4 as (K & T & G).
      + split; auto. split; auto. split; auto. eapply gains_impl; [|exact G]. intros e (tk & I & [A|(n2 & y & PT & A)]); right.
        * exists (kv_key (tk_kv tk)), (c_val (kv_val (tk_kv tk))). split; auto. eapply Part_entry; eauto.
        * exists n2, y. split; auto. eapply Part_inl; eauto.
      + intros s0 s0' X. rewrite tk_stop in X by auto. inversion X. reflexivity.
    - exfalso. subst. unfold complete, inline_table_keyvals_, many0 in E4. cbn [length many_loop] in E4. rewrite tk_stop in E4 by auto.
      cbn [rbind] in E4. discriminate.
  Qed.
End CauseVal.

Lemma pcell_state : forall A (p : P A) f s i s' r c, pcell p f s i = Ok (s', Done r c) ->
  exists s1 a, p s i = Ok (s1, Done r a) /\ c.(c_val) = f a /\ s'.(p_keychain) = s1.(p_keychain) /\ s'.(p_atypes) = s1.(p_atypes) /\ s'.(p_errors) = s1.(p_errors).
Proof.
  intros A p f s i s' r c H. unfold pcell in H. apply bind_done in H as (s1 & i1 & a & E & H). apply complete_done in E.
  apply act_done in H as (-> & H). inversion H; subst. exists s1, a. auto.
Qed.
Lemma vfault_val_ : forall p, vfault p -> reads p cell_src -> vfault (val_ p).
Proof.
  intros p PV RV. split.
  - intros s i s' r c kc k H K. unfold val_ in H. apply alt_done in H as [H|(s1 & E1 & H)].
    { apply pcell_state in H as (s1 & a & H & EC & EK & ET & EE). destruct (array_gains p PV RV _ _ _ _ _ _ _ H K) as (A1 & A2 & A3 & A4).
      rewrite EC. split; [congruence|]. split; [congruence|]. split; auto. eapply gains_eq; [| |exact A3]; auto. }
    apply alt_done in H as [H|(s2 & E2 & H)].
    { assert (s1 = s).
      { destruct i as [|x i]; [|destruct (N.eq_dec x 91)].
        - rewrite arr_err in E1 by exact I. inversion E1. auto.
        - exfalso. subst x. rewrite inl_err in H by (cbn; lia). discriminate.
        - rewrite arr_err in E1 by (cbn; auto). inversion E1. auto. }
      subst s1. apply pcell_state in H as (s1 & a & H & EC & EK & ET & EE). destruct (inline_gains p PV RV _ _ _ _ _ (key_name k) H) as (A1 & A2 & A3 & A4).
      rewrite EC. split; [congruence|]. split; [congruence|]. split; auto. eapply gains_eq; [| |exact A3]; auto. }
    apply holds_scalar in H as (L1 & L2 & G & R & O). assert (head_not 91 i /\ head_not 123 i) as [O1 O2].
    { destruct i; cbn in *; lia. }
    rewrite arr_err in E1 by auto. inversion E1; subst. rewrite inl_err in E2 by auto. inversion E2; subst. split; auto. split; auto. split; eauto.
  - intros s i s' r O1 O2 H. unfold val_ in H. unfold alt at 1 in H. rewrite arr_err in H by auto. cbn [rbind] in H.
    unfold alt at 1 in H. rewrite inl_err in H by auto. cbn [rbind] in H. apply holds_scalar in H. destruct r; tauto.
Qed.
Lemma vfault_val : forall f, vfault (val f).
Proof. induction f; [|apply vfault_val_; auto; apply reads_val]. split; discriminate. Qed.
Lemma vfault_val_p : vfault val_p.
Proof.
  split; intros *.
  - apply (proj1 (vfault_val _)).
  - apply (proj2 (vfault_val _)).
Qed.
Lemma reads_val_p : reads val_p cell_src.
Proof. intros s i s' r c. apply reads_val. Qed.

(** ** The date-times that are reported *)
Definition dates (s : pst) : list str := date_texts s.(p_errors).
Lemma dates_app : forall a b, date_texts (a ++ b) = date_texts a ++ date_texts b.
Proof. intros a b. unfold date_texts. rewrite map_app, concat_app. reflexivity. Qed.
Lemma dates_same : forall a b, Forall2 same_error a b -> date_texts a = date_texts b.
Proof.
  intros a b F. induction F as [|x y a b S F IH]; auto. unfold date_texts in *. cbn [map concat]. rewrite IH. f_equal.
  destruct S as [<-|(k & n & l & l' & -> & ->)]; auto.
Qed.
Lemma wrong_app : forall a x b y, wrong_dates a x -> wrong_dates b y -> wrong_dates (a ++ b) (x ++ y).
Proof. intros a x b y H. induction H; intros K; auto; cbn [app]; [apply Wd_good|apply Wd_wrong]; auto. Qed.
(** what a parser adds *)
Definition tells (s s' : pst) (ds : list datetime) : Prop := exists ts, dates s' = dates s ++ ts /\ wrong_dates ds ts.
Lemma tells_none : forall s s', dates s' = dates s -> tells s s' [].
Proof. intros s s' E. exists []. rewrite app_nil_r. split; auto. constructor. Qed.
Lemma tells_trans : forall a b c x y, tells a b x -> tells b c y -> tells a c (x ++ y).
Proof.
  intros a b c x y (t & E & W) (u & E2 & W2). exists (t ++ u). split; [rewrite E2, E, app_assoc; auto|]. apply wrong_app; auto.
Qed.
Lemma insert_dates : forall s c s', insert_keyval_into_map s c = Ok s' -> dates s' = dates s.
Proof.
  intros s c s' H. apply insert_effect in H as [(fk & v & ->)|(m & ->)]; auto. unfold dates. cbn [p_errors push_error set_errors].
  unfold vpush. rewrite dates_app. apply app_nil_r.
Qed.
Lemma keyval_dates : forall k sep v s s' kv, keyval_act k sep v s = Ok (s', kv) -> kv = KeyVal k sep v /\ dates s' = dates s.
Proof.
  intros k sep v s s' kv H. apply keyval_effect in H as [-> [(_ & e & X & ->)|(_ & s1 & I & ->)]]; (split; [auto|]).
  - destruct X as [->|(l & tk & n & kvs & k2 & x & E & ->)]; auto. unfold dates. cbn [p_errors pop_key set_keychain set_errors]. rewrite E, !dates_app. reflexivity.
  - apply insert_dates in I. exact I.
Qed.
Lemma mixed_dates : forall t s s', check_mixed t s = Ok s' -> dates s' = dates s.
Proof.
  intros t s s' H. unfold check_mixed in H. destruct (vlast (p_atypes s)); [|inversion H; auto].
  match type of H with (if ?b then _ else _) = _ => destruct b end; [|inversion H; auto].
  apply rbind_ok in H as ([[v fk] pk] & G & H).
  match type of H with Ok (if ?b then _ else _) = _ => destruct b end; inversion H; subst; auto.
  unfold dates. cbn [p_errors push_error set_errors]. unfold vpush. rewrite dates_app. apply app_nil_r.
Qed.
Lemma value_dates : forall v sep nls s s' a, array_value_act v sep nls s = Ok (s', a) -> a = ArrayValue v sep nls /\ dates s' = dates s.
Proof.
  intros v sep nls s s' a H. pose proof (array_value_act_same _ _ _ _ _ _ H) as ->. split; auto.
  unfold array_value_act in H. apply rbind_ok in H as (t & _ & H). apply rbind_ok in H as (s1 & M & H). apply rbind_ok in H as (s2 & I & H).
  apply mixed_dates in M. apply insert_dates in I. match type of H with match ?x with _ => _ end = _ => destruct x end; inversion H; subst.
  unfold dates in *. cbn [p_errors set_keychain set_atypes] in *. congruence.
Qed.
Definition vdates (p : P cell) : Prop := forall s i s' r c, p s i = Ok (s', Done r c) -> tells s s' (dates_in c.(c_val)).
Lemma loop_dates : forall A (p : P A) src f, reads p src -> (forall s i s' r a, p s i = Ok (s', Done r a) -> tells s s' (f a)) ->
  (forall s i s' r a, p s i = Ok (s', Done r a) -> src a <> []) ->
  forall n s i s' r l, many_loop n p s i = Ok (s', Done r l) -> (forall s s', p s r = Ok (s', Error) -> s' = s) ->
  tells s s' (concat (map f l)).
Proof.
  intros A p src f R T NE. induction n; intros s i s' r l H F; [discriminate|]. cbn [many_loop] in H.
  destruct i as [|c i]; [inversion H; subst; apply tells_none; auto|]. apply rbind_ok in H as ([s1 r1] & E & H). destruct r1 as [i1 a| |].
  - match type of H with (if ?b then _ else _) = _ => destruct b eqn:NB end.
    + exfalso. apply Nat.eqb_eq in NB. pose proof (NE _ _ _ _ _ E) as X. apply R in E. apply (f_equal (@length N)) in E. rewrite app_length in E.
      destruct (src a); [congruence|]. cbn [length] in *. lia.
    + apply rbind_ok in H as ([s2 r2] & E2 & H). destruct r2; inversion H; subst. cbn [map concat]. eapply tells_trans; [eapply T; eauto|eauto].
  - inversion H; subst. apply F in E. subst. apply tells_none. auto.
  - discriminate.
Qed.
Section DatesVal.
  Variable pval : P cell.
  Hypothesis PV : vfault pval.
  Hypothesis RV : reads pval cell_src.
  Hypothesis DV : vdates pval.
  Hypothesis NV : forall s i s' r c, pval s i = Ok (s', Done r c) -> r <> i.

  Lemma element_dates : forall s i s' r a, array_value_ pval s i = Ok (s', Done r a) -> tells s s' (dates_in a.(av_val).(c_val)) /\ av_src a <> [].
  Proof.
    intros s i s' r a H. unfold array_value_ in H. apply bind_done in H as (s1 & i1 & c & E1 & H).
    apply bind_done in H as (s2 & i2 & sep & E2 & H). apply bind_done in H as (s3 & i3 & nls & E3 & H).
    apply act_done in H as (-> & H).
    assert (s2 = s1) by (eapply (pure_state (opt (complete array_sep))); [pure_tac; apply pure_sep|exact E2]). subst s2.
    apply complete_done in E3. apply cons_state in E3. subst s3. apply value_dates in H as [-> H]. cbn [av_val]. split.
    - destruct (DV _ _ _ _ _ E1) as (ts & T & W). exists ts. rewrite H. auto.
    - pose proof (NV _ _ _ _ _ E1) as NE. apply RV in E1. unfold av_src, av_src_. cbn [av_val]. intros X. apply app_eq_nil in X as [X _]. unfold cell_src in E1. rewrite X in E1. cbn [app] in E1. congruence.
  Qed.
  Lemma array_dates : forall s i s' r t, array_ pval s i = Ok (s', Done r t) -> tells s s' (dates_in t).
  Proof.
    intros s i s' r t H.
    unfold array_ in H. apply rbind_ok in H as ([s1 r1] & E & H). inversion H; subst s' r1; clear H.
    unfold array_internal_ in E.
    apply bind_done in E as (s2 & i2 & u & E2 & E). apply bind_done in E as (s3 & i3 & n1 & E3 & E).
    apply bind_done in E as (s4 & i4 & vals & E4 & E). apply bind_done in E as (s5 & i5 & n2 & E5 & E).
    apply bind_done in E as (s6 & i6 & u2 & E6 & E). apply ret_done in E as (-> & -> & ->).
    apply cons_state in E3 as E3'. subst s3. apply cons_state in E5 as E5'. subst s5.
    apply tag_done in E2 as (-> & -> & ->). apply tag_done in E6 as (-> & -> & ->).
    assert (GH := gap_head _ _ _ _ _ E5 ltac:(unfold gap_chars; cbn; auto 8)).
    unfold array_values_, many0 in E4. cbn [dates_in].
    apply (loop_dates _ _ av_src (fun a => dates_in a.(av_val).(c_val)) (reads_array_value pval RV)) in E4.
    - exact E4.
    - intros. eapply element_dates; eauto.
    - intros s0 j0 s0' r0 a0 X. eapply element_dates; eauto.
    - intros s0 s0' X. unfold array_value_ in X. unfold bind at 1 in X. apply rbind_ok in X as ([s1 r1] & X1 & X).
      apply (stop_clean pval PV) in X1 as [X1 [-> | ->]]; [inversion X; subst; auto|inversion X|]. exact GH.
  Qed.
  Lemma keyval_tells : forall s i s' r kv, keyval_p_ pval s i = Ok (s', Done r kv) -> tells s s' (dates_in kv.(kv_val).(c_val)).
  Proof.
    intros s i s' r kv H. unfold keyval_p_ in H. apply bind_done in H as (s1 & i1 & k & E1 & H).
    apply bind_done in H as (s2 & i2 & sep & E2 & H). apply bind_done in H as (s3 & i3 & c & E3 & H).
    apply act_done in H as (-> & H). apply key_pushed in E1. subst s1.
    assert (s2 = push_key (KStr k) s) by (eapply (pure_state keyval_sep); [apply pure_kvsep|exact E2]). subst s2.
    apply keyval_dates in H as [-> H]. cbn [kv_val]. destruct (DV _ _ _ _ _ E3) as (ts & T & W). exists ts. rewrite H. auto.
  Qed.
  Lemma inline_dates : forall s i s' r t, inline_table_ pval s i = Ok (s', Done r t) -> tells s s' (dates_in t).
  Proof.
    intros s i s' r t E. unfold inline_table_ in E.
    apply bind_done in E as (s2 & i2 & u & E2 & E). apply bind_done in E as (s3 & i3 & w1 & E3 & E).
    apply bind_done in E as (s4 & i4 & kvs & E4 & E). apply bind_done in E as (s5 & i5 & w2 & E5 & E).
    apply bind_done in E as (s6 & i6 & u2 & E6 & E). apply ret_done in E as (-> & -> & ->).
    apply tag_done in E2 as (-> & -> & ->). apply tag_done in E6 as (-> & -> & ->).
    apply ws_blanks in E3 as (-> & -> & B1). apply ws_blanks in E5 as (-> & -> & B2).
    assert (HD : exists c x, w2 ++ lit "}" ++ i6 = c :: x /\ (c = 32 \/ c = 9 \/ c = 125)).
    { destruct w2 as [|c w2]; cbn [app]; [exists 125, i6; auto|]. inversion B2; subst. exists c, (w2 ++ lit "}" ++ i6). split; auto. lia. }
    destruct HD as (c & x & HD & C). rewrite HD in E4. cbn [dates_in].
    apply opt_done in E4 as [(l & -> & E4)|(-> & E & E4)].
    - apply complete_done in E4. unfold inline_table_keyvals_, many0 in E4.
      apply (loop_dates _ _ tk_src (fun k => dates_in k.(tk_kv).(kv_val).(c_val)) (reads_table_keyval pval RV)) in E4; auto.
      + intros s0 j0 s0' r0 tk H. unfold table_keyval_p_ in H. apply bind_done in H as (s1 & i1 & kv & E1 & H).
        apply bind_done in H as (s5 & i2 & sep & E5 & H). apply bind_done in H as (s6 & i5 & nls & E3 & H). apply ret_done in H as (-> & -> & ->).
        apply sep_lf in E5 as [-> SP]. apply complete_done in E3. apply cons_state in E3. subst s6. apply keyval_tells in E1. exact E1.
      + intros s0 j0 s0' r0 tk _ X. unfold tk_src, tk_src_, sep_src in X. apply app_eq_nil in X as [X _]. do 2 apply app_eq_nil in X as [_ X]. apply app_eq_nil in X as [X _]. discriminate.
      + intros s0 s0' X. rewrite tk_stop in X by auto. inversion X. reflexivity.
    - exfalso. subst. unfold complete, inline_table_keyvals_, many0 in E4. cbn [length many_loop] in E4. rewrite tk_stop in E4 by auto.
      cbn [rbind] in E4. discriminate.
  Qed.
End DatesVal.
Definition stells {A} (p : P A) (f : A -> tval) : Prop := forall s i s' r, p s i = Ok (s', r) ->
  match r with Done _ t => tells s s' (dates_in (f t)) | _ => s' = s end.
Lemma stells_pcell : forall A (p : P A) f, stells p f -> stells (pcell p f) c_val.
Proof.
  intros A p f H s i s' r E. unfold pcell, bind, complete in E. apply rbind_ok in E as ([s1 r1] & E1 & E).
  apply rbind_ok in E1 as ([s2 r2] & E1 & E2). inversion E2; subst. apply H in E1. destruct r2; inversion E; subst; auto.
Qed.
Lemma stells_alt : forall A (p q : P A) f, stells p f -> stells q f -> stells (alt p q) f.
Proof.
  intros A p q f H H2 s i s' r E. unfold alt in E. apply rbind_ok in E as ([s1 r1] & E1 & E). apply H in E1.
  destruct r1; [inversion E; subst; exact E1| |inversion E; subst; auto]. subst s1. apply H2 in E. exact E.
Qed.
Lemma stells_pure : forall A (p : P A) f, pure p -> (forall a, dates_in (f a) = []) -> stells p f.
Proof. intros A p f H D s i s' r E. apply (pure_state _ H) in E. subst. destruct r; auto. rewrite D. apply tells_none. auto. Qed.
Lemma stells_scalar : stells (alt (pcell date_time TDateTime)
    (alt (pcell float TFloat)
    (alt (pcell integer TInteger)
    (alt (pcell boolean TBoolean)
         (pcell string_p (fun v => v)))))) c_val.
Proof.
  repeat apply stells_alt; apply stells_pcell.
  - intros s i s' r E. unfold date_time in E. apply rbind_ok in E as ([s1 r1] & R1 & E).
    assert (s1 = s) by (eapply (pure_state date_time_internal); [apply pure_dti|exact R1]). subst s1.
    destruct r1 as [i1 d1| |]; [|inversion E; subst; auto..].
    apply dti_done in R1 as (_ & -> & DG). cbn [dates_in]. destruct (datetime_validate d1) eqn:V.
    + inversion E; subst. exists []. rewrite app_nil_r. split; auto. constructor; [|constructor]. split; auto. apply datetime_validate_digits; auto.
    + apply rbind_ok in E as ([[x fk] pk] & G & E). inversion E; subst. exists [datetime_src d1]. split.
      * unfold dates. cbn [p_errors push_error set_errors]. unfold vpush. rewrite dates_app. f_equal. unfold date_texts. cbn [map concat]. rewrite app_nil_r. f_equal.
        rewrite datetime_src_show, app_length. replace (length (show_datetime d1) + length i1 - length i1)%nat with (length (show_datetime d1)) by lia.
        rewrite firstn_app, Nat.sub_diag, firstn_all. cbn [firstn]. rewrite app_nil_r. reflexivity.
      * constructor; [|constructor]. intros GD. rewrite (proj2 (datetime_validate_digits d1 DG)) in V; [discriminate|]. apply GD.
  - apply stells_pure; [unfold float; pure_tac|auto].
  - apply stells_pure; [unfold integer; pure_tac|auto].
  - apply stells_pure; [unfold boolean; pure_tac|auto].
  - intros s i s' r E. pose proof E as E0. apply string_quiet in E. destruct r as [j t| |]; auto. destruct E as (_ & _ & E & _).
    assert (T : exists x st, t = TString x st).
    { unfold string_p in E0. repeat (apply alt_done in E0 as [E0|(? & _ & E0)]; [apply pmap_done in E0 as (? & _ & ->); eauto|]).
      apply pmap_done in E0 as (? & _ & ->); eauto. }
    destruct T as (x & st & ->). apply tells_none. unfold dates. rewrite E. auto.
Qed.
Lemma vdates_val_ : forall p, vfault p -> reads p cell_src -> vdates p -> (forall s i s' r c, p s i = Ok (s', Done r c) -> r <> i) -> vdates (val_ p).
Proof.
  intros p PV RV DV NV s i s' r c H. unfold val_ in H. apply alt_done in H as [H|(s1 & E1 & H)].
  { apply pcell_state in H as (s1 & a & H & EC & EK & ET & EE). apply (array_dates p PV RV DV NV) in H as (ts & T & W). exists ts. rewrite EC.
    unfold dates in *. rewrite EE. auto. }
  apply alt_done in H as [H|(s2 & E2 & H)].
  { assert (s1 = s).
    { destruct i as [|x i]; [|destruct (N.eq_dec x 91)].
      - rewrite arr_err in E1 by exact I. inversion E1. auto.
      - exfalso. subst x. rewrite inl_err in H by (cbn; lia). discriminate.
      - rewrite arr_err in E1 by (cbn; auto). inversion E1. auto. }
    subst s1. apply pcell_state in H as (s1 & a & H & EC & EK & ET & EE). apply (inline_dates p RV DV NV) in H as (ts & T & W). exists ts. rewrite EC.
    unfold dates in *. rewrite EE. auto. }
  pose proof H as H0. apply stells_scalar in H. apply holds_scalar in H0 as (L1 & L2 & G & R & O). assert (head_not 91 i /\ head_not 123 i) as [O1 O2].
  { destruct i; cbn in *; lia. }
  rewrite arr_err in E1 by auto. inversion E1; subst. rewrite inl_err in E2 by auto. inversion E2; subst. exact H.
Qed.
Lemma val_moves : forall f s i s' r c, val f s i = Ok (s', Done r c) -> r <> i.
Proof.
  assert (Z : forall (x y : str) c, x <> (c :: y) ++ x). { intros x y c X. apply (f_equal (@length N)) in X. rewrite app_length in X. cbn [length] in X. lia. }
  intros [|f] s i s' r c H; [discriminate|]. cbn [val] in H. unfold val_ in H. apply alt_done in H as [H|(s1 & E1 & H)].
  { apply pcell_state in H as (s1 & a & H & _). pose proof (reads_array _ (reads_val f) _ _ _ _ _ H) as ->.
    unfold array_ in H. apply rbind_ok in H as ([s2 r2] & H & E). inversion E; subst. clear E. unfold array_internal_ in H.
    do 5 (apply bind_done in H as (? & ? & ? & _ & H)). apply ret_done in H as (_ & _ & ->). apply Z. }
  apply alt_done in H as [H|(s2 & E2 & H)].
  { apply pcell_state in H as (s2 & a & H & _). pose proof (reads_inline _ (reads_val f) _ _ _ _ _ H) as ->. unfold inline_table_ in H.
    do 5 (apply bind_done in H as (? & ? & ? & _ & H)). apply ret_done in H as (_ & _ & ->). apply Z. }
  apply holds_scalar in H. tauto.
Qed.
Lemma vdates_val : forall f, vdates (val f).
Proof. induction f; [discriminate|]. apply vdates_val_; auto; [apply vfault_val|apply reads_val|apply val_moves]. Qed.

(** ** One expression *)
Lemma cause_steady : forall x, steady (cause x).
Proof. intros x e e' [->|(k & m & l & l' & -> & ->)] A; auto. Qed.
Lemma gains_errors : forall s s' Q, gains s s' Q -> exists old new, s'.(p_errors) = old ++ new /\ Forall2 same_error s.(p_errors) old /\ Forall Q new /\
  elines s' = elines s ++ map error_line new.
Proof.
  intros s s' Q (o & n & E & F & G). exists o, n. split; auto. split; auto. split; auto. unfold elines. rewrite E, map_app. f_equal.
  clear - F. induction F as [|a b la lb X F IH]; auto. cbn [map]. f_equal; auto. destruct X as [<-|(k & n & x & y & -> & ->)]; auto.
Qed.
Lemma header_gains : pres (fun s s' => gains s s' (fun e => exists k n l, e = EInvalidTable k n l)) table_p.
Proof.
  assert (ST : steady (fun e => exists k n l, e = EInvalidTable k n l)).
  { intros e e' [->|(k & m & l & l' & -> & ->)] A; eauto. }
  apply (pres_table (fun s s' => gains s s' (fun e => exists k n l, e = EInvalidTable k n l))).
  all: try (intros; apply gains_none; reflexivity).
  - intros a b c. apply gains_trans. exact ST.
  - intros w1 w2 k l s s' t H. apply std_table_effect in H as [_ [(kc & ts & ti & tk & ->)|(kc & ts & ti & m & ->)]].
    + eapply gains_push; [reflexivity|eauto].
    + apply gains_none. reflexivity.
  - intros w1 w2 k l s s' t H. apply array_table_effect in H as [_ [(kc & ts & ti & m & tk & ->)|(kc & ts & ti & m & ->)]].
    + eapply gains_push; [reflexivity|eauto].
    + apply gains_none. reflexivity.
Qed.
Lemma key_heads : forall s i s' r k, key_p s i = Ok (s', Done r k) -> head_not 91 i.
Proof.
  intros s i s' r k H. pose proof H as H0. apply key_text in H as [-> NT]. destruct NT as [[NE B]|(x & _ & ->)].
  - destruct k as [|c k]; [congruence|]. inversion B; subst. cbn. unfold bare_char in *. lia.
  - cbn. lia.
Qed.
Lemma table_not : forall s i s' r w j, ws s i = Ok (s, Done j w) -> head_not 91 j -> table_comment s i = Ok (s', r) -> s' = s.
Proof.
  intros s i s' r w j W HN H. unfold table_comment in H. unfold bind at 1 in H. rewrite W in H. cbn [rbind] in H.
  unfold bind at 1 in H. apply rbind_ok in H as ([s2 r2] & E2 & H).
  assert (X : s2 = s /\ forall a b, r2 <> Done a b).
  { assert (T : forall A t (f : P A), (t = lit "[" \/ t = lit "[[") -> forall q, (tag t ;;; f) s j = Ok q -> fst q = s /\ forall a b, snd q <> Done a b).
    { intros A t f HT q Q. unfold bind in Q. apply rbind_ok in Q as ([s3 r3] & E3 & Q).
      assert (s3 = s) by (eapply (pure_state (tag t)); [pure_tac|exact E3]). subst s3. destruct r3; [|inversion Q; subst; split; auto; discriminate..].
      exfalso. apply tag_done in E3 as (_ & -> & E3). subst j. destruct HT as [-> | ->]; exact (HN eq_refl). }
    unfold table_p, alt in E2. apply rbind_ok in E2 as ([s3 r3] & E3 & E2). unfold complete in E3. apply rbind_ok in E3 as ([s4 r4] & E4 & E3).
    unfold array_table in E4. apply T in E4 as [X ND]; auto. cbn in X. subst s4. cbn [snd] in ND.
    destruct r4; [destruct (ND rest a eq_refl)| |]; inversion E3; subst.
    all: unfold complete in E2; apply rbind_ok in E2 as ([s5 r5] & E5 & E2); unfold std_table in E5; apply T in E5 as [X ND5]; auto; cbn in X; subst s5; cbn [snd] in ND5;
      (destruct r5 as [j5 a5| |]; [destruct (ND5 j5 a5 eq_refl)| |]); inversion E2; subst; split; auto; discriminate. }
  destruct X as [-> ND]. destruct r2 as [j2 a2| |]; [destruct (ND j2 a2 eq_refl)|inversion H; auto..].
Qed.
Lemma busy_gains : forall s i s' r e, expression_p s i = Ok (s', Done r e) -> ~ idle e -> gains s s' (cause e).
Proof.
  intros s i s' r e H NI. unfold expression_p in H. apply alt_done in H as [H|(s1 & E1 & H)].
  - apply complete_done in H. unfold table_comment in H.
    apply bind_done in H as (s1 & i1 & w1 & E1 & H). apply bind_done in H as (s2 & i2 & t & E2 & H).
    apply bind_done in H as (s3 & i3 & w2 & E3 & H). apply bind_done in H as (s4 & i4 & c & E4 & H). apply ret_done in H as (-> & _ & ->).
    apply ws_blanks in E1 as (-> & _ & _). apply ws_blanks in E3 as (-> & _ & _).
    assert (s4 = s2) by (eapply (pure_state (opt (complete comment))); [unfold comment; pure_tac|exact E4]). subst s4.
    apply header_gains in E2. eapply gains_impl; [|exact E2]. intros x (k & n & l & ->). cbn [cause e_table]. eauto.
  - apply alt_done in H as [H|(s2 & E2 & H)].
    + apply complete_done in H. unfold keyval_comment in H.
      apply bind_done in H as (s2 & i1 & w1 & W1 & H). apply bind_done in H as (s3 & i2 & kv & E2 & H).
      apply bind_done in H as (s4 & i3 & w2 & E3 & H). apply bind_done in H as (s5 & i4 & c & E4 & H). apply ret_done in H as (-> & -> & ->).
      assert (HN : head_not 91 i1). { unfold keyval_p, keyval_p_ in E2. apply bind_done in E2 as (? & ? & ? & E2 & _). eapply key_heads; eauto. }
      assert (s1 = s).
      { unfold complete in E1. apply rbind_ok in E1 as ([s6 r6] & E6 & E1). assert (s6 = s). { eapply table_not; [|exact HN|exact E6]. rewrite ws_eq in W1 |- *. inversion W1. reflexivity. }
        inversion E1. congruence. }
      subst s1. apply ws_blanks in W1 as (-> & _ & _). apply ws_blanks in E3 as (-> & _ & _).
      assert (s5 = s3) by (eapply (pure_state (opt (complete comment))); [unfold comment; pure_tac|exact E4]). subst s5.
      unfold keyval_p in E2. apply (keyval_fault val_p vfault_val_p) in E2 as (_ & _ & G). eapply gains_impl; [|exact G].
      intros x F. unfold cause. destruct x; cbn [e_keyval]; eauto. exfalso. destruct F as [[]|(n & y & _ & [])].
    + exfalso. apply NI. apply alt_done in H as [H|(s3 & E3 & H)]; apply complete_done in H; [unfold ws_comment in H|unfold ws_expr in H].
      * apply bind_done in H as (s3 & i1 & w & W & H). apply bind_done in H as (s4 & i2 & c & E3 & H).
        apply ret_done in H as (_ & _ & ->). split; reflexivity.
      * apply bind_done in H as (s4 & i1 & w & W & H). apply ret_done in H as (_ & _ & ->). split; reflexivity.
Qed.
Lemma gains_dates : forall s s' Q, gains s s' Q -> (forall e, Q e -> date_texts [e] = []) -> dates s' = dates s.
Proof.
  intros s s' Q (o & n & E & F & G) Z. assert (N0 : date_texts n = []).
  { clear E. induction G as [|e n X G IH]; auto. change (e :: n) with ([e] ++ n). rewrite dates_app, Z, IH; auto. }
  unfold dates. rewrite E, dates_app, <- (dates_same _ _ F), N0. apply app_nil_r.
Qed.
Lemma busy_tells : forall s i s' r e, expression_p s i = Ok (s', Done r e) -> ~ idle e -> tells s s' (dates_of e).
Proof.
  intros s i s' r e H NI. unfold expression_p in H. apply alt_done in H as [H|(s1 & E1 & H)].
  - apply complete_done in H. unfold table_comment in H.
    apply bind_done in H as (s1 & i1 & w1 & E1 & H). apply bind_done in H as (s2 & i2 & t & E2 & H).
    apply bind_done in H as (s3 & i3 & w2 & E3 & H). apply bind_done in H as (s4 & i4 & c & E4 & H). apply ret_done in H as (-> & _ & ->).
    apply ws_blanks in E1 as (-> & _ & _). apply ws_blanks in E3 as (-> & _ & _).
    assert (s4 = s2) by (eapply (pure_state (opt (complete comment))); [unfold comment; pure_tac|exact E4]). subst s4.
    apply header_gains in E2. apply tells_none. eapply gains_dates; [exact E2|]. intros x (k & n & l & ->). reflexivity.
  - apply alt_done in H as [H|(s2 & E2 & H)].
    + apply complete_done in H. unfold keyval_comment in H.
      apply bind_done in H as (s2 & i1 & w1 & W1 & H). apply bind_done in H as (s3 & i2 & kv & E2 & H).
      apply bind_done in H as (s4 & i3 & w2 & E3 & H). apply bind_done in H as (s5 & i4 & c & E4 & H). apply ret_done in H as (-> & -> & ->).
      assert (HN : head_not 91 i1). { unfold keyval_p, keyval_p_ in E2. apply bind_done in E2 as (? & ? & ? & E2 & _). eapply key_heads; eauto. }
      assert (s1 = s).
      { unfold complete in E1. apply rbind_ok in E1 as ([s6 r6] & E6 & E1). assert (s6 = s). { eapply table_not; [|exact HN|exact E6]. rewrite ws_eq in W1 |- *. inversion W1. reflexivity. }
        inversion E1. congruence. }
      subst s1. apply ws_blanks in W1 as (-> & _ & _). apply ws_blanks in E3 as (-> & _ & _).
      assert (s5 = s3) by (eapply (pure_state (opt (complete comment))); [unfold comment; pure_tac|exact E4]). subst s5.
      unfold keyval_p in E2. cbn [dates_of e_keyval]. apply (keyval_tells val_p) in E2; auto. intros s0 i0 s' r c0 V. eapply vdates_val; exact V.
    + exfalso. apply NI. apply alt_done in H as [H|(s3 & E3 & H)]; apply complete_done in H; [unfold ws_comment in H|unfold ws_expr in H].
      * apply bind_done in H as (s3 & i1 & w & W & H). apply bind_done in H as (s4 & i2 & c & E3 & H).
        apply ret_done in H as (_ & _ & ->). split; reflexivity.
      * apply bind_done in H as (s4 & i1 & w & W & H). apply ret_done in H as (_ & _ & ->). split; reflexivity.
Qed.

(** ** A document *)
Lemma blamed_same : forall d n es es', Forall2 same_error es es' -> blamed n d es -> blamed n d es'.
Proof.
  induction d as [|x d IH]; intros n es es' F H; cbn [blamed] in *; [subst; inversion F; auto|].
  destruct H as (here & later & -> & FH & W & B). apply Forall2_app_inv_l in F as (h & l & F1 & F2 & ->). exists h, l. split; auto.
  split; [|split; [rewrite <- (dates_same _ _ F1); auto|eapply IH; eauto]]. eapply steady_all; [|exact F1|exact FH].
  intros e e' SE (L & C). split; [|eapply cause_steady; eauto]. destruct SE as [<-|(k & m & y & z & -> & ->)]; auto.
Qed.
(** the errors after [s] of expressions [d], from line [n] on, with the rest [r] *)
Definition shared (n : N) (s s' : pst) (d : toml) (r : str) : Prop :=
  exists old here rest, s'.(p_errors) = old ++ here ++ rest /\ Forall2 same_error s.(p_errors) old /\ blamed n d here /\
    Forall (fun e => end_line n d <= error_line e) rest /\ (r = [] -> rest = []).
Lemma expr_shared : forall s i s' r e nl n, expression_p s i = Ok (s', Done r e) -> s.(p_line) = n + line_feeds nl ->
  shared n s s' [{| ne_nl := nl; ne_expr := e |}] r /\ (void_head r -> exists old here, s'.(p_errors) = old ++ here /\
    Forall2 same_error s.(p_errors) old /\ blamed n [{| ne_nl := nl; ne_expr := e |}] here).
Proof.
  intros s i s' r e nl n H L. destruct (expr_spread _ _ _ _ _ nl n H L) as (new & A & SP & V).
  assert (D : idle e \/ ~ idle e). { unfold idle. destruct (e_keyval e), (e_table e); [right; intros []; congruence..|left; auto]. }
  destruct D as [D|D].
  - destruct (idle_step _ _ _ _ _ H D) as (C & U & VS).
    destruct (grow_expression _ _ _ _ H) as (old & add & E & F).
    assert (F' : Forall2 same_error (p_errors s) old).
    { clear - F. induction F as [|a b la lb Q F IH]; constructor; auto. destruct Q as [<-|(k & n & x & y & -> & -> & _)]; [left; auto|right; eauto 8]. }
    assert (BN : blamed n [{| ne_nl := nl; ne_expr := e |}] []). { cbn [blamed]. exists [], []. repeat split; auto. destruct D as [D _]. unfold dates_of. cbn [ne_expr]. rewrite D. constructor. }
    split.
    + exists old, [], add. split; auto. split; auto. split; auto.
      assert (EL : map error_line add = new).
      { destruct A as (_ & A2 & _). unfold elines in A2. rewrite E, map_app in A2. replace (map error_line old) with (map error_line (p_errors s)) in A2; [apply app_inv_head in A2; auto|].
        clear - F'. induction F' as [|a b la lb Q F IH]; auto. cbn [map]. f_equal; auto. destruct Q as [<-|(k & n & x & y & -> & ->)]; auto. }
      split.
      * destruct A as (_ & _ & A3 & _). rewrite <- EL in A3. cbn [end_line ne_nl ne_expr]. rewrite C. clear - A3 L. induction add; constructor; inversion A3; subst; auto. lia.
      * intros ->. destruct (V I) as [_ NN]. rewrite (NN D) in EL. destruct add; [auto|discriminate].
    + intros VH. rewrite (VS VH). exists (p_errors s), []. rewrite app_nil_r. split; auto. split; auto. apply same_all_refl.
  - pose proof (busy_gains _ _ _ _ _ H D) as G. apply gains_errors in G as (old & here & E & F & Q & EL).
    pose proof (busy_lines _ _ _ _ _ H D) as B. destruct A as (A1 & A2 & FA & _).
    assert (EN : s'.(p_line) = n + line_feeds nl + counted e) by (unfold counted; fold (expr_lines e); lia).
    assert (new = map error_line here). { rewrite EL in A2. apply app_inv_head in A2. auto. }
    assert (BH : blamed n [{| ne_nl := nl; ne_expr := e |}] here).
    { cbn [blamed ne_nl ne_expr]. exists here, []. rewrite app_nil_r. split; auto. split; [|split; [|auto]].
      2:{ destruct (busy_tells _ _ _ _ _ H D) as (ts & TS & W). unfold dates in TS. rewrite E, dates_app, <- (dates_same _ _ F) in TS.
          apply app_inv_head in TS. rewrite TS. exact W. }
      subst new. clear - FA Q EN L.
      induction here; constructor; inversion FA; inversion Q; subst; auto. split; auto. lia. }
    split; [|intros _; eauto]. exists old, here, []. rewrite app_nil_r. repeat split; auto.
Qed.
Lemma shared_cons : forall s s1 s2 n nl e r l r', shared n s s1 [{| ne_nl := nl; ne_expr := e |}] r ->
  (void_head r -> exists old here, s1.(p_errors) = old ++ here /\ Forall2 same_error s.(p_errors) old /\ blamed n [{| ne_nl := nl; ne_expr := e |}] here) ->
  (void_head r -> s1.(p_line) = n + line_feeds nl + counted e) ->
  shared s1.(p_line) s1 s2 l r' -> (void_head r \/ r = r' /\ l = [] /\ s2 = s1) ->
  shared n s s2 ({| ne_nl := nl; ne_expr := e |} :: l) r'.
Proof.
  intros s s1 s2 n nl e r l r' S1 V LV S2 [VH|(-> & -> & ->)]; [|exact S1].
  destruct (V VH) as (old & here & E & F & B). destruct S2 as (o2 & h2 & rest & E2 & F2 & B2 & EL & R). rewrite (LV VH) in *.
  rewrite E in F2. apply Forall2_app_inv_l in F2 as (x & y & FX & FY & ->). exists x, (y ++ h2), rest.
  split; [rewrite E2, <- !app_assoc; auto|]. split; [eapply same_all_trans; eauto|]. apply (blamed_same _ _ _ _ FY) in B.
  cbn [blamed ne_nl ne_expr end_line] in *. split; auto. destruct B as (h & z & -> & FH & W & ->). rewrite app_nil_r. exists h, h2. auto.
Qed.
Lemma loop_shared : forall n s i s' r l, many_loop n nl_expression_p s i = Ok (s', Done r l) ->
  shared s.(p_line) s s' l r /\ (void_head i \/ i = r /\ l = [] /\ s' = s).
Proof.
  induction n; intros s i s' r l H; [discriminate|]. cbn [many_loop] in H.
  assert (Z : forall s i, shared s.(p_line) s s [] i /\ (void_head i \/ i = i /\ @nil nl_expression = [] /\ s = s)).
  { intros s0 i0. split; [|right; auto]. exists s0.(p_errors), [], []. rewrite app_nil_r. split; auto. split; [apply same_all_refl|]. repeat split; auto. }
  destruct i as [|c i]; [inversion H; subst; apply Z|].
  apply rbind_ok in H as ([s1 r1] & E & H). unfold nl_expression_p in E at 1. unfold bind at 1 in E.
  apply rbind_ok in E as ([s2 r2] & E2 & E). pose proof (newline_quiet _ _ _ _ E2) as C2.
  destruct r2 as [i2 nl| |]; [|inversion E; subst; inversion H; subst; apply Z|inversion E; subst; inversion H].
  destruct C2 as (VH & L2 & EQ2). apply newline_short in E2. unfold bind at 1 in E. apply rbind_ok in E as ([s3 r3] & E3 & E).
  destruct (expression_done _ _ _ _ E3) as (i3 & e & ->). inversion E; subst. clear E. pose proof (reads_expression _ _ _ _ _ E3) as RE.
  match type of H with (if ?b then _ else _) = _ => destruct b eqn:NB end.
  { exfalso. apply Nat.eqb_eq in NB. subst i2. rewrite app_length in E2. lia. }
  apply rbind_ok in H as ([s4 r4] & E4 & H). destruct r4; inversion H; subst. apply IHn in E4 as (SH & D2).
  destruct (expr_shared _ _ _ _ _ nl (p_line s) E3 L2) as (S1 & V). destruct (expr_spread _ _ _ _ _ nl (p_line s) E3 L2) as (new & _ & _ & VL).
  split; auto. assert (X : shared (p_line s) s2 s' ({| ne_nl := nl; ne_expr := e |} :: a) r).
  { eapply shared_cons; eauto. intros VH3. apply (VL VH3). }
  destruct X as (o & h & rest & X1 & X2 & X3). exists o, h, rest. rewrite <- EQ2. auto.
Qed.
Lemma toml_shared : forall s i s' r t, toml_p s i = Ok (s', Done r t) -> shared s.(p_line) s s' t r.
Proof.
  intros s i s' r t T. unfold toml_p in T. apply bind_done in T as (s2 & i1 & e & E1 & T). apply bind_done in T as (s3 & i2 & l & E2 & T).
  apply ret_done in T as (-> & -> & ->). apply loop_shared in E2 as (S2 & D2).
  destruct (expr_shared _ _ _ _ _ [] (p_line s) E1) as (S1 & V); [cbn; lia|]. destruct (expr_spread _ _ _ _ _ [] (p_line s) E1) as (new & _ & _ & VL); [cbn; lia|].
  eapply shared_cons; eauto. intros VH3. apply (VL VH3).
Qed.

Lemma errors_have_causes : forall p i s r, parse p i = Ok (s, r) ->
  exists old here rest, s.(p_errors) = old ++ here ++ rest /\ Forall2 same_error p.(p_errors) old /\ listed r = s.(p_errors) /\
    blamed p.(p_line) s.(p_root) here /\ Forall (fun e => end_line p.(p_line) s.(p_root) <= error_line e) rest /\ (s.(p_leftover) = [] -> rest = []).
Proof.
  intros p i s r H. destruct (parse_inv _ _ _ _ H) as (s1 & rest & t & T & EI & -> & L).
  cbn [p_root p_leftover p_errors set_leftover set_root] in *. destruct (toml_shared _ _ _ _ _ T) as (old & here & left & X & F & B & E & R).
  exists old, here, left. repeat (split; [assumption|]). split; [subst r; destruct rest, (p_errors s1); auto|]. auto.
Qed.

(** ** The keys of the map stay *)
Definition stays (m m' : vmap) : Prop := forall k, hget k m <> None -> hget k m' <> None.
Lemma stays_put : forall (m : vmap) k v, stays m (hput k v m).
Proof.
  intros m k v x E. destruct (str_eqb x k) eqn:Q; [apply str_eqb_eq in Q; subst; rewrite hget_hput_same; discriminate|].
  rewrite hget_hput_other; auto. intros ->. rewrite str_eqb_refl in Q. discriminate.
Qed.
Lemma stays_refl : forall m, stays m m.
Proof. intros m k E. exact E. Qed.
Lemma stays_trans : forall a b c, stays a b -> stays b c -> stays a c.
Proof. intros a b c X Y k E. auto. Qed.
Lemma stays_ait : forall ks m first k m', ait_loop m ks first k = Ok m' -> stays m m'.
Proof.
  induction ks as [|x ks IH]; intros m first k m' H; cbn [ait_loop] in H; [inversion H; subst; apply stays_refl|].
  apply rbind_ok in H as ([[m1 ins] f1] & E & H).
  assert (S1 : stays m m1).
  { destruct (hget k m) as [hv|]; [|inversion E; apply stays_refl]. destruct (hv_subkeys hv) as [c|l].
    - destruct first; [|discriminate]. inversion E; subst. apply stays_put.
    - destruct (vinsert l (wk_key x)). inversion E; subst. apply stays_put. }
  destruct ks as [|y ks]; [inversion H; subst; auto|]. apply IH in H. eapply stays_trans; [exact S1|]. eapply stays_trans; [|exact H].
  destruct ins; [apply stays_put|apply stays_refl].
Qed.
Lemma stays_implicit : forall ovf m ts ti t m', add_implicit_tables ovf m ts ti t = Ok m' -> stays m m'.
Proof.
  intros ovf m ts ti t m' H. unfold add_implicit_tables in H. apply rbind_ok in H as ([[v lk] pk] & _ & H).
  destruct (negb v); [inversion H; apply stays_refl|]. destruct (vlast ts); eapply stays_ait; exact H.
Qed.
Lemma stays_increment : forall m ts ti m' ti', increment_array_table_index m ts ti = Ok (m', ti') -> stays m m'.
Proof.
  intros m ts ti m' ti' H. unfold increment_array_table_index in H. apply rbind_ok in H as (pk & _ & H). destruct (vlast ti); inversion H; subst.
  destruct (hget pk m) as [hv|]; [|apply stays_refl]. destruct (hv_subkeys hv); [apply stays_put|apply stays_refl].
Qed.
Lemma stays_set : forall m ts ti k m', add_to_table_set m ts ti k = Ok m' -> stays m m'.
Proof.
  intros m ts ti k m' H. unfold add_to_table_set in H. apply rbind_ok in H as (pk & _ & H).
  destruct (hget pk m) as [hv|]; [|inversion H; apply stays_refl]. destruct (hv_subkeys hv); inversion H; subst; [apply stays_refl|apply stays_put].
Qed.
Lemma stays_std : forall w1 w2 k l s s' t, std_table_act w1 w2 k l s = Ok (s', t) -> stays s.(p_map) s'.(p_map).
Proof.
  intros w1 w2 k l s s' t H. unfold std_table_act in H. apply rbind_ok in H as (s1 & K & H).
  unfold keychain_drop in K. destruct (Nat.ltb _ _); [discriminate|].
  match type of K with Ok (set_keychain ?c _) = _ => set (kc := c) in K; clearbody kc end. inversion K; subst; clear K.
  match type of H with (let '(_, _) := ?x in _) = _ => destruct x as [ts ti] end.
  match type of H with (let '(_, _) := ?x in _) = _ => destruct x as [ts2 ti2] end.
  apply rbind_ok in H as ([[e tk] pk] & _ & H). destruct e.
  - apply rbind_ok in H as ([[x y] z] & _ & H). inversion H; subst. apply stays_refl.
  - apply rbind_ok in H as (m & M1 & H). apply rbind_ok in H as (m2 & M2 & H).
    unfold new_cell in H. apply rbind_ok in H as (m3 & M3 & H). inversion H; subst. cbn [p_map set_last_table set_array_error set_map].
    apply stays_implicit in M1. apply stays_set in M2. cbn [p_map set_keychain] in M1.
    eapply stays_trans; [exact M1|]. eapply stays_trans; [exact M2|].
    match type of M3 with match hget pk ?x with _ => _ end = _ => set (m4 := x) in M3; assert (S4 : stays m2 m4) by (subst m4; destruct (hget tk m2); apply stays_put) end.
    eapply stays_trans; [exact S4|]. clearbody m4. destruct (hget pk m4) as [hv|]; [|inversion M3; apply stays_refl].
    destruct (hv_subkeys hv); inversion M3; subst. apply stays_put.
Qed.
Lemma stays_arr : forall w1 w2 k l s s' t, array_table_act w1 w2 k l s = Ok (s', t) -> stays s.(p_map) s'.(p_map).
Proof.
  intros w1 w2 k l s s' t H. unfold array_table_act in H. apply rbind_ok in H as (s1 & K & H).
  unfold keychain_drop in K. destruct (Nat.ltb _ _); [discriminate|].
  match type of K with Ok (set_keychain ?c _) = _ => set (kc := c) in K; clearbody kc end. inversion K; subst; clear K.
  match type of H with (let '(_, _) := ?x in _) = _ => destruct x as [ts ti] end.
  apply rbind_ok in H as ([[m ts2] ti2] & M & H). cbn [p_map set_array_error set_keychain] in M.
  assert (S1 : stays (p_map s) m).
  { destruct (vlast ts) as [lt|].
    - match type of M with (if ?b then _ else _) = _ => destruct b end.
      { apply rbind_ok in M as ([m1 t1] & M1 & M). inversion M; subst. eapply stays_increment; eauto. }
      match type of M with (if ?b then _ else _) = _ => destruct b end.
      { apply rbind_ok in M as (m1 & M1 & M). inversion M; subst. eapply stays_implicit; eauto. }
      match type of M with (let (_, _) := ?x in _) = _ => destruct x as [a b] end. destruct (rev a) as [|x y].
      + apply rbind_ok in M as (m1 & M1 & M). apply stays_implicit in M1. apply rbind_ok in M as (pk & _ & M).
        match type of M with (if ?b then _ else _) = _ => destruct b end; [|inversion M; subst; auto].
        apply rbind_ok in M as ([m3 t3] & M3 & M). inversion M; subst. apply stays_increment in M3. eapply stays_trans; eauto.
      + apply rbind_ok in M as ([m1 t1] & M1 & M). inversion M; subst. eapply stays_increment; eauto.
    - apply rbind_ok in M as (m1 & M1 & M). inversion M; subst. eapply stays_implicit; eauto. }
  apply rbind_ok in H as ([[v fk] pk] & _ & H). destruct v; inversion H; subst; cbn [p_map set_last_table set_map push_error set_errors]; auto.
  eapply stays_trans; [exact S1|]. eapply stays_trans; [|apply stays_put]. destruct (hmem pk m); [apply stays_refl|apply stays_put].
Qed.
Lemma stays_update : forall m pk kc m', update_parent m pk kc = Ok m' -> stays m m'.
Proof.
  intros m pk kc m' H. unfold update_parent in H. destruct (hget pk m) as [hv|].
  - destruct (hv_subkeys hv); [inversion H; subst; apply stays_put|]. destruct (vlast kc) as [[|]|]; inversion H; subst; [apply stays_put|apply stays_refl].
  - destruct (vlast kc) as [[|]|]; inversion H; subst; apply stays_put.
Qed.

(** a key that is newly reported as repeated is in the map *)
Definition known (s s' : pst) : Prop := stays s.(p_map) s'.(p_map) /\
  forall k n v, In (EDuplicateKey k n v) s'.(p_errors) -> In (EDuplicateKey k n v) s.(p_errors) \/ hget k s'.(p_map) <> None.
Lemma known_refl : forall s s', s'.(p_map) = s.(p_map) -> s'.(p_errors) = s.(p_errors) -> known s s'.
Proof. intros s s' M E. split; [rewrite M; apply stays_refl|rewrite E; auto]. Qed.
Lemma known_trans : forall a b c, known a b -> known b c -> known a c.
Proof.
  intros a b c [S1 D1] [S2 D2]. split; [eapply stays_trans; eauto|]. intros k n v I. destruct (D2 _ _ _ I) as [J|J]; auto.
  destruct (D1 _ _ _ J) as [X|X]; auto.
Qed.
Lemma known_push : forall s s' e, stays s.(p_map) s'.(p_map) -> s'.(p_errors) = vpush s.(p_errors) e ->
  (forall k n v, e <> EDuplicateKey k n v) -> known s s'.
Proof.
  intros s s' e M E N. split; auto. intros k n v I. rewrite E in I. unfold vpush in I. apply in_app_or in I as [I|[I|[]]]; auto. destruct (N _ _ _ I).
Qed.
Lemma known_insert : forall s c s', insert_keyval_into_map s c = Ok s' -> known s s'.
Proof.
  intros s c s' H. unfold insert_keyval_into_map in H. apply rbind_ok in H as ([fk pk] & _ & H).
  assert (M : forall hv, (let? m := update_parent (hput fk hv s.(p_map)) pk s.(p_keychain) in Ok (set_map m s)) = Ok s' -> known s s').
  { intros hv X. apply rbind_ok in X as (m' & U & X). inversion X; subst. split; [|auto]. cbn [p_map set_map].
    eapply stays_trans; [apply stays_put|eapply stays_update; eauto]. }
  destruct (hget fk (p_map s)) as [[[c0|] sub]|] eqn:G; [|eapply M; eauto..].
  apply rbind_ok in H as (v & V & H). inversion H; subst. split; [apply stays_refl|]. intros k n x I.
  cbn [p_errors push_error set_errors p_map] in *. unfold vpush in I. apply in_app_or in I as [I|[I|[]]]; auto. inversion I; subst. right. rewrite G. discriminate.
Qed.
Lemma known_ext : forall s e, s.(p_array_error) = true -> last_ext s.(p_errors) e -> known s (set_errors e s).
Proof.
  intros s e _ (l & tk & line & kvs & k & x & E & ->). split; [apply stays_refl|]. intros k0 n v I. cbn [p_errors set_errors] in I.
  rewrite E. apply in_app_or in I as [I|[I|[]]]; [|discriminate]. left. apply in_or_app. auto.
Qed.
Lemma known_toml : pres known toml_p.
Proof.
  apply (pres_toml known); try (intros; apply known_refl; reflexivity).
  all: try (intros; eapply known_push; [apply stays_refl|reflexivity|discriminate]).
  - exact known_trans.
  - exact known_insert.
  - exact known_ext.
  - intros w1 w2 k l s s' t H. pose proof (stays_std _ _ _ _ _ _ _ H) as ST. apply std_table_effect in H as [_ [(kc & ts & ti & tk & ->)|(kc & ts & ti & m & ->)]].
    + eapply known_push; [exact ST|reflexivity|discriminate].
    + split; auto.
  - intros w1 w2 k l s s' t H. pose proof (stays_arr _ _ _ _ _ _ _ H) as ST. apply array_table_effect in H as [_ [(kc & ts & ti & m & tk & ->)|(kc & ts & ti & m & ->)]].
    + eapply known_push; [exact ST|reflexivity|discriminate].
    + split; auto.
Qed.
Lemma keys_stay : forall p i s r k, parse p i = Ok (s, r) -> get_children p k <> None -> get_children s k <> None.
Proof.
  intros p i s r k H G. destruct (parse_inv _ _ _ _ H) as (s1 & rest & t & T & EI & -> & L). apply known_toml in T as [S _].
  unfold get_children in *. cbn [p_map set_leftover set_root] in *. set (k' := match k with [] => root_key | _ => k end) in *. specialize (S k').
  destruct (hget k' (p_map p)); [|congruence]. destruct (hget k' (p_map s1)); [discriminate|]. exfalso. apply S; [discriminate|auto].
Qed.
Lemma repeated_known : forall p i s r k n v, parse p i = Ok (s, r) -> In (EDuplicateKey k n v) s.(p_errors) ->
  In (EDuplicateKey k n v) p.(p_errors) \/ exists hv, hget k s.(p_map) = Some hv.
Proof.
  intros p i s r k n v H I. destruct (parse_inv _ _ _ _ H) as (s1 & rest & t & T & EI & -> & L). apply known_toml in T as [_ D].
  cbn [p_map p_errors set_leftover set_root] in *. destruct (D _ _ _ I) as [X|X]; auto. right. destruct (hget k (p_map s1)); [eauto|congruence].
Qed.
Lemma blamed_in : forall d n es e, blamed n d es -> In e es -> exists x, In x d /\ cause x.(ne_expr) e.
Proof.
  induction d as [|x d IH]; intros n es e B I; cbn [blamed] in B; [subst; destruct I|].
  destruct B as (here & later & -> & F & _ & B). apply in_app_or in I as [I|I].
  - rewrite Forall_forall in F. apply F in I as [_ I]. exists x. split; [left|]; auto.
  - destruct (IH _ _ _ B I) as (y & J & C). exists y. split; [right|]; auto.
Qed.
Lemma full_causes : forall ovf i s l e, parse (new_parser ovf) i = Ok (s, FullError l) -> In e l -> exists x, In x s.(p_root) /\ cause x.(ne_expr) e.
Proof.
  intros ovf i s l e H I. destruct (errors_have_causes _ _ _ _ H) as (old & here & rest & E & F & L & B & _ & R).
  cbn [listed] in L. inversion F; subst old. cbn [app] in E.
  assert (rest = []). { apply R. destruct (parse_inv _ _ _ _ H) as (s1 & left & t & _ & _ & -> & X). cbn [p_leftover set_leftover]. destruct left; auto. exfalso. match type of X with _ = match ?y with _ => _ end => destruct y end; discriminate. }
  subst rest. rewrite app_nil_r in E. eapply blamed_in; [exact B|]. rewrite <- E, <- L. exact I.
Qed.

(** ** Each date-time that does not exist is reported once *)
Lemma blamed_dates : forall d n es, blamed n d es -> wrong_dates (doc_dates d) (date_texts es).
Proof.
  induction d as [|x d IH]; intros n es B; cbn [blamed] in B; [subst; constructor|]. destruct B as (h & l & -> & _ & W & B).
  rewrite dates_app. unfold doc_dates. cbn [map concat]. apply wrong_app; auto. eapply IH; eauto.
Qed.
Lemma dates_once : forall p i s r, parse p i = Ok (s, r) ->
  exists ts rest, date_texts s.(p_errors) = date_texts p.(p_errors) ++ ts ++ rest /\ wrong_dates (doc_dates s.(p_root)) ts /\
    (s.(p_leftover) = [] -> rest = []).
Proof.
  intros p i s r H. destruct (errors_have_causes _ _ _ _ H) as (old & here & rest & E & F & _ & B & _ & R).
  exists (date_texts here), (date_texts rest). rewrite E, !dates_app, (dates_same _ _ F). split; auto.
  split; [eapply blamed_dates; eauto|]. intros L. rewrite R; auto.
Qed.
Lemma wrong_none : forall ds ts, wrong_dates ds ts -> (ts = [] <-> Forall good_datetime ds).
Proof.
  intros ds ts W. induction W; [split; auto| |].
  - rewrite IHW. split; intros F; [auto|inversion F; auto].
  - split; [discriminate|]. intros F. inversion F; subst. tauto.
Qed.
Lemma dates_full : forall ovf i s r, parse (new_parser ovf) i = Ok (s, r) -> s.(p_leftover) = [] ->
  wrong_dates (doc_dates s.(p_root)) (date_texts s.(p_errors)) /\
  (date_texts s.(p_errors) = [] <-> Forall good_datetime (doc_dates s.(p_root))).
Proof.
  intros ovf i s r H L. destruct (dates_once _ _ _ _ H) as (ts & rest & E & W & R). rewrite (R L), app_nil_r in E. change (date_texts (p_errors (new_parser ovf))) with (@nil str) in E.
  cbn [app] in E. rewrite E. split; auto. apply wrong_none. auto.
Qed.
