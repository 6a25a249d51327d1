(** The date-time parser reads exactly the printed date-times. *)
From Coq Require Import Lia ZifyBool ZifyNat ZifyN.
From Verif Require Import Str Regex Types Ast State Nom Keys Grammar Api Facts Spec.
From Verif Require Import RegexFacts NomFacts TypesFacts.

Lemma digits_cls : forall m, Forall (fun c => in_ranges c [(48,57)] = true) m <-> digits m.
Proof.
  intros. unfold digits. split; intros H; eapply Forall_impl; try apply H;
    intros c Hc; cbn [in_ranges] in *; unfold digit in *; lia.
Qed.

Lemma d_ok : forall w x s r, field w x ->
  re_find (RRep w (RCls [(48,57)])) s (x ++ r) = Ok (s, Done r x).
Proof.
  intros w x s r [D L]. apply re_find_ok. apply re_match_rm; auto.
  rewrite rm_rep_cls; auto. apply digits_cls; auto.
Qed.

Lemma d_done : forall w s i s' r x, re_find (RRep w (RCls [(48,57)])) s i = Ok (s', Done r x) ->
  s' = s /\ i = x ++ r /\ field w x.
Proof.
  intros. apply re_find_done in H as (-> & -> & L). apply lang_rep_cls in L as [F L].
  split; auto. split; auto. split; auto. apply digits_cls; auto.
Qed.

Lemma date_p_ok : forall d s r, date_digits d -> date_p s (show_date d ++ r) = Ok (s, Done r d).
Proof.
  intros [y m d] s r (Hy & Hm & Hd). unfold date_p, show_date, re_d4, re_d2 in *.
  cbn [d_year d_month d_day] in *.
  rewrite <- !app_assoc. erewrite bind_ok by (apply d_ok; auto).
  erewrite bind_ok by apply tag_ok. erewrite bind_ok by (apply d_ok; auto).
  erewrite bind_ok by apply tag_ok. erewrite bind_ok by (apply d_ok; auto). reflexivity.
Qed.

Lemma date_p_done : forall s i s' r d, date_p s i = Ok (s', Done r d) ->
  s' = s /\ i = show_date d ++ r /\ date_digits d.
Proof.
  unfold date_p, re_d4, re_d2. intros.
  apply bind_done in H as (s1 & i1 & y & H1 & H). apply d_done in H1 as (-> & -> & Fy).
  apply bind_done in H as (s1 & i2 & t & H1 & H). apply tag_done in H1 as (-> & -> & ->).
  apply bind_done in H as (s1 & i1 & m & H1 & H). apply d_done in H1 as (-> & -> & Fm).
  apply bind_done in H as (s1 & i2 & t & H1 & H). apply tag_done in H1 as (-> & -> & ->).
  apply bind_done in H as (s1 & i1 & dd & H1 & H). apply d_done in H1 as (-> & -> & Fd).
  apply ret_done in H as (-> & -> & ->). split; auto. split.
  - unfold show_date; cbn [d_year d_month d_day]. rewrite <- !app_assoc. auto.
  - split; auto.
Qed.

(** a text that cannot continue a date-time *)
Definition dt_stop (r : str) : Prop :=
  match r with
  | [] => True
  | c :: _ => ~ digit c /\ c <> 43 /\ c <> 45 /\ c <> 46 /\ c <> 84 /\ c <> 90
  end.

Lemma fractional_ok : forall f s r, digits f -> f <> [] ->
  match r with [] => True | c :: _ => ~ digit c end ->
  fractional s (46 :: f ++ r) = Ok (s, Done r f).
Proof.
  intros. unfold fractional. erewrite pmap_ok with (a := 46 :: f); [reflexivity|].
  change (46 :: f ++ r) with ((46 :: f) ++ r). apply re_find_ok. apply re_match_rm; auto.
  unfold re_fractional.
  change (rm (RPlus (RCls [(48,57)])) (f ++ r) (fun s' => Some s') = Some r).
  rewrite rm_plus_cls; auto; try congruence.
  - apply digits_cls; auto.
  - destruct r; auto. cbn [in_ranges]. unfold digit in H1. lia.
Qed.

Lemma fractional_err : forall s r, (forall r', r <> 46 :: r') -> fractional s r = Ok (s, Error).
Proof.
  intros. unfold fractional. apply pmap_err. apply re_find_err. unfold re_match, re_fractional.
  destruct r as [|c r]; auto. cbn [rm RChr].
  assert (in_ranges c [(46,46)] = false) as E.
  { cbn [in_ranges]. destruct (N.eq_dec c 46); [subst; exfalso; eapply H; eauto|]. lia. }
  unfold RChr. cbn [rm]. rewrite E. auto.
Qed.

Lemma fractional_done : forall s i s' r f, fractional s i = Ok (s', Done r f) ->
  s' = s /\ i = 46 :: f ++ r /\ digits f /\ f <> [].
Proof.
  unfold fractional. intros. apply pmap_done in H as (a & H & ->).
  apply re_find_done in H as (-> & -> & L). unfold re_fractional in L.
  apply lang_seq in L as (x & y & -> & L1 & L2). apply lang_chr in L1. subst x.
  apply lang_plus_cls in L2 as [F N]. split; auto. split; auto. split; auto. apply digits_cls; auto.
Qed.

Lemma toa_p_ok : forall a s r, field 2 a.(toa_hour) -> field 2 a.(toa_minute) ->
  time_offset_amount_p s (show_toa a ++ r) = Ok (s, Done r a).
Proof.
  intros [p h m] s r Hh Hm. unfold time_offset_amount_p, show_toa, re_d2 in *.
  cbn [toa_pn toa_hour toa_minute] in *.
  rewrite <- !app_assoc.
  assert (E : alt (complete (tag (lit "+"))) (complete (tag (lit "-"))) s
            (show_pos_neg p ++ h ++ lit ":" ++ m ++ r) =
            Ok (s, Done (h ++ lit ":" ++ m ++ r) (show_pos_neg p))).
  { destruct p; unfold show_pos_neg.
    - apply alt_ok. apply ctag_ok.
    - erewrite alt_err; [apply ctag_ok|]. apply ctag_fail. reflexivity. }
  erewrite bind_ok by apply E. erewrite bind_ok by (apply d_ok; auto).
  erewrite bind_ok by apply tag_ok. erewrite bind_ok by (apply d_ok; auto).
  unfold ret, toa_new_str. destruct p; reflexivity.
Qed.

Lemma toa_p_done : forall s i s' r a, time_offset_amount_p s i = Ok (s', Done r a) ->
  s' = s /\ i = show_toa a ++ r /\ field 2 a.(toa_hour) /\ field 2 a.(toa_minute).
Proof.
  unfold time_offset_amount_p, re_d2. intros.
  apply bind_done in H as (s1 & i1 & pn & H1 & H).
  assert (s1 = s /\ exists p, pn = show_pos_neg p /\ i = pn ++ i1) as (-> & p & -> & ->).
  { apply alt_done in H1 as [H1|(s2 & H1 & H2)].
    - pinv. split; auto. exists Pos. auto.
    - apply complete_done in H2. apply tag_done in H2 as (-> & -> & ->).
      apply complete_error in H1. unfold tag in H1.
      assert (s2 = s) by (destruct H1 as [H1|H1]; inversion H1; auto). subst.
      split; auto. exists Neg. auto. }
  apply bind_done in H as (s1 & i2 & h & H2 & H). apply d_done in H2 as (-> & -> & Fy).
  apply bind_done in H as (s1 & i1 & t & H2 & H). apply tag_done in H2 as (-> & -> & ->).
  apply bind_done in H as (s1 & i2 & m & H2 & H). apply d_done in H2 as (-> & -> & Fm).
  apply ret_done in H as (-> & -> & ->).
  split; auto. split.
  - unfold show_toa, toa_new_str; cbn [toa_pn toa_hour toa_minute]. rewrite <- !app_assoc.
    f_equal. destruct p; reflexivity.
  - auto.
Qed.

Lemma to_p_ok : forall o s r, offset_digits o ->
  time_offset_p s (show_time_offset o ++ r) = Ok (s, Done r o).
Proof.
  intros [|a] s r H; unfold time_offset_p, show_time_offset.
  - apply alt_ok. erewrite pmap_ok by apply ctag_ok. auto.
  - destruct H as [H1 H2]. erewrite alt_err.
    + erewrite pmap_ok; [|apply complete_ok, toa_p_ok; auto]. auto.
    + apply pmap_err. apply ctag_fail. destruct a as [[|] h m]; reflexivity.
Qed.

Lemma ctag_error_state : forall t s i s1, complete (tag t) s i = Ok (s1, Error) -> s1 = s.
Proof.
  intros. apply complete_error in H. unfold tag in H. destruct H as [H|H]; inversion H; auto.
Qed.

Lemma pmap_error : forall {A B} (p : P A) (f : A -> B) s i s1,
  pmap p f s i = Ok (s1, Error) -> p s i = Ok (s1, Error).
Proof.
  unfold pmap, bind. intros. apply rbind_ok in H as ([s2 r] & H1 & H2).
  destruct r; inversion H2; subst; auto.
Qed.

Lemma to_p_done : forall s i s' r o, time_offset_p s i = Ok (s', Done r o) ->
  s' = s /\ i = show_time_offset o ++ r /\ offset_digits o.
Proof.
  unfold time_offset_p. intros. apply alt_done in H as [H|(s1 & H1 & H)].
  - pinv. simpl. auto.
  - apply pmap_error in H1. apply ctag_error_state in H1. subst s1.
    apply pmap_done in H as (a & H & ->). apply complete_done in H.
    apply toa_p_done in H as (-> & -> & F1 & F2). simpl. auto.
Qed.

Lemma re_find_state : forall re s i s' r, re_find re s i = Ok (s', r) -> s' = s.
Proof. unfold re_find. intros. inversion H; auto. Qed.
Lemma tag_state : forall t s i s' r, tag t s i = Ok (s', r) -> s' = s.
Proof. unfold tag. intros. inversion H; auto. Qed.

(** parsers that never touch the state *)
Definition pure {A} (p : P A) : Prop := forall s i, exists r, p s i = Ok (s, r).

Lemma pure_re_find : forall r, pure (re_find r).
Proof. intros r s i. unfold re_find. eauto. Qed.
Lemma pure_tag : forall t, pure (tag t).
Proof. intros t s i. unfold tag. eauto. Qed.
Lemma pure_ret : forall {A} (x : A), pure (ret x).
Proof. intros A x s i. unfold ret. eauto. Qed.
Lemma pure_bind : forall {A B} (p : P A) (f : A -> P B), pure p -> (forall a, pure (f a)) ->
  pure (bind p f).
Proof.
  intros A B p f H1 H2 s i. unfold bind. destruct (H1 s i) as [r E]. rewrite E. simpl.
  destruct r; eauto. apply H2.
Qed.
Lemma pure_pmap : forall {A B} (p : P A) (f : A -> B), pure p -> pure (pmap p f).
Proof. intros. apply pure_bind; auto. intros. apply pure_ret. Qed.
Lemma pure_complete : forall {A} (p : P A), pure p -> pure (complete p).
Proof. intros A p H s i. unfold complete. destruct (H s i) as [r E]. rewrite E. simpl. eauto. Qed.
Lemma pure_opt : forall {A} (p : P A), pure p -> pure (opt p).
Proof. intros A p H s i. unfold opt. destruct (H s i) as [r E]. rewrite E. simpl. eauto. Qed.
Lemma pure_alt : forall {A} (p q : P A), pure p -> pure q -> pure (alt p q).
Proof.
  intros A p q H1 H2 s i. unfold alt. destruct (H1 s i) as [r E]. rewrite E. simpl.
  destruct r; eauto.
Qed.
Lemma pure_take_while : forall f, pure (take_while f).
Proof. intros f s i. unfold take_while. destruct (span f i). eauto. Qed.
Lemma pure_take_while1 : forall f, pure (take_while1 f).
Proof. intros f s i. unfold take_while1. destruct (span f i). eauto. Qed.
#[export] Hint Resolve pure_re_find pure_tag pure_ret pure_bind pure_pmap pure_complete pure_opt
  pure_alt pure_take_while pure_take_while1 : pure.

Lemma pure_state : forall {A} (p : P A), pure p -> forall s i s' r, p s i = Ok (s', r) -> s' = s.
Proof. intros A p H s i s' r E. destruct (H s i) as [r' E']. congruence. Qed.

Ltac pure_tac := repeat (intros; first [apply pure_bind | apply pure_alt | apply pure_opt |
  apply pure_complete | apply pure_pmap | apply pure_re_find | apply pure_tag | apply pure_ret |
  apply pure_take_while | apply pure_take_while1]).

Lemma pure_fractional : pure fractional.
Proof. unfold fractional. pure_tac. Qed.
Lemma pure_toa_p : pure time_offset_amount_p.
Proof. unfold time_offset_amount_p. pure_tac. Qed.
Lemma pure_to_p : pure time_offset_p.
Proof. unfold time_offset_p. pure_tac. Qed.
Lemma pure_time_p : pure time_p.
Proof. unfold time_p. pure_tac. Qed.
Lemma pure_date_p : pure date_p.
Proof. unfold date_p. pure_tac. Qed.
Lemma pure_dti : pure date_time_internal.
Proof. unfold date_time_internal. pure_tac. Qed.

(** no offset starts here *)
Lemma to_p_err : forall s r,
  match r with [] => True | c :: _ => c <> 43 /\ c <> 45 /\ c <> 90 end ->
  time_offset_p s r = Ok (s, Error).
Proof.
  intros. unfold time_offset_p.
  assert (E1 : forall c, c = 43 \/ c = 45 \/ c = 90 -> starts_with [c] r = false).
  { intros c Hc. destruct r; simpl; auto. destruct (c =? n) eqn:E; auto. lia. }
  erewrite alt_err.
  2:{ apply pmap_err. apply ctag_fail. apply (E1 90). auto. }
  apply pmap_err. apply complete_err. left. unfold time_offset_amount_p.
  apply bind_err. erewrite alt_err.
  - apply ctag_fail. apply (E1 45). auto.
  - apply ctag_fail. apply (E1 43). auto.
Qed.

Definition tail_stop (f : option str) (o : option time_offset) (r : str) : Prop :=
  match o with None => dt_stop r | Some _ => True end.

Lemma show_offset_head : forall o, exists c x, show_time_offset o = c :: x /\ (c = 43 \/ c = 45 \/ c = 90).
Proof.
  destruct o as [|[[|] h m]]; unfold show_time_offset, show_toa, show_pos_neg;
    cbn [toa_pn toa_hour toa_minute lit app]; do 2 eexists; (split; [reflexivity|]); vm_compute; auto.
Qed.

Lemma frac_opt_ok : forall f s r, match f with Some f => digits f /\ f <> [] | None => True end ->
  match r with [] => True | c :: _ => ~ digit c /\ c <> 46 end ->
  opt (complete fractional) s (match f with Some f => 46 :: f | None => [] end ++ r)
  = Ok (s, Done r f).
Proof.
  intros [f|] s r H H1.
  - destruct H. apply opt_ok. apply complete_ok. simpl. apply fractional_ok; auto.
    destruct r; tauto.
  - simpl. apply opt_err. apply complete_err. left. apply fractional_err.
    intros r' ->. tauto.
Qed.

Lemma offset_opt_ok : forall o s r, match o with Some o => offset_digits o | None => True end ->
  match o with None => dt_stop r | Some _ => True end ->
  opt (complete time_offset_p) s (match o with Some o => show_time_offset o | None => [] end ++ r)
  = Ok (s, Done r o).
Proof.
  intros [o|] s r H H1.
  - apply opt_ok. apply complete_ok. apply to_p_ok; auto.
  - simpl. apply opt_err. apply complete_err. left. apply to_p_err.
    destruct r; auto. simpl in H1. tauto.
Qed.

Lemma show_time_split : forall t, show_time t =
  lit "T" ++ t.(t_hour) ++ lit ":" ++ t.(t_minute) ++ lit ":" ++ t.(t_second) ++
  match t.(t_fraction) with Some f => 46 :: f | None => [] end ++
  match t.(t_offset) with Some o => show_time_offset o | None => [] end.
Proof.
  intros [h m s [f|] [o|]]; unfold show_time; cbn [t_hour t_minute t_second t_fraction t_offset];
    rewrite ?app_nil_r; try reflexivity.
Qed.

Lemma time_p_ok : forall t s r, time_digits t ->
  match t.(t_offset) with None => dt_stop r | Some _ => True end ->
  time_p s (show_time t ++ r) = Ok (s, Done r t).
Proof.
  intros t s r (Hh & Hm & Hs & Hf & Ho) Hr. rewrite show_time_split. rewrite <- !app_assoc.
  unfold time_p, re_d2.
  erewrite bind_ok by apply tag_ok. erewrite bind_ok by (apply d_ok; auto).
  erewrite bind_ok by apply tag_ok. erewrite bind_ok by (apply d_ok; auto).
  erewrite bind_ok by apply tag_ok. erewrite bind_ok by (apply d_ok; auto).
  erewrite bind_ok.
  2:{ apply frac_opt_ok; auto. destruct (t_offset t) as [o|].
      - destruct (show_offset_head o) as (c & x & -> & Hc). simpl. unfold digit. lia.
      - simpl. destruct r; auto. simpl in Hr. tauto. }
  erewrite bind_ok by (apply offset_opt_ok; auto).
  unfold ret. destruct t; reflexivity.
Qed.

Lemma time_p_done : forall s i s' r t, time_p s i = Ok (s', Done r t) ->
  s' = s /\ i = show_time t ++ r /\ time_digits t.
Proof.
  intros s i s' r t H. assert (s' = s) by (eapply pure_state; [apply pure_time_p|eauto]). subst.
  split; auto. unfold time_p, re_d2 in H.
  apply bind_done in H as (s1 & i1 & x & H1 & H). apply tag_done in H1 as (-> & -> & ->).
  apply bind_done in H as (s1 & i2 & h & H2 & H). apply d_done in H2 as (-> & -> & Fh).
  apply bind_done in H as (s1 & i1 & x & H1 & H). apply tag_done in H1 as (-> & -> & ->).
  apply bind_done in H as (s1 & i2 & m & H2 & H). apply d_done in H2 as (-> & -> & Fm).
  apply bind_done in H as (s1 & i1 & x & H1 & H). apply tag_done in H1 as (-> & -> & ->).
  apply bind_done in H as (s1 & i2 & sec & H2 & H). apply d_done in H2 as (-> & -> & Fs).
  apply bind_done in H as (s1 & i1 & f & Hf & H). apply bind_done in H as (s2 & i3 & o & Ho & H).
  apply ret_done in H as (-> & -> & ->). rewrite show_time_split.
  cbn [t_hour t_minute t_second t_fraction t_offset]. rewrite <- !app_assoc.
  assert (i2 = match f with Some f => 46 :: f | None => [] end ++ i1 /\
          match f with Some f => digits f /\ f <> [] | None => True end) as [-> F].
  { apply opt_done in Hf as [(f' & -> & Hf)|(-> & -> & _)]; auto.
    apply complete_done in Hf. apply fractional_done in Hf as (-> & -> & D & N). auto. }
  assert (i1 = match o with Some o => show_time_offset o | None => [] end ++ i3 /\
          match o with Some o => offset_digits o | None => True end) as [-> O].
  { apply opt_done in Ho as [(o' & -> & Ho)|(-> & -> & _)]; auto.
    apply complete_done in Ho. apply to_p_done in Ho as (-> & -> & D). auto. }
  split; auto. split; auto. 
Qed.

Lemma time_p_err : forall s r, (forall r', r <> 84 :: r') ->
  complete time_p s r = Ok (s, Error).
Proof.
  intros. apply complete_err. unfold time_p.
  assert (starts_with (lit "T") r = false).
  { destruct r as [|c r]; auto. change (starts_with (lit "T") (c :: r)) with ((84 =? c) && true).
    destruct (N.eqb_spec 84 c); auto. subst. exfalso. eapply H; eauto. }
  destruct (tag_fail (lit "T") s r H0) as [E|E].
  - left. apply bind_err; auto.
  - right. apply bind_inc; auto.
Qed.

Lemma dti_ok : forall d s r, datetime_digits d -> dt_stop r ->
  date_time_internal s (show_datetime d ++ r) = Ok (s, Done r d).
Proof.
  intros [d t] s r [Hd Ht] Hr. unfold date_time_internal, show_datetime; cbn [dt_date dt_time] in *.
  destruct t as [t|].
  - rewrite <- app_assoc. erewrite bind_ok by (apply date_p_ok; auto).
    erewrite bind_ok.
    2:{ apply opt_ok. apply complete_ok. apply time_p_ok; auto. destruct (t_offset t); auto. }
    reflexivity.
  - erewrite bind_ok by (apply date_p_ok; auto).
    erewrite bind_ok.
    2:{ apply opt_err. apply time_p_err. intros r' ->. simpl in Hr. tauto. }
    reflexivity.
Qed.

Lemma dti_done : forall s i s' r d, date_time_internal s i = Ok (s', Done r d) ->
  s' = s /\ i = show_datetime d ++ r /\ datetime_digits d.
Proof.
  unfold date_time_internal. intros. apply bind_done in H as (s1 & i1 & dd & H1 & H).
  apply date_p_done in H1 as (-> & -> & F). apply bind_done in H as (s1 & i2 & t & H2 & H).
  apply ret_done in H as (-> & -> & ->). apply opt_done in H2 as [(t' & -> & H2)|(-> & -> & H2)].
  - apply complete_done in H2. apply time_p_done in H2 as (-> & -> & T).
    unfold show_datetime; cbn [dt_date dt_time]. rewrite <- app_assoc. split; auto.
    split; auto. split; auto.
  - apply (pure_state _ (pure_complete _ pure_time_p)) in H2. subst.
    split; auto. split; auto. split; auto. exact I.
Qed.

Lemma date_time_ok : forall d s r, datetime_digits d -> datetime_validate d = true -> dt_stop r ->
  date_time s (show_datetime d ++ r) = Ok (s, Done r d).
Proof. intros. unfold date_time. rewrite dti_ok by auto. simpl. rewrite H0. auto. Qed.

(** ** datetime_parse *)

Lemma datetime_parse_sound : forall s v, datetime_parse s = Ok (Some v) ->
  show_value v = Ok s /\ validate v = true.
Proof.
  unfold datetime_parse. intros s v H. apply rbind_ok in H as ([s1 r] & H1 & H).
  destruct r as [[|c rest] o| |]; try discriminate. inversion H as [E]. clear H.
  unfold checked in E. destruct (validate (VDateTime o)) eqn:V; [|discriminate]. inversion E; subst.
  split; auto. simpl. f_equal. unfold date_time in H1. apply rbind_ok in H1 as ([s2 r2] & H2 & H1).
  destruct r2; try discriminate. simpl in V. apply dti_done in H2 as (-> & -> & D).
  destruct (datetime_validate a) eqn:V2.
  - inversion H1; subst. symmetry; apply app_nil_r.
  - apply rbind_ok in H1 as ([[? ?] ?] & _ & H1). inversion H1; subst. congruence.
Qed.

Lemma datetime_parse_show : forall d, datetime_digits d -> datetime_validate d = true ->
  datetime_parse (show_datetime d) = Ok (Some (VDateTime d)).
Proof.
  intros. unfold datetime_parse. rewrite <- (app_nil_r (show_datetime d)).
  rewrite date_time_ok; auto.
  - cbn [rbind]. unfold checked. cbn [validate]. rewrite H0. auto.
  - exact I.
Qed.

(** validity of digit date-times *)
Lemma datetime_validate_digits : forall d, datetime_digits d ->
  (datetime_validate d = true <->
   datetime_real d /\
   match d.(dt_time) with
   | Some t => match t.(t_fraction) with Some f => number f <= 18446744073709551615 | None => True end
   | None => True end).
Proof.
  intros [[y m d] t] [(Hy & Hm & Hd) Ht]. cbn [dt_date dt_time d_year d_month d_day] in *.
  unfold datetime_validate, datetime_real; cbn [dt_date dt_time d_year d_month d_day].
  assert (ED := date_validate_iff y m d).
  rewrite !loose_number_digits in ED by (apply Hy || apply Hm || apply Hd).
  assert (LF := fun w s => field_loose w s).
  destruct t as [[h mi s f o]|].
  - destruct Ht as (Hh & Hmi & Hs & Hf & Ho).
    cbn [t_hour t_minute t_second t_fraction t_offset] in *.
    assert (ET := time_validate_iff h mi s f o).
    rewrite !loose_number_digits in ET by (apply Hh || apply Hmi || apply Hs).
    assert (EF : fraction_ok f <-> match f with Some f => number f <= 18446744073709551615 | None => True end).
    { destruct f as [f|]; [|simpl; tauto]. destruct Hf as [Hf1 Hf2]. unfold fraction_ok.
      rewrite uint_digits by auto. unfold u64_max. destruct (N.leb_spec (number f) 18446744073709551615).
      - split; auto. congruence.
      - split; [congruence|lia]. }
    assert (EO : match o with Some o => offset_ok o | None => True end <->
                 match o with Some (OffTime a) => real_offset (number a.(toa_hour)) (number a.(toa_minute))
                 | _ => True end).
    { destruct o as [[|a]|]; simpl; try tauto. destruct Ho as [H1 H2].
      rewrite !loose_number_digits by (apply H1 || apply H2). pose proof (LF _ _ H1). pose proof (LF _ _ H2). tauto. }
    pose proof (LF _ _ Hy). pose proof (LF _ _ Hm). pose proof (LF _ _ Hd).
    pose proof (LF _ _ Hh). pose proof (LF _ _ Hmi). pose proof (LF _ _ Hs).
    destruct (date_validate _) eqn:V.
    + split; intros G.
      * split; [|tauto]. split; [tauto|]. tauto.
      * tauto.
    + split; intros G; [discriminate|]. exfalso. assert (false = true) by tauto. discriminate.
  - pose proof (LF _ _ Hy). pose proof (LF _ _ Hm). pose proof (LF _ _ Hd).
    destruct (date_validate _) eqn:V.
    + tauto.
    + split; intros G; [discriminate|]. assert (false = true) by tauto. discriminate.
Qed.
