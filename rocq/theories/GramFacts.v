(** Every text accepted by the parsers belongs to the grammar of GramSpec. *)
From Coq Require Import Lia ZifyBool ZifyNat ZifyN.
From Verif Require Import Str Regex Types Ast State Nom Keys Grammar Api Facts Spec DocSpec GramSpec.
From Verif Require Import RegexFacts NomFacts TypesFacts DateFacts CtorFacts NumFacts StringFacts ScalarFacts LineFacts.
From Verif Require Import RoundTrip ParseFacts PathFacts SafeFacts.

Lemma own_app : forall a b, own_digits (a ++ b) <-> own_digits a /\ own_digits b.
Proof. intros. unfold own_digits. apply Forall_app. Qed.

Lemma in_ranges_ex : forall c l, in_ranges c l = true -> exists a b, In (a, b) l /\ a <= c <= b.
Proof.
  induction l as [|[a b] l IH]; cbn [in_ranges]; intros H; [discriminate|]. apply orb_true_iff in H as [H|H].
  - exists a, b. split; [left; auto|lia].
  - destruct (IH H) as (x & y & I & L). exists x, y. split; [right; auto|auto].
Qed.

(** ** The characters of the words of an expression *)
Fixpoint letters (r : re) (c : N) : bool :=
  match r with
  | REps => false
  | RCls l => in_ranges c l
  | RSeq a b | RAlt a b => letters a c || letters b c
  | RStar _ a => letters a c
  end.
Lemma lang_letters : forall r m, lang r m -> Forall (fun c => letters r c = true) m.
Proof.
  intros r m L. induction L; cbn [letters]; try (constructor; auto; fail).
  - apply Forall_app. split; eapply Forall_impl; try eassumption; intros c H; cbv beta in *; rewrite H; auto using orb_true_r.
  - eapply Forall_impl; try eassumption; intros c H; cbv beta in *; rewrite H; auto.
  - eapply Forall_impl; try eassumption; intros c H; cbv beta in *; rewrite H; auto using orb_true_r.
  - apply Forall_app. split; auto.
Qed.

Lemma ascii_of : forall r m, (forall c, letters r c = true -> nd c = true \/ c < 128) -> lang r m -> own_digits m -> ascii m.
Proof.
  intros r m R L O. apply lang_letters in L. unfold ascii. rewrite Forall_forall in *. intros c I.
  destruct (R c (L c I)) as [H|H]; auto. unfold own_digits in O. rewrite Forall_forall in O.
  specialize (O c I (in_ranges_ex _ _ H)). unfold digit in O. lia.
Qed.
Ltac letters_tac :=
  intros c H; unfold re_integer, re_float, r_frac, r_exp, r_intpart, r_sign, r_dig, RAlts, RPlus, ROpt, RChr, RDigit in H;
  cbn [letters RAlts] in H; fold (nd c) in H;
  repeat match type of H with _ || _ = true => apply orb_true_iff in H as [H|H] end; try (left; exact H); try discriminate;
  right; cbn [in_ranges] in H; lia.
Lemma int_text : forall m, own_digits m -> lang re_integer m -> toml_int m.
Proof. intros m O L. apply lang_integer; auto. eapply ascii_of; eauto. letters_tac. Qed.
Lemma float_text : forall m, own_digits m -> lang re_float m -> toml_float m.
Proof. intros m O L. apply lang_float; auto. eapply ascii_of; eauto. letters_tac. Qed.

(** ** Reading with a property of the text *)
Definition lands {A} (p : P A) (Q : A -> str -> Prop) : Prop :=
  forall s i s' r a, p s i = Ok (s', Done r a) -> own_digits i -> exists t, i = t ++ r /\ Q a t.

Lemma lands_alt : forall A (p q : P A) Q, lands p Q -> lands q Q -> lands (alt p q) Q.
Proof. intros A p q Q H H2 s i s' r a E O. apply alt_done in E as [E|(s1 & _ & E)]; eauto. Qed.
Lemma lands_complete : forall A (p : P A) Q, lands p Q -> lands (complete p) Q.
Proof. intros A p Q H s i s' r a E O. apply complete_done in E. eauto. Qed.
Lemma lands_opt : forall A (p : P A) Q, lands p Q -> lands (opt p) (fun o t => match o with Some a => Q a t | None => t = [] end).
Proof.
  intros A p Q H s i s' r a E O. apply opt_done in E as [(x & -> & E)|(-> & -> & E)]; eauto. exists []. auto.
Qed.
Lemma lands_many : forall A (p : P A) Q, lands p Q -> forall (R : list A -> str -> Prop), R [] [] ->
  (forall a t l u, Q a t -> R l u -> R (a :: l) (t ++ u)) ->
  forall n s i s' r l, many_loop n p s i = Ok (s', Done r l) -> own_digits i -> exists t, i = t ++ r /\ R l t.
Proof.
  intros A p Q H R R0 R1. induction n; intros s i s' r l E O; [discriminate|].
  cbn [many_loop] in E. destruct i as [|c i]; [inversion E; exists []; auto|].
  apply rbind_ok in E as ([s1 r1] & E1 & E). destruct r1 as [i1 a| |]; try (inversion E; exists []; subst; auto; fail).
  destruct (Nat.eqb _ _); [inversion E; subst; exists []; auto|].
  apply rbind_ok in E as ([s2 r2] & E2 & E). destruct r2 as [i2 l2| |]; inversion E; subst.
  apply H in E1 as (t & T & QT); auto. rewrite T in *. apply own_app in O as [O1 O2].
  apply IHn in E2 as (u & -> & RU); auto. exists (t ++ u). rewrite app_assoc. auto.
Qed.

Lemma lands_ws : lands ws (fun w t => t = w /\ blanks w).
Proof. intros s i s' r a E O. apply ws_blanks in E as (_ & -> & B). exists a. auto. Qed.

Lemma bare_chars : forall i, Forall bare_char (take_wh is_keychar i).
Proof.
  intros i. pose proof (take_wh_forall is_keychar i) as F. eapply Forall_impl; [|exact F]. intros c H. cbv beta in H.
  unfold is_keychar in H. unfold bare_char. lia.
Qed.
Lemma lands_key : lands key_p (fun k t => t = k /\ gkey k).
Proof.
  unfold key_p. apply lands_alt; intros s i s' r a E O; apply bind_done in E as (s1 & i1 & x & E1 & E);
    apply act_done in E as (-> & E); inversion E; subst; apply complete_done in E1.
  - apply re_find_done in E1 as (_ & -> & L). exists a. split; auto. split; auto.
    unfold re_quoted_key in L. apply lang_seq in L as (x & y & -> & X & Y). apply lang_seq in Y as (b & z & -> & Y & Z).
    apply lang_chr in X. apply lang_chr in Z. subst. apply Kt_quoted.
    + apply lang_seq in Y as (b1 & b2 & -> & Y1 & Y2). apply lang_basic in Y2. apply basic_body_app; auto.
    + apply lang_seq in Y as (b1 & b2 & -> & Y1 & Y2). intros N. apply app_eq_nil in N as [-> _].
      apply (nullable_lang _ _) in Y1; auto. vm_compute in Y1. discriminate.
  - apply take_while1_done in E1 as (_ & -> & T & _ & N). exists a. split; auto. split; auto. apply Kt_bare. split; auto.
    rewrite T. apply bare_chars.
Qed.

Lemma lands_sep : lands keyval_sep (fun w t => blanks w.(ws1) /\ blanks w.(ws2) /\ t = w.(ws1) ++ lit "=" ++ w.(ws2)).
Proof.
  intros s i s' r a E O. unfold keyval_sep in E.
  apply bind_done in E as (s1 & i1 & w1 & E1 & E). apply ws_blanks in E1 as (_ & -> & B1).
  apply bind_done in E as (s2 & i2 & x & E2 & E). apply tag_done in E2 as (_ & _ & ->).
  apply bind_done in E as (s3 & i3 & w2 & E3 & E). apply ws_blanks in E3 as (_ & -> & B2).
  apply ret_done in E as (_ & <- & ->). cbn [ws1 ws2]. eexists. split; [|split; [|split]; auto]. rewrite <- !app_assoc. auto.
Qed.
Lemma lands_comma : lands (opt (complete array_sep)) comma.
Proof.
  intros s i s' r a E O. apply opt_done in E as [(x & -> & E)|(-> & -> & E)]; [|exists []; split; auto; constructor].
  apply complete_done in E. unfold array_sep in E.
  apply bind_done in E as (s1 & i1 & w1 & E1 & E). apply ws_blanks in E1 as (_ & -> & B1).
  apply bind_done in E as (s2 & i2 & y & E2 & E). apply tag_done in E2 as (_ & _ & ->).
  apply bind_done in E as (s3 & i3 & w2 & E3 & E). apply ws_blanks in E3 as (_ & -> & B2).
  apply ret_done in E as (_ & <- & ->). eexists. split; [|constructor; auto]. rewrite <- !app_assoc. auto.
Qed.

(** ** Gaps *)
Definition stuck (r : str) : Prop := wsn_step r = None /\ match r with [] => True | c :: _ => not_eol c = false end.

Lemma cut_blank : forall n i, (length i <= n)%nat -> exists w r, i = w ++ r /\ blank_lines w /\ wsn_step r = None.
Proof.
  induction n; intros i L.
  - destruct i; [|cbn in L; lia]. exists [], []. split; auto. split; auto. constructor.
  - destruct (wsn_step i) as [j|] eqn:E; [|exists [], i; split; auto; split; auto; constructor].
    destruct i as [|c i]; [discriminate|]. cbn [wsn_step length] in *.
    destruct ((c =? 32) || (c =? 9) || (c =? 10)) eqn:C.
    + inversion E; subst. destruct (IHn j) as (w & r & -> & W & R); [lia|]. exists (c :: w), r. split; auto. split; auto.
      constructor; auto. lia.
    + destruct (N.eqb_spec c 13); [|discriminate]. destruct i as [|d i]; [discriminate|].
      destruct (N.eqb_spec d 10); [|discriminate]. inversion E; subst. cbn [length] in L.
      destruct (IHn j) as (w & r & -> & W & R); [lia|]. exists (13 :: 10 :: w), r. split; auto. split; auto. apply BL_crlf; auto.
Qed.
Lemma wsn_done : forall s i s' r w, ws_newline s i = Ok (s', Done r w) -> s' = s /\ i = w ++ r /\ blank_lines w /\ wsn_step r = None.
Proof.
  intros s i s' r w E. destruct (cut_blank (length i) i) as (w1 & r1 & -> & W & R); auto.
  rewrite ws_newline_ok in E by auto. inversion E; subst. auto.
Qed.

Lemma comment_done : forall s i s' r c, comment s i = Ok (s', Done r c) ->
  s' = s /\ i = lit "#" ++ c ++ r /\ comment_text c /\ match r with [] => True | c :: _ => not_eol c = false end.
Proof.
  intros s i s' r c E. unfold comment in E. apply bind_done in E as (s1 & i1 & x & E1 & E). apply tag_done in E1 as (-> & _ & ->).
  apply bind_done in E as (s2 & i2 & y & E2 & E). apply ret_done in E as (-> & -> & ->).
  apply take_while_done in E2 as (-> & X & T & D). split; auto. split; [congruence|]. split.
  - rewrite T. pose proof (take_wh_forall not_eol i1) as F. eapply Forall_impl; [|exact F]. intros c H. cbv beta in H.
    unfold not_eol in H. lia.
  - rewrite D. clear. induction i1 as [|c i IH]; cbn [drop_while]; auto. destruct (not_eol c) eqn:N; auto.
Qed.

Lemma blank_start : forall w r, blank_lines w -> w <> [] -> wsn_step (w ++ r) <> None.
Proof.
  intros w r W N. destruct W as [|c w C W|w W]; [congruence| |discriminate].
  cbn [app wsn_step]. assert ((c =? 32) || (c =? 9) || (c =? 10) = true) as -> by lia. discriminate.
Qed.
Lemma blank_not_stuck : forall w r, blank_lines w -> w <> [] -> ~ stuck (w ++ r).
Proof. intros w r W N [X _]. apply (blank_start w r W N X). Qed.
Lemma eol_not_stuck : forall c r, not_eol c = true -> ~ stuck (c :: r).
Proof. intros c r H [_ X]. congruence. Qed.

(** a line end, after a character that cannot continue the comment *)
Lemma blank_break : forall w r, blank_lines w -> w <> [] -> match w ++ r with [] => True | c :: _ => not_eol c = false end ->
  exists nl v, w = nl ++ v /\ line_end nl /\ blank_lines v.
Proof.
  intros w r W N H. destruct W as [|c w C W|w W]; [congruence| |].
  - cbn [app] in H. unfold not_eol in H. exists [c], w. split; auto. split; auto. left. f_equal. lia.
  - exists [13;10], w. split; auto. split; auto. right. auto.
Qed.

Lemma item_lands : forall s i s' r a, comment_or_nl s i = Ok (s', Done r a) ->
  exists t, i = t ++ r /\ (gap_item a t \/ stuck r) /\ (t <> [] -> ~ stuck i).
Proof.
  intros s i s' r a E. unfold comment_or_nl in E. apply alt_done in E as [E|(s1 & _ & E)]; apply pmap_done in E as (x & E & ->);
    apply complete_done in E.
  - unfold comment_nl in E. apply bind_done in E as (s1 & i1 & w & E1 & E). apply wsn_done in E1 as (-> & -> & W & _).
    apply bind_done in E as (s2 & i2 & c & E2 & E). apply comment_done in E2 as (-> & -> & C & H).
    apply bind_done in E as (s3 & i3 & nls & E3 & E). apply wsn_done in E3 as (-> & -> & B & R).
    apply ret_done in E as (-> & -> & ->). exists (w ++ lit "#" ++ c ++ nls). split; [rewrite <- !app_assoc; auto|]. split.
    + destruct nls as [|n nls]; [right; split; auto|left].
      destruct (blank_break (n :: nls) i3 B) as (nl & v & -> & L & V); auto; [discriminate|]. constructor; auto.
    + intros _. destruct w as [|b w]; [apply eol_not_stuck; reflexivity|]. apply (blank_not_stuck (b :: w)); auto. discriminate.
  - apply wsn_done in E as (-> & -> & W & R). exists x. split; auto. split; [left; constructor; auto|].
    intros N. apply blank_not_stuck; auto.
Qed.

Lemma loop_stuck : forall A (p : P A) (Q : A -> str -> Prop),
  (forall s i s' r a, p s i = Ok (s', Done r a) -> own_digits i -> exists t, i = t ++ r /\ (Q a t \/ stuck r) /\ (t <> [] -> ~ stuck i)) ->
  forall (R : list A -> str -> Prop), R [] [] -> (forall a t l u, Q a t -> R l u -> R (a :: l) (t ++ u)) ->
  forall n s i s' r l, many_loop n p s i = Ok (s', Done r l) -> own_digits i ->
  exists t, i = t ++ r /\ (R l t \/ stuck r) /\ (t <> [] -> ~ stuck i).
Proof.
  intros A p Q H R R0 R1. induction n; intros s i s' r l E O; [discriminate|].
  assert (Z : forall r l, i = r -> l = [] -> exists t, i = t ++ r /\ (R l t \/ stuck r) /\ (t <> [] -> ~ stuck i)).
  { intros r0 l0 -> ->. exists []. split; [reflexivity|]. split; [left; exact R0|congruence]. }
  cbn [many_loop] in E. destruct i as [|c i]; [inversion E; auto|].
  apply rbind_ok in E as ([s1 r1] & E1 & E). destruct r1 as [i1 a| |]; try (inversion E; subst; auto; fail).
  destruct (Nat.eqb _ _); [inversion E; subst; auto|]. clear Z.
  apply rbind_ok in E as ([s2 r2] & E2 & E). destruct r2 as [i2 l2| |]; inversion E; subst.
  apply H in E1 as (t & T & QT & NT); auto. rewrite T in *. apply own_app in O as [O1 O2].
  apply IHn in E2 as (u & -> & RU & NU); auto. exists (t ++ u). split; [apply app_assoc|]. split.
  - destruct QT as [QT|QT].
    + destruct RU; auto.
    + destruct u as [|d u]; auto. destruct NU; auto. discriminate.
  - intros N. destruct t as [|d t]; [|apply NT; discriminate]. cbn [app] in *. auto.
Qed.

Definition gaps0 (l : list comment_or_newlines) (t : str) : Prop := (l = [] /\ t = []) \/ gaps l t.
Lemma gaps_lands : forall s i s' r l, comment_or_nls s i = Ok (s', Done r l) -> own_digits i ->
  exists t, i = t ++ r /\ (gaps l t \/ stuck r) /\ (t <> [] -> ~ stuck i).
Proof.
  intros s i s' r l E O. unfold comment_or_nls, many1 in E. apply rbind_ok in E as ([s1 r1] & E1 & E).
  destruct r1 as [i1 x| |]; try discriminate.
  apply rbind_ok in E as ([s2 r2] & E2 & E). destruct r2 as [i2 l2| |]; inversion E; subst.
  apply item_lands in E1 as (t & -> & QT & NT). apply own_app in O as [O1 O2].
  eapply (loop_stuck _ _ gap_item) with (R := gaps0) in E2 as (u & -> & RU & NU); auto.
  - exists (t ++ u). split; [apply app_assoc|]. split.
    + destruct QT as [QT|QT].
      * destruct RU as [[[-> ->]|RU]|RU]; auto; left; [rewrite app_nil_r; apply Gp_one; auto|apply Gp_cons; auto].
      * destruct u as [|d u]; auto. destruct NU; auto. discriminate.
    + intros N. destruct t as [|d t]; [|apply NT; discriminate]. cbn [app] in *. auto.
  - intros s3 i3 s4 r4 a E3 _. eapply item_lands; eauto.
  - left. auto.
  - intros a t1 l u1 Q [[-> ->]|G]; right; [rewrite app_nil_r; apply Gp_one; auto|apply Gp_cons; auto].
Qed.

(** ** Values *)
Lemma gval_head : forall v t, gval v t -> exists c x, t = c :: x /\ not_eol c = true.
Proof.
  assert (D : forall c x, digit c -> exists c' x', c :: x = c' :: x' /\ not_eol c' = true).
  { intros c x H. exists c, x. split; auto. unfold digit in H. unfold not_eol. lia. }
  assert (B : forall b, int_body b -> forall sg x, sign sg -> exists c' x', (sg ++ b) ++ x = c' :: x' /\ not_eol c' = true).
  { intros b H sg x [->|[->| ->]]; try (do 2 eexists; split; [reflexivity|reflexivity]).
    destruct H as (c & y & -> & C & _). apply D; auto. }
  intros v t G. destruct G; try (do 2 eexists; split; [reflexivity|reflexivity]).
  - destruct H as (sg & b & -> & S & I). rewrite <- (app_nil_r (sg ++ b)). apply B; auto.
  - destruct H as (sg & b & f & e & -> & S & I & _). rewrite app_assoc. apply B; auto.
  - destruct H as [([Y L] & _) _]. unfold datetime_src. destruct (d_year (dt_date d)) as [|c y]; [discriminate|].
    inversion Y; subst. apply D; auto.
Qed.
Lemma gkey_head : forall k, gkey k -> exists c x, k = c :: x /\ not_eol c = true.
Proof.
  intros k [k' [N B]|b B N].
  - destruct k' as [|c k']; [congruence|]. inversion B; subst. exists c, k'. split; auto. unfold bare_char in H1. unfold not_eol. lia.
  - do 2 eexists. split; reflexivity.
Qed.

Lemma body1 : forall q a m, lang (RSeq (RChr q) (RSeq a (RChr q))) m -> exists x, m = [q] ++ x ++ [q] /\ lang a x.
Proof.
  intros q b m L. apply lang_seq in L as (x & y & -> & X & Y). apply lang_seq in Y as (y1 & z & -> & Y & Z).
  apply lang_chr in X. apply lang_chr in Z. subst. eauto.
Qed.
Lemma body3 : forall q a m, lang (RSeq (RStr q) (RSeq a (RStr q))) m -> exists x, m = q ++ x ++ q /\ lang a x.
Proof.
  intros q b m L. apply lang_seq in L as (x & y & -> & X & Y). apply lang_seq in Y as (y1 & z & -> & Y & Z).
  apply lang_str in X. apply lang_str in Z. subst. eauto.
Qed.

Lemma lands_string : lands string_p gval.
Proof.
  unfold string_p. repeat apply lands_alt; intros s i s' r a E O; apply pmap_done in E as (x & E & ->); apply complete_done in E;
    unfold ml_literal_string_p, ml_basic_string_p, basic_string_p, literal_string_p in E; apply pmap_done in E as (y & E & ->).
  - unfold raw_ml_literal_string in E. apply bind_done in E as (s1 & i1 & z & E1 & E).
    apply re_find_done in E1 as (_ & -> & L). apply body3 in L as (b & -> & L). apply lang_mll in L.
    apply act_done in E as (-> & E). inversion E; subst.
    replace (strip 3 (39 :: 39 :: 39 :: b ++ [39;39;39])) with b by (symmetry; exact (strip_ok [39;39;39] b)).
    eexists. split; [reflexivity|]. apply (Gv_ml_literal b L).
  - unfold raw_ml_basic_string in E. apply bind_done in E as (s1 & i1 & z & E1 & E).
    apply re_find_done in E1 as (_ & -> & L). apply body3 in L as (b & -> & L). apply lang_ml_basic in L.
    apply act_done in E as (-> & E). inversion E; subst.
    replace (strip 3 (34 :: 34 :: 34 :: b ++ [34;34;34])) with b by (symmetry; exact (strip_ok [34;34;34] b)).
    eexists. split; [reflexivity|]. apply (Gv_ml_basic b L).
  - apply re_find_done in E as (_ & -> & L). apply body1 in L as (b & -> & L). apply lang_basic in L.
    replace (strip 1 ([34] ++ b ++ [34])) with b by (symmetry; exact (strip_ok [34] b)).
    eexists. split; [reflexivity|]. apply (Gv_basic b L).
  - apply re_find_done in E as (_ & -> & L). apply body1 in L as (b & -> & L). apply lang_literal in L.
    replace (strip 1 ([39] ++ b ++ [39])) with b by (symmetry; exact (strip_ok [39] b)).
    eexists. split; [reflexivity|]. apply (Gv_literal b L).
Qed.

Lemma lands_boolean : lands boolean (fun b => gval (TBoolean b)).
Proof.
  unfold boolean. apply lands_alt; intros s i s' r a E O; apply pmap_done in E as (x & E & ->); apply complete_done in E;
    apply tag_done in E as (_ & _ & ->); eexists; (split; [reflexivity|constructor]).
Qed.
Lemma lands_date : lands date_time (fun d => gval (TDateTime d)).
Proof.
  intros s i s' r a E O. unfold date_time in E. apply rbind_ok in E as ([s1 r1] & E1 & E).
  destruct r1 as [rest o| |]; try (inversion E; fail). apply dti_done in E1 as (-> & -> & D).
  assert (rest = r /\ o = a) as [-> ->].
  { destruct (datetime_validate o); [inversion E; auto|]. apply rbind_ok in E as ([[x y] z] & _ & E). inversion E; auto. }
  exists (show_datetime a). split; auto. rewrite <- datetime_src_show. constructor. auto.
Qed.
Lemma lands_int : lands integer (fun x => gval (TInteger x)).
Proof.
  intros s i s' r a E O. apply re_find_done in E as (_ & -> & L). apply own_app in O as [O _]. exists a. split; auto.
  constructor. apply int_text; auto.
Qed.
Lemma lands_float : lands float (fun x => gval (TFloat x)).
Proof.
  intros s i s' r a E O. apply re_find_done in E as (_ & -> & L). apply own_app in O as [O _]. exists a. split; auto.
  constructor. apply float_text; auto.
Qed.

Definition gcell (c : cell) (t : str) : Prop := gval c.(c_val) t.
Definition gelem (a : array_value) (t : str) : Prop := exists t1 u g,
  gval a.(av_val).(c_val) t1 /\ comma a.(av_sep) u /\ gaps a.(av_nls) g /\ t = t1 ++ u ++ g.
Definition gpair (kv : keyval) (t : str) : Prop := exists u,
  gkey kv.(kv_key) /\ blanks kv.(kv_sep).(ws1) /\ blanks kv.(kv_sep).(ws2) /\ gval kv.(kv_val).(c_val) u /\
  t = kv.(kv_key) ++ kv.(kv_sep).(ws1) ++ lit "=" ++ kv.(kv_sep).(ws2) ++ u.
Definition gfield (a : table_keyval) (t : str) : Prop := exists t1 u g,
  gpair a.(tk_kv) t1 /\ comma a.(tk_sep) u /\ gaps a.(tk_nls) g /\ t = t1 ++ u ++ g.

Lemma head_open : forall t r, (exists c x, t = c :: x /\ not_eol c = true) -> ~ stuck (t ++ r).
Proof. intros t r (c & x & -> & N). apply eol_not_stuck. auto. Qed.

Section Lands.
  Variable pval : P cell.
  Hypothesis PV : lands pval gcell.

  Lemma elem_lands : forall s i s' r a, array_value_ pval s i = Ok (s', Done r a) -> own_digits i ->
    exists t, i = t ++ r /\ (gelem a t \/ stuck r) /\ (t <> [] -> ~ stuck i).
  Proof.
    intros s i s' r a E O. unfold array_value_ in E.
    apply bind_done in E as (s1 & i1 & v & E1 & E). apply PV in E1 as (t1 & -> & G1); auto. apply own_app in O as [_ O].
    apply bind_done in E as (s2 & i2 & sep & E2 & E). apply lands_comma in E2 as (t2 & -> & G2); auto. apply own_app in O as [_ O].
    apply bind_done in E as (s3 & i3 & nls & E3 & E). apply complete_done in E3. apply gaps_lands in E3 as (t3 & -> & G3 & _); auto.
    apply act_done in E as (-> & E). apply array_value_act_same in E. subst a.
    exists (t1 ++ t2 ++ t3). split; [rewrite <- !app_assoc; auto|]. split.
    - destruct G3 as [G3|G3]; auto. left. exists t1, t2, t3. auto.
    - intros _. apply head_open. eapply gval_head; eauto.
  Qed.

  Lemma lands_array : lands (array_ pval) gval.
  Proof.
    intros s i s' r a E O. unfold array_ in E. apply rbind_ok in E as ([s1 r1] & E1 & E). assert (r1 = Done r a) as -> by congruence. clear E. rename E1 into E.
    unfold array_internal_ in E.
    apply bind_done in E as (s2 & i1 & x & E1 & E). apply tag_done in E1 as (_ & _ & ->). apply own_app in O as [_ O].
    apply bind_done in E as (s3 & i2 & n1 & E2 & E). apply gaps_lands in E2 as (t1 & -> & G1 & _); auto. apply own_app in O as [_ O].
    apply bind_done in E as (s4 & i3 & vals & E3 & E). unfold array_values_, many0 in E3.
    eapply (loop_stuck _ _ gelem) with (R := gelems) in E3 as (t & -> & G & N); auto;
      [|apply elem_lands|constructor|].
    2:{ intros [[id v] sep nls] t l u (p & q & g & V & C & GG & ->) L. cbn [av_val av_sep av_nls c_val] in *.
        rewrite <- !app_assoc. constructor; auto. }
    apply own_app in O as [_ O].
    apply bind_done in E as (s5 & i4 & n2 & E4 & E). apply gaps_lands in E4 as (t2 & -> & G2 & N2); auto.
    apply bind_done in E as (s6 & i5 & y & E5 & E). apply tag_done in E5 as (_ & _ & ->). apply ret_done in E as (_ & <- & ->).
    exists (lit "[" ++ t1 ++ t ++ t2 ++ lit "]"). split; [rewrite <- !app_assoc; auto|].
    assert (X : ~ stuck (lit "]" ++ r)) by (apply eol_not_stuck; reflexivity).
    assert (X2 : ~ stuck (t2 ++ lit "]" ++ r)) by (destruct t2; auto; apply N2; discriminate).
    assert (X1 : ~ stuck (t ++ t2 ++ lit "]" ++ r)) by (destruct t; auto; apply N; discriminate).
    constructor; tauto.
  Qed.

  Lemma lands_pair : lands (keyval_p_ pval) gpair.
  Proof.
    intros s i s' r a E O. unfold keyval_p_ in E.
    apply bind_done in E as (s1 & i1 & k & E1 & E). apply lands_key in E1 as (t1 & -> & -> & G1); auto. apply own_app in O as [_ O].
    apply bind_done in E as (s2 & i2 & sep & E2 & E). apply lands_sep in E2 as (t2 & -> & B1 & B2 & ->); auto. apply own_app in O as [_ O].
    apply bind_done in E as (s3 & i3 & v & E3 & E). apply PV in E3 as (t3 & -> & G3); auto.
    apply act_done in E as (-> & E). apply keyval_act_same in E. subst a.
    eexists. split; [|exists t3; cbn [kv_key kv_sep kv_val]; repeat split; auto]. rewrite <- !app_assoc. auto.
  Qed.

  Lemma field_lands : forall s i s' r a, table_keyval_p_ pval s i = Ok (s', Done r a) -> own_digits i ->
    exists t, i = t ++ r /\ (gfield a t \/ stuck r) /\ (t <> [] -> ~ stuck i).
  Proof.
    intros s i s' r a E O. unfold table_keyval_p_ in E.
    apply bind_done in E as (s1 & i1 & kv & E1 & E). apply lands_pair in E1 as (t1 & -> & G1); auto. apply own_app in O as [_ O].
    apply bind_done in E as (s2 & i2 & sep & E2 & E). apply lands_comma in E2 as (t2 & -> & G2); auto. apply own_app in O as [_ O].
    apply bind_done in E as (s3 & i3 & nls & E3 & E). apply complete_done in E3. apply gaps_lands in E3 as (t3 & -> & G3 & _); auto.
    apply ret_done in E as (-> & -> & ->).
    exists (t1 ++ t2 ++ t3). split; [rewrite <- !app_assoc; auto|]. split.
    - destruct G3 as [G3|G3]; auto. left. exists t1, t2, t3. auto.
    - intros _. destruct G1 as (u & K & _ & _ & _ & ->). rewrite <- !app_assoc. apply head_open. apply gkey_head; auto.
  Qed.

  Lemma lands_inline : lands (inline_table_ pval) gval.
  Proof.
    intros s i s' r a E O. unfold inline_table_ in E.
    apply bind_done in E as (s2 & i1 & x & E1 & E). apply tag_done in E1 as (_ & _ & ->). apply own_app in O as [_ O].
    apply bind_done in E as (s3 & i2 & w1 & E2 & E). apply ws_blanks in E2 as (_ & -> & B1). apply own_app in O as [_ O].
    apply bind_done in E as (s4 & i3 & kvs & E3 & E).
    assert (X : exists t, i2 = t ++ i3 /\ (gfields (match kvs with Some l => l | None => [] end) t \/ stuck i3)).
    { apply opt_done in E3 as [(l & -> & E3)|(-> & -> & E3)]; [|exists []; split; auto; left; constructor].
      apply complete_done in E3. unfold inline_table_keyvals_, many0 in E3.
      eapply (loop_stuck _ _ gfield) with (R := gfields) in E3 as (t & -> & G & N); auto; [eauto|apply field_lands|constructor|].
      intros [[k [a1 a2] [id v]] sep nls] t l2 u (p & q & g & (y & K & A1 & A2 & V & ->) & C & GG & ->) L.
      cbn [tk_kv tk_sep tk_nls kv_key kv_sep kv_val c_val ws1 ws2] in *.
      rewrite <- !app_assoc. constructor; auto. }
    destruct X as (t & -> & G). apply own_app in O as [_ O].
    apply bind_done in E as (s5 & i4 & w2 & E4 & E). apply ws_blanks in E4 as (_ & -> & B2).
    apply bind_done in E as (s6 & i5 & y & E5 & E). apply tag_done in E5 as (_ & _ & ->). apply ret_done in E as (_ & <- & ->).
    exists (lit "{" ++ w1 ++ t ++ w2 ++ lit "}"). split; [rewrite <- !app_assoc; auto|].
    constructor; auto. destruct G as [G|G]; auto. exfalso. destruct w2 as [|c w2].
    - revert G. apply eol_not_stuck. reflexivity.
    - revert G. apply eol_not_stuck. inversion B2; subst. destruct H1 as [->| ->]; reflexivity.
  Qed.

  Lemma lands_pcell : forall A (p : P A) f, lands p (fun a => gval (f a)) -> lands (pcell p f) gcell.
  Proof.
    intros A p f H s i s' r a E O. unfold pcell in E. apply bind_done in E as (s1 & i1 & x & E1 & E).
    apply act_done in E as (-> & E). inversion E; subst. apply complete_done in E1. apply H in E1; auto.
  Qed.

  Lemma lands_val_ : lands (val_ pval) gcell.
  Proof.
    unfold val_. repeat apply lands_alt; apply lands_pcell.
    - apply lands_array.
    - apply lands_inline.
    - apply lands_date.
    - apply lands_float.
    - apply lands_int.
    - apply lands_boolean.
    - apply lands_string.
  Qed.
End Lands.

Lemma lands_val : forall f, lands (val f) gcell.
Proof. induction f; cbn [val]; [intros s i s' r a H; discriminate|apply lands_val_; auto]. Qed.
Lemma lands_val_p : lands val_p gcell.
Proof. intros s i s' r a E. eapply lands_val; eauto. Qed.

(** ** Headers and lines *)
Definition gname (w : wskey) (t : str) : Prop :=
  blanks w.(wk_ws).(ws1) /\ blanks w.(wk_ws).(ws2) /\ gkey w.(wk_key) /\
  t = w.(wk_ws).(ws1) ++ lit "." ++ w.(wk_ws).(ws2) ++ w.(wk_key).
Lemma lands_subkey : lands table_subkey gname.
Proof.
  intros s i s' r a E O. unfold table_subkey in E.
  apply bind_done in E as (s1 & i1 & w1 & E1 & E). apply ws_blanks in E1 as (_ & -> & B1). apply own_app in O as [_ O].
  apply bind_done in E as (s2 & i2 & x & E2 & E). apply tag_done in E2 as (_ & _ & ->). apply own_app in O as [_ O].
  apply bind_done in E as (s3 & i3 & w2 & E3 & E). apply ws_blanks in E3 as (_ & -> & B2). apply own_app in O as [_ O].
  apply bind_done in E as (s4 & i4 & k & E4 & E). apply lands_key in E4 as (t & -> & -> & K); auto.
  apply ret_done in E as (_ & <- & ->). eexists. split; [|unfold gname; cbn [wk_ws wk_key ws1 ws2]; repeat split; auto].
  rewrite <- !app_assoc. auto.
Qed.
Lemma lands_subkeys : lands table_subkeys gnames.
Proof.
  intros s i s' r a E O. unfold table_subkeys, many0 in E. eapply lands_many; eauto using lands_subkey; [constructor|].
  intros [[w1 w2] k] t l u (B1 & B2 & K & ->) L. cbn [wk_ws wk_key ws1 ws2] in *. rewrite <- !app_assoc. constructor; auto.
Qed.
Lemma lands_table : lands table_p ghead.
Proof.
  unfold table_p. apply lands_alt; apply lands_complete; intros s i s' r a E O; unfold array_table, std_table in E;
    apply bind_done in E as (s1 & i1 & x & E1 & E); apply tag_done in E1 as (_ & _ & ->); apply own_app in O as [_ O];
    apply bind_done in E as (s2 & i2 & w1 & E2 & E); apply ws_blanks in E2 as (_ & -> & B1); apply own_app in O as [_ O];
    apply bind_done in E as (s3 & i3 & k & E3 & E); apply lands_key in E3 as (t & -> & -> & K); auto; apply own_app in O as [_ O];
    apply bind_done in E as (s4 & i4 & l & E4 & E); apply lands_subkeys in E4 as (t & -> & L); auto; apply own_app in O as [_ O];
    apply bind_done in E as (s5 & i5 & w2 & E5 & E); apply ws_blanks in E5 as (_ & -> & B2); apply own_app in O as [_ O];
    apply bind_done in E as (s6 & i6 & y & E6 & E); apply tag_done in E6 as (_ & _ & ->); apply act_done in E as (-> & E).
  - apply array_table_act_same in E. subst a. eexists. split; [|apply (Gh_arr w1 w2 k l t); auto]. rewrite <- !app_assoc. auto.
  - apply std_table_act_same in E. subst a. eexists. split; [|apply (Gh_std w1 w2 k l t); auto]. rewrite <- !app_assoc. auto.
Qed.

Lemma lands_com : lands (opt (complete comment)) (fun c t => com_ok c /\ t = com_text c).
Proof.
  intros s i s' r a E O. apply opt_done in E as [(x & -> & E)|(-> & -> & E)]; [|exists []; repeat split; auto].
  apply complete_done in E. apply comment_done in E as (_ & -> & C & _). eexists. split; [|split; [exact C|reflexivity]].
  cbn [com_text]. rewrite <- ?app_assoc. auto.
Qed.

Lemma lands_expression : lands expression_p gline.
Proof.
  unfold expression_p. repeat apply lands_alt; apply lands_complete; intros s i s' r a E O.
  - unfold table_comment in E.
    apply bind_done in E as (s1 & i1 & w1 & E1 & E). apply ws_blanks in E1 as (_ & -> & B1). apply own_app in O as [_ O].
    apply bind_done in E as (s2 & i2 & h & E2 & E). apply lands_table in E2 as (t & -> & H); auto. apply own_app in O as [_ O].
    apply bind_done in E as (s3 & i3 & w2 & E3 & E). apply ws_blanks in E3 as (_ & -> & B2). apply own_app in O as [_ O].
    apply bind_done in E as (s4 & i4 & c & E4 & E). apply lands_com in E4 as (u & -> & C & ->); auto.
    apply ret_done in E as (_ & <- & ->). eexists. split; [|apply (Gl_head w1 h t w2 c); auto]. rewrite <- !app_assoc. auto.
  - unfold keyval_comment in E.
    apply bind_done in E as (s1 & i1 & w1 & E1 & E). apply ws_blanks in E1 as (_ & -> & B1). apply own_app in O as [_ O].
    apply bind_done in E as (s2 & i2 & h & E2 & E). apply (lands_pair _ lands_val_p) in E2 as (t & -> & H); auto. apply own_app in O as [_ O].
    apply bind_done in E as (s3 & i3 & w2 & E3 & E). apply ws_blanks in E3 as (_ & -> & B2). apply own_app in O as [_ O].
    apply bind_done in E as (s4 & i4 & c & E4 & E). apply lands_com in E4 as (u & -> & C & ->); auto.
    apply ret_done in E as (_ & <- & ->). destruct h as [k [a1 a2] [id v]]. destruct H as (u & K & A1 & A2 & V & ->).
    cbn [kv_key kv_sep kv_val c_val ws1 ws2] in *.
    eexists. split; [|apply (Gl_pair w1 k a1 a2 id v u w2 c); auto]. rewrite <- !app_assoc. auto.
  - unfold ws_comment in E.
    apply bind_done in E as (s1 & i1 & w1 & E1 & E). apply ws_blanks in E1 as (_ & -> & B1).
    apply bind_done in E as (s2 & i2 & c & E2 & E). apply comment_done in E2 as (_ & -> & C & _).
    apply ret_done in E as (_ & <- & ->). eexists. split; [|apply (Gl_blank w1 (Some c)); auto].
    cbn [com_text]. rewrite <- !app_assoc. auto.
  - unfold ws_expr in E.
    apply bind_done in E as (s1 & i1 & w1 & E1 & E). apply ws_blanks in E1 as (_ & -> & B1).
    apply ret_done in E as (_ & <- & ->). eexists. split; [|apply (Gl_blank w1 None); auto; exact I].
    cbn [com_text]. rewrite app_nil_r. auto.
Qed.

Lemma lands_newline : lands newline (fun x t => t = x /\ line_end x).
Proof.
  unfold newline. apply lands_alt; intros s i s' r a E O; apply bind_done in E as (s1 & i1 & x & E1 & E);
    apply complete_done in E1; apply tag_done in E1 as (-> & -> & ->); apply act_done in E as [-> E]; inversion E; subst;
    eexists; (split; [reflexivity|split; [reflexivity|]]); [right|left]; reflexivity.
Qed.

Lemma lands_toml : lands toml_p gdoc.
Proof.
  intros s i s' r a E O. unfold toml_p in E.
  apply bind_done in E as (s1 & i1 & e & E1 & E). apply lands_expression in E1 as (t & -> & G); auto. apply own_app in O as [_ O].
  apply bind_done in E as (s2 & i2 & l & E2 & E). unfold nl_expressions, many0 in E2.
  eapply lands_many with (Q := fun x t => exists u, line_end x.(ne_nl) /\ gline x.(ne_expr) u /\ t = x.(ne_nl) ++ u) (R := glines)
    in E2 as (u & -> & L); auto.
  - apply ret_done in E as (_ & <- & ->). exists (t ++ u). split; [rewrite <- app_assoc; auto|]. constructor; auto.
  - clear. intros s i s' r a E O. unfold nl_expression_p in E.
    apply bind_done in E as (s1 & i1 & nl & E1 & E). apply lands_newline in E1 as (t & -> & -> & N); auto. apply own_app in O as [_ O].
    apply bind_done in E as (s2 & i2 & e & E2 & E). apply lands_expression in E2 as (u & -> & G); auto.
    apply ret_done in E as (_ & <- & ->). exists (nl ++ u). split; [rewrite <- app_assoc; auto|]. exists u. auto.
  - constructor.
  - intros [nl e2] t1 l1 u1 (u2 & N & G2 & ->) L2. cbn [ne_nl ne_expr] in *. rewrite <- app_assoc. constructor; auto.
Qed.

Lemma parse_gdoc : forall s i s' r, parse s i = Ok (s', r) -> own_digits i ->
  exists text, i = text ++ s'.(p_leftover) /\ gdoc s'.(p_root) text.
Proof.
  intros s i s' r P O. destruct (parse_inv _ _ _ _ P) as (s1 & rest & t & T & _ & -> & _).
  apply lands_toml in T as (x & X & G); auto. exists x. auto.
Qed.
Lemma parse_grammar : forall s i s' r, parse s i = Ok (s', r) -> own_digits i ->
  exists text rest, i = text ++ rest /\ gdoc s'.(p_root) text /\
    match r with Full | FullError _ => rest = [] | _ => rest <> [] end.
Proof.
  intros s i s' r P O. destruct (parse_gdoc _ _ _ _ P O) as (x & X & G). exists x, s'.(p_leftover). split; auto. split; auto.
  destruct (parse_inv _ _ _ _ P) as (s1 & rest & t & _ & _ & S & R). subst s'. cbn [p_leftover set_leftover] in *.
  rewrite R. destruct rest; destruct (p_errors _); auto; discriminate.
Qed.
