(** Facts about the command line tool. *)
From Coq Require Import Lia ZifyBool ZifyNat ZifyN.
From Verif Require Import Str Regex Types Ast State Nom Keys Grammar Api Cli Facts Spec NomFacts DateFacts CtorFacts TypesFacts.
From Verif Require Import ApiSpec RoundTrip ParseFacts IdFacts WriteFacts SetFacts ApiFacts UpdateFacts CliSpec.

(** ** Printed values *)
Lemma show_seq_text : forall A (f : A -> res str) (g : A -> str) l, l <> [] -> Forall (fun x => f x = Ok (g x)) l ->
  show_seq f l = Ok (separated (lit ", ") (map g l)).
Proof.
  intros A f g l NE F. induction F as [|x l H F IH]; [congruence|]. destruct l as [|y l].
  - cbn [show_seq map separated]. auto.
  - change (show_seq f (x :: y :: l)) with (let? a := f x in let? b := show_seq f (y :: l) in Ok (a ++ lit ", " ++ b)).
    rewrite H, IH by discriminate. reflexivity.
Qed.
Lemma show_datetime_src : forall d, show_datetime d = datetime_src d.
Proof.
  intros [d [t|]]; unfold show_datetime, datetime_src, show_date, show_time, show_time_offset, offset_src, show_toa, show_pos_neg;
    cbn [dt_time dt_date].
  - destruct t as [h m s [f|] [[|a]|]]; cbn [t_fraction t_offset t_hour t_minute t_second]; rewrite <- ?app_assoc, ?app_nil_r; cbn [app];
      rewrite <- ?app_assoc, ?app_nil_r; reflexivity.
  - rewrite <- ?app_assoc, ?app_nil_r. reflexivity.
Qed.
Lemma show_value_text : forall v, printable v -> show_value v = Ok (value_text v).
Proof.
  induction v using value_ind'; intros P; try reflexivity.
  - cbn [show_value value_text spelling]. f_equal. apply show_datetime_src.
  - inversion P as [| | | | |l' N F|]; subst. cbn [show_value value_text].
    rewrite (show_seq_text _ show_value value_text) ; auto. rewrite Forall_forall in *. auto.
  - inversion P as [| | | | | |l' N F]; subst.
    set (f := fun kv : str * value => let? x := show_value (snd kv) in Ok (fst kv ++ lit " = " ++ x)).
    change (show_value (VInlineTable l)) with (let? b := show_seq f l in Ok (lit "{" ++ b ++ lit "}")).
    rewrite (show_seq_text _ f (fun kv => fst kv ++ lit " = " ++ value_text (snd kv))); auto.
    rewrite Forall_forall in *. intros x I. unfold f. rewrite (H x I) by (apply F; auto). reflexivity.
Qed.

(** ** Quotes *)
Lemma is_quote_spec : forall c, is_quote c = true <-> quote c.
Proof. intros c. unfold is_quote, quote. lia. Qed.
Lemma drop_quotes_spec : forall t, exists a, t = a ++ drop_quotes t /\ Forall quote a /\
  forall c u, drop_quotes t = c :: u -> ~ quote c.
Proof.
  induction t as [|c t (a & E & Q & N)].
  - exists []. repeat split; auto. intros; discriminate.
  - cbn [drop_quotes]. destruct (is_quote c) eqn:X.
    + apply is_quote_spec in X. exists (c :: a). split; [cbn [app]; f_equal; auto|]. split; auto.
    + exists []. repeat split; auto. intros d u H. inversion H; subst. intros H1. apply is_quote_spec in H1. congruence.
Qed.
Lemma trim_unquoted : forall t, unquoted t (trim_quotes t).
Proof.
  intros t. unfold trim_quotes. destruct (drop_quotes_spec t) as (a & E & Q & N).
  destruct (drop_quotes_spec (rev (drop_quotes t))) as (b & E2 & Q2 & N2).
  set (u := drop_quotes (rev (drop_quotes t))) in *. exists a, (rev b).
  assert (E3 : drop_quotes t = rev u ++ rev b) by (rewrite <- rev_app_distr, <- E2, rev_involutive; auto).
  split; [rewrite E at 1; f_equal; auto|]. split; auto. split; [apply Forall_rev; auto|]. split.
  - intros c u' H. apply (N c (u' ++ rev b)). rewrite E3, H. reflexivity.
  - intros c u' H. apply (N2 c (rev u')). rewrite <- (rev_involutive u), H, rev_app_distr. reflexivity.
Qed.
(** there is only one such text *)
Lemma unquoted_unique : forall t u u', unquoted t u -> unquoted t u' -> u = u'.
Proof.
  assert (HD : forall a b x y, Forall quote a -> Forall quote b -> a ++ x = b ++ y ->
    (forall c u, x = c :: u -> ~ quote c) -> (forall c u, y = c :: u -> ~ quote c) -> a = b /\ x = y).
  { induction a as [|c a IH]; intros b x y A B E X Y.
    - destruct b as [|c b]; auto. exfalso. inversion B; subst. cbn [app] in E. apply (X c (b ++ y)); auto.
    - inversion A; subst. destruct b as [|d b].
      + exfalso. cbn [app] in E. apply (Y c (a ++ x)); auto.
      + inversion B; subst. cbn [app] in E. inversion E; subst. destruct (IH b x y) as [-> ->]; auto. }
  assert (KEY : forall u a b, Forall quote a -> Forall quote b -> u <> [] -> (forall c u', u = c :: u' -> ~ quote c) -> ~ Forall quote (a ++ u ++ b)).
  { intros [|c u] a b A B N H F; [congruence|]. apply Forall_app in F as [_ F]. inversion F; subst. eapply H; eauto. }
  intros t u u' (a & b & E & A & B & H1 & H2) (a' & b' & E' & A' & B' & H1' & H2').
  destruct u as [|c u].
  - destruct u' as [|d u']; auto. exfalso. apply (KEY (d :: u') a' b'); auto; [discriminate|]. rewrite <- E', E. cbn [app].
    apply Forall_app; auto.
  - destruct u' as [|d u'].
    { exfalso. apply (KEY (c :: u) a b); auto; [discriminate|]. rewrite <- E, E'. cbn [app]. apply Forall_app; auto. }
    assert (X : (c :: u) ++ b = (d :: u') ++ b').
    { eapply HD; [exact A|exact A'|congruence| |]; intros x y Z; cbn [app] in Z; inversion Z; subst; eauto. }
    apply (f_equal (@rev N)) in X. rewrite !rev_app_distr in X.
    destruct (HD (rev b) (rev b') (rev (c :: u)) (rev (d :: u'))) as [_ R]; auto using Forall_rev.
    + intros x y Z. apply (f_equal (@rev N)) in Z. rewrite rev_involutive in Z. cbn [rev] in Z. eapply H2; eauto.
    + intros x y Z. apply (f_equal (@rev N)) in Z. rewrite rev_involutive in Z. cbn [rev] in Z. eapply H2'; eauto.
    + rewrite <- (rev_involutive (c :: u)), R, rev_involutive. auto.
Qed.

(** ** Loops *)
Lemma forall2_len : forall (A B : Type) (R : A -> B -> Prop) l l', Forall2 R l l' -> length l = length l'.
Proof. intros A B R l l' F. induction F; cbn [length]; auto. Qed.
Lemma sep_if_app : forall (A : Type) (l : list A) (sep t : str) (ts : list str), length l = length ts ->
  t ++ sep_if l sep ++ separated sep ts = separated sep (t :: ts).
Proof.
  intros A l sep t ts E. destruct l, ts; try discriminate; cbn [sep_if separated]; auto.
  cbn [app]. rewrite app_nil_r. reflexivity.
Qed.

Lemma get_loop_ok : forall sep strip s keys vs r, Forall2 (fun k v => get_value s k = Ok (Some v)) keys vs ->
  Forall printable vs -> exists ts, Forall2 (printed strip) vs ts /\ get_loop sep strip s keys r = Ok (Good (r ++ separated sep ts)).
Proof.
  intros sep strip s keys vs r F. revert r. induction F as [|k v keys vs H F IH]; intros r P.
  - exists []. split; auto. cbn [get_loop separated]. rewrite app_nil_r. reflexivity.
  - inversion P; subst. set (t := if strip then trim_quotes (value_text v) else value_text v).
    destruct (IH (r ++ t ++ sep_if keys sep) H3) as (ts & A & B).
    exists (t :: ts). split.
    + constructor; auto. unfold printed, t. destruct strip; auto. apply trim_unquoted.
    + cbn [get_loop]. rewrite H. cbn [rbind]. rewrite show_value_text by auto. cbn [rbind]. etransitivity; [exact B|]. do 2 f_equal.
      rewrite <- !app_assoc. f_equal. apply sep_if_app. apply forall2_len in F, A. congruence.
Qed.
Lemma get_loop_missing : forall sep strip s pre k post vs r, Forall2 (fun k v => get_value s k = Ok (Some v)) pre vs ->
  Forall printable vs -> get_value s k = Ok None ->
  get_loop sep strip s (pre ++ k :: post) r = Ok (Bad (lit "Key " ++ [34] ++ k ++ [34] ++ lit " not found.")).
Proof.
  intros sep strip s pre k post vs r F. revert r. induction F as [|k0 v keys vs H F IH]; intros r P M.
  - cbn [app get_loop]. rewrite M. reflexivity.
  - inversion P; subst. cbn [app get_loop]. rewrite H. cbn [rbind]. rewrite show_value_text by auto. cbn [rbind]. auto.
Qed.

Lemma choose_label : forall l i, choose l i = match label l (N.to_nat i) with Some t => Ok t | None => Panic end.
Proof.
  intros l i. unfold choose, label, nlen. destruct l as [|x [|y l]].
  - cbn [length]. change (1 <? N.of_nat 0) with false. cbv iota. destruct (N.to_nat i); reflexivity.
  - reflexivity.
  - replace (1 <? N.of_nat (length (x :: y :: l))) with true by (cbn [length]; lia). reflexivity.
Qed.
Lemma label_enough : forall l n, (forall i, (i < n)%nat -> label l i <> None) <-> n = O \/ enough l n.
Proof.
  intros l n. unfold enough, label. destruct l as [|x [|y l]].
  - split.
    + intros H. destruct n; auto. exfalso. apply (H O); [lia|reflexivity].
    + intros [->|[H|H]] i L; [lia|discriminate|cbn [length] in H; lia].
  - split; [auto|]. intros _ i _; discriminate.
  - split.
    + intros H. right. right. destruct (le_lt_dec n (length (x :: y :: l))) as [|L]; auto. exfalso. apply (H (length (x :: y :: l))); auto.
      apply nth_error_None. auto.
    + intros [->|[H|H]] i L; [lia|discriminate|]. rewrite nth_error_None. lia.
Qed.

Lemma has_loop_ok : forall (ask : str -> res bool) sep tc fc tv fv keys bs ts i r,
  Forall2 (fun k b => ask k = Ok b) keys bs -> labelled tv fv i bs ts ->
  has_loop ask sep tc fc (Some tv) (Some fv) (N.of_nat i) keys r = Ok (Good (r ++ separated sep ts)).
Proof.
  intros ask sep tc fc tv fv keys bs ts i r F. revert ts i r. induction F as [|k b keys bs H F IH]; intros ts i r L; inversion L as [|i0 b0 bs0 t f ts0 HT HF HL]; subst.
  - cbn [has_loop separated]. rewrite app_nil_r. reflexivity.
  - cbn [has_loop]. rewrite !choose_label, Nat2N.id, HT, HF. cbn [rbind]. rewrite H. cbn [rbind].
    replace (N.of_nat i + 1) with (N.of_nat (S i)) by lia. erewrite IH by eauto. do 2 f_equal. rewrite <- !app_assoc. f_equal.
    apply sep_if_app. assert (X : length bs = length ts0).
    { clear - HL. induction HL; cbn [length]; auto. }
    apply forall2_len in F. congruence.
Qed.
Lemma has_loop_crash : forall (ask : str -> res bool) sep tc fc tv fv keys bs i r,
  Forall2 (fun k b => ask k = Ok b) keys bs ->
  (exists j, (j < length keys)%nat /\ (label tv (i + j) = None \/ label fv (i + j) = None)) ->
  has_loop ask sep tc fc (Some tv) (Some fv) (N.of_nat i) keys r = Panic.
Proof.
  intros ask sep tc fc tv fv keys bs i r F. revert i r. induction F as [|k b keys bs H F IH]; intros i r (j & L & D).
  - cbn [length] in L. lia.
  - cbn [has_loop]. rewrite !choose_label, Nat2N.id. destruct (label tv i) as [t|] eqn:T; [|reflexivity]. cbn [rbind].
    destruct (label fv i) as [f|] eqn:E; [|reflexivity]. cbn [rbind]. rewrite H. cbn [rbind].
    replace (N.of_nat i + 1) with (N.of_nat (S i)) by lia. apply IH. destruct j as [|j].
    + rewrite Nat.add_0_r in D. destruct D; congruence.
    + exists j. cbn [length] in L. split; [lia|]. replace (S i + j)%nat with (i + S j)%nat by lia. auto.
Qed.
Lemma has_loop_good : forall (ask : str -> res bool) sep tc fc tv fv keys bs i r e,
  Forall2 (fun k b => ask k = Ok b) keys bs -> has_loop ask sep tc fc (Some tv) (Some fv) i keys r <> Ok (Bad e).
Proof.
  intros ask sep tc fc tv fv keys bs i r e F. revert i r. induction F as [|k b keys bs H F IH]; intros i r; [discriminate|].
  cbn [has_loop]. destruct (choose tv i); try discriminate. cbn [rbind]. destruct (choose fv i); try discriminate. cbn [rbind].
  rewrite H. cbn [rbind]. apply IH.
Qed.
Lemma has_loop_nofuel : forall (ask : str -> res bool) sep tc fc tv fv keys bs i r,
  Forall2 (fun k b => ask k = Ok b) keys bs -> has_loop ask sep tc fc (Some tv) (Some fv) i keys r <> Fuel.
Proof.
  intros ask sep tc fc tv fv keys bs i r F. revert i r. induction F as [|k b keys bs H F IH]; intros i r; [discriminate|].
  cbn [has_loop]. rewrite !choose_label. destruct (label tv (N.to_nat i)); try discriminate. cbn [rbind].
  destruct (label fv (N.to_nat i)); try discriminate. cbn [rbind]. rewrite H. cbn [rbind]. apply IH.
Qed.
Lemma labelled_ex : forall tl fl bs i, (forall j, (j < length bs)%nat -> label tl (i + j) <> None /\ label fl (i + j) <> None) ->
  exists ts, labelled tl fl i bs ts.
Proof.
  intros tl fl. induction bs as [|b bs IH]; intros i H; [exists []; constructor|].
  destruct (IH (S i)) as (ts & L).
  { intros j J. replace (S i + j)%nat with (i + S j)%nat by lia. apply H. cbn [length]. lia. }
  destruct (H O) as [A B]; [cbn [length]; lia|]. rewrite Nat.add_0_r in A, B.
  destruct (label tl i) as [t|] eqn:T; [|congruence]. destruct (label fl i) as [f|] eqn:E; [|congruence].
  eexists. econstructor; eauto.
Qed.

Lemma join_separated : forall sep l, join sep l = separated sep l.
Proof. intros sep. induction l as [|x [|y l] IH]; auto. Qed.

Lemma children_loop_ok : forall g sep s keys cs ts r,
  Forall2 (fun k c => get_children s k = Some c) keys cs -> Forall2 (listed g) cs ts ->
  children_loop sep (or_else g.(g_start) (lit "[")) (or_else g.(g_end) (lit "]")) (or_else g.(g_arr_sep) (lit ", ")) g.(g_len) s keys r =
  Good (r ++ separated sep ts).
Proof.
  intros g sep s keys cs ts r F. revert ts r. induction F as [|k c keys cs H F IH]; intros ts r L; inversion L; subst.
  - cbn [children_loop separated]. rewrite app_nil_r. reflexivity.
  - cbn [children_loop]. rewrite H. assert (X : length keys = length l').
    { apply forall2_len in F, H4. congruence. }
    inversion H2; subst.
    + rewrite (IH l') by auto. f_equal. rewrite H0, join_separated, <- !app_assoc. f_equal.
      rewrite <- (sep_if_app _ keys) by auto. rewrite <- !app_assoc. reflexivity.
    + rewrite (IH l') by auto. f_equal. rewrite H0, join_separated, <- !app_assoc. f_equal.
      rewrite <- (sep_if_app _ keys) by auto. cbn [app]. rewrite <- !app_assoc. reflexivity.
    + destruct (N.eqb_spec n 0); [congruence|]. rewrite (IH l') by auto. f_equal. rewrite <- !app_assoc. f_equal. apply sep_if_app; auto.
Qed.
Lemma children_loop_none : forall g sep s pre k post cs ts r,
  Forall2 (fun k c => get_children s k = Some c) pre cs -> Forall2 (listed g) cs ts ->
  get_children s k = None ->
  children_loop sep (or_else g.(g_start) (lit "[")) (or_else g.(g_end) (lit "]")) (or_else g.(g_arr_sep) (lit ", ")) g.(g_len) s
    (pre ++ k :: post) r = Bad (lit "Key " ++ [34] ++ k ++ [34] ++ lit " not found.").
Proof.
  intros g sep s pre k post cs ts r F. revert ts r. induction F as [|k0 c keys cs H F IH]; intros ts r L M; inversion L; subst.
  - cbn [app children_loop]. rewrite M. reflexivity.
  - cbn [app children_loop]. rewrite H. inversion H2; subst; eauto. destruct (N.eqb_spec n 0); [congruence|]. eauto.
Qed.
Lemma children_loop_zero : forall g sep s pre k post cs ts r,
  Forall2 (fun k c => get_children s k = Some c) pre cs -> Forall2 (listed g) cs ts ->
  get_children s k = Some (Count 0) ->
  children_loop sep (or_else g.(g_start) (lit "[")) (or_else g.(g_end) (lit "]")) (or_else g.(g_arr_sep) (lit ", ")) g.(g_len) s
    (pre ++ k :: post) r = Bad (lit "Key " ++ [34] ++ k ++ [34] ++ lit " has no children.").
Proof.
  intros g sep s pre k post cs ts r F. revert ts r. induction F as [|k0 c keys cs H F IH]; intros ts r L M; inversion L; subst.
  - cbn [app children_loop]. rewrite M. reflexivity.
  - cbn [app children_loop]. rewrite H. inversion H2; subst; eauto. destruct (N.eqb_spec n 0); [congruence|]. eauto.
Qed.

(** ** Types *)
Lemma datetime_parse_total : forall s, exists o, datetime_parse s = Ok o.
Proof.
  intros s. unfold datetime_parse, date_time. destruct (pure_dti (new_parser true) s) as (r & E). rewrite E. cbn [rbind].
  destruct r as [rest d| |]; cbn [rbind]; eauto.
  destruct (datetime_validate d); cbn [rbind]; eauto.
  match goal with |- context [get_full_key ?a ?b ?c ?d ?e] => 
    let x := eval vm_compute in (get_full_key a b c d e) in replace (get_full_key a b c d e) with x by (vm_compute; reflexivity) end.
  cbn [rbind]. eauto.
Qed.
Lemma datetime_parse_kind : forall s v, datetime_parse s = Ok (Some v) -> exists d, v = VDateTime d.
Proof.
  unfold datetime_parse. intros s v H. apply rbind_ok in H as ([s1 r] & _ & H).
  destruct r as [[|c rest] o| |]; try discriminate. inversion H as [E]. unfold checked in E.
  destruct (validate (VDateTime o)); inversion E. eauto.
Qed.
Lemma copy_without : forall d, copy_datetime d = without_z d.
Proof. intros [d [[h m s f [[|a]|]]|]]; reflexivity. Qed.

(** what the tool makes of a type name *)
Lemma typed_value_spec : forall typ val,
  (exists v, typed_value typ val = Ok (Some (Some v)) /\ typed typ val v) \/
  (exists t, typed_value typ val = Ok (Some None) /\ In typ (type_names t) /\ forall v, ~ value_of t val v) \/
  (typed_value typ val = Ok None /\ forall t, ~ In typ (type_names t)).
Proof.
  intros typ val.
  assert (ST : forall t o, In typ (type_names t) -> (forall v, value_of t val v <-> o = Some v) ->
     typed_value typ val = Ok (Some o) ->
     (exists v, typed_value typ val = Ok (Some (Some v)) /\ typed typ val v) \/
     (exists t, typed_value typ val = Ok (Some None) /\ In typ (type_names t) /\ forall v, ~ value_of t val v) \/
     (typed_value typ val = Ok None /\ forall t, ~ In typ (type_names t))).
  { intros t [v|] I H E.
    - left. exists v. split; auto. exists t. split; auto. apply H; auto.
    - right; left. exists t. split; auto. split; auto. intros v V. apply H in V. discriminate. }
  assert (SE : forall a, str_eqb typ a = true -> typ = a) by (intros a H; apply str_eqb_eq; auto).
  unfold typed_value in ST |- *.
  destruct (str_eqb typ (lit "basic-string") || str_eqb typ (lit "bs")) eqn:E1.
  { apply (ST TyBasic (basic_string val)); [|intros v; reflexivity|reflexivity]. apply orb_true_iff in E1 as [E|E]; apply SE in E; subst; cbn [type_names In]; auto. }
  destruct (str_eqb typ (lit "ml-basic-string") || str_eqb typ (lit "mbs")) eqn:E2.
  { apply (ST TyMlBasic (ml_basic_string val)); [|intros v; reflexivity|reflexivity]. apply orb_true_iff in E2 as [E|E]; apply SE in E; subst; cbn [type_names In]; auto. }
  destruct (str_eqb typ (lit "literal-string") || str_eqb typ (lit "ls")) eqn:E3.
  { apply (ST TyLiteral (literal_string val)); [|intros v; reflexivity|reflexivity]. apply orb_true_iff in E3 as [E|E]; apply SE in E; subst; cbn [type_names In]; auto. }
  destruct (str_eqb typ (lit "ml-literal-string") || str_eqb typ (lit "mls")) eqn:E4.
  { apply (ST TyMlLiteral (ml_literal_string val)); [|intros v; reflexivity|reflexivity]. apply orb_true_iff in E4 as [E|E]; apply SE in E; subst; cbn [type_names In]; auto. }
  destruct (str_eqb typ (lit "integer") || str_eqb typ (lit "int")) eqn:E5.
  { apply (ST TyInt (int_from_str val)); [|intros v; reflexivity|reflexivity]. apply orb_true_iff in E5 as [E|E]; apply SE in E; subst; cbn [type_names In]; auto. }
  destruct (str_eqb typ (lit "float") || str_eqb typ (lit "flt")) eqn:E6.
  { apply (ST TyFloat (float_from_str val)); [|intros v; reflexivity|reflexivity]. apply orb_true_iff in E6 as [E|E]; apply SE in E; subst; cbn [type_names In]; auto. }
  destruct (str_eqb typ (lit "boolean") || str_eqb typ (lit "bool")) eqn:E7.
  { apply (ST TyBool (bool_from_str val)); [|intros v; reflexivity|reflexivity]. apply orb_true_iff in E7 as [E|E]; apply SE in E; subst; cbn [type_names In]; auto. }
  destruct (str_eqb typ (lit "datetime") || str_eqb typ (lit "dt")) eqn:E8.
  { destruct (datetime_parse_total val) as (o & P). rewrite P in ST |- *. cbn [rbind] in ST |- *. eapply (ST TyDate); [| |reflexivity].
    - apply orb_true_iff in E8 as [E|E]; apply SE in E; subst; cbn [type_names In]; auto.
    - intros v. cbn [value_of]. rewrite P. destruct o as [w|].
      + destruct (datetime_parse_kind _ _ P) as (d & ->). rewrite copy_without. split.
        * intros (d' & Q & ->). inversion Q; auto.
        * intros Q. inversion Q. eauto.
      + split; [intros (d & Q & _); discriminate|discriminate]. }
  right; right. split; auto. intros t I.
  assert (NE : forall a, str_eqb typ a = false -> typ <> a) by (intros a H0 ->; rewrite str_eqb_refl in H0; discriminate).
  clear ST. rewrite orb_false_iff in E1, E2, E3, E4, E5, E6, E7, E8.
  destruct t; cbn [type_names In] in I; destruct I as [I|[I|[]]]; symmetry in I; revert I; apply NE; tauto.
Qed.
Lemma type_unique : forall n t t', In n (type_names t) -> In n (type_names t') -> t = t'.
Proof.
  intros n t t' I J. destruct t, t'; auto; cbn [type_names In] in I, J; destruct I as [<-|[<-|[]]]; destruct J as [J|[J|[]]]; discriminate.
Qed.
Lemma typed_value_typed : forall typ val v, typed typ val v -> typed_value typ val = Ok (Some (Some v)).
Proof.
  intros typ val v (t & I & V). destruct (typed_value_spec typ val) as [(w & E & t' & I' & V')|[(t' & E & I' & V')|(E & N)]].
  - rewrite E. do 3 f_equal. pose proof (type_unique _ _ _ I I'). subst t'.
    destruct t; cbn [value_of] in V, V'; try congruence. destruct V as (d & A & ->), V' as (d' & B & ->). congruence.
  - pose proof (type_unique _ _ _ I I'). subst t'. exfalso. eapply V'; eauto.
  - exfalso. eapply N; eauto.
Qed.
Lemma typed_fun : forall typ val v w, typed typ val v -> typed typ val w -> v = w.
Proof. intros typ val v w A B. apply typed_value_typed in A, B. congruence. Qed.

(** ** Setting values *)
Lemma set_loop_ok : forall sep s l s' r, updates s l s' ->
  exists n, length l = (3 * n)%nat /\ set_loop sep false l r s = Ok (s', Good (r ++ separated sep (repeat (lit "Success") n))).
Proof.
  intros sep s l s' r U. revert r. induction U as [s|s k val typ v s1 l s' T SV U IH]; intros r.
  - exists O. cbn [length set_loop repeat separated]. rewrite app_nil_r. auto.
  - cbn [set_loop]. rewrite (typed_value_typed _ _ _ T). cbn [rbind]. rewrite SV. cbn [rbind].
    destruct (IH (r ++ lit "Success" ++ sep_if l sep)) as (n & L & E). exists (S n). split; [cbn [length]; lia|].
    rewrite E. do 3 f_equal. rewrite <- !app_assoc. f_equal.
    destruct l as [|x l].
    + cbn [length] in L. replace n with O by lia. reflexivity.
    + destruct n as [|n]; [cbn [length] in L; lia|]. reflexivity.
Qed.
Lemma set_loop_reject : forall sep s pre s1 k val typ post msg r, updates s pre s1 -> rejects s1 k val typ msg ->
  exists s2, set_loop sep false (pre ++ k :: val :: typ :: post) r s = Ok (s2, Bad msg).
Proof.
  intros sep s pre s1 k val typ post msg r U R. revert r. induction U as [s|s k0 val0 typ0 v s1 l s' T SV U IH]; intros r.
  - cbn [app set_loop]. destruct R as [N|t I N|v s1 T SV].
    + destruct (typed_value_spec typ val) as [(w & E & t' & I' & V')|[(t' & E & I' & V')|(E & _)]]; [exfalso; eapply N; eauto|exfalso; eapply N; eauto|].
      rewrite E. cbn [rbind]. eexists. unfold quoted, dq. rewrite <- !app_assoc. reflexivity.
    + destruct (typed_value_spec typ val) as [(w & E & t' & I' & V')|[(t' & E & I' & V')|(E & Q)]].
      * pose proof (type_unique _ _ _ I I'). subst. exfalso. eapply N; eauto.
      * rewrite E. cbn [rbind]. eexists. unfold quoted, dq. rewrite <- !app_assoc. reflexivity.
      * exfalso. eapply Q; eauto.
    + rewrite (typed_value_typed _ _ _ T). cbn [rbind]. rewrite SV. cbn [rbind]. eexists. unfold quoted, dq. rewrite <- !app_assoc. reflexivity.
  - cbn [app set_loop]. rewrite (typed_value_typed _ _ _ T). cbn [rbind]. rewrite SV. cbn [rbind]. apply IH. exact R.
Qed.
(** conversely *)
Lemma set_loop_good : forall sep quiet n l r s s' t, length l = (3 * n)%nat -> set_loop sep quiet l r s = Ok (s', Good t) -> updates s l s'.
Proof.
  intros sep quiet. induction n as [|n IH]; intros l r s s' t L H.
  - destruct l; [|cbn [length] in L; lia]. cbn [set_loop] in H. inversion H; subst. constructor.
  - destruct l as [|k [|val [|typ l]]]; try (cbn [length] in L; lia). cbn [set_loop] in H.
    destruct (typed_value_spec typ val) as [(w & E & T)|[(t' & E & _)|(E & _)]]; rewrite E in H; cbn [rbind] in H; try discriminate.
    destruct (set_value s k w) as [[s1 b]| |] eqn:SV; try discriminate. cbn [rbind] in H. destruct b; [|discriminate].
    econstructor; eauto. eapply IH; [|exact H]. cbn [length] in L. lia.
Qed.
Lemma cli_set_good : forall x kvs sep quiet s s' t, cli_set_value x kvs sep quiet s = Ok (s', Good t) ->
  exists l n, x.(x_split) kvs = Some l /\ length l = (3 * S n)%nat /\ updates s l s'.
Proof.
  unfold cli_set_value. intros x kvs sep quiet s s' t H. destruct (x_split x kvs) as [l|]; [|discriminate].
  destruct (negb (nlen l mod 3 =? 0) || (nlen l =? 0)) eqn:C; [discriminate|]. unfold nlen in C.
  apply orb_false_iff in C as [C1 C2]. apply negb_false_iff, N.eqb_eq in C1. apply N.eqb_neq in C2.
  pose proof (N.div_mod (N.of_nat (length l)) 3) as D. rewrite C1 in D.
  exists l, (N.to_nat (N.of_nat (length l) / 3) - 1)%nat. split; auto.
  assert (L : length l = (3 * S (N.to_nat (N.of_nat (length l) / 3) - 1))%nat) by lia. split; auto.
  eapply set_loop_good; eauto.
Qed.
Lemma cli_set_ok : forall x kvs sep s l s', x.(x_split) kvs = Some l -> l <> [] -> updates s l s' ->
  exists n, length l = (3 * n)%nat /\ cli_set_value x kvs sep false s = Ok (s', Good (separated sep (repeat (lit "Success") n))).
Proof.
  intros x kvs sep s l s' X NE U. destruct (set_loop_ok sep s l s' [] U) as (n & L & E). exists n. split; auto.
  unfold cli_set_value. rewrite X. replace (negb (nlen l mod 3 =? 0) || (nlen l =? 0)) with false; auto.
  symmetry. unfold nlen. apply orb_false_iff. split.
  - apply negb_false_iff, N.eqb_eq. rewrite L. replace (N.of_nat (3 * n)) with (N.of_nat n * 3) by lia. apply N.mod_mul. lia.
  - apply N.eqb_neq. destruct l; [congruence|]. cbn [length]. lia.
Qed.
Lemma cli_set_reject : forall x kvs sep s pre s1 k val typ post msg n,
  x.(x_split) kvs = Some (pre ++ k :: val :: typ :: post) -> length (pre ++ k :: val :: typ :: post) = (3 * n)%nat ->
  updates s pre s1 -> rejects s1 k val typ msg -> exists s2, cli_set_value x kvs sep false s = Ok (s2, Bad msg).
Proof.
  intros x kvs sep s pre s1 k val typ post msg n X L U R. unfold cli_set_value. rewrite X.
  replace (negb (nlen (pre ++ k :: val :: typ :: post) mod 3 =? 0) || (nlen (pre ++ k :: val :: typ :: post) =? 0)) with false.
  - eapply set_loop_reject; eauto.
  - symmetry. unfold nlen. apply orb_false_iff. split.
    + apply negb_false_iff, N.eqb_eq. rewrite L. replace (N.of_nat (3 * n)) with (N.of_nat n * 3) by lia. apply N.mod_mul. lia.
    + apply N.eqb_neq. rewrite app_length. cbn [length]. lia.
Qed.

(** ** Documents that can be printed stay so *)
Lemma without_valid : forall d, datetime_validate d = true -> datetime_validate (without_z d) = true.
Proof.
  intros [d [[h m s f [[|a]|]]|]] H; auto.
Qed.
Lemma typed_scalar : forall typ val v, typed typ val v -> scalar_value v /\ validate v = true.
Proof.
  assert (K : forall w v, checked w = Some v -> v = w /\ validate w = true).
  { intros w v H. unfold checked in H. destruct (validate w); inversion H; auto. }
  intros typ val v (t & _ & V). destruct t; cbn [value_of] in V; try (apply K in V as [-> V]; split; [exact I|exact V]).
  - unfold bool_from_str in V. repeat match type of V with context [if ?c then _ else _] => destruct c end; inversion V; subst; (split; [exact I|reflexivity]).
  - destruct V as (d & P & ->). split; [exact I|]. apply datetime_parse_sound in P as [_ P]. cbn [validate] in *. apply without_valid; auto.
Qed.

Lemma upd_printable : forall id nv, tv_printable nv -> forall t, tv_printable t -> tv_printable (upd_tval id nv t).
Proof.
  intros id nv N. assert (C : forall c, (tv_printable c.(c_val) -> tv_printable (upd_tval id nv c.(c_val))) ->
    tv_printable c.(c_val) -> tv_printable (c_val (upd_c id nv c))).
  { intros c H P. rewrite upd_c_eq. cbn [c_val]. destruct (c_id c =? id); auto. }
  induction t using tval_ind'; intros P; try exact P.
  - inversion P as [| | | | | |vals' a b F|]; subst. rewrite upd_arr. constructor. rewrite Forall_forall in *. intros y Y.
    apply in_map_iff in Y as (x & <- & I). apply (C x.(av_val)); [apply H; auto|apply F; auto].
  - inversion P as [| | | | | | |kvs' b NE F]; subst. rewrite upd_inl. constructor.
    + intros Q. apply map_eq_nil in Q. contradiction.
    + rewrite Forall_forall in *. intros y Y. apply in_map_iff in Y as (x & <- & I). apply (C x.(tk_kv).(kv_val)); [apply H; auto|apply F; auto].
Qed.
Lemma upd_toml_printable : forall id nv d, tv_printable nv -> doc_printable d -> doc_printable (upd_toml id nv d).
Proof.
  intros id nv d N P. unfold doc_printable, upd_toml in *. rewrite Forall_forall in *. intros y Y.
  apply in_map_iff in Y as (e & <- & I). specialize (P e I). cbn [ne_expr]. unfold ex_printable, upd_expr in *. cbn [e_keyval].
  destruct (e_keyval (ne_expr e)) as [kv|]; auto. cbn [kv_val]. rewrite upd_c_eq. cbn [c_val].
  destruct (c_id (kv_val kv) =? id); auto. apply upd_printable; auto.
Qed.

Definition tval_of (v : value) : tval :=
  match v with
  | VInteger s => TInteger s | VFloat s => TFloat s | VBoolean b => TBoolean b | VDateTime d => TDateTime d
  | VString s t => TString s t | _ => TTable
  end.
Lemma convert_scalar : forall v n, scalar_value v -> validate v = true -> convert_vector v n = Ok (Some (tval_of v), n).
Proof. intros v n S V. destruct v; try destruct S; cbn [convert_vector]; rewrite V; reflexivity. Qed.
(** a scalar either replaces a scalar, or is refused, or the code panics *)
Lemma set_scalar_cases : forall s k v, scalar_value v -> validate v = true ->
  (exists c, valof s.(p_map) k = Some c /\ set_value s k v = Ok (write s (c.(c_id), tval_of v), true)) \/
  (get_value s k = Ok None /\ set_value s k v = Ok (s, false)) \/
  (exists c, valof s.(p_map) k = Some c /\ same_structure c.(c_val) v = false /\ set_value s k v = Panic).
Proof.
  intros s k v S V. unfold set_value, get_value, valof. destruct (hget k (p_map s)) as [hv|]; [|right; left; auto].
  destruct (hv_value hv) as [c|]; [|right; left; auto].
  destruct (same_structure (c_val c) v) eqn:E.
  - left. exists c. split; auto. destruct (c_val c); destruct v; try destruct S; try reflexivity;
      cbn [same_structure] in E; rewrite V in E; discriminate.
  - right; right. exists c. split; auto. split; auto.
    destruct (get_all_subkeys_ok (p_map s) k) as (ks & K & _). rewrite K. cbn [rbind].
    rewrite convert_scalar by auto. cbn [rbind]. destruct v; try destruct S; reflexivity.
Qed.
Lemma leaf_tval : forall v, tv_printable (tval_of v).
Proof. intros v. destruct v; constructor. Qed.
Lemma updates_printable : forall s l s', updates s l s' -> doc_printable s.(p_root) -> doc_printable s'.(p_root) /\ (s.(p_root) <> [] -> s'.(p_root) <> []).
Proof.
  intros s l s' U. induction U as [s|s k val typ v s1 l s' T SV U IH]; intros P; auto.
  destruct (typed_scalar _ _ _ T) as [S V].
  destruct (set_scalar_cases s k v S V) as [(c & VC & E)|[(_ & E)|(c & _ & _ & E)]]; rewrite E in SV; inversion SV; subst.
  destruct IH as [A B].
  - unfold write. cbn [p_root set_root]. apply upd_toml_printable; auto. apply leaf_tval.
  - split; auto. intros NE. apply B. unfold write. cbn [p_root set_root]. unfold upd_toml. intros Q. apply map_eq_nil in Q. contradiction.
Qed.
Lemma updates_reach : forall ovf s l s', reach ovf s -> updates s l s' -> reach ovf s'.
Proof. intros ovf s l s' R U. induction U; auto. apply IHU. eapply R_set; eauto. Qed.
Lemma updates_show : forall ovf s l s' t, reach ovf s -> updates s l s' -> show_parser s = Ok t -> exists t', show_parser s' = Ok t'.
Proof.
  intros ovf s l s' t R U H. apply (shaped_show s t (reach_shape _ _ R)) in H as (NE & P & _).
  destruct (updates_printable _ _ _ U P) as [A B]. eexists.
  apply (shaped_show s' _ (reach_shape _ _ (updates_reach _ _ _ _ R U))). split; [apply B; exact NE|]. split; [exact A|reflexivity].
Qed.

(** ** Runs *)
Definition printing (g : flags) : flags :=
  {| g_true := g.(g_true); g_false := g.(g_false); g_sep := g.(g_sep); g_start := g.(g_start); g_end := g.(g_end);
     g_arr_sep := g.(g_arr_sep); g_len := g.(g_len); g_strip := g.(g_strip); g_quiet := g.(g_quiet); g_print := true |}.
Lemma wrote_orun : forall A (r : res A) (k : A -> outcome) p, wrote (orun None r k) = Some p -> exists a, r = Ok a /\ wrote (k a) = Some p.
Proof. intros A r k p H. destruct r; cbn [orun wrote] in H; try discriminate. eauto. Qed.
Lemma wrote_finish : forall o path f rs s p, wrote (finish o path f rs s) = Some p -> f = Some p.
Proof.
  unfold finish. intros o path f rs s p H. destruct (o_print o); [|exact H]. destruct (show_parser s); cbn [orun wrote] in H; auto. discriminate.
Qed.

(** a file is written only if everything went well before *)
Lemma run_writes : forall x o m path text p c, wrote (process_document x o m path text) = Some (p, c) ->
  exists a l n s s', m.(m_set) = Some a /\ x.(x_split) a = Some l /\ length l = (3 * S n)%nat /\
    p = or_else m.(m_out) path /\ parse (new_parser x.(x_ovf)) text = Ok (s, Full) /\ updates s l s' /\
    (show_parser s' = Ok c \/ show_parser s' = Panic /\ c = []).
Proof.
  unfold process_document. intros x o m path text p c H.
  apply wrote_orun in H as ([s r] & P & H). destruct (refusal x path r) as [msg|] eqn:RF; [discriminate|].
  assert (r = Full) by (destruct r; cbn [refusal] in RF; congruence). subst r. clear RF.
  apply wrote_orun in H as ([rs1 u1] & _ & H). apply wrote_orun in H as ([rs2 u2] & _ & H).
  apply wrote_orun in H as ([rs3 u3] & _ & H). apply wrote_orun in H as ([rs4 u4] & _ & H).
  destruct (m_set m) as [a|].
  - destruct (last_good rs4); [|apply wrote_finish in H; discriminate].
    apply wrote_orun in H as ([s' [t|e]] & SV & H); [|apply wrote_finish in H; discriminate].
    apply cli_set_good in SV as (l & n & X & L & U). exists a, l, n, s, s'. split; auto. split; auto. split; auto.
    destruct (show_parser s') as [t'| |] eqn:SH; cbn [orun wrote] in H.
    + apply wrote_finish in H. inversion H; subst. auto 8.
    + inversion H; subst. auto 8.
    + discriminate.
  - destruct rs4; [discriminate|]. apply wrote_finish in H. discriminate.
Qed.

(** the options in force *)
Lemma opt_sep : forall g, o_sep (new_options g) = separator g.
Proof. reflexivity. Qed.
Lemma opt_start : forall g, o_start (new_options g) = or_else g.(g_start) (lit "[").
Proof. reflexivity. Qed.
Lemma opt_end : forall g, o_end (new_options g) = or_else g.(g_end) (lit "]").
Proof. reflexivity. Qed.
Lemma opt_arr_sep : forall g, o_arr_sep (new_options g) = or_else g.(g_arr_sep) (lit ", ").
Proof. reflexivity. Qed.
Lemma opt_true : forall g, o_true (new_options g) = or_else g.(g_true) (lit "true").
Proof. reflexivity. Qed.
Lemma opt_false : forall g, o_false (new_options g) = or_else g.(g_false) (lit "false").
Proof. reflexivity. Qed.
Lemma opt_len : forall g, o_len (new_options g) = g.(g_len).
Proof. intros g. unfold new_options. cbn [o_len default_options]. destruct (g_len g); reflexivity. Qed.
Lemma opt_strip : forall g, o_strip (new_options g) = g.(g_strip).
Proof. intros g. unfold new_options. cbn [o_strip default_options]. destruct (g_strip g); reflexivity. Qed.
Lemma opt_print : forall g, o_print (new_options g) = g.(g_print).
Proof. intros g. unfold new_options. cbn [o_print default_options]. destruct (g_print g); reflexivity. Qed.
Lemma opt_quiet : forall g, o_quiet (new_options g) = false.
Proof. reflexivity. Qed.

Lemma run_only_get : forall x g csv path text s, parse (new_parser x.(x_ovf)) text = Ok (s, Full) -> g.(g_print) = false ->
  forall r, cli_get_value x csv (separator g) g.(g_strip) s = Ok r ->
  process_document x (new_options g) (get_values csv) path text =
  Finished (match r with Good t => t ++ [10] | Bad e => complaint path e end) None.
Proof.
  intros x g csv path text s P NP r H. unfold process_document. rewrite P. cbn [orun refusal get_values m_get m_has m_children m_any m_set step last_good rev].
  rewrite opt_sep.
  rewrite opt_strip.
  rewrite H. cbn [rbind orun app]. unfold finish. rewrite opt_print, NP.
  rewrite opt_quiet. cbn [print_results]. destruct r; f_equal.
  - unfold complaint, dq. rewrite <- !app_assoc. reflexivity.
Qed.
Lemma run_only_children : forall x g csv path text s, parse (new_parser x.(x_ovf)) text = Ok (s, Full) -> g.(g_print) = false ->
  process_document x (new_options g) (get_childs csv) path text =
  Finished (match cli_get_children x csv (separator g) (or_else g.(g_start) (lit "[")) (or_else g.(g_end) (lit "]"))
                    (or_else g.(g_arr_sep) (lit ", ")) g.(g_len) s with
            | Good t => t ++ [10] | Bad e => complaint path e end) None.
Proof.
  intros x g csv path text s P NP. unfold process_document. rewrite P. cbn [orun refusal get_childs m_get m_has m_children m_any m_set step last_good rev rbind].
  rewrite opt_sep.
  rewrite opt_start.
  rewrite opt_end.
  rewrite opt_arr_sep.
  rewrite opt_len.
  cbn [rbind orun app]. unfold finish. rewrite opt_print, NP.
  rewrite opt_quiet. cbn [print_results].
  match goal with |- context [match ?c with Good _ => _ | Bad _ => _ end] => destruct c end; f_equal.
  unfold complaint, dq. rewrite <- !app_assoc. reflexivity.
Qed.

Lemma labelled_app : forall tl fl bs1 bs2 i ts1 ts2, labelled tl fl i bs1 ts1 -> labelled tl fl (i + length bs1) bs2 ts2 ->
  labelled tl fl i (bs1 ++ bs2) (ts1 ++ ts2).
Proof.
  intros tl fl bs1 bs2 i ts1 ts2 L. induction L as [i|i b bs t f ts T F L IH]; intros L2.
  - cbn [length] in L2. rewrite Nat.add_0_r in L2. exact L2.
  - cbn [app]. constructor; auto. apply IH. cbn [length] in L2. replace (S i + length bs)%nat with (i + S (length bs))%nat by lia. exact L2.
Qed.
Lemma labelled_len : forall tl fl i bs ts, labelled tl fl i bs ts -> length bs = length ts.
Proof. intros tl fl i bs ts L. induction L; cbn [length]; auto. Qed.
Lemma separated_app : forall sep a b, a <> [] -> b <> [] -> separated sep (a ++ b) = separated sep a ++ sep ++ separated sep b.
Proof.
  intros sep. induction a as [|x a IH]; intros b A B; [congruence|]. destruct a as [|y a].
  - destruct b; [congruence|]. reflexivity.
  - cbn [app]. change (separated sep (x :: y :: a ++ b)) with (x ++ sep ++ separated sep ((y :: a) ++ b)).
    rewrite IH by (auto; discriminate). change (separated sep (x :: y :: a)) with (x ++ sep ++ separated sep (y :: a)).
    rewrite <- !app_assoc. reflexivity.
Qed.
Lemma has_value_answers : forall s ks bs, Forall2 (has_a_value s) ks bs ->
  Forall2 (fun k b => (let? o := get_value s k in Ok (is_some o)) = Ok b) ks bs.
Proof.
  intros s ks bs F. induction F as [|k b ks bs H F IH]; constructor; auto. destruct b; cbn [has_a_value] in H.
  - destruct H as (v & ->). reflexivity.
  - rewrite H. reflexivity.
Qed.
Lemma has_kids_answers : forall s ks bs, Forall2 (has_kids s) ks bs -> Forall2 (fun k b => Ok (any_children s k) = Ok b) ks bs.
Proof.
  intros s ks bs F. induction F as [|k b ks bs H F IH]; constructor; auto. f_equal. unfold any_children. destruct b; cbn [has_kids] in H.
  - destruct H as (c & -> & A & B). destruct c as [n|l].
    + destruct n; [congruence|reflexivity].
    + destruct l; [congruence|]. unfold nlen. cbn [length]. lia.
  - destruct H as [->|[->| ->]]; reflexivity.
Qed.

Lemma label_all : forall tl fl n, n <> O -> enough tl n -> enough fl n -> forall j, (j < n)%nat -> label tl j <> None /\ label fl j <> None.
Proof. intros tl fl n N A B j J. split; revert j J; apply label_enough; auto. Qed.
Lemma label_fails : forall tl fl n, ~ (enough tl n /\ enough fl n) -> exists j, (j < n)%nat /\ (label tl j = None \/ label fl j = None).
Proof.
  intros tl fl n N.
  assert (D : (forall j, (j < n)%nat -> label tl j <> None /\ label fl j <> None) \/ exists j, (j < n)%nat /\ (label tl j = None \/ label fl j = None)).
  { clear N. induction n as [|n [IH|(j & J & H)]].
    - left. intros j J. lia.
    - destruct (label tl n) eqn:T; [|right; exists n; auto]. destruct (label fl n) eqn:F; [|right; exists n; auto].
      left. intros j J. destruct (Nat.eq_dec j n) as [->|]; [split; congruence|]. apply IH. lia.
    - right. exists j. split; auto. }
  destruct D as [D|D]; auto. exfalso. destruct n as [|n].
  - apply N. split; right; lia.
  - apply N. split.
    + destruct (proj1 (label_enough tl (S n))) as [X|X]; [intros; apply D; auto|discriminate|exact X].
    + destruct (proj1 (label_enough fl (S n))) as [X|X]; [intros; apply D; auto|discriminate|exact X].
Qed.

Lemma run_ask : forall x g c1 c2 ks1 ks2 bs1 bs2 tl fl path text s, parse (new_parser x.(x_ovf)) text = Ok (s, Full) -> g.(g_print) = false ->
  asked x c1 ks1 -> asked x c2 ks2 -> ks1 ++ ks2 <> [] ->
  labels x g.(g_true) (lit "true") = Some tl -> labels x g.(g_false) (lit "false") = Some fl ->
  Forall2 (has_a_value s) ks1 bs1 -> Forall2 (has_kids s) ks2 bs2 ->
  let n := (length ks1 + length ks2)%nat in
  let run := process_document x (new_options g) (ask c1 c2) path text in
  (enough tl n -> enough fl n -> exists ts, labelled tl fl 0 (bs1 ++ bs2) ts /\ run = Finished (separated (separator g) ts ++ [10]) None) /\
  (~ (enough tl n /\ enough fl n) -> run = Crash None).
Proof.
  intros x g c1 c2 ks1 ks2 bs1 bs2 tl fl path text s P NP A1 A2 NE TL FL F1 F2 n run.
  apply has_value_answers in F1 as G1. apply has_kids_answers in F2 as G2.
  pose proof (forall2_len _ _ _ _ _ F1) as L1. pose proof (forall2_len _ _ _ _ _ F2) as L2.
  unfold run, process_document. rewrite P. cbn [orun refusal ask m_get m_has m_children m_any m_set step last_good rev].
  rewrite opt_sep, opt_true, opt_false. unfold labels in TL, FL.
  change (match g_true g with Some t => t | None => lit "true" end) with (or_else (g_true g) (lit "true")) in TL.
  change (match g_false g with Some t => t | None => lit "false" end) with (or_else (g_false g) (lit "false")) in FL.
  unfold finish. rewrite opt_print, NP, opt_quiet.
  split.
  - intros E1 E2. assert (N0 : n <> O).
    { unfold n. destruct ks1; [|cbn [length]; lia]. destruct ks2; [cbn [app] in NE; congruence|cbn [length]; lia]. }
    pose proof (label_all _ _ _ N0 E1 E2) as LA.
    destruct (labelled_ex tl fl bs1 0) as (ts1 & LB1).
    { intros j J. apply LA. unfold n. lia. }
    destruct (labelled_ex tl fl bs2 (length ks1)) as (ts2 & LB2).
    { intros j J. apply LA. unfold n. lia. }
    pose proof (labelled_len _ _ _ _ _ LB1) as M1. pose proof (labelled_len _ _ _ _ _ LB2) as M2.
    exists (ts1 ++ ts2). split; [apply labelled_app; auto; rewrite Nat.add_0_l, <- L1; exact LB2|].
    pose proof (has_loop_ok _ (separator g) (or_else (g_true g) (lit "true")) (or_else (g_false g) (lit "false")) tl fl ks1 bs1 ts1 0 [] G1 LB1) as H1.
    pose proof (has_loop_ok _ (separator g) (or_else (g_true g) (lit "true")) (or_else (g_false g) (lit "false")) tl fl ks2 bs2 ts2 (length ks1) [] G2 LB2) as H2.
    cbn [app] in H1, H2. change (N.of_nat 0) with 0 in H1.
    destruct c1 as [c1|], c2 as [c2|]; cbn [asked] in A1, A2; cbn [rbind orun app last_good rev step].
    + destruct A1 as [X1 N1], A2 as [X2 N2]. unfold cli_has_value at 1. rewrite X1, TL, FL.
      destruct ks1 as [|k1 ks1]; [congruence|]. rewrite H1. cbn [rbind orun app last_good rev step].
      unfold cli_has_children. rewrite X2, TL, FL. destruct ks2 as [|k2 ks2]; [congruence|]. unfold nlen. rewrite H2. cbn [rbind orun app last_good rev print_results].
      f_equal. rewrite separated_app, <- !app_assoc; auto.
      * destruct ts1; [cbn [length] in L1, M1; lia|discriminate].
      * destruct ts2; [cbn [length] in L2, M2; lia|discriminate].
    + destruct A1 as [X1 N1]. subst ks2. unfold cli_has_value. rewrite X1, TL, FL.
      destruct ks1 as [|k1 ks1]; [congruence|]. rewrite H1. cbn [rbind orun app last_good rev print_results].
      destruct ts2; [|cbn [length] in L2, M2; lia]. rewrite !app_nil_r. reflexivity.
    + destruct A2 as [X2 N2]. subst ks1. cbn [rbind orun app last_good rev step]. unfold cli_has_children. rewrite X2, TL, FL.
      destruct ks2 as [|k2 ks2]; [congruence|]. cbn [length] in H2. change (N.of_nat 0) with 0 in H2. rewrite H2. cbn [rbind orun app last_good rev print_results].
      destruct ts1; [|cbn [length] in L1, M1; lia]. reflexivity.
    + exfalso. subst. apply NE. reflexivity.
  - intros NN. destruct (label_fails _ _ _ NN) as (j & J & LF).
    destruct (Nat.lt_ge_cases j (length ks1)) as [JJ|JJ].
    + destruct c1 as [c1|]; cbn [asked] in A1; [|subst ks1; cbn [length] in JJ; lia]. cbn [rbind orun app last_good rev step]. destruct A1 as [X1 N1].
      unfold cli_has_value. rewrite X1, TL, FL. destruct ks1 as [|k1 ks1]; [congruence|].
      rewrite (has_loop_crash _ _ _ _ tl fl (k1 :: ks1) bs1 0 [] G1) by (exists j; auto). reflexivity.
    + destruct c2 as [c2|]; cbn [asked] in A2; [|subst ks2; unfold n in J; cbn [length] in J; lia]. destruct A2 as [X2 N2].
      assert (CR : exists j, (j < length ks2)%nat /\ (label tl (length ks1 + j) = None \/ label fl (length ks1 + j) = None)).
      { exists (j - length ks1)%nat. unfold n in J. split; [lia|]. replace (length ks1 + (j - length ks1))%nat with j by lia. auto. }
      destruct c1 as [c1|]; cbn [asked] in A1.
      * destruct A1 as [X1 N1]. cbn [rbind orun app last_good rev step]. unfold cli_has_value. rewrite X1, TL, FL. destruct ks1 as [|k1 ks1]; [congruence|].
        destruct (has_loop _ _ _ _ _ _ 0 (k1 :: ks1) []) as [[t|e]| |] eqn:HL; cbn [rbind orun app last_good rev step]; auto.
        -- unfold cli_has_children. rewrite X2, TL, FL. destruct ks2 as [|k2 ks2]; [congruence|]. unfold nlen.
           rewrite (has_loop_crash _ _ _ _ tl fl (k2 :: ks2) bs2 _ [] G2 CR). reflexivity.
        -- exfalso. exact (has_loop_good _ _ _ _ _ _ _ _ _ _ _ G1 HL).
        -- exfalso. exact (has_loop_nofuel _ _ _ _ _ _ _ _ _ _ G1 HL).
      * subst ks1. cbn [rbind orun app last_good rev step]. unfold cli_has_children. rewrite X2, TL, FL. destruct ks2 as [|k2 ks2]; [congruence|].
        cbn [length] in CR. change 0 with (N.of_nat 0). rewrite (has_loop_crash _ _ _ _ tl fl (k2 :: ks2) bs2 0 [] G2 CR). reflexivity.
Qed.

Lemma run_only_set : forall x g kvs out path text s s' r, parse (new_parser x.(x_ovf)) text = Ok (s, Full) -> g.(g_print) = false ->
  cli_set_value x kvs (separator g) false s = Ok (s', r) ->
  process_document x (new_options g) (set_values kvs out) path text =
  match r with
  | Good t => match show_parser s' with
              | Ok c => Finished (t ++ [10]) (Some (or_else out path, c))
              | Panic => Crash (Some (or_else out path, []))
              | Fuel => Stuck
              end
  | Bad e => Finished (complaint path e) None
  end.
Proof.
  intros x g kvs out path text s s' r P NP H. unfold process_document. rewrite P.
  cbn [orun refusal set_values m_get m_has m_children m_any m_set m_out step last_good rev].
  rewrite opt_sep, opt_quiet, H. cbn [orun app]. unfold finish. rewrite opt_print, NP, opt_quiet.
  destruct r as [t|e].
  - destruct (show_parser s') as [c| |]; reflexivity.
  - unfold complaint, dq. cbn [print_results]. rewrite app_nil_r, <- !app_assoc. reflexivity.
Qed.

(** two runs that differ in print-doc only *)
Lemma run_printing : forall x g m path text s t out f, parse (new_parser x.(x_ovf)) text = Ok (s, Full) -> g.(g_print) = false ->
  show_parser s = Ok t ->
  process_document x (new_options g) m path text = Finished out f ->
  (m.(m_set) = None -> process_document x (new_options (printing g)) m path text = Finished (out ++ t ++ [10]) f) /\
  (forall p c, f = Some (p, c) -> process_document x (new_options (printing g)) m path text = Finished (out ++ c ++ [10]) f).
Proof.
  intros x g m path text s t out f P NP SH H.
  assert (FI : forall fi rs s0, finish (new_options (printing g)) path fi rs s0 =
    match finish (new_options g) path fi rs s0 with
    | Finished o f0 => orun fi (show_parser s0) (fun c => Finished (o ++ line_of c) f0) | r => r end).
  { intros fi rs s0. unfold finish. rewrite !opt_print, NP. cbn [printing g_print]. reflexivity. }
  assert (FN : forall fi rs s0 o f0, finish (new_options g) path fi rs s0 = Finished o f0 -> f0 = fi).
  { intros fi rs s0 o f0. unfold finish. rewrite opt_print, NP. congruence. }
  unfold process_document in *. rewrite P in *. cbn [orun refusal] in *.
  change (o_sep (new_options (printing g))) with (o_sep (new_options g)).
  change (o_strip (new_options (printing g))) with (o_strip (new_options g)).
  change (o_true (new_options (printing g))) with (o_true (new_options g)).
  change (o_false (new_options (printing g))) with (o_false (new_options g)).
  change (o_start (new_options (printing g))) with (o_start (new_options g)).
  change (o_end (new_options (printing g))) with (o_end (new_options g)).
  change (o_arr_sep (new_options (printing g))) with (o_arr_sep (new_options g)).
  change (o_len (new_options (printing g))) with (o_len (new_options g)).
  change (o_quiet (new_options (printing g))) with (o_quiet (new_options g)).
  destruct (step (m_get m) _ _ _) as [[rs1 u1]| |]; cbn [orun] in *; try discriminate.
  destruct (step (m_has m) _ _ _) as [[rs2 u2]| |]; cbn [orun] in *; try discriminate.
  destruct (step (m_children m) _ _ _) as [[rs3 u3]| |]; cbn [orun] in *; try discriminate.
  destruct (step (m_any m) _ _ _) as [[rs4 u4]| |]; cbn [orun] in *; try discriminate.
  destruct (m_set m) as [a|].
  - split; [discriminate|]. intros p c ->. destruct (last_good rs4).
    + destruct (cli_set_value _ _ _ _ _) as [[s1 r]| |]; cbn [orun] in *; try discriminate. destruct r as [o|e].
      * destruct (show_parser s1) as [c1| |] eqn:S1; cbn [orun] in *; try discriminate. rewrite FI, H. apply FN in H. inversion H; subst.
        rewrite S1. reflexivity.
      * apply FN in H. discriminate.
    + apply FN in H. discriminate.
  - destruct rs4 as [|r4 rs4]; [discriminate|]. rewrite FI, H. pose proof (FN _ _ _ _ _ H) as ->. rewrite SH. cbn [orun].
    split; auto. intros p c E. discriminate.
Qed.

Lemma quiet_ignored : forall x g b m path text,
  process_document x (new_options {| g_true := g.(g_true); g_false := g.(g_false); g_sep := g.(g_sep); g_start := g.(g_start);
    g_end := g.(g_end); g_arr_sep := g.(g_arr_sep); g_len := g.(g_len); g_strip := g.(g_strip); g_quiet := b; g_print := g.(g_print) |})
    m path text = process_document x (new_options g) m path text.
Proof. reflexivity. Qed.

(** looking values up depends on the values only *)
Lemma get_loop_ext : forall sep strip s s' keys r, (forall k, In k keys -> get_value s' k = get_value s k) ->
  get_loop sep strip s' keys r = get_loop sep strip s keys r.
Proof.
  intros sep strip s s'. induction keys as [|k keys IH]; intros r H; [reflexivity|]. cbn [get_loop].
  rewrite H by (left; reflexivity). destruct (get_value s k) as [[v|]| |]; cbn [rbind]; auto.
  destruct (show_value v) as [t| |]; cbn [rbind]; auto. apply IH. intros; apply H; right; auto.
Qed.
Lemma run_get_ext : forall x g csv path text text' s s' keys,
  parse (new_parser x.(x_ovf)) text = Ok (s, Full) -> parse (new_parser x.(x_ovf)) text' = Ok (s', Full) -> g.(g_print) = false ->
  x.(x_split) csv = Some keys -> (forall k, In k keys -> get_value s' k = get_value s k) ->
  process_document x (new_options g) (get_values csv) path text' = process_document x (new_options g) (get_values csv) path text.
Proof.
  intros x g csv path text text' s s' keys P P' NP X H.
  assert (E : cli_get_value x csv (separator g) g.(g_strip) s' = cli_get_value x csv (separator g) g.(g_strip) s).
  { unfold cli_get_value. rewrite X. destruct keys as [|k keys]; auto. apply get_loop_ext; auto. }
  unfold process_document. rewrite P, P'. cbn [orun refusal get_values m_get m_has m_children m_any m_set step last_good rev].
  rewrite opt_sep, opt_strip, E. destruct (cli_get_value x csv (separator g) (g_strip g) s) as [r| |]; cbn [rbind orun]; auto.
  unfold finish. rewrite opt_print, NP. reflexivity.
Qed.

(** nothing runs after a command that failed *)
Lemma run_get_bad : forall x g m csv path text s e, parse (new_parser x.(x_ovf)) text = Ok (s, Full) -> g.(g_print) = false ->
  m.(m_get) = Some csv -> cli_get_value x csv (separator g) g.(g_strip) s = Ok (Bad e) ->
  process_document x (new_options g) m path text = Finished (complaint path e) None.
Proof.
  intros x g m csv path text s e P NP M H. unfold process_document. rewrite P. cbn [orun refusal]. rewrite M.
  cbn [step last_good rev]. rewrite opt_sep, opt_strip, H. cbn [rbind orun app].
  assert (Q : forall A (arg : option str) (d : A) (run : str -> res (cres * A)), step arg [Bad e] d run = Ok ([Bad e], d)).
  { intros A [a|] d run; reflexivity. }
  rewrite Q. cbn [orun]. rewrite Q. cbn [orun]. rewrite Q. cbn [orun].
  assert (F : finish (new_options g) path None [Bad e] s = Finished (complaint path e) None).
  { unfold finish. rewrite opt_print, NP, opt_quiet. cbn [print_results]. unfold complaint, dq. rewrite app_nil_r, <- !app_assoc. reflexivity. }
  destruct (m_set m); cbn [last_good rev app]; exact F.
Qed.

(** texts of date-times *)
Lemma datetime_parse_digits : forall s d, datetime_parse s = Ok (Some (VDateTime d)) -> datetime_digits d.
Proof.
  unfold datetime_parse. intros s d H. apply rbind_ok in H as ([s1 r] & H1 & H).
  destruct r as [[|c rest] o| |]; try discriminate. inversion H as [E]. clear H.
  unfold checked in E. destruct (validate (VDateTime o)) eqn:V; [|discriminate]. inversion E; subst.
  unfold date_time in H1. apply rbind_ok in H1 as ([s2 r2] & H2 & H1).
  destruct r2 as [r2 a| |]; try discriminate. apply dti_done in H2 as (-> & -> & D).
  cbn [validate] in V. destruct (datetime_validate a) eqn:V2.
  - inversion H1; subst. auto.
  - apply rbind_ok in H1 as ([[? ?] ?] & _ & H1). inversion H1; subst. congruence.
Qed.
Lemma without_digits : forall d, datetime_digits d -> datetime_digits (without_z d).
Proof.
  intros [d [[h m s f [[|a]|]]|]] [A B]; split; auto; cbn in *; tauto.
Qed.
Lemma without_text : forall d, without_z d = d \/ show_datetime d = show_datetime (without_z d) ++ lit "Z".
Proof.
  intros [d [[h m s f [[|a]|]]|]]; auto. right. unfold show_datetime, without_z. cbn [dt_date dt_time t_offset]. unfold show_time.
  cbn [t_hour t_minute t_second t_fraction t_offset show_time_offset]. rewrite <- !app_assoc. destruct f; rewrite <- ?app_assoc; reflexivity.
Qed.

(** the value of a text of a type *)
Lemma typed_spells : forall name val v, typed name val v ->
  exists t, In name (type_names t) /\
    (has_text t val v \/ t = TyDate /\ exists d, v = VDateTime d /\ val = spelling v ++ lit "Z").
Proof.
  assert (K : forall w v, checked w = Some v -> v = w).
  { intros w v H. unfold checked in H. destruct (validate w); congruence. }
  intros name val v (t & I & V). exists t. split; auto. destruct t; cbn [value_of has_text] in *; try (left; apply K; exact V).
  - left. apply CtorFacts.bool_from_str_spec in V as [[A ->]|[A ->]]; [exists true|exists false]; auto.
  - destruct V as (d & P & ->). apply datetime_parse_sound in P as [S _]. cbn [show_value] in S. inversion S as [S'].
    destruct (without_text d) as [E|E].
    + left. exists d. rewrite E. cbn [spelling]. rewrite <- show_datetime_src. auto.
    + right. split; auto. exists (without_z d). cbn [spelling]. rewrite <- show_datetime_src. auto.
Qed.
Lemma typed_date_digits : forall val v, value_of TyDate val v -> exists d, v = VDateTime d /\ datetime_digits d /\ validate v = true.
Proof.
  intros val v (d & P & ->). exists (without_z d). split; auto. split; [apply without_digits; eapply datetime_parse_digits; eauto|].
  apply without_valid. apply datetime_parse_sound in P as [_ P]. exact P.
Qed.
