(** The value parser on the text of a scalar. *)
From Coq Require Import Lia ZifyBool ZifyNat ZifyN.
From Verif Require Import Str Regex Types Ast State Nom Keys Grammar Facts Spec TypesFacts RegexFacts
  NomFacts DateFacts NumFacts StringFacts.

(** ** states *)

Lemma add_lines_0 : forall s, add_lines 0 s = s.
Proof. intros []. unfold add_lines, set_line. cbn. rewrite N.add_0_r. auto. Qed.

Lemma add_lines_add : forall a b s, add_lines a (add_lines b s) = add_lines (b + a) s.
Proof. intros a b []. unfold add_lines, set_line. cbn. rewrite N.add_assoc. auto. Qed.

(** ** counting line ends *)

Definition uni (s : str) : Prop := Forall (fun c => c <= 0x10FFFF) s.

Lemma line_feeds_app : forall a b, line_feeds (a ++ b) = line_feeds a + line_feeds b.
Proof. induction a; intros; cbn [app line_feeds]; auto. rewrite IHa. lia. Qed.

(** split at the first line feed *)
Lemma first_lf : forall s, (line_feeds s = 0 /\ ~ In 10 s) \/
  exists p r, s = p ++ 10 :: r /\ ~ In 10 p.
Proof.
  induction s as [|c s IH].
  - left. split; auto.
  - destruct (N.eqb_spec c 10).
    + subst. right. exists [], s. auto.
    + destruct IH as [[H1 H2]|(p & r & -> & H)].
      * left. cbn [line_feeds]. destruct (N.eqb_spec c 10); [congruence|]. split; [lia|].
        intros [->|I]; auto.
      * right. exists (c :: p), r. split; auto. intros [->|I]; auto.
Qed.

Lemma no_lf : forall p, ~ In 10 p -> line_feeds p = 0.
Proof.
  induction p; intros H; cbn [line_feeds]; auto. destruct (N.eqb_spec a 10).
  - subst. exfalso. apply H. left; auto.
  - rewrite IHp; [auto|]. intros I; apply H; right; auto.
Qed.

Lemma rm_nl : forall s k, rm r_nl s k =
  match s with
  | c :: s' => if c =? 10 then k s'
               else if c =? 13 then match s' with d :: s'' => if d =? 10 then k s'' else None | [] => None end
               else None
  | [] => None
  end.
Proof.
  intros s k. unfold r_nl.
  change (match rm (RChr 10) s k with Some x => Some x | None => rm (RStr [13;10]) s k end =
          match s with
  | c :: s' => if c =? 10 then k s'
               else if c =? 13 then match s' with d :: s'' => if d =? 10 then k s'' else None | [] => None end
               else None
  | [] => None
  end). rewrite rm_chr, rm_str.
  destruct s as [|c s]; auto. cbn [starts_with length skipn]. rewrite (N.eqb_sym 13 c).
  destruct (N.eqb_spec c 10).
  - subst. destruct (k s); auto.
  - destruct (c =? 13); auto. destruct s as [|d s]; auto. rewrite andb_true_r, (N.eqb_sym 10 d). auto.
Qed.

Definition not_lf := [(0,9); (11,0x10FFFF)].

Lemma rm_line_some : forall p r n, ~ In 10 p -> uni p -> (length p <= n)%nat ->
  star_loop false (RCls not_lf) (fun s => rm r_nl s (fun s => Some s)) n (p ++ 10 :: r) = Some r.
Proof.
  induction p as [|c p IH]; intros r n H U L.
  - destruct n; cbn [star_loop app]; rewrite rm_nl; auto.
  - destruct n; [simpl in L; lia|]. inversion U; subst. simpl in L. cbn [star_loop app]. rewrite rm_nl.
    assert (c <> 10) by (intros ->; apply H; left; auto).
    assert (c =? 10 = false) as -> by lia.
    match goal with |- context [if c =? 13 then ?a else ?b] =>
      assert (K : (if c =? 13 then a else b) = None \/ (if c =? 13 then a else b) = Some r) end.
    { destruct (c =? 13); auto. destruct p as [|d p]; cbn [app]; [right; auto|]. left.
      destruct (N.eqb_spec d 10); auto. subst. exfalso. apply H. right. left. auto. }
    destruct K as [-> | ->]; auto.
    assert (E : rm (RCls not_lf) (c :: p ++ 10 :: r)
      (star_loop false (RCls not_lf) (fun s => rm r_nl s (fun s => Some s)) n) =
      star_loop false (RCls not_lf) (fun s => rm r_nl s (fun s => Some s)) n (p ++ 10 :: r)).
    { cbn [rm in_ranges not_lf]. assert ((0 <=? c) && (c <=? 9) || ((11 <=? c) && (c <=? 1114111) || false) = true) as ->; auto. lia. }
    rewrite E. apply IH; auto; [|lia]. intros I; apply H; right; auto.
Qed.

Lemma rm_line_none : forall s n, ~ In 10 s ->
  star_loop false (RCls not_lf) (fun s => rm r_nl s (fun s => Some s)) n s = None.
Proof.
  intros s n. revert s. induction n; intros s H.
  - cbn [star_loop]. rewrite rm_nl. destruct s as [|c s]; auto.
    destruct (N.eqb_spec c 10); [subst; exfalso; apply H; left; auto|].
    destruct (c =? 13); auto. destruct s as [|d s]; auto.
    destruct (N.eqb_spec d 10); [subst; exfalso; apply H; right; left; auto|]. auto.
  - cbn [star_loop].
    assert (E : rm r_nl s (fun s => Some s) = None).
    { rewrite rm_nl. destruct s as [|c s]; auto.
      destruct (N.eqb_spec c 10); [subst; exfalso; apply H; left; auto|].
      destruct (c =? 13); auto. destruct s as [|d s]; auto.
      destruct (N.eqb_spec d 10); [subst; exfalso; apply H; right; left; auto|]. auto. }
    rewrite E. destruct s as [|c s]; auto. rewrite det_cls. unfold cls_step.
    destruct (in_ranges c not_lf); auto. apply IHn. intros I; apply H; right; auto.
Qed.

Lemma full_line_some : forall p r, ~ In 10 p -> uni p ->
  re_match re_full_line (p ++ 10 :: r) = Some (p ++ [10], r).
Proof.
  intros. apply re_match_rm; [rewrite <- app_assoc; auto|]. unfold re_full_line.
  rewrite rm_seq, rm_star. fold not_lf. apply rm_line_some; auto. rewrite app_length; lia.
Qed.

Lemma full_line_none : forall s, ~ In 10 s -> re_match re_full_line s = None.
Proof.
  intros. unfold re_match, re_full_line. rewrite rm_seq, rm_star. fold not_lf.
  rewrite rm_line_none; auto.
Qed.

Lemma count_lines_spec : forall s, uni s -> count_lines s = line_feeds s.
Proof.
  intros s U. unfold count_lines.
  assert (H : forall n s, (length s <= n)%nat -> uni s -> count_lines_loop n s = line_feeds s).
  { clear. induction n; intros s L U.
    - destruct s; [auto|simpl in L; lia].
    - cbn [count_lines_loop]. destruct (first_lf s) as [[H1 H2]|(p & r & -> & H)].
      + rewrite full_line_none; auto.
      + unfold uni in U. apply Forall_app in U as [U1 U2]. inversion U2; subst.
        rewrite full_line_some; auto. rewrite IHn; auto.
        * rewrite line_feeds_app, (no_lf p) by auto. cbn [line_feeds]. change (10 =? 10) with true. cbv iota. lia.
        * rewrite app_length in L. simpl in L. lia. }
  apply H; auto.
Qed.

(** ** strings *)

Lemma strip_ok : forall q x, strip (length q) (q ++ x ++ q) = x.
Proof.
  intros. unfold strip. rewrite skipn_app, skipn_all, Nat.sub_diag. cbn [skipn app].
  rewrite !app_length. replace (length q + (length x + length q) - length q - length q)%nat with (length x) by lia.
  rewrite firstn_app, firstn_all, Nat.sub_diag. cbn [firstn]. apply app_nil_r.
Qed.

Lemma raw_none : forall q a i, starts_with q i = false ->
  re_match (RSeq (RStr q) a) i = None.
Proof. intros. unfold re_match. rewrite rm_seq, rm_str, H. auto. Qed.

Lemma raw_none1 : forall c a i, starts_with [c] i = false -> re_match (RSeq (RChr c) a) i = None.
Proof.
  intros. unfold re_match. rewrite rm_seq, rm_chr. destruct i as [|d i]; auto.
  cbn [starts_with] in H. rewrite andb_true_r, N.eqb_sym in H. rewrite H. auto.
Qed.

Lemma raw_err : forall re s i (f : str -> str) (g : str -> tval), re_match re i = None ->
  pmap (complete (pmap (re_find re) f)) g s i = Ok (s, Error).
Proof.
  intros. apply pmap_err. apply complete_err. left. apply pmap_err. apply re_find_err; auto.
Qed.

Lemma raw_ml_err : forall re s i h (f : str -> str) (g : str -> tval), re_match re i = None ->
  pmap (complete (pmap (x <-- re_find re ;; act h) f)) g s i = Ok (s, Error).
Proof.
  intros. apply pmap_err. apply complete_err. left. apply pmap_err. apply bind_err.
  apply re_find_err; auto.
Qed.

Definition mlb_p := pmap (complete ml_basic_string_p) (fun x => TString x SMLBasic).
Definition mll_p := pmap (complete ml_literal_string_p) (fun x => TString x SMLLiteral).
Definition bas_p := pmap (complete basic_string_p) (fun x => TString x SBasic).
Definition lit_p := pmap (complete literal_string_p) (fun x => TString x SLiteral).

Lemma string_p_unfold : string_p = alt mll_p (alt mlb_p (alt bas_p lit_p)).
Proof. reflexivity. Qed.

Lemma mll_err : forall s i, starts_with [39;39;39] i = false -> mll_p s i = Ok (s, Error).
Proof.
  intros. unfold mll_p. apply pmap_err, complete_err. left. unfold ml_literal_string_p, raw_ml_literal_string.
  apply pmap_err, bind_err, re_find_err. apply (raw_none [39;39;39]); auto.
Qed.
Lemma mlb_err : forall s i, starts_with [34;34;34] i = false -> mlb_p s i = Ok (s, Error).
Proof.
  intros. unfold mlb_p. apply pmap_err, complete_err. left. unfold ml_basic_string_p, raw_ml_basic_string.
  apply pmap_err, bind_err, re_find_err. apply (raw_none [34;34;34]); auto.
Qed.
Lemma bas_err : forall s i, starts_with [34] i = false -> bas_p s i = Ok (s, Error).
Proof.
  intros. unfold bas_p. apply raw_err. apply raw_none1; auto.
Qed.
Lemma lit_err : forall s i, starts_with [39] i = false -> lit_p s i = Ok (s, Error).
Proof.
  intros. unfold lit_p. apply raw_err. apply raw_none1; auto.
Qed.

Definition head_not (q : N) (r : str) : Prop := match r with [] => True | c :: _ => c <> q end.

Lemma starts1_false : forall q c i, c <> q -> starts_with [q] (c :: i) = false.
Proof. intros. cbn [starts_with]. destruct (N.eqb_spec q c); [congruence|auto]. Qed.
Lemma starts3_false1 : forall q c i, c <> q -> starts_with [q;q;q] (c :: i) = false.
Proof. intros. cbn [starts_with]. destruct (N.eqb_spec q c); [congruence|auto]. Qed.

Lemma starts3_false : forall q x r, head_not q x -> head_not q r ->
  starts_with [q;q;q] (q :: x ++ q :: r) = false.
Proof.
  intros q x r X R. cbn [starts_with]. rewrite N.eqb_refl. cbn [andb].
  destruct x as [|c x]; cbn [app].
  - rewrite N.eqb_refl. cbn [andb]. destruct r as [|d r]; auto. simpl in R.
    destruct (N.eqb_spec q d); [congruence|auto].
  - simpl in X. destruct (N.eqb_spec q c); [congruence|auto].
Qed.

Lemma string_basic : forall x r s, basic_body x -> (x = [] -> head_not 34 r) ->
  string_p s ([34] ++ x ++ [34] ++ r) = Ok (s, Done r (TString x SBasic)).
Proof.
  intros x r s B R. rewrite string_p_unfold.
  change ([34] ++ x ++ [34] ++ r) with (34 :: x ++ 34 :: r).
  erewrite alt_err by (apply mll_err, starts3_false1; discriminate).
  erewrite alt_err.
  2:{ destruct x as [|c0 x0]; [apply mlb_err, starts3_false; simpl; auto|].
      apply mlb_err. apply basic_head in B; [|discriminate].
      destruct B as (c & z & E & N). inversion E; subst. cbn [app starts_with]. rewrite N.eqb_refl.
      cbn [andb]. destruct (N.eqb_spec 34 c); [congruence|auto]. }
  apply alt_ok. unfold bas_p.
  replace (34 :: x ++ 34 :: r) with ((34 :: x ++ [34]) ++ r) by (cbn [app]; rewrite <- app_assoc; auto).
  erewrite pmap_ok; [|apply complete_ok; unfold basic_string_p, raw_basic_string;
     eapply pmap_ok; apply re_find_ok, read_basic; auto].
  do 4 f_equal. apply (strip_ok [34]).
Qed.

Lemma string_literal : forall x r s, literal_body x -> (x = [] -> head_not 39 r) ->
  string_p s ([39] ++ x ++ [39] ++ r) = Ok (s, Done r (TString x SLiteral)).
Proof.
  intros x r s B R. rewrite string_p_unfold.
  change ([39] ++ x ++ [39] ++ r) with (39 :: x ++ 39 :: r).
  erewrite alt_err.
  2:{ destruct x as [|c0 x0]; [apply mll_err, starts3_false; simpl; auto|].
      apply mll_err. inversion B as [|? ? [_ N] _]; subst. cbn [app starts_with]. rewrite N.eqb_refl.
      cbn [andb]. destruct (N.eqb_spec 39 c0); [congruence|auto]. }
  erewrite alt_err by (apply mlb_err, starts3_false1; discriminate).
  erewrite alt_err by (apply bas_err, starts1_false; discriminate).
  unfold lit_p.
  replace (39 :: x ++ 39 :: r) with ((39 :: x ++ [39]) ++ r) by (cbn [app]; rewrite <- app_assoc; auto).
  erewrite pmap_ok; [|apply complete_ok; unfold literal_string_p, raw_literal_string;
     eapply pmap_ok; apply re_find_ok, read_literal; auto].
  do 4 f_equal. apply (strip_ok [39]).
Qed.

Lemma ml_basic_uni : forall x, ml_basic_body x -> uni x.
Proof.
  intros x B. unfold uni. induction B; repeat constructor; auto; try lia.
  - in_cases; lia.
  - destruct H as [_ F]. apply Forall_app. split; auto. eapply Forall_impl; [|exact F]. cbv beta. lia.
  - destruct H as [_ F]. apply Forall_app. split; auto. eapply Forall_impl; [|exact F]. cbv beta. lia.
Qed.
Lemma ml_literal_uni : forall x, ml_literal_body x -> uni x.
Proof. intros x B. unfold uni. induction B; repeat constructor; auto; try lia. Qed.

Lemma delim_lines : forall q x, q <> 10 -> q <= 0x10FFFF -> uni x ->
  count_lines ([q;q;q] ++ x ++ [q;q;q]) = line_feeds x.
Proof.
  intros q x Q Q2 U. rewrite count_lines_spec.
  - rewrite !line_feeds_app. cbn [line_feeds]. destruct (N.eqb_spec q 10); [congruence|]. lia.
  - unfold uni. apply Forall_app; split; [|apply Forall_app; split; auto]; repeat constructor; auto.
Qed.

Lemma string_ml_basic : forall x r s, ml_basic_body x -> closes_at_end 34 x ->
  string_p s ([34;34;34] ++ x ++ [34;34;34] ++ r) =
  Ok (add_lines (line_feeds x) s, Done r (TString x SMLBasic)).
Proof.
  intros x r s B C. rewrite string_p_unfold.
  erewrite alt_err by (apply mll_err, starts3_false1; discriminate).
  apply alt_ok. unfold mlb_p.
  replace ([34;34;34] ++ x ++ [34;34;34] ++ r) with (([34;34;34] ++ x ++ [34;34;34]) ++ r)
    by (rewrite <- !app_assoc; auto).
  erewrite pmap_ok; [|apply complete_ok; unfold ml_basic_string_p, raw_ml_basic_string;
     eapply pmap_ok; erewrite bind_ok by (apply re_find_ok, read_ml_basic; auto); reflexivity].
  rewrite delim_lines; [|discriminate|lia|apply ml_basic_uni; auto].
  do 4 f_equal. apply (strip_ok [34;34;34]).
Qed.

Lemma string_ml_literal : forall x r s, ml_literal_body x -> closes_at_end 39 x ->
  string_p s ([39;39;39] ++ x ++ [39;39;39] ++ r) =
  Ok (add_lines (line_feeds x) s, Done r (TString x SMLLiteral)).
Proof.
  intros x r s B C. rewrite string_p_unfold. apply alt_ok. unfold mll_p.
  replace ([39;39;39] ++ x ++ [39;39;39] ++ r) with (([39;39;39] ++ x ++ [39;39;39]) ++ r)
    by (rewrite <- !app_assoc; auto).
  erewrite pmap_ok; [|apply complete_ok; unfold ml_literal_string_p, raw_ml_literal_string;
     eapply pmap_ok; erewrite bind_ok by (apply re_find_ok, read_ml_literal; auto); reflexivity].
  rewrite delim_lines; [|discriminate|lia|apply ml_literal_uni; auto].
  do 4 f_equal. apply (strip_ok [39;39;39]).
Qed.

(** ** failing alternatives of the value parser *)

Definition no_start (c : N) (i : str) : Prop := head_not c i.

Lemma tag1_err : forall c s i, head_not c i -> exists r, tag [c] s i = Ok (s, r) /\ (r = Error \/ r = Incomplete).
Proof.
  intros c s i H. assert (starts_with [c] i = false).
  { destruct i as [|d i]; auto. apply starts1_false; auto. }
  destruct (tag_fail [c] s i H0) as [E|E]; rewrite E; eauto.
Qed.

Lemma array_restore : forall s,
  set_atypes (vpop (pop_key (push_key (KIndex 0) (set_atypes (vpush s.(p_atypes) ANone) s))).(p_atypes))
    (pop_key (push_key (KIndex 0) (set_atypes (vpush s.(p_atypes) ANone) s))) = s.
Proof.
  intros []. unfold pop_key, push_key, set_atypes, set_keychain, vpush. cbn.
  rewrite !vpop_app. auto.
Qed.

Lemma arr_err : forall pv s i f, head_not 91 i -> pcell (array_ pv) f s i = Ok (s, Error).
Proof.
  intros pv s i f H. unfold pcell. apply bind_err. apply complete_err. unfold array_.
  set (s1 := push_key _ _). unfold array_internal_.
  destruct (tag1_err 91 s1 i H) as (r & E & [-> | ->]).
  - left. erewrite bind_err by exact E. cbn [rbind]. unfold s1. rewrite array_restore. auto.
  - right. erewrite bind_inc by exact E. cbn [rbind]. unfold s1. rewrite array_restore. auto.
Qed.

Lemma inl_err : forall pv s i f, head_not 123 i -> pcell (inline_table_ pv) f s i = Ok (s, Error).
Proof.
  intros pv s i f H. unfold pcell. apply bind_err. apply complete_err. unfold inline_table_.
  destruct (tag1_err 123 s i H) as (r & E & [-> | ->]).
  - left. apply bind_err. exact E.
  - right. apply bind_inc. exact E.
Qed.

(** nothing like a date starts here *)
Definition no_date (i : str) : Prop := forall y z, field 4 y -> i <> y ++ 45 :: z.

Lemma date_err : forall s i, no_date i -> pcell date_time TDateTime s i = Ok (s, Error).
Proof.
  intros s i H. unfold pcell. apply bind_err. apply complete_err. unfold date_time.
  destruct (pure_dti s i) as [r E]. rewrite E. cbn [rbind].
  destruct r as [rest d| |]; auto. exfalso.
  apply dti_done in E as (_ & -> & [(Y & _) _]). apply (H (d_year (dt_date d))
    ((d_month (dt_date d) ++ lit "-" ++ d_day (dt_date d) ++
      match dt_time d with Some t => show_time t | None => [] end) ++ rest)); auto.
  unfold show_datetime, show_date.
  destruct (dt_time d); rewrite <- ?app_assoc; [|rewrite app_nil_l]; reflexivity.
Qed.

Lemma float_err : forall s i, re_match re_float i = None -> pcell float TFloat s i = Ok (s, Error).
Proof. intros. unfold pcell. apply bind_err, complete_err. left. apply re_find_err; auto. Qed.
Lemma int_err : forall s i, re_match re_integer i = None -> pcell integer TInteger s i = Ok (s, Error).
Proof. intros. unfold pcell. apply bind_err, complete_err. left. apply re_find_err; auto. Qed.

Lemma bool_err : forall s i, head_not 102 i -> head_not 116 i -> pcell boolean TBoolean s i = Ok (s, Error).
Proof.
  intros s i F T. unfold pcell. apply bind_err, complete_err. left. unfold boolean.
  erewrite alt_err; [apply pmap_err, ctag_fail|apply pmap_err, ctag_fail].
  - destruct i as [|c i]; auto. simpl in T.
    change (starts_with (lit "true") (c :: i)) with ((116 =? c) && starts_with (lit "rue") i).
    destruct (N.eqb_spec 116 c); [congruence|auto].
  - destruct i as [|c i]; auto. simpl in F.
    change (starts_with (lit "false") (c :: i)) with ((102 =? c) && starts_with (lit "alse") i).
    destruct (N.eqb_spec 102 c); [congruence|auto].
Qed.

(** numbers begin with a sign or a digit *)
Lemma lang_intpart_head : forall m, lang r_intpart m -> exists c t, m = c :: t /\ nd c = true.
Proof.
  intros m L. unfold r_intpart in L. apply lang_alt in L as [L|L].
  - apply lang_seq in L as (u & v & -> & U & V). apply lang_cls in U as (c & -> & C).
    exists c, v. split; auto. apply nd_digit. cbn [in_ranges] in C. unfold digit. lia.
  - apply lang_cls in L as (c & -> & C). exists c, []. auto.
Qed.

Definition num_head (i : str) : Prop :=
  match i with [] => False | c :: _ => c = 43 \/ c = 45 \/ nd c = true end.

Lemma signed_head : forall u v x, lang r_sign u -> lang r_intpart v -> num_head ((u ++ v) ++ x).
Proof.
  intros u v x U V. apply lang_sign in U. apply lang_intpart_head in V as (c & t & -> & C).
  destruct U as [->|[->| ->]]; simpl; auto.
Qed.

Lemma int_none : forall i, ~ num_head i -> re_match re_integer i = None.
Proof.
  intros i H. destruct (re_match re_integer i) as [[m rest]|] eqn:E; auto. exfalso.
  apply re_match_sound in E as [-> L]. unfold re_integer in L.
  apply lang_seq in L as (u & v & -> & U & V). apply H. apply signed_head; auto.
Qed.
Lemma float_none : forall i, ~ num_head i -> re_match re_float i = None.
Proof.
  intros i H. destruct (re_match re_float i) as [[m rest]|] eqn:E; auto. exfalso.
  apply re_match_sound in E as [-> L]. unfold re_float in L.
  apply lang_seq in L as (u & v & -> & U & V). apply lang_seq in V as (x & y & -> & X & Y).
  apply H. rewrite app_assoc, <- app_assoc. apply signed_head; auto.
Qed.

Lemma no_date_head : forall i, match i with [] => True | c :: _ => ~ digit c end -> no_date i.
Proof.
  intros i H y z [D L] E. destruct y as [|c y]; [discriminate|]. subst. inversion D; auto.
Qed.

Lemma no_date_body : forall sg b rest, sign sg -> int_body b ->
  match rest with [] => True | c :: _ => ~ digit c /\ c <> 45 end -> no_date (sg ++ b ++ rest).
Proof.
  intros sg b rest S B R. destruct S as [->|[->| ->]].
  - intros y z [D L]. rewrite app_nil_l. exact (body_no_dash b rest y z B R D).
  - apply no_date_head. simpl. unfold digit. lia.
  - apply no_date_head. simpl. unfold digit. lia.
Qed.

Lemma ends_head_not : forall q r, ends_value r -> ~ In q [9; 10; 13; 32; 35; 44; 93; 125] -> head_not q r.
Proof. intros q [|c r] H N; simpl in *; auto. intros ->. auto. Qed.

Lemma ends_no_digit : forall r, ends_value r -> match r with [] => True | c :: _ => ~ digit c /\ c <> 45 end.
Proof.
  intros [|c r] H; auto. simpl in H. unfold digit.
  repeat (destruct H as [<-|H]; [lia|]). contradiction.
Qed.

Lemma ends_dt_stop : forall r, ends_value r -> dt_stop r.
Proof.
  intros [|c r] H; simpl in *; auto. unfold digit.
  repeat (destruct H as [<-|H]; [lia|]). contradiction.
Qed.

(** ** the value parser *)

Definition tval_of (v : value) : tval :=
  match v with
  | VInteger s => TInteger s
  | VFloat s => TFloat s
  | VBoolean b => TBoolean b
  | VDateTime d => TDateTime d
  | VString s t => TString s t
  | VArray _ | VInlineTable _ => TTable
  end.

Lemma to_val_of : forall v t, scalar v t -> to_val (tval_of v) = Ok v.
Proof. intros v t H. destruct H; reflexivity. Qed.

(** the state after reading a scalar spelled [t] *)
Definition after_scalar (t : str) (s : pst) : pst :=
  set_next (s.(p_next) + 1) (add_lines (line_feeds t) s).

Lemma pcell_ok : forall {A} (p : P A) f s i s1 r a, p s i = Ok (s1, Done r a) ->
  pcell p f s i = Ok (set_next (s1.(p_next) + 1) s1, Done r (Cell s1.(p_next) (f a))).
Proof. intros. unfold pcell. erewrite bind_ok by (apply complete_ok; eauto). reflexivity. Qed.

Lemma sign_head : forall sg b x, sign sg -> int_body b ->
  match sg ++ b ++ x with [] => False | c :: _ => c = 43 \/ c = 45 \/ digit c end.
Proof.
  intros sg b x S (c & t & -> & C & _). destruct S as [->|[->| ->]]; simpl; auto.
Qed.

Lemma num_head_not : forall q i, match i with [] => False | c :: _ => c = 43 \/ c = 45 \/ digit c end ->
  q <> 43 -> q <> 45 -> ~ digit q -> head_not q i.
Proof. intros q [|c i] H A B C; simpl in *; auto. intros ->. tauto. Qed.

Lemma digits_lf : forall s, Forall (fun c => c <> 10) s -> line_feeds s = 0.
Proof.
  induction 1; auto. cbn [line_feeds]. destruct (N.eqb_spec x 10); [congruence|]. lia.
Qed.

Lemma digit_tail_lf : forall t, digit_tail t -> line_feeds t = 0.
Proof.
  induction 1; auto; cbn [line_feeds]; unfold digit in *.
  - destruct (N.eqb_spec c 10); lia.
  - change (95 =? 10) with false. cbv iota. destruct (N.eqb_spec c 10); lia.
Qed.
Lemma sign_lf : forall t, sign t -> line_feeds t = 0.
Proof. intros t [->|[->| ->]]; reflexivity. Qed.
Lemma int_body_lf : forall t, int_body t -> line_feeds t = 0.
Proof.
  intros t (c & x & -> & C & T & _). cbn [line_feeds]. rewrite digit_tail_lf by auto.
  unfold digit in C. destruct (N.eqb_spec c 10); lia.
Qed.
Lemma int_lf : forall t, toml_int t -> line_feeds t = 0.
Proof.
  intros t (sg & b & -> & S & B). rewrite line_feeds_app, sign_lf, int_body_lf by auto. auto.
Qed.
Lemma frac_lf : forall t, frac_part t -> line_feeds t = 0.
Proof.
  intros t (c & x & -> & C & T). cbn [line_feeds]. rewrite digit_tail_lf by auto.
  change (46 =? 10) with false. unfold digit in C. destruct (N.eqb_spec c 10); lia.
Qed.
Lemma exp_lf : forall t, exp_part t -> line_feeds t = 0.
Proof.
  intros t (e & sg & b & -> & E & S & B). cbn [line_feeds]. rewrite line_feeds_app, sign_lf, int_body_lf by auto.
  destruct E as [-> | ->]; reflexivity.
Qed.
Lemma float_lf : forall t, toml_float t -> line_feeds t = 0.
Proof.
  intros t (sg & b & f & e & -> & S & B & FE). rewrite !line_feeds_app, sign_lf, int_body_lf by auto.
  destruct FE as [[F E]|[[F ->]|[-> E]]]; try rewrite (frac_lf _ F); try rewrite (exp_lf _ E); reflexivity.
Qed.
Lemma field_lf : forall w x, field w x -> line_feeds x = 0.
Proof.
  intros w x [D _]. apply digits_lf. eapply Forall_impl; [|exact D]. unfold digit. cbv beta. lia.
Qed.
Lemma datetime_src_show : forall d, datetime_src d = show_datetime d.
Proof.
  intros [[y m d] [[h mi s f o]|]]; unfold datetime_src, show_datetime, show_date;
    cbn [dt_date dt_time d_year d_month d_day t_hour t_minute t_second t_fraction t_offset].
  - rewrite <- !app_assoc. do 5 f_equal. rewrite show_time_split.
    cbn [t_hour t_minute t_second t_fraction t_offset].
    destruct f, o as [[|[[|] ? ?]]|]; reflexivity.
  - rewrite app_nil_r. auto.
Qed.
Lemma datetime_lf : forall d, datetime_digits d -> line_feeds (datetime_src d) = 0.
Proof.
  intros [[y m d] t] [(Y & M & D) T]. unfold datetime_src.
  cbn [dt_date dt_time d_year d_month d_day] in *.
  rewrite !line_feeds_app, (field_lf 4 y), (field_lf 2 m), (field_lf 2 d) by auto.
  destruct t as [[h mi s f o]|]; [|reflexivity].
  destruct T as (H & MI & S & F & O). cbn [t_hour t_minute t_second t_fraction t_offset] in *.
  rewrite !line_feeds_app, (field_lf 2 h), (field_lf 2 mi), (field_lf 2 s) by auto.
  destruct o as [[|[p oh om]]|]; cbv beta iota in O; cbn [offset_src offset_digits toa_pn toa_hour toa_minute] in *;
    (destruct f as [f|]; [rewrite !line_feeds_app, (field_lf (length f) f) by (split; tauto)|]).
  1-2, 5-6 : reflexivity.
  all: rewrite ?line_feeds_app, (field_lf 2 oh), (field_lf 2 om) by tauto; destruct p; reflexivity.
Qed.
Lemma basic_lf : forall b, basic_body b -> line_feeds b = 0.
Proof.
  induction 1; auto; cbn [line_feeds].
  - destruct (N.eqb_spec c 10); lia.
  - in_cases; rewrite IHbasic_body; reflexivity.
  - destruct H as [_ F]. rewrite line_feeds_app, IHbasic_body, digits_lf; [reflexivity|].
    eapply Forall_impl; [|exact F]. cbv beta. lia.
  - destruct H as [_ F]. rewrite line_feeds_app, IHbasic_body, digits_lf; [reflexivity|].
    eapply Forall_impl; [|exact F]. cbv beta. lia.
Qed.
Lemma literal_lf : forall b, literal_body b -> line_feeds b = 0.
Proof. intros b B. apply digits_lf. eapply Forall_impl; [|exact B]. cbv beta. lia. Qed.

Lemma set_next_lines0 : forall s t, line_feeds t = 0 ->
  after_scalar t s = set_next (s.(p_next) + 1) s.
Proof. intros. unfold after_scalar. rewrite H, add_lines_0. auto. Qed.

Lemma val_string : forall pv x r s s1 tv,
  string_p s (x ++ r) = Ok (s1, Done r tv) ->
  match x with [] => False | c :: _ => c = 34 \/ c = 39 end ->
  val_ pv s (x ++ r) = Ok (set_next (s1.(p_next) + 1) s1, Done r (Cell s1.(p_next) tv)).
Proof.
  intros pv x r s s1 tv E H. unfold val_.
  assert (HN : forall q, q <> 34 -> q <> 39 -> head_not q (x ++ r)).
  { intros q A B. destruct x; [contradiction|]. simpl. intros ->. destruct H; congruence. }
  assert (NH : ~ num_head (x ++ r)).
  { destruct x; [contradiction|]. simpl. destruct H as [-> | ->]; intros [|[|]]; discriminate. }
  erewrite alt_err by (apply arr_err, HN; discriminate).
  erewrite alt_err by (apply inl_err, HN; discriminate).
  erewrite alt_err by (apply date_err, no_date_head; destruct x; [contradiction|]; simpl; unfold digit;
    destruct H; lia).
  erewrite alt_err by (apply float_err, float_none; auto).
  erewrite alt_err by (apply int_err, int_none; auto).
  erewrite alt_err by (apply bool_err; apply HN; discriminate).
  erewrite pcell_ok by exact E. reflexivity.
Qed.

Lemma val_scalar_ : forall pv v t r s, scalar v t -> ends_value r ->
  val_ pv s (t ++ r) = Ok (after_scalar t s, Done r (Cell s.(p_next) (tval_of v))).
Proof.
  intros pv v t r s H R. destruct H.
  - (* integer *)
    rewrite set_next_lines0 by (apply int_lf; auto). unfold val_.
    pose proof H as (sg & b & E & S & B).
    assert (HH : match t ++ r with [] => False | c :: _ => c = 43 \/ c = 45 \/ digit c end).
    { subst. rewrite <- app_assoc. apply sign_head; auto. }
    erewrite alt_err by (apply arr_err; eapply num_head_not; eauto; unfold digit; lia).
    erewrite alt_err by (apply inl_err; eapply num_head_not; eauto; unfold digit; lia).
    erewrite alt_err by (apply date_err; subst; rewrite <- app_assoc; apply no_date_body; auto;
      apply ends_no_digit; auto).
    erewrite alt_err by (apply float_err, float_none_int; auto).
    apply alt_ok. erewrite pcell_ok; [reflexivity|]. apply re_find_ok, integer_match; auto.
    apply ends_num_end; auto.
  - (* float *)
    rewrite set_next_lines0 by (apply float_lf; auto). unfold val_.
    pose proof H as (sg & b & f & e & E & S & B & FE).
    assert (HH : match t ++ r with [] => False | c :: _ => c = 43 \/ c = 45 \/ digit c end).
    { subst. rewrite <- !app_assoc. apply sign_head; auto. }
    erewrite alt_err by (apply arr_err; eapply num_head_not; eauto; unfold digit; lia).
    erewrite alt_err by (apply inl_err; eapply num_head_not; eauto; unfold digit; lia).
    erewrite alt_err.
    2:{ apply date_err. subst. rewrite <- !app_assoc. apply no_date_body; auto.
        destruct FE as [[(c & x & -> & _) _]|[[(c & x & -> & _) _]|[-> (c & x & y & -> & [-> | ->] & _)]]];
          cbn [app]; unfold digit; lia. }
    apply alt_ok. erewrite pcell_ok; [reflexivity|]. apply re_find_ok, float_match; auto.
  - (* true *)
    rewrite set_next_lines0 by reflexivity. unfold val_.
    change (lit "true" ++ r) with (116 :: lit "rue" ++ r).
    erewrite alt_err by (apply arr_err; discriminate).
    erewrite alt_err by (apply inl_err; discriminate).
    erewrite alt_err by (apply date_err, no_date_head; unfold digit; lia).
    erewrite alt_err by (apply float_err, float_none; intros [|[|]]; discriminate).
    erewrite alt_err by (apply int_err, int_none; intros [|[|]]; discriminate).
    apply alt_ok. erewrite pcell_ok; [reflexivity|]. unfold boolean.
    erewrite alt_err by (apply pmap_err, ctag_fail; reflexivity).
    change (116 :: lit "rue" ++ r) with (lit "true" ++ r).
    erewrite pmap_ok by apply ctag_ok. reflexivity.
  - (* false *)
    rewrite set_next_lines0 by reflexivity. unfold val_.
    change (lit "false" ++ r) with (102 :: lit "alse" ++ r).
    erewrite alt_err by (apply arr_err; discriminate).
    erewrite alt_err by (apply inl_err; discriminate).
    erewrite alt_err by (apply date_err, no_date_head; unfold digit; lia).
    erewrite alt_err by (apply float_err, float_none; intros [|[|]]; discriminate).
    erewrite alt_err by (apply int_err, int_none; intros [|[|]]; discriminate).
    apply alt_ok. erewrite pcell_ok; [reflexivity|]. unfold boolean. apply alt_ok.
    change (102 :: lit "alse" ++ r) with (lit "false" ++ r).
    erewrite pmap_ok by apply ctag_ok. reflexivity.
  - (* date *)
    destruct H as (D & RE & F). rewrite set_next_lines0 by (apply datetime_lf; auto). unfold val_.
    assert (HD : match datetime_src d ++ r with [] => False | c :: _ => c = 43 \/ c = 45 \/ digit c end).
    { destruct D as [([Y L] & _) _]. unfold datetime_src. rewrite <- app_assoc.
      destruct (d_year (dt_date d)) as [|c y]; [discriminate|]. inversion Y; subst. cbn [app]. auto. }
    erewrite alt_err by (apply arr_err; eapply num_head_not; eauto; unfold digit; lia).
    erewrite alt_err by (apply inl_err; eapply num_head_not; eauto; unfold digit; lia).
    apply alt_ok. rewrite datetime_src_show. erewrite pcell_ok; [reflexivity|].
    apply date_time_ok; auto.
    + apply datetime_validate_digits; auto.
    + apply ends_dt_stop; auto.
  - rewrite set_next_lines0 by (rewrite !line_feeds_app, (basic_lf b) by auto; reflexivity).
    erewrite val_string; [reflexivity| |simpl; auto]. rewrite <- !app_assoc. apply string_basic; auto.
    intros _. apply ends_head_not; auto. simpl. lia.
  - rewrite set_next_lines0 by (rewrite !line_feeds_app, (literal_lf b) by auto; reflexivity).
    erewrite val_string; [reflexivity| |simpl; auto]. rewrite <- !app_assoc. apply string_literal; auto.
    intros _. apply ends_head_not; auto. simpl. lia.
  - unfold after_scalar. replace (line_feeds ([34;34;34] ++ b ++ [34;34;34])) with (line_feeds b)
      by (rewrite !line_feeds_app; change (line_feeds [34;34;34]) with 0; lia).
    erewrite val_string; [| |simpl; auto].
    2:{ rewrite <- !app_assoc. apply string_ml_basic; auto. }
    reflexivity.
  - unfold after_scalar. replace (line_feeds ([39;39;39] ++ b ++ [39;39;39])) with (line_feeds b)
      by (rewrite !line_feeds_app; change (line_feeds [39;39;39]) with 0; lia).
    erewrite val_string; [| |simpl; auto].
    2:{ rewrite <- !app_assoc. apply string_ml_literal; auto. }
    reflexivity.
Qed.

Lemma val_p_scalar : forall v t r s, scalar v t -> ends_value r ->
  val_p s (t ++ r) = Ok (after_scalar t s, Done r (Cell s.(p_next) (tval_of v))).
Proof. intros. unfold val_p. cbn [val]. apply val_scalar_; auto. Qed.
