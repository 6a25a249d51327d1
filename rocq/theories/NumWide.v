(** Numbers in digits of any script. *)
From Coq Require Import Lia ZifyBool ZifyNat ZifyN.
From Verif Require Import Str Regex Types Spec NumSpec RegexFacts NumFacts GramFacts.

Lemma nd_any : forall c, nd c = true <-> any_digit c.
Proof.
  intros c. split; [apply in_ranges_ex|]. intros (a & b & I & L). unfold nd. induction nd_ranges as [|[x y] l IH]; [destruct I|]. cbn [in_ranges].
  destruct I as [I|I]; [inversion I; subst; assert ((a <=? c) && (c <=? b) = true) as -> by lia; auto|]. rewrite IH by auto. apply orb_true_r.
Qed.
Lemma wide_digit : forall m, lang RDigit m <-> exists c, m = [c] /\ any_digit c.
Proof.
  intros m. split.
  - intros L. apply lang_cls in L as (c & -> & H). exists c. split; auto. apply nd_any. auto.
  - intros (c & -> & H). apply lang_cls. exists c. split; auto. apply nd_any in H. auto.
Qed.
Lemma wide_dig : forall m, lang r_dig m <-> exists c, (m = [c] \/ m = [95; c]) /\ any_digit c.
Proof.
  intros m. unfold r_dig. rewrite lang_alt, wide_digit. split.
  - intros [(c & -> & H)|L]; [eauto|]. apply lang_seq in L as (u & v & -> & U & V). apply lang_chr in U. apply wide_digit in V as (c & -> & D). subst u. exists c. auto.
  - intros (c & [->| ->] & H); [left; eauto|]. right. apply lang_seq. exists [95], [c]. split; auto. split; [apply lang_chr; auto|apply wide_digit; eauto].
Qed.
Lemma wide_tail : forall m, lang (RStar true r_dig) m <-> any_tail m.
Proof.
  intros m. rewrite lang_star. split.
  - intros (l & -> & F). induction F as [|x l X F IH]; cbn [concat]; [constructor|]. apply wide_dig in X as (c & [->| ->] & D); cbn [app]; [apply AT_digit|apply AT_under]; auto.
  - induction 1 as [|c t C T (l & -> & F)|c t C T (l & -> & F)]; [exists []; auto| |]; [exists ([c] :: l)|exists ([95; c] :: l)]; (split; [reflexivity|]; constructor; auto; apply wide_dig; eauto).
Qed.
Lemma wide_intpart : forall m, lang r_intpart m <-> any_body m.
Proof.
  intros m. unfold r_intpart. rewrite lang_alt. split.
  - intros [L|L]; [|left; apply wide_digit; auto]. right. apply lang_seq in L as (u & v & -> & U & V). apply lang_cls in U as (c & -> & C). cbn [in_ranges] in C.
    unfold RPlus in V. apply lang_seq in V as (x & y & -> & X & Y). apply wide_tail in Y. apply wide_dig in X as (d & E & D).
    exists c, (x ++ y). split; auto. split; [lia|]. destruct E as [->| ->]; cbn [app]; (split; [|discriminate]); [apply AT_digit|apply AT_under]; auto.
  - intros [H|(c & t & -> & C & T & N)]; [right; apply wide_digit; auto|]. left. apply lang_seq. exists [c], t. split; auto. split.
    { apply lang_cls. exists c. split; auto. cbn [in_ranges]. lia. }
    unfold RPlus. apply lang_seq. destruct T as [|d t D T|d t D T]; [congruence| |]; [exists [d], t|exists [95; d], t]; (split; [reflexivity|]; split; [apply wide_dig; eauto|apply wide_tail; auto]).
Qed.
Lemma wide_sign : forall m, lang r_sign m <-> sign m.
Proof.
  intros m. split; [apply lang_sign|]. unfold r_sign, ROpt. rewrite !lang_alt, !lang_chr, lang_eps. unfold sign. tauto.
Qed.
Lemma wide_int : forall m, lang re_integer m <-> any_int m.
Proof.
  intros m. unfold re_integer, any_int. rewrite lang_seq. split; intros (u & v & -> & U & V); exists u, v; (split; [reflexivity|]);
    apply wide_sign in U; apply wide_intpart in V; auto.
Qed.
Lemma wide_frac : forall m, lang r_frac m <-> any_frac m.
Proof.
  intros m. unfold r_frac. rewrite lang_seq. split.
  - intros (u & v & -> & U & V). apply lang_chr in U. subst u. apply lang_seq in V as (x & y & -> & X & Y). apply wide_digit in X as (c & -> & C). apply wide_tail in Y.
    exists c, y. auto.
  - intros (c & t & -> & C & T). exists [46], (c :: t). split; auto. split; [apply lang_chr; auto|]. apply lang_seq. exists [c], t. split; auto.
    split; [apply wide_digit; eauto|apply wide_tail; auto].
Qed.
Lemma wide_exp : forall m, lang r_exp m <-> any_exp m.
Proof.
  intros m. unfold r_exp. rewrite lang_seq. split.
  - intros (u & v & -> & U & V). apply lang_seq in V as (x & y & -> & X & Y). apply wide_sign in X. apply wide_intpart in Y.
    apply lang_alt in U as [U|U]; apply lang_chr in U; subst u; eexists _, x, y; (split; [reflexivity|]); auto.
  - intros (e & sg & b & -> & E & S & B). exists [e], (sg ++ b). split; auto. split; [apply lang_alt; rewrite !lang_chr; destruct E as [->| ->]; auto|].
    apply lang_seq. exists sg, b. split; auto. split; [apply wide_sign|apply wide_intpart]; auto.
Qed.
Lemma wide_float : forall m, lang re_float m <-> any_float m.
Proof.
  intros m. unfold re_float. rewrite lang_seq. split.
  - intros (u & v & -> & U & V). apply wide_sign in U. apply lang_seq in V as (x & y & -> & X & Y). apply wide_intpart in X.
    cbn [RAlts] in Y. rewrite !lang_alt in Y. destruct Y as [Y|[Y|Y]].
    + apply lang_seq in Y as (f & e & -> & F & E). apply wide_frac in F. apply wide_exp in E. exists u, x, f, e. split; [reflexivity|]. auto.
    + apply wide_frac in Y. exists u, x, y, []. rewrite app_nil_r. split; [reflexivity|]. auto 6.
    + apply wide_exp in Y. exists u, x, [], y. split; [reflexivity|]. auto 6.
  - intros (sg & b & f & e & -> & S & B & H). exists sg, (b ++ f ++ e). split; auto. split; [apply wide_sign; auto|]. apply lang_seq. exists b, (f ++ e). split; auto.
    split; [apply wide_intpart; auto|]. cbn [RAlts]. rewrite !lang_alt. destruct H as [[F E]|[[F ->]|[-> E]]].
    + left. apply lang_seq. exists f, e. split; auto. split; [apply wide_frac|apply wide_exp]; auto.
    + right. left. rewrite app_nil_r. apply wide_frac; auto.
    + right. right. apply wide_exp; auto.
Qed.
Lemma validate_integer_any : forall s, validate (VInteger s) = true <-> exists m rest, s = m ++ rest /\ any_int m.
Proof.
  intros s. cbn [validate]. split.
  - destruct (re_match re_integer s) as [[m rest]|] eqn:E; [|discriminate]. intros _. apply re_match_sound in E as [-> L]. exists m, rest. split; auto. apply wide_int; auto.
  - intros (m & rest & -> & T). destruct (re_match re_integer (m ++ rest)) eqn:E; auto.
    exfalso. eapply (re_match_none _ _ wf_integer E m rest); auto. apply wide_int; auto.
Qed.
Lemma validate_float_any : forall s, validate (VFloat s) = true <-> exists m rest, s = m ++ rest /\ any_float m.
Proof.
  intros s. cbn [validate]. split.
  - destruct (re_match re_float s) as [[m rest]|] eqn:E; [|discriminate]. intros _. apply re_match_sound in E as [-> L]. exists m, rest. split; auto. apply wide_float; auto.
  - intros (m & rest & -> & T). destruct (re_match re_float (m ++ rest)) eqn:E; auto.
    exfalso. eapply (re_match_none _ _ wf_float E m rest); auto. apply wide_float; auto.
Qed.
