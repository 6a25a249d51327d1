(** The integer and float expressions on well-formed numbers. *)
From Coq Require Import Lia ZifyBool ZifyNat ZifyN.
From Verif Require Import Str Regex Types Facts Spec RegexFacts.

(** ** deterministic expressions, continued *)

Lemma det_seq : forall a b fa fb, det a fa -> det b fb ->
  det (RSeq a b) (fun s => match fa s with Some s' => fb s' | None => None end).
Proof.
  intros a b fa fb Ha Hb s k. simpl. rewrite Ha. destruct (fa s); auto.
Qed.

Lemma det_alt : forall a b fa fb, det a fa -> det b fb ->
  (forall s, fa s <> None -> fb s = None \/ fb s = fa s) ->
  det (RAlt a b) (fun s => match fa s with Some s' => Some s' | None => fb s end).
Proof.
  intros a b fa fb Ha Hb D s k. simpl. rewrite Ha, Hb. specialize (D s).
  destruct (fa s) as [s'|] eqn:E; auto. destruct (k s') eqn:K; auto.
  destruct D as [-> | ->]; auto; congruence.
Qed.

Lemma det_eps : det REps (fun s => Some s).
Proof. intros s k. reflexivity. Qed.

Lemma det_ext : forall a f g, det a f -> (forall s, f s = g s) -> det a g.
Proof. intros a f g H E s k. rewrite H, E. auto. Qed.

(** ** digits *)

Definition nd (c : N) : bool := in_ranges c nd_ranges.

Lemma nd_digit : forall c, digit c -> nd c = true.
Proof. intros c H. unfold nd, nd_ranges. cbn [in_ranges]. unfold digit in H.
  assert ((48 <=? c) && (c <=? 57) = true) as -> by lia. auto. Qed.

Lemma nd_ascii : forall c, c < 128 -> nd c = true -> digit c.
Proof.
  intros c H H1. unfold nd in H1. unfold nd_ranges in H1. cbn [in_ranges] in H1. unfold digit. lia.
Qed.

Definition dig_step (s : str) : option str :=
  match s with
  | c :: s' => if nd c then Some s'
               else if c =? 95 then
                 match s' with d :: s'' => if nd d then Some s'' else None | [] => None end
               else None
  | [] => None
  end.

Lemma nd95 : nd 95 = false.
Proof. vm_compute. auto. Qed.

Lemma det_dig : det r_dig dig_step.
Proof.
  unfold r_dig. eapply det_ext.
  - apply det_alt; [apply det_cls | apply det_seq; apply det_cls|].
    intros s H. left. unfold cls_step in *. destruct s as [|c s]; auto.
    cbn [in_ranges]. destruct (in_ranges c nd_ranges) eqn:E; [|congruence].
    destruct (N.eq_dec c 95) as [->|].
    + change (nd 95 = true) in E. rewrite nd95 in E. discriminate.
    + assert ((95 <=? c) && (c <=? 95) || false = false) as -> by lia. auto.
  - intros s. unfold dig_step, cls_step. destruct s as [|c s]; auto. fold (nd c).
    destruct (nd c) eqn:E; auto. cbn [in_ranges].
    destruct (N.eqb_spec c 95).
    + subst. change ((95 <=? 95) && (95 <=? 95) || false) with true. cbv iota. auto.
    + assert ((95 <=? c) && (c <=? 95) || false = false) as -> by lia. auto.
Qed.

(** a text at which a run of digits ends *)
Definition num_end (r : str) : Prop := dig_step r = None.

Lemma ends_num_end : forall r, ends_value r -> num_end r.
Proof.
  intros [|c r] H; unfold num_end; auto. simpl in H.
  repeat (destruct H as [<-|H]; [vm_compute; reflexivity|]). contradiction.
Qed.

Lemma iter_tail : forall t n r, digit_tail t -> num_end r -> (length t <= n)%nat ->
  iter_step dig_step n (t ++ r) = r.
Proof.
  intros t n r T. revert n. induction T; intros n R L; simpl in L.
  - destruct n; simpl; auto. rewrite R. auto.
  - destruct n; [lia|]. cbn [iter_step app dig_step]. rewrite nd_digit by auto. apply IHT; auto; lia.
  - destruct n; [lia|]. cbn [iter_step app dig_step]. rewrite nd95, nd_digit by auto.
    change (95 =? 95) with true. cbv iota. apply IHT; auto; lia.
Qed.

(** continuations after a number: total, or failing inside a run of digits *)
Definition num_k (k : str -> option str) : Prop :=
  (forall s, k s <> None) \/ (forall s, dig_step s <> None -> k s = None).

Lemma star_dig : forall k n t r, num_k k -> digit_tail t -> num_end r -> (length t <= n)%nat ->
  star_loop true r_dig k n (t ++ r) = k r.
Proof.
  intros k n t r [K|K] T R L.
  - rewrite (star_greedy_det _ _ _ det_dig K), iter_tail; auto.
  - revert n L. induction T; intros n L; simpl in L.
    + destruct n; cbn [star_loop app]; auto. rewrite det_dig, R. auto.
    + destruct n; [lia|]. cbn [star_loop app]. rewrite det_dig. cbn [dig_step]. rewrite nd_digit by auto.
      rewrite IHT by lia. destruct (k r) eqn:E; auto.
      apply K. cbn [dig_step]. rewrite nd_digit by auto. discriminate.
    + destruct n; [lia|]. cbn [star_loop app]. rewrite det_dig. cbn [dig_step].
      rewrite nd95, nd_digit by auto. change (95 =? 95) with true. cbv iota.
      rewrite IHT by lia. destruct (k r) eqn:E; auto.
      apply K. cbn [dig_step]. rewrite nd95, nd_digit by auto. discriminate.
Qed.

Lemma rm_star_dig : forall k t r, num_k k -> digit_tail t -> num_end r ->
  rm (RStar true r_dig) (t ++ r) k = k r.
Proof. intros. rewrite rm_star. apply star_dig; auto. rewrite app_length. lia. Qed.

Lemma dig_step_end_nd : forall c r, num_end (c :: r) -> nd c = false.
Proof. unfold num_end. intros. cbn [dig_step] in H. destruct (nd c); auto. discriminate. Qed.

Lemma dig_tail_step : forall c t r, digit_tail (c :: t) -> dig_step ((c :: t) ++ r) <> None.
Proof.
  intros. inversion H; subst; cbn [dig_step app].
  - rewrite nd_digit by auto. discriminate.
  - rewrite nd95, nd_digit by auto. discriminate.
Qed.

Lemma rm_intpart : forall b r k, num_k k -> int_body b -> num_end r ->
  rm r_intpart (b ++ r) k = k r.
Proof.
  intros b r k K (c & t & -> & C & T & Z) R. unfold r_intpart.
  change ((c :: t) ++ r) with (c :: t ++ r).
  assert (E1 : rm (RSeq (RCls [(49, 57)]) (RPlus r_dig)) (c :: t ++ r) k =
          if (49 <=? c) && (c <=? 57) then rm (RPlus r_dig) (t ++ r) k else None).
  { simpl. rewrite orb_false_r. auto. }
  assert (E2 : rm RDigit (c :: t ++ r) k = k (t ++ r)).
  { unfold RDigit. cbn [rm]. fold (nd c). rewrite nd_digit; auto. }
  cbn [rm]. cbn [rm] in E1, E2. unfold RPlus in E1.
  change (match rm (RSeq (RCls [(49, 57)]) (RPlus r_dig)) (c :: t ++ r) k with
          | Some x => Some x | None => rm RDigit (c :: t ++ r) k end = k r).
  change (rm (RSeq (RCls [(49, 57)]) (RPlus r_dig)) (c :: t ++ r) k =
          if (49 <=? c) && (c <=? 57) then rm (RPlus r_dig) (t ++ r) k else None) in E1.
  change (rm RDigit (c :: t ++ r) k = k (t ++ r)) in E2.
  rewrite E1, E2. clear E1 E2.
  assert (EP : rm (RPlus r_dig) (t ++ r) k = match t with [] => None | _ => k r end).
  { unfold RPlus. change (rm r_dig (t ++ r) (fun s' => rm (RStar true r_dig) s' k) =
                          match t with [] => None | _ => k r end).
    rewrite det_dig. inversion T; subst; cbn [app].
    - unfold num_end in R. rewrite R. auto.
    - cbn [dig_step]. rewrite nd_digit by auto. apply rm_star_dig; auto.
    - cbn [dig_step]. rewrite nd95, nd_digit by auto. change (95 =? 95) with true. cbv iota.
      apply rm_star_dig; auto. }
  rewrite EP. destruct t as [|c1 t1].
  - destruct ((49 <=? c) && (c <=? 57)); auto.
  - destruct ((49 <=? c) && (c <=? 57)) eqn:G.
    + destruct (k r) eqn:E; auto. destruct K as [K|K]; [exfalso; eapply K; eauto|].
      apply K. apply dig_tail_step; auto.
    + exfalso. unfold digit in C. assert (c = 48) by lia. apply Z in H. discriminate.
Qed.

Lemma rm_intpart_sign : forall c s k, c = 43 \/ c = 45 -> rm r_intpart (c :: s) k = None.
Proof. intros. destruct H; subst; reflexivity. Qed.

Lemma rm_signed : forall x r k, num_k k -> toml_int x -> num_end r ->
  rm (RSeq r_sign r_intpart) (x ++ r) k = k r.
Proof.
  intros x r k K (sg & b & -> & S & B) R. rewrite <- app_assoc.
  pose proof (rm_intpart b r k K B R) as E.
  change (rm r_sign (sg ++ b ++ r) (fun s' => rm r_intpart s' k) = k r).
  unfold r_sign, ROpt.
  assert (U : forall s k', rm (RAlt (RAlt (RChr 43) (RChr 45)) REps) s k' =
     match s with
     | c :: s' => if c =? 43 then match k' s' with Some x => Some x | None => k' s end
                  else if c =? 45 then match k' s' with Some x => Some x | None => k' s end
                  else k' s
     | [] => k' s end).
  { intros s k'. destruct s as [|c s]; auto. unfold RChr. cbn [rm in_ranges].
    destruct (N.eqb_spec c 43).
    - subst. change ((43 <=? 43) && (43 <=? 43) || false) with true. cbv iota.
      destruct (k' s); auto.
    - assert ((43 <=? c) && (c <=? 43) || false = false) as -> by lia.
      destruct (N.eqb_spec c 45).
      + subst. change ((45 <=? 45) && (45 <=? 45) || false) with true. cbv iota. destruct (k' s); auto.
      + assert ((45 <=? c) && (c <=? 45) || false = false) as -> by lia. auto. }
  rewrite U. destruct S as [->|[->| ->]]; cbn [app].
  - destruct B as (c & t & -> & C & _). unfold digit in C. cbn [app] in *.
    assert (c =? 43 = false) as -> by lia. assert (c =? 45 = false) as -> by lia. exact E.
  - change (43 =? 43) with true. cbv iota. rewrite E. destruct (k r); auto.
  - change (45 =? 43) with false. change (45 =? 45) with true. cbv iota. rewrite E. destruct (k r); auto.
Qed.

Lemma integer_match : forall x r, toml_int x -> num_end r -> re_match re_integer (x ++ r) = Some (x, r).
Proof.
  intros. apply re_match_rm; auto. unfold re_integer. apply rm_signed; auto. left. congruence.
Qed.

(** ** floats *)

Definition frac_step (s : str) : option str :=
  match s with 46 :: s' => Some s' | _ => None end.

Lemma rm_frac : forall f r k, num_k k -> frac_part f -> num_end r -> rm r_frac (f ++ r) k = k r.
Proof.
  intros f r k K (c & t & -> & C & T) R. unfold r_frac.
  change (rm (RSeq RDigit (RStar true r_dig)) (c :: t ++ r) k = k r).
  assert (E : rm (RSeq RDigit (RStar true r_dig)) (c :: t ++ r) k = rm (RStar true r_dig) (t ++ r) k).
  { unfold RDigit. cbn [rm]. fold (nd c). rewrite nd_digit by auto. reflexivity. }
  rewrite E. apply rm_star_dig; auto.
Qed.

Lemma rm_frac_no : forall c s k, c <> 46 -> rm r_frac (c :: s) k = None.
Proof.
  intros. unfold r_frac, RChr. cbn [rm in_ranges].
  assert ((46 <=? c) && (c <=? 46) || false = false) as -> by lia. auto.
Qed.
Lemma rm_frac_nil : forall k, rm r_frac [] k = None.
Proof. reflexivity. Qed.

Lemma rm_exp : forall e r k, num_k k -> exp_part e -> num_end r -> rm r_exp (e ++ r) k = k r.
Proof.
  intros e r k K (c & sg & b & -> & C & S & B) R. unfold r_exp.
  assert (E : rm (RSeq (RAlt (RChr 101) (RChr 69)) (RSeq r_sign r_intpart)) ((c :: sg ++ b) ++ r) k =
              rm (RSeq r_sign r_intpart) ((sg ++ b) ++ r) k).
  { cbn [app]. destruct C; subst.
    - change (match rm (RSeq r_sign r_intpart) ((sg ++ b) ++ r) k with
              | Some x => Some x | None => None end = rm (RSeq r_sign r_intpart) ((sg ++ b) ++ r) k).
      destruct (rm (RSeq r_sign r_intpart) ((sg ++ b) ++ r) k); auto.
    - reflexivity. }
  rewrite E. apply rm_signed; auto. exists sg, b. auto.
Qed.

Lemma rm_exp_no : forall c s k, c <> 101 -> c <> 69 -> rm r_exp (c :: s) k = None.
Proof.
  intros. unfold r_exp, RChr. cbn [rm in_ranges].
  assert ((101 <=? c) && (c <=? 101) || false = false) as -> by lia.
  assert ((69 <=? c) && (c <=? 69) || false = false) as -> by lia. auto.
Qed.
Lemma rm_exp_nil : forall k, rm r_exp [] k = None.
Proof. reflexivity. Qed.

(** the part of a float after the integer part *)
Definition r_ftail : re := RAlts [RSeq r_frac r_exp; r_frac; r_exp].

Lemma rm_ftail : forall s k, rm r_ftail s k =
  match rm r_frac s (fun s' => rm r_exp s' k) with
  | Some x => Some x
  | None => match rm r_frac s k with Some x => Some x | None => rm r_exp s k end
  end.
Proof. reflexivity. Qed.

Lemma dig_step_head : forall c s, dig_step (c :: s) <> None -> c <> 46 /\ c <> 101 /\ c <> 69.
Proof.
  intros. cbn [dig_step] in H.
  assert (nd c = true \/ c = 95).
  { destruct (nd c); auto. destruct (N.eqb_spec c 95); auto. }
  destruct H0 as [H0|H0]; [|subst; lia].
  assert (X : nd 46 = false /\ nd 101 = false /\ nd 69 = false) by (vm_compute; auto).
  destruct X as (X1 & X2 & X3).
  repeat split; intros ->; congruence.
Qed.

Lemma num_k_exp : forall k, num_k (fun s => rm r_exp s k).
Proof.
  intros. right. intros [|c s] H; auto. apply dig_step_head in H. apply rm_exp_no; tauto.
Qed.

Lemma num_k_ftail : forall k, num_k (fun s => rm r_ftail s k).
Proof.
  intros. right. intros [|c s] H; auto. apply dig_step_head in H. rewrite rm_ftail.
  rewrite !rm_frac_no, rm_exp_no; tauto.
Qed.

Lemma ends_head : forall c r, ends_value (c :: r) -> c <> 46 /\ c <> 101 /\ c <> 69 /\ c <> 45 /\ ~ digit c
  /\ c <> 43 /\ c <> 84 /\ c <> 90 /\ c <> 34 /\ c <> 39 /\ c <> 95.
Proof. intros. simpl in H. unfold digit. lia. Qed.

Lemma rm_ftail_end : forall r k, ends_value r -> rm r_ftail r k = None.
Proof.
  intros [|c r] k H; [reflexivity|]. apply ends_head in H. rewrite rm_ftail.
  rewrite !rm_frac_no, rm_exp_no; tauto.
Qed.

Lemma exp_head : forall e r, exp_part e -> exists c x, e ++ r = c :: x /\ (c = 101 \/ c = 69).
Proof. intros e r (c & sg & b & -> & C & _). simpl. eauto. Qed.

Lemma exp_num_end : forall e r, exp_part e -> num_end (e ++ r).
Proof.
  intros. destruct (exp_head e r H) as (c & x & -> & C). unfold num_end. cbn [dig_step].
  destruct C; subst; reflexivity.
Qed.

Lemma frac_num_end : forall f r, frac_part f -> num_end (f ++ r).
Proof. intros f r (c & t & -> & _). reflexivity. Qed.

Lemma float_match : forall x r, toml_float x -> ends_value r -> re_match re_float (x ++ r) = Some (x, r).
Proof.
  intros x r (sg & b & f & e & -> & S & B & FE) R. apply re_match_rm; auto.
  unfold re_float.
  change (rm (RSeq r_sign r_intpart) ((sg ++ b ++ f ++ e) ++ r)
            (fun s' => rm r_ftail s' (fun s'' => Some s'')) = Some r).
  replace ((sg ++ b ++ f ++ e) ++ r) with ((sg ++ b) ++ (f ++ e) ++ r) by (rewrite !app_assoc; auto).
  pose proof (ends_num_end r R) as RE.
  rewrite rm_signed; [|apply num_k_ftail|exists sg, b; auto|].
  - rewrite rm_ftail. destruct FE as [[F E]|[[F ->]|[-> E]]].
    + rewrite <- app_assoc. rewrite rm_frac; [|apply num_k_exp|auto|apply exp_num_end; auto].
      rewrite rm_exp; auto. left. congruence.
    + rewrite app_nil_r. rewrite rm_frac; [|apply num_k_exp|auto|auto].
      assert (rm r_exp r (fun s'' => Some s'') = None) as ->.
      { destruct r as [|c r]; [reflexivity|]. apply ends_head in R. apply rm_exp_no; tauto. }
      rewrite rm_frac; auto. left. congruence.
    + cbn [app]. destruct (exp_head e r E) as (c & y & EQ & C).
      assert (NF : forall k, rm r_frac (e ++ r) k = None).
      { intros. rewrite EQ. apply rm_frac_no. lia. }
      rewrite !NF. apply rm_exp; auto. left. congruence.
  - destruct FE as [[F E]|[[F ->]|[-> E]]].
    + rewrite <- app_assoc. apply frac_num_end; auto.
    + rewrite app_nil_r. apply frac_num_end; auto.
    + apply exp_num_end; auto.
Qed.

Lemma float_none_int : forall x r, toml_int x -> ends_value r -> re_match re_float (x ++ r) = None.
Proof.
  intros. unfold re_match.
  assert (rm re_float (x ++ r) (fun s' => Some s') = None) as ->; auto. unfold re_float.
  change (rm (RSeq r_sign r_intpart) (x ++ r)
            (fun s' => rm r_ftail s' (fun s'' => Some s'')) = None).
  rewrite rm_signed; [|apply num_k_ftail|auto|apply ends_num_end; auto].
  apply rm_ftail_end; auto.
Qed.

(** ** numbers do not look like dates *)

Lemma tail_no_dash : forall t rest y z, digit_tail t ->
  match rest with [] => True | c :: _ => ~ digit c /\ c <> 45 end ->
  digits y -> t ++ rest <> y ++ 45 :: z.
Proof.
  intros t rest y z T. revert y. induction T; intros y R Y E.
  - cbn [app] in E. destruct y as [|a y].
    + subst rest. cbn [app] in R. tauto.
    + subst rest. inversion Y; subst. cbn [app] in R. tauto.
  - destruct y as [|a y]; cbn [app] in E; injection E as E1 E2.
    + subst. unfold digit in H. lia.
    + inversion Y; subst. eapply IHT; eauto.
  - destruct y as [|a y]; cbn [app] in E; injection E as E1 E2.
    + discriminate E1.
    + subst. inversion Y; subst. unfold digit in H2. lia.
Qed.

Lemma body_no_dash : forall b rest y z, int_body b ->
  match rest with [] => True | c :: _ => ~ digit c /\ c <> 45 end ->
  digits y -> b ++ rest <> y ++ 45 :: z.
Proof.
  intros b rest y z (c & t & -> & C & T & _) R Y E.
  destruct y as [|a y]; cbn [app] in E; injection E as E1 E2.
  - subst. unfold digit in C. lia.
  - inversion Y; subst. eapply tail_no_dash; eauto.
Qed.

(** ** the languages of the two expressions on ASCII texts *)

Lemma ascii_app : forall a b, ascii (a ++ b) <-> ascii a /\ ascii b.
Proof. intros. unfold ascii. apply Forall_app. Qed.

Lemma lang_digit : forall m, ascii m -> lang RDigit m -> exists c, m = [c] /\ digit c.
Proof.
  intros m A L. apply lang_cls in L as (c & -> & H). exists c. split; auto.
  inversion A; subst. apply nd_ascii; auto.
Qed.

Lemma lang_dig_tail : forall m, ascii m -> lang (RStar true r_dig) m -> digit_tail m.
Proof.
  intros m A L. apply lang_star in L as (l & -> & F). induction F; simpl in *; [constructor|].
  apply ascii_app in A as [A1 A2]. specialize (IHF A2). unfold r_dig in H.
  apply lang_alt in H as [H|H].
  - apply lang_digit in H as (c & -> & D); auto. constructor; auto.
  - apply lang_seq in H as (u & v & -> & U & V). apply lang_chr in U. subst u.
    apply ascii_app in A1 as [_ A1]. apply lang_digit in V as (c & -> & D); auto.
    simpl. apply DT_under; auto.
Qed.

Lemma lang_sign : forall m, lang r_sign m -> sign m.
Proof.
  intros m L. unfold r_sign, ROpt in L. unfold sign.
  apply lang_alt in L as [L|L]; [apply lang_alt in L as [L|L]; apply lang_chr in L; auto|].
  apply lang_eps in L. auto.
Qed.

Lemma lang_intpart : forall m, ascii m -> lang r_intpart m -> int_body m.
Proof.
  intros m A L. unfold r_intpart in L. apply lang_alt in L as [L|L].
  - apply lang_seq in L as (u & v & -> & U & V). apply lang_cls in U as (c & -> & C).
    cbn [in_ranges] in C. apply ascii_app in A as [_ A].
    exists c, v. repeat split; try (unfold digit; lia).
    unfold RPlus in V. apply lang_dig_tail; auto.
    apply lang_seq in V as (x & y & -> & X & Y). apply lang_star in Y as (l & -> & F).
    apply lang_star. exists (x :: l). auto.
  - apply lang_digit in L as (c & -> & D); auto. exists c, []. repeat split; auto; try apply D. constructor.
Qed.

Lemma lang_integer : forall m, ascii m -> lang re_integer m -> toml_int m.
Proof.
  intros m A L. unfold re_integer in L. apply lang_seq in L as (u & v & -> & U & V).
  apply ascii_app in A as [_ A]. exists u, v. repeat split; auto.
  - apply lang_sign; auto.
  - apply lang_intpart; auto.
Qed.

Lemma lang_frac : forall m, ascii m -> lang r_frac m -> frac_part m.
Proof.
  intros m A L. unfold r_frac in L. apply lang_seq in L as (u & v & -> & U & V).
  apply lang_chr in U. subst u. apply ascii_app in A as [_ A].
  apply lang_seq in V as (x & y & -> & X & Y). apply ascii_app in A as [A1 A2].
  apply lang_digit in X as (c & -> & D); auto. exists c, y. repeat split; auto; try apply D.
  apply lang_dig_tail; auto.
Qed.

Lemma lang_exp : forall m, ascii m -> lang r_exp m -> exp_part m.
Proof.
  intros m A L. unfold r_exp in L. apply lang_seq in L as (u & v & -> & U & V).
  apply ascii_app in A as [_ A]. apply lang_seq in V as (x & y & -> & X & Y).
  apply ascii_app in A as [A1 A2].
  assert (E : exists e, u = [e] /\ (e = 101 \/ e = 69)).
  { apply lang_alt in U as [U|U]; apply lang_chr in U; eauto. }
  destruct E as (e & -> & E). exists e, x, y. repeat split; auto.
  - apply lang_sign; auto.
  - apply lang_intpart; auto.
Qed.

Lemma lang_float : forall m, ascii m -> lang re_float m -> toml_float m.
Proof.
  intros m A L. unfold re_float in L. apply lang_seq in L as (u & v & -> & U & V).
  apply ascii_app in A as [_ A]. apply lang_seq in V as (x & y & -> & X & Y).
  apply ascii_app in A as [A1 A2]. apply lang_sign in U. apply lang_intpart in X; auto.
  cbn [RAlts] in Y. apply lang_alt in Y as [Y|Y]; [|apply lang_alt in Y as [Y|Y]].
  - apply lang_seq in Y as (f & e & -> & F & E). apply ascii_app in A2 as [A2 A3].
    exists u, x, f, e. repeat split; auto. left. split; [apply lang_frac|apply lang_exp]; auto.
  - exists u, x, y, []. rewrite app_nil_r. repeat split; auto. right. left. split; auto.
    apply lang_frac; auto.
  - exists u, x, [], y. repeat split; auto. right. right. split; auto. apply lang_exp; auto.
Qed.

Lemma lang_of_int : forall m, toml_int m -> lang re_integer m.
Proof.
  intros m T. assert (E := integer_match m [] T eq_refl). apply re_match_sound in E as [_ L]. auto.
Qed.
Lemma lang_of_float : forall m, toml_float m -> lang re_float m.
Proof.
  intros m T. assert (E := float_match m [] T I). apply re_match_sound in E as [_ L]. auto.
Qed.
Lemma wf_integer : wf re_integer.
Proof. apply wfb_wf. vm_compute. auto. Qed.
Lemma wf_float : wf re_float.
Proof. apply wfb_wf. vm_compute. auto. Qed.

Lemma validate_integer_ascii : forall s, ascii s ->
  (validate (VInteger s) = true <-> exists m rest, s = m ++ rest /\ toml_int m).
Proof.
  intros s A. cbn [validate]. split.
  - destruct (re_match re_integer s) as [[m rest]|] eqn:E; [|discriminate]. intros _.
    apply re_match_sound in E as [-> L]. apply ascii_app in A as [A _]. exists m, rest.
    split; auto. apply lang_integer; auto.
  - intros (m & rest & -> & T). destruct (re_match re_integer (m ++ rest)) eqn:E; auto.
    exfalso. eapply (re_match_none _ _ wf_integer E m rest); auto. apply lang_of_int; auto.
Qed.

Lemma validate_float_ascii : forall s, ascii s ->
  (validate (VFloat s) = true <-> exists m rest, s = m ++ rest /\ toml_float m).
Proof.
  intros s A. cbn [validate]. split.
  - destruct (re_match re_float s) as [[m rest]|] eqn:E; [|discriminate]. intros _.
    apply re_match_sound in E as [-> L]. apply ascii_app in A as [A _]. exists m, rest.
    split; auto. apply lang_float; auto.
  - intros (m & rest & -> & T). destruct (re_match re_float (m ++ rest)) eqn:E; auto.
    exfalso. eapply (re_match_none _ _ wf_float E m rest); auto. apply lang_of_float; auto.
Qed.
