(** Elementary lemmas about strings, decimal numbers and association lists. *)
From Coq Require Import Lia ZifyBool ZifyNat ZifyN.
From Verif Require Import Str Types State.
Ltac Zify.zify_post_hook ::= Z.div_mod_to_equations.

#[global] Arguments N.add : simpl never.
#[global] Arguments N.sub : simpl never.
#[global] Arguments N.mul : simpl never.
#[global] Arguments N.div : simpl never.
#[global] Arguments N.modulo : simpl never.
#[global] Arguments N.pow : simpl never.
#[global] Arguments N.leb : simpl never.
#[global] Arguments N.ltb : simpl never.
#[global] Arguments N.eqb : simpl never.
#[global] Arguments Nat.ltb : simpl never.

Lemma str_eqb_refl : forall a, str_eqb a a = true.
Proof. induction a; simpl; auto. rewrite N.eqb_refl; auto. Qed.

Lemma str_eqb_eq : forall a b, str_eqb a b = true <-> a = b.
Proof.
  induction a; destruct b; simpl; split; intro H; try easy.
  - apply andb_true_iff in H as [H1 H2]. apply N.eqb_eq in H1. apply IHa in H2. congruence.
  - inversion H; subst. rewrite N.eqb_refl. simpl. apply IHa. auto.
Qed.

Lemma str_eqb_neq : forall a b, str_eqb a b = false <-> a <> b.
Proof.
  intros a b. destruct (str_eqb a b) eqn:E.
  - apply str_eqb_eq in E. split; congruence.
  - split; auto. intros _ H. apply str_eqb_eq in H. congruence.
Qed.

Lemma str_eqb_sym : forall a b, str_eqb a b = str_eqb b a.
Proof.
  intros a b. destruct (str_eqb a b) eqn:E.
  - apply str_eqb_eq in E. subst. symmetry. apply str_eqb_refl.
  - symmetry. apply str_eqb_neq. apply str_eqb_neq in E. congruence.
Qed.

Lemma str_dec : forall a b : str, {a = b} + {a <> b}.
Proof.
  intros a b. destruct (str_eqb a b) eqn:E.
  - left. apply str_eqb_eq; auto.
  - right. apply str_eqb_neq; auto.
Qed.

Lemma starts_with_app : forall p s, starts_with p s = true <-> exists r, s = p ++ r.
Proof.
  induction p; simpl; intros.
  - split; eauto.
  - destruct s; split; intro H; try easy.
    + destruct H as [r H]. discriminate.
    + apply andb_true_iff in H as [H1 H2]. apply N.eqb_eq in H1. apply IHp in H2 as [r H2].
      subst. eauto.
    + destruct H as [r H]. inversion H; subst. rewrite N.eqb_refl. simpl. apply IHp. eauto.
Qed.

(** ** association lists *)

Section Assoc.
  Context {V : Type}.
  Implicit Types m : hmap V.

  Lemma hget_hput_same : forall m k v, hget k (hput k v m) = Some v.
  Proof.
    induction m as [|[k' v'] m IH]; simpl; intros.
    - rewrite str_eqb_refl; auto.
    - destruct (str_eqb k k') eqn:E; simpl; rewrite E; auto.
  Qed.

  Lemma hget_hput_other : forall m k k' v, k <> k' -> hget k (hput k' v m) = hget k m.
  Proof.
    induction m as [|[k1 v1] m IH]; simpl; intros.
    - apply str_eqb_neq in H. rewrite H; auto.
    - destruct (str_eqb k' k1) eqn:E; simpl.
      + apply str_eqb_eq in E; subst k1. apply str_eqb_neq in H. rewrite H; auto.
      + destruct (str_eqb k k1); auto.
  Qed.

  Lemma hget_hput : forall m k k' v,
    hget k (hput k' v m) = if str_eqb k k' then Some v else hget k m.
  Proof.
    intros. destruct (str_eqb k k') eqn:E.
    - apply str_eqb_eq in E; subst. apply hget_hput_same.
    - apply hget_hput_other. apply str_eqb_neq; auto.
  Qed.

  Lemma hget_hremove_same : forall m k, hget k (hremove k m) = None.
  Proof.
    induction m as [|[k1 v1] m IH]; simpl; intros; auto.
    destruct (str_eqb k k1) eqn:E; simpl; auto. rewrite E; auto.
  Qed.

  Lemma hget_hremove_other : forall m k k', k <> k' -> hget k (hremove k' m) = hget k m.
  Proof.
    induction m as [|[k1 v1] m IH]; simpl; intros; auto.
    destruct (str_eqb k' k1) eqn:E; simpl; auto.
    - apply str_eqb_eq in E; subst k1. apply str_eqb_neq in H as H2. rewrite H2; auto.
    - destruct (str_eqb k k1); auto.
  Qed.

  Lemma hget_In : forall m k v, hget k m = Some v -> In (k, v) m.
  Proof.
    induction m as [|[k1 v1] m IH]; simpl; intros; try easy.
    destruct (str_eqb k k1) eqn:E.
    - apply str_eqb_eq in E. inversion H; subst; auto.
    - auto.
  Qed.
End Assoc.

(** ** vectors *)

Lemma vlast_app : forall {A} (l : list A) x, vlast (l ++ [x]) = Some x.
Proof.
  intros. unfold vlast. destruct (l ++ [x]) eqn:E.
  - destruct l; discriminate.
  - rewrite <- E. rewrite app_length. simpl.
    replace (length l + 1 - 1)%nat with (length l) by lia.
    rewrite nth_error_app2 by lia. rewrite Nat.sub_diag. auto.
Qed.

Lemma vpop_app : forall {A} (l : list A) x, vpop (l ++ [x]) = l.
Proof. intros. unfold vpop. apply removelast_last. Qed.

Lemma vlast_some_app : forall {A} (l : list A) x, vlast l = Some x -> l = vpop l ++ [x].
Proof.
  intros A l x H. destruct (rev l) as [|y r] eqn:E.
  - apply (f_equal (@rev A)) in E. rewrite rev_involutive in E. subst. discriminate.
  - apply (f_equal (@rev A)) in E. rewrite rev_involutive in E. simpl in E. subst.
    rewrite vlast_app in H. inversion H; subst. rewrite vpop_app. auto.
Qed.

Lemma vlast_none : forall {A} (l : list A), vlast l = None -> l = [].
Proof.
  intros A l H. destruct (rev l) as [|y r] eqn:E.
  - apply (f_equal (@rev A)) in E. rewrite rev_involutive in E. subst. auto.
  - apply (f_equal (@rev A)) in E. rewrite rev_involutive in E. simpl in E. subst.
    rewrite vlast_app in H. discriminate.
Qed.

(** ** decimal numbers *)

(** value of a string of digits, most significant first *)
Definition dval (acc : N) (s : str) : N := fold_left (fun a c => a * 10 + (c - 48)) s acc.

Lemma digits_val_spec : forall s acc,
  digits_val acc s = if forallb is_ascii_digit s then Some (dval acc s) else None.
Proof.
  induction s; simpl; intros; auto.
  destruct (is_ascii_digit a); simpl; auto.
Qed.

Lemma is_ascii_digit_spec : forall c, is_ascii_digit c = true <-> 48 <= c <= 57.
Proof. intros. unfold is_ascii_digit. lia. Qed.

Lemma dec_aux_app : forall f n acc, dec_aux f n acc = dec_aux f n [] ++ acc.
Proof.
  induction f; simpl; intros; auto.
  destruct (n <? 10); auto.
  rewrite IHf. rewrite (IHf _ [_]). rewrite <- app_assoc. auto.
Qed.

Lemma size_nat_div10 : forall n, 10 <= n -> (N.size_nat (n / 10) < N.size_nat n)%nat.
Proof.
  intros n H.
  assert (Hd : n / 10 <> 0) by lia.
  destruct (n / 10) as [|q] eqn:E; [lia|]. destruct n as [|p]; [lia|].
  assert (Hs : forall p, 2 ^ (N.of_nat (N.size_nat (N.pos p)) - 1) <= N.pos p
                         < 2 ^ N.of_nat (N.size_nat (N.pos p))).
  { intro x. replace (N.of_nat (N.size_nat (N.pos x))) with (N.size (N.pos x)).
    - rewrite N.size_log2 by lia. replace (N.succ (N.log2 (N.pos x)) - 1) with (N.log2 (N.pos x)) by lia.
      apply N.log2_spec; lia.
    - simpl. clear. induction x; simpl; try rewrite IHx; try lia. }
  pose proof (Hs q) as [H1 _]. pose proof (Hs p) as [_ H2].
  destruct (Nat.lt_ge_cases (N.size_nat (N.pos q)) (N.size_nat (N.pos p))) as [|Hge]; auto.
  exfalso.
  assert (Hq : N.pos q * 2 <= N.pos p) by lia.
  assert (Hp1 : (1 <= N.size_nat (N.pos q))%nat) by (destruct q; simpl; lia).
  assert (2 ^ N.of_nat (N.size_nat (N.pos p)) <= 2 ^ N.of_nat (N.size_nat (N.pos q)))
    by (apply N.pow_le_mono_r; lia).
  replace (N.of_nat (N.size_nat (N.pos q))) with (1 + (N.of_nat (N.size_nat (N.pos q)) - 1)) in H0 by lia.
  rewrite N.pow_add_r in H0. change (2 ^ 1) with 2 in H0. lia.
Qed.

(** the number of digits is enough fuel *)
Lemma dec_aux_spec : forall f n acc, (N.size_nat n < f)%nat ->
  exists d, dec_aux f n acc = d ++ acc /\ forallb is_ascii_digit d = true /\
            dval 0 d = n /\ d <> [] /\ (n <> 0 -> exists c t, d = c :: t /\ 49 <= c <= 57) /\
            (n = 0 -> d = [48]).
Proof.
  induction f; intros; [lia|]. cbn [dec_aux]. destruct (n <? 10) eqn:E.
  - exists [48 + n mod 10]. split; auto. unfold is_ascii_digit, dval. cbn [forallb fold_left].
    split; [lia|]. split; [lia|]. split; [discriminate|]. split.
    + intros Hn. exists (48 + n mod 10), []. split; auto. lia.
    + intros ->. reflexivity.
  - destruct (IHf (n / 10) ((48 + n mod 10) :: acc)) as (d & H1 & H2 & H3 & H4 & H5 & H6).
    { assert (10 <= n) by lia. apply size_nat_div10 in H0. lia. }
    exists (d ++ [48 + n mod 10]). rewrite H1. rewrite <- app_assoc. simpl. split; auto.
    split. { rewrite forallb_app. rewrite H2. cbn [forallb]. unfold is_ascii_digit. lia. }
    split. { unfold dval in *. rewrite fold_left_app. rewrite H3. cbn [fold_left]. lia. }
    split. { destruct d; discriminate. }
    split.
    + intros _. destruct H5 as (c & t & Hd & Hc); [lia|]. exists c, (t ++ [48 + n mod 10]).
      subst. auto.
    + intros; lia.
Qed.

Lemma dec_spec : forall n,
  forallb is_ascii_digit (dec n) = true /\ dval 0 (dec n) = n /\ dec n <> [] /\
  (n <> 0 -> exists c t, dec n = c :: t /\ 49 <= c <= 57) /\ (n = 0 -> dec n = [48]).
Proof.
  intros. unfold dec. destruct (dec_aux_spec (S (N.size_nat n)) n [] ltac:(lia)) as (d & H & R).
  rewrite app_nil_r in H. rewrite H. auto.
Qed.

Lemma dec_inj : forall a b, dec a = dec b -> a = b.
Proof.
  intros. destruct (dec_spec a) as (_ & Ha & _). destruct (dec_spec b) as (_ & Hb & _). congruence.
Qed.

Lemma dec_digits : forall n c, In c (dec n) -> 48 <= c <= 57.
Proof.
  intros. destruct (dec_spec n) as (Ha & _). rewrite forallb_forall in Ha.
  apply Ha in H. unfold is_ascii_digit in H. lia.
Qed.

Lemma dec_not_nil : forall n, dec n <> [].
Proof. intros. apply dec_spec. Qed.

Lemma dval_app : forall a b acc, dval acc (a ++ b) = dval (dval acc a) b.
Proof. intros. unfold dval. apply fold_left_app. Qed.

Lemma dval_zeros : forall k s, dval 0 (repeat 48 k ++ s) = dval 0 s.
Proof. induction k; simpl; intros; auto. Qed.

Lemma pad0_digits : forall w n, forallb is_ascii_digit (pad0 w n) = true.
Proof.
  intros. unfold pad0. rewrite forallb_app. apply andb_true_iff; split.
  - apply forallb_forall. intros x H. apply repeat_spec in H. subst. reflexivity.
  - apply dec_spec.
Qed.

Lemma pad0_dval : forall w n, dval 0 (pad0 w n) = n.
Proof. intros. unfold pad0. rewrite dval_zeros. apply dec_spec. Qed.

Lemma blen_digits : forall s, forallb is_ascii_digit s = true -> blen s = length s.
Proof.
  induction s; simpl; intros; auto. apply andb_true_iff in H as [H1 H2].
  rewrite IHs; auto. unfold is_ascii_digit in H1. unfold utf8_width.
  assert (a <? 128 = true) as -> by lia. auto.
Qed.

Lemma dval_bound : forall s acc, forallb is_ascii_digit s = true ->
  acc * 10 ^ N.of_nat (length s) <= dval acc s < (acc + 1) * 10 ^ N.of_nat (length s).
Proof.
  induction s; intros.
  - unfold dval; simpl. lia.
  - simpl in H. apply andb_true_iff in H as [H1 H2]. unfold is_ascii_digit in H1.
    change (dval acc (a :: s)) with (dval (acc * 10 + (a - 48)) s).
    specialize (IHs (acc * 10 + (a - 48)) H2).
    replace (N.of_nat (length (a :: s))) with (N.succ (N.of_nat (length s))) by (simpl; lia).
    rewrite N.pow_succ_r by lia.
    remember (10 ^ N.of_nat (length s)) as P.
    assert (0 < P) by (subst; apply N.neq_0_lt_0; apply N.pow_nonzero; lia).
    nia.
Qed.

(** number of digits *)
Lemma dec_len : forall n k, (length (dec n) <= k)%nat -> n < 10 ^ N.of_nat k.
Proof.
  intros. destruct (dec_spec n) as (H1 & H2 & _).
  pose proof (dval_bound (dec n) 0 H1) as [_ B]. rewrite H2 in B.
  eapply N.lt_le_trans; [apply B|]. rewrite N.mul_1_l. apply N.pow_le_mono_r; lia.
Qed.

Lemma dec_len_inv : forall n k, n < 10 ^ N.of_nat k -> (1 <= k)%nat -> (length (dec n) <= k)%nat.
Proof.
  intros n k H K. destruct (N.eq_dec n 0) as [->|Hn]; [simpl; auto|].
  destruct (dec_spec n) as (H1 & H2 & _ & H4 & _). destruct (H4 Hn) as (c & t & E & Hc).
  rewrite E in *. simpl in H1. apply andb_true_iff in H1 as [_ H1].
  change (dval 0 (c :: t)) with (dval (0 * 10 + (c - 48)) t) in H2.
  pose proof (dval_bound t (0 * 10 + (c - 48)) H1) as [B _]. rewrite H2 in B.
  destruct (Nat.le_gt_cases (length (c :: t)) k) as [|Hgt]; auto. exfalso. simpl in Hgt.
  assert (10 ^ N.of_nat k <= 10 ^ N.of_nat (length t)) by (apply N.pow_le_mono_r; lia).
  nia.
Qed.

Lemma pad0_len : forall w n, (1 <= w)%nat -> (length (pad0 w n) = w <-> n < 10 ^ N.of_nat w).
Proof.
  intros. unfold pad0. rewrite app_length, repeat_length.
  destruct (Nat.le_gt_cases (length (dec n)) w).
  - split; intros; [apply dec_len; auto| lia].
  - split; intros; [lia|]. apply dec_len_inv in H1; auto. lia.
Qed.

Lemma uint_from_str_digits : forall s, forallb is_ascii_digit s = true -> s <> [] ->
  uint_from_str s = if dval 0 s <=? u64_max then Some (dval 0 s) else None.
Proof.
  intros s H H0. unfold uint_from_str. destruct s as [|c s]; [congruence|].
  assert (Hc : (c =? 43) = false).
  { simpl in H. apply andb_true_iff in H as [H _]. unfold is_ascii_digit in H. lia. }
  rewrite Hc. rewrite digits_val_spec, H. auto.
Qed.

Lemma uint_from_str_plus : forall s, uint_from_str (43 :: s) =
  match s with [] => None | _ => match digits_val 0 s with
   | Some n => if n <=? u64_max then Some n else None | None => None end end.
Proof. reflexivity. Qed.
