(** Proofs about the public value types (dates, times, constructors). *)
From Coq Require Import Lia ZifyBool ZifyNat ZifyN.
From Verif Require Import Str Regex Types Ast State Nom Keys Grammar Api Facts Spec.
Ltac Zify.zify_post_hook ::= Z.div_mod_to_equations.

Lemma digits_forallb : forall s, digits s <-> forallb is_ascii_digit s = true.
Proof.
  intros. unfold digits. rewrite forallb_forall, Forall_forall.
  split; intros H x Hx; apply H in Hx; unfold digit, is_ascii_digit in *; lia.
Qed.

Lemma number_from_dval : forall s acc, number_from acc s = dval acc s.
Proof.
  induction s; intros; auto. simpl. rewrite IHs. unfold dval. simpl. f_equal. lia.
Qed.

Lemma number_dval : forall s, number s = dval 0 s.
Proof. intros. apply number_from_dval. Qed.

Lemma digits_blen : forall s, digits s -> blen s = length s.
Proof. intros. apply blen_digits. apply digits_forallb; auto. Qed.

Lemma number_bound : forall s, digits s -> number s < 10 ^ N.of_nat (length s).
Proof.
  intros s H. rewrite number_dval. apply digits_forallb in H.
  pose proof (dval_bound s 0 H). lia.
Qed.

(** reading a field *)
Lemma uint_digits : forall s, digits s -> s <> [] ->
  uint_from_str s = if number s <=? u64_max then Some (number s) else None.
Proof.
  intros. rewrite number_dval. apply uint_from_str_digits; auto. apply digits_forallb; auto.
Qed.

Lemma utf8_width_pos : forall c, (1 <= utf8_width c)%nat.
Proof. intros. unfold utf8_width. repeat destruct (_ <? _); lia. Qed.

Lemma blen_len : forall s, (length s <= blen s)%nat.
Proof. induction s; simpl; auto. pose proof (utf8_width_pos a). lia. Qed.

Lemma uint_some_inv : forall s n, uint_from_str s = Some n ->
  n = loose_number s /\ n <= u64_max /\
  ((digits s /\ s <> []) \/ exists s', s = 43 :: s' /\ s' <> [] /\ digits s').
Proof.
  intros s n H. unfold uint_from_str in H. destruct s as [|c s]; [discriminate|].
  unfold loose_number. destruct (c =? 43) eqn:E.
  - apply N.eqb_eq in E. subst c. destruct s as [|c s]; [discriminate|].
    rewrite digits_val_spec in H. destruct (forallb is_ascii_digit (c :: s)) eqn:E2; [|discriminate].
    destruct (dval 0 (c :: s) <=? u64_max) eqn:E3; [|discriminate]. inversion H; subst.
    rewrite number_dval. split; auto. split; [apply N.leb_le; auto|]. right. exists (c :: s).
    split; auto. split; [discriminate|]. apply digits_forallb; auto.
  - rewrite digits_val_spec in H. destruct (forallb is_ascii_digit (c :: s)) eqn:E2; [|discriminate].
    destruct (dval 0 (c :: s) <=? u64_max) eqn:E3; [|discriminate]. inversion H; subst.
    rewrite number_dval. split; auto. split; [apply N.leb_le; auto|]. left.
    split; [apply digits_forallb; auto | discriminate].
Qed.

Lemma digits_not_plus : forall c s, digits (c :: s) -> (c =? 43) = false.
Proof. intros. inversion H; subst. unfold digit in *. lia. Qed.

(** a field of byte length w that reads as a number *)
Lemma uint_field : forall w s, (1 <= w <= 4)%nat ->
  (blen s = w /\ uint_from_str s <> None) <-> loose_field w s.
Proof.
  intros w s Hw. split.
  - intros [Hl Hu]. destruct (uint_from_str s) as [n|] eqn:E; [|congruence].
    apply uint_some_inv in E as (_ & _ & [[H1 H2]|(s' & -> & H2 & H3)]).
    + left. split; auto. rewrite digits_blen in Hl; auto.
    + right. exists s'. split; auto. split; auto. split; auto.
      simpl in Hl. rewrite digits_blen in Hl; auto. change (utf8_width 43) with 1%nat in Hl. lia.
  - intros [[H1 H2]|(s' & -> & H2 & H3 & H4)].
    + rewrite digits_blen by auto. split; auto.
      assert (s <> []) by (intros ->; simpl in H2; lia).
      rewrite uint_digits by auto. pose proof (number_bound s H1) as B. rewrite H2 in B.
      assert (number s <=? u64_max = true) as ->; [|discriminate].
      unfold u64_max. assert (10 ^ N.of_nat w <= 10 ^ 4) by (apply N.pow_le_mono_r; lia).
      change (10 ^ 4) with 10000 in H0. lia.
    + simpl. change (utf8_width 43) with 1%nat. rewrite digits_blen by auto. split; [lia|].
      rewrite uint_from_str_plus. destruct s' as [|c s']; [congruence|].
      rewrite digits_val_spec. assert (E : forallb is_ascii_digit (c :: s') = true) by (apply digits_forallb; auto).
      rewrite E. pose proof (number_bound _ H3) as B. rewrite H4 in B. rewrite number_dval in B.
      assert (dval 0 (c :: s') <=? u64_max = true) as ->; [|discriminate].
      unfold u64_max. assert (10 ^ N.of_nat (w - 1) <= 10 ^ 4) by (apply N.pow_le_mono_r; lia).
      change (10 ^ 4) with 10000 in H. lia.
Qed.

Lemma loose_field_uint : forall w s, (1 <= w <= 4)%nat -> loose_field w s ->
  blen s = w /\ uint_from_str s = Some (loose_number s).
Proof.
  intros w s Hw H. apply uint_field in H as [H1 H2]; auto. split; auto.
  destruct (uint_from_str s) as [n|] eqn:E; [|congruence].
  apply uint_some_inv in E as [-> _]. auto.
Qed.

Lemma field_loose : forall w s, field w s -> loose_field w s.
Proof. intros. left; auto. Qed.

Lemma loose_number_digits : forall s, digits s -> loose_number s = number s.
Proof.
  intros [|c s] H; auto. unfold loose_number. erewrite digits_not_plus; eauto.
Qed.

Lemma date_numbers_spec : forall y m d,
  (if (y =? 0) || (9999 <? y) then false else
   if (m <? 1) || (12 <? m) then false else
   if d <? 1 then false else
   if m =? 2 then
     let leap :=
       if negb (y mod 4 =? 0) then false
       else if negb (y mod 100 =? 0) then true
       else if negb (y mod 400 =? 0) then false
       else true in
     if leap && (29 <? d) then false
     else if negb leap && (28 <? d) then false
     else true
   else if (m =? 1) || (m =? 3) || (m =? 5) || (m =? 7) || (m =? 8) || (m =? 10) || (m =? 12)
   then (if 31 <? d then false else true)
   else (if 30 <? d then false else true)) = true <-> real_date y m d.
Proof.
  intros y m d. unfold real_date.
  destruct ((y =? 0) || (9999 <? y)) eqn:Ey. { split; [discriminate|lia]. }
  destruct ((m <? 1) || (12 <? m)) eqn:Em. { split; [discriminate|lia]. }
  destruct (d <? 1) eqn:Ed. { split; [discriminate|lia]. }
  assert (Hm : m = 1 \/ m = 2 \/ m = 3 \/ m = 4 \/ m = 5 \/ m = 6 \/ m = 7 \/ m = 8 \/ m = 9
               \/ m = 10 \/ m = 11 \/ m = 12) by lia.
  destruct (m =? 2) eqn:E2.
  - assert (m = 2) by lia. subst m. unfold days_in_month, leap_year. cbv zeta.
    destruct (y mod 4 =? 0) eqn:A; destruct (y mod 100 =? 0) eqn:B;
      destruct (y mod 400 =? 0) eqn:C; cbn [negb andb orb];
      try (exfalso; lia);
      first [destruct (29 <? d) eqn:D | idtac]; first [destruct (28 <? d) eqn:D2 | idtac];
      split; intros; try discriminate; try lia.
  - repeat (destruct Hm as [Hm|Hm]); subst m; try discriminate; cbn;
      destruct (31 <? d) eqn:D; destruct (30 <? d) eqn:D2; split; intros; try reflexivity; try lia; try (vm_compute in H; discriminate).
Qed.

Lemma date_validate_numbers_spec : forall y m d ny nm nd,
  uint_from_str y = Some ny -> uint_from_str m = Some nm -> uint_from_str d = Some nd ->
  date_validate_numbers {| d_year := y; d_month := m; d_day := d |} = true <->
  real_date ny nm nd.
Proof.
  intros. unfold date_validate_numbers; simpl. rewrite H, H0, H1.
  apply date_numbers_spec.
Qed.

(** exact characterisation, for all strings *)
Lemma date_validate_iff : forall y m d,
  date_validate {| d_year := y; d_month := m; d_day := d |} = true <->
  loose_field 4 y /\ loose_field 2 m /\ loose_field 2 d /\
  real_date (loose_number y) (loose_number m) (loose_number d).
Proof.
  intros y m d. unfold date_validate; simpl. split.
  - intros H. destruct (Nat.eqb (blen y) 4) eqn:Ey; [|discriminate].
    destruct (Nat.eqb (blen m) 2) eqn:Em; [|discriminate].
    destruct (Nat.eqb (blen d) 2) eqn:Ed; [|discriminate]. simpl in H.
    apply Nat.eqb_eq in Ey, Em, Ed.
    pose proof H as H'. unfold date_validate_numbers in H'; simpl in H'.
    destruct (uint_from_str y) as [ny|] eqn:Uy; [|discriminate].
    destruct ((ny =? 0) || (9999 <? ny)); [discriminate|].
    destruct (uint_from_str m) as [nm|] eqn:Um; [|discriminate].
    destruct ((nm <? 1) || (12 <? nm)); [discriminate|].
    destruct (uint_from_str d) as [nd|] eqn:Ud; [|discriminate]. clear H'.
    assert (Fy : loose_field 4 y) by (apply uint_field; [lia|]; rewrite Uy; split; [auto|discriminate]).
    assert (Fm : loose_field 2 m) by (apply uint_field; [lia|]; rewrite Um; split; [auto|discriminate]).
    assert (Fd : loose_field 2 d) by (apply uint_field; [lia|]; rewrite Ud; split; [auto|discriminate]).
    apply loose_field_uint in Fy as [_ Ly]; [|lia].
    apply loose_field_uint in Fm as [_ Lm]; [|lia].
    apply loose_field_uint in Fd as [_ Ld]; [|lia].
    split; [apply uint_field; [lia|]; rewrite Uy; split; [auto|discriminate]|].
    split; [apply uint_field; [lia|]; rewrite Um; split; [auto|discriminate]|].
    split; [apply uint_field; [lia|]; rewrite Ud; split; [auto|discriminate]|].
    eapply date_validate_numbers_spec; eauto.
  - intros (Fy & Fm & Fd & R).
    apply loose_field_uint in Fy as [By Ly]; [|lia].
    apply loose_field_uint in Fm as [Bm Lm]; [|lia].
    apply loose_field_uint in Fd as [Bd Ld]; [|lia].
    rewrite By, Bm, Bd. simpl. eapply date_validate_numbers_spec; eauto.
Qed.

Lemma loose_field_digits : forall w s, digits s -> (loose_field w s <-> length s = w).
Proof.
  intros w s H. split.
  - intros [[_ L]|(s' & -> & _ & _)]; auto. apply digits_not_plus in H. discriminate.
  - intros L. left. split; auto.
Qed.

Lemma date_validate_digits : forall y m d, digits y -> digits m -> digits d ->
  date_validate {| d_year := y; d_month := m; d_day := d |} = true <->
  length y = 4%nat /\ length m = 2%nat /\ length d = 2%nat /\
  real_date (number y) (number m) (number d).
Proof.
  intros. rewrite date_validate_iff. rewrite !loose_field_digits by auto.
  rewrite !loose_number_digits by auto. tauto.
Qed.

(** offsets *)
Lemma toa_validate_iff : forall p h m,
  toa_validate {| toa_pn := p; toa_hour := h; toa_minute := m |} = true <->
  loose_field 2 h /\ loose_field 2 m /\ real_offset (loose_number h) (loose_number m).
Proof.
  intros p h m. unfold toa_validate; simpl. unfold real_offset. split.
  - intros H. destruct (Nat.eqb (blen h) 2) eqn:Eh; [|discriminate].
    destruct (Nat.eqb (blen m) 2) eqn:Em; [|discriminate]. simpl in H.
    apply Nat.eqb_eq in Eh, Em. unfold toa_validate_numbers in H; simpl in H.
    destruct (uint_from_str h) as [nh|] eqn:Uh; [|discriminate].
    destruct (23 <? nh) eqn:Bh; [discriminate|].
    destruct (uint_from_str m) as [nm|] eqn:Um; [|discriminate].
    destruct (59 <? nm) eqn:Bm; [discriminate|].
    assert (Fh : loose_field 2 h) by (apply uint_field; [lia|]; rewrite Uh; split; [auto|discriminate]).
    assert (Fm : loose_field 2 m) by (apply uint_field; [lia|]; rewrite Um; split; [auto|discriminate]).
    split; auto. split; auto.
    apply loose_field_uint in Fh as [_ Lh]; [|lia]. apply loose_field_uint in Fm as [_ Lm]; [|lia].
    rewrite Uh in Lh. rewrite Um in Lm. inversion Lh. inversion Lm. subst. lia.
  - intros (Fh & Fm & R1 & R2).
    apply loose_field_uint in Fh as [Bh Lh]; [|lia]. apply loose_field_uint in Fm as [Bm Lm]; [|lia].
    rewrite Bh, Bm. simpl. unfold toa_validate_numbers; simpl. rewrite Lh, Lm.
    assert (23 <? loose_number h = false) as -> by lia.
    assert (59 <? loose_number m = false) as -> by lia. auto.
Qed.

Definition offset_ok (o : time_offset) : Prop :=
  match o with
  | Zulu => True
  | OffTime a => loose_field 2 a.(toa_hour) /\ loose_field 2 a.(toa_minute) /\
                 real_offset (loose_number a.(toa_hour)) (loose_number a.(toa_minute))
  end.

Definition fraction_ok (f : option str) : Prop :=
  match f with
  | None => True
  | Some f => uint_from_str f <> None
  end.

Lemma time_validate_iff : forall h m s f o,
  time_validate {| t_hour := h; t_minute := m; t_second := s; t_fraction := f; t_offset := o |} = true <->
  loose_field 2 h /\ loose_field 2 m /\ loose_field 2 s /\
  real_time (loose_number h) (loose_number m) (loose_number s) /\
  fraction_ok f /\ match o with Some o => offset_ok o | None => True end.
Proof.
  intros h m s f o. unfold time_validate; simpl. unfold real_time.
  assert (Ho : match o with Some o => time_offset_validate o | None => true end = true <->
               match o with Some o => offset_ok o | None => True end).
  { destruct o as [[|[p oh om]]|]; simpl; try tauto. apply toa_validate_iff. }
  assert (Hf : match f with
                | Some f => match uint_from_str f with Some _ => true | None => false end
                | None => true end = true <-> fraction_ok f).
  { destruct f as [f|]; simpl; [|tauto]. destruct (uint_from_str f); split; congruence. }
  split.
  - intros H. destruct (Nat.eqb (blen h) 2) eqn:Eh; [|discriminate].
    destruct (Nat.eqb (blen m) 2) eqn:Em; [|discriminate].
    destruct (Nat.eqb (blen s) 2) eqn:Es; [|discriminate]. simpl in H.
    apply Nat.eqb_eq in Eh, Em, Es. unfold time_validate_numbers in H; cbn [t_hour t_minute t_second t_fraction t_offset] in H.
    destruct (uint_from_str h) as [nh|] eqn:Uh; [|discriminate].
    destruct (23 <? nh) eqn:Bh; [discriminate|].
    destruct (uint_from_str m) as [nm|] eqn:Um; [|discriminate].
    destruct (59 <? nm) eqn:Bm; [discriminate|].
    destruct (uint_from_str s) as [ns|] eqn:Us; [|discriminate].
    destruct (59 <? ns) eqn:Bs; [discriminate|].
    destruct (match f with
              | Some f => match uint_from_str f with Some _ => true | None => false end
              | None => true end) eqn:Ef; [|discriminate].
    assert (Fh : loose_field 2 h) by (apply uint_field; [lia|]; rewrite Uh; split; [auto|discriminate]).
    assert (Fm : loose_field 2 m) by (apply uint_field; [lia|]; rewrite Um; split; [auto|discriminate]).
    assert (Fs : loose_field 2 s) by (apply uint_field; [lia|]; rewrite Us; split; [auto|discriminate]).
    do 3 (split; auto).
    apply loose_field_uint in Fh as [_ Lh]; [|lia]. apply loose_field_uint in Fm as [_ Lm]; [|lia].
    apply loose_field_uint in Fs as [_ Ls]; [|lia].
    rewrite Uh in Lh. rewrite Um in Lm. rewrite Us in Ls. inversion Lh. inversion Lm. inversion Ls.
    subst. split; [lia|]. split; [apply Hf; auto | apply Ho; auto].
  - intros (Fh & Fm & Fs & (R1 & R2 & R3) & F & O).
    apply loose_field_uint in Fh as [Bh Lh]; [|lia]. apply loose_field_uint in Fm as [Bm Lm]; [|lia].
    apply loose_field_uint in Fs as [Bs Ls]; [|lia].
    rewrite Bh, Bm, Bs. simpl. unfold time_validate_numbers;
      cbn [t_hour t_minute t_second t_fraction t_offset]. rewrite Lh, Lm, Ls.
    assert (23 <? loose_number h = false) as -> by lia.
    assert (59 <? loose_number m = false) as -> by lia.
    assert (59 <? loose_number s = false) as -> by lia.
    apply Hf in F. rewrite F. apply Ho; auto.
Qed.

(** ** padded numbers *)

Lemma fixed_digits_len : forall w n, length (fixed_digits w n) = w.
Proof. induction w; simpl; intros; auto. rewrite app_length, IHw. simpl. lia. Qed.

Lemma fixed_digits_digits : forall w n, digits (fixed_digits w n).
Proof.
  induction w; simpl; intros; [constructor|]. apply Forall_app. split; [apply IHw|].
  constructor; [unfold digit; lia|constructor].
Qed.

Lemma fixed_digits_number : forall w n, n < 10 ^ N.of_nat w -> number (fixed_digits w n) = n.
Proof.
  induction w; intros.
  - simpl in *. change (10 ^ 0) with 1 in H. cbn. lia.
  - replace (N.of_nat (S w)) with (N.succ (N.of_nat w)) in H by lia.
    rewrite N.pow_succ_r in H by lia. cbn [fixed_digits].
    rewrite number_dval, dval_app. rewrite <- number_dval. rewrite IHw.
    + unfold dval. cbn [fold_left]. lia.
    + apply N.div_lt_upper_bound; lia.
Qed.

(** two digit strings of the same length and value are equal *)
Lemma dval_inj : forall a b x y, digits a -> digits b -> length a = length b ->
  dval x a = dval y b -> x = y /\ a = b.
Proof.
  intros a. pattern a. apply rev_ind; clear a.
  - intros b x y _ _ L E. destruct b; [|discriminate]. unfold dval in E; simpl in E. auto.
  - intros c a IH b x y Ha Hb L E.
    destruct (rev b) as [|d b'] eqn:Eb.
    { apply (f_equal (@rev N)) in Eb. rewrite rev_involutive in Eb. subst.
      rewrite app_length in L. simpl in L. lia. }
    apply (f_equal (@rev N)) in Eb. rewrite rev_involutive in Eb. simpl in Eb. subst b.
    rewrite !app_length in L. simpl in L.
    apply Forall_app in Ha as [Ha Hc]. apply Forall_app in Hb as [Hb Hd].
    inversion Hc; subst. inversion Hd; subst. unfold digit in *.
    rewrite !dval_app in E. unfold dval at 1 3 in E. cbn [fold_left] in E.
    assert (dval x a = dval y (rev b') /\ c = d) as [E1 E2] by lia.
    apply IH in E1 as [-> ->]; auto; try lia. subst. auto.
Qed.

Lemma pad0_fixed : forall w n, (1 <= w)%nat -> n < 10 ^ N.of_nat w -> pad0 w n = fixed_digits w n.
Proof.
  intros. apply (proj2 (dval_inj _ _ 0 0 (proj2 (digits_forallb _) (pad0_digits w n))
                          (fixed_digits_digits w n)
                          ltac:(rewrite fixed_digits_len; apply pad0_len; auto)
                          ltac:(rewrite pad0_dval; rewrite <- number_dval, fixed_digits_number; auto))).
Qed.

Lemma pad0_field : forall w n, (1 <= w)%nat -> n < 10 ^ N.of_nat w -> field w (pad0 w n).
Proof.
  intros. split. { apply digits_forallb, pad0_digits. } apply pad0_len; auto.
Qed.

Lemma pad0_number : forall w n, number (pad0 w n) = n.
Proof. intros. rewrite number_dval. apply pad0_dval. Qed.

Lemma dec_digits_ : forall n, digits (dec n).
Proof. intros. apply digits_forallb, dec_spec. Qed.

Lemma dec_numeral : forall n, numeral n (dec n).
Proof.
  intros. destruct (dec_spec n) as (H1 & H2 & H3 & H4 & H5).
  split; [apply digits_forallb; auto|]. split; auto. split; [rewrite number_dval; auto|].
  intros Hh. destruct (N.eq_dec n 0) as [->|Hn]; auto.
  destruct (H4 Hn) as (c & t & E & Hc). rewrite E in Hh. simpl in Hh. lia.
Qed.

Lemma pad0_digits_ : forall w n, digits (pad0 w n).
Proof. intros. apply digits_forallb, pad0_digits. Qed.

Lemma date_from_int_valid : forall y m d,
  date_validate {| d_year := pad0 4 y; d_month := pad0 2 m; d_day := pad0 2 d |} = true <->
  real_date y m d.
Proof.
  intros. rewrite date_validate_digits by apply pad0_digits_. rewrite !pad0_number.
  rewrite !pad0_len by lia. change (10 ^ N.of_nat 4) with 10000. change (10 ^ N.of_nat 2) with 100.
  unfold real_date. split; [tauto|]. intros (Hy & Hm & Hd).
  assert (days_in_month y m <= 31).
  { unfold days_in_month. assert (Hm' : m = 1 \/ m = 2 \/ m = 3 \/ m = 4 \/ m = 5 \/ m = 6 \/ m = 7
      \/ m = 8 \/ m = 9 \/ m = 10 \/ m = 11 \/ m = 12) by lia.
    repeat (destruct Hm' as [Hm'|Hm']); subst m; try lia. destruct (leap_year y); lia. }
  lia.
Qed.

Lemma toa_from_int_valid : forall p h m,
  toa_validate {| toa_pn := p; toa_hour := pad0 2 h; toa_minute := pad0 2 m |} = true <->
  real_offset h m.
Proof.
  intros. rewrite toa_validate_iff. rewrite !loose_field_digits by apply pad0_digits_.
  rewrite !loose_number_digits by apply pad0_digits_. rewrite !pad0_number.
  rewrite !pad0_len by lia. change (10 ^ N.of_nat 2) with 100. unfold real_offset. lia.
Qed.

Lemma time_from_int_valid : forall h m s f o,
  time_validate {| t_hour := pad0 2 h; t_minute := pad0 2 m; t_second := pad0 2 s;
                   t_fraction := f; t_offset := o |} = true <->
  real_time h m s /\ fraction_ok f /\ match o with Some o => offset_ok o | None => True end.
Proof.
  intros. rewrite time_validate_iff. rewrite !loose_field_digits by apply pad0_digits_.
  rewrite !loose_number_digits by apply pad0_digits_. rewrite !pad0_number.
  rewrite !pad0_len by lia. change (10 ^ N.of_nat 2) with 100. unfold real_time. split; [tauto|].
  intros ((A & B & C) & D). repeat split; try lia; tauto.
Qed.

Lemma fraction_ok_dec : forall f, f <= u64_max -> fraction_ok (Some (dec f)).
Proof.
  intros. simpl. rewrite uint_digits; [|apply dec_digits_|apply dec_not_nil].
  rewrite number_dval. destruct (dec_spec f) as (_ & -> & _).
  assert (f <=? u64_max = true) as -> by lia. discriminate.
Qed.
