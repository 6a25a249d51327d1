(** Proofs about the constructors of public values and the key helpers. *)
From Coq Require Import Lia ZifyBool ZifyNat ZifyN.
From Verif Require Import Str Regex Types Ast State Nom Keys Grammar Api Facts Spec.
From Verif Require Import RegexFacts NomFacts TypesFacts DateFacts.

Lemma days_le : forall y m, days_in_month y m <= 31.
Proof.
  intros. unfold days_in_month. repeat (destruct m as [|m]; try lia); try (destruct m; try lia);
    repeat (try lia; destruct m; try lia); try (destruct (leap_year y); lia).
Qed.

Lemma real_date_pad : forall y m d, real_date y m d ->
  pad0 4 y = fixed_digits 4 y /\ pad0 2 m = fixed_digits 2 m /\ pad0 2 d = fixed_digits 2 d /\
  field 4 (pad0 4 y) /\ field 2 (pad0 2 m) /\ field 2 (pad0 2 d).
Proof.
  intros y m d (Hy & Hm & Hd). pose proof (days_le y m).
  assert (y < 10 ^ N.of_nat 4) by (change (10 ^ N.of_nat 4) with 10000; lia).
  assert (m < 10 ^ N.of_nat 2) by (change (10 ^ N.of_nat 2) with 100; lia).
  assert (d < 10 ^ N.of_nat 2) by (change (10 ^ N.of_nat 2) with 100; lia).
  repeat split; try (apply pad0_fixed; auto; lia); try (apply pad0_field; auto; lia).
Qed.

Lemma real_time_pad : forall h m s, real_time h m s ->
  pad0 2 h = fixed_digits 2 h /\ pad0 2 m = fixed_digits 2 m /\ pad0 2 s = fixed_digits 2 s /\
  field 2 (pad0 2 h) /\ field 2 (pad0 2 m) /\ field 2 (pad0 2 s).
Proof.
  intros h m s (Hh & Hm & Hs).
  assert (h < 10 ^ N.of_nat 2) by (change (10 ^ N.of_nat 2) with 100; lia).
  assert (m < 10 ^ N.of_nat 2) by (change (10 ^ N.of_nat 2) with 100; lia).
  assert (s < 10 ^ N.of_nat 2) by (change (10 ^ N.of_nat 2) with 100; lia).
  repeat split; try (apply pad0_fixed; auto; lia); try (apply pad0_field; auto; lia).
Qed.

Lemma real_offset_pad : forall h m, real_offset h m ->
  pad0 2 h = fixed_digits 2 h /\ pad0 2 m = fixed_digits 2 m /\
  field 2 (pad0 2 h) /\ field 2 (pad0 2 m).
Proof.
  intros h m (Hh & Hm).
  assert (h < 10 ^ N.of_nat 2) by (change (10 ^ N.of_nat 2) with 100; lia).
  assert (m < 10 ^ N.of_nat 2) by (change (10 ^ N.of_nat 2) with 100; lia).
  repeat split; try (apply pad0_fixed; auto; lia); try (apply pad0_field; auto; lia).
Qed.

(** the date part *)
Lemma date_from_parts_pad : forall y m d,
  (real_date y m d ->
   date_from_parts (pad0 4 y) (pad0 2 m) (pad0 2 d) =
   Some {| d_year := pad0 4 y; d_month := pad0 2 m; d_day := pad0 2 d |}) /\
  (~ real_date y m d -> date_from_parts (pad0 4 y) (pad0 2 m) (pad0 2 d) = None).
Proof.
  intros. unfold date_from_parts. pose proof (date_from_int_valid y m d).
  destruct (date_validate _); split; intros; auto; exfalso; intuition congruence.
Qed.

Lemma real_date_dec : forall y m d, real_date y m d \/ ~ real_date y m d.
Proof. intros. unfold real_date. lia. Qed.
Lemma real_time_dec : forall y m d, real_time y m d \/ ~ real_time y m d.
Proof. intros. unfold real_time. lia. Qed.
Lemma real_offset_dec : forall y m, real_offset y m \/ ~ real_offset y m.
Proof. intros. unfold real_offset. lia. Qed.

Definition frac_arg (f : option N) : Prop := match f with Some f => f <= u64_max | None => True end.

Lemma frac_ok_arg : forall f, frac_arg f -> fraction_ok (option_map dec f).
Proof. intros [f|] H; simpl; auto. apply fraction_ok_dec; auto. Qed.

(** constructors without numeric offset *)
Lemma datetime_with_int : forall y mo d h mi s f o, frac_arg f ->
  (o = None \/ o = Some Zulu) ->
  let r := datetime_with (pad0 4 y) (pad0 2 mo) (pad0 2 d) (pad0 2 h) (pad0 2 mi) (pad0 2 s)
             (option_map dec f) o in
  (r <> None <-> real_date y mo d /\ real_time h mi s) /\
  forall v, r = Some v ->
    let txt := date_text y mo d ++ time_text h mi s ++
               match f with Some f => lit "." ++ dec f | None => [] end ++
               match o with Some _ => lit "Z" | None => [] end in
    show_value v = Ok txt /\ validate v = true /\ datetime_parse txt = Ok (Some v).
Proof.
  intros y mo d h mi s f o Hf Ho r.
  pose proof (date_from_parts_pad y mo d) as [D1 D2].
  pose proof (time_from_int_valid h mi s (option_map dec f) o) as T.
  assert (Ho' : match o with Some o => offset_ok o | None => True end) by (destruct Ho; subst; simpl; auto).
  pose proof (frac_ok_arg f Hf) as Hf'.
  assert (T' : time_validate {| t_hour := pad0 2 h; t_minute := pad0 2 mi; t_second := pad0 2 s;
     t_fraction := option_map dec f; t_offset := o |} = true <-> real_time h mi s) by tauto. clear T.
  subst r. unfold datetime_with, time_from_parts.
  destruct (real_date_dec y mo d) as [RD|RD].
  2:{ rewrite D2 by auto. split; [split; [congruence|tauto]|discriminate]. }
  rewrite D1 by auto.
  destruct (time_validate _) eqn:V.
  2:{ split; [split; [congruence|intros [_ X]; apply T' in X; discriminate]|discriminate]. }
  assert (RT : real_time h mi s) by (apply T'; auto).
  split; [split; [auto|congruence]|].
  intros v E. inversion E; subst v. clear E.
  destruct (real_date_pad _ _ _ RD) as (P1 & P2 & P3 & F1 & F2 & F3).
  destruct (real_time_pad _ _ _ RT) as (P4 & P5 & P6 & F4 & F5 & F6).
  set (dt := {| dt_date := {| d_year := pad0 4 y; d_month := pad0 2 mo; d_day := pad0 2 d |};
                dt_time := Some {| t_hour := pad0 2 h; t_minute := pad0 2 mi; t_second := pad0 2 s;
                                   t_fraction := option_map dec f; t_offset := o |} |}).
  assert (DD : datetime_digits dt).
  { split; [split; auto|]. cbn. split; auto. split; auto. split; auto. split.
    - destruct f; simpl; auto. split; [apply dec_digits_|apply dec_not_nil].
    - destruct Ho; subst; simpl; auto. }
  assert (VV : datetime_validate dt = true).
  { unfold datetime_validate. cbn [dt_date dt_time dt]. rewrite V.
    assert (date_validate {| d_year := pad0 4 y; d_month := pad0 2 mo; d_day := pad0 2 d |} = true) as ->
      by (apply date_from_int_valid; auto). auto. }
  assert (SH : show_datetime dt =
    date_text y mo d ++ time_text h mi s ++
               match f with Some f => lit "." ++ dec f | None => [] end ++
               match o with Some _ => lit "Z" | None => [] end).
  { unfold show_datetime, dt. cbn [dt_time dt_date]. rewrite show_time_split.
    unfold show_date, date_text, time_text. cbn [d_year d_month d_day t_hour t_minute t_second t_fraction t_offset].
    rewrite P1, P2, P3, P4, P5, P6. rewrite <- !app_assoc. repeat f_equal.
    - destruct f; reflexivity.
    - destruct Ho; subst; reflexivity. }
  cbv zeta. rewrite <- SH. split; [reflexivity|]. split; [exact VV|].
  apply datetime_parse_show; auto.
Qed.

(** constructors with numeric offset *)
Lemma datetime_with_offset_int : forall y mo d h mi s f c oh om, frac_arg f ->
  let r := datetime_with_offset (pad0 4 y) (pad0 2 mo) (pad0 2 d) (pad0 2 h) (pad0 2 mi) (pad0 2 s)
             (option_map dec f) [c] (pad0 2 oh) (pad0 2 om) in
  (r <> None <-> real_date y mo d /\ real_time h mi s /\ (c = 43 \/ c = 45) /\ real_offset oh om) /\
  forall v, r = Some v ->
    let txt := date_text y mo d ++ time_text h mi s ++
               match f with Some f => lit "." ++ dec f | None => [] end ++
               offset_text c oh om in
    show_value v = Ok txt /\ validate v = true /\ datetime_parse txt = Ok (Some v).
Proof.
  intros y mo d h mi s f c oh om Hf r.
  pose proof (date_from_parts_pad y mo d) as [D1 D2].
  pose proof (frac_ok_arg f Hf) as Hf'.
  subst r. unfold datetime_with_offset, time_from_parts.
  destruct (real_date_dec y mo d) as [RD|RD].
  2:{ rewrite D2 by auto. split; [split; [congruence|tauto]|discriminate]. }
  rewrite D1 by auto.
  assert (ET : (c = 43 \/ c = 45) /\ real_offset oh om /\
    toa_from_str [c] (pad0 2 oh) (pad0 2 om) =
       Some {| toa_pn := if c =? 45 then Neg else Pos; toa_hour := pad0 2 oh; toa_minute := pad0 2 om |}
    \/ ~ ((c = 43 \/ c = 45) /\ real_offset oh om) /\ toa_from_str [c] (pad0 2 oh) (pad0 2 om) = None).
  { unfold toa_from_str.
    change (str_eqb [c] (lit "+")) with ((c =? 43) && true).
    change (str_eqb [c] (lit "-")) with ((c =? 45) && true). rewrite !andb_true_r.
    pose proof (toa_from_int_valid Pos oh om) as TP. pose proof (toa_from_int_valid Neg oh om) as TN.
    destruct (N.eqb_spec c 43) as [->|N1].
    - change (43 =? 45) with false. cbv iota.
      destruct (toa_validate _) eqn:V; [left; intuition|right].
      split; auto. intros [_ X]. apply TP in X. discriminate.
    - destruct (N.eqb_spec c 45) as [->|N2].
      + destruct (toa_validate _) eqn:V; [left; intuition|right].
        split; auto. intros [_ X]. apply TN in X. discriminate.
      + right. split; auto. lia. }
  destruct ET as [(C & RO & ->)|[NC ->]].
  2:{ split; [split; [congruence|tauto]|discriminate]. }
  destruct (real_offset_pad _ _ RO) as (P7 & P8 & F7 & F8).
  set (off := {| toa_pn := if c =? 45 then Neg else Pos; toa_hour := pad0 2 oh; toa_minute := pad0 2 om |}).
  pose proof (time_from_int_valid h mi s (option_map dec f) (Some (OffTime off))) as T.
  assert (Ho' : offset_ok (OffTime off)).
  { apply (toa_validate_iff Pos (pad0 2 oh) (pad0 2 om)). apply toa_from_int_valid. auto. }
  assert (T' : time_validate {| t_hour := pad0 2 h; t_minute := pad0 2 mi; t_second := pad0 2 s;
     t_fraction := option_map dec f; t_offset := Some (OffTime off) |} = true <-> real_time h mi s) by tauto. clear T.
  destruct (time_validate _) eqn:V.
  2:{ split; [split; [congruence|intros (_ & X & _); apply T' in X; discriminate]|discriminate]. }
  assert (RT : real_time h mi s) by (apply T'; auto).
  split; [split; [auto|congruence]|].
  intros v E. inversion E; subst v. clear E.
  destruct (real_date_pad _ _ _ RD) as (P1 & P2 & P3 & F1 & F2 & F3).
  destruct (real_time_pad _ _ _ RT) as (P4 & P5 & P6 & F4 & F5 & F6).
  set (dt := {| dt_date := {| d_year := pad0 4 y; d_month := pad0 2 mo; d_day := pad0 2 d |};
                dt_time := Some {| t_hour := pad0 2 h; t_minute := pad0 2 mi; t_second := pad0 2 s;
                                   t_fraction := option_map dec f; t_offset := Some (OffTime off) |} |}).
  assert (DD : datetime_digits dt).
  { split; [split; auto|]. cbn. split; auto. split; auto. split; auto. split.
    - destruct f; simpl; auto. split; [apply dec_digits_|apply dec_not_nil].
    - split; assumption. }
  assert (VV : datetime_validate dt = true).
  { unfold datetime_validate. cbn [dt_date dt_time dt]. rewrite V.
    assert (date_validate {| d_year := pad0 4 y; d_month := pad0 2 mo; d_day := pad0 2 d |} = true) as ->
      by (apply date_from_int_valid; auto). auto. }
  assert (SH : show_datetime dt =
    date_text y mo d ++ time_text h mi s ++
               match f with Some f => lit "." ++ dec f | None => [] end ++ offset_text c oh om).
  { unfold show_datetime, dt. cbn [dt_time dt_date]. rewrite show_time_split.
    unfold show_date, date_text, time_text, offset_text.
    cbn [d_year d_month d_day t_hour t_minute t_second t_fraction t_offset show_time_offset].
    unfold show_toa, off. cbn [toa_pn toa_hour toa_minute].
    rewrite P1, P2, P3, P4, P5, P6, P7, P8. rewrite <- !app_assoc. repeat f_equal.
    - destruct f; reflexivity.
    - destruct C; subst; reflexivity. }
  cbv zeta. rewrite <- SH. split; [reflexivity|]. split; [exact VV|].
  apply datetime_parse_show; auto.
Qed.

Lemma date_from_int_spec : forall y m d,
  (date_from_int y m d <> None <-> real_date y m d) /\
  forall v, date_from_int y m d = Some v ->
    show_value v = Ok (date_text y m d) /\ validate v = true /\
    datetime_parse (date_text y m d) = Ok (Some v).
Proof.
  intros. unfold date_from_int, date_from_str. pose proof (date_from_parts_pad y m d) as [D1 D2].
  destruct (real_date_dec y m d) as [RD|RD].
  2:{ rewrite D2 by auto. split; [split; [congruence|tauto]|discriminate]. }
  rewrite D1 by auto. split; [split; [auto|congruence]|]. intros v E. inversion E; subst v. clear E.
  destruct (real_date_pad _ _ _ RD) as (P1 & P2 & P3 & F1 & F2 & F3).
  set (dt := {| dt_date := {| d_year := pad0 4 y; d_month := pad0 2 m; d_day := pad0 2 d |};
                dt_time := None |}).
  assert (SH : show_datetime dt = date_text y m d).
  { unfold show_datetime, dt, show_date, date_text. cbn [dt_time dt_date d_year d_month d_day].
    rewrite P1, P2, P3. auto. }
  assert (VV : datetime_validate dt = true).
  { unfold datetime_validate, dt. cbn [dt_date dt_time].
    assert (date_validate {| d_year := pad0 4 y; d_month := pad0 2 m; d_day := pad0 2 d |} = true) as ->
      by (apply date_from_int_valid; auto). auto. }
  rewrite <- SH. split; [reflexivity|]. split; [exact VV|].
  apply datetime_parse_show; auto. split; [split; auto|exact I].
Qed.

(** ** booleans *)
Lemma to_lower_c_spec : forall c d, 97 <= d <= 122 -> (to_lower_c c = d <-> c = d \/ c + 32 = d).
Proof.
  intros. unfold to_lower_c. destruct ((65 <=? c) && (c <=? 90)) eqn:E; lia.
Qed.

Lemma to_lower_spec : forall t s, Forall (fun d => 97 <= d <= 122) t ->
  (to_lower s = t <-> same_letters s t).
Proof.
  unfold same_letters, to_lower. induction t; intros s H.
  - destruct s; simpl; split; intro E; auto; inversion E.
  - inversion H; subst. destruct s as [|c s]; simpl; split; intro E; try solve [inversion E].
    + injection E as E1 E2. constructor.
      * apply to_lower_c_spec; auto.
      * apply IHt; auto.
    + inversion E; subst. f_equal.
      * apply to_lower_c_spec; auto.
      * apply IHt; auto.
Qed.

Lemma letters_true : Forall (fun d => 97 <= d <= 122) (lit "true").
Proof. repeat (constructor; [vm_compute; split; discriminate|]). constructor. Qed.
Lemma letters_false : Forall (fun d => 97 <= d <= 122) (lit "false").
Proof. repeat (constructor; [vm_compute; split; discriminate|]). constructor. Qed.

Lemma bool_from_str_spec : forall s v, bool_from_str s = Some v <->
  (same_letters s (lit "true") /\ v = VBoolean true) \/
  (same_letters s (lit "false") /\ v = VBoolean false).
Proof.
  intros. rewrite <- (to_lower_spec _ _ letters_true), <- (to_lower_spec _ _ letters_false).
  unfold bool_from_str. destruct (str_eqb (to_lower s) (lit "true")) eqn:E.
  - apply str_eqb_eq in E. rewrite E. split.
    + intros H. inversion H. auto.
    + intros [[_ ->]|[H _]]; auto. discriminate.
  - apply str_eqb_neq in E. destruct (str_eqb (to_lower s) (lit "false")) eqn:F.
    + apply str_eqb_eq in F. rewrite F. split.
      * intros H. inversion H. auto.
      * intros [[H _]|[_ ->]]; auto. discriminate.
    + apply str_eqb_neq in F. split; [discriminate|]. intros [[H _]|[H _]]; contradiction.
Qed.

(** ** key helpers *)
Lemma combine_keys_inj : forall b x y, combine_keys b x = combine_keys b y -> x = y.
Proof.
  intros b x y H. unfold combine_keys in H. destruct b; auto.
  apply app_inv_head in H. apply app_inv_head in H. auto.
Qed.
Lemma combine_keys_index_inj : forall b i j,
  combine_keys_index b i = combine_keys_index b j -> i = j.
Proof.
  intros b i j H. unfold combine_keys_index in H. apply app_inv_head in H. apply app_inv_head in H.
  apply app_inv_tail in H. apply dec_inj; auto.
Qed.
Lemma combine_child_keys_keys : forall l b, combine_child_keys (Keys l) b = map (combine_keys b) l.
Proof. intros. reflexivity. Qed.

Lemma nrange_nth : forall n i, i < n -> nth_error (nrange n) (N.to_nat i) = Some i.
Proof.
  intros. unfold nrange. rewrite nth_error_map.
  rewrite (nth_error_nth' _ O) by (rewrite seq_length; lia). rewrite seq_nth by lia. simpl.
  f_equal. lia.
Qed.
Lemma nrange_len : forall n, length (nrange n) = N.to_nat n.
Proof. intros. unfold nrange. rewrite map_length, seq_length. auto. Qed.

Lemma combine_child_keys_count : forall n b,
  length (combine_child_keys (Count n) b) = N.to_nat n /\
  forall i, i < n -> nth_error (combine_child_keys (Count n) b) (N.to_nat i) =
                     Some (combine_keys_index b i).
Proof.
  intros. simpl. rewrite map_length, nrange_len. split; auto. intros.
  rewrite nth_error_map, nrange_nth by auto. reflexivity.
Qed.

(** ** digit times *)

Lemma time_validate_digits : forall h m s f o, digits h -> digits m -> digits s ->
  match f with Some f => digits f /\ f <> [] | None => True end ->
  match o with Some (OffTime a) => digits a.(toa_hour) /\ digits a.(toa_minute) | _ => True end ->
  (time_validate {| t_hour := h; t_minute := m; t_second := s; t_fraction := f; t_offset := o |} = true <->
   length h = 2%nat /\ length m = 2%nat /\ length s = 2%nat /\
   real_time (number h) (number m) (number s) /\
   match f with Some f => number f <= 18446744073709551615 | None => True end /\
   match o with
   | Some (OffTime a) => length a.(toa_hour) = 2%nat /\ length a.(toa_minute) = 2%nat /\
                         real_offset (number a.(toa_hour)) (number a.(toa_minute))
   | _ => True
   end).
Proof.
  intros h m s f o H M S F O. rewrite time_validate_iff. rewrite !loose_field_digits by auto.
  rewrite !loose_number_digits by auto.
  assert (EF : fraction_ok f <-> match f with Some f => number f <= 18446744073709551615 | None => True end).
  { destruct f as [f|]; [|simpl; tauto]. destruct F as [Hf1 Hf2]. unfold fraction_ok.
    rewrite uint_digits by auto. unfold u64_max. destruct (N.leb_spec (number f) 18446744073709551615).
    - split; auto. congruence.
    - split; [congruence|lia]. }
  rewrite EF. destruct o as [[|a]|]; cbn [offset_ok]; try tauto. destruct O as [O1 O2].
  rewrite !loose_field_digits, !loose_number_digits by auto. tauto.
Qed.

(** ** printing values *)

Definition value_ind' (P : value -> Prop)
  (Hint : forall s, P (VInteger s)) (Hfloat : forall s, P (VFloat s))
  (Hbool : forall b, P (VBoolean b)) (Hdate : forall d, P (VDateTime d))
  (Hstr : forall s t, P (VString s t))
  (Harr : forall l, Forall P l -> P (VArray l))
  (Hinl : forall l, Forall (fun kv => P (snd kv)) l -> P (VInlineTable l)) :
  forall v, P v :=
  fix rec (v : value) : P v :=
    match v with
    | VInteger s => Hint s
    | VFloat s => Hfloat s
    | VBoolean b => Hbool b
    | VDateTime d => Hdate d
    | VString s t => Hstr s t
    | VArray l => Harr l ((fix go l : Forall P l :=
        match l with [] => Forall_nil _ | x :: l' => Forall_cons x (rec x) (go l') end) l)
    | VInlineTable l => Hinl l ((fix go l : Forall (fun kv => P (snd kv)) l :=
        match l with [] => Forall_nil _ | x :: l' => Forall_cons x (rec (snd x)) (go l') end) l)
    end.

Lemma show_seq_ok : forall A (f : A -> res str) (P : A -> Prop) l,
  Forall (fun x => (exists o, f x = Ok o) <-> P x) l ->
  ((exists o, show_seq f l = Ok o) <-> l <> [] /\ Forall P l).
Proof.
  intros A f P l F. induction F as [|x l H F IH].
  - split; [intros [o E]; discriminate|intros [E _]; congruence].
  - destruct l as [|y l].
    + cbn [show_seq]. rewrite H. split.
      * intros Q. split; [discriminate|auto].
      * intros [_ Q]. inversion Q; auto.
    + change (show_seq f (x :: y :: l)) with
        (let? a := f x in let? b := show_seq f (y :: l) in Ok (a ++ lit ", " ++ b)).
      split.
      * intros [o E]. split; [discriminate|]. destruct (f x) eqn:Ex; try discriminate.
        cbn [rbind] in E. destruct (show_seq f (y :: l)) eqn:Es; try discriminate.
        constructor; [apply H; eauto|]. apply IH; eauto.
      * intros [_ Q]. inversion Q; subst. destruct (proj2 H) as [o ->]; auto.
        destruct (proj2 IH) as [o' ->]; [split; [discriminate|auto]|]. cbn [rbind]. eauto.
Qed.

Lemma show_value_ok : forall v, (exists o, show_value v = Ok o) <-> printable v.
Proof.
  induction v using value_ind'; try (split; intros; [constructor|eexists; reflexivity]).
  - pose proof (show_seq_ok _ show_value printable l H) as E. cbn [show_value]. split.
    + intros [o S]. destruct (show_seq show_value l) eqn:Es; try discriminate.
      apply PArr; apply E; eauto.
    + intros Q. inversion Q; subst. destruct (proj2 E) as [o ->]; auto. cbn [rbind]. eauto.
  - set (g := fun kv : str * value => let? x := show_value (snd kv) in Ok (fst kv ++ lit " = " ++ x)).
    assert (F : Forall (fun kv => (exists o, g kv = Ok o) <-> printable (snd kv)) l).
    { eapply Forall_impl; [|exact H]. intros kv K. unfold g. rewrite <- K. split.
      - intros [o S]. destruct (show_value (snd kv)); try discriminate. eauto.
      - intros [o ->]. cbn [rbind]. eauto. }
    pose proof (show_seq_ok _ g (fun kv => printable (snd kv)) l F) as E.
    change (show_value (VInlineTable l)) with
      (let? b := show_seq g l in Ok (lit "{" ++ b ++ lit "}")). split.
    + intros [o S]. destruct (show_seq g l) eqn:Es; try discriminate.
      apply PInl; apply E; eauto.
    + intros Q. inversion Q; subst. destruct (proj2 E) as [o ->]; auto. cbn [rbind]. eauto.
Qed.
