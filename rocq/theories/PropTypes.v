(** Properties C30-C36 and C40-C42: dates, numbers, booleans, keys, printing of
    values.  Statements use [Spec]; the proofs are in the [*Facts] files. *)
From Verif Require Import Str Types State Nom Grammar Api Spec Facts TypesFacts DateFacts CtorFacts
  RegexFacts NumFacts.

(** ** C30 *)
Theorem C30_date_gregorian : forall y m d, digits y -> digits m -> digits d ->
  date_validate {| d_year := y; d_month := m; d_day := d |} = true <->
  length y = 4%nat /\ length m = 2%nat /\ length d = 2%nat /\
  real_date (number y) (number m) (number d).
Proof. exact date_validate_digits. Qed.
Print Assumptions C30_date_gregorian.

(** 2000 was a leap year, 1900 was not *)
Example C30_ex : digits (lit "2000") /\ digits (lit "1900") /\ digits (lit "02") /\ digits (lit "29") /\
  date_validate {| d_year := lit "2000"; d_month := lit "02"; d_day := lit "29" |} = true /\
  date_validate {| d_year := lit "1900"; d_month := lit "02"; d_day := lit "29" |} = false /\
  date_validate {| d_year := lit "2000"; d_month := lit "2"; d_day := lit "29" |} = false.
Proof. repeat split; try (vm_compute; reflexivity); apply digits_forallb; vm_compute; reflexivity. Qed.

(** ** C31: false as stated, a leading plus sign is accepted *)
Theorem C31_only_digits_refuted :
  (exists y m d, date_validate {| d_year := y; d_month := m; d_day := d |} = true /\
     ~ digits y /\ ~ digits m /\ ~ digits d) /\
  (exists h m s, time_validate {| t_hour := h; t_minute := m; t_second := s;
                                  t_fraction := None; t_offset := None |} = true /\
     ~ digits h /\ ~ digits m /\ ~ digits s) /\
  (exists p h m, toa_validate {| toa_pn := p; toa_hour := h; toa_minute := m |} = true /\
     ~ digits h /\ ~ digits m).
Proof.
  assert (N : forall s, forallb is_ascii_digit s = false -> ~ digits s).
  { intros s H D. apply digits_forallb in D. congruence. }
  split; [|split].
  - exists (lit "+123"), (lit "+1"), (lit "+2"). repeat split; try (apply N); vm_compute; reflexivity.
  - exists (lit "+1"), (lit "+2"), (lit "+3"). repeat split; try (apply N); vm_compute; reflexivity.
  - exists Pos, (lit "+1"), (lit "+2"). repeat split; try (apply N); vm_compute; reflexivity.
Qed.
Print Assumptions C31_only_digits_refuted.

(** What holds for all strings: every field is of the documented width and made
    of digits, except that its first character may be a plus sign. *)
Theorem C31_date_fields_partial : forall y m d,
  date_validate {| d_year := y; d_month := m; d_day := d |} = true <->
  loose_field 4 y /\ loose_field 2 m /\ loose_field 2 d /\
  real_date (loose_number y) (loose_number m) (loose_number d).
Proof. exact date_validate_iff. Qed.
Print Assumptions C31_date_fields_partial.

Theorem C31_offset_fields_partial : forall p h m,
  toa_validate {| toa_pn := p; toa_hour := h; toa_minute := m |} = true <->
  loose_field 2 h /\ loose_field 2 m /\ real_offset (loose_number h) (loose_number m).
Proof. exact toa_validate_iff. Qed.
Print Assumptions C31_offset_fields_partial.

Theorem C31_time_fields_partial : forall h m s f o,
  time_validate {| t_hour := h; t_minute := m; t_second := s; t_fraction := f; t_offset := o |} = true ->
  loose_field 2 h /\ loose_field 2 m /\ loose_field 2 s /\
  real_time (loose_number h) (loose_number m) (loose_number s).
Proof. intros h m s f o H. apply time_validate_iff in H. tauto. Qed.
Print Assumptions C31_time_fields_partial.

Example C31_ex :
  date_validate {| d_year := lit "1979"; d_month := lit "05"; d_day := lit "27" |} = true /\
  date_validate {| d_year := lit "19-9"; d_month := lit "05"; d_day := lit "27" |} = false /\
  toa_validate {| toa_pn := Neg; toa_hour := lit "07"; toa_minute := lit "30" |} = true /\
  time_validate {| t_hour := lit "07"; t_minute := lit "32"; t_second := lit "00";
                   t_fraction := Some (lit "999"); t_offset := Some Zulu |} = true.
Proof. vm_compute. auto. Qed.

(** ** C32: false as stated, the fraction has to fit into 64 bits *)
Theorem C32_time_validate_refuted :
  exists h m s f, digits h /\ digits m /\ digits s /\ digits f /\ f <> [] /\
    length h = 2%nat /\ length m = 2%nat /\ length s = 2%nat /\
    real_time (number h) (number m) (number s) /\
    time_validate {| t_hour := h; t_minute := m; t_second := s;
                     t_fraction := Some f; t_offset := None |} = false.
Proof.
  exists (lit "07"), (lit "32"), (lit "00"), (lit "99999999999999999999").
  repeat split; try (apply digits_forallb; vm_compute; reflexivity); try discriminate;
    vm_compute; try reflexivity; intro; discriminate.
Qed.
Print Assumptions C32_time_validate_refuted.

Theorem C32_time_validate_partial : forall h m s f o, digits h -> digits m -> digits s ->
  match f with Some f => digits f /\ f <> [] | None => True end ->
  match o with Some (OffTime a) => digits a.(toa_hour) /\ digits a.(toa_minute) | _ => True end ->
  (time_validate {| t_hour := h; t_minute := m; t_second := s; t_fraction := f; t_offset := o |} = true <->
   length h = 2%nat /\ length m = 2%nat /\ length s = 2%nat /\
   real_time (number h) (number m) (number s) /\
   match f with Some f => number f <= 18446744073709551615 | None => True end /\
   match o with
   | Some (OffTime a) => length a.(toa_hour) = 2%nat /\ length a.(toa_minute) = 2%nat /\
                         real_offset (number a.(toa_hour)) (number a.(toa_minute))
   | _ => True
   end).
Proof. exact time_validate_digits. Qed.
Print Assumptions C32_time_validate_partial.

Example C32_ex :
  let t f h := {| t_hour := h; t_minute := lit "59"; t_second := lit "59"; t_fraction := f;
                t_offset := Some (OffTime {| toa_pn := Neg; toa_hour := lit "07"; toa_minute := lit "30" |}) |} in
  digits (lit "23") /\ digits (lit "59") /\ digits (lit "18446744073709551615") /\
  time_validate (t (Some (lit "18446744073709551615")) (lit "23")) = true /\
  time_validate (t (Some (lit "18446744073709551616")) (lit "23")) = false /\
  time_validate (t None (lit "24")) = false.
Proof. repeat split; try (vm_compute; reflexivity); apply digits_forallb; vm_compute; reflexivity. Qed.

(** ** C33 *)

(** the constructor call [r] succeeds exactly when [ok], and what it builds
    prints as [txt], is valid and is read back from [txt] *)
Definition builds (r : option value) (ok : Prop) (txt : str) : Prop :=
  (r <> None <-> ok) /\
  forall v, r = Some v ->
    show_value v = Ok txt /\ validate v = true /\ datetime_parse txt = Ok (Some v).

Theorem C33_date_from_int : forall y m d,
  builds (date_from_int y m d) (real_date y m d) (date_text y m d).
Proof. exact date_from_int_spec. Qed.
Print Assumptions C33_date_from_int.

Theorem C33_datetime_from_int : forall y mo d h mi s,
  builds (datetime_from_int y mo d h mi s) (real_date y mo d /\ real_time h mi s)
         (date_text y mo d ++ time_text h mi s).
Proof.
  intros. pose proof (datetime_with_int y mo d h mi s None None I (or_introl eq_refl)) as H.
  cbv zeta in H. cbn [option_map] in H. rewrite !app_nil_r in H. exact H.
Qed.
Print Assumptions C33_datetime_from_int.

Theorem C33_datetime_frac_from_int : forall y mo d h mi s f, f <= 18446744073709551615 ->
  exists t, numeral f t /\
  builds (datetime_frac_from_int y mo d h mi s f) (real_date y mo d /\ real_time h mi s)
         (date_text y mo d ++ time_text h mi s ++ lit "." ++ t).
Proof.
  intros. exists (dec f). split; [apply dec_numeral|].
  pose proof (datetime_with_int y mo d h mi s (Some f) None H (or_introl eq_refl)) as H1.
  cbv zeta in H1. cbn [option_map] in H1. rewrite !app_nil_r in H1. exact H1.
Qed.
Print Assumptions C33_datetime_frac_from_int.

Theorem C33_datetime_zulu_from_int : forall y mo d h mi s,
  builds (datetime_zulu_from_int y mo d h mi s) (real_date y mo d /\ real_time h mi s)
         (date_text y mo d ++ time_text h mi s ++ lit "Z").
Proof.
  intros. exact (datetime_with_int y mo d h mi s None (Some Zulu) I (or_intror eq_refl)).
Qed.
Print Assumptions C33_datetime_zulu_from_int.

Theorem C33_datetime_full_zulu_from_int : forall y mo d h mi s f, f <= 18446744073709551615 ->
  exists t, numeral f t /\
  builds (datetime_full_zulu_from_int y mo d h mi s f) (real_date y mo d /\ real_time h mi s)
         (date_text y mo d ++ time_text h mi s ++ (lit "." ++ t) ++ lit "Z").
Proof.
  intros. exists (dec f). split; [apply dec_numeral|].
  exact (datetime_with_int y mo d h mi s (Some f) (Some Zulu) H (or_intror eq_refl)).
Qed.
Print Assumptions C33_datetime_full_zulu_from_int.

Theorem C33_datetime_offset_from_int : forall y mo d h mi s c oh om,
  builds (datetime_offset_from_int y mo d h mi s c oh om)
         (real_date y mo d /\ real_time h mi s /\ (c = 43 \/ c = 45) /\ real_offset oh om)
         (date_text y mo d ++ time_text h mi s ++ offset_text c oh om).
Proof. intros. exact (datetime_with_offset_int y mo d h mi s None c oh om I). Qed.
Print Assumptions C33_datetime_offset_from_int.

Theorem C33_datetime_full_from_int : forall y mo d h mi s f c oh om, f <= 18446744073709551615 ->
  exists t, numeral f t /\
  builds (datetime_full_from_int y mo d h mi s f c oh om)
         (real_date y mo d /\ real_time h mi s /\ (c = 43 \/ c = 45) /\ real_offset oh om)
         (date_text y mo d ++ time_text h mi s ++ (lit "." ++ t) ++ offset_text c oh om).
Proof.
  intros. exists (dec f). split; [apply dec_numeral|].
  exact (datetime_with_offset_int y mo d h mi s (Some f) c oh om H).
Qed.
Print Assumptions C33_datetime_full_from_int.

Example C33_ex :
  date_from_int 2001 2 29 = None /\ date_from_int 2004 2 29 <> None /\
  date_text 982 3 4 = lit "0982-03-04" /\
  datetime_full_from_int 1979 5 27 7 32 0 999 45 7 5 <> None /\
  datetime_full_from_int 1979 5 27 7 32 0 999 46 7 5 = None /\
  datetime_full_from_int 1979 5 27 24 32 0 999 45 7 5 = None /\
  datetime_zulu_from_int 1979 5 27 7 32 0 <> None /\
  date_text 1979 5 27 ++ time_text 7 32 0 ++ (lit "." ++ lit "999") ++ offset_text 45 7 5 =
  lit "1979-05-27T07:32:00.999-07:05".
Proof. vm_compute. repeat split; discriminate. Qed.

(** ** C34 *)
Theorem C34_datetime_parse_sound : forall s v, datetime_parse s = Ok (Some v) ->
  show_value v = Ok s /\ validate v = true.
Proof. exact datetime_parse_sound. Qed.
Print Assumptions C34_datetime_parse_sound.

Theorem C34_datetime_parse_complete : forall d, datetime_digits d ->
  validate (VDateTime d) = true ->
  exists s, show_value (VDateTime d) = Ok s /\ datetime_parse s = Ok (Some (VDateTime d)).
Proof.
  intros d D V. exists (show_datetime d). split; [reflexivity|]. apply datetime_parse_show; auto.
Qed.
Print Assumptions C34_datetime_parse_complete.

(** which date-times of digits are valid *)
Theorem C34_datetime_valid : forall d, datetime_digits d ->
  (datetime_validate d = true <->
   datetime_real d /\
   match d.(dt_time) with
   | Some t => match t.(t_fraction) with Some f => number f <= 18446744073709551615 | None => True end
   | None => True end).
Proof. exact datetime_validate_digits. Qed.
Print Assumptions C34_datetime_valid.

Definition C34_dt : datetime :=
  {| dt_date := {| d_year := lit "1979"; d_month := lit "05"; d_day := lit "27" |};
     dt_time := Some {| t_hour := lit "07"; t_minute := lit "32"; t_second := lit "00";
                        t_fraction := Some (lit "999");
                        t_offset := Some (OffTime {| toa_pn := Neg; toa_hour := lit "07";
                                                     toa_minute := lit "30" |}) |} |}.
Example C34_ex : datetime_digits C34_dt /\ validate (VDateTime C34_dt) = true /\
  show_value (VDateTime C34_dt) = Ok (lit "1979-05-27T07:32:00.999-07:30") /\
  datetime_parse (lit "1979-05-27T07:32:00.999-07:30") = Ok (Some (VDateTime C34_dt)) /\
  datetime_parse (lit "1979-05-27T07:32:60") = Ok None.
Proof.
  split; [|vm_compute; auto].
  repeat split; try (apply digits_forallb; vm_compute; reflexivity). discriminate.
Qed.

(** ** C36: false as stated, only a prefix is checked *)
Theorem C36_numbers_whole_refuted :
  (exists s, int_from_str s = Some (VInteger s) /\ ascii s /\ ~ toml_int s) /\
  (exists s, float_from_str s = Some (VFloat s) /\ ascii s /\ ~ toml_float s).
Proof.
  assert (A : forall s, forallb (fun c => c <? 128) s = true -> ascii s).
  { intros s H. unfold ascii. rewrite forallb_forall in H. apply Forall_forall. intros c I.
    apply N.ltb_lt. auto. }
  split.
  - exists (lit "1x"). split; [vm_compute; reflexivity|]. split; [apply A; vm_compute; reflexivity|].
    intros T. pose proof (integer_match _ [] T eq_refl) as E. vm_compute in E. discriminate.
  - exists (lit "1.5x"). split; [vm_compute; reflexivity|]. split; [apply A; vm_compute; reflexivity|].
    intros T. pose proof (float_match _ [] T Logic.I) as E. vm_compute in E. discriminate.
Qed.
Print Assumptions C36_numbers_whole_refuted.

(** What holds: an ASCII string is accepted exactly if it begins with a TOML
    number.  Missing for the full claim: nothing may follow that number. *)
Theorem C36_integer_partial : forall s, ascii s ->
  (validate (VInteger s) = true <-> exists m rest, s = m ++ rest /\ toml_int m).
Proof. exact validate_integer_ascii. Qed.
Print Assumptions C36_integer_partial.

Theorem C36_float_partial : forall s, ascii s ->
  (validate (VFloat s) = true <-> exists m rest, s = m ++ rest /\ toml_float m).
Proof. exact validate_float_ascii. Qed.
Print Assumptions C36_float_partial.

Example C36_ex :
  validate (VInteger (lit "-1_000")) = true /\ validate (VInteger (lit "x1")) = false /\
  validate (VFloat (lit "6.26e-34")) = true /\ validate (VFloat (lit "1")) = false /\
  toml_int (lit "-1_000").
Proof.
  repeat split; try (vm_compute; reflexivity).
  exists (lit "-"), (lit "1_000"). split; [reflexivity|]. split; [right; right; reflexivity|].
  assert (D : forall c, is_ascii_digit c = true -> digit c).
  { intros c H. unfold is_ascii_digit in H. apply andb_prop in H as [H1 H2].
    split; apply N.leb_le; auto. }
  exists 49, (lit "_000"). split; [reflexivity|]. split; [apply D; reflexivity|]. split; [|discriminate].
  apply DT_under; [apply D; reflexivity|]. apply DT_digit; [apply D; reflexivity|].
  apply DT_digit; [apply D; reflexivity|]. apply DT_nil.
Qed.

(** ** C40 *)
Theorem C40_bool_from_str : forall s v, bool_from_str s = Some v <->
  (same_letters s (lit "true") /\ v = VBoolean true) \/
  (same_letters s (lit "false") /\ v = VBoolean false).
Proof. exact bool_from_str_spec. Qed.
Print Assumptions C40_bool_from_str.

Theorem C40_bool_show : forall s v, bool_from_str s = Some v ->
  exists t, show_value v = Ok t /\ (t = lit "true" \/ t = lit "false") /\ same_letters s t.
Proof.
  intros s v H. apply C40_bool_from_str in H as [[H ->]|[H ->]]; eexists; split; try reflexivity; auto.
Qed.
Print Assumptions C40_bool_show.

Example C40_ex : bool_from_str (lit "TrUe") = Some (VBoolean true) /\
  bool_from_str (lit "FALSE") = Some (VBoolean false) /\ bool_from_str (lit "yes") = None.
Proof. vm_compute. auto. Qed.

(** ** C41 *)
Theorem C41_child_keys : forall l b, combine_child_keys (Keys l) b = map (combine_keys b) l.
Proof. exact combine_child_keys_keys. Qed.
Print Assumptions C41_child_keys.

Theorem C41_child_count : forall n b,
  length (combine_child_keys (Count n) b) = N.to_nat n /\
  forall i, i < n -> nth_error (combine_child_keys (Count n) b) (N.to_nat i) =
                     Some (combine_keys_index b i).
Proof. exact combine_child_keys_count. Qed.
Print Assumptions C41_child_count.

(** the helpers themselves *)
Theorem C41_helpers : forall b c i,
  combine_keys b c = (if str_eqb b [] then c else b ++ lit "." ++ c) /\
  exists t, numeral i t /\ combine_keys_index b i = b ++ lit "[" ++ t ++ lit "]".
Proof.
  intros. split; [destruct b; reflexivity|]. exists (dec i). split; [apply dec_numeral|reflexivity].
Qed.
Print Assumptions C41_helpers.

Theorem C41_injective : forall b,
  (forall x y, combine_keys b x = combine_keys b y -> x = y) /\
  (forall i j, combine_keys_index b i = combine_keys_index b j -> i = j).
Proof. intros b. split; [exact (combine_keys_inj b)|exact (combine_keys_index_inj b)]. Qed.
Print Assumptions C41_injective.

Example C41_ex :
  combine_child_keys (Keys [lit "a"; lit "b"]) (lit "t") = [lit "t.a"; lit "t.b"] /\
  combine_child_keys (Count 3) (lit "arr") = [lit "arr[0]"; lit "arr[1]"; lit "arr[2]"] /\
  combine_keys [] (lit "a") = lit "a" /\ combine_keys_index (lit "x") 12 = lit "x[12]".
Proof. vm_compute. auto. Qed.

(** ** C42: false as stated *)
Theorem C42_show_value_refuted :
  show_value (VArray []) = Panic /\ show_value (VInlineTable []) = Panic.
Proof. vm_compute. auto. Qed.
Print Assumptions C42_show_value_refuted.

(** printing completes exactly for the values without an empty array or inline
    table inside *)
Theorem C42_show_value_partial : forall v, (exists o, show_value v = Ok o) <-> printable v.
Proof. exact show_value_ok. Qed.
Print Assumptions C42_show_value_partial.

Example C42_ex :
  show_value (VArray [VInteger (lit "1"); VInlineTable [(lit "a", VBoolean true); (lit "b", VString (lit "x") SBasic)]])
  = Ok (ulit "[1, {a = true, b = ""x""}]").
Proof. vm_compute. reflexivity. Qed.
