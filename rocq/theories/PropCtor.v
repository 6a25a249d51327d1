(** Property C72: the constructors of date-times that take their parts as
    strings.  Statements use [PartSpec]; the proofs are in [PartFacts]. *)
From Verif Require Import Str Types State Nom Grammar Api Spec Facts TypesFacts PartSpec PartFacts.

Theorem C72_date : forall y m d,
  assembles (date_from_str y m d)
    (digits y /\ digits m /\ digits d) (good_date y m d) (date_parts y m d).
Proof. exact date_parts_spec. Qed.
Print Assumptions C72_date.

Theorem C72_datetime : forall y mo d h mi s,
  assembles (datetime_from_str y mo d h mi s)
    (all_digits [y; mo; d; h; mi; s])
    (good_date y mo d /\ good_time h mi s)
    (date_parts y mo d ++ time_parts h mi s).
Proof. exact datetime_parts_spec. Qed.
Print Assumptions C72_datetime.

Theorem C72_datetime_frac : forall y mo d h mi s f,
  assembles (datetime_frac_from_str y mo d h mi s f)
    (all_digits [y; mo; d; h; mi; s; f])
    (good_date y mo d /\ good_time h mi s /\ good_frac f)
    (date_parts y mo d ++ time_parts h mi s ++ lit "." ++ f).
Proof. exact frac_parts_spec. Qed.
Print Assumptions C72_datetime_frac.

Theorem C72_datetime_zulu : forall y mo d h mi s,
  assembles (datetime_zulu_from_str y mo d h mi s)
    (all_digits [y; mo; d; h; mi; s])
    (good_date y mo d /\ good_time h mi s)
    (date_parts y mo d ++ time_parts h mi s ++ lit "Z").
Proof. exact zulu_parts_spec. Qed.
Print Assumptions C72_datetime_zulu.

Theorem C72_datetime_full_zulu : forall y mo d h mi s f,
  assembles (datetime_full_zulu_from_str y mo d h mi s f)
    (all_digits [y; mo; d; h; mi; s; f])
    (good_date y mo d /\ good_time h mi s /\ good_frac f)
    (date_parts y mo d ++ time_parts h mi s ++ lit "." ++ f ++ lit "Z").
Proof. exact full_zulu_parts_spec. Qed.
Print Assumptions C72_datetime_full_zulu.

Theorem C72_datetime_offset : forall y mo d h mi s sg oh om,
  assembles (datetime_offset_from_str y mo d h mi s sg oh om)
    (all_digits [y; mo; d; h; mi; s; oh; om])
    (good_date y mo d /\ good_time h mi s /\ good_offset sg oh om)
    (date_parts y mo d ++ time_parts h mi s ++ offset_parts sg oh om).
Proof. exact offset_parts_spec. Qed.
Print Assumptions C72_datetime_offset.

Theorem C72_datetime_full : forall y mo d h mi s f sg oh om,
  assembles (datetime_full_from_str y mo d h mi s f sg oh om)
    (all_digits [y; mo; d; h; mi; s; f; oh; om])
    (good_date y mo d /\ good_time h mi s /\ good_frac f /\ good_offset sg oh om)
    (date_parts y mo d ++ time_parts h mi s ++ lit "." ++ f ++ offset_parts sg oh om).
Proof. exact full_parts_spec. Qed.
Print Assumptions C72_datetime_full.

(** digits that name a moment, digits that do not (hour 24, no fraction digit,
    29 February 2001), and parts with a plus sign, which are accepted and printed
    though they are not digits *)
Example C72_ex :
  all_digits [lit "1979"; lit "05"; lit "27"; lit "07"; lit "32"; lit "00"; lit "00055"; lit "07"; lit "30"] /\
  (exists v, datetime_full_from_str (lit "1979") (lit "05") (lit "27") (lit "07") (lit "32") (lit "00")
     (lit "00055") (lit "-") (lit "07") (lit "30") = Some v /\
     show_value v = Ok (lit "1979-05-27T07:32:00.00055-07:30")) /\
  datetime_full_from_str (lit "1979") (lit "05") (lit "27") (lit "24") (lit "32") (lit "00")
     (lit "00055") (lit "-") (lit "07") (lit "30") = None /\
  datetime_frac_from_str (lit "1979") (lit "05") (lit "27") (lit "07") (lit "32") (lit "00") [] = None /\
  datetime_full_from_str (lit "1979") (lit "05") (lit "27") (lit "07") (lit "32") (lit "00")
     (lit "00055") (lit "z") (lit "07") (lit "30") = None /\
  date_from_str (lit "2001") (lit "02") (lit "29") = None /\
  (exists v, date_from_str (lit "+204") (lit "+2") (lit "29") = Some v /\
     show_value v = Ok (lit "+204-+2-29")).
Proof.
  split; [repeat constructor; discriminate|].
  split; [eexists; split; vm_compute; reflexivity|].
  do 4 (split; [vm_compute; reflexivity|]).
  eexists; split; vm_compute; reflexivity.
Qed.
