(** Vocabulary of property C72: date-times written from their parts.
    Only [Spec] and the operations named in the property are used. *)
From Verif Require Import Str Types Ast Api Spec.

(** the parts next to each other, as a date-time is written *)
Definition date_parts (y m d : str) : str := y ++ lit "-" ++ m ++ lit "-" ++ d.
Definition time_parts (h m s : str) : str := lit "T" ++ h ++ lit ":" ++ m ++ lit ":" ++ s.
Definition offset_parts (sg h m : str) : str := sg ++ h ++ lit ":" ++ m.

(** parts made of decimal digits that name a moment *)
Definition good_date (y m d : str) : Prop :=
  length y = 4%nat /\ length m = 2%nat /\ length d = 2%nat /\
  real_date (number y) (number m) (number d).
Definition good_time (h m s : str) : Prop :=
  length h = 2%nat /\ length m = 2%nat /\ length s = 2%nat /\
  real_time (number h) (number m) (number s).
Definition good_frac (f : str) : Prop := f <> [] /\ number f <= 18446744073709551615.
Definition good_offset (sg h m : str) : Prop :=
  (sg = lit "+" \/ sg = lit "-") /\
  length h = 2%nat /\ length m = 2%nat /\ real_offset (number h) (number m).

(** whatever the parts are, the value built by [r] is valid and prints as [txt];
    and if they consist of digits ([dig]) the call succeeds exactly when [ok],
    and [txt] is read back as the value built *)
Definition assembles (r : option value) (dig ok : Prop) (txt : str) : Prop :=
  (forall v, r = Some v -> show_value v = Ok txt /\ validate v = true) /\
  (dig -> (r <> None <-> ok) /\
          forall v, r = Some v -> datetime_parse txt = Ok (Some v)).

Definition all_digits (l : list str) : Prop := Forall digits l.
