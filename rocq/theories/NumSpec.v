(** Specification of numbers in digits of any script.  The first of several digits
    before a point or of an exponent is an ASCII digit from 1 to 9. *)
From Verif Require Import Str Regex Spec.

(** a decimal digit of some script; [nd_ranges] is the table of the Unicode class Nd,
    see DESIGN.md *)
Definition any_digit (c : N) : Prop := exists a b, In (a, b) nd_ranges /\ a <= c <= b.
Inductive any_tail : str -> Prop :=
| AT_nil : any_tail []
| AT_digit : forall c t, any_digit c -> any_tail t -> any_tail (c :: t)
| AT_under : forall c t, any_digit c -> any_tail t -> any_tail (95 :: c :: t).
Definition any_body (b : str) : Prop :=
  (exists c, b = [c] /\ any_digit c) \/ (exists c t, b = c :: t /\ 49 <= c <= 57 /\ any_tail t /\ t <> []).
Definition any_int (x : str) : Prop := exists sg b, x = sg ++ b /\ sign sg /\ any_body b.
Definition any_frac (x : str) : Prop := exists c t, x = 46 :: c :: t /\ any_digit c /\ any_tail t.
Definition any_exp (x : str) : Prop := exists e sg b, x = e :: sg ++ b /\ (e = 101 \/ e = 69) /\ sign sg /\ any_body b.
Definition any_float (x : str) : Prop := exists sg b f e, x = sg ++ b ++ f ++ e /\ sign sg /\ any_body b /\
  ((any_frac f /\ any_exp e) \/ (any_frac f /\ e = []) \/ (f = [] /\ any_exp e)).
