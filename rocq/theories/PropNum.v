(** Properties of numbers in digits of any script. *)
From Verif Require Import Str Regex Types Spec NumSpec NumWide State Grammar Api Ast Nom.

(** C36 for all strings: an integer or float is accepted exactly if it begins with a
    number in digits of any script.  Missing for the full claim: nothing may follow
    that number, and it may have digits that TOML does not have. *)
Theorem C36_integer_any_partial : forall s, validate (VInteger s) = true <-> exists m rest, s = m ++ rest /\ any_int m.
Proof. exact validate_integer_any. Qed.
Print Assumptions C36_integer_any_partial.
Theorem C36_float_any_partial : forall s, validate (VFloat s) = true <-> exists m rest, s = m ++ rest /\ any_float m.
Proof. exact validate_float_any. Qed.
Print Assumptions C36_float_any_partial.

(** Arabic-Indic and Brahmi digits; two Arabic-Indic digits are only read as one *)
Example C36_any_ex :
  validate (VInteger (lit "-1_" ++ [0x663; 0x11066])) = true /\ validate (VInteger [0x663; 0x663]) = true /\
  validate (VFloat ([0x663] ++ lit "." ++ [0x11066] ++ lit "e1" ++ [0x663])) = true /\ validate (VFloat ([0x663; 0x663] ++ lit ".5")) = false /\
  any_digit 0x663 /\ any_digit 0x11066 /\ any_int [0x663].
Proof.
  assert (A : any_digit 0x663) by (apply nd_any; reflexivity).
  split; [reflexivity|]. split; [reflexivity|]. split; [reflexivity|]. split; [reflexivity|]. split; [exact A|]. split; [apply nd_any; reflexivity|].
  exists [], [0x663]. split; [reflexivity|]. split; [left; reflexivity|]. left. eauto.
Qed.

(** such a digit may end a comment inside an array *)
Definition brahmi_text : str := lit "a = [1 #c" ++ [0x11066] ++ lit "]".
Theorem C67_comment_refuted : forall ovf, exists s, parse (new_parser ovf) brahmi_text = Ok (s, Full) /\
  get_value s (lit "a[1]") = Ok (Some (VInteger [0x11066])).
Proof. intros [|]; eexists; (split; [vm_compute; reflexivity|vm_compute; reflexivity]). Qed.
Print Assumptions C67_comment_refuted.
