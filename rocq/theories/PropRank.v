(** * The order of the kinds of errors: theorems *)
From Verif Require Import Str Types Ast State Keys Api RankSpec RankFacts.

(** ** C91: the errors of mixed arrays come before all others, for every input; and
    none of them has a key that begins with the key of the one before, so no array is
    reported twice in a row. The order of lines is C88: together they say that no mixed
    array is reported after the line of the first error of another kind. *)
Theorem C91_first : forall p i s r, parse p i = Ok (s, r) -> mixed_first p.(p_errors) -> mixed_first s.(p_errors).
Proof. exact mixed_arrays_first. Qed.
Print Assumptions C91_first.

Theorem C91_new : forall ovf i s r, parse (new_parser ovf) i = Ok (s, r) -> mixed_first s.(p_errors).
Proof. exact mixed_new. Qed.
Print Assumptions C91_new.

(** a parser whose last error is of another kind never reports a mixed array again,
    whatever it is given to read *)
Theorem C91_silent : forall p i s r l e, parse p i = Ok (s, r) -> p.(p_errors) = l ++ [e] -> other_kind e ->
  forall k n, In (EMixedArray k n) s.(p_errors) -> In (EMixedArray k n) p.(p_errors).
Proof. exact mixed_silent. Qed.
Print Assumptions C91_silent.

(** three mixed arrays, of which the second has a key that begins with the key of the
    first, then a repeated key and a fourth mixed array; then a second text *)
Definition rank_text : str := lit "ab = [1, 'x']
abc = [1, 'x']
c = [1, 'x', 2, [3, 4.5]]
c = 1
d = [1, 'x']
".
Example C91_ex : exists s t r, parse (new_parser true) rank_text = Ok (s, FullError
    [EMixedArray (lit "ab") 1; EMixedArray (lit "c") 3; EDuplicateKey (lit "c") 4 (VInteger (lit "1"))]) /\
  parse s (lit "e = [1, 'x']") = Ok (t, r) /\ t.(p_errors) = s.(p_errors).
Proof. do 3 eexists. split; [vm_compute; reflexivity|]. split; vm_compute; reflexivity. Qed.
