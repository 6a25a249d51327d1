(** * The causes of errors: theorems *)
From Verif Require Import Str Types Ast State Keys Api Spec HeadSpec RoundTrip OrderSpec CauseSpec CauseFacts.

(** ** C89: no error without a cause, for every input and parser. The errors that were
    there stay. The new ones belong to the expressions that were read, in their order;
    each names a line of its expression and a value written there: an invalid
    date-time is a date-time of the expression that does not exist, given with its
    text; a mixed array is an array of the expression with elements of two types; a
    repeated key comes with a value of the expression; the key of the error ends with
    the name, or the place, of this value. An invalid table comes from a header. Only
    text that was not read may have errors after these. *)
Theorem C89_causes : forall p i s r, parse p i = Ok (s, r) ->
  exists old here rest, s.(p_errors) = old ++ here ++ rest /\ Forall2 same_error p.(p_errors) old /\ listed r = s.(p_errors) /\
    blamed p.(p_line) s.(p_root) here /\ Forall (fun e => end_line p.(p_line) s.(p_root) <= error_line e) rest /\
    (s.(p_leftover) = [] -> rest = []).
Proof. exact errors_have_causes. Qed.
Print Assumptions C89_causes.

(** so every error of a text that was read to its end has its cause in the text *)
Theorem C89_full : forall ovf i s l e, parse (new_parser ovf) i = Ok (s, FullError l) -> In e l ->
  exists x, In x s.(p_root) /\ cause x.(ne_expr) e.
Proof. exact full_causes. Qed.
Print Assumptions C89_full.

(** a key that is newly reported as repeated is a key of the parser *)
Theorem C89_repeated : forall p i s r k n v, parse p i = Ok (s, r) -> In (EDuplicateKey k n v) s.(p_errors) ->
  In (EDuplicateKey k n v) p.(p_errors) \/ exists hv, hget k s.(p_map) = Some hv.
Proof. exact repeated_known. Qed.
Print Assumptions C89_repeated.

(** reading a text, whatever it is, loses no key *)
Theorem C89_keys_stay : forall p i s r k, parse p i = Ok (s, r) -> get_children p k <> None -> get_children s k <> None.
Proof. exact keys_stay. Qed.
Print Assumptions C89_keys_stay.

(** errors of all kinds, also deep inside values, and under a header that was refused *)
Definition cause_text : str := lit "a = { d = [[1], ['x', 2.5]] } # two
b = { c = [ 1979-02-30, 2000-01-01 ] }
a = [5]
[t]
u = { v = 1, v = 2 }
[t]
w = 2001-02-29
".
Example C89_ex : exists s, parse (new_parser true) cause_text = Ok (s, FullError
  [EMixedArray (lit "a.d[1]") 1; EInvalidDateTime (lit "b.c[0]") 2 (lit "1979-02-30"); EDuplicateKey (lit "a") 3 (VArray [VInteger (lit "5")]);
   EDuplicateKey (lit "t.u.v") 5 (VInteger (lit "2")); EInvalidTable (lit "t") 6 [];
   EInvalidDateTime (lit "w") 7 (lit "2001-02-29")]) /\ get_children s (lit "t.u.v") <> None /\ get_children s (lit "a") <> None.
Proof. eexists. split; [vm_compute; reflexivity|]. split; vm_compute; discriminate. Qed.

(** the first error is about the second element of [d]: its elements differ *)
Example C89_about : exists s l e x kv, parse (new_parser true) cause_text = Ok (s, FullError l) /\ nth_error l 0 = Some e /\
  nth_error s.(p_root) 0 = Some x /\ x.(ne_expr).(e_keyval) = Some kv /\ cause x.(ne_expr) e /\
  exists v, part (lit "[1]") v kv.(kv_val).(c_val) /\ about e (lit "[1]") v.
Proof.
  do 5 eexists. split; [vm_compute; reflexivity|]. split; [vm_compute; reflexivity|].
  split; [vm_compute; reflexivity|]. split; [vm_compute; reflexivity|].
  match goal with |- ?A /\ ?B => assert (H : B) end.
  { eexists. split.
    - eapply Part_inl; [left; reflexivity|]. eapply Part_elem with (j := 1%nat); reflexivity.
    - split; [exists (lit "a.d"); reflexivity|]. do 5 eexists. split; [reflexivity|].
      split; [left; reflexivity|]. split; [right; left; reflexivity|]. intros []. }
  split; [|exact H]. destruct H as (v & P & A). eexists. split; [reflexivity|]. right. eauto.
Qed.
