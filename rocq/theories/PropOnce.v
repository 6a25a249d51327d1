(** * Reports of date-times: theorems *)
From Verif Require Import Str Types Ast State Keys Api Spec HeadSpec RoundTrip OrderSpec CauseSpec CauseFacts.

(** ** C90: each date-time that does not exist is reported exactly once, with its text
    and in the order of the text, for every input and parser, however deep it is inside
    arrays and inline tables and under whatever header; no other date-time is reported.
    The reports that were there stay; only text that was not read may add others. *)
Theorem C90_once : forall p i s r, parse p i = Ok (s, r) ->
  exists ts rest, date_texts s.(p_errors) = date_texts p.(p_errors) ++ ts ++ rest /\ wrong_dates (doc_dates s.(p_root)) ts /\
    (s.(p_leftover) = [] -> rest = []).
Proof. exact dates_once. Qed.
Print Assumptions C90_once.

(** so for a text that was read to its end the reports are exactly those of the text,
    and there are none exactly if all its date-times exist *)
Theorem C90_full : forall ovf i s r, parse (new_parser ovf) i = Ok (s, r) -> s.(p_leftover) = [] ->
  wrong_dates (doc_dates s.(p_root)) (date_texts s.(p_errors)) /\
  (date_texts s.(p_errors) = [] <-> Forall good_datetime (doc_dates s.(p_root))).
Proof. exact dates_full. Qed.
Print Assumptions C90_full.

(** the same wrong date twice in one array, one in a repeated key, one under a header
    that was refused, and good ones between them *)
Definition once_text : str := lit "a = [ 2001-02-29, 2000-02-29, [ 2001-02-29 ] ]
b = { c = 1999-00-10, c = 1900-13-01T10:00:00Z }
[f]
[f]
d = 2024-04-31 # refused
e = 2024-04-30
".
Example C90_ex : exists s l, parse (new_parser true) once_text = Ok (s, FullError l) /\ s.(p_leftover) = [] /\
  length (doc_dates s.(p_root)) = 7%nat /\
  date_texts l = [lit "2001-02-29"; lit "2001-02-29"; lit "1999-00-10"; lit "1900-13-01T10:00:00Z"; lit "2024-04-31"].
Proof. do 2 eexists. split; [vm_compute; reflexivity|]. vm_compute. auto. Qed.
