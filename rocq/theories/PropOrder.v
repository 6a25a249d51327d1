(** * The line numbers of errors: theorems *)
From Coq Require Import Lia ZifyBool ZifyNat ZifyN Sorting.Sorted.
From Verif Require Import Str Types Ast State Api Spec HeadSpec RoundTrip OrderSpec OrderFacts.

(** ** C88: for every input and parser, also one that has read other texts before,
    the errors that were there stay, and the new ones follow in the order of their
    lines; each is a line of the expression that it comes from, where line ends
    between elements of arrays and entries of inline tables do not count (C07), and
    blanks and comments have none. Those that come from the text that was not read
    are last, and there are none if all was read. No error is after the line that
    is reported. *)
Theorem C88_order : forall p i s r, parse p i = Ok (s, r) ->
  exists old new here rest, s.(p_errors) = old ++ new /\ Forall2 same_error p.(p_errors) old /\ listed r = s.(p_errors) /\
    map error_line new = here ++ rest /\ placed p.(p_line) s.(p_root) here /\
    Forall (fun m => end_line p.(p_line) s.(p_root) <= m <= end_line p.(p_line) s.(p_root) + line_feeds s.(p_leftover)) rest /\
    (s.(p_leftover) = [] -> rest = []) /\ StronglySorted N.le (map error_line new) /\
    forall n, reports r n -> Forall (fun m => p.(p_line) <= m <= n) (map error_line new).
Proof. exact errors_in_order. Qed.
Print Assumptions C88_order.

(** in particular all lines are lines of the text *)
Theorem C88_within : forall p i s r, parse p i = Ok (s, r) ->
  exists old new, s.(p_errors) = old ++ new /\ Forall2 same_error p.(p_errors) old /\
    Forall (fun e => p.(p_line) <= error_line e <= p.(p_line) + line_feeds i) new.
Proof. exact errors_within. Qed.
Print Assumptions C88_within.

(** repeated keys, an array of several types, a multi-line string, a header that is
    there already, and an array that is not closed, where reading stops *)
Definition order_text : str := lit "a = 1
b = [1,
 'x'] # two lines
a = '''
y
z'''
[t]
[t]
c = 5

[u]
d = [{e = 1, e = 2}, {e = '''
''', e = 3}
".
Example C88_order_ex : exists s l errs, parse (new_parser true) order_text = Ok (s, PartialError l 12 errs) /\
  map error_line errs = [2; 5; 7; 11; 12] /\ end_line 1 s.(p_root) = 11.
Proof.
  do 3 eexists. split; [vm_compute; reflexivity|]. split; vm_compute; reflexivity.
Qed.

(** counted with all line ends, the line of an error is not one of its expression *)
Theorem C88_plain_refuted : exists a b s e, a = lit "a = [1,
2,
3]
" /\ b = lit "a = 1" /\ parse (new_parser true) (a ++ b) = Ok (s, FullError [e]) /\ error_line e = 2 /\ 1 + line_feeds a = 4.
Proof. do 4 eexists. do 2 (split; [reflexivity|]). split; [vm_compute; reflexivity|]. split; vm_compute; reflexivity. Qed.
Print Assumptions C88_plain_refuted.
