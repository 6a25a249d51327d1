(** Parsing does not panic on inputs in which no header continues the name of an array of tables. *)
From Verif Require Import Str Types Ast State Keys Grammar Api Spec CalmSpec ApartSpec ApartFacts.

(** C06.  The arrays of tables may have dotted names here, but no header may go on
    from one of them, so this class and that of [C06_no_panic_partial] overlap and
    neither contains the other.  Missing: inputs outside of both; some of those panic
    ([C06_no_panic_refuted]). *)
Theorem C06_apart_partial : forall ovf i, apart_headers ovf i ->
  exists s r, parse (new_parser ovf) i = Ok (s, r).
Proof. exact parse_apart. Qed.
Print Assumptions C06_apart_partial.
Example C06_apart_partial_ex :
  apart_headers true (lit "owner = 'x'
[[a.b]]
c = [1, { d = 2 }]
[[a.b]]
c = 3
[e.f.g]
h = 1
[[ a . i ]]
[[a.b]]
[e.f]
h = 1
h = 2
[a.b]
[[e.f.j]]
[k") /\
  apart_headers false (lit "[[fruit.variety]]
variety = 'red'
[fruit.physical]
color = [[1], [2.0]]
[[fruit.variety]] # again
variety = 1979-13-41T00:00:00Z
[[shop.
").
Proof. split; apply apart_ok; vm_compute; reflexivity. Qed.
