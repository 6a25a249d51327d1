(** Parsing does not panic on documents whose dotted headers do not go through arrays. *)
From Verif Require Import Str Regex Types Ast State Nom Keys Grammar Api Spec ScalarFacts DocSpec SectFacts LookFacts PropNest HeadSpec SafeFacts TotalFacts CountFacts CalmSpec CalmWalk CalmFacts.

(** C06.  Missing: headers of arrays of tables with dots (see [C06_apart_partial] in
    PropApart.v for some), table headers that go
    through a name which is an array or array of tables somewhere in the document,
    and with overflow checks arrays of tables named like a key.  Some of the latter
    two panic ([C06_no_panic_refuted]). *)
Theorem C06_no_panic_partial : forall ovf i, calm_headers ovf i ->
  exists s r, parse (new_parser ovf) i = Ok (s, r).
Proof. exact parse_calm. Qed.
Print Assumptions C06_no_panic_partial.
Example C06_no_panic_partial_ex :
  calm_headers false (lit "a = 1
a = 2
[t]
x = [1, 'b', { y = 3 }
[p.q . v]
[[u]]
x = [[1], [2.0]]
[[u]]
[p.q]
[p.q] # again
[[ t ]]
z = 1979-13-41T00:00:00Z
[[x") /\
  calm_headers true (lit "a = 1
a = [1, 2.5]
[server.http]
b = {c = 1, c = 2}
[server.http.limits]
max = [[1], [2, 3]]
[[products]]
name = 'n'
[[products]]
name = 'm'
[server]
d = ").
Proof. split; apply calm_ok; vm_compute; reflexivity. Qed.

(** the documents whose headers all have one name are among them *)
Theorem C06_one_name_partial : forall ovf i, one_name_headers ovf i -> calm_headers ovf i.
Proof. exact one_name_calm. Qed.
Print Assumptions C06_one_name_partial.
Example C06_one_name_partial_ex : one_name_headers true (lit "a = 1
a = [1, 2.5]
[t]
b = {c = 1, c = 2}
[t]
d = ").
Proof. apply heads_ok; vm_compute; reflexivity. Qed.

(** C28.  Missing: get_value panics on the keys of declared tables
    ([C28_total_refuted]).  Those are the only ones: on any document, a key it
    panics on ends with the last name of a table header of the document. *)
Theorem C28_panics_partial : forall ovf i s r k, parse (new_parser ovf) i = Ok (s, r) -> get_value s k = Panic ->
  exists ne t p, In ne s.(p_root) /\ ne.(ne_expr).(e_table) = Some (TStandard t) /\ k = p ++ last_name t.
Proof. exact panic_table. Qed.
Print Assumptions C28_panics_partial.
Example C28_panics_partial_ex : exists s, parse (new_parser true) (lit "a = 1
[b.c]
d = [2, 3]") = Ok (s, Full) /\ get_value s (lit "b.c") = Panic.
Proof. eexists. split; vm_compute; reflexivity. Qed.

(** and on documents without conflicting names the keys it panics on are exactly
    the names of the tables *)
Theorem C28_documents_partial : forall ovf ls, lines_ok ls -> distinct (body ls) -> plain_headers (body ls) ->
  exists s, parse (new_parser ovf) (lines_text ls) = Ok (s, Full) /\
    forall k, get_value s k = Panic <-> In k (table_names (body ls)).
Proof. exact panic_names. Qed.
Print Assumptions C28_documents_partial.
Example C28_documents_partial_ex : lines_ok sect_lines /\ distinct (body sect_lines) /\ plain_headers (body sect_lines) /\
  table_names (body sect_lines) = [lit "owner"].
Proof. split; [apply sect_ok|]. split; [apply sect_distinct|]. split; [apply sect_plain|]. reflexivity. Qed.

(** ** C07: the reported line is the line where parsing stopped, less the line
    ends between the elements of arrays and inline tables. Missing: inputs whose
    unparsed rest starts with a key and an array or inline table; for those see
    [C07_bounds_partial]. *)
Theorem C07_line_partial : forall ovf i s r n, parse (new_parser ovf) i = Ok (s, r) -> reports r n -> ~ starts_nested s.(p_leftover) ->
  exists pre, i = pre ++ s.(p_leftover) /\ n + doc_layout_lines s.(p_root) = 1 + line_feeds pre.
Proof. exact reported_line. Qed.
Print Assumptions C07_line_partial.

Example C07_line_partial_ex :
  let i := lit "a = [1," ++ [10] ++ lit "2]" ++ [10] ++ lit "b = '''x" ++ [10] ++ lit "y'''" ++ [13; 10] ++ lit "[t] # c" ++ [10] ++ lit "c = !" in
  exists s, parse (new_parser true) i = Ok (s, Partial [] 5) /\ ~ starts_nested s.(p_leftover) /\
    doc_layout_lines s.(p_root) = 1 /\ s.(p_leftover) = lit "c = !".
Proof.
  cbv zeta. eexists. split; [vm_compute; reflexivity|]. split; [|split; vm_compute; reflexivity].
  change (p_leftover _) with (lit "c = !"). intros (k & w1 & w2 & c & x & E & _ & _ & _ & C).
  assert (I : In c (lit "c = !")). { rewrite E. do 3 (apply in_or_app; right). apply in_or_app. right. left. auto. }
  cbn in I. destruct C as [-> | ->]; repeat destruct I as [I|I]; try discriminate; exact I.
Qed.
