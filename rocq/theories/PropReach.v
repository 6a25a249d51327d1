(** * Every key/value of a document is found: theorems *)
From Verif Require Import Str Types Ast State Keys Api DocSpec DotSpec ReachSpec ReachFacts.

(** ** C92: for every text whose tables are all standard tables: if neither a key nor a
    table was refused, then every key/value of the document, in whatever table and in
    whatever layout, is found under the names of its header and its key, with its value
    and everything inside it; no two of them have the same name. The text may have
    mixed arrays and date-times that do not exist, and may be read in part only. *)
Theorem C92_found : forall ovf i s r x, parse (new_parser ovf) i = Ok (s, r) -> plain_tables s.(p_root) -> all_taken s.(p_errors) ->
  In x (keyed [] s.(p_root)) -> exists v, denotes (snd x).(kv_val).(c_val) v /\
    forall p w, at_path v p = Some w -> get_value s (line_name x ++ path_text p) = Ok (Some w).
Proof. intros ovf i s r x H PT C. exact (proj2 (found_all ovf i s r H PT C) x). Qed.
Print Assumptions C92_found.

Theorem C92_distinct : forall ovf i s r, parse (new_parser ovf) i = Ok (s, r) -> plain_tables s.(p_root) -> all_taken s.(p_errors) ->
  NoDup (map line_name (keyed [] s.(p_root))).
Proof. intros ovf i s r H PT C. exact (proj1 (found_all ovf i s r H PT C)). Qed.
Print Assumptions C92_distinct.

(** so two key/values with the same name, however far apart and under whatever headers,
    never go without an error *)
Theorem C92_clash : forall ovf i s r x y l1 l2 l3, parse (new_parser ovf) i = Ok (s, r) -> plain_tables s.(p_root) ->
  keyed [] s.(p_root) = l1 ++ x :: l2 ++ y :: l3 -> line_name x = line_name y ->
  Exists (fun e => match e with EDuplicateKey _ _ _ | EInvalidTable _ _ _ => True | _ => False end) s.(p_errors).
Proof. exact clash_told. Qed.
Print Assumptions C92_clash.

(** headers in any order, a mixed array, a date that does not exist, nested values, and
    a last line that cannot be read *)
Definition reach_text : str := lit "title = 'x' # first
mix = [ 1, 'two' ]
[ a . b ]
c = { d = [ 1, { e = 2015-02-30 } ] }
[a]
""n m"" = true
[f]
c = 1.5
c 2
".
Example C92_ex : exists s l, parse (new_parser true) reach_text = Ok (s, PartialError l 9
    [EMixedArray (lit "mix") 2; EInvalidDateTime (lit "a.b.c.d[1].e") 4 (lit "2015-02-30")]) /\
  plain_tables s.(p_root) /\ all_taken s.(p_errors) /\
  map line_name (keyed [] s.(p_root)) = [lit "title"; lit "mix"; lit "a.b.c"; lit "a.""n m"""; lit "f.c"] /\
  get_value s (lit "a.b.c.d[0]") = Ok (Some (VInteger (lit "1"))) /\
  get_value s (lit "f.c") = Ok (Some (VFloat (lit "1.5"))).
Proof.
  do 2 eexists. split; [vm_compute; reflexivity|]. split; [vm_compute; repeat constructor|]. split; [vm_compute; repeat constructor|].
  repeat split; vm_compute; reflexivity.
Qed.
(** and the same name twice, under headers far apart *)
Definition clash_text : str := lit "[a.b]
c = 1
[d]
c = 2
[ a . b ]
c = 3
".
Example C92_clash_ex : exists s x y z, parse (new_parser true) clash_text = Ok (s, FullError [EInvalidTable (lit "a.b") 5 [(lit "c", VInteger (lit "3"))]]) /\
  plain_tables s.(p_root) /\ keyed [] s.(p_root) = [] ++ x :: [z] ++ y :: [] /\ line_name x = line_name y /\ line_name x = lit "a.b.c".
Proof.
  do 4 eexists. split; [vm_compute; reflexivity|]. split; [vm_compute; repeat constructor|]. split; [vm_compute; reflexivity|].
  split; vm_compute; reflexivity.
Qed.
