(** Properties of arrays of tables whose name is in use. *)
From Verif Require Import Str Regex Types Ast State Nom Keys Grammar Api Spec ScalarFacts FlatFacts PropFlat DocSpec NestFacts PropNest DotSpec FaultSpec PropFault ClashSpec ClashFacts.

(** C75.  Missing: a table header after the header of an array of tables of that
    name, which is accepted, and headers that go through a key
    ([C75_array_first_refuted]).  With overflow checks an array of tables with the
    name of a key panics if the value has no children ([C75_key_refuted]). *)
Theorem C75_array_after_partial : forall ovf ls g fs b nl w0 w1 n more w2 w3 c z, wdoc_ok ls -> faulty ls g fs b -> line_end nl ->
  hline_ok (HHead w0 w1 n more w2 w3 c) -> LineFacts.line_start z -> taken g (head_path n more) ->
  (ovf = true -> forall p k v, head_path n more = p ++ [k] -> In (p, k, v) (entries g) -> kids_of v <> Count 0) ->
  forall s r, parse (new_parser ovf) (hdoc_text ls ++ nl ++ arr_text w0 w1 n more w2 w3 c ++ z) = Ok (s, r) ->
  exists i kvs, nth_error s.(p_errors) (length fs) =
    Some (EInvalidTable (dotted_name (head_path n more) ++ step_text (PIdx i)) (1 + line_feeds (hdoc_text ls ++ nl)) kvs).
Proof. exact clash_parse. Qed.
Print Assumptions C75_array_after_partial.

(** a table and a key with an inline table, both followed by more text *)
Example C75_array_after_partial_ex :
  wdoc_ok f_lines /\ faulty f_lines f_good f_faults false /\
  taken f_good (head_path (lit "c") [(lit " ", lit " ", lit "d")]) /\ taken f_good (head_path (lit "m") []) /\
  (forall p k v, head_path (lit "m") [] = p ++ [k] -> In (p, k, v) (entries f_good) -> kids_of v <> Count 0) /\
  (exists s r, parse (new_parser true) (hdoc_text f_lines ++ [10] ++ arr_text [] (lit " ") (lit "c") [(lit " ", lit " ", lit "d")] [] [] None ++ (lit "
z = 5")) = Ok (s, r) /\ nth_error s.(p_errors) 7 = Some (EInvalidTable (lit "c.d[0]") 18 [])) /\
  (exists s r, parse (new_parser true) (hdoc_text f_lines ++ [10] ++ arr_text [] [] (lit "m") [] [] [] None ++ (lit "
[m]
z = 5")) = Ok (s, r) /\ nth_error s.(p_errors) 7 = Some (EInvalidTable (lit "m[0]") 18 [])).
Proof.
  destruct C50_ex as (A & B & _). split; [exact A|]. split; [exact B|].
  split; [left; exists []; vm_compute; auto|].
  split; [right; exists [], (lit "m"); eexists; split; [reflexivity|]; right; left; reflexivity|].
  split.
  { intros p k v E H. destruct p as [|x p]; [|destruct p; discriminate E]. inversion E; subst k. vm_compute in H.
    repeat (destruct H as [H|H]; [inversion H; subst; vm_compute; discriminate|]). destruct H. }
  split; do 2 eexists; (split; [vm_compute; reflexivity|vm_compute; reflexivity]).
Qed.

(** A table after an array of tables of the same name is accepted, and its keys
    are found below the name without an index; the keys below a wrong header of an
    array of tables are stored; a header that goes through a key panics. *)
Definition clash_first : str := lit "[[a]]
x = 1
[a]
y = 2".
Definition clash_keys : str := lit "[a]
x = 1
[[a]]
y = 2".
Definition clash_through : str := lit "a = 1
[[a.b]]".
Theorem C75_array_first_refuted : forall ovf,
  (exists s, parse (new_parser ovf) clash_first = Ok (s, Full) /\
     get_value s (lit "a.y") = Ok (Some (VInteger (lit "2"))) /\
     get_value s (lit "a[0].x") = Ok (Some (VInteger (lit "1")))) /\
  (exists s, parse (new_parser ovf) clash_keys = Ok (s, FullError [EInvalidTable (lit "a[0]") 3 []]) /\
     get_value s (lit "a[0].y") = Ok (Some (VInteger (lit "2")))) /\
  parse (new_parser ovf) clash_through = Panic.
Proof.
  intros ovf; destruct ovf; (split; [eexists; split; [vm_compute; reflexivity|]; split; vm_compute; reflexivity|]);
    (split; [eexists; split; vm_compute; reflexivity|vm_compute; reflexivity]).
Qed.
Print Assumptions C75_array_first_refuted.
Definition clash_key : str := lit "a = 1
[[a]]".
Theorem C75_key_refuted : parse (new_parser true) clash_key = Panic.
Proof. vm_compute. reflexivity. Qed.
Print Assumptions C75_key_refuted.
