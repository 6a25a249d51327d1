(** Properties of documents with any text after them. *)
From Verif Require Import Str Regex Types Ast State Nom Keys Grammar Api Spec ScalarFacts FlatFacts PropFlat DocSpec NestFacts PropNest DotSpec FaultSpec PropFault AfterSpec AfterFacts.

(** C76.  The lines [ls] are a document of [C50_faults_partial], which says what its
    keys hold and what is reported; [z] is any text from a new line on.  Missing:
    documents with arrays of tables, for whose elements the claim is false
    ([C76_element_refuted]); that the children of arrays stay, which is false as well. *)
Theorem C76_later_text_partial : forall ovf ls g fs b z, wdoc_ok ls -> faulty ls g fs b -> LineFacts.line_start z ->
  forall s r, parse (new_parser ovf) (hdoc_text ls ++ z) = Ok (s, r) ->
  (forall p k v y w, In (p, k, v) (entries g) -> good_path y -> at_path v y = Some w ->
     get_value s (dotted_name (p ++ [k]) ++ path_text y) = Ok (Some w)) /\
  (forall q, table_of g q -> q <> [] -> exists l, get_children s (dotted_name q) = Some (Keys l) /\ incl (table_keys q g) l) /\
  (exists l, get_children s [] = Some (Keys l) /\ incl (table_keys [] g) l) /\
  (forall i f, nth_error fs i = Some f -> exists e e', reported f e /\ still e e' /\ nth_error s.(p_errors) i = Some e').
Proof. exact after_parse. Qed.
Print Assumptions C76_later_text_partial.

(** text that gives the keys again, and has tables and arrays of tables with their
    names and through an inline table; it ends with a line that is not TOML *)
Definition a_text : str := lit "
x = 3
[[c]]
[[c.d]]
x = 5
[m.k.j]
[[m.n]]
v = 1
[c]
[ top . e ]
[c.d]
[c.d.e]
z = [1, {p = 5}]
} no more".
Example C76_later_text_partial_ex :
  wdoc_ok f_lines /\ faulty f_lines f_good f_faults false /\ LineFacts.line_start a_text /\
  In ([lit "c"], lit "w", VArray [VDateTime f_30]) (entries f_good) /\ table_keys [lit "c"] f_good = [lit "d"; lit "x"; lit "w"] /\
  exists s es, parse (new_parser true) (hdoc_text f_lines ++ a_text) = Ok (s, PartialError [] 30 es) /\ (length es = 14)%nat /\
    get_value s (lit "c.w[0]") = Ok (Some (VDateTime f_30)) /\
    get_value s (lit "m.k[1]") = Ok (Some (VBoolean true)).
Proof.
  destruct C50_ex as (A & B & C). split; [exact A|]. split; [exact B|].
  split; [right; exists [10]; eexists; split; [left; reflexivity|reflexivity]|].
  split; [vm_compute; auto 10|]. split; [exact C|].
  do 2 eexists. split; [vm_compute; reflexivity|]. split; [|split]; vm_compute; reflexivity.
Qed.

(** A header of an array of tables below an element empties it: the key is lost
    without a report.  Two headers of arrays of tables with the name of an array are
    reported, but the array has a child more. *)
Definition a_first : str := lit "[[a]]
x = 1
[b]".
Definition a_more : str := lit "
[[a]]
[[a.x.y]]".
Definition a_array : str := lit "a = [1]".
Definition a_array_more : str := lit "
[[a]]
[[a]]".
Theorem C76_element_refuted : forall ovf,
  (exists s, parse (new_parser ovf) a_first = Ok (s, Full) /\ get_value s (lit "a[0].x") = Ok (Some (VInteger (lit "1")))) /\
  (exists s, parse (new_parser ovf) (a_first ++ a_more) = Ok (s, Full) /\ get_value s (lit "a[0].x") = Ok None) /\
  (exists s, parse (new_parser ovf) a_array = Ok (s, Full) /\ get_children s (lit "a") = Some (Count 1)) /\
  (exists s es, parse (new_parser ovf) (a_array ++ a_array_more) = Ok (s, FullError es) /\ get_children s (lit "a") = Some (Count 2)).
Proof.
  intros ovf; destruct ovf; (split; [eexists; split; vm_compute; reflexivity|]);
    (split; [eexists; split; vm_compute; reflexivity|]); (split; [eexists; split; vm_compute; reflexivity|]); do 2 eexists; split; vm_compute; reflexivity.
Qed.
Print Assumptions C76_element_refuted.
