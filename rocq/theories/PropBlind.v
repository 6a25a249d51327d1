(** Properties of parsers that are used again. *)
From Verif Require Import Str Regex Types Ast State Nom Keys Grammar Api EqualSpec BlindFacts.

(** C78.  [s] and [t] are any parsers, e.g. a new one and one that has parsed other
    texts; the lines are counted from where each of them was.  Missing: values,
    children and errors, for which the claim is false ([C78_values_refuted]). *)
Theorem C78_same_tree_partial : forall s t i s' r t' r', parse s i = Ok (s', r) -> parse t i = Ok (t', r') ->
  on_toml bare_tree s'.(p_root) = on_toml bare_tree t'.(p_root) /\ s'.(p_leftover) = t'.(p_leftover) /\
  show_parser s' = show_parser t' /\ s'.(p_line) + t.(p_line) = t'.(p_line) + s.(p_line).
Proof. exact blind_parse. Qed.
Print Assumptions C78_same_tree_partial.

Definition u_first : str := lit "[a]
x = [1, 2.0]
[a]
y = 1".
Definition u_second : str := lit "y = {p = 5, q = ['s']} # c
[[b]]
z = 2011-02-31
]".
Example C78_same_tree_partial_ex : exists s t r s' t', parse (new_parser true) u_first = Ok (t, r) /\ s = new_parser true /\
  parse s u_second = Ok (s', PartialError [] 4 [EInvalidDateTime (lit "b[0].z") 3 (lit "2011-02-31")]) /\
  s'.(p_leftover) = lit "]" /\
  exists es, parse t u_second = Ok (t', PartialError [] 7 es) /\ length es = 3%nat.
Proof.
  do 5 eexists. split; [vm_compute; reflexivity|]. split; [reflexivity|]. split; [vm_compute; reflexivity|]. split; [vm_compute; reflexivity|].
  eexists. split; vm_compute; reflexivity.
Qed.

(** The keys of the second text are stored below the last header of the first, whose
    keys are still found; its errors are reported again, and a fault of the second
    text in a line that it does not have. *)
Definition u_doc : str := lit "[a]
x = 1".
Definition u_more : str := lit "y = 2011-02-31".
Theorem C78_values_refuted : forall ovf, exists s t r s' t', parse (new_parser ovf) u_doc = Ok (t, r) /\ s = new_parser ovf /\
  parse s u_more = Ok (s', FullError [EInvalidDateTime (lit "y") 1 (lit "2011-02-31")]) /\
  parse t u_more = Ok (t', FullError [EInvalidDateTime (lit "a.y") 2 (lit "2011-02-31")]) /\
  (exists v, get_value s' (lit "y") = Ok (Some v) /\ get_value t' (lit "y") = Ok None /\ get_value t' (lit "a.y") = Ok (Some v)) /\
  get_value s' (lit "a.x") = Ok None /\ get_value t' (lit "a.x") = Ok (Some (VInteger (lit "1"))).
Proof.
  intros [|]; (do 5 eexists; split; [vm_compute; reflexivity|]; split; [reflexivity|]; split; [vm_compute; reflexivity|]; split; [vm_compute; reflexivity|];
    split; [eexists; split; [vm_compute; reflexivity|]; split; vm_compute; reflexivity|]; split; vm_compute; reflexivity).
Qed.
Print Assumptions C78_values_refuted.
