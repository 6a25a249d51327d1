(** Vocabulary of property C74: what can be found in a document by asking for
    the children of its root, their children, and so on.  Only the operations
    named in the property are used: get_children, and combine_child_keys, whose
    meaning is property C41. *)
From Verif Require Import Str Types Ast State Api.

Inductive found (s : pst) : str -> Prop :=
| Fo_top : forall ch x, get_children s [] = Some ch -> In x (combine_child_keys ch []) -> found s x
| Fo_next : forall y ch x, found s y -> get_children s y = Some ch ->
    In x (combine_child_keys ch y) -> found s x.

(** the keys that the parser knows, other than the two names of the root *)
Definition in_document (s : pst) (x : str) : Prop :=
  x <> [] /\ x <> lit "$Root$" /\ get_children s x <> None.
