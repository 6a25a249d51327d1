(** * The order of the kinds of errors *)
From Verif Require Import Str Types State.

(** not the error of a mixed array *)
Definition other_kind (e : parse_error) : Prop := forall k n, e <> EMixedArray k n.

(** first the mixed arrays, none of whose keys begins with the key before it, then
    errors of other kinds only *)
Inductive mixed_first : list parse_error -> Prop :=
| Mf_rest : forall es, Forall other_kind es -> mixed_first es
| Mf_last : forall k n es, Forall other_kind es -> mixed_first (EMixedArray k n :: es)
| Mf_next : forall k n k' n' es, (forall z, k' <> k ++ z) -> mixed_first (EMixedArray k' n' :: es) ->
    mixed_first (EMixedArray k n :: EMixedArray k' n' :: es).
