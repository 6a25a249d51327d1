(** Vocabulary: the updates of values that keep their structure. *)
From Verif Require Import Str Types Ast State Api Spec ApiSpec.

(** [edited s s']: from [s] to [s'] there were calls of set_value only, each with
    a value of the structure of the value that was found, or refused *)
Inductive edited (s : pst) : pst -> Prop :=
| Ed_none : edited s s
| Ed_same : forall s1 s2 k old v b, edited s s1 -> get_value s1 k = Ok (Some old) -> same_shape old v -> all_valid v ->
    set_value s1 k v = Ok (s2, b) -> edited s s2
| Ed_refused : forall s1 s2 k v, edited s s1 -> set_value s1 k v = Ok (s2, false) -> edited s s2.

(** the printed document has, for the key [k], the scalars of [v] in their order
    at a place with the text [pre] before it and [post] after it; a scalar is all
    there is between the two *)
Definition printed_at (s : pst) (k : str) (v : value) (pre post : str) : Prop :=
  key_at s k pre post /\
  forall t, show_parser s = Ok t ->
    (exists f, length f = S (length (leaves v)) /\ t = pre ++ weave f (map spelling (leaves v)) ++ post) /\
    (scalar_value v -> t = pre ++ spelling v ++ post).
