(** Vocabulary of property C73: values that can be written in a document. *)
From Verif Require Import Str Types Spec DocSpec ApiSpec.

(** every scalar is spelled as TOML requires, arrays and inline tables are not
    empty, the elements of an array are of one type and the keys of an inline
    table are different names *)
Inductive writable : value -> Prop :=
| Wr_scalar : forall v, scalar v (spelling v) -> writable v
| Wr_array : forall l, l <> [] -> Forall writable l -> uniform l -> writable (VArray l)
| Wr_inline : forall l, l <> [] -> Forall (fun kv => key_name (fst kv) /\ writable (snd kv)) l ->
    NoDup (map fst l) -> writable (VInlineTable l).

(** a document of one key/value line *)
Definition one_line (k t : str) : str := k ++ lit " = " ++ t.
