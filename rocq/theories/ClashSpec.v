(** Specification of headers of arrays of tables whose name is in use. *)
From Verif Require Import Str Types Spec DocSpec DotSpec.

(** a line [[[ w1 name more w2 ]]], with a comment *)
Definition arr_text (w0 w1 name : str) (more : list (str * str * str)) (w2 w3 : str) (c : option str) : str :=
  w0 ++ lit "[[" ++ w1 ++ name ++ concat (map more_text more) ++ w2 ++ lit "]]" ++ w3 ++ com_text c.

(** the path is one of a table or of a key with a value *)
Definition taken (g : list hline) (p : list str) : Prop :=
  table_of g p \/ exists q k v, p = q ++ [k] /\ In (q, k, v) (entries g).
