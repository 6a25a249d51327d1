(** Vocabulary of property C82: updates leave a document in the form of TOML. *)
From Verif Require Import Str Types State Ast Api Spec DocSpec DotSpec TreeSpec WholeSpec.

(** [updates s us s']: calls of set_value one after the other, accepted or refused *)
Inductive updates : pst -> list (str * value) -> pst -> Prop :=
| Up_none : forall s, updates s [] s
| Up_one : forall s k v s1 b us s2, set_value s k v = Ok (s1, b) -> updates s1 us s2 -> updates s ((k, v) :: us) s2.

(** a value that some text of the form of TOML denotes *)
Definition well_spelled (v : value) : Prop := exists t, denotes v t.

(** the same line, but for its value *)
Definition same_but_value (a b : tline) : Prop :=
  match a, b with
  | TPlain (HPair w0 k w1 w2 _ _ w3 c), TPlain (HPair w0' k' w1' w2' _ _ w3' c') =>
      w0 = w0' /\ k = k' /\ w1 = w1' /\ w2 = w2' /\ w3 = w3' /\ c = c'
  | _, _ => a = b
  end.
