(** Where a value is inside another one, told from the names alone (property C97). *)
From Verif Require Import Str Types.

(** [at_name K V k x]: in the value V with the name K, the part with the name k is x. Elements
    of an array are named K[0], K[1], ..., the entry n of an inline table is named K.n *)
Inductive at_name : str -> value -> str -> value -> Prop :=
| At_here : forall K V, at_name K V K V
| At_elem : forall K l1 y l2 k x, at_name (K ++ lit "[" ++ dec (N.of_nat (length l1)) ++ lit "]") y k x ->
    at_name K (VArray (l1 ++ y :: l2)) k x
| At_entry : forall K l1 n y l2 k x, at_name (K ++ lit "." ++ n) y k x ->
    at_name K (VInlineTable (l1 ++ (n, y) :: l2)) k x.

(** [put_name K V k x w V']: the part x of V with the name k is replaced by w, and all other
    parts of V stay, in number, order and names *)
Inductive put_name : str -> value -> str -> value -> value -> value -> Prop :=
| Put_here : forall K x w, put_name K x K x w w
| Put_elem : forall K l1 y l2 k x w y', put_name (K ++ lit "[" ++ dec (N.of_nat (length l1)) ++ lit "]") y k x w y' ->
    put_name K (VArray (l1 ++ y :: l2)) k x w (VArray (l1 ++ y' :: l2))
| Put_entry : forall K l1 n y l2 k x w y', put_name (K ++ lit "." ++ n) y k x w y' ->
    put_name K (VInlineTable (l1 ++ (n, y) :: l2)) k x w (VInlineTable (l1 ++ (n, y') :: l2)).
