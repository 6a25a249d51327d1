(** Vocabulary of property C81: what is TOML by its form alone.  Values may be of any
    types inside an array, names may be repeated anywhere, date-times need not exist,
    and headers may come in any order.  The lines are those of [TreeSpec]. *)
From Verif Require Import Str Types Ast Spec DocSpec DotSpec TreeSpec.

(** [denotes v t]: the text [t] has the form of the value [v] *)
Inductive denotes : value -> str -> Prop :=
| Dn_scalar : forall v t, scalar v t -> denotes v t
| Dn_date : forall d, datetime_digits d -> denotes (VDateTime d) (datetime_src d)
| Dn_array : forall vs g t, gap g -> delems vs t -> denotes (VArray vs) (lit "[" ++ g ++ t ++ lit "]")
| Dn_inline : forall kvs w t, blanks w -> dfields kvs t -> denotes (VInlineTable kvs) (lit "{" ++ w ++ t ++ lit "}")
with delems : list value -> str -> Prop :=
| De_nil : delems [] []
| De_last : forall v t g, denotes v t -> gap g -> delems [v] (t ++ g)
| De_cons : forall v t w g vs r, denotes v t -> blanks w -> gap g -> delems vs r ->
    delems (v :: vs) (t ++ w ++ lit "," ++ g ++ r)
with dfields : list (str * value) -> str -> Prop :=
| Df_nil : dfields [] []
| Df_last : forall k w1 w2 v t g, key_name k -> blanks w1 -> blanks w2 -> denotes v t -> gap g ->
    dfields [(k, v)] (k ++ w1 ++ lit "=" ++ w2 ++ t ++ g)
| Df_cons : forall k w1 w2 v t w g l r, key_name k -> blanks w1 -> blanks w2 -> denotes v t ->
    blanks w -> gap g -> dfields l r ->
    dfields ((k, v) :: l) (k ++ w1 ++ lit "=" ++ w2 ++ t ++ w ++ lit "," ++ g ++ r).

(** lines and documents of that form *)
Definition formed (d : tline) : Prop :=
  match d with
  | TPlain (HPair w0 key w1 w2 v t w3 c) =>
      blanks w0 /\ key_name key /\ blanks w1 /\ blanks w2 /\ denotes v t /\ blanks w3 /\ com_ok c
  | _ => tline_ok d
  end.
Definition formed_doc (l : list (str * tline)) : Prop :=
  match l with
  | [] => False
  | (nl, d) :: l' => nl = [] /\ formed d /\ Forall (fun x => line_end (fst x) /\ formed (snd x)) l'
  end.

(** the names of a header, with the blanks around them *)
Definition head_keys (w1 name : str) (more : list (str * str * str)) (w2 : str) : list wskey :=
  {| wk_ws := {| ws1 := w1; ws2 := w2 |}; wk_key := name |} ::
  map (fun x => {| wk_ws := {| ws1 := fst (fst x); ws2 := snd (fst x) |}; wk_key := snd x |}) more.

(** [stands_for d e]: the expression [e] of the tree is the line [d] *)
Definition stands_for (d : tline) (e : expression) : Prop :=
  match d with
  | TPlain (HBlank w c) =>
      e = {| e_ws := {| ws1 := w; ws2 := [] |}; e_keyval := None; e_table := None; e_comment := c |}
  | TPlain (HPair w0 key w1 w2 v t w3 c) =>
      exists x, to_val x.(c_val) = Ok v /\
      e = {| e_ws := {| ws1 := w0; ws2 := w3 |}; e_keyval := Some (KeyVal key {| ws1 := w1; ws2 := w2 |} x);
             e_table := None; e_comment := c |}
  | TPlain (HHead w0 w1 n m w2 w3 c) =>
      e = {| e_ws := {| ws1 := w0; ws2 := w3 |}; e_keyval := None;
             e_table := Some (TStandard (head_keys w1 n m w2)); e_comment := c |}
  | TArr w0 w1 n m w2 w3 c =>
      e = {| e_ws := {| ws1 := w0; ws2 := w3 |}; e_keyval := None;
             e_table := Some (TArrayOf (head_keys w1 n m w2)); e_comment := c |}
  end.
