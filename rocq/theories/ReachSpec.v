(** Specification of what becomes of the key/values of a document. *)
From Verif Require Import Str Types Ast State Spec DocSpec DotSpec.

(** [denotes t v]: the parsed value [t] stands for the value [v] *)
Inductive denotes : tval -> value -> Prop :=
| Dn_integer : forall x, denotes (TInteger x) (VInteger x)
| Dn_float : forall x, denotes (TFloat x) (VFloat x)
| Dn_boolean : forall b, denotes (TBoolean b) (VBoolean b)
| Dn_date : forall d, denotes (TDateTime d) (VDateTime d)
| Dn_string : forall x t, denotes (TString x t) (VString x t)
| Dn_array : forall avs vs n1 n2, Forall2 (fun a v => denotes a.(av_val).(c_val) v) avs vs ->
    denotes (TArray avs n1 n2) (VArray vs)
| Dn_inline : forall tks kvs w, Forall2 (fun t kv => fst kv = t.(tk_kv).(kv_key) /\ denotes t.(tk_kv).(kv_val).(c_val) (snd kv)) tks kvs ->
    denotes (TInlineTable tks w) (VInlineTable kvs).

(** the key/values of the expressions [d], each with the names of the header that it
    stands under; [h] are those of the header before *)
Fixpoint keyed (h : list str) (d : toml) : list (list str * keyval) :=
  match d with
  | [] => []
  | x :: d =>
      let h := match x.(ne_expr).(e_table) with Some t => map wk_key (tt_table t) | None => h end in
      match x.(ne_expr).(e_keyval) with Some kv => (h, kv) :: keyed h d | None => keyed h d end
  end.
(** its name *)
Definition line_name (x : list str * keyval) : str := dotted_name (fst x ++ [(snd x).(kv_key)]).

(** no header of an array of tables *)
Definition plain_tables (d : toml) : Prop :=
  Forall (fun x => match x.(ne_expr).(e_table) with Some (TArrayOf _) => False | _ => True end) d.
(** neither a key nor a table was refused *)
Definition all_taken (es : list parse_error) : Prop :=
  Forall (fun e => match e with EDuplicateKey _ _ _ | EInvalidTable _ _ _ => False | _ => True end) es.

(** the document [d] writes the value [u] under the name [n] *)
Definition writes (d : toml) (n : str) (u : value) : Prop := exists x, In x (keyed [] d) /\ line_name x = n /\ denotes (snd x).(kv_val).(c_val) u.
