(** Specification of the comparisons: what two equal syntax trees have in common. *)
From Verif Require Import Str Types Ast.

Definition on_cell (f : tval -> tval) (c : cell) : cell := Cell 0 (f c.(c_val)).
Definition on_keyval (f : tval -> tval) (k : keyval) : keyval := KeyVal k.(kv_key) k.(kv_sep) (on_cell f k.(kv_val)).
(** a value without the identities of its cells *)
Fixpoint bare_tree (t : tval) : tval :=
  match t with
  | TArray l a b => TArray (map (fun v => ArrayValue (on_cell bare_tree v.(av_val)) v.(av_sep) v.(av_nls)) l) a b
  | TInlineTable l w => TInlineTable (map (fun v => TableKeyVal (on_keyval bare_tree v.(tk_kv)) v.(tk_sep) v.(tk_nls)) l) w
  | _ => t
  end.
(** also without the kinds of its strings and the comments and line ends between
    the entries of inline tables *)
Fixpoint blurred (t : tval) : tval :=
  match t with
  | TArray l a b => TArray (map (fun v => ArrayValue (on_cell blurred v.(av_val)) v.(av_sep) v.(av_nls)) l) a b
  | TInlineTable l w => TInlineTable (map (fun v => TableKeyVal (on_keyval blurred v.(tk_kv)) v.(tk_sep) []) l) w
  | TString s _ => TString s SBasic
  | _ => t
  end.
(** the same for documents *)
Definition on_expr (f : tval -> tval) (x : nl_expression) : nl_expression :=
  {| ne_nl := x.(ne_nl);
     ne_expr := {| e_ws := x.(ne_expr).(e_ws); e_keyval := option_map (on_keyval f) x.(ne_expr).(e_keyval);
                   e_table := x.(ne_expr).(e_table); e_comment := x.(ne_expr).(e_comment) |} |}.
Definition on_toml (f : tval -> tval) (t : toml) : toml := map (on_expr f) t.
(** no strings, and no comments or line ends between the entries of inline tables *)
Inductive sharp : tval -> Prop :=
| Sh_int : forall s, sharp (TInteger s)
| Sh_float : forall s, sharp (TFloat s)
| Sh_bool : forall b, sharp (TBoolean b)
| Sh_date : forall d, sharp (TDateTime d)
| Sh_table : sharp TTable
| Sh_array : forall l a b, Forall (fun v => sharp v.(av_val).(c_val)) l -> sharp (TArray l a b)
| Sh_inline : forall l w, Forall (fun v => sharp v.(tk_kv).(kv_val).(c_val) /\ v.(tk_nls) = []) l -> sharp (TInlineTable l w).
Definition sharp_doc (t : toml) : Prop :=
  Forall (fun x => match x.(ne_expr).(e_keyval) with Some k => sharp k.(kv_val).(c_val) | None => True end) t.
