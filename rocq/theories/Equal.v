(** The comparisons of the crate: the `PartialEq` implementations of
    /repo/src/types.rs and /repo/src/internals/ast/structs.rs. *)
From Verif Require Import Str Types Ast.

(** ** Types of the language that the comparisons use *)
(** `==` of `Option`, derived *)
(* cites: fields of type Option in types.rs:1312-1320, structs.rs:698-702 *)
Definition opt_eqb {A} (f : A -> A -> bool) (a b : option A) : bool :=
  match a, b with Some x, Some y => f x y | None, None => true | _, _ => false end.
(** `==` of `Vec` *)
(* cites: fields of type Vec in structs.rs:31-35, structs.rs:658-664 *)
Definition vec_eqb {A} (f : A -> A -> bool) : list A -> list A -> bool :=
  fix go (a b : list A) : bool :=
    match a, b with [], [] => true | x :: a', y :: b' => f x y && go a' b' | _, _ => false end.
(** `==` of `bool` *)
(* cites: structs.rs:231 *)
Definition flag_eqb (a b : bool) : bool := match a, b with true, true | false, false => true | _, _ => false end.

(** ** types.rs *)
(** derived, types.rs:1042 *)
Definition pos_neg_eqb (a b : pos_neg) : bool := match a, b with Pos, Pos | Neg, Neg => true | _, _ => false end.
(** types.rs:1109-1115 *)
Definition toa_eqb (a b : time_offset_amount) : bool :=
  pos_neg_eqb a.(toa_pn) b.(toa_pn) && str_eqb a.(toa_hour) b.(toa_hour) && str_eqb a.(toa_minute) b.(toa_minute).
(** types.rs:1070-1078 *)
Definition time_offset_eqb (a b : time_offset) : bool :=
  match a, b with Zulu, Zulu => true | OffTime i, OffTime j => toa_eqb i j | _, _ => false end.
(** types.rs:1198-1204 *)
Definition date_eqb (a b : date) : bool :=
  str_eqb a.(d_year) b.(d_year) && str_eqb a.(d_month) b.(d_month) && str_eqb a.(d_day) b.(d_day).
(** types.rs:1312-1320 *)
Definition time_eqb (a b : time) : bool :=
  str_eqb a.(t_hour) b.(t_hour) && str_eqb a.(t_minute) b.(t_minute) && str_eqb a.(t_second) b.(t_second) &&
  opt_eqb str_eqb a.(t_fraction) b.(t_fraction) && opt_eqb time_offset_eqb a.(t_offset) b.(t_offset).
(** types.rs:1428-1433 *)
Definition datetime_eqb (a b : datetime) : bool :=
  date_eqb a.(dt_date) b.(dt_date) && opt_eqb time_eqb a.(dt_time) b.(dt_time).
(** derived, types.rs:113 *)
Definition str_type_eqb (a b : str_type) : bool :=
  match a, b with
  | SBasic, SBasic | SMLBasic, SMLBasic | SLiteral, SLiteral | SMLLiteral, SMLLiteral => true
  | _, _ => false
  end.
(** derived, types.rs:89 *)
Fixpoint value_eqb (a b : value) : bool :=
  match a, b with
  | VInteger i, VInteger j => str_eqb i j
  | VFloat i, VFloat j => str_eqb i j
  | VBoolean i, VBoolean j => flag_eqb i j
  | VDateTime i, VDateTime j => datetime_eqb i j
  | VString i s, VString j t => str_eqb i j && str_type_eqb s t
  | VArray i, VArray j => vec_eqb value_eqb i j
  | VInlineTable i, VInlineTable j => vec_eqb (fun x y => str_eqb (fst x) (fst y) && value_eqb (snd x) (snd y)) i j
  | _, _ => false
  end.
(** derived, types.rs:126 *)
Definition children_eqb (a b : children) : bool :=
  match a, b with Count i, Count j => i =? j | Keys i, Keys j => vec_eqb str_eqb i j | _, _ => false end.

(** ** structs.rs *)
(** structs.rs:10-16 *)
Definition comp_opt {A} (f : A -> A -> bool) (a b : option A) : bool :=
  match a, b with Some i, Some j => if f i j then true else false | None, None => true | _, _ => false end.
(** structs.rs:323-328 *)
Definition wssep_eqb (a b : wssep) : bool := str_eqb a.(ws1) b.(ws1) && str_eqb a.(ws2) b.(ws2).
(** structs.rs:518-524, with the comparison of the comment (295-299) *)
Definition comment_newlines_eqb (a b : comment_newlines) : bool :=
  str_eqb a.(cn_pre) b.(cn_pre) && str_eqb a.(cn_comment) b.(cn_comment) && str_eqb a.(cn_newlines) b.(cn_newlines).
(** structs.rs:552-560 *)
Definition con_eqb (a b : comment_or_newlines) : bool :=
  match a, b with
  | CComment i, CComment j => comment_newlines_eqb i j
  | CNewLines i, CNewLines j => str_eqb i j
  | _, _ => false
  end.
(** structs.rs:348-354; the cells are compared by their contents *)
Definition keyval_eqb (f : tval -> tval -> bool) (a b : keyval) : bool :=
  str_eqb a.(kv_key) b.(kv_key) && wssep_eqb a.(kv_sep) b.(kv_sep) && f a.(kv_val).(c_val) b.(kv_val).(c_val).
(** structs.rs:609-615 *)
Definition array_value_eqb (f : tval -> tval -> bool) (a b : array_value) : bool :=
  f a.(av_val).(c_val) b.(av_val).(c_val) && comp_opt wssep_eqb a.(av_sep) b.(av_sep) && vec_eqb con_eqb a.(av_nls) b.(av_nls).
(** structs.rs:697-703; line 701 compares the comments of [a] with themselves *)
Definition table_keyval_eqb (f : tval -> tval -> bool) (a b : table_keyval) : bool :=
  keyval_eqb f a.(tk_kv) b.(tk_kv) && opt_eqb wssep_eqb a.(tk_sep) b.(tk_sep) && vec_eqb con_eqb a.(tk_nls) a.(tk_nls).
(** structs.rs:226-240, with Array (658-664) and InlineTable (746-751); the type of
    a string is not compared (line 234) *)
Fixpoint tval_eqb (a b : tval) : bool :=
  match a, b with
  | TInteger i, TInteger j => str_eqb i j
  | TFloat i, TFloat j => str_eqb i j
  | TBoolean i, TBoolean j => flag_eqb i j
  | TDateTime i, TDateTime j => datetime_eqb i j
  | TArray v n1 n2, TArray w m1 m2 => vec_eqb (array_value_eqb tval_eqb) v w && vec_eqb con_eqb n1 m1 && vec_eqb con_eqb n2 m2
  | TString i _, TString j _ => str_eqb i j
  | TInlineTable v w, TInlineTable v' w' => vec_eqb (table_keyval_eqb tval_eqb) v v' && wssep_eqb w w'
  | TTable, TTable => true
  | _, _ => false
  end.
(** structs.rs:220-224; the children are not compared *)
Definition hash_value_eqb (a b : hash_value) : bool :=
  opt_eqb (fun x y => tval_eqb x.(c_val) y.(c_val)) a.(hv_value) b.(hv_value).
(** structs.rs:379-384 *)
Definition wskey_eqb (a b : wskey) : bool := wssep_eqb a.(wk_ws) b.(wk_ws) && str_eqb a.(wk_key) b.(wk_key).
(** structs.rs:270-278, with the comparison of Table (458-462) *)
Definition table_type_eqb (a b : table_type) : bool :=
  match a, b with
  | TStandard i, TStandard j => vec_eqb wskey_eqb i j
  | TArrayOf i, TArrayOf j => vec_eqb wskey_eqb i j
  | _, _ => false
  end.
(** structs.rs:94-101 *)
Definition expression_eqb (a b : expression) : bool :=
  wssep_eqb a.(e_ws) b.(e_ws) && comp_opt (keyval_eqb tval_eqb) a.(e_keyval) b.(e_keyval) &&
  comp_opt table_type_eqb a.(e_table) b.(e_table) && comp_opt str_eqb a.(e_comment) b.(e_comment).
(** structs.rs:59-64 *)
Definition nl_expression_eqb (a b : nl_expression) : bool :=
  str_eqb a.(ne_nl) b.(ne_nl) && expression_eqb a.(ne_expr) b.(ne_expr).
(** structs.rs:31-35 *)
Definition toml_eqb (a b : toml) : bool := vec_eqb nl_expression_eqb a b.
