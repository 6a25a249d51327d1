(** The syntax tree of a document: /repo/src/internals/ast/structs.rs. *)
From Verif Require Import Str Types.

(** /repo/src/internals/ast/structs.rs:318-321 *)
Record wssep := { ws1 : str; ws2 : str }.

(** /repo/src/internals/ast/structs.rs:511-516; the comment text of
    `Comment` (291-293) is stored directly *)
Record comment_newlines := { cn_pre : str; cn_comment : str; cn_newlines : str }.

(** /repo/src/internals/ast/structs.rs:547-550 *)
Inductive comment_or_newlines :=
| CComment (c : comment_newlines)
| CNewLines (s : str).

(** `Rc<RefCell<TOMLValue>>` (structs.rs:151, 345, 604): the contents together
    with the identity of the cell.  All copies of a cell in a parser state carry
    the same identity; writing (see Api.write) replaces the contents of all of
    them. *)
Record cell_ (T : Type) := Cell { c_id : N; c_val : T }.
Arguments Cell {T} _ _.
Arguments c_id {T} _.
Arguments c_val {T} _.

(** /repo/src/internals/ast/structs.rs:342-346 *)
Record keyval_ (T : Type) := KeyVal { kv_key : str; kv_sep : wssep; kv_val : cell_ T }.
Arguments KeyVal {T} _ _ _.
Arguments kv_key {T} _.
Arguments kv_sep {T} _.
Arguments kv_val {T} _.

(** /repo/src/internals/ast/structs.rs:603-607 *)
Record array_value_ (T : Type) :=
  ArrayValue { av_val : cell_ T; av_sep : option wssep; av_nls : list comment_or_newlines }.
Arguments ArrayValue {T} _ _ _.
Arguments av_val {T} _.
Arguments av_sep {T} _.
Arguments av_nls {T} _.

(** /repo/src/internals/ast/structs.rs:691-695 *)
Record table_keyval_ (T : Type) :=
  TableKeyVal { tk_kv : keyval_ T; tk_sep : option wssep; tk_nls : list comment_or_newlines }.
Arguments TableKeyVal {T} _ _ _.
Arguments tk_kv {T} _.
Arguments tk_sep {T} _.
Arguments tk_nls {T} _.

(** /repo/src/internals/ast/structs.rs:126-135, with Array (652-656) and
    InlineTable (741-744) inlined: their own `Rc<RefCell<..>>` is never written
    after construction *)
Inductive tval : Type :=
| TInteger (s : str)
| TFloat (s : str)
| TBoolean (b : bool)
| TDateTime (d : datetime)
| TArray (values : list (array_value_ tval)) (nls1 nls2 : list comment_or_newlines)
| TString (s : str) (t : str_type)
| TInlineTable (keyvals : list (table_keyval_ tval)) (ws : wssep)
| TTable.

(* cites: `Rc<RefCell<TOMLValue>>`: structs.rs:151, structs.rs:345, structs.rs:604 *)
Notation cell := (cell_ tval).
(* cites: structs.rs:342-346 *)
Notation keyval := (keyval_ tval).
(* cites: structs.rs:603-607 *)
Notation array_value := (array_value_ tval).
(* cites: structs.rs:691-695 *)
Notation table_keyval := (table_keyval_ tval).

(** /repo/src/internals/ast/structs.rs:138-147 *)
Inductive array_type :=
| AInteger | AFloat | ABoolean | ADateTime | AArray | AString | AInlineTable | ANone.

(** derived `PartialEq` of ArrayType, structs.rs:137 *)
Definition array_type_eqb (a b : array_type) : bool :=
  match a, b with
  | AInteger, AInteger | AFloat, AFloat | ABoolean, ABoolean | ADateTime, ADateTime
  | AArray, AArray | AString, AString | AInlineTable, AInlineTable | ANone, ANone => true
  | _, _ => false
  end.

(** /repo/src/internals/ast/structs.rs:150-153 *)
Record hash_value := HashValue { hv_value : option cell; hv_subkeys : children }.

(** /repo/src/internals/ast/structs.rs:176-181 *)
Definition hv_new_keys (c : cell) := HashValue (Some c) (Keys []).
(** /repo/src/internals/ast/structs.rs:182-187 *)
Definition hv_none_keys := HashValue None (Keys []).
(** /repo/src/internals/ast/structs.rs:188-193 *)
Definition hv_one_keys (k : str) := HashValue None (Keys [k]).
(** /repo/src/internals/ast/structs.rs:194-199 *)
Definition hv_new_count (c : cell) := HashValue (Some c) (Count 0).
(** /repo/src/internals/ast/structs.rs:206-211 *)
Definition hv_one_count := HashValue None (Count 1).
(** /repo/src/internals/ast/structs.rs:212-217; the new cell's identity is a
    parameter *)
Definition hv_table_keys (id : N) := HashValue (Some (Cell id TTable)) (Keys []).

(** /repo/src/internals/ast/structs.rs:374-377 *)
Record wskey := { wk_ws : wssep; wk_key : str }.

(** /repo/src/internals/ast/structs.rs:454-456 *)
Definition table := list wskey.

(** /repo/src/internals/ast/structs.rs:265-268 *)
Inductive table_type := TStandard (t : table) | TArrayOf (t : table).
(* cites: projection of structs.rs:265-268 *)
Definition tt_table (t : table_type) : table :=
  match t with TStandard t | TArrayOf t => t end.

(** /repo/src/internals/ast/structs.rs:481-484 *)
Definition table_new (ws : wssep) (key : str) (subkeys : list wskey) : table :=
  {| wk_ws := ws; wk_key := key |} :: subkeys.

(** /repo/src/internals/ast/structs.rs:87-92 *)
Record expression :=
  { e_ws : wssep; e_keyval : option keyval; e_table : option table_type; e_comment : option str }.

(** /repo/src/internals/ast/structs.rs:54-57 *)
Record nl_expression := { ne_nl : str; ne_expr : expression }.

(** /repo/src/internals/ast/structs.rs:27-29 *)
Definition toml := list nl_expression.

(** "$Root$", e.g. /repo/src/internals/parser.rs:34 *)
Definition root_key : str := lit "$Root$".

(** /repo/src/internals/ast/structs.rs:402-421; both callers pass `None` as the
    last table (primitives.rs:49, 83) *)
Definition get_last_keys (t : table) : list str := root_key :: map wk_key t.

(** /repo/src/internals/ast/structs.rs:423-433: the keys joined by '.' *)
Fixpoint format_keys (t : table) : str :=
  match t with
  | [] => []
  | [k] => k.(wk_key)
  | k :: t' => k.(wk_key) ++ lit "." ++ format_keys t'
  end.

(** /repo/src/internals/ast/structs.rs:435-449 *)
Definition format_tt_keys (t : table_type) : str := format_keys (tt_table t).

(** /repo/src/internals/ast/structs.rs:491-507: `find` answers Some(0) exactly
    for a prefix *)
Definition is_subtable_of (self prev : table_type) : bool :=
  starts_with (format_keys (tt_table prev)) (format_keys (tt_table self)).

(** ** Display *)

(** concatenation of displayed elements *)
(* cites: `for x in .. { write!(f, ''{}'', x) }` in structs.rs:37-44, structs.rs:617-635, structs.rs:666-680 *)
Definition show_all {A} (f : A -> res str) : list A -> res str :=
  fix go (l : list A) : res str :=
    match l with
    | [] => Ok []
    | x :: l' => let? a := f x in let? b := go l' in Ok (a ++ b)
    end.

(** /repo/src/internals/ast/structs.rs:301-305 *)
Definition show_comment (c : str) : str := lit "#" ++ c.

(** /repo/src/internals/ast/structs.rs:526-530, 562-569 *)
Definition show_con (c : comment_or_newlines) : str :=
  match c with
  | CComment c => c.(cn_pre) ++ show_comment c.(cn_comment) ++ c.(cn_newlines)
  | CNewLines n => n
  end.

(* cites: the comment loop of structs.rs:617-635 *)
Definition show_cons (l : list comment_or_newlines) : str := concat (map show_con l).

(** separator part of structs.rs:620-623, 629-632, 708-711, 717-720 *)
Definition show_sep (o : option wssep) : str :=
  match o with Some s => s.(ws1) ++ lit "," ++ s.(ws2) | None => [] end.

(** /repo/src/internals/ast/structs.rs:356-360 *)
Definition show_keyval_with (f : tval -> res str) (kv : keyval) : res str :=
  let? v := f kv.(kv_val).(c_val) in
  Ok (kv.(kv_key) ++ kv.(kv_sep).(ws1) ++ lit "=" ++ kv.(kv_sep).(ws2) ++ v).

(** /repo/src/internals/ast/structs.rs:242-262 with ArrayValue (617-635),
    Array (666-680), TableKeyVal (705-723) and InlineTable (753-764).
    InlineTable: `0..self.keyvals.len() - 1` on an empty vector panics with
    overflow checks, and indexes out of bounds without. *)
Fixpoint show_tval (v : tval) : res str :=
  match v with
  | TInteger s | TFloat s => Ok s
  | TBoolean b => Ok (show_bool b)
  | TDateTime d => Ok (show_datetime d)
  | TArray vals n1 n2 =>
      let? b := show_all (fun av =>
                  let? x := show_tval av.(av_val).(c_val) in
                  Ok (x ++ show_sep av.(av_sep) ++ show_cons av.(av_nls))) vals in
      Ok (lit "[" ++ show_cons n1 ++ b ++ show_cons n2 ++ lit "]")
  | TString s t => Ok (show_string s t)
  | TInlineTable kvs ws =>
      match kvs with
      | [] => Panic
      | _ =>
          let? b := show_all (fun tk =>
                      let? x := show_tval tk.(tk_kv).(kv_val).(c_val) in
                      Ok (tk.(tk_kv).(kv_key) ++ tk.(tk_kv).(kv_sep).(ws1) ++ lit "=" ++
                          tk.(tk_kv).(kv_sep).(ws2) ++ x ++
                          show_sep tk.(tk_sep) ++ show_cons tk.(tk_nls))) kvs in
          Ok (lit "{" ++ ws.(ws1) ++ b ++ ws.(ws2) ++ lit "}")
      end
  | TTable => Ok (lit "$Table")
  end.

(** /repo/src/internals/ast/structs.rs:356-360 *)
Definition show_keyval (kv : keyval) : res str := show_keyval_with show_tval kv.

(** /repo/src/internals/ast/structs.rs:386-390 *)
Definition show_wskey (k : wskey) : str :=
  k.(wk_ws).(ws1) ++ lit "." ++ k.(wk_ws).(ws2) ++ k.(wk_key).

(** /repo/src/internals/ast/structs.rs:464-477 *)
Definition show_table (t : table) : str :=
  match t with
  | [] => []
  | k :: t' => k.(wk_ws).(ws1) ++ k.(wk_key) ++ concat (map show_wskey t') ++ k.(wk_ws).(ws2)
  end.

(** /repo/src/internals/ast/structs.rs:280-287 *)
Definition show_table_type (t : table_type) : str :=
  match t with
  | TStandard t => lit "[" ++ show_table t ++ lit "]"
  | TArrayOf t => lit "[[" ++ show_table t ++ lit "]]"
  end.

(** /repo/src/internals/ast/structs.rs:103-116 *)
Definition show_expression (e : expression) : res str :=
  match e.(e_keyval), e.(e_table), e.(e_comment) with
  | None, None, None => Ok e.(e_ws).(ws1)
  | None, None, Some c => Ok (e.(e_ws).(ws1) ++ show_comment c)
  | Some k, None, Some c =>
      let? x := show_keyval k in Ok (e.(e_ws).(ws1) ++ x ++ e.(e_ws).(ws2) ++ show_comment c)
  | Some k, None, None =>
      let? x := show_keyval k in Ok (e.(e_ws).(ws1) ++ x ++ e.(e_ws).(ws2))
  | None, Some t, Some c =>
      Ok (e.(e_ws).(ws1) ++ show_table_type t ++ e.(e_ws).(ws2) ++ show_comment c)
  | None, Some t, None =>
      Ok (e.(e_ws).(ws1) ++ show_table_type t ++ e.(e_ws).(ws2))
  | Some _, Some _, _ => Panic
  end.

(** /repo/src/internals/ast/structs.rs:66-70 *)
Definition show_nl_expression (e : nl_expression) : res str :=
  let? x := show_expression e.(ne_expr) in Ok (e.(ne_nl) ++ x).

(** /repo/src/internals/ast/structs.rs:37-44: panics on an empty vector, like
    InlineTable *)
Definition show_toml (t : toml) : res str :=
  match t with
  | [] => Panic
  | _ => show_all show_nl_expression t
  end.

(** ** Conversions to public values *)

(** `for x in ..` with a panicking body *)
(* cites: loops such as parser.rs:404-418 *)
Definition rmap {A B} (f : A -> res B) : list A -> res (list B) :=
  fix go (l : list A) : res (list B) :=
    match l with
    | [] => Ok []
    | x :: l' => let? a := f x in let? b := go l' in Ok (a :: b)
    end.

(** macro to_val!, /repo/src/internals/macros.rs:1-14, with
    sanitize_array/sanitize_inline_table, /repo/src/internals/parser.rs:404-418 *)
Fixpoint to_val (v : tval) : res value :=
  match v with
  | TInteger s => Ok (VInteger s)
  | TFloat s => Ok (VFloat s)
  | TBoolean b => Ok (VBoolean b)
  | TDateTime d => Ok (VDateTime d)
  | TArray vals _ _ =>
      let? l := rmap (fun av => to_val av.(av_val).(c_val)) vals in Ok (VArray l)
  | TString s t => Ok (VString s t)
  | TInlineTable kvs _ =>
      let? l := rmap (fun tk => let? x := to_val tk.(tk_kv).(kv_val).(c_val) in
                                Ok (tk.(tk_kv).(kv_key), x)) kvs in
      Ok (VInlineTable l)
  | TTable => Panic
  end.

(** /repo/src/internals/objects.rs:14-25 *)
Definition map_val_to_array_type (v : tval) : res array_type :=
  match v with
  | TInteger _ => Ok AInteger
  | TFloat _ => Ok AFloat
  | TBoolean _ => Ok ABoolean
  | TDateTime _ => Ok ADateTime
  | TArray _ _ _ => Ok AArray
  | TString _ _ => Ok AString
  | TInlineTable _ _ => Ok AInlineTable
  | TTable => Panic
  end.
