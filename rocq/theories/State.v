(** The parser state: /repo/src/internals/parser.rs:14-43. *)
From Verif Require Import Str Types Ast.

(** /repo/src/types.rs:35-87.  The column argument (always 0) and the variants
    documented as unimplemented are left out. *)
Inductive parse_error :=
| EMixedArray (key : str) (line : N)
| EDuplicateKey (key : str) (line : N) (v : value)
| EInvalidTable (key : str) (line : N) (keyvals : list (str * value))
| EInvalidDateTime (key : str) (line : N) (text : str).

(** /repo/src/internals/primitives.rs:12-15 *)
Inductive key := KStr (s : str) | KIndex (i : N).

(** /repo/src/internals/primitives.rs:17-23 *)
Definition key_inc (k : key) : key :=
  match k with KIndex i => KIndex (i + 1) | KStr s => KStr s end.

(** ** `HashMap<String, V>` as an association list (parser.rs:16).  Iteration
    order is not observable through the modelled functions. *)
Definition hmap (V : Type) := list (str * V).

(* cites: `HashMap::get`: parser.rs:102, primitives.rs:98, primitives.rs:308 *)
Fixpoint hget {V} (k : str) (m : hmap V) : option V :=
  match m with
  | [] => None
  | (k', v) :: m' => if str_eqb k k' then Some v else hget k m'
  end.

(** `HashMap::insert`, replacing an existing binding *)
(* cites: `HashMap::insert`: parser.rs:34, primitives.rs:388-389, objects.rs:324 *)
Fixpoint hput {V} (k : str) (v : V) (m : hmap V) : hmap V :=
  match m with
  | [] => [(k, v)]
  | (k', v') :: m' => if str_eqb k k' then (k', v) :: m' else (k', v') :: hput k v m'
  end.

(** `HashMap::remove` *)
(* cites: `HashMap::remove`: parser.rs:151 *)
Fixpoint hremove {V} (k : str) (m : hmap V) : hmap V :=
  match m with
  | [] => []
  | (k', v') :: m' => if str_eqb k k' then hremove k m' else (k', v') :: hremove k m'
  end.

(** `HashMap::contains_key` *)
(* cites: `HashMap::contains_key`, parser.rs:101 *)
Definition hmem {V} (k : str) (m : hmap V) : bool := is_some (hget k m).

(* cites: parser.rs:16 *)
Notation vmap := (hmap hash_value).

(** /repo/src/internals/parser.rs:14-28.  `mixed_array` and `failure` are never
    read and left out.  Additional fields: [p_next], the allocation counter of
    cell identities, and [p_ovf], whether the build has overflow checks. *)
Record pst := mkP {
  p_root : toml;
  p_map : vmap;
  p_errors : list parse_error;
  p_leftover : str;
  p_line : N;
  p_tables : list table_type;        (* last_array_tables *)
  p_tindex : list N;                 (* last_array_tables_index *)
  p_keychain : list key;
  p_last_table : option table_type;
  p_atypes : list array_type;        (* last_array_type *)
  p_array_error : bool;
  p_next : N;
  p_ovf : bool
}.

(** /repo/src/internals/parser.rs:32-43 *)
Definition new_parser (ovf : bool) : pst :=
  {| p_root := []; p_map := hput root_key hv_none_keys []; p_errors := [];
     p_leftover := []; p_line := 1; p_tables := []; p_tindex := [];
     p_keychain := []; p_last_table := None; p_atypes := [];
     p_array_error := false; p_next := 0; p_ovf := ovf |}.

(** field updates (assignments to `self.<field>`) *)
(* cites: parser.rs:15, assigned at parser.rs:53 *)
Definition set_root r (s : pst) := mkP r s.(p_map) s.(p_errors) s.(p_leftover) s.(p_line)
  s.(p_tables) s.(p_tindex) s.(p_keychain) s.(p_last_table) s.(p_atypes) s.(p_array_error)
  s.(p_next) s.(p_ovf).
(* cites: parser.rs:16, updated at primitives.rs:286-422 *)
Definition set_map m (s : pst) := mkP s.(p_root) m s.(p_errors) s.(p_leftover) s.(p_line)
  s.(p_tables) s.(p_tindex) s.(p_keychain) s.(p_last_table) s.(p_atypes) s.(p_array_error)
  s.(p_next) s.(p_ovf).
(* cites: parser.rs:17, pushed at primitives.rs:370, objects.rs:300, objects.rs:512 *)
Definition set_errors e (s : pst) := mkP s.(p_root) s.(p_map) e s.(p_leftover) s.(p_line)
  s.(p_tables) s.(p_tindex) s.(p_keychain) s.(p_last_table) s.(p_atypes) s.(p_array_error)
  s.(p_next) s.(p_ovf).
(* cites: parser.rs:18, assigned at parser.rs:54 *)
Definition set_leftover l (s : pst) := mkP s.(p_root) s.(p_map) s.(p_errors) l s.(p_line)
  s.(p_tables) s.(p_tindex) s.(p_keychain) s.(p_last_table) s.(p_atypes) s.(p_array_error)
  s.(p_next) s.(p_ovf).
(* cites: parser.rs:19, assigned at util.rs:12-13 *)
Definition set_line l (s : pst) := mkP s.(p_root) s.(p_map) s.(p_errors) s.(p_leftover) l
  s.(p_tables) s.(p_tindex) s.(p_keychain) s.(p_last_table) s.(p_atypes) s.(p_array_error)
  s.(p_next) s.(p_ovf).
(* cites: parser.rs:20-21, assigned at objects.rs:235-446 *)
Definition set_tables t i (s : pst) := mkP s.(p_root) s.(p_map) s.(p_errors) s.(p_leftover)
  s.(p_line) t i s.(p_keychain) s.(p_last_table) s.(p_atypes) s.(p_array_error)
  s.(p_next) s.(p_ovf).
(* cites: parser.rs:22, assigned at objects.rs:233, objects.rs:543, primitives.rs:621 *)
Definition set_keychain k (s : pst) := mkP s.(p_root) s.(p_map) s.(p_errors) s.(p_leftover)
  s.(p_line) s.(p_tables) s.(p_tindex) k s.(p_last_table) s.(p_atypes) s.(p_array_error)
  s.(p_next) s.(p_ovf).
(* cites: parser.rs:23, assigned at objects.rs:334, objects.rs:441 *)
Definition set_last_table t (s : pst) := mkP s.(p_root) s.(p_map) s.(p_errors) s.(p_leftover)
  s.(p_line) s.(p_tables) s.(p_tindex) s.(p_keychain) t s.(p_atypes) s.(p_array_error)
  s.(p_next) s.(p_ovf).
(* cites: parser.rs:24, assigned at objects.rs:517-518, objects.rs:542-547 *)
Definition set_atypes a (s : pst) := mkP s.(p_root) s.(p_map) s.(p_errors) s.(p_leftover)
  s.(p_line) s.(p_tables) s.(p_tindex) s.(p_keychain) s.(p_last_table) a s.(p_array_error)
  s.(p_next) s.(p_ovf).
(* cites: parser.rs:25, assigned at objects.rs:306, objects.rs:313, objects.rs:364 *)
Definition set_array_error b (s : pst) := mkP s.(p_root) s.(p_map) s.(p_errors) s.(p_leftover)
  s.(p_line) s.(p_tables) s.(p_tindex) s.(p_keychain) s.(p_last_table) s.(p_atypes) b
  s.(p_next) s.(p_ovf).
(* cites: model only: identities of the cells allocated at objects.rs:560-590, primitives.rs:638-648 *)
Definition set_next n (s : pst) := mkP s.(p_root) s.(p_map) s.(p_errors) s.(p_leftover)
  s.(p_line) s.(p_tables) s.(p_tindex) s.(p_keychain) s.(p_last_table) s.(p_atypes)
  s.(p_array_error) n s.(p_ovf).

(** `Rc::new(RefCell::new(v))`: a cell with a fresh identity *)
(* cites: objects.rs:319, objects.rs:560, primitives.rs:638-648 *)
Definition new_cell (s : pst) (v : tval) : pst * cell :=
  (set_next (s.(p_next) + 1) s, Cell s.(p_next) v).

(** `errors.borrow_mut().push(e)` *)
(* cites: primitives.rs:370, primitives.rs:591, primitives.rs:664, objects.rs:300, objects.rs:426, objects.rs:512 *)
Definition push_error (e : parse_error) (s : pst) : pst := set_errors (vpush s.(p_errors) e) s.
