(** All parsers: /repo/src/internals/{util,primitives,objects,toml}.rs. *)
From Verif Require Import Str Regex Types Ast State Nom Keys.

(** ** util.rs *)

(** /repo/src/internals/util.rs:4-6 *)
Definition not_eol (c : N) : bool := (c =? 9) || ((32 <=? c) && (c <=? 0x10FFF)).

(** `self.line_count.set(self.line_count.get() + n)` *)
(* cites: util.rs:12-13, primitives.rs:452, primitives.rs:462 *)
Definition add_lines (n : N) (s : pst) : pst := set_line (s.(p_line) + n) s.

(** /repo/src/internals/util.rs:10-15 *)
Definition newline : P str :=
  alt (x <-- complete (tag [13;10]) ;; act (fun s => Ok (add_lines 1 s, x)))
      (x <-- complete (tag [10]) ;; act (fun s => Ok (add_lines 1 s, x))).

(** /repo/src/internals/util.rs:18 *)
Definition ws : P str := re_find re_ws.

(** /repo/src/internals/util.rs:21-29 *)
Definition comment : P str := tag (lit "#") ;;; (txt <-- take_while not_eol ;; ret txt).

(** ** primitives.rs *)

(** /repo/src/internals/primitives.rs:26-32 *)
Definition is_keychar (c : N) : bool :=
  ((0x41 <=? c) && (c <=? 0x5A)) || ((0x61 <=? c) && (c <=? 0x7A)) ||
  ((0x30 <=? c) && (c <=? 0x39)) || (c =? 0x2D) || (c =? 0x5f).

(** /repo/src/internals/primitives.rs:34-43: `many0!(full_line)` counted; the
    iteration bound is the length of the string *)
Fixpoint count_lines_loop (n : nat) (s : str) : N :=
  match n with
  | O => 0
  | S n' => match re_match re_full_line s with
            | Some (_, rest) => 1 + count_lines_loop n' rest
            | None => 0
            end
  end.
(* cites: primitives.rs:34-43 *)
Definition count_lines (s : str) : N := count_lines_loop (length s) s.

(** /repo/src/internals/primitives.rs:425 *)
Definition integer : P str := re_find re_integer.
(** /repo/src/internals/primitives.rs:428-429 *)
Definition float : P str := re_find re_float.

(** /repo/src/internals/primitives.rs:445-446 *)
Definition raw_basic_string : P str := re_find re_raw_basic.
(** /repo/src/internals/primitives.rs:449-454 *)
Definition raw_ml_basic_string : P str :=
  x <-- re_find re_raw_ml_basic ;; act (fun s => Ok (add_lines (count_lines x) s, x)).
(** /repo/src/internals/primitives.rs:456 *)
Definition raw_literal_string : P str := re_find re_raw_literal.
(** /repo/src/internals/primitives.rs:459-464 *)
Definition raw_ml_literal_string : P str :=
  x <-- re_find re_raw_ml_literal ;; act (fun s => Ok (add_lines (count_lines x) s, x)).

(** `&o[n..o.len()-n]`: strip n delimiter characters on both sides
    (primitives.rs:470, 481, 492, 503) *)
Definition strip (n : nat) (x : str) : str := firstn (length x - n - n) (skipn n x).

(** /repo/src/internals/primitives.rs:466-475 *)
Definition ml_basic_string_p : P str := pmap raw_ml_basic_string (strip 3).
(** /repo/src/internals/primitives.rs:477-486 *)
Definition basic_string_p : P str := pmap raw_basic_string (strip 1).
(** /repo/src/internals/primitives.rs:488-497 *)
Definition ml_literal_string_p : P str := pmap raw_ml_literal_string (strip 3).
(** /repo/src/internals/primitives.rs:499-508 *)
Definition literal_string_p : P str := pmap raw_literal_string (strip 1).

(** /repo/src/internals/primitives.rs:510-517 *)
Definition string_p : P tval :=
  alt (pmap (complete ml_literal_string_p) (fun x => TString x SMLLiteral))
  (alt (pmap (complete ml_basic_string_p) (fun x => TString x SMLBasic))
  (alt (pmap (complete basic_string_p) (fun x => TString x SBasic))
       (pmap (complete literal_string_p) (fun x => TString x SLiteral)))).

(** /repo/src/internals/primitives.rs:521-522 *)
Definition boolean : P bool :=
  alt (pmap (complete (tag (lit "false"))) (fun _ => false))
      (pmap (complete (tag (lit "true"))) (fun _ => true)).

(** /repo/src/internals/primitives.rs:528: the second capture, without the dot *)
Definition fractional : P str := pmap (re_find re_fractional) (skipn 1).

(** /repo/src/internals/ast/structs.rs:591-598 *)
Definition toa_new_str (pn hour minute : str) : time_offset_amount :=
  {| toa_pn := if str_eqb pn (lit "-") then Neg else Pos;
     toa_hour := hour; toa_minute := minute |}.

(** /repo/src/internals/primitives.rs:551-561 *)
Definition time_offset_amount_p : P time_offset_amount :=
  pn <-- alt (complete (tag (lit "+"))) (complete (tag (lit "-"))) ;;
  (hour <-- re_find re_d2 ;;
  (tag (lit ":") ;;;
  (minute <-- re_find re_d2 ;;
   ret (toa_new_str pn hour minute)))).

(** /repo/src/internals/primitives.rs:563-568 *)
Definition time_offset_p : P time_offset :=
  alt (pmap (complete (tag (lit "Z"))) (fun _ => Zulu))
      (pmap (complete time_offset_amount_p) OffTime).

(** /repo/src/internals/primitives.rs:530-549 with Time::new_str,
    ast/structs.rs:578-587 *)
Definition time_p : P time :=
  tag (lit "T") ;;;
  (hour <-- re_find re_d2 ;;
  (tag (lit ":") ;;;
  (minute <-- re_find re_d2 ;;
  (tag (lit ":") ;;;
  (second <-- re_find re_d2 ;;
  (fraction <-- opt (complete fractional) ;;
  (offset <-- opt (complete time_offset_p) ;;
   ret {| t_hour := hour; t_minute := minute; t_second := second;
          t_fraction := fraction; t_offset := offset |}))))))).

(** /repo/src/internals/primitives.rs:570-581 *)
Definition date_p : P date :=
  year <-- re_find re_d4 ;;
  (tag (lit "-") ;;;
  (month <-- re_find re_d2 ;;
  (tag (lit "-") ;;;
  (day <-- re_find re_d2 ;;
   ret {| d_year := year; d_month := month; d_day := day |})))).

(** /repo/src/internals/primitives.rs:603-612 *)
Definition date_time_internal : P datetime :=
  d <-- date_p ;;
  (t <-- opt (complete time_p) ;;
   ret {| dt_date := d; dt_time := t |}).

(** /repo/src/internals/primitives.rs:583-601 *)
Definition date_time : P datetime := fun s i =>
  let? (s, r) := date_time_internal s i in
  match r with
  | Done rest o =>
      if datetime_validate o then Ok (s, Done rest o)
      else
        let? (_, fk, _) := get_full_key s.(p_ovf) s.(p_map) s.(p_tables) s.(p_tindex)
                             s.(p_keychain) in
        Ok (push_error (EInvalidDateTime fk s.(p_line)
                          (firstn (length i - length rest) i)) s, Done rest o)
  | _ => Ok (s, r)
  end.

(** /repo/src/internals/primitives.rs:615 *)
Definition unquoted_key : P str := take_while1 is_keychar.
(** /repo/src/internals/primitives.rs:616-617 *)
Definition quoted_key : P str := re_find re_quoted_key.

(** `self.keychain.borrow_mut().push(k)` *)
(* cites: primitives.rs:621-624, objects.rs:543 *)
Definition push_key (k : key) (s : pst) : pst := set_keychain (vpush s.(p_keychain) k) s.
(** `self.keychain.borrow_mut().pop()` *)
(* cites: primitives.rs:670, objects.rs:546 *)
Definition pop_key (s : pst) : pst := set_keychain (vpop s.(p_keychain)) s.

(** /repo/src/internals/primitives.rs:619-625 *)
Definition key_p : P str :=
  alt (k <-- complete quoted_key ;; act (fun s => Ok (push_key (KStr k) s, k)))
      (k <-- complete unquoted_key ;; act (fun s => Ok (push_key (KStr k) s, k))).

(** /repo/src/internals/primitives.rs:627-636 *)
Definition keyval_sep : P wssep :=
  w1 <-- ws ;; (tag (lit "=") ;;; (w2 <-- ws ;; ret {| ws1 := w1; ws2 := w2 |})).

(** closure of keyval, /repo/src/internals/primitives.rs:655-672 *)
Definition keyval_act (k : str) (sep : wssep) (v : cell) (s : pst) : res (pst * keyval) :=
  let? s :=
    if s.(p_array_error) then
      match vlast s.(p_errors) with
      | None => Panic
      | Some (EInvalidTable tk line kvs) =>
          let? x := to_val v.(c_val) in
          Ok (set_errors (vpush (vpop s.(p_errors)) (EInvalidTable tk line (hput k x kvs))) s)
      | Some e => Ok (set_errors (vpush (vpop s.(p_errors)) e) s)
      end
    else insert_keyval_into_map s v in
  Ok (pop_key s, KeyVal k sep v).

(** ** objects.rs: arrays and inline tables *)

(** /repo/src/internals/objects.rs:450-459 *)
Definition array_sep : P wssep :=
  w1 <-- ws ;; (tag (lit ",") ;;; (w2 <-- ws ;; ret {| ws1 := w1; ws2 := w2 |})).

(** /repo/src/internals/objects.rs:461 *)
Definition ws_newline : P str := re_find re_ws_newline.

(** /repo/src/internals/objects.rs:463-472 *)
Definition comment_nl : P comment_newlines :=
  pre <-- ws_newline ;; (c <-- comment ;; (nls <-- ws_newline ;;
  ret {| cn_pre := pre; cn_comment := c; cn_newlines := nls |})).

(** /repo/src/internals/objects.rs:474-479 *)
Definition comment_or_nl : P comment_or_newlines :=
  alt (pmap (complete comment_nl) CComment) (pmap (complete ws_newline) CNewLines).

(** /repo/src/internals/objects.rs:481-482 *)
Definition comment_or_nls : P (list comment_or_newlines) := many1 comment_or_nl.

(** mixed-array check, /repo/src/internals/objects.rs:490-516 *)
Definition check_mixed (t : array_type) (s : pst) : res pst :=
  match vlast s.(p_atypes) with
  | None => Ok s
  | Some l =>
      if negb (array_type_eqb l ANone) && negb (array_type_eqb l t) then
        let? (_, fk, pk) := get_full_key s.(p_ovf) s.(p_map) s.(p_tables) s.(p_tindex)
                              s.(p_keychain) in
        let mixed :=
          match vlast s.(p_errors) with
          | Some (EMixedArray k _) => negb (starts_with k fk)
          | Some _ => false
          | None => true
          end in
        Ok (if mixed then push_error (EMixedArray pk s.(p_line)) s else s)
      else Ok s
  end.

(** closure of array_value, /repo/src/internals/objects.rs:489-523 *)
Definition array_value_act (v : cell) (sep : option wssep) (nls : list comment_or_newlines)
  (s : pst) : res (pst * array_value) :=
  let? t := map_val_to_array_type v.(c_val) in
  let? s := check_mixed t s in
  let s := set_atypes (vpush (vpop s.(p_atypes)) t) s in
  let kc_len := length s.(p_keychain) in
  let? s := insert_keyval_into_map s v in
  match nth_error s.(p_keychain) (kc_len - 1) with
  | None => Panic
  | Some k =>
      Ok (set_keychain (firstn (kc_len - 1) s.(p_keychain) ++ key_inc k
                          :: skipn kc_len s.(p_keychain)) s,
          ArrayValue v sep nls)
  end.

(** The recursive parsers are given as functionals of the parser [pval] for
    values; the knot is tied below with explicit fuel. *)
Section Values.
  Variable pval : P cell.

  (** /repo/src/internals/objects.rs:484-525 *)
  Definition array_value_ : P array_value :=
    v <-- pval ;;
    (sep <-- opt (complete array_sep) ;;
    (nls <-- complete comment_or_nls ;;
     act (array_value_act v sep nls))).

  (** /repo/src/internals/objects.rs:527-537 *)
  Definition array_values_ : P (list array_value) := many0 array_value_.

  (** /repo/src/internals/objects.rs:551-564 *)
  Definition array_internal_ : P tval :=
    tag (lit "[") ;;;
    (cn1 <-- comment_or_nls ;;
    (vals <-- array_values_ ;;
    (cn2 <-- comment_or_nls ;;
    (tag (lit "]") ;;;
     ret (TArray vals cn1 cn2))))).

  (** /repo/src/internals/objects.rs:539-549 *)
  Definition array_ : P tval := fun s i =>
    let s := set_atypes (vpush s.(p_atypes) ANone) s in
    let s := push_key (KIndex 0) s in
    let? (s, r) := array_internal_ s i in
    let s := pop_key s in
    Ok (set_atypes (vpop s.(p_atypes)) s, r).

  (** /repo/src/internals/primitives.rs:650-674 *)
  Definition keyval_p_ : P keyval :=
    k <-- key_p ;;
    (sep <-- keyval_sep ;;
    (v <-- pval ;;
     act (keyval_act k sep v))).

  (** /repo/src/internals/objects.rs:566-575 *)
  Definition table_keyval_p_ : P table_keyval :=
    kv <-- keyval_p_ ;;
    (sep <-- opt (complete array_sep) ;;
    (nls <-- complete comment_or_nls ;;
     ret (TableKeyVal kv sep nls))).

  (** /repo/src/internals/objects.rs:577 *)
  Definition inline_table_keyvals_ : P (list table_keyval) := many0 table_keyval_p_.

  (** /repo/src/internals/objects.rs:579-594 *)
  Definition inline_table_ : P tval :=
    tag (lit "{") ;;;
    (w1 <-- ws ;;
    (kvs <-- opt (complete inline_table_keyvals_) ;;
    (w2 <-- ws ;;
    (tag (lit "}") ;;;
     ret (TInlineTable (match kvs with Some l => l | None => [] end)
            {| ws1 := w1; ws2 := w2 |}))))).

  (** `=> {|x| Rc::new(RefCell::new(..))}` *)
  Definition pcell {A} (p : P A) (f : A -> tval) : P cell :=
    x <-- complete p ;; act (fun s => Ok (new_cell s (f x))).

  (** /repo/src/internals/primitives.rs:638-648 *)
  Definition val_ : P cell :=
    alt (pcell array_ (fun v => v))
    (alt (pcell inline_table_ (fun v => v))
    (alt (pcell date_time TDateTime)
    (alt (pcell float TFloat)
    (alt (pcell integer TInteger)
    (alt (pcell boolean TBoolean)
         (pcell string_p (fun v => v))))))).
End Values.

(** /repo/src/internals/primitives.rs:638-648, the recursive parser; the fuel
    bounds the nesting depth *)
Fixpoint val (fuel : nat) : P cell :=
  match fuel with
  | O => fun _ _ => Fuel
  | S f => val_ (val f)
  end.

(** a nested value is strictly shorter than the input, so this fuel suffices *)
(* cites: primitives.rs:638-648 *)
Definition val_p : P cell := fun s i => val (S (length i)) s i.

(** /repo/src/internals/primitives.rs:650-674 *)
Definition keyval_p : P keyval := keyval_p_ val_p.

(** ** objects.rs: table headers *)

(** /repo/src/internals/objects.rs:206-216 *)
Definition table_subkey : P wskey :=
  w1 <-- ws ;; (tag (lit ".") ;;; (w2 <-- ws ;; (k <-- key_p ;;
  ret {| wk_ws := {| ws1 := w1; ws2 := w2 |}; wk_key := k |}))).

(** /repo/src/internals/objects.rs:204 *)
Definition table_subkeys : P (list wskey) := many0 table_subkey.

(** /repo/src/internals/objects.rs:218-340 *)
Definition std_table : P table_type :=
  tag (lit "[") ;;;
  (w1 <-- ws ;; (k <-- key_p ;; (subkeys <-- table_subkeys ;; (w2 <-- ws ;;
  (tag (lit "]") ;;; act (std_table_act w1 w2 k subkeys)))))).

(** /repo/src/internals/objects.rs:343-447 *)
Definition array_table : P table_type :=
  tag (lit "[[") ;;;
  (w1 <-- ws ;; (k <-- key_p ;; (subkeys <-- table_subkeys ;; (w2 <-- ws ;;
  (tag (lit "]]") ;;; act (array_table_act w1 w2 k subkeys)))))).

(** /repo/src/internals/objects.rs:197-202 *)
Definition table_p : P table_type := alt (complete array_table) (complete std_table).

(** ** toml.rs *)

(** /repo/src/internals/toml.rs:37-43 *)
Definition ws_expr : P expression :=
  w <-- ws ;; ret {| e_ws := {| ws1 := w; ws2 := [] |}; e_keyval := None;
                     e_table := None; e_comment := None |}.

(** /repo/src/internals/toml.rs:45-55 *)
Definition table_comment : P expression :=
  w1 <-- ws ;; (t <-- table_p ;; (w2 <-- ws ;; (c <-- opt (complete comment) ;;
  ret {| e_ws := {| ws1 := w1; ws2 := w2 |}; e_keyval := None;
         e_table := Some t; e_comment := c |}))).

(** /repo/src/internals/toml.rs:57-67 *)
Definition keyval_comment : P expression :=
  w1 <-- ws ;; (kv <-- keyval_p ;; (w2 <-- ws ;; (c <-- opt (complete comment) ;;
  ret {| e_ws := {| ws1 := w1; ws2 := w2 |}; e_keyval := Some kv;
         e_table := None; e_comment := c |}))).

(** /repo/src/internals/toml.rs:69-78 *)
Definition ws_comment : P expression :=
  w <-- ws ;; (c <-- comment ;;
  ret {| e_ws := {| ws1 := w; ws2 := [] |}; e_keyval := None;
         e_table := None; e_comment := Some c |}).

(** /repo/src/internals/toml.rs:28-35 *)
Definition expression_p : P expression :=
  alt (complete table_comment) (alt (complete keyval_comment)
  (alt (complete ws_comment) (complete ws_expr))).

(** /repo/src/internals/toml.rs:18-26 *)
Definition nl_expression_p : P nl_expression :=
  nl <-- newline ;; (e <-- expression_p ;; ret {| ne_nl := nl; ne_expr := e |}).

(** /repo/src/internals/toml.rs:16 *)
Definition nl_expressions : P (list nl_expression) := many0 nl_expression_p.

(** /repo/src/internals/toml.rs:5-14 *)
Definition toml_p : P toml :=
  e <-- expression_p ;; (l <-- nl_expressions ;;
  ret ({| ne_nl := []; ne_expr := e |} :: l)).
