(** Specification of the causes of errors. *)
From Verif Require Import Str Types Ast State Keys Spec HeadSpec RoundTrip OrderSpec.

(** [part name x v]: [x] is a value inside [v], and [name] is its key in its inline
    table, or its place in its array, as [[2]] *)
Inductive part (name : str) (x : tval) : tval -> Prop :=
| Part_elem : forall vals n1 n2 j av, nth_error vals j = Some av -> name = lit "[" ++ dec (N.of_nat j) ++ lit "]" ->
    x = av.(av_val).(c_val) -> part name x (TArray vals n1 n2)
| Part_entry : forall kvs w tk, In tk kvs -> name = tk.(tk_kv).(kv_key) -> x = tk.(tk_kv).(kv_val).(c_val) ->
    part name x (TInlineTable kvs w)
| Part_arr : forall vals n1 n2 av, In av vals -> part name x av.(av_val).(c_val) -> part name x (TArray vals n1 n2)
| Part_inl : forall kvs w tk, In tk kvs -> part name x tk.(tk_kv).(kv_val).(c_val) -> part name x (TInlineTable kvs w).

(** a key that ends with this name *)
Definition ends (k name : str) : Prop := exists front, k = front ++ name.

(** the error [e] is about the value [x], called [name]: it is a date-time that does
    not exist, or an array with elements of two types, or just the value that the
    error says was not stored *)
Definition about (e : parse_error) (name : str) (x : tval) : Prop :=
  match e with
  | EInvalidDateTime k _ t => ends k name /\ exists d, x = TDateTime d /\ ~ good_datetime d /\ t = datetime_src d
  | EMixedArray k _ => ends k name /\ exists vals n1 n2 a b, x = TArray vals n1 n2 /\ In a vals /\ In b vals /\
      ~ same_kind a.(av_val).(c_val) b.(av_val).(c_val)
  | EDuplicateKey k _ v => ends k name /\ to_val x = Ok v
  | EInvalidTable _ _ _ => False
  end.

(** the value [v], called [name], is or has what [e] is about *)
Definition fault (name : str) (v : tval) (e : parse_error) : Prop :=
  about e name v \/ exists name' x, part name' x v /\ about e name' x.

(** an expression has what [e] is about: a key/value as above, or a header *)
Definition cause (x : expression) (e : parse_error) : Prop :=
  match e with
  | EInvalidTable _ _ _ => exists t, x.(e_table) = Some t
  | _ => exists kv, x.(e_keyval) = Some kv /\ fault kv.(kv_key) kv.(kv_val).(c_val) e
  end.

(** the date-times of a value, and of an expression, in their order *)
Fixpoint dates_in (v : tval) : list datetime :=
  match v with
  | TDateTime d => [d]
  | TArray vals _ _ => concat (map (fun a => dates_in a.(av_val).(c_val)) vals)
  | TInlineTable kvs _ => concat (map (fun k => dates_in k.(tk_kv).(kv_val).(c_val)) kvs)
  | _ => []
  end.
Definition dates_of (x : expression) : list datetime :=
  match x.(e_keyval) with Some kv => dates_in kv.(kv_val).(c_val) | None => [] end.
Definition doc_dates (d : toml) : list datetime := concat (map (fun x => dates_of x.(ne_expr)) d).
(** the texts of the date-times that do not exist *)
Inductive wrong_dates : list datetime -> list str -> Prop :=
| Wd_nil : wrong_dates [] []
| Wd_good : forall d ds ts, good_datetime d -> wrong_dates ds ts -> wrong_dates (d :: ds) ts
| Wd_wrong : forall d ds ts, ~ good_datetime d -> wrong_dates ds ts -> wrong_dates (d :: ds) (datetime_src d :: ts).
(** the texts that errors of invalid date-times give *)
Definition date_texts (es : list parse_error) : list str :=
  concat (map (fun e => match e with EInvalidDateTime _ _ t => [t] | _ => [] end) es).

(** [es] are errors first of the first expression of [d], and so on: each names a line
    of its expression (see [placed]) and has its cause there, and each date-time there
    that does not exist is reported once *)
Fixpoint blamed (n : N) (d : toml) (es : list parse_error) : Prop :=
  match d with
  | [] => es = []
  | x :: d =>
      let first := n + line_feeds x.(ne_nl) in
      let last := first + counted x.(ne_expr) in
      exists here later, es = here ++ later /\
        Forall (fun e => first <= error_line e <= last /\ cause x.(ne_expr) e) here /\
        wrong_dates (dates_of x.(ne_expr)) (date_texts here) /\ blamed last d later
  end.
