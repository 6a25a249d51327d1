(** Independent vocabulary in which the properties are stated.  Nothing here
    refers to the model's own helper functions; only the data types (strings as
    lists of code points, [value], [datetime], ...) are shared. *)
From Verif Require Import Str Types Ast.

(** ** Digits, numbers, calendar *)

Definition digit (c : N) : Prop := 48 <= c <= 57.
Definition digits (s : str) : Prop := Forall digit s.

(** positional decimal value *)
Fixpoint number_from (acc : N) (s : str) : N :=
  match s with
  | [] => acc
  | c :: s' => number_from (10 * acc + (c - 48)) s'
  end.
Definition number (s : str) : N := number_from 0 s.

(** Gregorian leap years *)
Definition leap_year (y : N) : bool :=
  ((y mod 4 =? 0) && negb (y mod 100 =? 0)) || (y mod 400 =? 0).

Definition days_in_month (y m : N) : N :=
  match m with
  | 1 => 31 | 2 => if leap_year y then 29 else 28
  | 3 => 31 | 4 => 30 | 5 => 31 | 6 => 30 | 7 => 31 | 8 => 31
  | 9 => 30 | 10 => 31 | 11 => 30 | 12 => 31
  | _ => 0
  end.

Definition real_date (y m d : N) : Prop :=
  1 <= y <= 9999 /\ 1 <= m <= 12 /\ 1 <= d <= days_in_month y m.
Definition real_time (h m s : N) : Prop := h <= 23 /\ m <= 59 /\ s <= 59.
Definition real_offset (h m : N) : Prop := h <= 23 /\ m <= 59.

(** a field of exactly [w] decimal digits *)
Definition field (w : nat) (s : str) : Prop := digits s /\ length s = w.

(** what the code accepts as a field of width [w]: digits, or a plus sign and
    digits *)
Definition loose_field (w : nat) (s : str) : Prop :=
  field w s \/ exists s', s = 43 :: s' /\ s' <> [] /\ field (w - 1) s'.
Definition loose_number (s : str) : N :=
  match s with
  | c :: s' => if c =? 43 then number s' else number s
  | [] => 0
  end.

(** a number written with [w] digits, zero padded: the decimal digits of n from
    the most significant one *)
Fixpoint fixed_digits (w : nat) (n : N) : str :=
  match w with
  | O => []
  | S w' => fixed_digits w' (n / 10) ++ [48 + n mod 10]
  end.

(** a decimal numeral without superfluous leading zero denoting n *)
Definition numeral (n : N) (s : str) : Prop :=
  digits s /\ s <> [] /\ number s = n /\ (hd 48 s = 48 -> s = [48]).

(** ** Date-times made of decimal digits *)

Definition date_digits (d : date) : Prop :=
  field 4 d.(d_year) /\ field 2 d.(d_month) /\ field 2 d.(d_day).
Definition offset_digits (o : time_offset) : Prop :=
  match o with
  | Zulu => True
  | OffTime a => field 2 a.(toa_hour) /\ field 2 a.(toa_minute)
  end.
Definition time_digits (t : time) : Prop :=
  field 2 t.(t_hour) /\ field 2 t.(t_minute) /\ field 2 t.(t_second) /\
  match t.(t_fraction) with Some f => digits f /\ f <> [] | None => True end /\
  match t.(t_offset) with Some o => offset_digits o | None => True end.
Definition datetime_digits (d : datetime) : Prop :=
  date_digits d.(dt_date) /\ match d.(dt_time) with Some t => time_digits t | None => True end.

(** their numeric meaning *)
Definition datetime_real (d : datetime) : Prop :=
  real_date (number d.(dt_date).(d_year)) (number d.(dt_date).(d_month))
            (number d.(dt_date).(d_day)) /\
  match d.(dt_time) with
  | None => True
  | Some t =>
      real_time (number t.(t_hour)) (number t.(t_minute)) (number t.(t_second)) /\
      match t.(t_offset) with
      | Some (OffTime a) => real_offset (number a.(toa_hour)) (number a.(toa_minute))
      | _ => True
      end
  end.

(** ** Printed forms *)

Definition date_text (y m d : N) : str :=
  fixed_digits 4 y ++ lit "-" ++ fixed_digits 2 m ++ lit "-" ++ fixed_digits 2 d.
Definition time_text (h m s : N) : str :=
  lit "T" ++ fixed_digits 2 h ++ lit ":" ++ fixed_digits 2 m ++ lit ":" ++ fixed_digits 2 s.
Definition offset_text (sign : N) (h m : N) : str :=
  [sign] ++ fixed_digits 2 h ++ lit ":" ++ fixed_digits 2 m.

(** same letters up to ASCII case; [t] in lower case *)
Definition same_letters (s t : str) : Prop :=
  Forall2 (fun c d => c = d \/ c + 32 = d) s t.

(** no empty array or inline table anywhere inside *)
Inductive printable : value -> Prop :=
| PInt : forall s, printable (VInteger s)
| PFloat : forall s, printable (VFloat s)
| PBool : forall b, printable (VBoolean b)
| PDate : forall d, printable (VDateTime d)
| PStr : forall s t, printable (VString s t)
| PArr : forall l, l <> [] -> Forall printable l -> printable (VArray l)
| PInl : forall l, l <> [] -> Forall (fun kv => printable (snd kv)) l -> printable (VInlineTable l).

(** ** Scalars of a document *)

(** digits with single underscores between them (what may follow a digit) *)
Inductive digit_tail : str -> Prop :=
| DT_nil : digit_tail []
| DT_digit : forall c t, digit c -> digit_tail t -> digit_tail (c :: t)
| DT_under : forall c t, digit c -> digit_tail t -> digit_tail (95 :: c :: t).

Definition sign (s : str) : Prop := s = [] \/ s = [43] \/ s = [45].

(** no leading zero *)
Definition int_body (b : str) : Prop :=
  exists c t, b = c :: t /\ digit c /\ digit_tail t /\ (c = 48 -> t = []).

Definition toml_int (x : str) : Prop :=
  exists sg b, x = sg ++ b /\ sign sg /\ int_body b.

Definition frac_part (x : str) : Prop :=
  exists c t, x = 46 :: c :: t /\ digit c /\ digit_tail t.
Definition exp_part (x : str) : Prop :=
  exists e sg b, x = e :: sg ++ b /\ (e = 101 \/ e = 69) /\ sign sg /\ int_body b.

Definition toml_float (x : str) : Prop :=
  exists sg b f e, x = sg ++ b ++ f ++ e /\ sign sg /\ int_body b /\
    ((frac_part f /\ exp_part e) \/ (frac_part f /\ e = []) \/ (f = [] /\ exp_part e)).

(** characters that may follow a value: tab, LF, CR, space, # , ] } *)
Definition ends_value (r : str) : Prop :=
  match r with
  | [] => True
  | c :: _ => In c [9; 10; 13; 32; 35; 44; 93; 125]
  end.

Definition ascii (s : str) : Prop := Forall (fun c => c < 128) s.

(** ** String bodies *)

Definition hexes (n : nat) (h : str) : Prop :=
  length h = n /\ Forall (fun c => 48 <= c <= 57 \/ 65 <= c <= 90) h.

(** basic strings: no quote or backslash except in the escapes
    backslash + one of quote, backslash, / b f n r t, u + 4 or U + 8 hex
    characters (the code accepts upper-case letters only, up to Z) *)
Inductive basic_body : str -> Prop :=
| BB_nil : basic_body []
| BB_char : forall c t, 32 <= c <= 65535 -> c <> 34 -> c <> 92 -> basic_body t -> basic_body (c :: t)
| BB_esc : forall c t, In c [34; 92; 47; 98; 102; 110; 114; 116] -> basic_body t ->
           basic_body (92 :: c :: t)
| BB_u4 : forall h t, hexes 4 h -> basic_body t -> basic_body (92 :: 117 :: h ++ t)
| BB_u8 : forall h t, hexes 8 h -> basic_body t -> basic_body (92 :: 85 :: h ++ t).

Definition literal_body (s : str) : Prop := Forall (fun c => 32 <= c <= 65535 /\ c <> 39) s.

Inductive ml_basic_body : str -> Prop :=
| MB_nil : ml_basic_body []
| MB_char : forall c t, 32 <= c <= 65535 -> c <> 92 -> ml_basic_body t -> ml_basic_body (c :: t)
| MB_tab : forall t, ml_basic_body t -> ml_basic_body (9 :: t)
| MB_lf : forall t, ml_basic_body t -> ml_basic_body (10 :: t)
| MB_crlf : forall t, ml_basic_body t -> ml_basic_body (13 :: 10 :: t)
| MB_esc : forall c t, In c [34; 92; 47; 98; 102; 110; 114] -> ml_basic_body t ->
           ml_basic_body (92 :: c :: t)
| MB_cont : forall t, ml_basic_body t -> ml_basic_body (92 :: 10 :: t)
| MB_cont2 : forall t, ml_basic_body t -> ml_basic_body (92 :: 13 :: 10 :: t)
| MB_u4 : forall h t, hexes 4 h -> ml_basic_body t -> ml_basic_body (92 :: 117 :: h ++ t)
| MB_u8 : forall h t, hexes 8 h -> ml_basic_body t -> ml_basic_body (92 :: 85 :: h ++ t).

Inductive ml_literal_body : str -> Prop :=
| ML_nil : ml_literal_body []
| ML_char : forall c t, 32 <= c <= 65535 -> ml_literal_body t -> ml_literal_body (c :: t)
| ML_lf : forall t, ml_literal_body t -> ml_literal_body (10 :: t)
| ML_crlf : forall t, ml_literal_body t -> ml_literal_body (13 :: 10 :: t).

(** the delimiter occurs in the closed text only at its end *)
Definition closes_at_end (q : N) (body : str) : Prop :=
  forall a b, body ++ [q; q; q] = a ++ [q; q; q] ++ b -> b = [].

(** number of line feeds *)
Fixpoint line_feeds (s : str) : N :=
  match s with
  | [] => 0
  | c :: s' => (if c =? 10 then 1 else 0) + line_feeds s'
  end.

(** the text of a date-time *)
Definition offset_src (o : time_offset) : str :=
  match o with
  | Zulu => lit "Z"
  | OffTime a => (match a.(toa_pn) with Pos => lit "+" | Neg => lit "-" end) ++
                 a.(toa_hour) ++ lit ":" ++ a.(toa_minute)
  end.
Definition datetime_src (d : datetime) : str :=
  d.(dt_date).(d_year) ++ lit "-" ++ d.(dt_date).(d_month) ++ lit "-" ++ d.(dt_date).(d_day) ++
  match d.(dt_time) with
  | None => []
  | Some t =>
      lit "T" ++ t.(t_hour) ++ lit ":" ++ t.(t_minute) ++ lit ":" ++ t.(t_second) ++
      (match t.(t_fraction) with Some f => lit "." ++ f | None => [] end) ++
      (match t.(t_offset) with Some o => offset_src o | None => [] end)
  end.
(** a date-time of digits that exists, with a fraction below 2^64 *)
Definition good_datetime (d : datetime) : Prop :=
  datetime_digits d /\ datetime_real d /\
  match d.(dt_time) with
  | Some t => match t.(t_fraction) with Some f => number f <= 18446744073709551615 | None => True end
  | None => True
  end.

(** [scalar v t]: the text [t] spells the scalar value [v] *)
Inductive scalar : value -> str -> Prop :=
| Sc_int : forall t, toml_int t -> scalar (VInteger t) t
| Sc_float : forall t, toml_float t -> scalar (VFloat t) t
| Sc_true : scalar (VBoolean true) (lit "true")
| Sc_false : scalar (VBoolean false) (lit "false")
| Sc_date : forall d, good_datetime d -> scalar (VDateTime d) (datetime_src d)
| Sc_basic : forall b, basic_body b -> scalar (VString b SBasic) ([34] ++ b ++ [34])
| Sc_literal : forall b, literal_body b -> scalar (VString b SLiteral) ([39] ++ b ++ [39])
| Sc_ml_basic : forall b, ml_basic_body b -> closes_at_end 34 b ->
    scalar (VString b SMLBasic) ([34;34;34] ++ b ++ [34;34;34])
| Sc_ml_literal : forall b, ml_literal_body b -> closes_at_end 39 b ->
    scalar (VString b SMLLiteral) ([39;39;39] ++ b ++ [39;39;39]).

(** ** Documents made of key/value lines *)

Definition blanks (w : str) : Prop := Forall (fun c => c = 9 \/ c = 32) w.

(** letters, digits, dash, underscore *)
Definition bare_char (c : N) : Prop :=
  65 <= c <= 90 \/ 97 <= c <= 122 \/ 48 <= c <= 57 \/ c = 45 \/ c = 95.
Definition bare_key (k : str) : Prop := k <> [] /\ Forall bare_char k.
(** a key as it is written, and stored: bare, or between double quotes *)
Definition key_name (k : str) : Prop :=
  bare_key k \/ exists x, x <> [] /\ basic_body x /\ k = [34] ++ x ++ [34].

(** the characters the code accepts in a comment *)
Definition comment_text (c : str) : Prop := Forall (fun x => x = 9 \/ 32 <= x <= 0x10FFF) c.

(** [w0 key w1 = w2 text w3 #comment] *)
Record entry := Entry {
  en_w0 : str; en_key : str; en_w1 : str; en_w2 : str;
  en_val : value; en_text : str; en_w3 : str; en_com : option str }.

Inductive item := Blank (w : str) (c : option str) | Line (e : entry).

Definition com_text (c : option str) : str :=
  match c with Some x => lit "#" ++ x | None => [] end.
Definition com_ok (c : option str) : Prop :=
  match c with Some x => comment_text x | None => True end.

Definition entry_text (e : entry) : str :=
  e.(en_w0) ++ e.(en_key) ++ e.(en_w1) ++ lit "=" ++ e.(en_w2) ++ e.(en_text) ++ e.(en_w3) ++
  com_text e.(en_com).
Definition item_text (it : item) : str :=
  match it with Blank w c => w ++ com_text c | Line e => entry_text e end.

Definition entry_ok (e : entry) : Prop :=
  blanks e.(en_w0) /\ key_name e.(en_key) /\ blanks e.(en_w1) /\ blanks e.(en_w2) /\
  scalar e.(en_val) e.(en_text) /\ blanks e.(en_w3) /\ com_ok e.(en_com).
Definition item_ok (it : item) : Prop :=
  match it with Blank w c => blanks w /\ com_ok c | Line e => entry_ok e end.

Definition line_end (nl : str) : Prop := nl = [10] \/ nl = [13; 10].

(** the lines after the first one, each with the line end before it *)
Definition rest_text (l : list (str * item)) : str :=
  concat (map (fun x => fst x ++ item_text (snd x)) l).
Definition rest_ok (l : list (str * item)) : Prop :=
  Forall (fun x => line_end (fst x) /\ item_ok (snd x)) l.

(** a document: first line, other lines *)
Definition doc_text (it : item) (l : list (str * item)) : str := item_text it ++ rest_text l.
Definition doc_ok (it : item) (l : list (str * item)) : Prop := item_ok it /\ rest_ok l.

(** the key/value pairs in order *)
Definition item_pair (it : item) : list (str * value) :=
  match it with Blank _ _ => [] | Line e => [(e.(en_key), e.(en_val))] end.
Definition doc_pairs (it : item) (l : list (str * item)) : list (str * value) :=
  item_pair it ++ concat (map (fun x => item_pair (snd x)) l).

Definition same_key (a b : str) : bool := if list_eq_dec N.eq_dec a b then true else false.
Definition seen (k : str) (l : list str) : bool := existsb (same_key k) l.

(** the first value given for a key *)
Fixpoint first_value (k : str) (l : list (str * value)) : option value :=
  match l with
  | [] => None
  | (k', v) :: l' => if same_key k k' then Some v else first_value k l'
  end.

(** every key once, at its first appearance *)
Fixpoint first_keys (old : list str) (l : list str) : list str :=
  match l with
  | [] => []
  | k :: l' => if seen k old then first_keys old l' else k :: first_keys (k :: old) l'
  end.

(** one report per repeated line: key, line on which the repeated value ends,
    the value.  [line] is the number of the line before, [old] the keys seen *)
Fixpoint repeats (line : N) (old : list str) (l : list (str * item)) : list (str * N * value) :=
  match l with
  | [] => []
  | (nl, it) :: l' =>
      let line' := line + line_feeds (nl ++ item_text it) in
      match it with
      | Blank _ _ => repeats line' old l'
      | Line e =>
          if seen e.(en_key) old then (e.(en_key), line', e.(en_val)) :: repeats line' old l'
          else repeats line' (e.(en_key) :: old) l'
      end
  end.

(** ** Documents that can be printed *)

(** no empty inline table inside *)
Inductive tv_printable : tval -> Prop :=
| Pr_int : forall s, tv_printable (TInteger s)
| Pr_float : forall s, tv_printable (TFloat s)
| Pr_bool : forall b, tv_printable (TBoolean b)
| Pr_date : forall d, tv_printable (TDateTime d)
| Pr_str : forall s t, tv_printable (TString s t)
| Pr_tab : tv_printable TTable
| Pr_arr : forall vals n1 n2, Forall (fun av => tv_printable av.(av_val).(c_val)) vals -> tv_printable (TArray vals n1 n2)
| Pr_inl : forall kvs w, kvs <> [] -> Forall (fun tk => tv_printable tk.(tk_kv).(kv_val).(c_val)) kvs ->
    tv_printable (TInlineTable kvs w).

Definition ex_printable (e : expression) : Prop :=
  match e.(e_keyval) with Some kv => tv_printable kv.(kv_val).(c_val) | None => True end.
Definition doc_printable (t : toml) : Prop := Forall (fun e => ex_printable e.(ne_expr)) t.

(** ** The values that occur in a document, at any depth *)

Inductive inside (x : tval) : tval -> Prop :=
| In_self : inside x x
| In_arr : forall vals n1 n2 av, In av vals -> inside x av.(av_val).(c_val) -> inside x (TArray vals n1 n2)
| In_inl : forall kvs w tk, In tk kvs -> inside x tk.(tk_kv).(kv_val).(c_val) -> inside x (TInlineTable kvs w).
Definition in_doc (x : tval) (d : toml) : Prop :=
  exists ne kv, In ne d /\ ne.(ne_expr).(e_keyval) = Some kv /\ inside x kv.(kv_val).(c_val).

(** two values of the same TOML type *)
Definition same_kind (a b : tval) : Prop :=
  match a, b with
  | TInteger _, TInteger _ | TFloat _, TFloat _ | TBoolean _, TBoolean _ | TDateTime _, TDateTime _
  | TString _ _, TString _ _ | TArray _ _ _, TArray _ _ _ | TInlineTable _ _, TInlineTable _ _ => True
  | _, _ => False
  end.
