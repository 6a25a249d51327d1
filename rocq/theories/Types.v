(** The public types of the crate: /repo/src/types.rs. *)
From Verif Require Import Str Regex.

(** /repo/src/types.rs:1043-1048 *)
Inductive pos_neg := Pos | Neg.

(** /repo/src/types.rs:1100-1107 *)
Record time_offset_amount := { toa_pn : pos_neg; toa_hour : str; toa_minute : str }.

(** /repo/src/types.rs:1062-1068 *)
Inductive time_offset := Zulu | OffTime (a : time_offset_amount).

(** /repo/src/types.rs:1188-1196 *)
Record date := { d_year : str; d_month : str; d_day : str }.

(** /repo/src/types.rs:1299-1310 *)
Record time := { t_hour : str; t_minute : str; t_second : str;
                 t_fraction : option str; t_offset : option time_offset }.

(** /repo/src/types.rs:1423-1426 *)
Record datetime := { dt_date : date; dt_time : option time }.

(** /repo/src/types.rs:114-123 *)
Inductive str_type := SBasic | SMLBasic | SLiteral | SMLLiteral.

(** /repo/src/types.rs:91-110 *)
Inductive value : Type :=
| VInteger (s : str)
| VFloat (s : str)
| VBoolean (b : bool)
| VDateTime (d : datetime)
| VString (s : str) (t : str_type)
| VArray (l : list value)
| VInlineTable (l : list (str * value)).

(** /repo/src/types.rs:127-160; the `Cell`/`RefCell` contents as plain data *)
Inductive children := Count (n : N) | Keys (l : list str).

(** /repo/src/types.rs:186-198 *)
Definition combine_keys (base child : str) : str :=
  match base with
  | [] => child
  | _ => base ++ lit "." ++ child
  end.

(** /repo/src/types.rs:220-222 `format!("{}[{}]", base, i)` *)
Definition combine_keys_index (base : str) (i : N) : str :=
  base ++ lit "[" ++ dec i ++ lit "]".

(** `0..n` *)
(* cites: loops over `0..n`: types.rs:244-267 *)
Definition nrange (n : N) : list N := map N.of_nat (seq 0 (N.to_nat n)).

(** /repo/src/types.rs:244-267 *)
Definition combine_child_keys (c : children) (base : str) : list str :=
  match c with
  | Count n => map (fun i => base ++ lit "[" ++ dec i ++ lit "]") (nrange n)
  | Keys l => map (fun k => match base with [] => k | _ => base ++ lit "." ++ k end) l
  end.

(** /repo/src/types.rs:1050-1058 *)
Definition show_pos_neg (p : pos_neg) : str :=
  match p with Pos => lit "+" | Neg => lit "-" end.

(** /repo/src/types.rs:1117-1121 *)
Definition show_toa (a : time_offset_amount) : str :=
  show_pos_neg a.(toa_pn) ++ a.(toa_hour) ++ lit ":" ++ a.(toa_minute).

(** /repo/src/types.rs:1080-1087 *)
Definition show_time_offset (o : time_offset) : str :=
  match o with Zulu => lit "Z" | OffTime a => show_toa a end.

(** /repo/src/types.rs:1206-1210 *)
Definition show_date (d : date) : str :=
  d.(d_year) ++ lit "-" ++ d.(d_month) ++ lit "-" ++ d.(d_day).

(** /repo/src/types.rs:1322-1331 *)
Definition show_time (t : time) : str :=
  lit "T" ++ t.(t_hour) ++ lit ":" ++ t.(t_minute) ++ lit ":" ++ t.(t_second) ++
  match t.(t_fraction), t.(t_offset) with
  | Some f, Some o => lit "." ++ f ++ show_time_offset o
  | Some f, None => lit "." ++ f
  | None, Some o => show_time_offset o
  | None, None => []
  end.

(** /repo/src/types.rs:1435-1442 *)
Definition show_datetime (d : datetime) : str :=
  match d.(dt_time) with
  | Some t => show_date d.(dt_date) ++ show_time t
  | None => show_date d.(dt_date)
  end.

(** /repo/src/types.rs:279 `write!(f, "{}", b)` for bool *)
Definition show_bool (b : bool) : str := if b then lit "true" else lit "false".

(** /repo/src/types.rs:291-298 *)
Definition show_string (s : str) (t : str_type) : str :=
  match t with
  | SBasic => [34] ++ s ++ [34]
  | SMLBasic => [34;34;34] ++ s ++ [34;34;34]
  | SLiteral => [39] ++ s ++ [39]
  | SMLLiteral => [39;39;39] ++ s ++ [39;39;39]
  end.

(** Display of a comma separated body, /repo/src/types.rs:283-288 and 301-306:
    all but the last element followed by ", ", then the last element.  On an
    empty vector `len() - 1` underflows: with overflow checks this panics;
    without, the loop indexes the empty vector and panics as well. *)
Definition show_seq {A} (f : A -> res str) : list A -> res str :=
  fix go (l : list A) : res str :=
    match l with
    | [] => Panic
    | [x] => f x
    | x :: l' => let? a := f x in let? b := go l' in Ok (a ++ lit ", " ++ b)
    end.

(** /repo/src/types.rs:274-311 *)
Fixpoint show_value (v : value) : res str :=
  match v with
  | VInteger s | VFloat s => Ok s
  | VBoolean b => Ok (show_bool b)
  | VDateTime d => Ok (show_datetime d)
  | VString s t => Ok (show_string s t)
  | VArray l => let? b := show_seq show_value l in Ok (lit "[" ++ b ++ lit "]")
  | VInlineTable l =>
      let? b := show_seq (fun kv => let? x := show_value (snd kv) in
                                    Ok (fst kv ++ lit " = " ++ x)) l in
      Ok (lit "{" ++ b ++ lit "}")
  end.

(** /repo/src/types.rs:1166-1182 *)
Definition toa_validate_numbers (a : time_offset_amount) : bool :=
  match uint_from_str a.(toa_hour) with
  | None => false
  | Some h =>
      if 23 <? h then false else
      match uint_from_str a.(toa_minute) with
      | None => false
      | Some m => if 59 <? m then false else true
      end
  end.

(** /repo/src/types.rs:1159-1164 *)
Definition toa_validate (a : time_offset_amount) : bool :=
  if negb (Nat.eqb (blen a.(toa_hour)) 2) || negb (Nat.eqb (blen a.(toa_minute)) 2)
  then false
  else toa_validate_numbers a.

(** /repo/src/types.rs:1089-1096 *)
Definition time_offset_validate (o : time_offset) : bool :=
  match o with Zulu => true | OffTime a => toa_validate a end.

(** `Result<T, TOMLError>` as option; the message is not modelled.
    /repo/src/types.rs:1133-1145 *)
Definition toa_from_str (pn hour minute : str) : option time_offset_amount :=
  let mk p := let o := {| toa_pn := p; toa_hour := hour; toa_minute := minute |} in
              if toa_validate o then Some o else None in
  if str_eqb pn (lit "+") then mk Pos
  else if str_eqb pn (lit "-") then mk Neg
  else None.

(** /repo/src/types.rs:1250-1294 *)
Definition date_validate_numbers (d : date) : bool :=
  match uint_from_str d.(d_year) with
  | None => false
  | Some y =>
      if (y =? 0) || (9999 <? y) then false else
      match uint_from_str d.(d_month) with
      | None => false
      | Some m =>
          if (m <? 1) || (12 <? m) then false else
          match uint_from_str d.(d_day) with
          | None => false
          | Some dd =>
              if dd <? 1 then false else
              if m =? 2 then
                let leap :=
                  if negb (y mod 4 =? 0) then false
                  else if negb (y mod 100 =? 0) then true
                  else if negb (y mod 400 =? 0) then false
                  else true in
                if leap && (29 <? dd) then false
                else if negb leap && (28 <? dd) then false
                else true
              else if (m =? 1) || (m =? 3) || (m =? 5) || (m =? 7) || (m =? 8)
                      || (m =? 10) || (m =? 12)
              then (if 31 <? dd then false else true)
              else (if 30 <? dd then false else true)
          end
      end
  end.

(** /repo/src/types.rs:1243-1248 *)
Definition date_validate (d : date) : bool :=
  if negb (Nat.eqb (blen d.(d_year)) 4) || negb (Nat.eqb (blen d.(d_month)) 2)
     || negb (Nat.eqb (blen d.(d_day)) 2)
  then false
  else date_validate_numbers d.

(** /repo/src/types.rs:1222-1229 *)
Definition date_from_parts (y m d : str) : option date :=
  let dt := {| d_year := y; d_month := m; d_day := d |} in
  if date_validate dt then Some dt else None.

(** /repo/src/types.rs:1385-1418 *)
Definition time_validate_numbers (t : time) : bool :=
  match uint_from_str t.(t_hour) with
  | None => false
  | Some h =>
      if 23 <? h then false else
      match uint_from_str t.(t_minute) with
      | None => false
      | Some m =>
          if 59 <? m then false else
          match uint_from_str t.(t_second) with
          | None => false
          | Some s =>
              if 59 <? s then false else
              (* lines 1407-1411 *)
              if match t.(t_fraction) with
                 | Some f => match uint_from_str f with Some _ => true | None => false end
                 | None => true
                 end
              then match t.(t_offset) with
                   | Some o => time_offset_validate o
                   | None => true
                   end
              else false
          end
      end
  end.

(** /repo/src/types.rs:1378-1383 *)
Definition time_validate (t : time) : bool :=
  if negb (Nat.eqb (blen t.(t_hour)) 2) || negb (Nat.eqb (blen t.(t_minute)) 2)
     || negb (Nat.eqb (blen t.(t_second)) 2)
  then false
  else time_validate_numbers t.

(** /repo/src/types.rs:1343-1362 *)
Definition time_from_parts (h m s : str) (f : option str) (o : option time_offset)
  : option time :=
  let t := {| t_hour := h; t_minute := m; t_second := s; t_fraction := f; t_offset := o |} in
  if time_validate t then Some t else None.

(** /repo/src/types.rs:1462-1471 *)
Definition datetime_validate (d : datetime) : bool :=
  if date_validate d.(dt_date)
  then match d.(dt_time) with Some t => time_validate t | None => true end
  else false.

(* cites: `Done` against other results of the parsers called at types.rs:966-989 *)
Definition is_some {A} (o : option A) : bool := match o with Some _ => true | None => false end.

(** whole-string match of one of the quoteless expressions,
    /repo/src/types.rs:966-989: `Done(i, _) => i.len() == 0` *)
Definition re_full (r : re) (s : str) : bool :=
  match re_match r s with Some (_, []) => true | _ => false end.

(** /repo/src/types.rs:947-994 *)
Definition validate (v : value) : bool :=
  match v with
  | VInteger s => is_some (re_match re_integer s)
  | VFloat s => is_some (re_match re_float s)
  | VDateTime d => datetime_validate d
  | VString s SBasic => re_full re_quoteless_basic s
  | VString s SMLBasic => re_full re_quoteless_ml_basic s
  | VString s SLiteral => re_full re_quoteless_literal s
  | VString s SMLLiteral => re_full re_quoteless_ml_literal s
  | VBoolean _ | VArray _ | VInlineTable _ => true
  end.

(* cites: `if v.validate() {Result::Ok(v)} else {Result::Err(..)}`, types.rs:339-346, types.rs:373-380, types.rs:869-934 *)
Definition checked (v : value) : option value := if validate v then Some v else None.

(** /repo/src/types.rs:325-327 *)
Definition value_int (z : Z) : value := VInteger (dec_z z).
(** /repo/src/types.rs:339-346 *)
Definition int_from_str (s : str) : option value := checked (VInteger s).
(** /repo/src/types.rs:358-360; the `f64` formatting is not modelled, the
    argument is the formatted text *)
Definition value_float (formatted : str) : value := VFloat formatted.
(** /repo/src/types.rs:373-380 *)
Definition float_from_str (s : str) : option value := checked (VFloat s).
(** /repo/src/types.rs:392-394 *)
Definition value_bool (b : bool) : value := VBoolean b.
(** /repo/src/types.rs:395-406 *)
Definition bool_from_str (s : str) : option value :=
  let lower := to_lower s in
  if str_eqb lower (lit "true") then Some (VBoolean true)
  else if str_eqb lower (lit "false") then Some (VBoolean false)
  else None.
(** /repo/src/types.rs:869-876 *)
Definition basic_string (s : str) : option value := checked (VString s SBasic).
(** /repo/src/types.rs:888-895 *)
Definition ml_basic_string (s : str) : option value := checked (VString s SMLBasic).
(** /repo/src/types.rs:907-914 *)
Definition literal_string (s : str) : option value := checked (VString s SLiteral).
(** /repo/src/types.rs:927-934 *)
Definition ml_literal_string (s : str) : option value := checked (VString s SMLLiteral).

(** The common shape of the date-time constructors: date first, then the offset
    if there is one, then the time
    (e.g. /repo/src/types.rs:619-634, 812-827). *)
Definition dt_value (d : date) (t : option time) : value :=
  VDateTime {| dt_date := d; dt_time := t |}.

(** /repo/src/types.rs:442-449 *)
Definition date_from_str (y m d : str) : option value :=
  match date_from_parts y m d with
  | Some dt => Some (dt_value dt None)
  | None => None
  end.

(** date and time without numeric offset; /repo/src/types.rs:493-503 (fraction
    and offset absent), 550-560 (fraction), 679-691 (Zulu), 738-750 (both) *)
Definition datetime_with (y mo d h mi s : str) (f : option str) (o : option time_offset)
  : option value :=
  match date_from_parts y mo d with
  | Some dt =>
      match time_from_parts h mi s f o with
      | Some t => Some (dt_value dt (Some t))
      | None => None
      end
  | None => None
  end.

(** date and time with numeric offset; /repo/src/types.rs:618-635 (no
    fraction), 811-828 (fraction) *)
Definition datetime_with_offset (y mo d h mi s : str) (f : option str) (pn oh om : str)
  : option value :=
  match date_from_parts y mo d with
  | Some dt =>
      match toa_from_str pn oh om with
      | Some off =>
          match time_from_parts h mi s f (Some (OffTime off)) with
          | Some t => Some (dt_value dt (Some t))
          | None => None
          end
      | None => None
      end
  | None => None
  end.

(** /repo/src/types.rs:493-503 *)
Definition datetime_from_str (y mo d h mi s : str) : option value :=
  datetime_with y mo d h mi s None None.
(** /repo/src/types.rs:550-560 *)
Definition datetime_frac_from_str (y mo d h mi s f : str) : option value :=
  datetime_with y mo d h mi s (Some f) None.
(** /repo/src/types.rs:618-635 *)
Definition datetime_offset_from_str (y mo d h mi s pn oh om : str) : option value :=
  datetime_with_offset y mo d h mi s None pn oh om.
(** /repo/src/types.rs:679-691 *)
Definition datetime_zulu_from_str (y mo d h mi s : str) : option value :=
  datetime_with y mo d h mi s None (Some Zulu).
(** /repo/src/types.rs:738-750 *)
Definition datetime_full_zulu_from_str (y mo d h mi s f : str) : option value :=
  datetime_with y mo d h mi s (Some f) (Some Zulu).
(** /repo/src/types.rs:811-828 *)
Definition datetime_full_from_str (y mo d h mi s f pn oh om : str) : option value :=
  datetime_with_offset y mo d h mi s (Some f) pn oh om.

(** /repo/src/types.rs:419-429 *)
Definition date_from_int (y m d : N) : option value :=
  date_from_str (pad0 4 y) (pad0 2 m) (pad0 2 d).
(** /repo/src/types.rs:463-479 *)
Definition datetime_from_int (y mo d h mi s : N) : option value :=
  datetime_with (pad0 4 y) (pad0 2 mo) (pad0 2 d) (pad0 2 h) (pad0 2 mi) (pad0 2 s) None None.
(** /repo/src/types.rs:519-536 *)
Definition datetime_frac_from_int (y mo d h mi s f : N) : option value :=
  datetime_with (pad0 4 y) (pad0 2 mo) (pad0 2 d) (pad0 2 h) (pad0 2 mi) (pad0 2 s)
    (Some (dec f)) None.
(** /repo/src/types.rs:577-602; `posneg` is a `char` *)
Definition datetime_offset_from_int (y mo d h mi s : N) (posneg : N) (oh om : N) : option value :=
  datetime_with_offset (pad0 4 y) (pad0 2 mo) (pad0 2 d) (pad0 2 h) (pad0 2 mi) (pad0 2 s)
    None [posneg] (pad0 2 oh) (pad0 2 om).
(** /repo/src/types.rs:649-665 *)
Definition datetime_zulu_from_int (y mo d h mi s : N) : option value :=
  datetime_with (pad0 4 y) (pad0 2 mo) (pad0 2 d) (pad0 2 h) (pad0 2 mi) (pad0 2 s)
    None (Some Zulu).
(** /repo/src/types.rs:707-724 *)
Definition datetime_full_zulu_from_int (y mo d h mi s f : N) : option value :=
  datetime_with (pad0 4 y) (pad0 2 mo) (pad0 2 d) (pad0 2 h) (pad0 2 mi) (pad0 2 s)
    (Some (dec f)) (Some Zulu).
(** /repo/src/types.rs:769-795 *)
Definition datetime_full_from_int (y mo d h mi s f : N) (posneg : N) (oh om : N) : option value :=
  datetime_with_offset (pad0 4 y) (pad0 2 mo) (pad0 2 d) (pad0 2 h) (pad0 2 mi) (pad0 2 s)
    (Some (dec f)) [posneg] (pad0 2 oh) (pad0 2 om).
