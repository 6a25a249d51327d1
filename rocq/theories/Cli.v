(** The command line tool, /repo/src/bin/tomlkit.rs: what one invocation does with
    one input file (lines 132-667).  Outside the model: the option parser `pirate`
    (lines 33-109; an option that needs an argument is taken to have one), the
    reading of file names from stdin (lines 111-129), opening, reading and writing
    files (they are taken to succeed, lines 211-217, 304-309, 348-359), and the
    text of the usage screen. *)
From Verif Require Import Str Regex Types Ast State Nom Keys Grammar Api.

(** What comes from outside: [x_split] is csv_to_vec (tomlkit.rs:650-662, a wrapper
    around the crate `csv`; None is a csv::Error), [x_debug] and [x_errors] are
    `{:?}` of a string (line 385) and of a list of parse errors (line 238), and
    [x_ovf] says whether arithmetic overflow is checked. *)
Record ext := { x_split : str -> option (list str); x_debug : str -> str;
                x_errors : list parse_error -> str; x_ovf : bool }.

(** `struct Options`, tomlkit.rs:132-143 *)
Record options := { o_true : str; o_false : str; o_sep : str; o_start : str; o_end : str;
  o_arr_sep : str; o_quiet : bool; o_len : bool; o_strip : bool; o_print : bool }.

(** the defaults of Options::new, tomlkit.rs:147-150 *)
Definition default_options : options :=
  {| o_true := lit "true"; o_false := lit "false"; o_sep := lit ", "; o_start := lit "["; o_end := lit "]";
     o_arr_sep := lit ", "; o_quiet := false; o_len := false; o_strip := false; o_print := false |}.

(** the options on the command line that Options::new looks at, tomlkit.rs:152-203 *)
Record flags := { g_true : option str; g_false : option str; g_sep : option str; g_start : option str;
  g_end : option str; g_arr_sep : option str; g_len : bool; g_strip : bool; g_quiet : bool; g_print : bool }.

(** tomlkit.rs:146-205; `-q` (line 74) is not looked at *)
Definition new_options (g : flags) : options :=
  let d := default_options in
  let pick (x : option str) (y : str) := match x with Some t => t | None => y end in
  {| o_true := pick g.(g_true) d.(o_true); o_false := pick g.(g_false) d.(o_false);
     o_sep := pick g.(g_sep) d.(o_sep); o_start := pick g.(g_start) d.(o_start);
     o_end := pick g.(g_end) d.(o_end); o_arr_sep := pick g.(g_arr_sep) d.(o_arr_sep);
     o_quiet := d.(o_quiet); o_len := if g.(g_len) then true else d.(o_len);
     o_strip := if g.(g_strip) then true else d.(o_strip);
     o_print := if g.(g_print) then true else d.(o_print) |}.

(** `Result<String, String>`, the result of a command, tomlkit.rs:245 *)
Inductive cres := Good (t : str) | Bad (t : str).

(** the double quote *)
(* cites: tomlkit.rs:365 *)
Definition dq : str := [34].

(** `trim_matches` with the two kinds of quotes, tomlkit.rs:372 *)
Definition is_quote (c : N) : bool := (c =? 39) || (c =? 34).
(* cites: `trim_matches` at the front, tomlkit.rs:372 *)
Fixpoint drop_quotes (s : str) : str :=
  match s with [] => [] | c :: s' => if is_quote c then drop_quotes s' else s end.
(* cites: `trim_matches` at both ends, tomlkit.rs:372 *)
Definition trim_quotes (s : str) : str := rev (drop_quotes (rev (drop_quotes s))).

(** tomlkit.rs:376-378 (and 425-427, 473-475, 536-538): the separator if this is
    not the last key *)
Definition sep_if {A} (rest : list A) (sep : str) : str := match rest with [] => [] | _ => sep end.

(** the loop of get_value, tomlkit.rs:368-382 *)
Fixpoint get_loop (sep : str) (strip : bool) (s : pst) (keys : list str) (result : str) : res cres :=
  match keys with
  | [] => Ok (Good result)
  | k :: rest =>
      let? o := get_value s k in
      match o with
      | Some v =>
          let? t := show_value v in
          get_loop sep strip s rest (result ++ (if strip then trim_quotes t else t) ++ sep_if rest sep)
      | None => Ok (Bad (lit "Key " ++ dq ++ k ++ dq ++ lit " not found."))
      end
  end.

(** tomlkit.rs:361-386 *)
Definition cli_get_value (x : ext) (csv sep : str) (strip : bool) (s : pst) : res cres :=
  match x.(x_split) csv with
  | Some keys =>
      match keys with
      | [] => Ok (Bad (lit "No keys specified: " ++ dq ++ csv ++ dq ++ lit "."))
      | _ => get_loop sep strip s keys []
      end
  | None => Ok (Bad (lit "Could not parse keys: " ++ dq ++ x.(x_debug) csv ++ dq ++ lit "."))
  end.

(** tomlkit.rs:402-406, 411-415, 498-502, 507-511: one value for all keys, or the
    one at index [i]; indexing out of bounds panics *)
Definition choose (vals : list str) (i : N) : res str :=
  match nth_error vals (if 1 <? nlen vals then N.to_nat i else O) with
  | Some v => Ok v
  | None => Panic
  end.

(** the loops of has_value (tomlkit.rs:399-428) and has_children (lines 495-539):
    [ask] is the lookup, [first] is `keycount` in has_children and 0 in has_value *)
Fixpoint has_loop (ask : str -> res bool) (sep true_csv false_csv : str) (tv fv : option (list str))
  (i : N) (keys : list str) (result : str) : res cres :=
  match keys with
  | [] => Ok (Good result)
  | k :: rest =>
      match tv with
      | None => Ok (Bad (lit "Invalid set of true values specified: " ++ dq ++ true_csv ++ dq ++ lit "."))
      | Some tvs =>
          let? t := choose tvs i in
          match fv with
          | None => Ok (Bad (lit "Invalid set of false values specified: " ++ dq ++ false_csv ++ dq ++ lit "."))
          | Some fvs =>
              let? f := choose fvs i in
              let? b := ask k in
              has_loop ask sep true_csv false_csv tv fv (i + 1) rest
                (result ++ (if b then t else f) ++ sep_if rest sep)
          end
      end
  end.

(** tomlkit.rs:388-432, with the new `keycount` *)
Definition cli_has_value (x : ext) (csv sep tv fv : str) (s : pst) : res (cres * N) :=
  match x.(x_split) csv with
  | Some keys =>
      match keys with
      | [] => Ok (Bad (lit "No keys specified: " ++ dq ++ csv ++ dq ++ lit "."), 0)
      | _ => let? r := has_loop (fun k => let? o := get_value s k in Ok (is_some o))
                         sep tv fv (x.(x_split) tv) (x.(x_split) fv) 0 keys [] in
             Ok (r, nlen keys)
      end
  | None => Ok (Bad (lit "Could not parse keys: " ++ dq ++ csv ++ dq ++ lit "."), 0)
  end.

(** the keys with the separator between them, tomlkit.rs:454-460 *)
Fixpoint join (sep : str) (l : list str) : str :=
  match l with
  | [] => []
  | [k] => k
  | k :: rest => k ++ sep ++ join sep rest
  end.

(** the loop of get_children, tomlkit.rs:442-479 *)
Fixpoint children_loop (sep astart aend asep : str) (alen : bool) (s : pst) (keys : list str) (result : str) : cres :=
  match keys with
  | [] => Good result
  | k :: rest =>
      match get_children s k with
      | Some (Keys l) =>
          children_loop sep astart aend asep alen s rest
            (result ++ ((if alen then dec (nlen l) ++ asep else astart) ++ join asep l ++ (if alen then [] else aend)) ++
             sep_if rest sep)
      | Some (Count n) =>
          if n =? 0 then Bad (lit "Key " ++ dq ++ k ++ dq ++ lit " has no children.")
          else children_loop sep astart aend asep alen s rest (result ++ dec n ++ sep_if rest sep)
      | None => Bad (lit "Key " ++ dq ++ k ++ dq ++ lit " not found.")
      end
  end.

(** tomlkit.rs:434-483 *)
Definition cli_get_children (x : ext) (csv sep astart aend asep : str) (alen : bool) (s : pst) : cres :=
  match x.(x_split) csv with
  | Some keys =>
      match keys with
      | [] => Bad (lit "No keys specified: " ++ dq ++ csv ++ dq ++ lit ".")
      | _ => children_loop sep astart aend asep alen s keys []
      end
  | None => Bad (lit "Could not parse keys: " ++ dq ++ csv ++ dq ++ lit ".")
  end.

(** tomlkit.rs:516-535 *)
Definition any_children (s : pst) (k : str) : bool :=
  match get_children s k with
  | Some (Count n) => 0 <? n
  | Some (Keys l) => 0 <? nlen l
  | None => false
  end.

(** tomlkit.rs:485-543 *)
Definition cli_has_children (x : ext) (csv sep tv fv : str) (keycount : N) (s : pst) : res cres :=
  match x.(x_split) csv with
  | Some keys =>
      match keys with
      | [] => Ok (Bad (lit "No keys specified: " ++ dq ++ csv ++ dq ++ lit "."))
      | _ => has_loop (fun k => Ok (any_children s k)) sep tv fv (x.(x_split) tv) (x.(x_split) fv) keycount keys []
      end
  | None => Ok (Bad (lit "Could not parse keys: " ++ dq ++ csv ++ dq ++ lit "."))
  end.

(** the copy of a date-time, tomlkit.rs:575-619; an offset `Z` is dropped
    (lines 587-594) *)
Definition copy_datetime (d : datetime) : datetime :=
  {| dt_date := d.(dt_date);
     dt_time := match d.(dt_time) with
                | Some t => Some {| t_hour := t.(t_hour); t_minute := t.(t_minute); t_second := t.(t_second);
                                    t_fraction := t.(t_fraction);
                                    t_offset := match t.(t_offset) with
                                                | Some (OffTime a) => Some (OffTime a)
                                                | _ => None
                                                end |}
                | None => None
                end |}.

(** tomlkit.rs:557-627: the outer None is an unknown type, the inner one a value
    that cannot be parsed; the empty date-time of line 568 stays if datetime_parse
    answers something else than a date-time *)
Definition typed_value (typ val : str) : res (option (option value)) :=
  if str_eqb typ (lit "basic-string") || str_eqb typ (lit "bs") then Ok (Some (basic_string val))
  else if str_eqb typ (lit "ml-basic-string") || str_eqb typ (lit "mbs") then Ok (Some (ml_basic_string val))
  else if str_eqb typ (lit "literal-string") || str_eqb typ (lit "ls") then Ok (Some (literal_string val))
  else if str_eqb typ (lit "ml-literal-string") || str_eqb typ (lit "mls") then Ok (Some (ml_literal_string val))
  else if str_eqb typ (lit "integer") || str_eqb typ (lit "int") then Ok (Some (int_from_str val))
  else if str_eqb typ (lit "float") || str_eqb typ (lit "flt") then Ok (Some (float_from_str val))
  else if str_eqb typ (lit "boolean") || str_eqb typ (lit "bool") then Ok (Some (bool_from_str val))
  else if str_eqb typ (lit "datetime") || str_eqb typ (lit "dt") then
    let? o := datetime_parse val in
    Ok (Some (match o with
              | Some (VDateTime d) => Some (VDateTime (copy_datetime d))
              | Some _ => Some (VDateTime {| dt_date := {| d_year := []; d_month := []; d_day := [] |}; dt_time := None |})
              | None => None
              end))
  else Ok None.

(** the loop of set_value, tomlkit.rs:552-644, over the fields three at a time *)
Fixpoint set_loop (sep : str) (quiet : bool) (fields : list str) (result : str) (s : pst) : res (pst * cres) :=
  match fields with
  | key :: val :: typ :: rest =>
      let? tv := typed_value typ val in
      match tv with
      | None => Ok (s, Bad (lit "Type " ++ dq ++ typ ++ dq ++ lit " not recognized for key: " ++ dq ++ key ++ dq))
      | Some None => Ok (s, Bad (lit "Unable to parse value: " ++ dq ++ val ++ dq ++ lit " as type: " ++ dq ++ typ ++
                                 dq ++ lit " for key: " ++ dq ++ key ++ dq))
      | Some (Some v) =>
          let? (s, done) := set_value s key v in
          if done then
            set_loop sep quiet rest
              (result ++ (if quiet then [] else lit "Success") ++ (if quiet then [] else sep_if rest sep)) s
          else Ok (s, Bad (lit "Could not set value of key: " ++ dq ++ key ++ dq ++ lit " to value: " ++ dq ++ val ++ dq ++
                           lit ", with type " ++ dq ++ typ ++ dq))
      end
  | _ => Ok (s, Good result)
  end.

(** tomlkit.rs:545-648 *)
Definition cli_set_value (x : ext) (kvs sep : str) (quiet : bool) (s : pst) : res (pst * cres) :=
  match x.(x_split) kvs with
  | Some fields =>
      if negb (nlen fields mod 3 =? 0) || (nlen fields =? 0)
      then Ok (s, Bad (lit "No keys or wrong number of keys specified (must be a multiple of 3): " ++ dq ++ kvs ++
                       dq ++ lit "."))
      else set_loop sep quiet fields [] s
  | None => Ok (s, Bad (lit "Could not parse keys: " ++ dq ++ kvs ++ dq ++ lit "."))
  end.

(** the commands on the command line with their arguments, and `output-file`,
    tomlkit.rs:249, 258, 268, 279, 289, 293 *)
Record commands := { m_get : option str; m_has : option str; m_children : option str; m_any : option str;
  m_set : option str; m_out : option str }.

(** What a run leaves behind: the text on stdout and the file written to.  A
    panic is a crash; what was printed before it is left out. *)
(* cites: tomlkit.rs:221-242, 316-346 *)
Inductive outcome :=
| Exit (out : str)                                  (* exit(-1) after a message, lines 221-242 *)
| Usage (out : str)                                 (* a message, then the usage screen, lines 316-319 *)
| Finished (out : str) (file : option (str * str))
| Crash (file : option (str * str))
| Stuck.

(** a line of output *)
(* cites: `println!`, tomlkit.rs:223 *)
Definition line_of (t : str) : str := t ++ [10].

(** the message for a document that does not parse without errors, tomlkit.rs:221-242 *)
Definition refusal (x : ext) (path : str) (r : parse_result) : option str :=
  let msg t := Some (line_of (lit "Error " ++ dq ++ path ++ dq ++ lit ": " ++ t)) in
  match r with
  | Partial _ _ => msg (lit "Document only partially parsed. Please correct any errors before trying again.")
  | PartialError _ _ _ =>
      msg (lit "Document only partially parsed with errors. Please correct any errors before trying again.")
  | Failure _ => msg (lit "Completely failed to parse document. Please correct any error before trying again.")
  | FullError e => msg (lit "Parsed entire document, but with errors: " ++ x.(x_errors) e ++ lit ".")
  | Full => None
  end.

(** the last result, `result[result.len() - 1]` being Ok; the vector starts with
    one Ok, tomlkit.rs:245, 257 *)
Definition last_good (l : list cres) : bool :=
  match rev l with Bad _ :: _ => false | _ => true end.

(** tomlkit.rs:321-340 *)
Fixpoint print_results (quiet : bool) (path sep : str) (l : list cres) : str :=
  match l with
  | [] => []
  | r :: rest =>
      (match r with
       | Good t => if quiet then [] else t
       | Bad e => lit "Error " ++ dq ++ path ++ dq ++ lit ": " ++ e
       end) ++ (match rest with [] => [10] | _ => sep end) ++ print_results quiet path sep rest
  end.

(** a computation that may panic, with the file written so far *)
(* cites: tomlkit.rs:208-346 *)
Definition orun {A} (file : option (str * str)) (r : res A) (k : A -> outcome) : outcome :=
  match r with Ok a => k a | Panic => Crash file | Fuel => Stuck end.

(** tomlkit.rs:316-346: no command, printing the results, and `print-doc` *)
Definition finish (o : options) (path : str) (file : option (str * str)) (results : list cres) (s : pst) : outcome :=
  let out := print_results o.(o_quiet) path o.(o_sep) results in
  if o.(o_print) then orun file (show_parser s) (fun t => Finished (out ++ line_of t) file)
  else Finished out file.

(** one command that leaves the document alone, run if it was given and if the
    last result is good, tomlkit.rs:249-287 *)
Definition step {A} (arg : option str) (results : list cres) (dflt : A) (run : str -> res (cres * A))
  : res (list cres * A) :=
  match arg with
  | Some a => if last_good results then let? (r, y) := run a in Ok (results ++ [r], y) else Ok (results, dflt)
  | None => Ok (results, dflt)
  end.

(** tomlkit.rs:208-346, after the file [path] with the contents [text] was read.
    write_to_file (lines 348-353) empties the file before the document is
    formatted, so a panic while formatting leaves it empty. *)
Definition process_document (x : ext) (o : options) (m : commands) (path text : str) : outcome :=
  orun None (parse (new_parser x.(x_ovf)) text) (fun '(s, r) =>
  match refusal x path r with
  | Some msg => Exit msg
  | None =>
      orun None (step m.(m_get) [] tt (fun a => let? r := cli_get_value x a o.(o_sep) o.(o_strip) s in Ok (r, tt)))
        (fun '(rs, _) =>
      orun None (step m.(m_has) rs 0 (fun a => cli_has_value x a o.(o_sep) o.(o_true) o.(o_false) s))
        (fun '(rs, keycount) =>
      orun None (step m.(m_children) rs tt
                   (fun a => Ok (cli_get_children x a o.(o_sep) o.(o_start) o.(o_end) o.(o_arr_sep) o.(o_len) s, tt)))
        (fun '(rs, _) =>
      orun None (step m.(m_any) rs tt
                   (fun a => let? r := cli_has_children x a o.(o_sep) o.(o_true) o.(o_false) keycount s in Ok (r, tt)))
        (fun '(rs, _) =>
      match m.(m_set) with
      | Some a =>
          if last_good rs then
            orun None (cli_set_value x a o.(o_sep) o.(o_quiet) s) (fun '(s, r) =>
            let out_file := match m.(m_out) with Some f => f | None => path end in
            match r with
            | Good _ => orun (Some (out_file, [])) (show_parser s)
                          (fun t => finish o path (Some (out_file, t)) (rs ++ [r]) s)
            | Bad _ => finish o path None (rs ++ [r]) s
            end)
          else finish o path None rs s
      | None =>
          match rs with
          | [] => Usage (line_of (lit "Error " ++ dq ++ path ++ dq ++ lit ": No command was specified."))
          | _ => finish o path None rs s
          end
      end))))
  end).
