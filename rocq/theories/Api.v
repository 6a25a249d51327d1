(** The public operations on a parser: /repo/src/internals/parser.rs and the
    wrappers in /repo/src/lib.rs (each wrapper delegates to the function of the
    same name: lib.rs:105-107, 120-122, 150-152, 181-183, 213-215, 241-243). *)
From Verif Require Import Str Regex Types Ast State Nom Keys Grammar.

(** /repo/src/types.rs:15-31; the column (always 0) is left out *)
Inductive parse_result :=
| Full
| FullError (errs : list parse_error)
| Partial (leftover : str) (line : N)
| PartialError (leftover : str) (line : N) (errs : list parse_error)
| Failure (line : N).

(** /repo/src/internals/parser.rs:45-75 *)
Definition parse (s : pst) (input : str) : res (pst * parse_result) :=
  let? (s, r) := toml_p s input in
  let line := s.(p_line) in
  let leftover := s.(p_leftover) in
  match r with
  | Done i o =>
      let s := set_leftover i (set_root o s) in
      let errs := s.(p_errors) in
      Ok (s, match i with
             | _ :: _ => match errs with
                         | _ :: _ => PartialError leftover line errs
                         | [] => Partial leftover line
                         end
             | [] => match errs with
                     | _ :: _ => FullError errs
                     | [] => Full
                     end
             end)
  | _ => Ok (s, Failure line)
  end.

(** /repo/src/internals/parser.rs:421-425 *)
Definition show_parser (s : pst) : res str := show_toml s.(p_root).

(** /repo/src/internals/parser.rs:99-112 *)
Definition get_value (s : pst) (key : str) : res (option value) :=
  match hget key s.(p_map) with
  | Some hv => match hv.(hv_value) with
               | Some c => let? v := to_val c.(c_val) in Ok (Some v)
               | None => Ok None
               end
  | None => Ok None
  end.

(** /repo/src/internals/parser.rs:114-128 *)
Definition get_children (s : pst) (key : str) : option children :=
  let k := match key with [] => root_key | _ => key end in
  match hget k s.(p_map) with
  | Some hv => Some hv.(hv_subkeys)
  | None => None
  end.

(** ** Writing through shared cells: `*rc.borrow_mut() = v`
    (parser.rs:176, 400).  Every copy of the cell in the document and in the map
    gets the new contents. *)

(** contents of a cell after the write (parser.rs:176, 400) *)
Definition upd_cell (f : tval -> tval) (id : N) (nv : tval) (c : cell) : cell :=
  if c.(c_id) =? id then Cell c.(c_id) nv else Cell c.(c_id) (f c.(c_val)).

(** the write inside a value: elements of arrays and inline tables are cells
    (ast/structs.rs:345, 604) *)
Fixpoint upd_tval (id : N) (nv : tval) (t : tval) : tval :=
  match t with
  | TArray vals n1 n2 =>
      TArray (map (fun av => ArrayValue (upd_cell (upd_tval id nv) id nv av.(av_val))
                               av.(av_sep) av.(av_nls)) vals) n1 n2
  | TInlineTable kvs ws =>
      TInlineTable (map (fun tk =>
        TableKeyVal (KeyVal tk.(tk_kv).(kv_key) tk.(tk_kv).(kv_sep)
                       (upd_cell (upd_tval id nv) id nv tk.(tk_kv).(kv_val)))
          tk.(tk_sep) tk.(tk_nls)) kvs) ws
  | _ => t
  end.

(** the write seen from a cell (parser.rs:176, 400) *)
Definition upd_c (id : N) (nv : tval) (c : cell) : cell := upd_cell (upd_tval id nv) id nv c.

(** the write seen from an expression of the document, ast/structs.rs:87-92 *)
Definition upd_expr (id : N) (nv : tval) (e : expression) : expression :=
  {| e_ws := e.(e_ws);
     e_keyval := match e.(e_keyval) with
                 | Some kv => Some (KeyVal kv.(kv_key) kv.(kv_sep) (upd_c id nv kv.(kv_val)))
                 | None => None
                 end;
     e_table := e.(e_table); e_comment := e.(e_comment) |}.

(** the write seen from the document, ast/structs.rs:27-29 *)
Definition upd_toml (id : N) (nv : tval) (t : toml) : toml :=
  map (fun ne => {| ne_nl := ne.(ne_nl); ne_expr := upd_expr id nv ne.(ne_expr) |}) t.

(** the write seen from the hash map, parser.rs:16 *)
Definition upd_map (id : N) (nv : tval) (m : vmap) : vmap :=
  map (fun kv => (fst kv,
         HashValue (match (snd kv).(hv_value) with
                    | Some c => Some (upd_c id nv c)
                    | None => None
                    end) (snd kv).(hv_subkeys))) m.

(** `*rc.borrow_mut() = nv` for the cell with identity [id] (parser.rs:176, 400) *)
Definition write (s : pst) (w : N * tval) : pst :=
  let (id, nv) := w in
  set_root (upd_toml id nv s.(p_root)) (set_map (upd_map id nv s.(p_map)) s).

(** ** Structure tests and replacement *)

(** `for i in 0..len` over two vectors of the same length,
    /repo/src/internals/parser.rs:270-274, 284-288 *)
Definition all2 {A B} (f : A -> B -> bool) : list A -> list B -> bool :=
  fix go (l : list A) (l2 : list B) : bool :=
    match l, l2 with
    | [], [] => true
    | x :: l', y :: l2' => f x y && go l' l2'
    | _, _ => false
    end.

(** /repo/src/internals/parser.rs:260-298 *)
Fixpoint same_structure (t : tval) (v : value) : bool :=
  if negb (validate v) then false
  else
    match t with
    | TArray vals _ _ =>
        match v with
        | VArray l => all2 (fun av x => same_structure av.(av_val).(c_val) x) vals l
        | _ => false
        end
    | TInlineTable kvs _ =>
        match v with
        | VInlineTable l =>
            all2 (fun tk x => str_eqb tk.(tk_kv).(kv_key) (fst x) &&
                              same_structure tk.(tk_kv).(kv_val).(c_val) (snd x)) kvs l
        | _ => false
        end
    | _ => match v with VArray _ | VInlineTable _ => false | _ => true end
    end.

(** `for i in 0..len`, indexing the second vector too,
    /repo/src/internals/parser.rs:376-380, 386-390 *)
Definition rzip {A B C} (f : A -> B -> res (list C)) : list A -> list B -> res (list C) :=
  fix go (l : list A) (l2 : list B) : res (list C) :=
    match l, l2 with
    | [], _ => Ok []
    | x :: l', y :: l2' => let? a := f x y in let? b := go l' l2' in Ok (a ++ b)
    | _ :: _, [] => Panic
    end.

(** /repo/src/internals/parser.rs:371-402, as the list of cell writes it
    performs, in order (it reads no cell after writing it); it answers true
    whenever it returns *)
Fixpoint replace_values (id : N) (t : tval) (v : value) : res (list (N * tval)) :=
  match t, v with
  | TArray vals _ _, VArray l =>
      rzip (fun av x => replace_values av.(av_val).(c_id) av.(av_val).(c_val) x) vals l
  | TInlineTable kvs _, VInlineTable l =>
      rzip (fun tk x => replace_values tk.(tk_kv).(kv_val).(c_id) tk.(tk_kv).(kv_val).(c_val)
                          (snd x)) kvs l
  | _, VInteger s => Ok [(id, TInteger s)]
  | _, VFloat s => Ok [(id, TFloat s)]
  | _, VBoolean b => Ok [(id, TBoolean b)]
  | _, VDateTime d => Ok [(id, TDateTime d)]
  | _, VString s t => Ok [(id, TString s t)]
  | _, _ => Panic
  end.

(** ** Restructuring *)

(** /repo/src/internals/ast/structs.rs:643-645 *)
Definition av_default (c : cell) : array_value := ArrayValue c (Some {| ws1 := []; ws2 := lit " " |}) [].
(** /repo/src/internals/ast/structs.rs:646-648 *)
Definition av_last (c : cell) : array_value := ArrayValue c None [].
(** /repo/src/internals/ast/structs.rs:729-732 *)
Definition tkv_default (k : str) (c : cell) : table_keyval :=
  TableKeyVal (KeyVal k {| ws1 := lit " "; ws2 := lit " " |} c)
    (Some {| ws1 := []; ws2 := lit " " |}) [].
(** /repo/src/internals/ast/structs.rs:733-736 *)
Definition tkv_last (k : str) (c : cell) : table_keyval :=
  TableKeyVal (KeyVal k {| ws1 := lit " "; ws2 := lit " " |} c) None [].

(** the loop of convert_vector over the elements of an array,
    /repo/src/internals/parser.rs:190-206; [n] is the next cell identity *)
Definition conv_array (f : value -> N -> res (option tval * N))
  : list value -> N -> res (option (list array_value) * N) :=
  fix go (l : list value) (n : N) :=
    match l with
    | [] => Ok (Some [], n)
    | x :: l' =>
        let? (o, n) := f x n in
        match o with
        | None => Ok (None, n)
        | Some t =>
            let c := Cell n t in
            let? (r, n2) := go l' (n + 1) in
            Ok (match r with
                | None => None
                | Some vs => Some ((match l' with [] => av_last c | _ => av_default c end) :: vs)
                end, n2)
        end
    end.

(** the loop of convert_vector over the entries of an inline table,
    /repo/src/internals/parser.rs:213-225; `value_opt.unwrap()` panics *)
Definition conv_table (f : value -> N -> res (option tval * N))
  : list (str * value) -> N -> res (list table_keyval * N) :=
  fix go (l : list (str * value)) (n : N) :=
    match l with
    | [] => Ok ([], n)
    | x :: l' =>
        let? (o, n) := f (snd x) n in
        match o with
        | None => Panic
        | Some t =>
            let c := Cell n t in
            let? (r, n2) := go l' (n + 1) in
            Ok ((match l' with [] => tkv_last (fst x) c | _ => tkv_default (fst x) c end) :: r, n2)
        end
    end.

(** /repo/src/internals/parser.rs:184-258; threads the next cell identity *)
Fixpoint convert_vector (v : value) (n : N) : res (option tval * N) :=
  if negb (validate v) then Ok (None, n)
  else
    match v with
    | VArray l =>
        let? (o, n) := conv_array convert_vector l n in
        Ok (match o with Some vs => Some (TArray vs [] []) | None => None end, n)
    | VInlineTable l =>
        let? (kvs, n) := conv_table convert_vector l n in
        Ok (Some (TInlineTable kvs {| ws1 := lit " "; ws2 := lit " " |}), n)
    | VInteger s => Ok (Some (TInteger s), n)
    | VFloat s => Ok (Some (TFloat s), n)
    | VBoolean b => Ok (Some (TBoolean b), n)
    | VDateTime d => Ok (Some (TDateTime d), n)
    | VString s t => Ok (Some (TString s t), n)
    end.

(** `for x in l` with a panicking body appending to a vector *)
(* cites: loops of parser.rs:184-258 and parser.rs:346-369 *)
Definition rflat {A B} (f : A -> res (list B)) : list A -> res (list B) :=
  fix go (l : list A) : res (list B) :=
    match l with
    | [] => Ok []
    | x :: l' => let? a := f x in let? b := go l' in Ok (a ++ b)
    end.

(** /repo/src/internals/parser.rs:346-369; the recursion is on strictly longer
    keys of the map, bounded by the fuel *)
Fixpoint get_all_subkeys_ (fuel : nat) (m : vmap) (key : str) : res (list str) :=
  match fuel with
  | O => Fuel
  | S f =>
      match hget key m with
      | None => Ok []
      | Some hv =>
          rflat (fun sub => let? l := get_all_subkeys_ f m sub in Ok (sub :: l))
            (match hv.(hv_subkeys) with
             | Count n => map (fun i => key ++ idx_str i) (nrange n)
             | Keys l => map (fun k => key ++ lit "." ++ k) l
             end)
      end
  end.

(** the length of the longest key of the map (fuel of parser.rs:346-369) *)
Definition max_key_len (m : vmap) : nat := fold_right (fun kv n => Nat.max (length (fst kv)) n) O m.

(** /repo/src/internals/parser.rs:346-369 *)
Definition get_all_subkeys (m : vmap) (key : str) : res (list str) :=
  get_all_subkeys_ (S (S (max_key_len m))) m key.

(** `for i in 0..len` with the map as accumulator,
    /repo/src/internals/parser.rs:313-316, 333-336 *)
Definition rfold {A S} (f : N -> A -> S -> res S) : N -> list A -> S -> res S :=
  fix go (i : N) (l : list A) (s : S) : res S :=
    match l with
    | [] => Ok s
    | x :: l' => let? s := f i x s in go (i + 1) l' s
    end.

(** /repo/src/internals/parser.rs:300-344; [id] and [t] are the cell [val] *)
Fixpoint rebuild_vector (t : tval) (id : N) (key : str) (skip : bool) (m : vmap) {struct t}
  : res vmap :=
  match t with
  | TArray vals _ _ =>
      match hget key m with
      | None => Panic
      | Some hv =>
          let m := hput key (HashValue (if skip then hv.(hv_value) else Some (Cell id t))
                               (Count (nlen vals))) m in
          rfold (fun i av m => rebuild_vector av.(av_val).(c_val) av.(av_val).(c_id)
                                 (key ++ idx_str i) false m) 0 vals m
      end
  | TInlineTable kvs _ =>
      match hget key m with
      | None => Panic
      | Some hv =>
          let sub := match hv.(hv_subkeys) with
                     | Keys l => Keys (fold_left (fun l tk => fst (vinsert l tk.(tk_kv).(kv_key)))
                                         kvs l)
                     | Count n => Count n
                     end in
          let m := hput key (HashValue (if skip then hv.(hv_value) else Some (Cell id t)) sub) m in
          rfold (fun _ tk m => rebuild_vector tk.(tk_kv).(kv_val).(c_val) tk.(tk_kv).(kv_val).(c_id)
                                 (key ++ lit "." ++ tk.(tk_kv).(kv_key)) false m) 0 kvs m
      end
  | _ => Ok (if hmem key m then m else hput key (hv_new_count (Cell id t)) m)
  end.

(** /repo/src/internals/parser.rs:130-182 *)
Definition set_value (s : pst) (key : str) (v : value) : res (pst * bool) :=
  match hget key s.(p_map) with
  | None => Ok (s, false)
  | Some hv =>
      match hv.(hv_value) with
      | None => Ok (s, false)
      | Some c =>
          if same_structure c.(c_val) v then
            let? ws := replace_values c.(c_id) c.(c_val) v in
            Ok (fold_left write ws s, true)
          else
            let? ks := get_all_subkeys s.(p_map) key in
            let s := set_map (fold_left (fun m k => hremove k m) ks s.(p_map)) s in
            let? (o, n) := convert_vector v s.(p_next) in
            let s := set_next n s in
            match o with
            | None => Ok (s, false)
            | Some nv =>
                match nv with
                | TArray _ _ _ | TInlineTable _ _ =>
                    let? s := match hget key s.(p_map) with
                              | Some hv => match hv.(hv_value) with
                                           | Some c => Ok (write s (c.(c_id), nv))
                                           | None => Panic
                                           end
                              | None => Ok s
                              end in
                    let (s, c2) := new_cell s nv in
                    let? m := rebuild_vector c2.(c_val) c2.(c_id) key true s.(p_map) in
                    Ok (set_map m s, true)
                | _ => Panic
                end
            end
      end
  end.

(** /repo/src/types.rs:843-857; `Result` as option *)
Definition datetime_parse (s : str) : res (option value) :=
  let? (_, r) := date_time (new_parser true) s in
  Ok (match r with
      | Done [] o => checked (VDateTime o)
      | _ => None
      end).
