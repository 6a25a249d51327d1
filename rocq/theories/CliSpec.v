(** Vocabulary for the properties of the command line tool. *)
From Verif Require Import Str Types Ast State Api Spec ApiSpec Cli.

(** texts with a separator between them *)
Fixpoint separated (sep : str) (l : list str) : str :=
  match l with
  | [] => []
  | x :: l' => match l' with [] => x | _ => x ++ sep ++ separated sep l' end
  end.

(** how a value is printed *)
Fixpoint value_text (v : value) : str :=
  match v with
  | VArray l => lit "[" ++ separated (lit ", ") (map value_text l) ++ lit "]"
  | VInlineTable l =>
      lit "{" ++ separated (lit ", ") (map (fun kv => fst kv ++ lit " = " ++ value_text (snd kv)) l) ++ lit "}"
  | _ => spelling v
  end.

(** [u] is [t] without the quotes at its ends *)
Definition quote (c : N) : Prop := c = 39 \/ c = 34.
Definition unquoted (t u : str) : Prop :=
  exists a b, t = a ++ u ++ b /\ Forall quote a /\ Forall quote b /\
    (forall c u', u = c :: u' -> ~ quote c) /\ (forall c u', u = u' ++ [c] -> ~ quote c).
Definition printed (strip : bool) (v : value) (t : str) : Prop :=
  if strip then unquoted (value_text v) t else t = value_text v.

(** the option that separates results; the other options *)
Definition separator (g : flags) : str := match g.(g_sep) with Some t => t | None => lit ", " end.
Definition labels (x : ext) (o : option str) (default : str) : option (list str) :=
  x.(x_split) (match o with Some t => t | None => default end).
Definition or_else (o : option str) (default : str) : str := match o with Some t => t | None => default end.

(** an error message about the file [path] *)
Definition complaint (path msg : str) : str := lit "Error " ++ [34] ++ path ++ [34] ++ lit ": " ++ msg ++ [10].
Definition quoted (t : str) : str := [34] ++ t ++ [34].

(** invocations *)
Definition no_commands : commands :=
  {| m_get := None; m_has := None; m_children := None; m_any := None; m_set := None; m_out := None |}.
Definition get_values (keys : str) : commands :=
  {| m_get := Some keys; m_has := None; m_children := None; m_any := None; m_set := None; m_out := None |}.
Definition get_childs (keys : str) : commands :=
  {| m_get := None; m_has := None; m_children := Some keys; m_any := None; m_set := None; m_out := None |}.
Definition ask (values children : option str) : commands :=
  {| m_get := None; m_has := values; m_children := None; m_any := children; m_set := None; m_out := None |}.
Definition set_values (triples : str) (out : option str) : commands :=
  {| m_get := None; m_has := None; m_children := None; m_any := None; m_set := Some triples; m_out := out |}.

(** the label for the answer number [i]: the only one, or the one at that place *)
Definition label (l : list str) (i : nat) : option str :=
  match l with [x] => Some x | _ => nth_error l i end.
(** the labels of the answers [bs], starting with number [i] *)
Inductive labelled (tl fl : list str) : nat -> list bool -> list str -> Prop :=
| La_nil : forall i, labelled tl fl i [] []
| La_cons : forall i b bs t f ts, label tl i = Some t -> label fl i = Some f -> labelled tl fl (S i) bs ts ->
    labelled tl fl i (b :: bs) ((if b then t else f) :: ts).
(** the keys of a command that may be missing *)
Definition asked (x : ext) (o : option str) (keys : list str) : Prop :=
  match o with Some csv => x.(x_split) csv = Some keys /\ keys <> [] | None => keys = [] end.
(** whether a key has a value; whether it has children *)
Definition has_a_value (s : pst) (k : str) (b : bool) : Prop :=
  if b then exists v, get_value s k = Ok (Some v) else get_value s k = Ok None.
Definition has_kids (s : pst) (k : str) (b : bool) : Prop :=
  if b then exists c, get_children s k = Some c /\ c <> Count 0 /\ c <> Keys []
  else get_children s k = None \/ get_children s k = Some (Count 0) \/ get_children s k = Some (Keys []).
(** one label for all answers, or one for each of the [n] answers *)
Definition enough (l : list str) (n : nat) : Prop := length l = 1%nat \/ (n <= length l)%nat.

(** how the children of a key are printed *)
Inductive listed (g : flags) : children -> str -> Prop :=
| Li_keys : forall l, g.(g_len) = false ->
    listed g (Keys l) (or_else g.(g_start) (lit "[") ++ separated (or_else g.(g_arr_sep) (lit ", ")) l ++ or_else g.(g_end) (lit "]"))
| Li_len : forall l, g.(g_len) = true ->
    listed g (Keys l) (dec (N.of_nat (length l)) ++ or_else g.(g_arr_sep) (lit ", ") ++ separated (or_else g.(g_arr_sep) (lit ", ")) l)
| Li_count : forall n, n <> 0 -> listed g (Count n) (dec n).

(** the types of the command set-value *)
Inductive vtype := TyBasic | TyMlBasic | TyLiteral | TyMlLiteral | TyInt | TyFloat | TyBool | TyDate.
Definition type_names (t : vtype) : list str :=
  match t with
  | TyBasic => [lit "basic-string"; lit "bs"]
  | TyMlBasic => [lit "ml-basic-string"; lit "mbs"]
  | TyLiteral => [lit "literal-string"; lit "ls"]
  | TyMlLiteral => [lit "ml-literal-string"; lit "mls"]
  | TyInt => [lit "integer"; lit "int"]
  | TyFloat => [lit "float"; lit "flt"]
  | TyBool => [lit "boolean"; lit "bool"]
  | TyDate => [lit "datetime"; lit "dt"]
  end.
(** the date-time without an offset Z *)
Definition without_z (d : datetime) : datetime :=
  match d.(dt_time) with
  | Some t => match t.(t_offset) with
              | Some Zulu => {| dt_date := d.(dt_date);
                                dt_time := Some {| t_hour := t.(t_hour); t_minute := t.(t_minute); t_second := t.(t_second);
                                                   t_fraction := t.(t_fraction); t_offset := None |} |}
              | _ => d
              end
  | None => d
  end.
(** the value of a text of a type *)
Definition value_of (t : vtype) (s : str) (v : value) : Prop :=
  match t with
  | TyBasic => basic_string s = Some v
  | TyMlBasic => ml_basic_string s = Some v
  | TyLiteral => literal_string s = Some v
  | TyMlLiteral => ml_literal_string s = Some v
  | TyInt => int_from_str s = Some v
  | TyFloat => float_from_str s = Some v
  | TyBool => bool_from_str s = Some v
  | TyDate => exists d, datetime_parse s = Ok (Some (VDateTime d)) /\ v = VDateTime (without_z d)
  end.
Definition typed (name s : str) (v : value) : Prop := exists t, In name (type_names t) /\ value_of t s v.
(** the value of the type that has the text [s] *)
Definition has_text (t : vtype) (s : str) (v : value) : Prop :=
  match t with
  | TyBasic => v = VString s SBasic
  | TyMlBasic => v = VString s SMLBasic
  | TyLiteral => v = VString s SLiteral
  | TyMlLiteral => v = VString s SMLLiteral
  | TyInt => v = VInteger s
  | TyFloat => v = VFloat s
  | TyBool => exists b : bool, same_letters s (if b then lit "true" else lit "false") /\ v = VBoolean b
  | TyDate => exists d, v = VDateTime d /\ spelling v = s
  end.

(** the effect of setting keys one after the other; fields are key, text, type *)
Inductive updates : pst -> list str -> pst -> Prop :=
| Up_nil : forall s, updates s [] s
| Up_cons : forall s k val typ v s1 l s', typed typ val v -> set_value s k v = Ok (s1, true) -> updates s1 l s' ->
    updates s (k :: val :: typ :: l) s'.
(** why setting one key fails, with the message *)
Inductive rejects (s : pst) (k val typ : str) : str -> Prop :=
| Re_type : (forall t, ~ In typ (type_names t)) ->
    rejects s k val typ (lit "Type " ++ quoted typ ++ lit " not recognized for key: " ++ quoted k)
| Re_value : forall t, In typ (type_names t) -> (forall v, ~ value_of t val v) ->
    rejects s k val typ (lit "Unable to parse value: " ++ quoted val ++ lit " as type: " ++ quoted typ ++
                         lit " for key: " ++ quoted k)
| Re_refused : forall v s1, typed typ val v -> set_value s k v = Ok (s1, false) ->
    rejects s k val typ (lit "Could not set value of key: " ++ quoted k ++ lit " to value: " ++ quoted val ++
                         lit ", with type " ++ quoted typ).

(** what a run writes *)
Definition wrote (r : outcome) : option (str * str) :=
  match r with Finished _ f | Crash f => f | _ => None end.
