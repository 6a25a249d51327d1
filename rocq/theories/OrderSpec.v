(** Specification of the line numbers of errors. *)
From Coq Require Import Sorting.Sorted.
From Verif Require Import Str Types Ast State Api Spec HeadSpec RoundTrip.

(** the line that an error names *)
Definition error_line (e : parse_error) : N :=
  match e with EMixedArray _ n | EDuplicateKey _ n _ | EInvalidTable _ n _ | EInvalidDateTime _ n _ => n end.
(** the errors that a result has *)
Definition listed (r : parse_result) : list parse_error :=
  match r with FullError l | PartialError _ _ l => l | _ => [] end.

(** the line ends of an expression, less those between the elements of arrays and
    the entries of inline tables, which are not counted *)
Definition counted (e : expression) : N :=
  line_feeds (ex_src e) - match e.(e_keyval) with Some kv => layout_lines kv.(kv_val).(c_val) | None => 0 end.
(** blanks and comments *)
Definition idle (e : expression) : Prop := e.(e_keyval) = None /\ e.(e_table) = None.

(** [es] are lines of errors, first of those of the first expression of [d], and so
    on: each is a line of its expression, if the line before [d] is [n] *)
Fixpoint placed (n : N) (d : toml) (es : list N) : Prop :=
  match d with
  | [] => es = []
  | x :: d =>
      let first := n + line_feeds x.(ne_nl) in
      let last := first + counted x.(ne_expr) in
      exists here later, es = here ++ later /\ Forall (fun m => first <= m <= last) here /\ (idle x.(ne_expr) -> here = []) /\
        placed last d later
  end.
(** the line where the expressions end *)
Fixpoint end_line (n : N) (d : toml) : N :=
  match d with [] => n | x :: d => end_line (n + line_feeds x.(ne_nl) + counted x.(ne_expr)) d end.

(** the same error, but for the entries of a table that could not be defined *)
Definition same_error (e e' : parse_error) : Prop :=
  e = e' \/ exists k n l l', e = EInvalidTable k n l /\ e' = EInvalidTable k n l'.
