(** Specification of inputs whose table headers have one name. *)
From Verif Require Import Str Types Ast State Api Spec.

(** the text of a name in a header: a bare key or a quoted one *)
Definition name_text (k : str) : Prop := bare_key k \/ exists x, basic_body x /\ k = [34] ++ x ++ [34].

(** [b] is the rest of the input [i] from the start of a line on *)
Definition line_at (i b : str) : Prop := exists a, i = a ++ b /\ (a = [] \/ exists a', a = a' ++ [10]).

(** a line starting with a header whose first name is followed by a dot *)
Definition dotted (b : str) : Prop :=
  exists w h w1 k w2 y, b = w ++ h ++ w1 ++ k ++ w2 ++ lit "." ++ y /\ blanks w /\ (h = lit "[" \/ h = lit "[[") /\
    blanks w1 /\ name_text k /\ blanks w2.
(** a line starting with a header of an array of tables *)
Definition array_header (b : str) : Prop := exists w y, b = w ++ lit "[[" ++ y /\ blanks w.

(** no line starts a dotted header and, when arithmetic overflow is checked, no
    line starts a header of an array of tables *)
Definition one_name_headers (ovf : bool) (i : str) : Prop :=
  forall b, line_at i b -> ~ dotted b /\ (ovf = true -> ~ array_header b).

(** the last name of a parsed header *)
Definition last_name (t : table) : str := last (map wk_key t) [].

(** ** Line ends inside arrays and inline tables *)

(** text between the elements of an array or the entries of an inline table *)
Definition gap_text (g : comment_or_newlines) : str :=
  match g with
  | CNewLines n => n
  | CComment c => c.(cn_pre) ++ lit "#" ++ c.(cn_comment) ++ c.(cn_newlines)
  end.
Definition gaps_lines (l : list comment_or_newlines) : N := line_feeds (concat (map gap_text l)).
Definition total (l : list N) : N := fold_right N.add 0 l.

(** the line ends of a value that are between elements, not inside strings *)
Fixpoint layout_lines (v : tval) : N :=
  match v with
  | TArray vals n1 n2 =>
      gaps_lines n1 + total (map (fun a => layout_lines a.(av_val).(c_val) + gaps_lines a.(av_nls)) vals) + gaps_lines n2
  | TInlineTable kvs _ =>
      total (map (fun k => layout_lines k.(tk_kv).(kv_val).(c_val) + gaps_lines k.(tk_nls)) kvs)
  | _ => 0
  end.
Definition doc_layout_lines (d : toml) : N :=
  total (map (fun ne => match ne.(ne_expr).(e_keyval) with Some kv => layout_lines kv.(kv_val).(c_val) | None => 0 end) d).

(** the text starts with a key, an equals sign, and an array or inline table *)
Definition starts_nested (r : str) : Prop :=
  exists k w1 w2 c x, r = k ++ w1 ++ lit "=" ++ w2 ++ c :: x /\ name_text k /\ blanks w1 /\ blanks w2 /\ (c = 91 \/ c = 123).
(** three quotes in a row, as at the ends of multi-line strings *)
Definition tripled (i : str) : Prop := exists a b q, i = a ++ [q; q; q] ++ b /\ (q = 34 \/ q = 39).
(** the result says that parsing stopped on line [n] *)
Definition reports (r : parse_result) (n : N) : Prop :=
  (exists l, r = Partial l n) \/ (exists l e, r = PartialError l n e).
