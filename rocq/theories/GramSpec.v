(** The language that the parser accepts: an upper bound.  Differences from TOML:
    commas between elements may be missing, inline tables may contain line ends
    and comments, any capital letter counts as a hexadecimal digit. *)
From Verif Require Import Str Regex Types Ast Spec DocSpec.

(** no decimal digits of other scripts; [nd_ranges] is the table of the Unicode
    class Nd, see DESIGN.md *)
Definition own_digits (s : str) : Prop :=
  Forall (fun c => (exists a b, In (a, b) nd_ranges /\ a <= c <= b) -> digit c) s.

Inductive gkey : str -> Prop :=
| Kt_bare : forall k, bare_key k -> gkey k
| Kt_quoted : forall b, basic_body b -> b <> [] -> gkey ([34] ++ b ++ [34]).

(** blanks, line ends and comments inside arrays and inline tables *)
Inductive gap_item : comment_or_newlines -> str -> Prop :=
| Gi_ws : forall w, blank_lines w -> gap_item (CNewLines w) w
| Gi_com : forall w c nl v, blank_lines w -> comment_text c -> line_end nl -> blank_lines v ->
    gap_item (CComment {| cn_pre := w; cn_comment := c; cn_newlines := nl ++ v |}) (w ++ lit "#" ++ c ++ nl ++ v).
Inductive gaps : list comment_or_newlines -> str -> Prop :=
| Gp_one : forall x t, gap_item x t -> gaps [x] t
| Gp_cons : forall x t l u, gap_item x t -> gaps l u -> gaps (x :: l) (t ++ u).

(** a comma, or none *)
Inductive comma : option wssep -> str -> Prop :=
| Cm_none : comma None []
| Cm_some : forall w1 w2, blanks w1 -> blanks w2 -> comma (Some {| ws1 := w1; ws2 := w2 |}) (w1 ++ lit "," ++ w2).

(** [gval v t]: the text [t] has the tree [v] *)
Inductive gval : tval -> str -> Prop :=
| Gv_int : forall t, toml_int t -> gval (TInteger t) t
| Gv_float : forall t, toml_float t -> gval (TFloat t) t
| Gv_true : gval (TBoolean true) (lit "true")
| Gv_false : gval (TBoolean false) (lit "false")
| Gv_date : forall d, datetime_digits d -> gval (TDateTime d) (datetime_src d)
| Gv_basic : forall b, basic_body b -> gval (TString b SBasic) ([34] ++ b ++ [34])
| Gv_literal : forall b, literal_body b -> gval (TString b SLiteral) ([39] ++ b ++ [39])
| Gv_ml_basic : forall b, ml_basic_body b -> gval (TString b SMLBasic) ([34;34;34] ++ b ++ [34;34;34])
| Gv_ml_literal : forall b, ml_literal_body b -> gval (TString b SMLLiteral) ([39;39;39] ++ b ++ [39;39;39])
| Gv_array : forall n1 t1 vals t n2 t2, gaps n1 t1 -> gelems vals t -> gaps n2 t2 ->
    gval (TArray vals n1 n2) (lit "[" ++ t1 ++ t ++ t2 ++ lit "]")
| Gv_inline : forall kvs w1 t w2, blanks w1 -> gfields kvs t -> blanks w2 ->
    gval (TInlineTable kvs {| ws1 := w1; ws2 := w2 |}) (lit "{" ++ w1 ++ t ++ w2 ++ lit "}")
with gelems : list array_value -> str -> Prop :=
| Ge_nil : gelems [] []
| Ge_cons : forall id v t sep u nls g l r, gval v t -> comma sep u -> gaps nls g -> gelems l r ->
    gelems (ArrayValue (Cell id v) sep nls :: l) (t ++ u ++ g ++ r)
with gfields : list table_keyval -> str -> Prop :=
| Gf_nil : gfields [] []
| Gf_cons : forall k w1 w2 id v t sep u nls g l r, gkey k -> blanks w1 -> blanks w2 -> gval v t -> comma sep u -> gaps nls g ->
    gfields l r ->
    gfields (TableKeyVal (KeyVal k {| ws1 := w1; ws2 := w2 |} (Cell id v)) sep nls :: l)
            (k ++ w1 ++ lit "=" ++ w2 ++ t ++ u ++ g ++ r).

(** the names of a header after the first one *)
Inductive gnames : list wskey -> str -> Prop :=
| Gn_nil : gnames [] []
| Gn_cons : forall w1 w2 k l r, blanks w1 -> blanks w2 -> gkey k -> gnames l r ->
    gnames ({| wk_ws := {| ws1 := w1; ws2 := w2 |}; wk_key := k |} :: l) (w1 ++ lit "." ++ w2 ++ k ++ r).
Inductive ghead : table_type -> str -> Prop :=
| Gh_std : forall w1 w2 k l r, blanks w1 -> gkey k -> gnames l r -> blanks w2 ->
    ghead (TStandard ({| wk_ws := {| ws1 := w1; ws2 := w2 |}; wk_key := k |} :: l)) (lit "[" ++ w1 ++ k ++ r ++ w2 ++ lit "]")
| Gh_arr : forall w1 w2 k l r, blanks w1 -> gkey k -> gnames l r -> blanks w2 ->
    ghead (TArrayOf ({| wk_ws := {| ws1 := w1; ws2 := w2 |}; wk_key := k |} :: l)) (lit "[[" ++ w1 ++ k ++ r ++ w2 ++ lit "]]").

(** lines *)
Inductive gline : expression -> str -> Prop :=
| Gl_blank : forall w c, blanks w -> com_ok c ->
    gline {| e_ws := {| ws1 := w; ws2 := [] |}; e_keyval := None; e_table := None; e_comment := c |} (w ++ com_text c)
| Gl_pair : forall w0 k w1 w2 id v t w3 c, blanks w0 -> gkey k -> blanks w1 -> blanks w2 -> gval v t -> blanks w3 -> com_ok c ->
    gline {| e_ws := {| ws1 := w0; ws2 := w3 |}; e_keyval := Some (KeyVal k {| ws1 := w1; ws2 := w2 |} (Cell id v));
             e_table := None; e_comment := c |}
          (w0 ++ k ++ w1 ++ lit "=" ++ w2 ++ t ++ w3 ++ com_text c)
| Gl_head : forall w0 h t w3 c, blanks w0 -> ghead h t -> blanks w3 -> com_ok c ->
    gline {| e_ws := {| ws1 := w0; ws2 := w3 |}; e_keyval := None; e_table := Some h; e_comment := c |} (w0 ++ t ++ w3 ++ com_text c).
Inductive glines : toml -> str -> Prop :=
| Gs_nil : glines [] []
| Gs_cons : forall nl e t l r, line_end nl -> gline e t -> glines l r ->
    glines ({| ne_nl := nl; ne_expr := e |} :: l) (nl ++ t ++ r).
(** documents *)
Inductive gdoc : toml -> str -> Prop :=
| Gd : forall e t l r, gline e t -> glines l r -> gdoc ({| ne_nl := []; ne_expr := e |} :: l) (t ++ r).
