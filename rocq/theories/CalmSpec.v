(** Specification of inputs whose dotted headers do not go through arrays. *)
From Verif Require Import Str Types Ast State Api Spec HeadSpec.

(** the text [n] is followed by an equals sign somewhere in the input *)
Definition given_key (i n : str) : Prop := exists a w b, i = a ++ n ++ w ++ lit "=" ++ b /\ blanks w.
(** the text [n] is followed by an equals sign and an opening bracket *)
Definition array_key (i n : str) : Prop :=
  exists a w w' b, i = a ++ n ++ w ++ lit "=" ++ w' ++ lit "[" ++ b /\ blanks w /\ blanks w'.

(** a further name of a header (a, b, n), written a.bn *)
Definition name_after (x : str * str * str) : str := fst (fst x) ++ lit "." ++ snd (fst x) ++ snd x.
(** the line starts with a header, opened by [h] and closed by [h'], of the names [n] and those of [more] *)
Definition opens_with (b h h' n : str) (more : list (str * str * str)) : Prop :=
  exists w w1 w2 y, b = w ++ h ++ w1 ++ n ++ concat (map name_after more) ++ w2 ++ h' ++ y /\
    blanks w /\ blanks w1 /\ blanks w2 /\ name_text n /\
    Forall (fun x => blanks (fst (fst x)) /\ blanks (snd (fst x)) /\ name_text (snd x)) more.
(** some line starts with a header of the array of tables [n] *)
Definition array_name (i n : str) : Prop := exists b, line_at i b /\ opens_with b (lit "[[") (lit "]]") n [].

(** Headers of arrays of tables have one name; with overflow checks that name is
    the name of no key.  The names of a table header before its last one are not
    names of arrays of tables nor of keys of arrays. *)
Definition calm_headers (ovf : bool) (i : str) : Prop := forall b n more, line_at i b ->
  (opens_with b (lit "[[") (lit "]]") n more -> more = [] /\ (ovf = true -> ~ given_key i n)) /\
  (opens_with b (lit "[") (lit "]") n more -> forall x, In x (removelast (n :: map snd more)) ->
     ~ array_key i x /\ ~ array_name i x).
