(** Vocabulary for the properties of set_value and get_value. *)
From Verif Require Import Str Types Ast State Api Spec RoundTrip IdFacts.

(** not an array or inline table *)
Definition scalar_value (v : value) : Prop :=
  match v with VArray _ | VInlineTable _ => False | _ => True end.

(** how a scalar is written *)
Definition spelling (v : value) : str :=
  match v with
  | VInteger s | VFloat s => s
  | VBoolean true => lit "true"
  | VBoolean false => lit "false"
  | VDateTime d => datetime_src d
  | VString s SBasic => [34] ++ s ++ [34]
  | VString s SLiteral => [39] ++ s ++ [39]
  | VString s SMLBasic => [34;34;34] ++ s ++ [34;34;34]
  | VString s SMLLiteral => [39;39;39] ++ s ++ [39;39;39]
  | VArray _ | VInlineTable _ => []
  end.

(** the scalars inside a value, from left to right *)
Fixpoint leaves (v : value) : list value :=
  match v with
  | VArray l => flat_map leaves l
  | VInlineTable l => flat_map (fun kv => leaves (snd kv)) l
  | _ => [v]
  end.

(** same lengths, same keys in the same order, scalars in the same places *)
Inductive same_shape : value -> value -> Prop :=
| SS_scalar : forall a b, scalar_value a -> scalar_value b -> same_shape a b
| SS_array : forall l l', Forall2 same_shape l l' -> same_shape (VArray l) (VArray l')
| SS_table : forall l l', Forall2 (fun x y => fst x = fst y /\ same_shape (snd x) (snd y)) l l' ->
    same_shape (VInlineTable l) (VInlineTable l').

(** every scalar inside is accepted by Value::validate *)
Definition all_valid (v : value) : Prop := forall x, In x (leaves v) -> validate x = true.

(** f0 x0 f1 x1 ... fn *)
Fixpoint weave (fs xs : list str) : str :=
  match fs, xs with
  | f :: fs', x :: xs' => f ++ x ++ weave fs' xs'
  | f :: _, [] => f
  | [], _ => []
  end.

(** [located c d pre post]: the cell [c] is at a place in the document [d] with
    the text [pre] before it and [post] after it *)
Inductive located_in (c : cell) : cell -> str -> str -> Prop :=
| Lo_here : located_in c c [] []
| Lo_arr : forall i l1 l2 x sp nls n1 n2 pre post, located_in c x pre post ->
    located_in c (Cell i (TArray (l1 ++ ArrayValue x sp nls :: l2) n1 n2))
      (lit "[" ++ show_cons n1 ++ concat (map av_src l1) ++ pre)
      (post ++ show_sep sp ++ show_cons nls ++ concat (map av_src l2) ++ show_cons n2 ++ lit "]")
| Lo_inl : forall i l1 l2 k ks x sp nls w pre post, located_in c x pre post ->
    located_in c (Cell i (TInlineTable (l1 ++ TableKeyVal (KeyVal k ks x) sp nls :: l2) w))
      (lit "{" ++ w.(ws1) ++ concat (map tk_src l1) ++ k ++ ks.(ws1) ++ lit "=" ++ ks.(ws2) ++ pre)
      (post ++ show_sep sp ++ show_cons nls ++ concat (map tk_src l2) ++ w.(ws2) ++ lit "}").
Inductive located (c : cell) : toml -> str -> str -> Prop :=
| Lo_doc : forall d1 d2 nl w k ks x tb cm pre post, located_in c x pre post ->
    located c (d1 ++ {| ne_nl := nl; ne_expr := {| e_ws := w; e_keyval := Some (KeyVal k ks x); e_table := tb;
                                                   e_comment := cm |} |} :: d2)
      (toml_src d1 ++ nl ++ ws1 w ++ k ++ ws1 ks ++ lit "=" ++ ws2 ks ++ pre)
      (post ++ (match tb with Some t => show_table_type t | None => [] end) ++ ws2 w ++ com_src cm ++ toml_src d2).

(** the value that the parser keeps for [key] is shared with the document, with
    the text [pre] before it and [post] after it *)
Definition key_at (s : pst) (key : str) (pre post : str) : Prop :=
  exists c, valof s.(p_map) key = Some c /\ located c s.(p_root) pre post.

(** texts separated by a comma and a space *)
Fixpoint comma_list (l : list str) : str :=
  match l with
  | [] => []
  | [x] => x
  | x :: l' => x ++ lit ", " ++ comma_list l'
  end.

(** only valid scalars *)
Definition flat (l : list value) : Prop := forall x, In x l -> scalar_value x /\ validate x = true.
Definition flat2 (l : list (str * value)) : Prop := forall x, In x l -> scalar_value (snd x) /\ validate (snd x) = true.

(** [k] continues [key] with a dot or an opening bracket *)
Definition below (key k : str) : Prop := exists c r, k = key ++ c :: r /\ (c = 46 \/ c = 91).

(** nothing changed at keys other than [key] and the keys below it: same
    children, and scalars and absent values stay *)
Definition other_same (key : str) (s s' : pst) : Prop := forall k, k <> key -> ~ below key k ->
  get_children s' k = get_children s k /\
  ((get_value s k = Ok None \/ exists w, get_value s k = Ok (Some w) /\ scalar_value w) -> get_value s' k = get_value s k).
