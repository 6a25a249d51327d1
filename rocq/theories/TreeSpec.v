(** Specification of documents with arrays of tables inside arrays of tables. *)
From Verif Require Import Str Types Spec DocSpec DotSpec.

(** ** Lines *)
Inductive tline :=
(** a blank line, a key/value line or a table header *)
| TPlain (d : hline)
(** a header of an array of tables, [w0 [[ w1 name more w2 ]] w3 #comment] *)
| TArr (w0 w1 name : str) (more : list (str * str * str)) (w2 w3 : str) (c : option str).

Definition tline_text (d : tline) : str :=
  match d with
  | TPlain d => hline_text d
  | TArr w0 w1 name more w2 w3 c =>
      w0 ++ lit "[[" ++ w1 ++ name ++ concat (map more_text more) ++ w2 ++ lit "]]" ++ w3 ++ com_text c
  end.
Definition tline_ok (d : tline) : Prop :=
  match d with
  | TPlain d => hline_ok d
  | TArr w0 w1 name more w2 w3 c =>
      blanks w0 /\ blanks w1 /\ key_name name /\
      Forall (fun x => blanks (fst (fst x)) /\ blanks (snd (fst x)) /\ key_name (snd x)) more /\
      blanks w2 /\ blanks w3 /\ com_ok c
  end.
(** lines, each with the line end before it; the first one has none *)
Definition tdoc_text (l : list (str * tline)) : str := concat (map (fun x => fst x ++ tline_text (snd x)) l).
Definition tdoc_ok (l : list (str * tline)) : Prop :=
  match l with
  | [] => False
  | (nl, d) :: l' => nl = [] /\ tline_ok d /\ Forall (fun x => line_end (fst x) /\ tline_ok (snd x)) l'
  end.

(** ** Places *)
(** where something is in the document; [] is the top *)
Definition place := list pstep.
Definition place_text (p : place) : str :=
  match p with PKey n :: r => n ++ path_text r | _ => [] end.
Definition step_dec : forall a b : pstep, {a = b} + {a <> b}.
Proof. decide equality; auto using N.eq_dec, (list_eq_dec N.eq_dec). Defined.
Definition place_dec : forall a b : place, {a = b} + {a <> b} := list_eq_dec step_dec.
Definition name_dec : forall a b : place * str, {a = b} + {a <> b}.
Proof. decide equality; auto using place_dec, (list_eq_dec N.eq_dec). Defined.

(** ** What a document says *)
Record view := View {
  (** key/value lines: the place of the table, the key, the value *)
  w_entries : list (place * str * value);
  (** the names in each table: keys, tables and arrays of tables *)
  w_names : list (place * str);
  (** the tables *)
  w_tables : list place;
  (** the elements of arrays of tables: the place of the array, and the index *)
  w_elems : list (place * N);
  (** the table that the next key/value line belongs to *)
  w_cur : place }.

(** number of elements of an array of tables *)
Definition elem_count (a : place) (es : list (place * N)) : N :=
  N.of_nat (length (filter (fun x => if place_dec (fst x) a then true else false) es)).
(** the names in a table, in order *)
Definition names_at (p : place) (ns : list (place * str)) : list str :=
  map snd (filter (fun x => if place_dec (fst x) p then true else false) ns).

(** the place that names lead to: the table of that name, or the last element of
    the array of tables of that name *)
Fixpoint resolve (v : view) (p : place) (names : list str) : option place :=
  match names with
  | [] => Some p
  | n :: names' =>
      let q := p ++ [PKey n] in
      if in_dec place_dec q v.(w_tables) then resolve v q names'
      else if elem_count q v.(w_elems) =? 0 then None
      else resolve v (q ++ [PIdx (elem_count q v.(w_elems) - 1)]) names'
  end.

(** what one more line says; None for a line that is not allowed there: a name
    that is given already, a header inside something that is not there *)
Definition add_line (v : view) (d : tline) : option view :=
  match d with
  | TPlain (HBlank _ _) => Some v
  | TPlain (HPair _ k _ _ x _ _ _) =>
      if in_dec name_dec (v.(w_cur), k) v.(w_names) then None
      else Some (View (v.(w_entries) ++ [(v.(w_cur), k, x)]) (v.(w_names) ++ [(v.(w_cur), k)])
                      v.(w_tables) v.(w_elems) v.(w_cur))
  | TPlain (HHead _ _ n m _ _ _) =>
      let names := head_path n m in
      match resolve v [] (removelast names) with
      | None => None
      | Some p =>
          let t := last names [] in
          if in_dec name_dec (p, t) v.(w_names) then None
          else Some (View v.(w_entries) (v.(w_names) ++ [(p, t)])
                          (v.(w_tables) ++ [p ++ [PKey t]]) v.(w_elems) (p ++ [PKey t]))
      end
  | TArr _ _ n m _ _ _ =>
      let names := head_path n m in
      match resolve v [] (removelast names) with
      | None => None
      | Some p =>
          let a := p ++ [PKey (last names [])] in
          let i := elem_count a v.(w_elems) in
          if 0 <? i then
            Some (View v.(w_entries) v.(w_names) v.(w_tables) (v.(w_elems) ++ [(a, i)]) (a ++ [PIdx i]))
          else if in_dec name_dec (p, last names []) v.(w_names) then None
          else Some (View v.(w_entries) (v.(w_names) ++ [(p, last names [])])
                          v.(w_tables) (v.(w_elems) ++ [(a, 0)]) (a ++ [PIdx 0]))
      end
  end.
Definition no_lines : view := View [] [] [] [] [].
Definition add_lines_view (v : option view) (d : tline) : option view :=
  match v with Some v => add_line v d | None => None end.
(** what the lines say *)
Definition says (l : list tline) : option view := fold_left add_lines_view l (Some no_lines).

(** ** Restrictions without which the code goes wrong *)
(** the arrays of tables that are open after the lines: the names of the last
    header, without the last one if it is a table header *)
Fixpoint opened_arrays (o : list str) (l : list tline) : list str :=
  match l with
  | [] => o
  | TArr _ _ n m _ _ _ :: l' => opened_arrays (head_path n m) l'
  | TPlain (HHead _ _ n m _ _ _) :: l' => opened_arrays (removelast (head_path n m)) l'
  | _ :: l' => opened_arrays o l'
  end.
(** the names of the headers of arrays of tables at the top *)
Definition top_arrays (l : list tline) : list str :=
  flat_map (fun d => match d with TArr _ _ n [] _ _ _ => [n] | _ => [] end) l.
(** Whether the array open at the top is one that a header came back to when it had
    two elements or more already; [seen] are the top arrays so far, [o] the open ones. *)
Fixpoint strayed (seen o : list str) (r : bool) (l : list tline) : bool :=
  match l with
  | [] => r
  | TArr _ _ n [] _ _ _ :: l' =>
      strayed (seen ++ [n]) [n]
        (if str_eqb (hd [] o) n then r else 2 <=? times n seen) l'
  | TArr _ _ n m _ _ _ :: l' => strayed seen (head_path n m) r l'
  | TPlain (HHead _ _ n m _ _ _) :: l' =>
      strayed seen (removelast (head_path n m)) (match m with [] => false | _ => r end) l'
  | _ :: l' => strayed seen o r l'
  end.
(** A header of an array of tables opens
    - another element of an open array of tables,
    - a new array in the last element of all the open ones,
    - a new array at the top whose name does not start with that of the open one there, or
    - another element of an array at the top that is not open while another one
      is, under the same condition on the names.
    A table header opens a table at the top or in the current element of an
    open array; its last name does not start with that of the open array there,
    unless that is the last open array and there is no table header after it.
    When [strayed], only new arrays are opened below the elements of the array at the
    top, and tables in these elements. *)
Definition in_element (v : view) : Prop := exists a i, v.(w_cur) = a ++ [PIdx i].
Definition at_edge (v : view) (o : list str) (r : bool) (d : tline) : Prop :=
  match d with
  | TArr _ _ n m _ _ _ =>
      let h := head_path n m in
      ((exists x, o = h ++ x) /\ (r = true -> m = [])) \/
      (exists t p, h = o ++ [t] /\ resolve v [] o = Some p /\ ~ In (p, t) v.(w_names)) \/
      (m = [] /\ ~ In ([], n) v.(w_names) /\ forall f x r, o = f :: x -> n <> f ++ r) \/
      (m = [] /\ 0 < elem_count [PKey n] v.(w_elems) /\ o <> [] /\ forall f x r, o = f :: x -> n <> f ++ r)
  | TPlain (HHead _ _ n m _ _ _) =>
      (exists x, o = removelast (head_path n m) ++ x /\
        forall f y r, x = f :: y -> y = [] /\ in_element v \/ last (head_path n m) [] <> f ++ r) /\
      (r = true -> (length m <= 1)%nat)
  | _ => True
  end.
Definition along_edge (l : list tline) : Prop :=
  forall l1 d l2 v, l = l1 ++ d :: l2 -> says l1 = Some v -> at_edge v (opened_arrays [] l1) (strayed [] [] false l1) d.

(** What the code lists at the top: the keys and the arrays of tables there, and
    the last name of every table header, also of those for tables elsewhere. *)
Fixpoint listed (top : bool) (l : list tline) : list str :=
  match l with
  | [] => []
  | TPlain (HPair _ k _ _ _ _ _ _) :: l' => (if top then [k] else []) ++ listed top l'
  | TPlain (HHead _ _ n m _ _ _) :: l' => last (head_path n m) [] :: listed false l'
  | TArr _ _ n m _ _ _ :: l' => (match m with [] => [n] | _ => [] end) ++ listed false l'
  | TPlain (HBlank _ _) :: l' => listed top l'
  end.
(** no table header with more than one name *)
Definition short_heads (l : list tline) : Prop :=
  forall w0 w1 n m w2 w3 c, In (TPlain (HHead w0 w1 n m w2 w3 c)) l -> m = [].
