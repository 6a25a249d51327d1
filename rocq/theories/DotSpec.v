(** Specification of documents whose table headers have dotted names. *)
From Verif Require Import Str Types Spec DocSpec.

(** names joined by dots *)
Fixpoint dotted_name (p : list str) : str :=
  match p with
  | [] => []
  | [n] => n
  | n :: p' => n ++ lit "." ++ dotted_name p'
  end.

Inductive hline :=
| HBlank (w : str) (c : option str)
(** [w0 key w1 = w2 text w3 #comment] *)
| HPair (w0 key w1 w2 : str) (v : value) (t w3 : str) (c : option str)
(** a header [[ w1 name more w2 ]]; an element (a, b, n) of [more] is written a.bn *)
| HHead (w0 w1 name : str) (more : list (str * str * str)) (w2 w3 : str) (c : option str).

Definition more_text (x : str * str * str) : str := fst (fst x) ++ lit "." ++ snd (fst x) ++ snd x.
Definition hline_text (d : hline) : str :=
  match d with
  | HBlank w c => w ++ com_text c
  | HPair w0 key w1 w2 _ t w3 c => w0 ++ key ++ w1 ++ lit "=" ++ w2 ++ t ++ w3 ++ com_text c
  | HHead w0 w1 name more w2 w3 c =>
      w0 ++ lit "[" ++ w1 ++ name ++ concat (map more_text more) ++ w2 ++ lit "]" ++ w3 ++ com_text c
  end.
Definition hline_ok (d : hline) : Prop :=
  match d with
  | HBlank w c => blanks w /\ com_ok c
  | HPair w0 key w1 w2 v t w3 c =>
      blanks w0 /\ key_name key /\ blanks w1 /\ blanks w2 /\ spells v t /\ blanks w3 /\ com_ok c
  | HHead w0 w1 name more w2 w3 c =>
      blanks w0 /\ blanks w1 /\ key_name name /\
      Forall (fun x => blanks (fst (fst x)) /\ blanks (snd (fst x)) /\ key_name (snd x)) more /\
      blanks w2 /\ blanks w3 /\ com_ok c
  end.

(** lines, each with the line end before it; the first one has none *)
Definition hdoc_text (l : list (str * hline)) : str := concat (map (fun x => fst x ++ hline_text (snd x)) l).
Definition hdoc_ok (l : list (str * hline)) : Prop :=
  match l with
  | [] => False
  | (nl, d) :: l' => nl = [] /\ hline_ok d /\ Forall (fun x => line_end (fst x) /\ hline_ok (snd x)) l'
  end.

(** the names of a header *)
Definition head_path (name : str) (more : list (str * str * str)) : list str := name :: map snd more.
(** the headers of a document *)
Fixpoint heads (l : list hline) : list (list str) :=
  match l with
  | [] => []
  | HHead _ _ n m _ _ _ :: l' => head_path n m :: heads l'
  | _ :: l' => heads l'
  end.
(** the key/value lines, each with the path of its table; [p] is the table of the first one *)
Fixpoint entries_from (p : list str) (l : list hline) : list (list str * str * value) :=
  match l with
  | [] => []
  | HPair _ k _ _ v _ _ _ :: l' => (p, k, v) :: entries_from p l'
  | HHead _ _ n m _ _ _ :: l' => entries_from (head_path n m) l'
  | HBlank _ _ :: l' => entries_from p l'
  end.
Definition entries (l : list hline) : list (list str * str * value) := entries_from [] l.

(** the name that comes after the path [q] in the path [p] *)
Fixpoint next_name (q p : list str) : option str :=
  match q, p with
  | [], n :: _ => Some n
  | a :: q', b :: p' => if same_key a b then next_name q' p' else None
  | _, _ => None
  end.
(** the names that the lines give to the table [q]: its keys, and the next
    names of headers that pass through it *)
Fixpoint named_in (q p : list str) (l : list hline) : list str :=
  match l with
  | [] => []
  | HPair _ k _ _ _ _ _ _ :: l' => (if list_eq_dec (list_eq_dec N.eq_dec) p q then [k] else []) ++ named_in q p l'
  | HHead _ _ n m _ _ _ :: l' =>
      (match next_name q (head_path n m) with Some x => [x] | None => [] end) ++ named_in q (head_path n m) l'
  | HBlank _ _ :: l' => named_in q p l'
  end.
(** the names in a table, each once, in order of first appearance *)
Definition table_keys (q : list str) (l : list hline) : list str := first_keys [] (named_in q [] l).

(** a table that has a header, or is a part of the path of one *)
Definition table_of (l : list hline) (q : list str) : Prop := exists x, In (q ++ x) (heads l).

(** every key is given once in its table, every table has one header, and no
    key is also a name in a header *)
Record hdistinct (l : list hline) : Prop := {
  hd_keys : NoDup (map fst (entries l));
  hd_heads : NoDup (heads l);
  hd_apart : forall p k v, In (p, k, v) (entries l) -> ~ table_of l (p ++ [k]) }.

(** The restriction without which the code reports an error: when a header
    opens a table inside another one, that one has no key/value lines yet. *)
Definition parents_empty (l : list hline) : Prop :=
  forall l1 l2 w0 w1 n m w2 w3 c p x, l = l1 ++ HHead w0 w1 n m w2 w3 c :: l2 -> head_path n m = p ++ [x] -> p <> [] ->
  forall k v, ~ In (p, k, v) (entries l1).
