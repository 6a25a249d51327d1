(** Specification of documents with nested values and table headers. *)
From Verif Require Import Str Types Spec.

(** ** Values *)

(** blanks and line ends *)
Inductive blank_lines : str -> Prop :=
| BL_nil : blank_lines []
| BL_char : forall c w, c = 9 \/ c = 32 \/ c = 10 -> blank_lines w -> blank_lines (c :: w)
| BL_crlf : forall w, blank_lines w -> blank_lines (13 :: 10 :: w).

(** blanks, line ends and comments *)
Inductive gap : str -> Prop :=
| G_ws : forall w, blank_lines w -> gap w
| G_com : forall w c nl g, blank_lines w -> comment_text c -> line_end nl -> gap g ->
    gap (w ++ lit "#" ++ c ++ nl ++ g).

(** the TOML type of a value *)
Definition kind (v : value) : N :=
  match v with
  | VInteger _ => 0 | VFloat _ => 1 | VBoolean _ => 2 | VDateTime _ => 3
  | VString _ _ => 4 | VArray _ => 5 | VInlineTable _ => 6
  end.
Definition uniform (l : list value) : Prop := forall a b, In a l -> In b l -> kind a = kind b.

(** [spells v t]: the text [t] spells the value [v]: a scalar, an array of
    values of one type, or an inline table with different keys, bare or quoted *)
Inductive spells : value -> str -> Prop :=
| Sp_scalar : forall v t, scalar v t -> spells v t
| Sp_array : forall vs g t, gap g -> elems vs t -> uniform vs ->
    spells (VArray vs) (lit "[" ++ g ++ t ++ lit "]")
| Sp_inline : forall kvs w t, blanks w -> fields kvs t -> NoDup (map fst kvs) ->
    spells (VInlineTable kvs) (lit "{" ++ w ++ t ++ lit "}")
(** elements with commas between them, and possibly after the last one *)
with elems : list value -> str -> Prop :=
| El_nil : elems [] []
| El_last : forall v t g, spells v t -> gap g -> elems [v] (t ++ g)
| El_cons : forall v t w g vs r, spells v t -> blanks w -> gap g -> elems vs r ->
    elems (v :: vs) (t ++ w ++ lit "," ++ g ++ r)
with fields : list (str * value) -> str -> Prop :=
| Fl_nil : fields [] []
| Fl_last : forall k w1 w2 v t g, key_name k -> blanks w1 -> blanks w2 -> spells v t -> gap g ->
    fields [(k, v)] (k ++ w1 ++ lit "=" ++ w2 ++ t ++ g)
| Fl_cons : forall k w1 w2 v t w g l r, key_name k -> blanks w1 -> blanks w2 -> spells v t ->
    blanks w -> gap g -> fields l r ->
    fields ((k, v) :: l) (k ++ w1 ++ lit "=" ++ w2 ++ t ++ w ++ lit "," ++ g ++ r).

(** ** Paths inside a value *)
Inductive pstep := PIdx (i : N) | PKey (k : str).

Fixpoint at_path (v : value) (p : list pstep) : option value :=
  match p with
  | [] => Some v
  | PIdx i :: p' =>
      match v with
      | VArray l => match nth_error l (N.to_nat i) with Some x => at_path x p' | None => None end
      | _ => None
      end
  | PKey k :: p' =>
      match v with
      | VInlineTable l => match first_value k l with Some x => at_path x p' | None => None end
      | _ => None
      end
  end.

(** how a path is written after a key: [0].name *)
Definition step_text (x : pstep) : str :=
  match x with PIdx i => lit "[" ++ dec i ++ lit "]" | PKey k => lit "." ++ k end.
Definition path_text (p : list pstep) : str := concat (map step_text p).

(** a path with keys, bare or quoted *)
Definition good_step (x : pstep) : Prop := match x with PKey k => key_name k | PIdx _ => True end.
Definition good_path (p : list pstep) : Prop := Forall good_step p.

(** what get_children says about a value *)
Definition kids_of (v : value) : children :=
  match v with
  | VArray l => Count (N.of_nat (length l))
  | VInlineTable l => Keys (map fst l)
  | _ => Count 0
  end.

(** no empty inline table inside *)
Fixpoint filled (v : value) : Prop :=
  match v with
  | VArray l => (fix all (l : list value) : Prop := match l with [] => True | x :: l' => filled x /\ all l' end) l
  | VInlineTable l => l <> [] /\
      (fix all (l : list (str * value)) : Prop := match l with [] => True | x :: l' => filled (snd x) /\ all l' end) l
  | _ => True
  end.

(** ** Documents *)
Inductive dline :=
| DBlank (w : str) (c : option str)
(** [w0 key w1 = w2 text w3 #comment] *)
| DLine (w0 key w1 w2 : str) (v : value) (t w3 : str) (c : option str)
(** a table header with one name *)
| DTable (w0 w1 name w2 w3 : str) (c : option str)
(** a header of an array of tables *)
| DArray (w0 w1 name w2 w3 : str) (c : option str).

Definition dline_text (d : dline) : str :=
  match d with
  | DBlank w c => w ++ com_text c
  | DLine w0 key w1 w2 _ t w3 c => w0 ++ key ++ w1 ++ lit "=" ++ w2 ++ t ++ w3 ++ com_text c
  | DTable w0 w1 name w2 w3 c => w0 ++ lit "[" ++ w1 ++ name ++ w2 ++ lit "]" ++ w3 ++ com_text c
  | DArray w0 w1 name w2 w3 c => w0 ++ lit "[[" ++ w1 ++ name ++ w2 ++ lit "]]" ++ w3 ++ com_text c
  end.
Definition dline_ok (d : dline) : Prop :=
  match d with
  | DBlank w c => blanks w /\ com_ok c
  | DLine w0 key w1 w2 v t w3 c =>
      blanks w0 /\ key_name key /\ blanks w1 /\ blanks w2 /\ spells v t /\ blanks w3 /\ com_ok c
  | DTable w0 w1 name w2 w3 c | DArray w0 w1 name w2 w3 c =>
      blanks w0 /\ blanks w1 /\ key_name name /\ blanks w2 /\ blanks w3 /\ com_ok c
  end.

(** lines, each with the line end before it; the first one has none *)
Definition lines_text (l : list (str * dline)) : str :=
  concat (map (fun x => fst x ++ dline_text (snd x)) l).
Definition lines_ok (l : list (str * dline)) : Prop :=
  match l with
  | [] => False
  | (nl, d) :: l' => nl = [] /\ dline_ok d /\ Forall (fun x => line_end (fst x) /\ dline_ok (snd x)) l'
  end.

(** names of the table headers, and of the headers of arrays of tables *)
Fixpoint table_names (l : list dline) : list str :=
  match l with
  | [] => []
  | DTable _ _ n _ _ _ :: l' => n :: table_names l'
  | _ :: l' => table_names l'
  end.
Fixpoint array_names (l : list dline) : list str :=
  match l with
  | [] => []
  | DArray _ _ n _ _ _ :: l' => n :: array_names l'
  | _ :: l' => array_names l'
  end.
(** how often a name is in a list *)
Definition times (n : str) (l : list str) : N := N.of_nat (length (filter (same_key n) l)).

(** a table of the document: the root, a named one, an element of an array of tables *)
Inductive taddr := TRoot | TName (n : str) | TElem (n : str) (i : N).
Definition tname (t : taddr) : str :=
  match t with TRoot => [] | TName n => n | TElem n i => n ++ lit "[" ++ dec i ++ lit "]" end.
(** full name of a key of a table *)
Definition address (t : taddr) (k : str) : str :=
  match t with TRoot => k | _ => tname t ++ lit "." ++ k end.

(** the table that a line after the lines [l] belongs to *)
Fixpoint table_after (t : taddr) (seen : list str) (l : list dline) : taddr :=
  match l with
  | [] => t
  | DTable _ _ n _ _ _ :: l' => table_after (TName n) seen l'
  | DArray _ _ n _ _ _ :: l' => table_after (TElem n (times n seen)) (n :: seen) l'
  | _ :: l' => table_after t seen l'
  end.
(** the key/value lines, each with its table *)
Fixpoint placed (t : taddr) (seen : list str) (l : list dline) : list (taddr * str * value) :=
  match l with
  | [] => []
  | DLine _ k _ _ v _ _ _ :: l' => (t, k, v) :: placed t seen l'
  | DTable _ _ n _ _ _ :: l' => placed (TName n) seen l'
  | DArray _ _ n _ _ _ :: l' => placed (TElem n (times n seen)) (n :: seen) l'
  | DBlank _ _ :: l' => placed t seen l'
  end.
Definition pairs (l : list dline) : list (taddr * str * value) := placed TRoot [] l.

Definition taddr_dec : forall a b : taddr, {a = b} + {a <> b}.
Proof. decide equality; auto using N.eq_dec, (list_eq_dec N.eq_dec). Defined.
(** the keys of a table, in order *)
Definition keys_in (t : taddr) (l : list (taddr * str * value)) : list str :=
  map (fun x => snd (fst x)) (filter (fun x => if taddr_dec (fst (fst x)) t then true else false) l).

(** the names at the top of the document, in order: keys and header names *)
Fixpoint top_names (t : taddr) (l : list dline) : list str :=
  match l with
  | [] => []
  | DLine _ k _ _ _ _ _ _ :: l' => (match t with TRoot => [k] | _ => [] end) ++ top_names t l'
  | DTable _ _ n _ _ _ :: l' => n :: top_names (TName n) l'
  | DArray _ _ n _ _ _ :: l' => n :: top_names (TElem n 0) l'
  | DBlank _ _ :: l' => top_names t l'
  end.

(** every key is given once in its table; a table is declared once; keys at the
    top, tables and arrays of tables have different names *)
Record distinct (l : list dline) : Prop := {
  di_keys : NoDup (map fst (pairs l));
  di_tables : NoDup (table_names l);
  di_arrays : forall n, In n (table_names l) -> ~ In n (array_names l);
  di_root : forall k v, In (TRoot, k, v) (pairs l) -> ~ In k (table_names l) /\ ~ In k (array_names l) }.

(** Two restrictions on the headers of arrays of tables, without which the code
    goes wrong: such a header does not directly follow (apart from key/value
    and blank lines) one whose name is a proper prefix of its own, and after a
    table header it introduces a new name. *)
Definition plain_headers (l : list dline) : Prop :=
  forall l1 l2 w0 w1 n w2 w3 c, l = l1 ++ DArray w0 w1 n w2 w3 c :: l2 ->
  match table_after TRoot [] l1 with
  | TRoot => True
  | TName _ => ~ In n (array_names l1)
  | TElem m _ => m = n \/ forall r, n <> m ++ r
  end.
