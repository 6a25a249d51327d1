(** Specification of editing sessions: several updates, one after the other. *)
From Verif Require Import Str Types State Api Spec ApiSpec DocSpec DotSpec TreeSpec.

(** [sets s us s']: the updates [us], made in this order, all succeed *)
Inductive sets : pst -> list (str * value) -> pst -> Prop :=
| Se_none : forall s, sets s [] s
| Se_one : forall s k v s1 us s2, set_value s k v = Ok (s1, true) -> sets s1 us s2 -> sets s ((k, v) :: us) s2.

(** the value with [u] at the path *)
Definition put_nth (f : value -> value) : nat -> list value -> list value :=
  fix go i l := match l, i with
    | [], _ => []
    | x :: l', O => f x :: l'
    | x :: l', S i' => x :: go i' l'
    end.
Definition put_key (f : value -> value) (k : str) : list (str * value) -> list (str * value) :=
  fix go l := match l with
    | [] => []
    | (k', x) :: l' => if same_key k k' then (k', f x) :: l' else (k', x) :: go l'
    end.
Fixpoint put_at (p : list pstep) (u : value) (v : value) : value :=
  match p, v with
  | [], _ => u
  | PIdx i :: p', VArray l => VArray (put_nth (put_at p' u) (N.to_nat i) l)
  | PKey k :: p', VInlineTable l => VInlineTable (put_key (put_at p' u) k l)
  | _, _ => v
  end.

(** [respells v t v' t']: the texts [t] of [v] and [t'] of [v'] have the same
    brackets, commas, keys, blanks, line ends and comments at the same places;
    only the scalars differ *)
Inductive respells : value -> str -> value -> str -> Prop :=
| Rs_scalar : forall v t v' t', scalar v t -> scalar v' t' -> respells v t v' t'
| Rs_array : forall vs g t vs' t', gap g -> respells_elems vs t vs' t' -> uniform vs' ->
    respells (VArray vs) (lit "[" ++ g ++ t ++ lit "]") (VArray vs') (lit "[" ++ g ++ t' ++ lit "]")
| Rs_inline : forall kvs w t kvs' t', blanks w -> respells_fields kvs t kvs' t' -> NoDup (map fst kvs') ->
    respells (VInlineTable kvs) (lit "{" ++ w ++ t ++ lit "}") (VInlineTable kvs') (lit "{" ++ w ++ t' ++ lit "}")
with respells_elems : list value -> str -> list value -> str -> Prop :=
| Re_nil : respells_elems [] [] [] []
| Re_last : forall v t v' t' g, respells v t v' t' -> gap g -> respells_elems [v] (t ++ g) [v'] (t' ++ g)
| Re_cons : forall v t v' t' w g vs r vs' r', respells v t v' t' -> blanks w -> gap g -> respells_elems vs r vs' r' ->
    respells_elems (v :: vs) (t ++ w ++ lit "," ++ g ++ r) (v' :: vs') (t' ++ w ++ lit "," ++ g ++ r')
with respells_fields : list (str * value) -> str -> list (str * value) -> str -> Prop :=
| Rf_nil : respells_fields [] [] [] []
| Rf_last : forall k w1 w2 v t v' t' g, key_name k -> blanks w1 -> blanks w2 -> respells v t v' t' -> gap g ->
    respells_fields [(k, v)] (k ++ w1 ++ lit "=" ++ w2 ++ t ++ g) [(k, v')] (k ++ w1 ++ lit "=" ++ w2 ++ t' ++ g)
| Rf_cons : forall k w1 w2 v t v' t' w g l r l' r', key_name k -> blanks w1 -> blanks w2 -> respells v t v' t' ->
    blanks w -> gap g -> respells_fields l r l' r' ->
    respells_fields ((k, v) :: l) (k ++ w1 ++ lit "=" ++ w2 ++ t ++ w ++ lit "," ++ g ++ r)
                    ((k, v') :: l') (k ++ w1 ++ lit "=" ++ w2 ++ t' ++ w ++ lit "," ++ g ++ r').

(** [remakes v v' t']: the value [v] may be replaced by [v'] of another shape,
    an array or inline table of scalars, which is then written [t'] *)
Inductive remakes (v : value) : value -> str -> Prop :=
| Rm_array : forall l ts, Forall2 scalar l ts -> uniform l -> ~ same_shape v (VArray l) ->
    remakes v (VArray l) (lit "[" ++ comma_list ts ++ lit "]")
| Rm_table : forall l ts, l <> [] -> Forall2 (fun x t => key_name (fst x) /\ exists t0, scalar (snd x) t0 /\ t = fst x ++ lit " = " ++ t0) l ts ->
    NoDup (map fst l) -> ~ same_shape v (VInlineTable l) ->
    remakes v (VInlineTable l) (lit "{ " ++ comma_list ts ++ lit " }").

(** [edits pair key_of ls m us ls' m']: the updates [us] change the lines [ls] to
    the lines [ls']. Each update is for a key/value line (written by [pair]);
    [key_of] gives its full name from the lines before it and its key. All but
    the value stays. [m] and [m'] are the numbers of the lines (the first is 0)
    whose value has got another shape: there only the value as a whole is
    updated. *)
Section Edits.
  Context {D : Type}.
  Variable pair : str -> str -> str -> str -> value -> str -> str -> option str -> D.
  Variable key_of : list (str * D) -> str -> str.
  Inductive edits : list (str * D) -> list nat -> list (str * value) -> list (str * D) -> list nat -> Prop :=
  | Ed_none : forall ls m, edits ls m [] ls m
  (** at a path inside the value; the layout is kept *)
  | Ed_path : forall l1 nl w0 k w1 w2 v t w3 c l2 m p u x t' us ls' m', p = [] \/ ~ In (length l1) m ->
      good_path p -> at_path v p = Some x -> respells v t (put_at p u v) t' ->
      edits (l1 ++ (nl, pair w0 k w1 w2 (put_at p u v) t' w3 c) :: l2) m us ls' m' ->
      edits (l1 ++ (nl, pair w0 k w1 w2 v t w3 c) :: l2) m ((key_of l1 k ++ path_text p, u) :: us) ls' m'
  (** a value of another shape *)
  | Ed_new : forall l1 nl w0 k w1 w2 v t w3 c l2 m v' t' us ls' m', remakes v v' t' ->
      edits (l1 ++ (nl, pair w0 k w1 w2 v' t' w3 c) :: l2) (length l1 :: m) us ls' m' ->
      edits (l1 ++ (nl, pair w0 k w1 w2 v t w3 c) :: l2) m ((key_of l1 k, v') :: us) ls' m'.

  (** the line with number [n] gives the value [v] to [key] *)
  Definition gives (ls : list (str * D)) (n : nat) (key : str) (v : value) : Prop :=
    exists l1 nl w0 k w1 w2 t w3 c l2, ls = l1 ++ (nl, pair w0 k w1 w2 v t w3 c) :: l2 /\ n = length l1 /\ key = key_of l1 k.
  (** no line gives a value to [x], or to a name that [x] leads out of *)
  Definition clear_of (ls : list (str * D)) (x : str) : Prop :=
    forall n key v, gives ls n key v -> x <> key /\ ~ below key x.

  (** [session text ls us ls' m']: the text of [ls] is read, all the updates [us]
      succeed, and what is then printed is the text of [ls']. In memory every
      key has the value of its line in [ls']; and so has all that is inside a
      value which kept its shape, with the right children. When the printed
      text is read again all this is so for every value. Nothing else changes. *)
  Definition session (ovf : bool) (text : list (str * D) -> str) (ls : list (str * D)) (us : list (str * value))
      (ls' : list (str * D)) (m' : list nat) : Prop :=
    exists s s' s2, parse (new_parser ovf) (text ls) = Ok (s, Full) /\ sets s us s' /\ show_parser s' = Ok (text ls') /\
      parse (new_parser ovf) (text ls') = Ok (s2, Full) /\
      (forall n key v, gives ls' n key v ->
         get_value s' key = Ok (Some v) /\
         (forall p, good_path p -> get_value s2 (key ++ path_text p) = Ok (at_path v p) /\
            get_children s2 (key ++ path_text p) = option_map kids_of (at_path v p)) /\
         (~ In n m' -> forall p, good_path p -> get_value s' (key ++ path_text p) = Ok (at_path v p) /\
            get_children s' (key ++ path_text p) = option_map kids_of (at_path v p))) /\
      (forall x, clear_of ls x -> get_children s' x = get_children s x /\ get_children s2 x = get_children s x /\
         get_value s' x = get_value s x /\ get_value s2 x = get_value s x).
End Edits.

(** full names of keys after some lines *)
Definition dkey (l : list (str * dline)) (k : str) : str := address (table_after TRoot [] (map snd l)) k.
Fixpoint last_head (p : list str) (l : list hline) : list str :=
  match l with
  | [] => p
  | HHead _ _ n m _ _ _ :: l' => last_head (head_path n m) l'
  | _ :: l' => last_head p l'
  end.
Definition hkey (l : list (str * hline)) (k : str) : str := dotted_name (last_head [] (map snd l) ++ [k]).
Definition tkey (l : list (str * tline)) (k : str) : str :=
  match says (map snd l) with Some v => place_text (v.(w_cur) ++ [PKey k]) | None => [] end.
(** a key/value line *)
Definition tpair w0 k w1 w2 v t w3 c : tline := TPlain (HPair w0 k w1 w2 v t w3 c).
