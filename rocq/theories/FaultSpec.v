(** Specification of documents with wrong table headers, repeated keys, mixed
    arrays and date-times that do not exist. *)
From Verif Require Import Str Types Spec State DocSpec MixSpec DotSpec.

(** something that the parser has to report: a wrong header with its path, its
    line and the key/value lines below it; a key that is given again; an array of
    several types or a date-time that does not exist, with the key and the path
    inside its value *)
Inductive fault :=
| FHead (p : list str) (line : N) (kvs : list (str * value))
| FKey (p : list str) (line : N) (v : value)
| FMixed (p : list str) (r : list pstep) (line : N)
| FDate (p : list str) (r : list pstep) (line : N) (d : datetime).

Definition place_name (p : list str) (r : list pstep) : str := dotted_name p ++ path_text r.

(** [noted p ln fs l fs']: the faults [l] of the value of the key [p] on line [ln] are
    added to the list [fs].  Date-times are always added.  The code adds an array of
    several types only if the list is empty or ends with another array of several
    types, and then only if the name of that one is not a prefix of the text of the
    name of the element *)
Inductive noted (p : list str) (ln : N) : list fault -> list vfault -> list fault -> Prop :=
| Nt_nil : forall fs, noted p ln fs [] fs
| Nt_date : forall fs r d l fs', noted p ln (fs ++ [FDate p r ln d]) l fs' -> noted p ln fs (BadDate r d :: l) fs'
| Nt_first : forall r i l fs', noted p ln [FMixed p r ln] l fs' -> noted p ln [] (BadElem r i :: l) fs'
| Nt_mixed : forall fs q x lx r i l fs',
    (forall z, place_name p (r ++ [PIdx i]) <> place_name q x ++ z) ->
    noted p ln ((fs ++ [FMixed q x lx]) ++ [FMixed p r ln]) l fs' ->
    noted p ln (fs ++ [FMixed q x lx]) (BadElem r i :: l) fs'
| Nt_hidden : forall fs f r i l fs',
    match f with FMixed q x _ => exists z, place_name p (r ++ [PIdx i]) = place_name q x ++ z | _ => True end ->
    noted p ln (fs ++ [f]) l fs' -> noted p ln (fs ++ [f]) (BadElem r i :: l) fs'.

(** lines whose values may have such faults *)
Definition wline_ok (d : hline) : Prop :=
  match d with
  | HPair w0 key w1 w2 v t w3 c =>
      blanks w0 /\ key_name key /\ blanks w1 /\ blanks w2 /\ writes v t /\ blanks w3 /\ com_ok c
  | _ => hline_ok d
  end.
Definition wdoc_ok (l : list (str * hline)) : Prop :=
  match l with
  | [] => False
  | (nl, d) :: l' => nl = [] /\ wline_ok d /\ Forall (fun x => line_end (fst x) /\ wline_ok (snd x)) l'
  end.

(** a header that cannot be added to the lines [g]: it repeats one, a name in
    it is a key, or the table just outside it has key/value lines *)
Definition clash (g : list hline) (p : list str) : Prop :=
  In p (heads g) \/
  (exists a k v b, In (a, k, v) (entries g) /\ p = a ++ k :: b) \/
  (exists a n k v, p = a ++ [n] /\ a <> [] /\ In (a, k, v) (entries g)).

(** the table of a line after the lines [g] *)
Fixpoint last_head (p : list str) (l : list hline) : list str :=
  match l with
  | [] => p
  | HHead _ _ n m _ _ _ :: l' => last_head (head_path n m) l'
  | _ :: l' => last_head p l'
  end.

Definition same_text (d : hline) : Prop :=
  match d with HPair _ _ _ _ v t _ _ => scalar v t \/ ~ In 10 t | _ => True end.

(** [faulty ls g fs b]: of the lines [ls], the lines [g] make up a document
    without faults, [fs] are the faults, and [b] says that the last header was wrong *)
Inductive faulty : list (str * hline) -> list hline -> list fault -> bool -> Prop :=
| Fa_nil : faulty [] [] [] false
(** a line that fits *)
| Fa_good : forall ls g fs nl d fs', faulty ls g fs false -> same_text d ->
    hdistinct (g ++ [d]) -> parents_empty (g ++ [d]) ->
    match d with
    | HPair _ k _ _ v _ _ _ => noted (last_head [] g ++ [k]) (1 + line_feeds (hdoc_text ls ++ nl)) fs (vfaults v) fs'
    | _ => fs' = fs
    end ->
    faulty (ls ++ [(nl, d)]) (g ++ [d]) fs' false
(** a header that fits ends the section of a wrong one *)
| Fa_open : forall ls g fs nl w0 w1 n m w2 w3 c, let d := HHead w0 w1 n m w2 w3 c in
    faulty ls g fs true -> hdistinct (g ++ [d]) -> parents_empty (g ++ [d]) ->
    faulty (ls ++ [(nl, d)]) (g ++ [d]) fs false
(** a wrong header *)
| Fa_head : forall ls g fs b nl w0 w1 n m w2 w3 c, faulty ls g fs b -> clash g (head_path n m) ->
    faulty (ls ++ [(nl, HHead w0 w1 n m w2 w3 c)]) g
      (fs ++ [FHead (head_path n m) (1 + line_feeds (hdoc_text ls ++ nl)) []]) true
(** lines below a wrong header *)
| Fa_pair : forall ls g fs p ln kvs nl w0 k w1 w2 v t w3 c, faulty ls g (fs ++ [FHead p ln kvs]) true -> scalar v t ->
    faulty (ls ++ [(nl, HPair w0 k w1 w2 v t w3 c)]) g (fs ++ [FHead p ln (kvs ++ [(k, v)])]) true
| Fa_blank : forall ls g fs nl w c, faulty ls g fs true -> faulty (ls ++ [(nl, HBlank w c)]) g fs true
(** a key that its table has, or that is the name of a table with a header *)
| Fa_again : forall ls g fs nl w0 k w1 w2 v t w3 c, faulty ls g fs false -> scalar v t ->
    let p := last_head [] g in (exists v0, In (p, k, v0) (entries g)) \/ In (p ++ [k]) (heads g) ->
    faulty (ls ++ [(nl, HPair w0 k w1 w2 v t w3 c)]) g
      (fs ++ [FKey (p ++ [k]) (1 + line_feeds (hdoc_text (ls ++ [(nl, HPair w0 k w1 w2 v t w3 c)]))) v]) false.

(** the last value that is given for a key *)
Fixpoint last_value (k : str) (l : list (str * value)) (o : option value) : option value :=
  match l with
  | [] => o
  | (k', v) :: l' => last_value k l' (if same_key k k' then Some v else o)
  end.

(** how a fault is reported *)
Definition reported (f : fault) (e : parse_error) : Prop :=
  match f, e with
  | FHead p ln kvs, EInvalidTable name ln' m =>
      name = dotted_name p /\ ln' = ln /\ NoDup (map fst m) /\ forall k, first_value k m = last_value k kvs None
  | FKey p ln v, EDuplicateKey name ln' v' => name = dotted_name p /\ ln' = ln /\ v' = v
  | FMixed p r ln, EMixedArray name ln' => name = place_name p r /\ ln' = ln
  | FDate p r ln d, EInvalidDateTime name ln' t => name = place_name p r /\ ln' = ln /\ t = datetime_src d
  | _, _ => False
  end.

(** ** Documents without other faults *)

(** the line [ln] of the document gives the key [p] the value [v] *)
Definition pair_at (ls : list (str * hline)) (p : list str) (ln : N) (v : value) : Prop :=
  exists a nl w0 k w1 w2 t w3 c b, ls = a ++ (nl, HPair w0 k w1 w2 v t w3 c) :: b /\
    p = last_head [] (map snd a) ++ [k] /\ ln = 1 + line_feeds (hdoc_text a ++ nl).

(** the date-time [d] or an array of several types is at the path [r] in the value of the key [p] *)
Definition date_at (ls : list (str * hline)) (p : list str) (r : list pstep) (ln : N) (d : datetime) : Prop :=
  exists v, pair_at ls p ln v /\ at_path v r = Some (VDateTime d).
Definition mixed_at (ls : list (str * hline)) (p : list str) (r : list pstep) (ln : N) : Prop :=
  exists v l a b, pair_at ls p ln v /\ at_path v r = Some (VArray l) /\ In a l /\ In b l /\ kind a <> kind b.
