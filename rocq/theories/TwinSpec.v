(** Vocabulary of property C83: what a document says, apart from its layout, and two
    parsers that answer alike.  The documents are those of [WholeSpec]. *)
From Verif Require Import Str Types Ast State Api Spec DocSpec DotSpec TreeSpec WholeSpec.

(** what a line says: nothing, a key with its value, or the names of a header *)
Inductive item :=
| IPair (k : str) (v : value)
| ITable (names : list str)
| IArray (names : list str).
Definition content (d : tline) : list item :=
  match d with
  | TPlain (HBlank _ _) => []
  | TPlain (HPair _ k _ _ v _ _ _) => [IPair k v]
  | TPlain (HHead _ _ n m _ _ _) => [ITable (head_path n m)]
  | TArr _ _ n m _ _ _ => [IArray (head_path n m)]
  end.
Definition contents (l : list (str * tline)) : list item := concat (map (fun x => content (snd x)) l).

(** errors apart from their line numbers *)
Definition lineless (e : parse_error) : parse_error :=
  match e with
  | EMixedArray k _ => EMixedArray k 0
  | EDuplicateKey k _ v => EDuplicateKey k 0 v
  | EInvalidTable k _ l => EInvalidTable k 0 l
  | EInvalidDateTime k _ t => EInvalidDateTime k 0 t
  end.

(** every key has the same value and the same children, and the errors differ at most in
    their line numbers *)
Definition alike (s t : pst) : Prop :=
  (forall k, get_value s k = get_value t k) /\ (forall k, get_children s k = get_children t k) /\
  map lineless s.(p_errors) = map lineless t.(p_errors).
Definition alike_result (r r' : parse_result) : Prop :=
  match r, r' with
  | Full, Full => True
  | FullError es, FullError es' => map lineless es = map lineless es'
  | _, _ => False
  end.
