(** Vocabulary: what a call of set_value ends in. *)
From Verif Require Import Str Types Ast State Api Spec ApiSpec.

(** the scalars inside a value, from left to right, each with the word whether it
    is inside an inline table; [b] says so for the value itself *)
Fixpoint boxed (b : bool) (v : value) : list (bool * value) :=
  match v with
  | VArray l => flat_map (boxed b) l
  | VInlineTable l => flat_map (fun kv => boxed true (snd kv)) l
  | _ => [(b, v)]
  end.

(** the first scalar that is not valid; [b]: it is inside an inline table *)
Definition first_bad (v : value) (b : bool) : Prop :=
  exists l1 x l2, boxed false v = l1 ++ (b, x) :: l2 /\ validate x = false /\ Forall (fun y => validate (snd y) = true) l1.

(** a value without arrays and inline tables inside *)
Definition flat_value (v : value) : Prop :=
  match v with
  | VArray l => Forall scalar_value l
  | VInlineTable l => Forall (fun kv => scalar_value (snd kv)) l
  | _ => False
  end.

(** [k] is the key of the first array or inline table inside [v], which is at [key];
    the names before it are others *)
Definition first_nested (key : str) (v : value) (k : str) : Prop :=
  (exists l1 x l2, v = VArray (l1 ++ x :: l2) /\ Forall scalar_value l1 /\ ~ scalar_value x /\
     k = key ++ lit "[" ++ dec (N.of_nat (length l1)) ++ lit "]") \/
  (exists l1 n x l2, v = VInlineTable (l1 ++ (n, x) :: l2) /\ Forall (fun kv => scalar_value (snd kv)) l1 /\ ~ scalar_value x /\
     ~ In n (map fst l1) /\ k = key ++ lit "." ++ n).

(** [k] is one of the children that get_children gives for [key] *)
Definition child_of (s : pst) (key k : str) : Prop :=
  (exists n i, get_children s key = Some (Count n) /\ i < n /\ k = key ++ lit "[" ++ dec i ++ lit "]") \/
  (exists l n, get_children s key = Some (Keys l) /\ In n l /\ k = key ++ lit "." ++ n).

(** no name is given twice in [v], and if the parser knows the key of the first
    array or inline table inside [v], it lists it as a child of [key] *)
Definition new_names (s : pst) (key : str) (v : value) : Prop :=
  (forall l, v = VInlineTable l -> NoDup (map fst l)) /\
  (forall k, first_nested key v k -> get_children s k <> None -> child_of s key k).
