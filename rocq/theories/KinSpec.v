(** Vocabulary of properties C84 and C85: documents that differ in their values, but not
    in the names and the structure. *)
From Verif Require Import Str Types Ast State Api Spec ApiSpec DocSpec MixSpec DotSpec TreeSpec WholeSpec TwinSpec StaySpec.

(** a value that is not a date-time that does not exist *)
Definition sound_date (v : value) : bool := match v with VDateTime d => date_exists d | _ => true end.
(** in two lists of elements the types change at the same places *)
Fixpoint same_turns (l l' : list value) : Prop :=
  match l, l' with
  | a :: r, a' :: r' =>
      match r, r' with b :: _, b' :: _ => kind a = kind b <-> kind a' = kind b' | _, _ => True end /\ same_turns r r'
  | _, _ => True
  end.
(** [kindred v v']: values of the same structure, with faults (an element of another type
    than the one before it, a date-time that does not exist) at the same places *)
Inductive kindred : value -> value -> Prop :=
| Ki_scalar : forall a b, scalar_value a -> scalar_value b -> sound_date a = sound_date b -> kindred a b
| Ki_array : forall l l', Forall2 kindred l l' -> same_turns l l' -> kindred (VArray l) (VArray l')
| Ki_table : forall l l', Forall2 (fun x y => fst x = fst y /\ kindred (snd x) (snd y)) l l' ->
    kindred (VInlineTable l) (VInlineTable l').

(** what lines say, apart from the values; see [contents] in [TwinSpec] *)
Definition kindred_item (a b : item) : Prop :=
  match a, b with
  | IPair k v, IPair k' v' => k = k' /\ kindred v v'
  | _, _ => a = b
  end.

(** errors apart from their line numbers and the values they name: which of the four they
    are, the key, and the names below a wrong header *)
Definition error_names (e : parse_error) : N * str * list str :=
  match e with
  | EMixedArray k _ => (0, k, [])
  | EDuplicateKey k _ _ => (1, k, [])
  | EInvalidTable k _ l => (2, k, map fst l)
  | EInvalidDateTime k _ _ => (3, k, [])
  end.
Definition same_errors (es es' : list parse_error) : Prop := map error_names es = map error_names es'.

(** the same keys, with the same children and with kindred values *)
Definition kindred_answers (s t : pst) : Prop :=
  (forall k, get_children s k = get_children t k) /\
  (forall k, match get_value s k, get_value t k with
             | Ok (Some v), Ok (Some v') => kindred v v'
             | Ok None, Ok None => True
             | Panic, Panic => True
             | _, _ => False
             end).
Definition kindred_result (r r' : parse_result) : Prop :=
  match r, r' with
  | Full, Full => True
  | FullError es, FullError es' => same_errors es es'
  | _, _ => False
  end.
