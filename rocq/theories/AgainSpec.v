(** Vocabulary of property C85: reading again what is printed after updates. *)
From Verif Require Import Str Types Ast State Api Spec ApiSpec DocSpec KinSpec.

(** values of the same structure whose scalars have the same types; dates that do not
    exist are at the same places *)
Inductive same_types : value -> value -> Prop :=
| Ty_scalar : forall a b, scalar_value a -> scalar_value b -> kind a = kind b -> sound_date a = sound_date b -> same_types a b
| Ty_array : forall l l', Forall2 same_types l l' -> same_types (VArray l) (VArray l')
| Ty_table : forall l l', Forall2 (fun x y => fst x = fst y /\ same_types (snd x) (snd y)) l l' ->
    same_types (VInlineTable l) (VInlineTable l').

(** [updates_keeping R s us s']: calls of set_value, each for a key without a value, which
    has no effect, or with a value that is related to the present one by [R] and all of
    whose scalars are accepted by Value::validate *)
Inductive updates_keeping (R : value -> value -> Prop) : pst -> list (str * value) -> pst -> Prop :=
| Uk_none : forall s, updates_keeping R s [] s
| Uk_one : forall s k old v s1 b us s2, get_value s k = Ok (Some old) -> R old v -> all_valid v ->
    set_value s k v = Ok (s1, b) -> updates_keeping R s1 us s2 -> updates_keeping R s ((k, v) :: us) s2
| Uk_missing : forall s k v s1 b us s2, get_value s k = Ok None ->
    set_value s k v = Ok (s1, b) -> updates_keeping R s1 us s2 -> updates_keeping R s ((k, v) :: us) s2.

(** line by line, the values of two documents are [kindred]: scalars may differ, also in
    their types, but faults are at the same places *)
Definition kindred_values (d d' : toml) : Prop :=
  Forall2 (fun e e' => match e.(ne_expr).(e_keyval), e'.(ne_expr).(e_keyval) with
    | Some x, Some y => exists v v', to_val x.(kv_val).(c_val) = Ok v /\ to_val y.(kv_val).(c_val) = Ok v' /\ kindred v v'
    | None, None => True
    | _, _ => False
    end) d d'.
