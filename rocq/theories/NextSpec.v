(** Vocabulary of property C86: the run of the tool after one that set values. *)
From Verif Require Import Str Types State Api Spec ApiSpec.

(** the last value that the updates give to a key *)
Fixpoint set_to (us : list (str * value)) (k : str) : option value :=
  match us with
  | [] => None
  | (k', v) :: rest => match set_to rest k with
                       | Some w => Some w
                       | None => if str_eqb k k' then Some v else None
                       end
  end.
(** [k] is no key with a value, or has a scalar that the updates leave alone *)
Definition left_alone (s : pst) (us : list (str * value)) (k : str) : Prop :=
  get_value s k = Ok None \/ (set_to us k = None /\ exists v, get_value s k = Ok (Some v) /\ scalar_value v).
