(** Specification of runs of the tool that set several keys. *)
From Verif Require Import Str Types State Api Spec ApiSpec CliSpec.

(** [worded fields us]: the fields, a key, a text and the name of a type for each
    update, say the updates [us]: the value of the type that has the text. A
    date-time with offset Z loses the Z. *)
Inductive worded : list str -> list (str * value) -> Prop :=
| Wo_nil : worded [] []
| Wo_cons : forall k val typ t v l us, In typ (type_names t) ->
    has_text t val v \/ (t = TyDate /\ exists d, v = VDateTime d /\ val = spelling v ++ lit "Z") ->
    worded l us -> worded (k :: val :: typ :: l) ((k, v) :: us).
(** the same for values that the constructors accept *)
Inductive fields : list str -> list (str * value) -> Prop :=
| Fi_nil : fields [] []
| Fi_cons : forall k val typ v l us, typed typ val v -> fields l us -> fields (k :: val :: typ :: l) ((k, v) :: us).
