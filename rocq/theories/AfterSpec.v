(** Specification of what later text leaves as it was. *)
From Verif Require Import Str Types Spec State DocSpec MixSpec DotSpec FaultSpec.

(** what becomes of a reported error: nothing changes it, but a wrong table may get more keys *)
Definition still (e e' : parse_error) : Prop :=
  e' = e \/ exists name ln kvs kvs', e = EInvalidTable name ln kvs /\ e' = EInvalidTable name ln kvs' /\ incl (map fst kvs) (map fst kvs').
