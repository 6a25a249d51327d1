(** Specification of documents with arrays of tables side by side. *)
From Verif Require Import Str Types Spec DocSpec DotSpec TreeSpec.

(** Headers of arrays of tables have one name, and come in any order; a name does
    not continue the different name of the header of an array before it. Tables come
    before all arrays, or are in the element that was opened last. *)
Definition side_by_side (l : list tline) : Prop :=
  forall l1 d l2, l = l1 ++ d :: l2 ->
  match d with
  | TArr _ _ n m _ _ _ => m = [] /\ forall f x r, top_arrays l1 = x ++ [f] -> n = f \/ n <> f ++ r
  | TPlain (HHead _ _ n m _ _ _) => (m = [] /\ top_arrays l1 = []) \/ (exists x, top_arrays l1 = x ++ [n] /\ length m = 1%nat)
  | _ => True
  end.
