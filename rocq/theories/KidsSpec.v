(** Specification of the children of the names of a document. *)
From Verif Require Import Str Types Ast State Spec DocSpec DotSpec ReachSpec.

(** the names of the headers of [d] *)
Definition heads (d : toml) : list (list str) :=
  flat_map (fun x => match x.(ne_expr).(e_table) with Some t => [map wk_key (tt_table t)] | None => [] end) d.
(** the names of a key/value: those of its header, then its own key *)
Definition line_path (x : list str * keyval) : list str := fst x ++ [(snd x).(kv_key)].
(** [q] is the way to a table of [d]: the root, or the first names of a header *)
Definition table_of (d : toml) (q : list str) : Prop := q = [] \/ exists a b, In a (heads d) /\ a = q ++ b.
(** no key/value has the name of a table *)
Definition apart (d : toml) : Prop := forall x, In x (keyed [] d) -> ~ table_of d (line_path x).
