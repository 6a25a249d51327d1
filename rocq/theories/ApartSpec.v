(** Specification of inputs in which no header continues the name of an array of tables. *)
From Verif Require Import Str Types Ast State Api Spec HeadSpec CalmSpec DotSpec.

(** the brackets of a header, and whether it is that of an array of tables *)
Inductive brackets : bool -> str -> str -> Prop :=
| B_table : brackets false (lit "[") (lit "]")
| B_array : brackets true (lit "[[") (lit "]]").
(** some line starts with a header of the names [p] *)
Definition header (i : str) (arr : bool) (p : list str) : Prop :=
  exists b h h' n more, line_at i b /\ brackets arr h h' /\ opens_with b h h' n more /\ p = n :: map snd more.

(** The names of a header before its last one are not keys of arrays, and those of
    the header of an array of tables are not keys at all; with overflow checks its last
    name is no key either.  The text of no header continues that of an array of tables. *)
Record apart_headers (ovf : bool) (i : str) : Prop := {
  apart_arrays : forall arr p n, header i arr p -> In n (removelast p) -> ~ array_key i n;
  apart_given : forall p n, header i true p -> In n (removelast p) -> ~ given_key i n;
  apart_last : forall p, ovf = true -> header i true p -> ~ given_key i (last p []);
  apart_texts : forall arr p q x, header i true p -> header i arr q -> dotted_name q = dotted_name p ++ x -> x = [] }.
