(** * What a call of set_value ends in: theorems *)
From Coq Require Import Lia ZifyBool ZifyNat ZifyN.
From Verif Require Import Str Regex Types Ast State Nom Keys Grammar Api Spec ApiSpec SetFacts OutcomeSpec OutcomeFacts.

Definition o_nl : str := [10].
Definition o_int (s : string) : value := VInteger (lit s).
(** used by the examples *)
Definition o_doc : str := lit "a = 1" ++ o_nl ++ lit "b = [1, 2]" ++ o_nl ++ lit "c = {x = 1, y = [2]}" ++ o_nl ++ lit "[t]" ++ o_nl ++ lit "z = 'q'" ++ o_nl.

(** ** C80: on a key that holds a value a call of set_value returns true exactly
    for valid values that have the structure of the old one or are arrays and
    inline tables of scalars; it returns false exactly when the first scalar that
    is not valid is outside of inline tables; it panics in the cases that are left *)
Theorem C80_outcome : forall ovf s key old v, reach ovf s -> key <> [] -> key <> root_key -> get_value s key = Ok (Some old) -> new_names s key v ->
  ((exists s', set_value s key v = Ok (s', true)) <-> all_valid v /\ (same_shape old v \/ flat_value v)) /\
  ((exists s', set_value s key v = Ok (s', false)) <-> first_bad v false) /\
  (set_value s key v = Panic <-> first_bad v true \/ (all_valid v /\ ~ same_shape old v /\ ~ flat_value v)).
Proof. exact outcome_iff. Qed.
Print Assumptions C80_outcome.

(** ** C80: and a value that was accepted is found *)
Theorem C80_accepted : forall ovf s key old v s', reach ovf s -> key <> [] -> key <> root_key -> get_value s key = Ok (Some old) -> new_names s key v ->
  set_value s key v = Ok (s', true) -> get_value s' key = Ok (Some v).
Proof. exact accepted_found. Qed.
Print Assumptions C80_accepted.

(** ** C80: there is always one of the three, so the two theorems above leave out
    only values with a name given twice and keys that the parser knows without
    listing them *)
Theorem C80_cases : forall v, all_valid v \/ first_bad v true \/ first_bad v false.
Proof. exact bad_or_valid. Qed.
Print Assumptions C80_cases.

(** a nested value for the key `c`, whose children are `x` and `y`: the first array
    inside is at `c.y`, which is known and listed *)
Definition o_nested : value := VInlineTable [(lit "y", VArray [o_int "1"; o_int "2"]); (lit "w", o_int "3")].
Lemma o_nested_first : forall k, first_nested (lit "c") o_nested k -> k = lit "c.y".
Proof.
  intros k [(l1 & x & l2 & E & _)|(l1 & n & x & l2 & E & F & S & _ & ->)]; [discriminate|]. destruct l1 as [|p [|q l1]].
  - inversion E; subst. reflexivity.
  - inversion E; subst. inversion F as [|? ? X _]; subst. destruct X.
  - inversion E; subst. destruct l1; discriminate.
Qed.
Example C80_ex : exists s, parse (new_parser true) o_doc = Ok (s, Full) /\ reach true s /\
  get_value s (lit "c") = Ok (Some (VInlineTable [(lit "x", o_int "1"); (lit "y", VArray [o_int "2"])])) /\
  new_names s (lit "c") o_nested /\ get_children s (lit "c.y") = Some (Count 1) /\
  all_valid o_nested /\ ~ flat_value o_nested /\ set_value s (lit "c") o_nested = Panic.
Proof.
  eexists. split; [vm_compute; reflexivity|].
  split; [apply (R_parse true (new_parser true) o_doc _ Full); [apply R_new|vm_compute; reflexivity]|].
  split; [vm_compute; reflexivity|]. split; [split|].
  - intros l E. inversion E; subst. cbn [map fst]. constructor; [intros [Q|[]]; discriminate|]. constructor; [intros []|constructor].
  - intros k N _. apply o_nested_first in N. subst k. right. exists [lit "x"; lit "y"], (lit "y").
    split; [vm_compute; reflexivity|]. split; [right; left; reflexivity|reflexivity].
  - split; [vm_compute; reflexivity|]. split; [|split; [|vm_compute; reflexivity]].
    + intros x [<-|[<-|[<-|[]]]]; reflexivity.
    + intros F. inversion F as [|? ? X _]; subst. destruct X.
Qed.
(** the other outcomes: accepted, refused, and a panic because of a scalar that is
    not valid inside an inline table *)
Example C80_outcomes_ex : exists s s1 s2, parse (new_parser true) o_doc = Ok (s, Full) /\
  set_value s (lit "c.y[0]") (VArray [o_int "5"; VBoolean true]) = Ok (s1, true) /\
  set_value s (lit "b") (VArray [VArray [o_int "x"]; VInlineTable [(lit "k", o_int "x")]]) = Ok (s2, false) /\
  first_bad (VArray [VArray [o_int "x"]; VInlineTable [(lit "k", o_int "x")]]) false /\
  set_value s (lit "b") (VArray [VInlineTable [(lit "k", VArray [o_int "x"])]; o_int "x"]) = Panic /\
  first_bad (VArray [VInlineTable [(lit "k", VArray [o_int "x"])]; o_int "x"]) true.
Proof.
  eexists _, _, _. split; [vm_compute; reflexivity|]. split; [vm_compute; reflexivity|]. split; [vm_compute; reflexivity|]. split; [|split; [vm_compute; reflexivity|]].
  - exists [], (o_int "x"), [(true, o_int "x")]. split; [reflexivity|]. split; [reflexivity|constructor].
  - exists [], (o_int "x"), [(false, o_int "x")]. split; [reflexivity|]. split; [reflexivity|constructor].
Qed.
(** with a name given twice a nested value is accepted *)
Example C80_twice_ex : exists s s', parse (new_parser true) o_doc = Ok (s, Full) /\
  set_value s (lit "c") (VInlineTable [(lit "k", o_int "1"); (lit "k", VArray [o_int "2"])]) = Ok (s', true).
Proof. eexists _, _. split; [vm_compute; reflexivity|]. vm_compute; reflexivity. Qed.
