(** The nom 1.2 combinators used by the crate (the macros expand to these
    control structures; nom's source is not part of the repository, see the
    trusted base in DESIGN.md).

    A parser written with `method!` consumes and returns the parser object, and
    `call_m!` assigns the returned object back to `self` whatever the outcome,
    so the state is threaded through failures too. *)
From Verif Require Import Str Regex State.

(** nom::IResult; the error codes and the `Needed` information are dropped *)
(* cites: nom 1.2 IResult, matched at parser.rs:47-74 *)
Inductive ires (A : Type) : Type :=
| Done (rest : str) (a : A)
| Error
| Incomplete.
Arguments Done {A} rest a.
Arguments Error {A}.
Arguments Incomplete {A}.

(* cites: `method!` and `named!` as used in util.rs:8-29, toml.rs:5-78 *)
Definition P (A : Type) := pst -> str -> res (pst * ires A).

(** end of a `chain!`: the closure, which may read and write `self` *)
(* cites: closures of `chain!`, e.g. util.rs:25-27, toml.rs:8-13 *)
Definition act {A} (f : pst -> res (pst * A)) : P A := fun s i =>
  let? (s', a) := f s in Ok (s', Done i a).
(* cites: closures of `chain!`, e.g. util.rs:25-27, toml.rs:8-13 *)
Definition ret {A} (a : A) : P A := fun s i => Ok (s, Done i a).

(** `chain!(x: p ~ q)` *)
(* cites: `chain!` as used in toml.rs:5-78, objects.rs:197-594 *)
Definition bind {A B} (p : P A) (f : A -> P B) : P B := fun s i =>
  let? (s1, r) := p s i in
  match r with
  | Done i1 a => f a s1 i1
  | Error => Ok (s1, Error)
  | Incomplete => Ok (s1, Incomplete)
  end.
(* cites: `chain!` as used in toml.rs:5-78 *)
Notation "x <-- p ;; q" := (bind p (fun x => q))
  (at level 100, p at next level, right associativity).
(* cites: `chain!` as used in toml.rs:5-78 *)
Notation "p ;;; q" := (bind p (fun _ => q))
  (at level 100, right associativity).

(** `=> {|x| f}` in `alt!` *)
(* cites: `alt!` as used in util.rs:11-14, primitives.rs:638-648 *)
Definition pmap {A B} (p : P A) (f : A -> B) : P B := x <-- p ;; ret (f x).

(** `complete!` *)
(* cites: `complete!` as used in util.rs:12-13, toml.rs:28-35 *)
Definition complete {A} (p : P A) : P A := fun s i =>
  let? (s1, r) := p s i in
  Ok (s1, match r with Incomplete => Error | _ => r end).

(** `alt!(p | q)`: first alternative that does not answer Error *)
(* cites: `alt!` as used in util.rs:11-14, toml.rs:28-35 *)
Definition alt {A} (p q : P A) : P A := fun s i =>
  let? (s1, r) := p s i in
  match r with
  | Error => q s1 i
  | _ => Ok (s1, r)
  end.

(** `p?` inside `chain!`: an Error becomes None without consuming *)
(* cites: optional members of `chain!`: toml.rs:45-64, objects.rs:450-594 *)
Definition opt {A} (p : P A) : P (option A) := fun s i =>
  let? (s1, r) := p s i in
  Ok (s1, match r with
          | Done i1 a => Done i1 (Some a)
          | Error => Done i None
          | Incomplete => Incomplete
          end).

(** `tag_s!(t)`: Incomplete when the tag is longer (in bytes) than the input *)
(* cites: `tag_s!` as used in util.rs:12-24 *)
Definition tag (t : str) : P str := fun s i =>
  Ok (s, if Nat.ltb (blen i) (blen t) then Incomplete
         else if starts_with t i then Done (skipn (length t) i) t
         else Error).

(** `re_find!(r)` *)
(* cites: `re_find!` as used in util.rs:18, primitives.rs:425-464 *)
Definition re_find (r : re) : P str := fun s i =>
  Ok (s, match re_match r i with Some (m, rest) => Done rest m | None => Error end).

(** the longest prefix whose characters satisfy f *)
(* cites: `take_while_s!` as used in util.rs:24 *)
Fixpoint span (f : N -> bool) (i : str) : str * str :=
  match i with
  | [] => ([], [])
  | c :: i' => if f c then let (a, b) := span f i' in (c :: a, b) else ([], i)
  end.

(** `take_while_s!(f)` *)
(* cites: `take_while_s!` as used in util.rs:24 *)
Definition take_while (f : N -> bool) : P str := fun s i =>
  let (a, b) := span f i in Ok (s, Done b a).

(** `take_while1_s!(f)`: Error if nothing is taken (all uses are under
    `complete!`, so an Incomplete on empty input would make no difference) *)
(* cites: `take_while1_s!` as used in primitives.rs:615 *)
Definition take_while1 (f : N -> bool) : P str := fun s i =>
  let (a, b) := span f i in
  Ok (s, match a with [] => Error | _ => Done b a end).

(** the loop of `many0!`/`many1!`: stops at the end of the input, on Error and
    on a success that consumes nothing; propagates Incomplete.  [n] is the
    model's fuel. *)
(* cites: `many0!` and `many1!` as used in toml.rs:16, objects.rs:204, objects.rs:482, objects.rs:529, objects.rs:577 *)
Fixpoint many_loop {A} (n : nat) (p : P A) (s : pst) (i : str) : res (pst * ires (list A)) :=
  match n with
  | O => Fuel
  | S n' =>
      match i with
      | [] => Ok (s, Done [] [])
      | _ =>
          let? (s1, r) := p s i in
          match r with
          | Error => Ok (s1, Done i [])
          | Incomplete => Ok (s1, Incomplete)
          | Done i1 a =>
              if Nat.eqb (length i1) (length i) then Ok (s1, Done i [])
              else let? (s2, r2) := many_loop n' p s1 i1 in
                   Ok (s2, match r2 with
                           | Done i2 l => Done i2 (a :: l)
                           | Error => Error
                           | Incomplete => Incomplete
                           end)
          end
      end
  end.

(** `many0!` *)
(* cites: primitives.rs:35, toml.rs:16, objects.rs:204, objects.rs:529, objects.rs:577 *)
Definition many0 {A} (p : P A) : P (list A) := fun s i => many_loop (S (length i)) p s i.

(** `many1!`: the first success is kept even when it consumes nothing *)
(* cites: objects.rs:482 *)
Definition many1 {A} (p : P A) : P (list A) := fun s i =>
  let? (s1, r) := p s i in
  match r with
  | Error => Ok (s1, Error)
  | Incomplete => Ok (s1, Incomplete)
  | Done i1 a =>
      let? (s2, r2) := many_loop (S (length i1)) p s1 i1 in
      Ok (s2, match r2 with
              | Done i2 l => Done i2 (a :: l)
              | Error => Error
              | Incomplete => Incomplete
              end)
  end.
