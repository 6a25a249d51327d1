(** Strings and the pieces of the Rust standard library the crate relies on. *)
From Coq Require Export Ascii String.
From Coq Require Export List NArith ZArith Bool.
Export ListNotations.
#[global] Open Scope N_scope.
#[global] Open Scope list_scope.

(** Rust `&str` / `String` / `Cow<str>` (used throughout /repo/src): a sequence
    of Unicode scalar values.  Simplified: the UTF-8 encoding is not modelled,
    only its length ([blen]). *)
(* cites: `&str`, `String`, `Cow<str>`: types.rs:91-110, ast/structs.rs:126-135 *)
Definition str := list N.

(** ASCII literals of the Rust source, e.g. "$Root$" in
    /repo/src/internals/parser.rs:34. *)
Fixpoint lit (s : string) : str :=
  match s with
  | EmptyString => []
  | String c s' => N_of_ascii c :: lit s'
  end.

(** Decoder for UTF-8 literals in examples (tests only; /repo/tests and the
    `#[cfg(test)]` modules contain such literals). *)
(* cites: tests only: the string literals of primitives.rs:676-, objects.rs:596- *)
Fixpoint utf8 (n : nat) (acc : N) (s : string) : str :=
  match s with
  | EmptyString => []
  | String c s' =>
      let b := N_of_ascii c in
      if b <? 128 then b :: utf8 0 0 s'
      else if b <? 192 then
        match n with
        | S O => (acc * 64 + (b - 128)) :: utf8 0 0 s'
        | S n' => utf8 n' (acc * 64 + (b - 128)) s'
        | O => utf8 0 0 s'
        end
      else if b <? 224 then utf8 1 (b - 192) s'
      else if b <? 240 then utf8 2 (b - 224) s'
      else utf8 3 (b - 240) s'
  end.
(* cites: tests only: the string literals of primitives.rs:676-, objects.rs:596- *)
Definition ulit (s : string) : str := utf8 0 0 s.

(** Equality of strings, `==` on `str`/`String`
    (e.g. /repo/src/internals/parser.rs:117). *)
Fixpoint str_eqb (a b : str) : bool :=
  match a, b with
  | [], [] => true
  | x :: a', y :: b' => (x =? y) && str_eqb a' b'
  | _, _ => false
  end.

(** `str::starts_with` (/repo/src/internals/objects.rs:502) and
    `key.find(&prev_key) == Some(0)`
    (/repo/src/internals/ast/structs.rs:499-500): `find` reports the first
    occurrence, so it answers 0 exactly for a prefix. *)
Fixpoint starts_with (p s : str) : bool :=
  match p, s with
  | [], _ => true
  | x :: p', y :: s' => (x =? y) && starts_with p' s'
  | _ :: _, [] => false
  end.

(** Number of UTF-8 bytes of a scalar value; `str::len` counts bytes
    (/repo/src/types.rs:1160, 1244, 1379). *)
Definition utf8_width (c : N) : nat :=
  if c <? 128 then 1%nat else if c <? 2048 then 2%nat
  else if c <? 65536 then 3%nat else 4%nat.
(* cites: `str::len`: types.rs:849, types.rs:1159-1164 *)
Fixpoint blen (s : str) : nat :=
  match s with [] => O | c :: s' => (utf8_width c + blen s')%nat end.

(** `format!("{}", n)` for `usize`/`u64`
    (/repo/src/internals/primitives.rs:71, 106, 166; /repo/src/types.rs:221). *)
Fixpoint dec_aux (fuel : nat) (n : N) (acc : str) : str :=
  match fuel with
  | O => acc
  | S f =>
      let acc' := (48 + n mod 10) :: acc in
      if n <? 10 then acc' else dec_aux f (n / 10) acc'
  end.
(* cites: `format!(''{}'', usize)`: primitives.rs:71, primitives.rs:106, types.rs:221 *)
Definition dec (n : N) : str := dec_aux (S (N.size_nat n)) n [].

(** `format!("{}", z)` for `i64` (/repo/src/types.rs:326). *)
Definition dec_z (z : Z) : str :=
  if (z <? 0)%Z then 45 :: dec (Z.to_N (- z)) else dec (Z.to_N z).

(** `format!("{:0>w}", n)`: left padding with '0' to width w, no truncation
    (/repo/src/types.rs:420-422 and the other `*_from_int` constructors). *)
Definition pad0 (w : nat) (n : N) : str :=
  let d := dec n in repeat 48 (w - length d) ++ d.

(* cites: `char::is_digit(10)` inside std `usize::from_str`: types.rs:1167-1174, types.rs:1251-1259 *)
Definition is_ascii_digit (c : N) : bool := (48 <=? c) && (c <=? 57).

(** value of a digit string, `None` if some character is not an ASCII digit *)
(* cites: std `usize::from_str` and `u64::from_str`: types.rs:1167-1174, types.rs:1408 *)
Fixpoint digits_val (acc : N) (s : str) : option N :=
  match s with
  | [] => Some acc
  | c :: s' => if is_ascii_digit c then digits_val (acc * 10 + (c - 48)) s' else None
  end.

(** `usize::from_str` / `u64::from_str` on a 64-bit target
    (/repo/src/types.rs:1167-1174, 1251-1259, 1386-1408): optional leading '+',
    at least one digit, `Err` on any other character and on overflow. *)
Definition u64_max : N := 18446744073709551615.
(* cites: std `usize::from_str`: types.rs:1167-1174, types.rs:1251-1259, types.rs:1386-1408 *)
Definition uint_from_str (s : str) : option N :=
  let ds := match s with c :: s' => if c =? 43 then s' else s | [] => [] end in
  match ds with
  | [] => None
  | _ => match digits_val 0 ds with
         | Some n => if n <=? u64_max then Some n else None
         | None => None
         end
  end.

(** `str::to_lowercase` (/repo/src/types.rs:396).  Simplified: only ASCII
    letters are mapped.  No non-ASCII character lowercases to one of the letters
    of "true" or "false", so the comparisons made with the result agree. *)
Definition to_lower_c (c : N) : N := if (65 <=? c) && (c <=? 90) then c + 32 else c.
(* cites: `to_lowercase`, types.rs:396 *)
Definition to_lower (s : str) : str := map to_lower_c s.

(** `Vec<T>` as a list in index order; `pop` and `truncate` *)
(* cites: `Vec::push`: objects.rs:268-269, primitives.rs:621 *)
Definition vpush {A} (l : list A) (x : A) : list A := l ++ [x].
(* cites: `Vec::pop`: objects.rs:235, objects.rs:546 *)
Definition vpop {A} (l : list A) : list A := removelast l.
(* cites: `v[len - 1]`: objects.rs:53, objects.rs:245, objects.rs:369 *)
Definition vlast {A} (l : list A) : option A :=
  match l with [] => None | _ => nth_error l (length l - 1) end.
(* cites: `Vec::len`: objects.rs:170, primitives.rs:50 *)
Definition nlen {A} (l : list A) : N := N.of_nat (length l).

(** Result of a computation that may panic.  [Fuel] is the model's own
    "out of fuel" value; it is proved unreachable for the entry points. *)
(* cites: `panic!`, arithmetic overflow and failed indexing: macros.rs:11, types.rs:283, primitives.rs:159 *)
Inductive res (A : Type) : Type :=
| Ok (a : A)
| Panic
| Fuel.
Arguments Ok {A} a.
Arguments Panic {A}.
Arguments Fuel {A}.

(* cites: sequencing of statements that may panic, e.g. parser.rs:130-182 *)
Definition rbind {A B} (r : res A) (f : A -> res B) : res B :=
  match r with Ok a => f a | Panic => Panic | Fuel => Fuel end.
(* cites: sequencing of statements that may panic, e.g. parser.rs:130-182 *)
Notation "'let?' x ':=' r 'in' b" := (rbind r (fun x => b))
  (at level 200, x pattern, right associativity).

(** indexing `v[i]`: panics when out of bounds *)
(* cites: `v[i]`: types.rs:287, objects.rs:171 *)
Definition vindex {A} (l : list A) (i : nat) : res A :=
  match nth_error l i with Some x => Ok x | None => Panic end.
