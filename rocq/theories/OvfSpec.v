(** Specification of builds with and without overflow checks. *)
From Verif Require Import Str Types Ast State Cli.

(** the same parser in a build without overflow checks *)
Definition unchecked (s : pst) : pst :=
  {| p_root := s.(p_root); p_map := s.(p_map); p_errors := s.(p_errors); p_leftover := s.(p_leftover); p_line := s.(p_line);
     p_tables := s.(p_tables); p_tindex := s.(p_tindex); p_keychain := s.(p_keychain); p_last_table := s.(p_last_table);
     p_atypes := s.(p_atypes); p_array_error := s.(p_array_error); p_next := s.(p_next); p_ovf := false |}.
(** the same surroundings of the tool *)
Definition with_checks (b : bool) (x : ext) : ext :=
  {| x_split := x.(x_split); x_debug := x.(x_debug); x_errors := x.(x_errors); x_ovf := b |}.
