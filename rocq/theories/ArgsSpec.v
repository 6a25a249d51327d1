(** Specification of the command line. *)
From Verif Require Import Str Types Ast State Api Cli Main Args.

(** the options that are looked at before any file *)
Definition setting_names : list str :=
  [lit "set-true"; lit "set-false"; lit "separator"; lit "array-begin"; lit "array-end"; lit "array-separator"; lit "input-file"].
(** the commands, and the option of one of them *)
Definition command_names : list str :=
  [lit "get-value"; lit "has-value"; lit "get-children"; lit "has-children"; lit "set-value"; lit "output-file"].
(** an option is there without its argument *)
Definition wanting (a : given) (n : str) : Prop := a.(a_has) n = true /\ a.(a_get) n = None.
(** no option lacks its argument *)
Definition nothing_wanting (a : given) : Prop :=
  forall n, In n (setting_names ++ command_names) -> ~ wanting a n.

(** the argument of an option that is there *)
Definition given_to (a : given) (n : str) : option str := if a.(a_has) n then a.(a_get) n else None.
(** the options and commands by their names *)
Definition flags_of (a : given) : flags :=
  {| g_true := given_to a (lit "set-true"); g_false := given_to a (lit "set-false"); g_sep := given_to a (lit "separator");
     g_start := given_to a (lit "array-begin"); g_end := given_to a (lit "array-end");
     g_arr_sep := given_to a (lit "array-separator"); g_len := a.(a_has) (lit "array-length");
     g_strip := a.(a_has) (lit "strip-quotes"); g_quiet := a.(a_has) (lit "quiet"); g_print := a.(a_has) (lit "print-doc") |}.
Definition commands_of (a : given) : commands :=
  {| m_get := given_to a (lit "get-value"); m_has := given_to a (lit "has-value"); m_children := given_to a (lit "get-children");
     m_any := given_to a (lit "has-children"); m_set := given_to a (lit "set-value"); m_out := given_to a (lit "output-file") |}.

(** the message about an option, and the one about a command run on a file *)
Definition wants_argument (n : str) : str := lit "Error: A required argument is missing for " ++ n ++ lit "." ++ [10].
Definition wants_argument_in (path n : str) : str :=
  lit "Error " ++ [34] ++ path ++ [34] ++ lit ": A required argument is missing for " ++ n ++ lit "." ++ [10].
(** the options whose message names them *)
Definition well_named : list str := [lit "set-true"; lit "set-false"; lit "separator"; lit "array-begin"; lit "input-file"].
(** the commands as the messages call them *)
Inductive called : str -> str -> Prop :=
| Ca_get : called (lit "get-value") (lit "g/get-value")
| Ca_has : called (lit "has-value") (lit "has-value")
| Ca_children : called (lit "get-children") (lit "c/get-children")
| Ca_any : called (lit "has-children") (lit "has-children")
| Ca_set : called (lit "set-value") (lit "s/set-value").
