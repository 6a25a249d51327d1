(** Specification of runs over several files. *)
From Verif Require Import Str Types Ast State Api Cli CliSpec Main.

(** spaces that may surround a file name on its line: no line ends *)
Definition margin (s : str) : Prop := Forall (fun c => c = 9 \/ c = 32 \/ c = 13) s.
(** a file name: no line end in it, no white space at its ends *)
Definition file_name (p : str) : Prop :=
  ~ In 10 p /\ (forall c q, p = c :: q -> is_white c = false) /\ (forall c q, p = q ++ [c] -> is_white c = false).
(** the names on stdin, one on each line, the last line with or without its end *)
Inductive stdin_names : str -> list str -> Prop :=
| SN_nil : stdin_names [] []
| SN_last : forall a p b, margin a -> file_name p -> margin b -> a ++ p ++ b <> [] -> stdin_names (a ++ p ++ b) [p]
| SN_line : forall a p b s l, margin a -> file_name p -> margin b -> stdin_names s l ->
    stdin_names (a ++ p ++ b ++ [10] ++ s) (p :: l).

(** one file alone: what is printed and the file written *)
Definition alone (x : ext) (o : options) (m : commands) (y : system) (p out : str) (f : option (str * str)) : Prop :=
  exists text, y.(y_files) p = Some text /\ process_document x o m p text = Finished out f /\
    forall q c, f = Some (q, c) -> y.(y_writable) q = true.
(** the contents that a file has after the files [fs] were written one after the other *)
Fixpoint written (q : str) (fs : list (option (str * str))) (old : option str) : option str :=
  match fs with
  | [] => old
  | Some (p, c) :: fs' => written q fs' (if str_eqb q p then Some c else old)
  | None :: fs' => written q fs' old
  end.
(** no name is read after it was written *)
Definition apart (m : commands) (names : list str) : Prop :=
  m.(m_set) = None \/ NoDup names /\ (forall f, m.(m_out) = Some f -> ~ In f names).
(** a file that ends the run with a message: it cannot be opened, its text is
    refused, an argument is wrong, or the result cannot be written *)
Inductive stops (x : ext) (o : options) (m : commands) (y : system) (p : str) : str -> Prop :=
| St_open : y.(y_files) p = None -> stops x o m y p (complaint p (lit "Unable to open file: " ++ y.(y_reason) p))
| St_exit : forall text t, y.(y_files) p = Some text -> process_document x o m p text = Exit t -> stops x o m y p t
| St_usage : forall text t, y.(y_files) p = Some text -> process_document x o m p text = Usage t -> stops x o m y p t
| St_write : forall text q c, y.(y_files) p = Some text -> wrote (process_document x o m p text) = Some (q, c) ->
    y.(y_writable) q = false ->
    stops x o m y p (complaint p (lit "Unable to write to file: " ++ quoted q ++ lit ". Reason: " ++ y.(y_reason) q)).
