(** The command line of the tool, /repo/src/bin/tomlkit.rs:91-129, 146-205 and the
    tests for arguments in lines 249-319.  Outside the model: the crate `pirate`,
    which splits the command line (what it answers is the record [given]; that
    the table of options in lines 34-83 is well formed, line 88, is taken for
    granted), the usage screen (its text is left out) and input that is not UTF-8
    (lines 123-126). *)
From Verif Require Import Str Types Ast State Api Cli Main.

(** `Matches`: which options are there, and their arguments *)
(* cites: `has_match` and `get`, tomlkit.rs:105-106 *)
Record given := { a_has : str -> bool; a_get : str -> option str }.

(** the message for an option without argument, e.g. tomlkit.rs:156 *)
Definition lacks (said : str) : str := line_of (lit "Error: A required argument is missing for " ++ said ++ lit ".").
(** the message of a command without argument, e.g. tomlkit.rs:254 *)
Definition lacks_in (path said : str) : str :=
  line_of (lit "Error " ++ dq ++ path ++ dq ++ lit ": A required argument is missing for " ++ said ++ lit ".").

(** one option of Options::new with its argument: the message, or the value;
    tomlkit.rs:152-193 *)
Definition option_arg (a : given) (name said dflt : str) : str + str :=
  if a.(a_has) name then match a.(a_get) name with Some t => inr t | None => inl (lacks said) end
  else inr dflt.
(** `usage!` ends the run, tomlkit.rs:15-25 *)
Definition or_exit {A B} (r : str + A) (k : A -> str + B) : str + B :=
  match r with inl m => inl m | inr a => k a end.

(** tomlkit.rs:146-205; the messages of lines 184 and 191 name another option *)
Definition options_given (a : given) : str + options :=
  let d := default_options in
  or_exit (option_arg a (lit "set-true") (lit "set-true") d.(o_true)) (fun t =>
  or_exit (option_arg a (lit "set-false") (lit "set-false") d.(o_false)) (fun f =>
  or_exit (option_arg a (lit "separator") (lit "separator") d.(o_sep)) (fun s =>
  or_exit (option_arg a (lit "array-begin") (lit "array-begin") d.(o_start)) (fun b =>
  or_exit (option_arg a (lit "array-end") (lit "separator") d.(o_end)) (fun e =>
  or_exit (option_arg a (lit "array-separator") (lit "separator") d.(o_arr_sep)) (fun r =>
  inr {| o_true := t; o_false := f; o_sep := s; o_start := b; o_end := e; o_arr_sep := r; o_quiet := d.(o_quiet);
         o_len := if a.(a_has) (lit "array-length") then true else d.(o_len);
         o_strip := if a.(a_has) (lit "strip-quotes") then true else d.(o_strip);
         o_print := if a.(a_has) (lit "print-doc") then true else d.(o_print) |})))))).

(** one command that leaves the document alone, tomlkit.rs:249-288: it is looked
    at if the last result is good *)
Definition command_given {A} (a : given) (path name said : str) (results : list cres) (dflt : A)
  (run : str -> res (cres * A)) (k : list cres -> A -> outcome) : outcome :=
  if last_good results && a.(a_has) name then
    match a.(a_get) name with
    | Some v => orun None (run v) (fun '(r, y) => k (results ++ [r]) y)
    | None => Usage (lacks_in path said)
    end
  else k results dflt.

(** tomlkit.rs:208-346, after the file [path] with the contents [text] was read *)
Definition document_given (x : ext) (o : options) (a : given) (path text : str) : outcome :=
  orun None (parse (new_parser x.(x_ovf)) text) (fun '(s, r) =>
  match refusal x path r with
  | Some msg => Exit msg
  | None =>
      command_given a path (lit "get-value") (lit "g/get-value") [] tt
        (fun v => let? r := cli_get_value x v o.(o_sep) o.(o_strip) s in Ok (r, tt)) (fun rs _ =>
      command_given a path (lit "has-value") (lit "has-value") rs 0
        (fun v => cli_has_value x v o.(o_sep) o.(o_true) o.(o_false) s) (fun rs keycount =>
      command_given a path (lit "get-children") (lit "c/get-children") rs tt
        (fun v => Ok (cli_get_children x v o.(o_sep) o.(o_start) o.(o_end) o.(o_arr_sep) o.(o_len) s, tt)) (fun rs _ =>
      command_given a path (lit "has-children") (lit "has-children") rs tt
        (fun v => let? r := cli_has_children x v o.(o_sep) o.(o_true) o.(o_false) keycount s in Ok (r, tt)) (fun rs _ =>
      if last_good rs && a.(a_has) (lit "set-value") then
        match a.(a_get) (lit "set-value") with
        | Some v =>
            orun None (cli_set_value x v o.(o_sep) o.(o_quiet) s) (fun '(s, r) =>
            match (if a.(a_has) (lit "output-file") then a.(a_get) (lit "output-file") else Some path) with
            | Some out_file =>
                match r with
                | Good _ => orun (Some (out_file, [])) (show_parser s)
                              (fun t => finish o path (Some (out_file, t)) (rs ++ [r]) s)
                | Bad _ => finish o path None (rs ++ [r]) s
                end
            | None => Usage (lacks_in path (lit "output-file"))
            end)
        | None => Usage (lacks_in path (lit "s/set-value"))
        end
      else
        match rs with
        | [] => Usage (line_of (lit "Error " ++ dq ++ path ++ dq ++ lit ": No command was specified."))
        | _ => finish o path None rs s
        end))))
  end).

(** tomlkit.rs:208-346 with the file operations, as Main.process_file *)
Definition file_given (x : ext) (o : options) (a : given) (y : system) (path : str) : after :=
  match y.(y_files) path with
  | None => After (line_of (lit "Error " ++ dq ++ path ++ dq ++ lit ": Unable to open file: " ++ y.(y_reason) path))
                  y.(y_files) Exited
  | Some text =>
      let r := document_given x o a path text in
      let file := match r with Finished _ f | Crash f => f | _ => None end in
      match file with
      | Some (p, _) =>
          if y.(y_writable) p then
            After (match r with Finished t _ => t | _ => [] end) (put_files file y.(y_files))
                  (match r with Finished _ _ => Ended | _ => Crashed end)
          else After (line_of (lit "Error " ++ dq ++ path ++ dq ++ lit ": Unable to write to file: " ++ dq ++ p ++ dq ++
                               lit ". Reason: " ++ y.(y_reason) p)) y.(y_files) Exited
      | None =>
          match r with
          | Finished t _ => After t y.(y_files) Ended
          | Exit t | Usage t => After t y.(y_files) Exited
          | Crash _ => After [] y.(y_files) Crashed
          | Stuck => After [] y.(y_files) Looped
          end
      end
  end.

(** the loop of tomlkit.rs:114-128 over the lines read *)
Fixpoint names_given (x : ext) (o : options) (a : given) (y : system) (lines : list str) : after :=
  match lines with
  | [] => After [] y.(y_files) Ended
  | l :: rest =>
      let r := file_given x o a y (trim l) in
      match r.(f_end) with
      | Ended =>
          let r' := names_given x o a {| y_files := r.(f_files); y_writable := y.(y_writable); y_reason := y.(y_reason) |} rest in
          After (r.(f_out) ++ r'.(f_out)) r'.(f_files) r'.(f_end)
      | _ => r
      end
  end.

(** `main`, tomlkit.rs:91-130; [args] is the message of `pirate` (line 95) or what
    was given *)
Definition main_given (x : ext) (args : str + given) (y : system) (stdin : str) : after :=
  match args with
  | inl e => After (line_of (lit "Error: " ++ e)) y.(y_files) Exited
  | inr a =>
      if a.(a_has) (lit "help") then After [] y.(y_files) Ended
      else
        match options_given a with
        | inl m => After m y.(y_files) Exited
        | inr o =>
            if a.(a_has) (lit "input-file") then
              match a.(a_get) (lit "input-file") with
              | Some p => file_given x o a y p
              | None => After (lacks (lit "input-file")) y.(y_files) Exited
              end
            else names_given x o a y (read_lines [] stdin)
        end
  end.
