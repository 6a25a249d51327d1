(** `main` of the command line tool, /repo/src/bin/tomlkit.rs:103-130, with the files
    it reads and writes.  Outside the model: the option parser (lines 33-102) and
    input that is not UTF-8 (lines 123-126). *)
From Verif Require Import Str Types Ast State Api Cli.

(** The files: [y_files] are those that can be opened, with their contents;
    [y_writable] says for which paths `File::create` succeeds (writing is taken to
    succeed then); [y_reason] is the text of an error about a path.  Two paths are
    taken to be two files. *)
(* cites: tomlkit.rs:348-359 *)
Record system := { y_files : str -> option str; y_writable : str -> bool; y_reason : str -> str }.
(** how a run ends *)
(* cites: the end of main, tomlkit.rs:130; `std::process::exit(-1)`, tomlkit.rs:215 *)
Inductive ending := Ended | Exited | Crashed | Looped.
(** what a run leaves behind: its output, the files and how it ended *)
(* cites: tomlkit.rs:208-346 *)
Record after := After { f_out : str; f_files : str -> option str; f_end : ending }.

(** writing a file *)
(* cites: tomlkit.rs:348-353 *)
Definition put_file (p c : str) (files : str -> option str) : str -> option str :=
  fun q => if str_eqb q p then Some c else files q.
(* cites: tomlkit.rs:348-353 *)
Definition put_files (f : option (str * str)) (files : str -> option str) : str -> option str :=
  match f with Some (p, c) => put_file p c files | None => files end.

(** tomlkit.rs:208-346 with the file operations: the message of lines 211-217, and
    that of lines 303-309 when the file cannot be created (nothing was printed before) *)
Definition process_file (x : ext) (o : options) (m : commands) (y : system) (path : str) : after :=
  match y.(y_files) path with
  | None => After (line_of (lit "Error " ++ dq ++ path ++ dq ++ lit ": Unable to open file: " ++ y.(y_reason) path))
                  y.(y_files) Exited
  | Some text =>
      let r := process_document x o m path text in
      let file := match r with Finished _ f | Crash f => f | _ => None end in
      match file with
      | Some (p, _) =>
          if y.(y_writable) p then
            After (match r with Finished t _ => t | _ => [] end) (put_files file y.(y_files))
                  (match r with Finished _ _ => Ended | _ => Crashed end)
          else After (line_of (lit "Error " ++ dq ++ path ++ dq ++ lit ": Unable to write to file: " ++ dq ++ p ++ dq ++
                               lit ". Reason: " ++ y.(y_reason) p)) y.(y_files) Exited
      | None =>
          match r with
          | Finished t _ => After t y.(y_files) Ended
          | Exit t | Usage t => After t y.(y_files) Exited
          | Crash _ => After [] y.(y_files) Crashed
          | Stuck => After [] y.(y_files) Looped
          end
      end
  end.

(** `char::is_whitespace`: the Unicode property White_Space *)
(* cites: `trim`, tomlkit.rs:120 *)
Definition is_white (c : N) : bool :=
  ((9 <=? c) && (c <=? 13)) || (c =? 32) || (c =? 133) || (c =? 160) || (c =? 5760) || ((8192 <=? c) && (c <=? 8202)) ||
  (c =? 8232) || (c =? 8233) || (c =? 8239) || (c =? 8287) || (c =? 12288).
(* cites: `trim`, tomlkit.rs:120 *)
Fixpoint trim_front (s : str) : str :=
  match s with [] => [] | c :: s' => if is_white c then trim_front s' else s end.
(** `str::trim`, tomlkit.rs:120 *)
Definition trim (s : str) : str := rev (trim_front (rev (trim_front s))).

(** the lines that `read_line` reads, with their line ends; [cur] is the beginning
    of the line, in reverse *)
(* cites: tomlkit.rs:113-122 *)
Fixpoint read_lines (cur : str) (s : str) : list str :=
  match s with
  | [] => match cur with [] => [] | _ => [rev cur] end
  | c :: s' => if c =? 10 then rev (c :: cur) :: read_lines [] s' else read_lines (c :: cur) s'
  end.

(** the loop of tomlkit.rs:114-128 over the lines read *)
Fixpoint process_names (x : ext) (o : options) (m : commands) (y : system) (lines : list str) : after :=
  match lines with
  | [] => After [] y.(y_files) Ended
  | l :: rest =>
      let r := process_file x o m y (trim l) in
      match r.(f_end) with
      | Ended =>
          let r' := process_names x o m {| y_files := r.(f_files); y_writable := y.(y_writable); y_reason := y.(y_reason) |} rest in
          After (r.(f_out) ++ r'.(f_out)) r'.(f_files) r'.(f_end)
      | _ => r
      end
  end.

(** tomlkit.rs:105-129: `input-file`, or names from stdin *)
Definition main (x : ext) (o : options) (m : commands) (y : system) (input_file : option str) (stdin : str) : after :=
  match input_file with
  | Some p => process_file x o m y p
  | None => process_names x o m y (read_lines [] stdin)
  end.
