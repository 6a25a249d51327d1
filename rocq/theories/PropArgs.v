(** Properties of the command line of tomlkit. *)
From Verif Require Import Str Regex Types Ast State Nom Keys Grammar Api Cli Facts Spec ApiSpec CliSpec.
From Verif Require Import CliFacts PropNest PropCli Main MainSpec MainFacts PropMain Args ArgsSpec ArgsFacts.

(** for the examples: a command line by its options *)
Definition line_args (l : list (str * option str)) : given :=
  {| a_has := fun n => is_some (hget n l); a_get := fun n => match hget n l with Some o => o | None => None end |}.

(** ** C87: the command line *)
(** the options and commands reach the places that their names say *)
Theorem C87_options : forall x a y stdin, nothing_wanting a -> a.(a_has) (lit "help") = false ->
  main_given x (inr a) y stdin =
  main x (new_options (flags_of a)) (commands_of a) y (given_to a (lit "input-file")) stdin.
Proof. exact main_ok. Qed.
Print Assumptions C87_options.
Definition ex_args : given := line_args
  [(lit "set-value", Some (lit "k,7,int")); (lit "get-value", Some (lit "k")); (lit "separator", Some (lit "; "));
   (lit "input-file", Some p1); (lit "print-doc", None)].
Ltac settled := let n := fresh in let I := fresh in let W := fresh in
  intros n I (W & ?); vm_compute in I;
  repeat (destruct I as [<-|I]; [try discriminate W; discriminate|]); destruct I.
Example C87_options_ex : nothing_wanting ex_args /\ ex_args.(a_has) (lit "help") = false /\
  let r := main_given demo (inr ex_args) demo_system [] in
  r.(f_out) = lit "1; Success" ++ [10] ++ lit "k = 7 # x" ++ [10] /\ r.(f_end) = Ended /\ r.(f_files) p1 = Some (lit "k = 7 # x").
Proof. split; [settled|]. vm_compute. repeat split. Qed.

(** without set-value and its argument, with `help`, and with any argument missing no file is changed *)
Theorem C87_no_change : forall x args y stdin,
  (forall a, args = inr a -> a.(a_has) (lit "help") = true \/ given_to a (lit "set-value") = None \/
     exists n, In n (setting_names ++ command_names) /\ wanting a n) ->
  (main_given x args y stdin).(f_files) = y.(y_files).
Proof. exact given_none. Qed.
Print Assumptions C87_no_change.
Definition ex_no_out : given := line_args
  [(lit "set-value", Some (lit "k,7,int")); (lit "output-file", None); (lit "get-value", Some (lit "k"))].
Example C87_no_change_ex : (exists n, In n (setting_names ++ command_names) /\ wanting ex_no_out n) /\
  let r := main_given demo (inr ex_no_out) demo_system demo_stdin in
  r.(f_out) = wants_argument_in p1 (lit "output-file") /\ r.(f_end) = Exited /\ r.(f_files) p1 = Some (lit "k = 1 # x").
Proof.
  split; [exists (lit "output-file"); split; [vm_compute; tauto|split; reflexivity]|]. vm_compute. repeat split.
Qed.

(** which files a run can change, in terms of the command line *)
Theorem C87_changes : forall x args y stdin q, (main_given x args y stdin).(f_files) q <> y.(y_files) q ->
  exists a, args = inr a /\ a.(a_has) (lit "help") = false /\ (forall n, In n (setting_names ++ command_names) -> ~ wanting a n) /\
    (exists v, given_to a (lit "set-value") = Some v) /\ y.(y_writable) q = true /\
    (given_to a (lit "output-file") = Some q \/ given_to a (lit "output-file") = None /\
       match given_to a (lit "input-file") with Some p => q = p | None => In q (map trim (read_lines [] stdin)) end).
Proof.
  intros x args y stdin q C. destruct args as [e|a]; [contradiction C; reflexivity|]. exists a. split; [reflexivity|].
  destruct (a_has a (lit "help")) eqn:H.
  { contradiction C. rewrite given_none; [reflexivity|]. intros b E. injection E as <-. left. exact H. }
  split; [reflexivity|].
  destruct (all_or_none a (setting_names ++ command_names)) as [W|W].
  { contradiction C. rewrite given_none; [reflexivity|]. intros b E. injection E as <-. right. right. exact W. }
  split; [exact W|]. rewrite main_ok in C by assumption. apply main_changes in C.
  destruct C as (M & Y & Q). split; [|split; [exact Y|exact Q]].
  change (given_to a (lit "set-value") <> None) in M. destruct (given_to a (lit "set-value")); [eauto|congruence].
Qed.
Print Assumptions C87_changes.
Example C87_changes_ex : (main_given demo (inr ex_args) demo_system []).(f_files) p1 <> demo_system.(y_files) p1.
Proof. vm_compute. discriminate. Qed.

(** an option without its argument is named in the message; false for two of them *)
Theorem C87_message_partial : forall x a y stdin n, a.(a_has) (lit "help") = false -> In n well_named -> wanting a n ->
  (forall m, In m setting_names -> m <> n -> ~ wanting a m) ->
  main_given x (inr a) y stdin = After (wants_argument n) y.(y_files) Exited.
Proof. exact setting_message. Qed.
Print Assumptions C87_message_partial.
Definition ex_no_sep : given := line_args [(lit "get-value", Some (lit "k")); (lit "separator", None); (lit "set-true", Some (lit "1"))].
Example C87_message_ex : ex_no_sep.(a_has) (lit "help") = false /\ In (lit "separator") well_named /\ wanting ex_no_sep (lit "separator") /\
  forall m, In m setting_names -> m <> lit "separator" -> ~ wanting ex_no_sep m.
Proof.
  split; [reflexivity|]. split; [vm_compute; tauto|]. split; [split; reflexivity|].
  intros m I N (W & G). cbn [setting_names In] in I.
  repeat (destruct I as [<-|I]; [first [discriminate W|discriminate G|apply N; reflexivity]|]). destruct I.
Qed.
Theorem C87_message_refuted : ~ (forall x a y stdin n, a.(a_has) (lit "help") = false -> In n setting_names -> wanting a n ->
  (forall m, In m setting_names -> m <> n -> ~ wanting a m) ->
  main_given x (inr a) y stdin = After (wants_argument n) y.(y_files) Exited).
Proof.
  intros H. specialize (H demo (line_args [(lit "array-end", None)]) demo_system [] (lit "array-end")).
  assert (E : f_out (main_given demo (inr (line_args [(lit "array-end", None)])) demo_system []) = wants_argument (lit "array-end")).
  { rewrite H; [reflexivity|reflexivity|vm_compute; tauto|split; reflexivity|].
    intros m I N (W & G). cbn [setting_names In] in I.
    repeat (destruct I as [<-|I]; [first [discriminate W|apply N; reflexivity]|]). destruct I. }
  vm_compute in E. discriminate E.
Qed.
Print Assumptions C87_message_refuted.

(** a command without its argument is named in the message, after the file was read *)
Theorem C87_command : forall x a y stdin n l p text s, a.(a_has) (lit "help") = false ->
  (forall m, In m setting_names -> ~ wanting a m) -> given_to a (lit "input-file") = Some p ->
  y.(y_files) p = Some text -> parse (new_parser x.(x_ovf)) text = Ok (s, Full) ->
  called n l -> wanting a n -> (forall m, In m command_names -> m <> n -> a.(a_has) m = false) ->
  main_given x (inr a) y stdin = After (wants_argument_in p l) y.(y_files) Exited.
Proof. exact command_message. Qed.
Print Assumptions C87_command.
Definition ex_no_get : given := line_args [(lit "get-children", None); (lit "input-file", Some p1)].
Example C87_command_ex : exists s, ex_no_get.(a_has) (lit "help") = false /\
  (forall m, In m setting_names -> ~ wanting ex_no_get m) /\ given_to ex_no_get (lit "input-file") = Some p1 /\
  demo_system.(y_files) p1 = Some (lit "k = 1 # x") /\ parse (new_parser demo.(x_ovf)) (lit "k = 1 # x") = Ok (s, Full) /\
  called (lit "get-children") (lit "c/get-children") /\ wanting ex_no_get (lit "get-children") /\
  (forall m, In m command_names -> m <> lit "get-children" -> ex_no_get.(a_has) m = false).
Proof.
  eexists. split; [reflexivity|]. split.
  { intros m I (W & G). cbn [setting_names In] in I.
    repeat (destruct I as [<-|I]; [first [discriminate W|discriminate G]|]). destruct I. }
  split; [reflexivity|]. split; [reflexivity|]. split; [vm_compute; reflexivity|]. split; [constructor|]. split; [split; reflexivity|].
  intros m I N. cbn [command_names In] in I.
  repeat (destruct I as [<-|I]; [first [reflexivity|exfalso; apply N; reflexivity]|]). destruct I.
Qed.
