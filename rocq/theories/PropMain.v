(** Properties of runs of tomlkit over several files. *)
From Coq Require Import Lia ZifyBool ZifyNat ZifyN.
From Verif Require Import Str Regex Types Ast State Nom Keys Grammar Api Cli Facts Spec ApiSpec CliSpec.
From Verif Require Import CliFacts PropNest PropCli Main MainSpec MainFacts.

(** for the examples: three files, one of them not well formed; only two paths can be written *)
Definition p1 : str := lit "a.toml".
Definition p2 : str := lit "my file".
Definition p3 : str := lit "bad".
Definition demo_system : system := {|
  y_files := fun q => if str_eqb q p1 then Some (lit "k = 1 # x") else if str_eqb q p2 then Some ([10] ++ lit "k=2" ++ [10])
                      else if str_eqb q p3 then Some (lit "k = 1x") else None;
  y_writable := fun q => str_eqb q p1 || str_eqb q p2;
  y_reason := fun _ => lit "no" |}.
Definition demo_opts : options := new_options no_flags.
Definition demo_stdin : str := lit " a.toml" ++ [13; 10] ++ lit "my file" ++ [9].
Ltac fname := split; [vm_compute; intuition discriminate|split;
  [intros c q H; vm_compute in H; injection H as <- <-; reflexivity
  |intros c q H; apply (f_equal (@rev N)) in H; rewrite rev_app_distr in H; vm_compute in H; injection H as <- H; reflexivity]].
Lemma demo_names : stdin_names demo_stdin [p1; p2].
Proof.
  apply (SN_line [32] p1 [13] (lit "my file" ++ [9]) [p2]); try (repeat constructor; lia); try fname.
  apply (SN_last [] p2 [9]); try (repeat constructor; lia); [fname|discriminate].
Qed.

(** ** C64: every file named on stdin is processed, in order, as if it were alone *)
Theorem C64_several : forall x o m y s names ofs, stdin_names s names -> apart m names ->
  Forall2 (fun p r => alone x o m y p (fst r) (snd r)) names ofs ->
  let r := main x o m y None s in
  r.(f_out) = concat (map fst ofs) /\ r.(f_end) = Ended /\ forall q, r.(f_files) q = written q (map snd ofs) (y.(y_files) q).
Proof. exact main_all. Qed.
Print Assumptions C64_several.
Theorem C64_in_place : forall x o m y s names ofs p out f, stdin_names s names -> m.(m_out) = None -> NoDup names ->
  Forall2 (fun p r => alone x o m y p (fst r) (snd r)) names ofs -> In (p, (out, f)) (combine names ofs) ->
  (main x o m y None s).(f_files) p = match f with Some (_, c) => Some c | None => y.(y_files) p end.
Proof. exact main_in_place. Qed.
Print Assumptions C64_in_place.
(** with an output file only the last document survives *)
Theorem C64_output_last : forall x o m y s names pre p out q c, stdin_names s (names ++ [p]) -> m.(m_out) = Some q ->
  NoDup (names ++ [p]) -> ~ In q (names ++ [p]) ->
  Forall2 (fun p r => alone x o m y p (fst r) (snd r)) names pre -> alone x o m y p out (Some (q, c)) ->
  (main x o m y None s).(f_files) q = Some c.
Proof.
  intros x o m y s names pre p out q c S MO ND NI F A.
  destruct (main_all x o m y s (names ++ [p]) (pre ++ [(out, Some (q, c))]) S) as (_ & _ & W).
  - right. split; auto. rewrite MO. intros f E. injection E as <-. auto.
  - apply Forall2_app; auto.
  - rewrite W, map_app. apply written_last. constructor.
Qed.
Print Assumptions C64_output_last.
Definition set_k : commands := set_values (lit "k,7,int") None.
Example C64_in_place_ex : stdin_names demo_stdin [p1; p2] /\ set_k.(m_out) = None /\ NoDup [p1; p2] /\
  Forall2 (fun p r => alone demo demo_opts set_k demo_system p (fst r) (snd r)) [p1; p2]
    [(lit "Success" ++ [10], Some (p1, lit "k = 7 # x")); (lit "Success" ++ [10], Some (p2, [10] ++ lit "k=7" ++ [10]))] /\
  let r := main demo demo_opts set_k demo_system None demo_stdin in
  r.(f_out) = lit "Success" ++ [10] ++ lit "Success" ++ [10] /\ r.(f_end) = Ended /\ r.(f_files) p1 = Some (lit "k = 7 # x") /\
  r.(f_files) p2 = Some ([10] ++ lit "k=7" ++ [10]) /\ r.(f_files) p3 = Some (lit "k = 1x") /\ r.(f_files) (lit "c") = None.
Proof.
  split; [exact demo_names|]. split; [reflexivity|]. split; [repeat constructor; vm_compute; intuition discriminate|]. split.
  - constructor; [|constructor; [|constructor]]; eexists; (split; [vm_compute; reflexivity|]); (split; [vm_compute; reflexivity|]);
      intros q c H; vm_compute in H; injection H as <- <-; reflexivity.
  - vm_compute. repeat split.
Qed.
Example C64_several_ex : stdin_names demo_stdin [p1; p2] /\ apart (get_values (lit "k")) [p1; p2] /\
  Forall2 (fun p r => alone demo demo_opts (get_values (lit "k")) demo_system p (fst r) (snd r)) [p1; p2]
    [(lit "1" ++ [10], None); (lit "2" ++ [10], None)] /\
  f_out (main demo demo_opts (get_values (lit "k")) demo_system None demo_stdin) = lit "1" ++ [10] ++ lit "2" ++ [10].
Proof.
  split; [exact demo_names|]. split; [left; reflexivity|]. split.
  - constructor; [|constructor; [|constructor]]; eexists; (split; [vm_compute; reflexivity|]); (split; [vm_compute; reflexivity|]); discriminate.
  - vm_compute. reflexivity.
Qed.
Definition set_to (f : str) : commands := set_values (lit "k,7,int") (Some f).
Definition wide_system : system := {| y_files := demo_system.(y_files); y_writable := fun _ => true; y_reason := demo_system.(y_reason) |}.
Example C64_output_last_ex : stdin_names demo_stdin ([p1] ++ [p2]) /\ NoDup ([p1] ++ [p2]) /\ ~ In (lit "o") ([p1] ++ [p2]) /\
  Forall2 (fun p r => alone demo demo_opts (set_to (lit "o")) wide_system p (fst r) (snd r)) [p1]
    [(lit "Success" ++ [10], Some (lit "o", lit "k = 7 # x"))] /\
  alone demo demo_opts (set_to (lit "o")) wide_system p2 (lit "Success" ++ [10]) (Some (lit "o", [10] ++ lit "k=7" ++ [10])) /\
  f_files (main demo demo_opts (set_to (lit "o")) wide_system None demo_stdin) (lit "o") = Some ([10] ++ lit "k=7" ++ [10]).
Proof.
  split; [exact demo_names|]. split; [repeat constructor; vm_compute; intuition discriminate|]. split; [vm_compute; intuition discriminate|]. split; [|split].
  - constructor; [|constructor]. eexists. split; [vm_compute; reflexivity|]. split; [vm_compute; reflexivity|]. reflexivity.
  - eexists. split; [vm_compute; reflexivity|]. split; [vm_compute; reflexivity|]. reflexivity.
  - vm_compute. reflexivity.
Qed.

(** ** C65: the first file that is refused ends the run *)
Theorem C65_stops : forall x o m y s pre p post ofs t, stdin_names s (pre ++ p :: post) -> apart m (pre ++ [p]) ->
  Forall2 (fun p r => alone x o m y p (fst r) (snd r)) pre ofs -> stops x o m y p t ->
  let r := main x o m y None s in
  r.(f_out) = concat (map fst ofs) ++ t /\ r.(f_end) = Exited /\ forall q, r.(f_files) q = written q (map snd ofs) (y.(y_files) q).
Proof. exact main_stops. Qed.
Print Assumptions C65_stops.
Theorem C65_alone : forall x o m y p s t, stops x o m y p t -> main x o m y (Some p) s = After t y.(y_files) Exited.
Proof. intros x o m y p s t S. apply file_stops, S. Qed.
Print Assumptions C65_alone.
Lemma bad_names : stdin_names (lit "a.toml" ++ [10] ++ lit "bad" ++ [10] ++ demo_stdin) ([p1] ++ p3 :: [p1; p2]).
Proof.
  apply (SN_line [] p1 [] _ (p3 :: [p1; p2])); try (repeat constructor; lia); try fname.
  apply (SN_line [] p3 [] demo_stdin); try (repeat constructor; lia); try fname. exact demo_names.
Qed.
Example C65_stops_ex : exists t, stdin_names (lit "a.toml" ++ [10] ++ lit "bad" ++ [10] ++ demo_stdin) ([p1] ++ p3 :: [p1; p2]) /\
  apart set_k ([p1] ++ [p3]) /\
  Forall2 (fun p r => alone demo demo_opts set_k demo_system p (fst r) (snd r)) [p1] [(lit "Success" ++ [10], Some (p1, lit "k = 7 # x"))] /\
  stops demo demo_opts set_k demo_system p3 t /\
  let r := main demo demo_opts set_k demo_system None (lit "a.toml" ++ [10] ++ lit "bad" ++ [10] ++ demo_stdin) in
  r.(f_end) = Exited /\ r.(f_files) p1 = Some (lit "k = 7 # x") /\ r.(f_files) p2 = Some ([10] ++ lit "k=2" ++ [10]).
Proof.
  eexists. split; [exact bad_names|]. split; [|split; [|split]].
  - right. split; [repeat constructor; vm_compute; intuition discriminate|discriminate].
  - constructor; [|constructor]. eexists. split; [vm_compute; reflexivity|]. split; [vm_compute; reflexivity|].
    intros q c H; vm_compute in H; injection H as <- <-; reflexivity.
  - eapply (St_exit _ _ _ _ _ (lit "k = 1x")); vm_compute; reflexivity.
  - vm_compute. repeat split.
Qed.
Example C65_open_ex : stops demo demo_opts set_k demo_system (lit "c") (lit "Error " ++ quoted (lit "c") ++ lit ": Unable to open file: no" ++ [10]).
Proof. apply St_open. reflexivity. Qed.
Example C65_write_ex : stops demo demo_opts (set_to p3) demo_system p1
  (lit "Error " ++ quoted p1 ++ lit ": Unable to write to file: " ++ quoted p3 ++ lit ". Reason: no" ++ [10]).
Proof.
  change (stops demo demo_opts (set_to p3) demo_system p1
    (complaint p1 (lit "Unable to write to file: " ++ quoted p3 ++ lit ". Reason: " ++ y_reason demo_system p3))).
  apply (St_write demo demo_opts (set_to p3) demo_system p1 (lit "k = 1 # x") p3 (lit "k = 7 # x")); vm_compute; reflexivity.
Qed.

(** ** C66: which files a run can change *)
Theorem C66_changes : forall x o m y inp s q, (main x o m y inp s).(f_files) q <> y.(y_files) q ->
  m.(m_set) <> None /\ y.(y_writable) q = true /\
  (m.(m_out) = Some q \/ m.(m_out) = None /\ match inp with Some p => q = p | None => In q (map trim (read_lines [] s)) end).
Proof. exact main_changes. Qed.
Print Assumptions C66_changes.
Theorem C66_names : forall x o m y s names q, stdin_names s names -> (main x o m y None s).(f_files) q <> y.(y_files) q ->
  m.(m_set) <> None /\ y.(y_writable) q = true /\ (m.(m_out) = Some q \/ m.(m_out) = None /\ In q names).
Proof. intros x o m y s names q S H. apply main_changes in H. rewrite (read_names _ _ S) in H. exact H. Qed.
Print Assumptions C66_names.
Example C66_names_ex : stdin_names demo_stdin [p1; p2] /\
  (main demo demo_opts set_k demo_system None demo_stdin).(f_files) p2 <> demo_system.(y_files) p2.
Proof. split; [exact demo_names|]. vm_compute. discriminate. Qed.
