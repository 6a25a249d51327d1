(** Facts about the command line. *)
From Verif Require Import Str Types Ast State Api Cli Main Args ArgsSpec.

Lemma arg_there a n : ~ wanting a n -> a.(a_has) n = true -> exists t, a.(a_get) n = Some t.
Proof. intros W H. destruct (a_get a n) as [t|] eqn:G; eauto. exfalso. apply W. split; auto. Qed.

Lemma option_arg_ok a n said d : ~ wanting a n ->
  option_arg a n said d = inr (match given_to a n with Some t => t | None => d end).
Proof.
  intros W. unfold option_arg, given_to. destruct (a_has a n) eqn:H; [|reflexivity].
  destruct (arg_there a n W H) as (t & E). rewrite E. reflexivity.
Qed.
Lemma option_arg_bad a n said d : wanting a n -> option_arg a n said d = inl (lacks said).
Proof. intros (H & G). unfold option_arg. rewrite H, G. reflexivity. Qed.
Lemma option_arg_cases a n said d : {t | option_arg a n said d = inr t} + {option_arg a n said d = inl (lacks said)}.
Proof. unfold option_arg. destruct (a_has a n); [destruct (a_get a n)|]; eauto. Qed.

Ltac wants W := apply W; vm_compute; tauto.
Lemma options_ok a : nothing_wanting a -> options_given a = inr (new_options (flags_of a)).
Proof.
  intros W. unfold options_given. rewrite !option_arg_ok by wants W. reflexivity.
Qed.

Lemma command_ok {A} a path n said rs (d : A) run k : ~ wanting a n ->
  command_given a path n said rs d run k = orun None (step (given_to a n) rs d run) (fun '(rs, y) => k rs y).
Proof.
  intros W. unfold command_given, step, given_to. destruct (a_has a n) eqn:H.
  - destruct (arg_there a n W H) as (t & E). rewrite E. rewrite Bool.andb_true_r.
    destruct (last_good rs); [|reflexivity]. destruct (run t) as [(r, y)| |]; reflexivity.
  - rewrite Bool.andb_false_r. reflexivity.
Qed.

Lemma orun_ext {A} f (r : res A) k1 k2 : (forall a, r = Ok a -> k1 a = k2 a) -> orun f r k1 = orun f r k2.
Proof. intros H. destruct r; cbn; auto. Qed.

Lemma document_ok x o a path text : nothing_wanting a ->
  document_given x o a path text = process_document x o (commands_of a) path text.
Proof.
  intros W. unfold document_given, process_document. apply orun_ext. intros (s, r) _.
  destruct (refusal x path r); [reflexivity|].
  rewrite command_ok by wants W. apply orun_ext. intros (rs, u) _.
  rewrite command_ok by wants W. apply orun_ext. intros (rs2, u2) _.
  rewrite command_ok by wants W. apply orun_ext. intros (rs3, u3) _.
  rewrite command_ok by wants W. apply orun_ext. intros (rs4, u4) _.
  cbn [m_set m_out commands_of]. unfold given_to.
  destruct (a_has a (lit "set-value")) eqn:H.
  - destruct (arg_there a (lit "set-value")) as (t & E); [wants W|exact H|]. rewrite E, Bool.andb_true_r.
    destruct (last_good rs4) eqn:LG.
    + apply orun_ext. intros (s', r') _.
      destruct (a_has a (lit "output-file")) eqn:HO; [|reflexivity].
      destruct (arg_there a (lit "output-file")) as (t' & E'); [wants W|exact HO|]. rewrite E'. reflexivity.
    + destruct rs4; [discriminate LG|reflexivity].
  - rewrite Bool.andb_false_r. reflexivity.
Qed.

Lemma file_ok x o a y path : nothing_wanting a -> file_given x o a y path = process_file x o (commands_of a) y path.
Proof.
  intros W. unfold file_given, process_file. destruct (y_files y path); [|reflexivity].
  rewrite document_ok by exact W. reflexivity.
Qed.
Lemma names_ok x o a lines : nothing_wanting a -> forall y, names_given x o a y lines = process_names x o (commands_of a) y lines.
Proof.
  intros W. induction lines as [|l rest IH]; intros y; [reflexivity|]. cbn [names_given process_names].
  rewrite file_ok by exact W. destruct (f_end (process_file x o (commands_of a) y (trim l))); try reflexivity.
  rewrite IH. reflexivity.
Qed.

Lemma main_ok x a y stdin : nothing_wanting a -> a.(a_has) (lit "help") = false ->
  main_given x (inr a) y stdin =
  main x (new_options (flags_of a)) (commands_of a) y (given_to a (lit "input-file")) stdin.
Proof.
  intros W H. unfold main_given, main. rewrite H, options_ok by exact W. unfold given_to.
  destruct (a_has a (lit "input-file")) eqn:HI.
  - destruct (arg_there a (lit "input-file")) as (t & E); [wants W|exact HI|]. rewrite E. apply file_ok, W.
  - apply names_ok, W.
Qed.

(** *** no file is written *)
Definition no_file (r : outcome) : Prop := match r with Finished _ f | Crash f => f = None | _ => True end.
Lemma no_orun {A} (r : res A) k : (forall a, no_file (k a)) -> no_file (orun None r k).
Proof. intros H. destruct r; cbn; auto. Qed.
Lemma no_finish o path rs s : no_file (finish o path None rs s).
Proof. unfold finish. destruct (o_print o); [apply no_orun|]; cbn; auto. Qed.
Lemma no_command {A} a path n said rs (d : A) run k : (forall rs y, no_file (k rs y)) ->
  no_file (command_given a path n said rs d run k).
Proof.
  intros H. unfold command_given. destruct (last_good rs && a_has a n); [|apply H].
  destruct (a_get a n); [|exact I]. apply no_orun. intros (r, y). apply H.
Qed.
(** after a command that lacks its argument only runs with a bad result go on *)
Lemma no_command_wanting {A} a path n said rs (d : A) run k : wanting a n ->
  (forall rs y, last_good rs = false -> no_file (k rs y)) -> no_file (command_given a path n said rs d run k).
Proof.
  intros (H & G) K. unfold command_given. rewrite H, G, Bool.andb_true_r.
  destruct (last_good rs) eqn:L; [exact I|]. apply K, L.
Qed.
Lemma no_command_bad {A} a path n said rs (d : A) run k : last_good rs = false ->
  (forall rs y, last_good rs = false -> no_file (k rs y)) -> no_file (command_given a path n said rs d run k).
Proof. intros L K. unfold command_given. rewrite L. apply K, L. Qed.

(** the end of a run, after the commands that leave the document alone *)
Definition ending_part (x : ext) (o : options) (a : given) (path : str) (s : pst) (rs : list cres) : outcome :=
  if last_good rs && a.(a_has) (lit "set-value") then
    match a.(a_get) (lit "set-value") with
    | Some v =>
        orun None (cli_set_value x v o.(o_sep) o.(o_quiet) s) (fun '(s, r) =>
        match (if a.(a_has) (lit "output-file") then a.(a_get) (lit "output-file") else Some path) with
        | Some out_file =>
            match r with
            | Good _ => orun (Some (out_file, [])) (show_parser s)
                          (fun t => finish o path (Some (out_file, t)) (rs ++ [r]) s)
            | Bad _ => finish o path None (rs ++ [r]) s
            end
        | None => Usage (lacks_in path (lit "output-file"))
        end)
    | None => Usage (lacks_in path (lit "s/set-value"))
    end
  else
    match rs with
    | [] => Usage (line_of (lit "Error " ++ dq ++ path ++ dq ++ lit ": No command was specified."))
    | _ => finish o path None rs s
    end.
Lemma no_ending_bad x o a path s rs : last_good rs = false -> no_file (ending_part x o a path s rs).
Proof. intros L. unfold ending_part. rewrite L. cbn [andb]. destruct rs; [exact I|apply no_finish]. Qed.
Lemma no_ending x o a path s rs :
  given_to a (lit "set-value") = None \/ wanting a (lit "output-file") -> no_file (ending_part x o a path s rs).
Proof.
  intros H. destruct (last_good rs) eqn:L; [|apply no_ending_bad, L]. unfold ending_part. rewrite L. cbn [andb].
  destruct (a_has a (lit "set-value")) eqn:HS.
  - destruct (a_get a (lit "set-value")) eqn:GS; [|exact I]. destruct H as [H|(HO & GO)].
    + unfold given_to in H. rewrite HS, GS in H. discriminate H.
    + apply no_orun. intros (s', r'). rewrite HO, GO. exact I.
  - destruct rs; [exact I|apply no_finish].
Qed.

Lemma no_document x o a path text :
  (exists n, In n command_names /\ wanting a n) \/ given_to a (lit "set-value") = None -> no_file (document_given x o a path text).
Proof.
  intros H. unfold document_given. apply no_orun. intros (s, r). destruct (refusal x path r); [exact I|].
  assert (E : given_to a (lit "set-value") = None \/ wanting a (lit "output-file") -> forall rs, no_file (ending_part x o a path s rs))
    by (intros; apply no_ending; auto).
  pose proof (fun rs => no_ending_bad x o a path s rs) as B.
  destruct H as [(n & I & W)|H].
  - cbn [command_names In] in I.
    destruct I as [<-|[<-|[<-|[<-|[<-|[<-|[]]]]]]].
    + apply no_command_wanting; [exact W|]. intros. apply no_command_bad; [assumption|]. intros. apply no_command_bad; [assumption|].
      intros. apply no_command_bad; [assumption|]. intros. apply B. assumption.
    + apply no_command. intros. apply no_command_wanting; [exact W|]. intros. apply no_command_bad; [assumption|].
      intros. apply no_command_bad; [assumption|]. intros. apply B. assumption.
    + apply no_command. intros. apply no_command. intros. apply no_command_wanting; [exact W|].
      intros. apply no_command_bad; [assumption|]. intros. apply B. assumption.
    + apply no_command. intros. apply no_command. intros. apply no_command. intros. apply no_command_wanting; [exact W|].
      intros. apply B. assumption.
    + do 4 (apply no_command; intros). apply E. left. unfold given_to. rewrite (proj1 W). exact (proj2 W).
    + do 4 (apply no_command; intros). apply E. right. exact W.
  - do 4 (apply no_command; intros). apply E. left. exact H.
Qed.

Definition writes_none (a : given) : Prop := (exists n, In n command_names /\ wanting a n) \/ given_to a (lit "set-value") = None.
Lemma file_none x o a y path : writes_none a -> (file_given x o a y path).(f_files) = y.(y_files).
Proof.
  intros H. unfold file_given. destruct (y_files y path) as [text|]; [|reflexivity].
  pose proof (no_document x o a path text H) as N.
  destruct (document_given x o a path text); cbn in N; subst; reflexivity.
Qed.
Lemma names_none x o a lines : writes_none a -> forall y, (names_given x o a y lines).(f_files) = y.(y_files).
Proof.
  intros H. induction lines as [|l rest IH]; intros y; [reflexivity|]. cbn [names_given].
  pose proof (file_none x o a y (trim l) H) as F.
  destruct (f_end (file_given x o a y (trim l))); try exact F. cbn [f_files]. rewrite IH. exact F.
Qed.

(** which message: the first setting that lacks its argument *)
Lemma settings_stop x a y stdin n : a.(a_has) (lit "help") = false -> In n setting_names -> wanting a n ->
  exists said, main_given x (inr a) y stdin = After (lacks said) y.(y_files) Exited.
Proof.
  intros H I W. unfold main_given. rewrite H.
  assert (O : (exists said, options_given a = inl (lacks said)) \/ (n = lit "input-file" /\ exists o, options_given a = inr o)).
  { unfold options_given. cbn [setting_names In] in I.
    destruct I as [E|[E|[E|[E|[E|[E|[E|[]]]]]]]]; subst n;
    repeat match goal with
    | |- context [or_exit (option_arg a ?n ?said ?d) _] =>
        first [rewrite (option_arg_bad a n said d W); left; eexists; reflexivity
              |destruct (option_arg_cases a n said d) as [(? & ->)| ->]; cbn [or_exit]; [|left; eexists; reflexivity]]
    end.
    right. eauto. }
  destruct O as [(said & ->)|(-> & o & ->)]; [eauto|]. destruct W as (HI & GI). rewrite HI, GI. eauto.
Qed.

Lemma given_none x args y stdin :
  (forall a, args = inr a -> a.(a_has) (lit "help") = true \/ given_to a (lit "set-value") = None \/
     exists n, In n (setting_names ++ command_names) /\ wanting a n) ->
  (main_given x args y stdin).(f_files) = y.(y_files).
Proof.
  destruct args as [e|a]; intros H; [reflexivity|]. specialize (H a eq_refl).
  destruct (a_has a (lit "help")) eqn:HH; [unfold main_given; rewrite HH; reflexivity|].
  destruct H as [H|H]; [discriminate H|].
  assert (C : (exists n, In n setting_names /\ wanting a n) \/ writes_none a).
  { destruct H as [H|(n & I & W)]; [right; right; exact H|]. apply in_app_iff in I. destruct I; [left|right; left]; eauto. }
  destruct C as [(n & I & W)|C].
  - destruct (settings_stop x a y stdin n HH I W) as (said & ->). reflexivity.
  - unfold main_given. rewrite HH. destruct (options_given a); [reflexivity|].
    destruct (a_has a (lit "input-file")); [destruct (a_get a (lit "input-file")); [apply file_none, C|reflexivity]|apply names_none, C].
Qed.

(** *** the messages *)
Lemma lacks_eq n : lacks n = wants_argument n.
Proof. unfold lacks, wants_argument, line_of. rewrite <- !app_assoc. reflexivity. Qed.
Lemma lacks_in_eq p n : lacks_in p n = wants_argument_in p n.
Proof. unfold lacks_in, wants_argument_in, line_of. rewrite <- !app_assoc. reflexivity. Qed.
Lemma option_arg_fine a n said d : ~ wanting a n -> {t | option_arg a n said d = inr t}.
Proof. intros W. rewrite option_arg_ok by exact W. eauto. Qed.

Lemma setting_message x a y stdin n : a.(a_has) (lit "help") = false -> In n well_named -> wanting a n ->
  (forall m, In m setting_names -> m <> n -> ~ wanting a m) ->
  main_given x (inr a) y stdin = After (wants_argument n) y.(y_files) Exited.
Proof.
  intros H I W O. rewrite <- lacks_eq. unfold main_given. rewrite H. unfold options_given.
  assert (P : forall m said d, In m setting_names -> m <> n -> exists t, option_arg a m said d = inr t).
  { intros m said d J N. destruct (option_arg_fine a m said d (O m J N)) as (t & E). eauto. }
  cbn [well_named In] in I.
  destruct I as [E|[E|[E|[E|[E|[]]]]]]; subst n;
    repeat match goal with
    | |- context [or_exit (option_arg ?a ?n ?said ?d) _] =>
        first [rewrite (option_arg_bad a n said d W); reflexivity
              |let t := fresh in let E := fresh in
               destruct (P n said d) as (t & E); [vm_compute; tauto|discriminate|]; rewrite E; clear E; cbn [or_exit]]
    end.
  destruct W as (HI & GI). rewrite HI, GI. reflexivity.
Qed.

Lemma command_skip {A} a path n said rs (d : A) run k : a.(a_has) n = false ->
  command_given a path n said rs d run k = k rs d.
Proof. intros H. unfold command_given. rewrite H, Bool.andb_false_r. reflexivity. Qed.
Lemma command_stop {A} a path n said (d : A) run k : wanting a n ->
  command_given a path n said [] d run k = Usage (lacks_in path said).
Proof. intros (H & G). unfold command_given. rewrite H, G. reflexivity. Qed.

Lemma command_message x a y stdin n l p text s : a.(a_has) (lit "help") = false ->
  (forall m, In m setting_names -> ~ wanting a m) -> given_to a (lit "input-file") = Some p ->
  y.(y_files) p = Some text -> parse (new_parser x.(x_ovf)) text = Ok (s, Full) ->
  called n l -> wanting a n -> (forall m, In m command_names -> m <> n -> a.(a_has) m = false) ->
  main_given x (inr a) y stdin = After (wants_argument_in p l) y.(y_files) Exited.
Proof.
  intros H S GI F P C W O. rewrite <- lacks_in_eq.
  assert (D : forall o, document_given x o a p text = Usage (lacks_in p l)).
  { intros o. unfold document_given. rewrite P. cbn [orun refusal].
    destruct C; repeat first [rewrite command_stop by exact W; reflexivity
                             |rewrite command_skip by (apply O; [vm_compute; tauto|discriminate])].
    destruct W as (HS & GS). rewrite HS, GS. reflexivity. }
  unfold given_to in GI. destruct (a_has a (lit "input-file")) eqn:HI; [|discriminate GI].
  unfold main_given. rewrite H, HI, GI. unfold options_given.
  rewrite !option_arg_ok by (apply S; vm_compute; tauto). cbn [or_exit].
  unfold file_given. rewrite F, D. reflexivity.
Qed.

Lemma wanting_dec a n : wanting a n \/ ~ wanting a n.
Proof. unfold wanting. destruct (a_has a n), (a_get a n); intuition congruence. Qed.
Lemma all_or_none a l : (exists n, In n l /\ wanting a n) \/ (forall n, In n l -> ~ wanting a n).
Proof.
  induction l as [|n l IH]; [right; intros n []|]. destruct (wanting_dec a n) as [W|W]; [left; exists n; split; [left|]; auto|].
  destruct IH as [(m & I & V)|IH]; [left; exists m; split; [right|]; auto|]. right. intros m [<-|I]; auto.
Qed.
