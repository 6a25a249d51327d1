(** Property C73: a value printed on its own is TOML and is read back as itself.
    Statements use [ShowSpec], [CliSpec] (how a value is printed) and [DocSpec]. *)
From Verif Require Import Str Types Ast State Nom Keys Grammar Api Spec DocSpec ApiSpec CliSpec ShowSpec CtorFacts CliFacts ShowFacts PropNest.

(** the text of every value that can be printed *)
Theorem C73_text : forall v, printable v -> show_value v = Ok (value_text v).
Proof. exact show_value_text. Qed.
Print Assumptions C73_text.

(** a value built by a program, printed and put after a key *)
Theorem C73_print_read : forall ovf k v, key_name k -> writable v ->
  exists t s, show_value v = Ok t /\ spells v t /\
    parse (new_parser ovf) (one_line k t) = Ok (s, Full) /\
    forall p, good_path p -> get_value s (k ++ path_text p) = Ok (at_path v p) /\
      get_children s (k ++ path_text p) = option_map kids_of (at_path v p).
Proof.
  intros ovf k v K W. pose proof (writable_spells v W) as S.
  destruct (one_line_read ovf k v _ K S) as (s & A & B). exists (value_text v), s.
  split; [apply show_value_text, writable_printable, W|]. auto.
Qed.
Print Assumptions C73_print_read.

(** a value of a document, however it is spelled there, printed and put after a
    key of another document *)
Theorem C73_reprint : forall ovf k v t, key_name k -> spells v t -> printable v ->
  exists t' s, show_value v = Ok t' /\ spells v t' /\
    parse (new_parser ovf) (one_line k t') = Ok (s, Full) /\ get_value s k = Ok (Some v).
Proof.
  intros ovf k v t K S P. destruct (C73_print_read ovf k v K (spells_writable v t S P)) as (t' & s & A & B & C & D).
  exists t', s. repeat split; auto. destruct (D [] (Forall_nil _)) as [G _].
  change (path_text []) with (@nil N) in G. rewrite app_nil_r in G. exact G.
Qed.
Print Assumptions C73_reprint.

Definition c73_value : value :=
  VInlineTable [(lit "xs", VArray [VArray [VInteger (lit "1"); VInteger (lit "-2")]; VArray [VString (lit "a,b") SLiteral]]);
                (lit """q r""", VBoolean true);
                (lit "d", VDateTime {| dt_date := {| d_year := lit "1979"; d_month := lit "05"; d_day := lit "27" |}; dt_time := None |})].

Example C73_ex : key_name (lit "k") /\ writable c73_value /\ printable c73_value /\
  show_value c73_value = Ok (lit "{xs = [[1, -2], ['a,b']], ""q r"" = true, d = 1979-05-27}") /\
  exists s, parse (new_parser true) (lit "k = {xs = [[1, -2], ['a,b']], ""q r"" = true, d = 1979-05-27}") = Ok (s, Full) /\
    get_value s (lit "k") = Ok (Some c73_value) /\
    get_value s (lit "k.xs[1][0]") = Ok (Some (VString (lit "a,b") SLiteral)).
Proof.
  assert (W : writable c73_value).
  { apply Wr_inline; [discriminate| |].
    - constructor; [|constructor; [|constructor; [|constructor]]]; cbn [fst snd].
      + split; [bare|]. apply Wr_array; [discriminate| |].
        * constructor; [|constructor; [|constructor]].
          -- apply Wr_array; [discriminate| |].
             ++ constructor; [|constructor; [|constructor]]; apply Wr_scalar; apply Sc_int.
                ** exists [], (lit "1"). split; [reflexivity|]. split; [left; reflexivity|].
                   exists 49, []. repeat split; try discriminate. constructor.
                ** exists (lit "-"), (lit "2"). split; [reflexivity|]. split; [right; right; reflexivity|].
                   exists 50, []. repeat split; try discriminate. constructor.
             ++ intros a b [<-|[<-|[]]] [<-|[<-|[]]]; reflexivity.
          -- apply Wr_array; [discriminate| |].
             ++ constructor; [|constructor]. apply Wr_scalar. apply Sc_literal. unfold literal_body. chars.
             ++ intros a b [<-|[]] [<-|[]]; reflexivity.
        * intros a b [<-|[<-|[]]] [<-|[<-|[]]]; reflexivity.
      + split.
        * bare.
        * apply Wr_scalar. apply Sc_true.
      + split; [bare|]. apply Wr_scalar. apply Sc_date. split; [|split; [|exact I]].
        * split; [|exact I]. repeat split; unfold digits; chars.
        * split; [|exact I]. vm_compute. repeat split; discriminate.
    - repeat constructor; cbn; intuition discriminate. }
  split; [bare|]. split; [exact W|]. split; [apply writable_printable, W|].
  split; [vm_compute; reflexivity|]. eexists. split; [vm_compute; reflexivity|]. split; vm_compute; reflexivity.
Qed.
