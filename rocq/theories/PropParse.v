(** Properties of parsing and printing whole documents. *)
From Coq Require Import Lia ZifyBool ZifyNat ZifyN.
From Verif Require Import Str Regex Types Ast State Nom Keys Grammar Api Facts Spec.
From Verif Require Import RegexFacts StringFacts ScalarFacts NomFacts LineFacts FlatFacts RoundTrip Effects ParseFacts PropFlat.

(** ** C01 *)
Theorem C01_lossless : forall s i s' r t, parse s i = Ok (s', r) ->
  r = Full \/ (exists e, r = FullError e) ->
  show_parser s' = Ok t -> t = i.
Proof.
  intros s i s' r t P F S. destruct (parse_inv _ _ _ _ P) as (s1 & rest & d & T & E & -> & R).
  destruct (parse_show _ _ _ _ P) as (rest2 & E2 & L & SH). apply SH in S as [_ ->].
  cbn [p_leftover p_root set_leftover set_root] in *. subst rest2.
  destruct rest as [|c rest]; [rewrite app_nil_r in E; auto|].
  exfalso. match type of R with _ = match ?x with _ => _ end => destruct x end; subst; destruct F as [F|[e F]]; discriminate.
Qed.
Print Assumptions C01_lossless.

(** ** C02 *)
Theorem C02_prefix : forall s i s' r t, parse s i = Ok (s', r) -> show_parser s' = Ok t ->
  exists rest, i = t ++ rest /\
    (rest = [] <-> r = Full \/ exists e, r = FullError e) /\
    (rest <> [] <-> exists l n, r = Partial l n \/ exists e, r = PartialError l n e).
Proof.
  intros s i s' r t P S. destruct (parse_inv _ _ _ _ P) as (s1 & rest & d & T & E & -> & R).
  destruct (parse_show _ _ _ _ P) as (rest2 & E2 & L & SH). apply SH in S as [_ ->].
  cbn [p_leftover p_root set_leftover set_root] in *. subst rest2. exists rest. split; auto.
  assert (D : match rest with [] => (r = Full \/ exists e, r = FullError e)
              | _ => exists l n, r = Partial l n \/ exists e, r = PartialError l n e end).
  { rewrite R. destruct rest; match goal with |- context [match ?x with _ => _ end] => destruct x end; eauto 6. }
  assert (N : ~ ((r = Full \/ exists e, r = FullError e) /\
                 (exists l n, r = Partial l n \/ exists e, r = PartialError l n e))).
  { intros [[->|[e ->]] (l & n & [X|[e' X]])]; discriminate. }
  destruct rest as [|c rest]; repeat split; intros H; auto; try congruence; try tauto; try discriminate.
Qed.
Print Assumptions C02_prefix.

Definition c01_text : str :=
  ulit "# é comment " ++ [13;10] ++ lit "  a =  [ 1 , # one" ++ [10] ++ lit " 2,]  # after" ++ [10;10] ++
  lit "[ t . ""x y"" ]  " ++ [10] ++ lit "b = { c = 'q' ,d=1979-05-27T07:32:00.999-07:00 }" ++ [13;10] ++
  lit "[[s]]#end".
Example C01_ex : exists s, parse (new_parser true) c01_text = Ok (s, Full) /\ show_parser s = Ok c01_text.
Proof.
  destruct (parse (new_parser true) c01_text) as [[s r]| |] eqn:E; try (vm_compute in E; discriminate).
  exists s. vm_compute in E. inversion E; subst. vm_compute. auto.
Qed.
Example C02_ex : exists s, parse (new_parser true) (lit "a = 1 b") = Ok (s, Partial [] 1) /\
  show_parser s = Ok (lit "a = 1 ").
Proof. eexists. split; [vm_compute; reflexivity|]. vm_compute. reflexivity. Qed.

(** ** C03: false as stated; the leftover reported is the one of the previous parse *)
Theorem C03_leftover_refuted :
  exists s, parse (new_parser true) (lit "a = 1 b") = Ok (s, Partial [] 1).
Proof. eexists. vm_compute. reflexivity. Qed.
Print Assumptions C03_leftover_refuted.

Lemma leftover_same : pres (fun s s' => p_leftover s' = p_leftover s) toml_p.
Proof.
  apply pres_toml; intros; try reflexivity; try congruence.
  - apply insert_effect in H as [(fk & v & ->)|(m & ->)]; reflexivity.
  - apply std_table_effect in H as [_ [(kc & ts & ti & tk & ->)|(kc & ts & ti & m & ->)]]; reflexivity.
  - apply array_table_effect in H as [_ [(kc & ts & ti & m & tk & ->)|(kc & ts & ti & m & ->)]]; reflexivity.
Qed.

(** what is reported is always the leftover of the parse before ([s] may be the
    parser left by an earlier parse); the true remainder is only stored *)
Theorem C03_leftover_partial : forall s i s' r l n, parse s i = Ok (s', r) ->
  r = Partial l n \/ (exists e, r = PartialError l n e) ->
  l = s.(p_leftover) /\ s'.(p_leftover) <> [] /\ exists t, i = t ++ s'.(p_leftover).
Proof.
  intros s i s' r l n P H. destruct (parse_inv _ _ _ _ P) as (s1 & rest & d & T & E & -> & R).
  apply leftover_same in T. cbn [p_leftover set_leftover].
  destruct rest as [|c rest].
  - exfalso. match type of R with _ = match ?x with _ => _ end => destruct x end; subst;
      destruct H as [H|[e H]]; discriminate.
  - split; [|split; [discriminate|eauto]].
    match type of R with _ = match ?x with _ => _ end => destruct x end; subst;
      destruct H as [H|[e H]]; inversion H; subst; auto.
Qed.
Print Assumptions C03_leftover_partial.
Example C03_ex : exists s1 s2, parse (new_parser true) (lit "a = 1 b") = Ok (s1, Partial [] 1) /\
  parse s1 (lit "c = 2 ddd") = Ok (s2, Partial (lit "b") 1) /\ s2.(p_leftover) = lit "ddd".
Proof. do 2 eexists. split; [vm_compute; reflexivity|]. vm_compute. auto. Qed.

(** ** C04 *)
Theorem C04_terminates : forall s i, parse s i <> Fuel /\
  forall s' r, parse s i = Ok (s', r) ->
    r = Full \/ (exists e, r = FullError e) \/ (exists l n, r = Partial l n) \/
    (exists l n e, r = PartialError l n e).
Proof.
  intros s i. split.
  - unfold parse. apply rbind_nf; [apply (nf_toml (length i)); auto|]. intros [s1 r] E.
    destruct (toml_done _ _ _ _ E) as (rest & t & ->). discriminate.
  - intros s' r P. destruct (parse_inv _ _ _ _ P) as (s1 & rest & d & T & E & -> & R). rewrite R.
    destruct rest; match goal with |- context [match ?x with _ => _ end] => destruct x end; eauto 8.
Qed.
Print Assumptions C04_terminates.
(** a parser that already holds a document and errors *)
Example C04_ex : exists s1 s2 e, parse (new_parser true) (lit "a = [[1, [2]], {x = [") = Ok (s1, e) /\
  parse s1 (lit "[[[") = Ok (s2, PartialError (lit "a = [[1, [2]], {x = [") 1 [EMixedArray (lit "a[0]") 1]).
Proof. do 3 eexists. split; [vm_compute; reflexivity|]. vm_compute. reflexivity. Qed.

(** ** C05: false as stated *)
Theorem C05_show_refuted : exists s, parse (new_parser true) (lit "a = {}") = Ok (s, Full) /\
  show_parser s = Panic.
Proof. eexists. split; [vm_compute; reflexivity|]. vm_compute. reflexivity. Qed.
Print Assumptions C05_show_refuted.

(** the print completes exactly if there is no empty inline table anywhere *)
Theorem C05_show_partial : forall s i s' r, parse s i = Ok (s', r) ->
  ((exists t, show_parser s' = Ok t) <-> doc_printable s'.(p_root)).
Proof.
  intros s i s' r P. destruct (parse_show _ _ _ _ P) as (rest2 & E2 & L & SH). split.
  - intros [t H]. apply SH in H. tauto.
  - intros H. eexists. apply SH. auto.
Qed.
Print Assumptions C05_show_partial.
Example C05_ex : exists s r, parse (new_parser true) c01_text = Ok (s, r) /\ doc_printable s.(p_root).
Proof.
  destruct (parse (new_parser true) c01_text) as [[s r]| |] eqn:E; try (vm_compute in E; discriminate).
  exists s, r. split; auto. apply (C05_show_partial _ _ _ _ E). vm_compute in E. inversion E; subst.
  vm_compute. eauto.
Qed.

(** ** C06: false as stated, with and without overflow checks *)
Theorem C06_no_panic_refuted :
  (forall ovf, parse (new_parser ovf) (lit "[[a]]" ++ [10] ++ lit "[b]" ++ [10] ++ lit "[a.c]") = Panic) /\
  parse (new_parser true) (lit "a = 1" ++ [10] ++ lit "[[a]]") = Panic /\
  (forall ovf, parse (new_parser ovf) (lit "[a]" ++ [10] ++ lit "[a]" ++ [10] ++ lit "x = [2]" ++ [10] ++ lit "[x.y]") = Panic).
Proof. split; [intros []|split; [|intros []]]; vm_compute; reflexivity. Qed.
Print Assumptions C06_no_panic_refuted.

(** ** C07: false as stated: line ends inside arrays are not counted *)
Theorem C07_line_refuted : exists s, parse (new_parser true) (lit "a = [1," ++ [10] ++ lit "2]" ++ [10] ++ lit "b") =
  Ok (s, Partial [] 2).
Proof. eexists. vm_compute. reflexivity. Qed.
Print Assumptions C07_line_refuted.

(** ** C11 *)
Theorem C11_errors_reported : forall s i s' r, parse s i = Ok (s', r) ->
  match r with
  | Full | Partial _ _ => s'.(p_errors) = []
  | FullError e | PartialError _ _ e => e = s'.(p_errors) /\ e <> []
  | Failure _ => False
  end.
Proof.
  intros s i s' r P. destruct (parse_inv _ _ _ _ P) as (s1 & rest & d & T & E & -> & R). rewrite R.
  destruct rest; destruct (p_errors (set_leftover _ _)) eqn:X; auto; split; auto; discriminate.
Qed.
Print Assumptions C11_errors_reported.

(** the errors of an earlier parse stay, in order; only the list of key/values
    attached to an invalid table can become longer *)
Theorem C11_errors_kept : forall s i s' r, parse s i = Ok (s', r) ->
  exists old new, s'.(p_errors) = old ++ new /\
    Forall2 (fun e e' => e = e' \/
      exists k l kvs kvs', e = EInvalidTable k l kvs /\ e' = EInvalidTable k l kvs' /\
                           incl (map fst kvs) (map fst kvs')) s.(p_errors) old.
Proof.
  intros s i s' r P. destruct (parse_inv _ _ _ _ P) as (s1 & rest & d & T & E & -> & R).
  apply grow_toml in T as (a & b & E1 & F). exists a, b. split; auto.
Qed.
Print Assumptions C11_errors_kept.
Example C11_ex : exists s1 s2, parse (new_parser true) (lit "a = 1" ++ [10] ++ lit "a = 2") =
    Ok (s1, FullError [EDuplicateKey (lit "a") 2 (VInteger (lit "2"))]) /\
  parse s1 (lit "[t]" ++ [10] ++ lit "a = 7" ++ [10] ++ lit "a = 8") =
    Ok (s2, FullError [EDuplicateKey (lit "a") 2 (VInteger (lit "2")); EDuplicateKey (lit "t.a") 4 (VInteger (lit "8"))]).
Proof. do 2 eexists. split; [vm_compute; reflexivity|]. vm_compute. reflexivity. Qed.

(** ** C44: false as stated *)
Theorem C44_comment_refuted : exists s, parse (new_parser true) (lit "# " ++ [0x1F600]) = Ok (s, Partial [] 1).
Proof. eexists. vm_compute. reflexivity. Qed.
Print Assumptions C44_comment_refuted.

(** the exact answer: everything up to the first character above U+10FFF is read *)
Lemma comment_line : forall ovf c, Forall (fun x => x = 9 \/ 32 <= x) c ->
  exists s, parse (new_parser ovf) (lit "#" ++ c) =
    Ok (s, match drop_while not_eol c with [] => Full | _ => Partial [] 1 end).
Proof.
  intros ovf c H. set (s := new_parser ovf).
  assert (E : expression_p s (lit "#" ++ c) = Ok (s, Done (drop_while not_eol c)
    {| e_ws := {| ws1 := []; ws2 := [] |}; e_keyval := None; e_table := None; e_comment := Some (take_wh not_eol c) |})).
  { unfold expression_p. change (lit "#" ++ c) with ([] ++ 35 :: c).
    erewrite alt_err.
    2:{ apply table_comment_err; [constructor|simpl; lia|simpl; lia]. }
    erewrite alt_err.
    2:{ apply complete_err. left. unfold keyval_comment. erewrite bind_ok by (apply ws_ok; [constructor|simpl; lia]).
        apply bind_err. unfold keyval_p, keyval_p_. apply bind_err, key_p_err. unfold bare_char. lia. }
    apply alt_ok, complete_ok. unfold ws_comment. erewrite bind_ok by (apply ws_ok; [constructor|simpl; lia]).
    erewrite bind_ok; [reflexivity|]. unfold comment. change (35 :: c) with (lit "#" ++ c).
    erewrite bind_ok by apply tag_ok. erewrite bind_ok; [reflexivity|]. unfold take_while. rewrite span_eq. reflexivity. }
  assert (D : match drop_while not_eol c with [] => True | x :: _ => x <> 10 /\ x <> 13 end).
  { clear E. induction H as [|x c Hx H IH]; simpl; auto. destruct (not_eol x); auto. lia. }
  unfold parse, toml_p. erewrite bind_ok by exact E.
  assert (M : nl_expressions s (drop_while not_eol c) = Ok (s, Done (drop_while not_eol c) [])).
  { unfold nl_expressions, many0. destruct (drop_while not_eol c) as [|x r]; [reflexivity|].
    cbn [many_loop]. unfold nl_expression_p at 1. erewrite bind_err; [reflexivity|].
    unfold newline. erewrite alt_err.
    - apply bind_err, ctag_fail. cbn. destruct (10 =? x) eqn:Q; auto. lia.
    - apply bind_err, ctag_fail. cbn. destruct (13 =? x) eqn:Q; auto. lia. }
  erewrite bind_ok by exact M. cbn [rbind ret].
  destruct (drop_while not_eol c) as [|x r]; eexists; reflexivity.
Qed.

Theorem C44_comment_partial : forall ovf c, Forall (fun x => x = 9 \/ 32 <= x) c ->
  ((exists s, parse (new_parser ovf) (lit "#" ++ c) = Ok (s, Full)) <-> Forall (fun x => x <= 0x10FFF) c).
Proof.
  intros ovf c H. destruct (comment_line ovf c H) as [s E].
  assert (D : drop_while not_eol c = [] <-> Forall (fun x => x <= 0x10FFF) c).
  { clear E s. induction H as [|x c Hx H IH]; simpl; [split; auto|].
    destruct (not_eol x) eqn:Q; unfold not_eol in Q.
    - rewrite IH. split; intros F; [constructor; auto; lia|inversion F; auto].
    - split; [discriminate|]. intros F. inversion F; subst. lia. }
  rewrite <- D. split.
  - intros [s' E']. rewrite E in E'. destruct (drop_while not_eol c); auto. discriminate.
  - intros Z. rewrite Z in E. eauto.
Qed.
Print Assumptions C44_comment_partial.
Example C44_ex : let c := ulit " naïve – ☃ ""quotes"" # and [brackets]" in
  Forall (fun x => x = 9 \/ 32 <= x) c /\ Forall (fun x => x <= 0x10FFF) c.
Proof.
  cbv zeta. match goal with |- Forall _ ?l /\ _ => let x := eval vm_compute in l in change l with x end.
  split; repeat (apply Forall_cons; [lia|]); apply Forall_nil.
Qed.

(** ** C45: false as stated *)
Theorem C45_show_refuted : forall ovf, show_parser (new_parser ovf) = Panic.
Proof. reflexivity. Qed.
Print Assumptions C45_show_refuted.
