(** The layout of a document has no influence on what is read. *)
From Coq Require Import Lia ZifyBool ZifyNat ZifyN.
From Verif Require Import Str Regex Types Ast State Nom Keys Grammar Api Facts Spec ApiSpec.
From Verif Require Import NumFacts ScalarFacts FlatFacts PropTypes PropFlat DocSpec PropNest MixSpec NestFacts DotSpec TreeSpec WholeSpec WholeFacts PropWhole TwinSpec TwinFacts.

(** C83.  [s] is any parser, new or used, so what follows a document read earlier is
    covered as well. *)
Theorem C83_layout : forall s l l', formed_doc l -> formed_doc l' -> contents l = contents l' ->
  match parse s (tdoc_text l), parse s (tdoc_text l') with
  | Ok (s1, r1), Ok (s2, r2) => alike s1 s2 /\ alike_result r1 r2
  | Panic, Panic => True
  | _, _ => False
  end.
Proof. exact parse_alike. Qed.
Print Assumptions C83_layout.

(** the document of [C81_whole_partial_ex] without blanks and comments, with other line
    ends and with empty lines *)
Definition y_mix := TPlain (HPair [] (lit "k") [] [] (VArray [VInteger (lit "1"); VBoolean true; VDateTime w_30])
  (lit "[1,true,2011-02-30]") [] None).
Definition y_twice := TPlain (HPair [] (lit "k") [] [] (VInlineTable [(lit "a", VInteger (lit "1")); (lit "a", VInteger (lit "2"))])
  (lit "{a=1,a=2}") [] None).
Definition y_head := TPlain (HHead [] [] (lit "x") [([], [], lit "y")] [] [] None).
Definition y_arr := TArr [] [] (lit "x") [] [] [] None.
Definition y_blank := TPlain (HBlank [] None).
Definition y_lines : list (str * tline) :=
  [([], y_blank); ([10], y_mix); ([10], y_twice); ([10], y_blank); ([10], y_head); ([13; 10], y_twice); ([10], y_head); ([10], y_arr); ([10], y_mix)].
Lemma y_formed : formed_doc y_lines.
Proof.
  assert (E : line_end [10]) by (unfold line_end; auto). assert (E2 : line_end [13; 10]) by (unfold line_end; auto).
  assert (M : formed y_mix).
  { unfold y_mix. cbn [formed]. repeat match goal with |- _ /\ _ => split end; try solve [chars|bare|exact I|cbn [com_ok]; chars].
    apply (Dn_array _ [] (lit "1,true,2011-02-30")); [nogap|].
    apply (De_cons _ (lit "1") [] [] _ (lit "true,2011-02-30")); [dints|chars|nogap|].
    apply (De_cons _ (lit "true") [] [] _ (lit "2011-02-30")); [apply Dn_scalar, Sc_true|chars|nogap|].
    apply (De_last _ (lit "2011-02-30") []); [|nogap].
    apply (Dn_date w_30). unfold datetime_digits, date_digits, field, digits, digit. cbn. repeat split; repeat constructor; lia. }
  assert (T : formed y_twice).
  { unfold y_twice. cbn [formed]. repeat match goal with |- _ /\ _ => split end; try solve [chars|bare|exact I].
    apply (Dn_inline _ [] (lit "a=1,a=2")); [chars|]. apply (Df_cons (lit "a") [] [] _ (lit "1") [] [] _ (lit "a=2")); try solve [chars|bare|dints|nogap].
    apply (Df_last (lit "a") [] [] _ (lit "2") []); try solve [chars|bare|dints|nogap]. }
  assert (H : formed y_head).
  { unfold y_head. cbn [formed tline_ok hline_ok]. repeat match goal with |- _ /\ _ => split end; try solve [chars|bare|exact I].
    repeat apply Forall_cons; try apply Forall_nil. cbn [fst snd]. repeat match goal with |- _ /\ _ => split end; try solve [chars|bare]. }
  assert (A : formed y_arr).
  { unfold y_arr. cbn [formed tline_ok hline_ok]. repeat match goal with |- _ /\ _ => split end; try solve [chars|bare|exact I|cbn [com_ok]; chars]. }
  assert (B : formed y_blank).
  { unfold y_blank. cbn [formed tline_ok hline_ok]. split; [chars|exact I]. }
  split; [reflexivity|]. split; [exact B|]. repeat apply Forall_cons; try apply Forall_nil; cbn [fst snd]; split; assumption.
Qed.
(** read by a used parser, with several errors, whose line numbers differ *)
Example C83_layout_ex : formed_doc w_lines /\ formed_doc y_lines /\ contents w_lines = contents y_lines /\
  exists s r0 s1 es1 s2 es2, parse (new_parser true) (lit "[[x]]
q = [1, ") = Ok (s, r0) /\ parse s (tdoc_text w_lines) = Ok (s1, FullError es1) /\ parse s (tdoc_text y_lines) = Ok (s2, FullError es2) /\
  length es1 = 7%nat /\ map lineless es1 = map lineless es2 /\ es1 <> es2 /\
  get_value s1 (lit "x[1].q.k[1]") = get_value s2 (lit "x[1].q.k[1]") /\ get_value s1 (lit "x[1].q.k[1]") = Ok (Some (VBoolean true)).
Proof.
  split; [exact w_formed|]. split; [exact y_formed|]. split; [vm_compute; reflexivity|].
  do 6 eexists. split; [vm_compute; reflexivity|]. split; [vm_compute; reflexivity|]. split; [vm_compute; reflexivity|].
  split; [vm_compute; reflexivity|]. split; [vm_compute; reflexivity|]. split; [vm_compute; discriminate|].
  split; [vm_compute; reflexivity|]. vm_compute. reflexivity.
Qed.
