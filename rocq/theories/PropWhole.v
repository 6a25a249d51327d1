(** Texts of the form of TOML are read to their end. *)
From Coq Require Import Lia ZifyBool ZifyNat ZifyN.
From Verif Require Import Str Regex Types Ast State Nom Keys Grammar Api Facts Spec ApiSpec.
From Verif Require Import NumFacts ScalarFacts FlatFacts PropTypes PropFlat DocSpec PropNest MixSpec NestFacts DotSpec TreeSpec WholeSpec WholeFacts.

(** C81.  [s] is any parser, new or used.  The lines may repeat names, mix types in
    arrays, use dates that do not exist, and have headers in any order: these are
    reported as errors or panic, but never make the parser stop early.  Missing: the
    texts that the specification of TOML also allows, with which it does stop early
    ([C81_comma_refuted], [C81_tab_refuted], [C81_hex_refuted], [C81_plane_refuted]). *)
Theorem C81_whole_partial : forall s l s' r, formed_doc l -> parse s (tdoc_text l) = Ok (s', r) ->
  r = match s'.(p_errors) with [] => Full | es => FullError es end /\ s'.(p_leftover) = [] /\
  Forall2 (fun x e => e.(ne_nl) = fst x /\ stands_for (snd x) e.(ne_expr)) l s'.(p_root).
Proof. exact doc_whole. Qed.
Print Assumptions C81_whole_partial.

Definition w_30 : datetime := {| dt_date := {| d_year := lit "2011"; d_month := lit "02"; d_day := lit "30" |}; dt_time := None |}.
Definition w_mix := TPlain (HPair [] (lit "k") [32] [32] (VArray [VInteger (lit "1"); VBoolean true; VDateTime w_30])
  (lit "[1, true, # c
 2011-02-30,]") [32] (Some (lit " mixed"))).
Definition w_twice := TPlain (HPair [9] (lit "k") [] [] (VInlineTable [(lit "a", VInteger (lit "1")); (lit "a", VInteger (lit "2"))])
  (lit "{ a=1, a=2}") [] None).
Definition w_head := TPlain (HHead [] [] (lit "x") [([], [32], lit "y")] [] [32] None).
Definition w_arr := TArr [] [32] (lit "x") [] [] [] (Some (lit "again")).
Definition w_lines : list (str * tline) :=
  [([], w_mix); ([10], w_twice); ([13; 10], w_head); ([10], w_twice); ([10], w_head); ([10], w_arr); ([10], w_mix); ([10], TPlain (HBlank [32] None))].
Ltac dints := apply spells_denotes; ints.
Ltac sp := apply G_ws; repeat (apply BL_char; [lia|]); apply BL_nil.
Lemma w_formed : formed_doc w_lines.
Proof.
  assert (E : line_end [10]) by (unfold line_end; auto). assert (E2 : line_end [13; 10]) by (unfold line_end; auto).
  assert (M : formed w_mix).
  { unfold w_mix. cbn [formed]. repeat match goal with |- _ /\ _ => split end; try solve [chars|bare|exact I|cbn [com_ok]; chars].
    apply (Dn_array _ [] (lit "1, true, # c
 2011-02-30,")); [nogap|].
    apply (De_cons _ (lit "1") [] [32] _ (lit "true, # c
 2011-02-30,")); [dints|chars| |].
    { sp. }
    apply (De_cons _ (lit "true") [] (lit " # c
 ") _ (lit "2011-02-30,")); [apply Dn_scalar, Sc_true|chars| |].
    { apply (G_com [32] (lit " c") [10] [32]); [apply BL_char; [lia|apply BL_nil]|chars|auto|]. sp. }
    apply (De_cons _ (lit "2011-02-30") [] [] [] []); [|chars|nogap|constructor].
    apply (Dn_date w_30). unfold datetime_digits, date_digits, field, digits, digit. cbn. repeat split; repeat constructor; lia. }
  assert (T : formed w_twice).
  { unfold w_twice. cbn [formed]. repeat match goal with |- _ /\ _ => split end; try solve [chars|bare|exact I].
    apply (Dn_inline _ [32] (lit "a=1, a=2")); [chars|]. apply (Df_cons (lit "a") [] [] _ (lit "1") [] [32] _ (lit "a=2")); try solve [chars|bare|dints].
    { sp. }
    apply (Df_last (lit "a") [] [] _ (lit "2") []); try solve [chars|bare|dints|nogap]. }
  assert (H : formed w_head).
  { unfold w_head. cbn [formed tline_ok hline_ok]. repeat match goal with |- _ /\ _ => split end; try solve [chars|bare|exact I].
    repeat apply Forall_cons; try apply Forall_nil. cbn [fst snd]. repeat match goal with |- _ /\ _ => split end; try solve [chars|bare]. }
  assert (A : formed w_arr).
  { unfold w_arr. cbn [formed tline_ok hline_ok]. repeat match goal with |- _ /\ _ => split end; try solve [chars|bare|exact I|cbn [com_ok]; chars]. }
  assert (B : formed (TPlain (HBlank [32] None))).
  { cbn [formed tline_ok hline_ok]. split; [chars|exact I]. }
  split; [reflexivity|]. split; [exact M|]. repeat apply Forall_cons; try apply Forall_nil; cbn [fst snd]; split; assumption.
Qed.
(** a used parser, and a document with several errors *)
Example C81_whole_partial_ex : formed_doc w_lines /\ exists s r0 s' es, parse (new_parser true) (lit "[[x]]
q = [1, ") = Ok (s, r0) /\ parse s (tdoc_text w_lines) = Ok (s', FullError es) /\ length es = 7%nat.
Proof.
  split; [exact w_formed|]. do 4 eexists. split; [vm_compute; reflexivity|]. split; [vm_compute; reflexivity|]. vm_compute. reflexivity.
Qed.

(** TOML by its specification (version 0.4), on which the parser stops: a comma on
    the line after its element *)
Definition w_comma : str := lit "a = [1
, 2]".
Theorem C81_comma_refuted : forall ovf, exists s, parse (new_parser ovf) w_comma = Ok (s, Partial [] 1) /\ s.(p_leftover) = w_comma.
Proof. intros []; eexists; (split; [vm_compute; reflexivity|vm_compute; reflexivity]). Qed.
Print Assumptions C81_comma_refuted.
(** the escape \t in a multi-line string, though not in one of one line; two of the
    quotes are read as an empty string *)
Definition w_tab : str := lit "a = 'b'
c = """"""x\ty""""""".
Definition w_tab1 : str := lit "c = ""x\ty""".
Theorem C81_tab_refuted : forall ovf, exists s s1, parse (new_parser ovf) w_tab = Ok (s, Partial [] 2) /\
  s.(p_leftover) = lit """x\ty""""""" /\ parse (new_parser ovf) w_tab1 = Ok (s1, Full).
Proof. intros []; do 2 eexists; (split; [vm_compute; reflexivity|]); (split; [vm_compute; reflexivity|]); vm_compute; reflexivity. Qed.
Print Assumptions C81_tab_refuted.
(** hexadecimal digits in lower case *)
Definition w_hex : str := lit "c = ""\u00e9""".
Theorem C81_hex_refuted : forall ovf, exists s, parse (new_parser ovf) w_hex = Ok (s, Partial [] 1) /\ s.(p_leftover) = w_hex.
Proof. intros []; eexists; (split; [vm_compute; reflexivity|vm_compute; reflexivity]). Qed.
Print Assumptions C81_hex_refuted.
(** a character beyond the first plane in a string *)
Definition w_plane : str := lit "c = '" ++ [128512] ++ lit "'".
Theorem C81_plane_refuted : forall ovf, exists s, parse (new_parser ovf) w_plane = Ok (s, Partial [] 1) /\ s.(p_leftover) = w_plane.
Proof. intros []; eexists; (split; [vm_compute; reflexivity|vm_compute; reflexivity]). Qed.
Print Assumptions C81_plane_refuted.
