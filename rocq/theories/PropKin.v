(** The values of a document have no influence on what else is read. *)
From Coq Require Import Lia ZifyBool ZifyNat ZifyN.
From Verif Require Import Str Regex Types Ast State Nom Keys Grammar Api Facts Spec ApiSpec.
From Verif Require Import NumFacts ScalarFacts FlatFacts PropTypes PropFlat DocSpec PropNest MixSpec NestFacts DotSpec TreeSpec WholeSpec WholeFacts PropWhole TwinSpec TwinFacts PropTwin StaySpec PropStay KinSpec KinFacts.

(** C84.  [s] is any parser, new or used; the layout may differ as well. *)
Theorem C84_values : forall s l l', formed_doc l -> formed_doc l' -> Forall2 kindred_item (contents l) (contents l') ->
  match parse s (tdoc_text l), parse s (tdoc_text l') with
  | Ok (s1, r1), Ok (s2, r2) => kindred_answers s1 s2 /\ same_errors s1.(p_errors) s2.(p_errors) /\ kindred_result r1 r2
  | Panic, Panic => True
  | _, _ => False
  end.
Proof. exact parse_kindred. Qed.
Print Assumptions C84_values.

(** the document of [C83_layout_ex] with other values in the place of the integers, the
    Boolean and the date; the third element is again a date that does not exist *)
Definition z_31 : datetime := {| dt_date := {| d_year := lit "1999"; d_month := lit "11"; d_day := lit "31" |}; dt_time := None |}.
Definition z_mix := TPlain (HPair [] (lit "k") [] [] (VArray [VString (lit "a]") SBasic; VInteger (lit "5"); VDateTime z_31])
  (lit "[""a]"",5,1999-11-31]") [] None).
Definition z_twice := TPlain (HPair [] (lit "k") [] [] (VInlineTable [(lit "a", VBoolean true); (lit "a", VInteger (lit "20"))])
  (lit "{a=true,a=20}") [] None).
Definition z_lines : list (str * tline) :=
  [([], y_blank); ([10], z_mix); ([10], z_twice); ([10], y_head); ([13; 10], z_twice); ([10], y_head); ([10], y_arr); ([10], z_mix)].
Lemma z_formed : formed_doc z_lines.
Proof.
  assert (E : line_end [10]) by (unfold line_end; auto). assert (E2 : line_end [13; 10]) by (unfold line_end; auto).
  assert (M : formed z_mix).
  { unfold z_mix. cbn [formed]. repeat match goal with |- _ /\ _ => split end; try solve [chars|bare|exact I|cbn [com_ok]; chars].
    apply (Dn_array _ [] (lit """a]"",5,1999-11-31")); [nogap|].
    apply (De_cons _ (lit """a]""") [] [] _ (lit "5,1999-11-31")); [|chars|nogap|].
    { apply Dn_scalar. apply (Sc_basic (lit "a]")). apply (BB_char 97); [lia|lia|lia|]. apply (BB_char 93); [lia|lia|lia|constructor]. }
    apply (De_cons _ (lit "5") [] [] _ (lit "1999-11-31")); [dints|chars|nogap|].
    apply (De_last _ (lit "1999-11-31") []); [|nogap].
    apply (Dn_date z_31). unfold datetime_digits, date_digits, field, digits, digit. cbn. repeat split; repeat constructor; lia. }
  assert (T : formed z_twice).
  { unfold z_twice. cbn [formed]. repeat match goal with |- _ /\ _ => split end; try solve [chars|bare|exact I].
    apply (Dn_inline _ [] (lit "a=true,a=20")); [chars|]. apply (Df_cons (lit "a") [] [] _ (lit "true") [] [] _ (lit "a=20")); try solve [chars|bare|nogap].
    { apply Dn_scalar, Sc_true. }
    apply (Df_last (lit "a") [] [] _ (lit "20") []); try solve [chars|bare|dints|nogap]. }
  assert (Y : forall x, In x y_lines -> formed (snd x)).
  { destruct y_formed as (_ & B & F). rewrite Forall_forall in F. intros x [<-|X]; [exact B|apply F; exact X]. }
  assert (H : formed y_head) by (apply (Y ([10], y_head)); cbn; auto 10).
  assert (A : formed y_arr) by (apply (Y ([10], y_arr)); cbn; auto 10).
  assert (B : formed y_blank) by (apply (Y ([10], y_blank)); cbn; auto 10).
  split; [reflexivity|]. split; [exact B|]. repeat apply Forall_cons; try apply Forall_nil; cbn [fst snd]; split; assumption.
Qed.
Lemma z_kindred : Forall2 kindred_item (contents y_lines) (contents z_lines).
Proof.
  assert (M : kindred (VArray [VInteger (lit "1"); VBoolean true; VDateTime w_30]) (VArray [VString (lit "a]") SBasic; VInteger (lit "5"); VDateTime z_31])).
  { apply Ki_array.
    - repeat apply Forall2_cons; try apply Forall2_nil; apply Ki_scalar; try exact I; vm_compute; reflexivity.
    - vm_compute. split; [split; discriminate|]. split; [split; discriminate|]. split; exact I. }
  assert (T : kindred (VInlineTable [(lit "a", VInteger (lit "1")); (lit "a", VInteger (lit "2"))]) (VInlineTable [(lit "a", VBoolean true); (lit "a", VInteger (lit "20"))])).
  { apply Ki_table. repeat apply Forall2_cons; try apply Forall2_nil; split; try reflexivity; apply Ki_scalar; try exact I; reflexivity. }
  cbv [contents y_lines z_lines flat_map snd y_blank y_mix y_twice y_head y_arr z_mix z_twice app].
  repeat match goal with |- Forall2 _ _ _ => constructor end; try reflexivity; split; auto.
Qed.
(** read by a used parser, with several errors, some of which name a value or not *)
Example C84_values_ex : formed_doc y_lines /\ formed_doc z_lines /\ Forall2 kindred_item (contents y_lines) (contents z_lines) /\
  exists s r0 s1 es1 s2 es2, parse (new_parser true) (lit "[[x]]
q = [1, ") = Ok (s, r0) /\ parse s (tdoc_text y_lines) = Ok (s1, FullError es1) /\ parse s (tdoc_text z_lines) = Ok (s2, FullError es2) /\
  length es1 = 7%nat /\ es1 <> es2 /\
  get_value s1 (lit "x[1].q.k[1]") = Ok (Some (VBoolean true)) /\ get_value s2 (lit "x[1].q.k[1]") = Ok (Some (VInteger (lit "5"))).
Proof.
  split; [exact y_formed|]. split; [exact z_formed|]. split; [exact z_kindred|].
  do 6 eexists. split; [vm_compute; reflexivity|]. split; [vm_compute; reflexivity|]. split; [vm_compute; reflexivity|].
  split; [vm_compute; reflexivity|]. split; [vm_compute; discriminate|].
  split; [vm_compute; reflexivity|]. vm_compute. reflexivity.
Qed.
