(** Property C96 (see /verif/properties.jsonl). *)
From Verif Require Import TotalFacts.
From Verif Require Import Str Regex Types Ast State Nom Keys Grammar Api Spec IdFacts ApiSpec SetFacts OwnFacts FrameFacts.

(** two names on different lines: they differ, and neither is the other one followed by a dot
    or an opening bracket *)
Definition unrelated (k1 k2 : str) : Prop := k1 <> k2 /\ ~ below k1 k2 /\ ~ below k2 k1.

(** ** C96: no update, whatever its value and its answer, changes what get_value answers for a
    name that is neither above nor below its key *)
Theorem C96_values : forall ovf s key v s' b k, reach ovf s -> set_value s key v = Ok (s', b) -> unrelated key k ->
  get_value s' k = get_value s k.
Proof.
  intros ovf s key v s' b k R H (N1 & N2 & N3). eapply frame_value; eauto; intros [X|X]; auto.
Qed.
Print Assumptions C96_values.

(** ** C96: nor what get_children answers for a name that is not its key and not below it *)
Theorem C96_children : forall ovf s key v s' b k, reach ovf s -> key <> root_key -> set_value s key v = Ok (s', b) -> k <> key -> ~ below key k ->
  get_children s' k = get_children s k.
Proof. intros ovf s key v s' b k _. apply frame_children. Qed.
Print Assumptions C96_children.

(** ** C96: what was set stays, however many updates at unrelated names follow *)
Inductive updates (ks : list str) : pst -> pst -> Prop :=
| U_none : forall s, updates ks s s
| U_one : forall s s1 s2 k v b, In k ks -> set_value s k v = Ok (s1, b) -> updates ks s1 s2 -> updates ks s s2.
Theorem C96_sequence : forall ovf ks s s' k, reach ovf s -> updates ks s s' -> (forall x, In x ks -> unrelated x k) ->
  get_value s' k = get_value s k.
Proof.
  intros ovf ks s s' k R U N. induction U as [s|s s1 s2 x v b I H U IH]; auto. rewrite IH by (eapply R_set; eauto).
  apply (C96_values ovf s x v s1 b k R H). auto.
Qed.
Print Assumptions C96_sequence.

Definition f_doc : str := lit "a = [[1, 2], [3, 4]]" ++ [10] ++ lit "ab = 5" ++ [10] ++ lit "[[t]]" ++ [10] ++ lit "i = {x = 1, y = [2]}" ++ [10] ++ lit "[[t]]" ++ [10] ++ lit "i = 6".
Definition f_new : value := VArray [VInteger (lit "7"); VInteger (lit "8"); VInteger (lit "9")].
(** an array inside an array gets longer, and then an entry of an inline table in an array of
    tables: the names beside them stay, those above have changed *)
Example C96_ex : exists s s1 s2, parse (new_parser true) f_doc = Ok (s, Full) /\ reach true s /\
  set_value s (lit "a[0]") f_new = Ok (s1, true) /\ unrelated (lit "a[0]") (lit "a[1]") /\ unrelated (lit "a[0]") (lit "ab") /\
  get_value s1 (lit "a[1]") = Ok (Some (VArray [VInteger (lit "3"); VInteger (lit "4")])) /\
  get_value s1 (lit "a[0][2]") = Ok (Some (VInteger (lit "9"))) /\ get_value s (lit "a[0][2]") = Ok None /\
  get_value s1 (lit "a") = Ok (Some (VArray [f_new; VArray [VInteger (lit "3"); VInteger (lit "4")]])) /\
  set_value s1 (lit "t[0].i.y") f_new = Ok (s2, true) /\ updates [lit "a[0]"; lit "t[0].i.y"] s s2 /\
  (forall x, In x [lit "a[0]"; lit "t[0].i.y"] -> unrelated x (lit "t[0].i.x")) /\
  get_value s2 (lit "t[0].i.x") = Ok (Some (VInteger (lit "1"))) /\ get_value s2 (lit "t[1].i") = Ok (Some (VInteger (lit "6"))) /\
  get_children s2 (lit "t[0].i") = Some (Keys [lit "x"; lit "y"]) /\ get_children s2 (lit "t[0].i.y") = Some (Count 3).
Proof.
  assert (D : forall a b, a <> b -> starts_with a b = false -> starts_with b a = false -> unrelated a b).
  { assert (P : forall a b x, b = a ++ x -> starts_with a b = true).
    { induction a as [|y a IH]; intros b x ->; [reflexivity|]. cbn [app starts_with]. rewrite N.eqb_refl. cbn [andb]. eapply IH. reflexivity. }
    intros a b NE A B. split; auto. split; intros (c & r & E & _).
    - rewrite (P _ _ _ E) in A. discriminate.
    - rewrite (P _ _ _ E) in B. discriminate. }
  do 3 eexists. split; [vm_compute; reflexivity|]. split; [apply (R_parse true (new_parser true) f_doc _ Full); [apply R_new|vm_compute; reflexivity]|].
  split; [vm_compute; reflexivity|]. split; [apply D; vm_compute; congruence|]. split; [apply D; vm_compute; congruence|].
  split; [vm_compute; reflexivity|]. split; [vm_compute; reflexivity|]. split; [vm_compute; reflexivity|]. split; [vm_compute; reflexivity|].
  split; [vm_compute; reflexivity|].
  split; [eapply (U_one _ _ _ _ (lit "a[0]") f_new true); [left; reflexivity|vm_compute; reflexivity|]; eapply (U_one _ _ _ _ (lit "t[0].i.y") f_new true); [right; left; reflexivity|vm_compute; reflexivity|apply U_none]|].
  split; [intros x [<-|[<-|[]]]; apply D; vm_compute; congruence|].
  split; [vm_compute; reflexivity|]. split; [vm_compute; reflexivity|]. split; vm_compute; reflexivity.
Qed.
