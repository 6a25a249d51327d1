(** * Every value that is found is written in the document: theorems *)
From Coq Require Import Lia ZifyBool ZifyNat ZifyN.
From Verif Require Import Str Regex Types Ast State Nom Keys Grammar Api Spec ApiSpec HeadSpec CountFacts WrittenSpec EditFacts.

Definition w_nl : str := [10].
(** a document with arrays of tables and nested values, used by the examples *)
Definition w_doc : str :=
  lit "a = [ {x=0},  {x = 2} ] # c" ++ w_nl ++ lit "[t]" ++ w_nl ++ lit "[[t.u]]" ++ w_nl ++ lit "b = 'p'" ++ w_nl ++
  lit "[[t.u]]" ++ w_nl ++ lit "b=3" ++ w_nl.

(** ** C79: every value that get_value finds is printed: its scalars are in the
    text, in their order, at the place of the key; also after any number of updates
    that keep the structure of values or are refused. Missing: texts whose unread
    rest starts with a key and an array or inline table, for which the claim is
    false ([C79_unread_refuted]); updates that change the structure, and scalars
    written over tables, which are false by [C29_visible_refuted]. *)
Theorem C79_written_partial : forall ovf i s0 r s k v,
  parse (new_parser ovf) i = Ok (s0, r) -> ~ starts_nested s0.(p_leftover) -> edited s0 s ->
  get_value s k = Ok (Some v) -> exists pre post, printed_at s k v pre post.
Proof. exact found_printed. Qed.
Print Assumptions C79_written_partial.

(** ** C79: so every update that keeps the structure of a value is seen in the
    printed text, for every key that is found and without a word about its place *)
Theorem C79_change_partial : forall ovf i s0 r s k old v,
  parse (new_parser ovf) i = Ok (s0, r) -> ~ starts_nested s0.(p_leftover) -> edited s0 s ->
  get_value s k = Ok (Some old) -> same_shape old v -> all_valid v ->
  exists s', set_value s k v = Ok (s', true) /\ get_value s' k = Ok (Some v) /\
    exists pre post, forall t, show_parser s = Ok t ->
      exists f, length f = S (length (leaves old)) /\ length (leaves v) = length (leaves old) /\
        t = pre ++ weave f (map spelling (leaves old)) ++ post /\
        show_parser s' = Ok (pre ++ weave f (map spelling (leaves v)) ++ post).
Proof. exact change_printed. Qed.
Print Assumptions C79_change_partial.

Lemma not_nested_nil : ~ starts_nested [].
Proof. intros (k & w1 & w2 & c & x & E & _). destruct k; cbn [app] in E; [destruct w1; discriminate|discriminate]. Qed.

(** a document that is read in full; one value is replaced, one update is
    refused; then an element of an array, the array and a value in the second
    table of an array of tables are found *)
Example C79_ex : exists s0 s1 s2,
  parse (new_parser true) w_doc = Ok (s0, Full) /\ ~ starts_nested s0.(p_leftover) /\
  set_value s0 (lit "t.u[1].b") (VBoolean true) = Ok (s1, true) /\
  set_value s1 (lit "t.u[0].b") (VArray [VInteger (lit "x")]) = Ok (s2, false) /\
  edited s0 s2 /\
  get_value s2 (lit "a[1].x") = Ok (Some (VInteger (lit "2"))) /\
  get_value s2 (lit "a") = Ok (Some (VArray [VInlineTable [(lit "x", VInteger (lit "0"))]; VInlineTable [(lit "x", VInteger (lit "2"))]])) /\
  get_value s2 (lit "t.u[1].b") = Ok (Some (VBoolean true)) /\
  same_shape (VArray [VInlineTable [(lit "x", VInteger (lit "0"))]; VInlineTable [(lit "x", VInteger (lit "2"))]])
             (VArray [VInlineTable [(lit "x", VString (lit "q") SLiteral)]; VInlineTable [(lit "x", VInteger (lit "7"))]]) /\
  all_valid (VArray [VInlineTable [(lit "x", VString (lit "q") SLiteral)]; VInlineTable [(lit "x", VInteger (lit "7"))]]).
Proof.
  eexists _, _, _. split; [vm_compute; reflexivity|]. split; [exact not_nested_nil|].
  split; [vm_compute; reflexivity|]. split; [vm_compute; reflexivity|]. split.
  - eapply Ed_refused; [eapply Ed_same; [apply Ed_none|..]|].
    + instantiate (1 := VInteger (lit "3")). instantiate (1 := lit "t.u[1].b"). vm_compute. reflexivity.
    + instantiate (1 := VBoolean true). apply SS_scalar; exact I.
    + intros x [<-|[]]. reflexivity.
    + vm_compute. reflexivity.
    + instantiate (1 := VArray [VInteger (lit "x")]). instantiate (1 := lit "t.u[0].b"). vm_compute. reflexivity.
  - split; [vm_compute; reflexivity|]. split; [vm_compute; reflexivity|]. split; [vm_compute; reflexivity|]. split.
    + apply SS_array. constructor; [|constructor; [|constructor]]; apply SS_table; (constructor; [|constructor]); (split; [auto|]);
        apply SS_scalar; exact I.
    + intros x [<-|[<-|[]]]; vm_compute; reflexivity.
Qed.
(** what is printed for it, before and after an update of the array *)
Example C79_print_ex : exists s0 s1 t, parse (new_parser true) w_doc = Ok (s0, Full) /\ show_parser s0 = Ok w_doc /\
  set_value s0 (lit "a") (VArray [VInlineTable [(lit "x", VString (lit "q") SLiteral)]; VInlineTable [(lit "x", VInteger (lit "7"))]]) = Ok (s1, true) /\
  show_parser s1 = Ok (lit "a = [ {x='q'},  {x = 7} ] # c" ++ t) /\ w_doc = lit "a = [ {x=0},  {x = 2} ] # c" ++ t.
Proof. eexists _, _, _. repeat (split; [vm_compute; reflexivity|]). reflexivity. Qed.

(** ** C79: false as stated: the elements of an array that is then not read are found,
    though nothing is printed, and can be set *)
Theorem C79_unread_refuted : forall ovf, exists s s',
  let i := lit "b = 2" ++ w_nl ++ lit "a = [1, !" in
  parse (new_parser ovf) i = Ok (s, Partial [] 2) /\ s.(p_leftover) = lit "a = [1, !" /\ show_parser s = Ok (lit "b = 2" ++ w_nl) /\
  get_value s (lit "a[0]") = Ok (Some (VInteger (lit "1"))) /\ get_value s (lit "a") = Ok None /\
  (forall pre post, ~ printed_at s (lit "a[0]") (VInteger (lit "1")) pre post) /\
  set_value s (lit "a[0]") (VBoolean true) = Ok (s', true) /\ show_parser s' = Ok (lit "b = 2" ++ w_nl).
Proof.
  intros []; eexists _, _; cbv zeta; (split; [vm_compute; reflexivity|]); (split; [vm_compute; reflexivity|]); (split; [vm_compute; reflexivity|]);
    (split; [vm_compute; reflexivity|]); (split; [vm_compute; reflexivity|]);
    (split; [|split; vm_compute; reflexivity]); intros pre post [_ P]; specialize (P _ (eq_refl _)); destruct P as [_ P]; specialize (P I);
    vm_compute in P; do 8 (destruct pre as [|? pre]; [discriminate|]; cbn [app] in P; try (injection P as _ P)); try discriminate.
Qed.
Print Assumptions C79_unread_refuted.
