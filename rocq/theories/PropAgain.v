(** What is printed after updates is read again as it is in memory. *)
From Coq Require Import Lia ZifyBool ZifyNat ZifyN.
From Verif Require Import Str Regex Types Ast State Nom Keys Grammar Api Facts Spec ApiSpec.
From Verif Require Import NumFacts ScalarFacts FlatFacts PropTypes PropFlat DocSpec PropNest MixSpec NestFacts DotSpec TreeSpec WholeSpec WholeFacts PropWhole StaySpec KinSpec AgainSpec AgainFacts.

(** C85.  The document may have faults; updates that keep the structure and the types of
    values, and those of keys without a value, in any number and order.
    The last line compares with the document as it was before the updates. *)
Theorem C85_again : forall ovf l s r us s', formed_doc l -> parse (new_parser ovf) (tdoc_text l) = Ok (s, r) ->
  updates_keeping same_types s us s' -> Forall (fun u => well_spelled (snd u)) us ->
  forall t, show_parser s' = Ok t -> exists s2 r2, parse (new_parser ovf) t = Ok (s2, r2) /\
    (forall k, get_value s2 k = get_value s' k) /\ (forall k, get_children s2 k = get_children s' k) /\
    same_errors s'.(p_errors) s2.(p_errors) /\ kindred_result r r2 /\ kindred_answers s s2.
Proof. exact again_typed. Qed.
Print Assumptions C85_again.

(** updates may change types as well, if in the end faults are at the same places *)
Theorem C85_kindred : forall ovf l s r us s', formed_doc l -> parse (new_parser ovf) (tdoc_text l) = Ok (s, r) ->
  updates_keeping same_shape s us s' -> Forall (fun u => well_spelled (snd u)) us -> kindred_values s.(p_root) s'.(p_root) ->
  forall t, show_parser s' = Ok t -> exists s2 r2, parse (new_parser ovf) t = Ok (s2, r2) /\
    (forall k, get_value s2 k = get_value s' k) /\ (forall k, get_children s2 k = get_children s' k) /\
    same_errors s'.(p_errors) s2.(p_errors) /\ kindred_result r r2 /\ kindred_answers s s2.
Proof. exact again_kindred. Qed.
Print Assumptions C85_kindred.

(** the document of C81 with its errors *)
Definition v_us : list (str * value) :=
  [(lit "k[0]", VInteger (lit "77")); (lit "nowhere", VBoolean true); (lit "x[0].k[1]", VBoolean false); (lit "x.y.k", VInlineTable [(lit "a", VInteger (lit "5")); (lit "a", VInteger (lit "6"))]);
   (lit "k[0]", VInteger (lit "8"))].
Lemma v_spelled : Forall (fun u => well_spelled (snd u)) v_us.
Proof.
  repeat apply Forall_cons; try apply Forall_nil; cbn [snd].
  - exists (lit "77"). dints.
  - exists (lit "true"). apply Dn_scalar, Sc_true.
  - exists (lit "false"). apply Dn_scalar, Sc_false.
  - exists (lit "{a=5,a=6}"). apply (Dn_inline _ [] (lit "a=5,a=6")); [chars|].
    apply (Df_cons (lit "a") [] [] _ (lit "5") [] [] _ (lit "a=6")); try solve [chars|bare|dints|nogap].
    apply (Df_last (lit "a") [] [] _ (lit "6") []); try solve [chars|bare|dints|nogap].
  - exists (lit "8"). dints.
Qed.
Ltac leafty := apply Ty_scalar; solve [exact I|reflexivity].
Ltac valid := intros ? V; cbn [leaves flat_map app snd] in V; repeat (destruct V as [<-|V]; [vm_compute; reflexivity|]); destruct V.
Example C85_again_ex : formed_doc w_lines /\ Forall (fun u => well_spelled (snd u)) v_us /\
  exists s es s', parse (new_parser true) (tdoc_text w_lines) = Ok (s, FullError es) /\ length es = 8%nat /\
    updates_keeping same_types s v_us s' /\ get_value s' (lit "k") = Ok (Some (VArray [VInteger (lit "8"); VBoolean true; VDateTime w_30])) /\
    show_parser s' = Ok (lit "k = [8, true, # c
 2011-02-30,] # mixed
" ++ [9] ++ lit "k={ a=1, a=2}" ++ [13; 10] ++ lit "[x. y] 
" ++ [9] ++ lit "k={ a=5, a=6}
[x. y] 
[[ x]]#again
k = [1, false, # c
 2011-02-30,] # mixed
 ").
Proof.
  split; [exact w_formed|]. split; [exact v_spelled|]. do 3 eexists. split; [vm_compute; reflexivity|]. split; [vm_compute; reflexivity|]. split.
  - unfold v_us. eapply Uk_one; [vm_compute; reflexivity|leafty|valid|vm_compute; reflexivity|].
    eapply Uk_missing; [vm_compute; reflexivity|vm_compute; reflexivity|].
    eapply Uk_one; [vm_compute; reflexivity|leafty|valid|vm_compute; reflexivity|].
    eapply Uk_one; [vm_compute; reflexivity| |valid|vm_compute; reflexivity|].
    { apply Ty_table. repeat apply Forall2_cons; try apply Forall2_nil; split; try reflexivity; leafty. }
    eapply Uk_one; [vm_compute; reflexivity|leafty|valid|vm_compute; reflexivity|]. apply Uk_none.
  - split; vm_compute; reflexivity.
Qed.

(** strings and Booleans in the place of integers *)
Definition v_types : list (str * value) :=
  [(lit "k[0]", VString (lit "x") SBasic); (lit "x.y.k", VInlineTable [(lit "a", VBoolean true); (lit "a", VInteger (lit "6"))])].
Lemma v_types_spelled : Forall (fun u => well_spelled (snd u)) v_types.
Proof.
  repeat apply Forall_cons; try apply Forall_nil; cbn [snd].
  - exists (lit """x"""). apply Dn_scalar. apply (Sc_basic (lit "x")). apply (BB_char 120); [lia|lia|lia|constructor].
  - exists (lit "{a=true,a=6}"). apply (Dn_inline _ [] (lit "a=true,a=6")); [chars|].
    apply (Df_cons (lit "a") [] [] _ (lit "true") [] [] _ (lit "a=6")); try solve [chars|bare|nogap].
    { apply Dn_scalar, Sc_true. }
    apply (Df_last (lit "a") [] [] _ (lit "6") []); try solve [chars|bare|dints|nogap].
Qed.
Example C85_kindred_ex : formed_doc w_lines /\ Forall (fun u => well_spelled (snd u)) v_types /\
  exists s es s' t, parse (new_parser true) (tdoc_text w_lines) = Ok (s, FullError es) /\ length es = 8%nat /\
    updates_keeping same_shape s v_types s' /\ kindred_values s.(p_root) s'.(p_root) /\ show_parser s' = Ok t /\
    get_value s' (lit "k") = Ok (Some (VArray [VString (lit "x") SBasic; VBoolean true; VDateTime w_30])).
Proof.
  split; [exact w_formed|]. split; [exact v_types_spelled|]. do 4 eexists. split; [vm_compute; reflexivity|]. split; [vm_compute; reflexivity|]. split; [|split; [|split]].
  - unfold v_types. eapply Uk_one; [vm_compute; reflexivity|apply SS_scalar; exact I|valid|vm_compute; reflexivity|].
    eapply Uk_one; [vm_compute; reflexivity| |valid|vm_compute; reflexivity|].
    { apply SS_table. repeat apply Forall2_cons; try apply Forall2_nil; split; try reflexivity; apply SS_scalar; exact I. }
    apply Uk_none.
  - repeat apply Forall2_cons; try apply Forall2_nil; cbn; try exact I;
      (eexists; eexists; split; [reflexivity|split; [reflexivity|]]);
      (apply Ki_array || apply Ki_table); repeat apply Forall2_cons; try apply Forall2_nil; try (split; [reflexivity|]);
      try (apply Ki_scalar; solve [exact I|vm_compute; reflexivity]); vm_compute; repeat split; discriminate.
  - vm_compute. reflexivity.
  - vm_compute. reflexivity.
Qed.
