(** Updates leave a document in the form of TOML. *)
From Coq Require Import Lia ZifyBool ZifyNat ZifyN.
From Verif Require Import Str Regex Types Ast State Nom Keys Grammar Api Facts Spec ApiSpec.
From Verif Require Import NumFacts ScalarFacts FlatFacts PropTypes PropFlat DocSpec PropNest MixSpec NestFacts DotSpec TreeSpec WholeSpec WholeFacts PropWhole StaySpec StayFacts.

(** C82.  [s0] and [s2] are any parsers, new or used; the document may have any of the
    faults of C81, and the calls of set_value may be refused.  [l'] are the lines of the
    document in memory: all but the values is as it was, what is printed is their text,
    and reading it again gives these lines. *)
Theorem C82_stay : forall s0 l s r us s', formed_doc l -> parse s0 (tdoc_text l) = Ok (s, r) -> updates s us s' ->
  Forall (fun u => well_spelled (snd u)) us ->
  exists l', formed_doc l' /\ Forall2 (fun x y => fst x = fst y /\ same_but_value (snd x) (snd y)) l l' /\
    Forall2 (fun x e => e.(ne_nl) = fst x /\ stands_for (snd x) e.(ne_expr)) l' s'.(p_root) /\
    (forall t, show_parser s' = Ok t -> t = tdoc_text l') /\
    (forall s2 s3 r3, parse s2 (tdoc_text l') = Ok (s3, r3) ->
       r3 = match s3.(p_errors) with [] => Full | es => FullError es end /\ s3.(p_leftover) = [] /\
       Forall2 (fun x e => e.(ne_nl) = fst x /\ stands_for (snd x) e.(ne_expr)) l' s3.(p_root)).
Proof. exact doc_stays. Qed.
Print Assumptions C82_stay.

(** the document of C81 with its errors: a value of the same structure, a refused
    update, an inline table in place of an array *)
Definition y_28 : datetime := {| dt_date := {| d_year := lit "2011"; d_month := lit "02"; d_day := lit "28" |}; dt_time := None |}.
Definition y_same : value := VArray [VString (lit "x") SBasic; VBoolean true; VDateTime y_28].
Definition y_table : value := VInlineTable [(lit "p", VInteger (lit "1")); (lit "q", VBoolean false)].
Definition y_us : list (str * value) := [(lit "k", y_same); (lit "nowhere", y_same); (lit "k[0]", VInteger (lit "7")); (lit "x[0].k", y_table)].
Lemma y_spelled : Forall (fun u => well_spelled (snd u)) y_us.
Proof.
  assert (A : well_spelled y_same).
  { exists (lit "[""x"",true,2011-02-28]"). apply (Dn_array _ [] (lit """x"",true,2011-02-28")); [nogap|].
    apply (De_cons _ (lit """x""") [] [] _ (lit "true,2011-02-28")); [|chars|nogap|].
    { apply Dn_scalar. apply (Sc_basic (lit "x")). apply (BB_char 120); [lia|lia|lia|constructor]. }
    apply (De_cons _ (lit "true") [] [] _ (lit "2011-02-28")); [|chars|nogap|].
    { apply Dn_scalar, Sc_true. }
    apply (De_last _ (lit "2011-02-28") []); [|nogap]. apply (Dn_date y_28). unfold datetime_digits, date_digits, field, digits, digit. cbn. repeat split; repeat constructor; lia. }
  assert (B : well_spelled y_table).
  { exists (lit "{p=1,q=false}"). apply (Dn_inline _ [] (lit "p=1,q=false")); [chars|].
    apply (Df_cons (lit "p") [] [] _ (lit "1") [] [] _ (lit "q=false")); try solve [chars|bare|dints|nogap].
    apply (Df_last (lit "q") [] [] _ (lit "false") []); try solve [chars|bare|nogap]. apply Dn_scalar, Sc_false. }
  assert (C : well_spelled (VInteger (lit "7"))) by (exists (lit "7"); dints).
  repeat apply Forall_cons; try apply Forall_nil; assumption.
Qed.
Example C82_stay_ex : formed_doc w_lines /\ Forall (fun u => well_spelled (snd u)) y_us /\
  exists s r s', parse (new_parser true) (tdoc_text w_lines) = Ok (s, r) /\ updates s y_us s' /\
    show_parser s' = Ok (lit "k = [7, true, # c
 2011-02-28,] # mixed
" ++ [9] ++ lit "k={ a=1, a=2}" ++ [13; 10] ++ lit "[x. y] 
" ++ [9] ++ lit "k={ a=1, a=2}
[x. y] 
[[ x]]#again
k = { p = 1, q = false } # mixed
 ").
Proof.
  split; [exact w_formed|]. split; [exact y_spelled|]. do 3 eexists. split; [vm_compute; reflexivity|]. split.
  - unfold y_us. eapply Up_one; [vm_compute; reflexivity|]. eapply Up_one; [vm_compute; reflexivity|]. eapply Up_one; [vm_compute; reflexivity|]. eapply Up_one; [vm_compute; reflexivity|]. apply Up_none.
  - vm_compute. reflexivity.
Qed.
