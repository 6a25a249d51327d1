(** Properties of the language the parser accepts. *)
From Coq Require Import Lia ZifyBool ZifyNat ZifyN.
From Verif Require Import Str Regex Types Ast State Grammar Api Facts Spec DocSpec GramSpec GramFacts.

(** ** C67 *)
(** false in full: commas may be missing, and digits of other scripts are accepted *)
Theorem C67_only_toml_refuted :
  (exists s id1 id2 n1 n2 w1 w2 nls,
     parse (new_parser false) (lit "a = [1 2]") = Ok (s, Full) /\
     s.(p_root) = [{| ne_nl := []; ne_expr := {| e_ws := {| ws1 := []; ws2 := [] |};
       e_keyval := Some (KeyVal (lit "a") {| ws1 := w1; ws2 := w2 |}
         (Cell id2 (TArray [ArrayValue (Cell 0 (TInteger (lit "1"))) None nls; ArrayValue (Cell id1 (TInteger (lit "2"))) None n1] n2 n2)));
       e_table := None; e_comment := None |} |}]) /\
  (exists s, parse (new_parser false) (lit "a = " ++ [0x663]) = Ok (s, Full) /\ ~ gdoc s.(p_root) (lit "a = " ++ [0x663])).
Proof.
  split.
  - do 8 eexists. split; vm_compute; reflexivity.
  - eexists. split; [vm_compute; reflexivity|]. cbn [p_root]. intros D. inversion D as [e t l r G L]; subst.
    inversion G as [| w0 k w1 w2 id v u w3 c B0 K B1 B2 V B3 C|]; subst. inversion V as [u' I| | | | | | | | | |]; subst.
    destruct I as (sg & b & E & [->|[->| ->]] & x & y & -> & X & _); try discriminate. inversion E; subst. unfold digit in X. lia.
Qed.
Print Assumptions C67_only_toml_refuted.

Theorem C67_only_toml_partial : forall s i s' r, parse s i = Ok (s', r) -> own_digits i ->
  exists text rest, i = text ++ rest /\ gdoc s'.(p_root) text /\
    match r with Full | FullError _ => rest = [] | _ => rest <> [] end.
Proof. exact parse_grammar. Qed.
Print Assumptions C67_only_toml_partial.

Lemma own_check : forall s, forallb (fun c => negb (in_ranges c nd_ranges) || ((48 <=? c) && (c <=? 57))) s = true -> own_digits s.
Proof.
  intros s H. rewrite forallb_forall in H. apply Forall_forall. intros c I (a & b & R & L). specialize (H c I).
  assert (X : in_ranges c nd_ranges = true).
  { clear H I. induction nd_ranges as [|[x y] l IH]; [destruct R|]. cbn [in_ranges]. destruct R as [R|R].
    - inversion R; subst. assert ((a <=? c) && (c <=? b) = true) as -> by lia. auto.
    - rewrite IH by auto. apply orb_true_r. }
  rewrite X in H. unfold digit. cbn [negb orb] in H. lia.
Qed.
(** a document with every kind of value, a comment inside an array, and an accent; the tree
    gives back the pieces *)
Definition gram_text : str :=
  lit "[a . b] # t" ++ [10] ++ lit "x=[ 1_0 ,#c" ++ [13;10] ++ lit " -2.5e3, ]" ++ [10] ++ lit "y = {k = 'v', ""q r"" = 2016-05-23T10:00:00Z }" ++ [10; 233].
Example C67_ex : exists s, parse (new_parser false) gram_text = Ok (s, PartialError [] 4 [EMixedArray (lit "a.b.x") 2]) /\
  own_digits gram_text /\ length s.(p_root) = 4%nat /\ s.(p_leftover) = [233].
Proof. eexists. split; [vm_compute; reflexivity|]. split; [apply own_check; reflexivity|]. vm_compute. auto. Qed.
