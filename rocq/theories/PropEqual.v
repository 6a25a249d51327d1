(** Properties of the comparisons of values and of syntax trees. *)
From Verif Require Import Str Types Ast State Grammar Api Equal EqualSpec EqualFacts PropParse.

(** ** C61 *)
Theorem C61_values : forall v w, value_eqb v w = true <-> v = w.
Proof. exact value_iff. Qed.
Print Assumptions C61_values.
Theorem C61_datetimes :
  (forall a b, datetime_eqb a b = true <-> a = b) /\ (forall a b, date_eqb a b = true <-> a = b) /\
  (forall a b, time_eqb a b = true <-> a = b) /\ (forall a b, time_offset_eqb a b = true <-> a = b) /\
  (forall a b, toa_eqb a b = true <-> a = b) /\ (forall a b, children_eqb a b = true <-> a = b).
Proof. exact (conj datetime_iff (conj date_iff (conj time_iff (conj off_iff (conj toa_iff children_iff))))). Qed.
Print Assumptions C61_datetimes.
(** values that differ only in the offset of a date-time inside an array *)
Definition noon (o : option time_offset) : value :=
  VArray [VBoolean true; VDateTime {| dt_date := {| d_year := lit "2016"; d_month := lit "05"; d_day := lit "23" |};
    dt_time := Some {| t_hour := lit "12"; t_minute := lit "00"; t_second := lit "00"; t_fraction := None; t_offset := o |} |}].
Example C61_ex : value_eqb (noon (Some Zulu)) (noon (Some Zulu)) = true /\ value_eqb (noon (Some Zulu)) (noon None) = false /\
  value_eqb (VString (lit "a") SBasic) (VString (lit "a") SLiteral) = false.
Proof. vm_compute. auto. Qed.

(** ** C62 *)
Theorem C62_equivalence :
  (forall a, toml_eqb a a = true) /\ (forall a b, toml_eqb a b = toml_eqb b a) /\
  (forall a b c, toml_eqb a b = true -> toml_eqb b c = true -> toml_eqb a c = true) /\
  (forall a, tval_eqb a a = true) /\ (forall a b, tval_eqb a b = tval_eqb b a) /\
  (forall a b c, tval_eqb a b = true -> tval_eqb b c = true -> tval_eqb a c = true) /\
  (forall a, hash_value_eqb a a = true) /\ (forall a b, hash_value_eqb a b = hash_value_eqb b a) /\
  (forall a b c, hash_value_eqb a b = true -> hash_value_eqb b c = true -> hash_value_eqb a c = true).
Proof.
  assert (E : forall x y : bool, (x = true <-> y = true) -> x = y) by (intros [] [] [P Q]; auto; symmetry; auto).
  repeat match goal with |- _ /\ _ => split end; intros;
    try (apply E; rewrite ?toml_iff, ?tval_iff, ?hash_value_iff; split; auto); rewrite ?toml_iff, ?tval_iff, ?hash_value_iff in *; congruence.
Qed.
Print Assumptions C62_equivalence.
(** two parses of different documents and two of the same one *)
Definition read (t : str) : toml := match parse (new_parser false) t with Ok (s, _) => s.(p_root) | _ => [] end.
Example C62_ex : toml_eqb (read (lit "a = [1, {b = 2}] # c")) (read (lit "a = [1, {b = 2}] # c")) = true /\
  toml_eqb (read (lit "a = [1, {b = 2}] # c")) (read (lit "a = [1, {b = 3}] # c")) = false /\
  toml_eqb (read (lit "a = 1")) (read (lit "a =  1")) = false.
Proof. vm_compute. auto. Qed.

(** ** C63: false as stated for strings of different kinds and for comments in
    inline tables *)
Theorem C63_text_refuted :
  (exists s1 s2, parse (new_parser false) (lit "a = " ++ [34] ++ lit "x" ++ [34]) = Ok (s1, Full) /\
     parse (new_parser false) (lit "a = 'x'") = Ok (s2, Full) /\ toml_eqb s1.(p_root) s2.(p_root) = true) /\
  (exists s1 s2 c, c <> [] /\ parse (new_parser false) (lit "a = {b = 1" ++ c ++ lit "}") = Ok (s1, Full) /\
     parse (new_parser false) (lit "a = {b = 1}") = Ok (s2, Full) /\ toml_eqb s1.(p_root) s2.(p_root) = true).
Proof.
  split.
  - do 2 eexists. split; [vm_compute; reflexivity|]. split; [vm_compute; reflexivity|]. vm_compute. reflexivity.
  - do 2 eexists. exists (lit " #c" ++ [10]). split; [discriminate|]. split; [vm_compute; reflexivity|]. split; [vm_compute; reflexivity|]. vm_compute. reflexivity.
Qed.
Print Assumptions C63_text_refuted.
(** exactly which trees compare equal *)
Theorem C63_exact_partial :
  (forall a b, toml_eqb a b = true <-> on_toml blurred a = on_toml blurred b) /\
  (forall a b, tval_eqb a b = true <-> blurred a = blurred b).
Proof. exact (conj toml_iff tval_iff). Qed.
Print Assumptions C63_exact_partial.
(** trees without strings, and without comments and line ends in inline tables *)
Theorem C63_text_partial : forall a b, sharp_doc a -> sharp_doc b -> toml_eqb a b = true -> show_toml a = show_toml b.
Proof.
  intros a b A B H. apply toml_iff in H. rewrite !sharp_toml in H by auto. rewrite <- (show_bare_doc a), <- (show_bare_doc b), H. reflexivity.
Qed.
Print Assumptions C63_text_partial.
(** the same for documents that have been read *)
Theorem C63_documents_partial : forall s1 s2 i1 i2 s1' s2' t, parse s1 i1 = Ok (s1', Full) -> parse s2 i2 = Ok (s2', Full) ->
  sharp_doc s1'.(p_root) -> sharp_doc s2'.(p_root) -> show_parser s1' = Ok t ->
  toml_eqb s1'.(p_root) s2'.(p_root) = true -> i1 = i2.
Proof.
  intros s1 s2 i1 i2 s1' s2' t P1 P2 A B S H. pose proof (C63_text_partial _ _ A B H) as E. unfold show_parser in S.
  rewrite <- (C01_lossless _ _ _ _ _ P1 (or_introl eq_refl) S). rewrite E in S.
  apply (C01_lossless _ _ _ _ _ P2 (or_introl eq_refl) S).
Qed.
Print Assumptions C63_documents_partial.
Example C63_ex : exists s t, parse (new_parser false) (lit "[t] # x" ++ [10] ++ lit "a = [1, 2, #c" ++ [10] ++ lit "3]") = Ok (s, Full) /\
  sharp_doc s.(p_root) /\ show_parser s = Ok t.
Proof.
  do 2 eexists. split; [vm_compute; reflexivity|]. split; [|vm_compute; reflexivity].
  cbn. repeat constructor.
Qed.
