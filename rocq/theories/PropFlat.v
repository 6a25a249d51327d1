(** Properties of strings, integers and of documents made of key/value lines. *)
From Coq Require Import Lia ZifyBool ZifyNat ZifyN.
From Verif Require Import Str Regex Types Ast State Nom Keys Grammar Api Facts Spec.
From Verif Require Import RegexFacts NomFacts TypesFacts DateFacts NumFacts StringFacts ScalarFacts.
From Verif Require Import LineFacts FlatFacts.

(** ** C12 *)
Theorem C12_flat_lookup : forall ovf it l, doc_ok it l -> NoDup (map fst (doc_pairs it l)) ->
  exists s, parse (new_parser ovf) (doc_text it l) = Ok (s, Full) /\
    (forall k v, In (k, v) (doc_pairs it l) -> get_value s k = Ok (Some v)) /\
    (forall k, ~ In k (map fst (doc_pairs it l)) -> get_value s k = Ok None).
Proof.
  intros ovf it l OK ND. destruct (flat_parse ovf it l OK) as (s & P & G & _).
  assert (E : flat_errors it l = []).
  { unfold flat_errors. rewrite repeats_distinct; auto. }
  rewrite E in P. exists s. split; auto. split.
  - intros k v H. rewrite G. f_equal. clear - ND H. revert ND H.
    generalize (doc_pairs it l). induction l0 as [|[a w] ps IH]; intros ND H; [easy|].
    cbn [map fst] in ND. inversion ND; subst. cbn [first_value]. destruct H as [H|H].
    + inversion H; subst. rewrite same_key_refl. auto.
    + rewrite same_key_eqb. destruct (str_eqb k a) eqn:E; auto. apply str_eqb_eq in E. subst.
      exfalso. apply H2. apply (in_map fst) in H. auto.
  - intros k H. rewrite G. f_equal. apply first_value_none; auto.
Qed.
Print Assumptions C12_flat_lookup.

(** ** C13 *)
Theorem C13_duplicates : forall ovf it l, doc_ok it l ->
  exists s r, parse (new_parser ovf) (doc_text it l) = Ok (s, r) /\
    (forall k, get_value s k = Ok (first_value k (doc_pairs it l))) /\
    let errs := map (fun '(k, line, v) => EDuplicateKey k line v) (repeats 1 [] (([], it) :: l)) in
    r = match errs with [] => Full | _ => FullError errs end.
Proof.
  intros ovf it l OK. destruct (flat_parse ovf it l OK) as (s & P & G & _).
  eexists. eexists. split; [exact P|]. split; [exact G|]. reflexivity.
Qed.
Print Assumptions C13_duplicates.

(** ** C14 *)
Theorem C14_root_children : forall ovf it l, doc_ok it l ->
  exists s r, parse (new_parser ovf) (doc_text it l) = Ok (s, r) /\
    get_children s [] = Some (Keys (first_keys [] (map fst (doc_pairs it l)))).
Proof.
  intros ovf it l OK. destruct (flat_parse ovf it l OK) as (s & P & _ & C). eauto.
Qed.
Print Assumptions C14_root_children.

(** the vocabulary of C14 means what it says *)
Theorem C14_first_keys : forall l, NoDup (first_keys [] l) /\
  (forall k, In k (first_keys [] l) <-> In k l).
Proof.
  intros l. split.
  - assert (H : forall l old, NoDup (first_keys old l)).
    { clear. induction l as [|a l IH]; intros old; cbn [first_keys]; [constructor|].
      destruct (seen a old); auto. constructor; auto. intros H. apply first_keys_in in H. simpl in H. tauto. }
    apply H.
  - intros k. rewrite first_keys_in. simpl. tauto.
Qed.
Print Assumptions C14_first_keys.

Definition c12_first : item :=
  Line (Entry (lit " ") (lit "port") (lit " ") (lit " ") (VInteger (lit "80_80")) (lit "80_80") (lit " ") (Some (lit " web"))).
Definition c12_rest : list (str * item) :=
  [([13; 10], Blank [] None); ([10], Blank (lit "  ") (Some (lit "note")));
   ([10], Line (Entry [] (lit """na.me""") [] [] (VString (lit "x") SBasic) [34; 120; 34] [] None));
   ([13; 10], Line (Entry [] (lit "port") [9] [] (VBoolean true) (lit "true") [] None))].

Ltac chars :=
  unfold com_ok, comment_text, blanks;
  match goal with |- Forall _ ?l => let l' := eval vm_compute in l in change l with l' end;
  repeat (apply Forall_cons; [unfold bare_char, digit; lia|]); apply Forall_nil.

Ltac quoted := match goal with |- key_name ?k => let x := eval vm_compute in (removelast (tl k)) in
  right; exists x; split; [discriminate|split; [repeat (apply BB_char; [lia|lia|lia|]); apply BB_nil|reflexivity]] end.

Lemma c12_ok : doc_ok c12_first c12_rest.
Proof.
  unfold c12_first, c12_rest, doc_ok, rest_ok. split.
  - unfold item_ok, entry_ok. cbn [en_w0 en_key en_w1 en_w2 en_val en_text en_w3 en_com].
    split; [chars|]. split; [solve [left; split; [discriminate|chars]|quoted]|]. split; [chars|]. split; [chars|].
    split; [|split; [chars|chars]].
    apply Sc_int. exists [], (lit "80_80"). split; auto. split; [left; auto|].
    exists 56, (lit "0_80"). split; auto. split; [unfold digit; lia|]. split; [|discriminate].
    change (lit "0_80") with [48;95;56;48].
    apply DT_digit; [unfold digit; lia|]. apply DT_under; [unfold digit; lia|].
    apply DT_digit; [unfold digit; lia|]. constructor.
  - repeat apply Forall_cons; [..|constructor]; cbn [fst snd]; unfold line_end, item_ok, entry_ok;
      cbn [en_w0 en_key en_w1 en_w2 en_val en_text en_w3 en_com].
    + split; [auto|split; [chars|exact I]].
    + split; [auto|split; chars].
    + split; [auto|]. split; [chars|]. split; [solve [left; split; [discriminate|chars]|quoted]|]. split; [chars|].
      split; [chars|]. split; [|split; [chars|exact I]].
      apply (Sc_basic [120]). apply BB_char; try lia. constructor.
    + split; [auto|]. split; [chars|]. split; [solve [left; split; [discriminate|chars]|quoted]|]. split; [chars|].
      split; [chars|]. split; [|split; [chars|exact I]].
      apply Sc_true.
Qed.

(** C12: the document without its last line; C13 and C14: the whole one *)
Example C12_ex :
  doc_ok c12_first (firstn 3 c12_rest) /\
  NoDup (map fst (doc_pairs c12_first (firstn 3 c12_rest))) /\
  doc_text c12_first (firstn 3 c12_rest) =
    lit " port = 80_80 # web" ++ [13;10] ++ [10] ++ lit "  #note" ++ [10] ++ ulit """na.me""=""x""".
Proof.
  pose proof c12_ok as [A B]. split.
  - split; [exact A|]. unfold rest_ok, c12_rest in *. cbn [firstn].
    inversion B; subst. inversion H2; subst. inversion H4; subst. auto.
  - split; [|vm_compute; reflexivity]. repeat constructor; simpl; try easy. intros [H|[]]. discriminate.
Qed.
Example C13_ex : doc_ok c12_first c12_rest /\
  repeats 1 [] (([], c12_first) :: c12_rest) = [(lit "port", 5, VBoolean true)] /\
  match parse (new_parser true) (doc_text c12_first c12_rest) with
  | Ok (s, r) => r = FullError [EDuplicateKey (lit "port") 5 (VBoolean true)] /\
                 get_value s (lit "port") = Ok (Some (VInteger (lit "80_80"))) /\
                 get_value s (lit """na.me""") = Ok (Some (VString (lit "x") SBasic))
  | _ => False
  end.
Proof. split; [exact c12_ok|]. vm_compute. auto. Qed.
Example C14_ex : doc_ok c12_first c12_rest /\
  first_keys [] (map fst (doc_pairs c12_first c12_rest)) = [lit "port"; lit """na.me"""].
Proof. split; [exact c12_ok|]. vm_compute. auto. Qed.

(** ** C69 *)
Theorem C69_quoted_apart : forall ovf k v1 t1 v2 t2, bare_key k -> scalar v1 t1 -> scalar v2 t2 ->
  let q := [34] ++ k ++ [34] in
  exists s, parse (new_parser ovf) (k ++ lit " = " ++ t1 ++ [10] ++ q ++ lit " = " ++ t2) = Ok (s, Full) /\
    get_value s k = Ok (Some v1) /\ get_value s q = Ok (Some v2) /\ get_children s [] = Some (Keys [k; q]).
Proof.
  intros ovf k v1 t1 v2 t2 K S1 S2 q.
  assert (QN : key_name q).
  { right. exists k. destruct K as [N F]. split; [auto|]. split; [|reflexivity]. clear N.
    induction F as [|c t C F IH]; [constructor|]. unfold bare_char in C. apply BB_char; auto; lia. }
  assert (D : k <> q). { intros E. apply (f_equal (@length N)) in E. unfold q in E. rewrite !app_length in E. cbn [length] in E. lia. }
  assert (B : blanks (lit " ")) by chars. assert (B0 : blanks []) by constructor.
  pose (i1 := Line (Entry [] k (lit " ") (lit " ") v1 t1 [] None)).
  pose (i2 := Line (Entry [] q (lit " ") (lit " ") v2 t2 [] None)).
  assert (OK : doc_ok i1 [([10], i2)]).
  { split.
    - unfold i1, item_ok, entry_ok, com_ok. cbn [en_w0 en_key en_w1 en_w2 en_val en_text en_w3 en_com]. repeat (split; auto). left; auto.
    - apply Forall_cons; [|constructor]. cbn [fst snd]. split; [left; auto|].
      unfold i2, item_ok, entry_ok, com_ok. cbn [en_w0 en_key en_w1 en_w2 en_val en_text en_w3 en_com]. repeat (split; auto). }
  assert (E : doc_text i1 [([10], i2)] = k ++ lit " = " ++ t1 ++ [10] ++ q ++ lit " = " ++ t2).
  { unfold doc_text, rest_text, i1, i2. cbn [item_text map concat fst snd]. unfold entry_text.
    cbn [en_w0 en_key en_w1 en_w2 en_text en_w3 en_com com_text]. rewrite !app_nil_r. rewrite <- !app_assoc. reflexivity. }
  destruct (C12_flat_lookup ovf i1 [([10], i2)] OK) as (s & P & V & _).
  { cbn. constructor; [intros [H|[]]; auto|]. constructor; [intros []|constructor]. }
  destruct (C14_root_children ovf i1 [([10], i2)] OK) as (s' & r & P' & C). rewrite P in P'. injection P' as <- <-.
  rewrite E in P. exists s. split; [exact P|]. split; [apply V; left; reflexivity|]. split; [apply V; right; left; reflexivity|].
  rewrite C. do 2 f_equal. change (map fst (doc_pairs i1 [([10], i2)])) with [k; q]. apply first_keys_nodup.
  - constructor; [intros [H|[]]; auto|]. constructor; [intros []|constructor].
  - intros x _ [].
Qed.
Print Assumptions C69_quoted_apart.
Example C69_ex : bare_key (lit "port") /\ scalar (VBoolean true) (lit "true") /\
  match parse (new_parser false) (lit "port = true" ++ [10] ++ lit """port"" = false") with
  | Ok (s, r) => r = Full /\ get_value s (lit "port") = Ok (Some (VBoolean true)) /\ get_value s (lit """port""") = Ok (Some (VBoolean false))
  | _ => False end.
Proof. split; [split; [discriminate|chars]|]. split; [apply Sc_true|vm_compute; auto]. Qed.

(** ** C35 *)

(** the decimal spelling of an integer *)
Definition int_spelling (z : Z) (t : str) : Prop :=
  ((0 <= z)%Z /\ numeral (Z.to_N z) t) \/
  ((z < 0)%Z /\ exists t', t = 45 :: t' /\ numeral (Z.to_N (- z)) t').

Lemma numeral_int_body : forall n t, numeral n t -> int_body t.
Proof.
  intros n t (D & N & _ & Z). destruct t as [|c t]; [congruence|]. inversion D; subst.
  exists c, t. split; auto. split; auto. split.
  - clear - H2. induction H2; [constructor|]. apply DT_digit; auto.
  - intros ->. specialize (Z eq_refl). congruence.
Qed.

Lemma int_spelling_toml : forall z t, int_spelling z t -> toml_int t.
Proof.
  intros z t [[_ H]|[_ (t' & -> & H)]]; apply numeral_int_body in H.
  - exists [], t. split; auto. split; auto. left; auto.
  - exists [45], t'. split; auto. split; auto. right; right; auto.
Qed.

Lemma toml_int_ascii : forall t, toml_int t -> ascii t.
Proof.
  intros t (sg & b & -> & S & B). apply Forall_app. split.
  - destruct S as [->|[->| ->]]; repeat constructor; lia.
  - destruct B as (c & x & -> & C & T & _). constructor; [unfold digit in C; lia|].
    clear - T. induction T; repeat constructor; auto; unfold digit in *; lia.
Qed.

Theorem C35_value_int : forall z k, (- 2 ^ 63 <= z < 2 ^ 63)%Z -> key_name k ->
  exists t, show_value (value_int z) = Ok t /\ int_spelling z t /\
    validate (value_int z) = true /\
    forall ovf, exists s, parse (new_parser ovf) (k ++ lit " = " ++ t) = Ok (s, Full) /\
      get_value s k = Ok (Some (value_int z)).
Proof.
  intros z k _ K. exists (dec_z z). split; [reflexivity|].
  assert (S : int_spelling z (dec_z z)).
  { unfold dec_z. destruct (Z.ltb_spec z 0).
    - right. split; auto. eexists. split; [reflexivity|]. apply dec_numeral.
    - left. split; auto. apply dec_numeral. }
  split; auto. pose proof (int_spelling_toml _ _ S) as T. split.
  - unfold value_int. apply validate_integer_ascii; [apply toml_int_ascii; auto|].
    exists (dec_z z), []. rewrite app_nil_r. auto.
  - intros ovf.
    set (e := Entry [] k (lit " ") (lit " ") (VInteger (dec_z z)) (dec_z z) [] None).
    assert (OK : doc_ok (Line e) []).
    { split; [|constructor]. cbn [item_ok]. unfold entry_ok, e.
      cbn [en_w0 en_key en_w1 en_w2 en_val en_text en_w3 en_com].
      split; [chars|]. split; [exact K|]. split; [chars|]. split; [chars|].
      split; [apply Sc_int; exact T|]. split; [chars|exact I]. }
    destruct (C12_flat_lookup ovf (Line e) [] OK) as (s & P & G & _).
    { repeat constructor. simpl. tauto. }
    exists s. split.
    + rewrite <- P. f_equal. unfold doc_text, rest_text. cbn [item_text map concat]. unfold entry_text. cbn.
      rewrite !app_nil_r. reflexivity.
    + apply G. simpl. auto.
Qed.
Print Assumptions C35_value_int.

Example C35_ex : (- 2 ^ 63 <= - 9223372036854775808 < 2 ^ 63)%Z /\ key_name (lit "k-1") /\
  show_value (value_int (- 9223372036854775808)) = Ok (lit "-9223372036854775808").
Proof.
  split; [lia|]. split; [left; split; [discriminate|chars]|vm_compute; reflexivity].
Qed.

(** ** C37 *)
Theorem C37_basic_string_ok : forall s,
  (basic_body s -> basic_string s = Some (VString s SBasic)) /\
  (~ basic_body s -> basic_string s = None).
Proof.
  intros s. unfold basic_string, checked. pose proof (validate_basic s) as V.
  destruct (validate (VString s SBasic)); split; intros H; auto; exfalso.
  - apply H, V. auto.
  - apply V in H. discriminate.
Qed.
Print Assumptions C37_basic_string_ok.

(** [st] is any parser state: the value is read, nothing else is consumed *)
Theorem C37_basic_string_reads : forall s v r st, basic_string s = Some v -> s <> [] \/ hd 0 r <> 34 ->
  exists t, show_value v = Ok t /\ t = [34] ++ s ++ [34] /\
    exists st' c, val_p st (t ++ r) = Ok (st', Done r c) /\ to_val c.(c_val) = Ok v.
Proof.
  intros s v r st H R. unfold basic_string, checked in H.
  destruct (validate (VString s SBasic)) eqn:V; [|discriminate]. inversion H; subst.
  apply validate_basic in V. exists ([34] ++ s ++ [34]). split; [reflexivity|]. split; auto.
  assert (HN : s = [] -> head_not 34 r) by (intros E; destruct R as [R|R]; [congruence|destruct r; simpl in *; auto]).
  eexists. eexists. split.
  - unfold val_p. cbn [val]. eapply val_string.
    + rewrite <- !app_assoc. apply string_basic; auto.
    + simpl; auto.
  - reflexivity.
Qed.
Print Assumptions C37_basic_string_reads.

Example C37_ex : basic_body (ulit "a\n\u00E9é") /\ ~ basic_body (lit "a\q") /\
  basic_string (ulit "a\n\u00E9é") <> None /\ basic_string (lit "a\q") = None /\ (ulit "a\n\u00E9é" <> [] \/ hd 0 [34] <> 34).
Proof.
  split; [apply validate_basic; vm_compute; reflexivity|].
  split; [intros H; apply validate_basic in H; vm_compute in H; discriminate|].
  vm_compute. repeat split; try discriminate. left. discriminate.
Qed.

(** ** C38 *)
Theorem C38_literal_string_ok : forall s,
  (literal_body s -> literal_string s = Some (VString s SLiteral)) /\
  (~ literal_body s -> literal_string s = None).
Proof.
  intros s. unfold literal_string, checked. pose proof (validate_literal s) as V.
  destruct (validate (VString s SLiteral)); split; intros H; auto; exfalso.
  - apply H, V. auto.
  - apply V in H. discriminate.
Qed.
Print Assumptions C38_literal_string_ok.

Theorem C38_literal_string_reads : forall s v r st, literal_string s = Some v -> s <> [] \/ hd 0 r <> 39 ->
  exists t, show_value v = Ok t /\ t = [39] ++ s ++ [39] /\
    exists st' c, val_p st (t ++ r) = Ok (st', Done r c) /\ to_val c.(c_val) = Ok v.
Proof.
  intros s v r st H R. unfold literal_string, checked in H.
  destruct (validate (VString s SLiteral)) eqn:V; [|discriminate]. inversion H; subst.
  apply validate_literal in V. exists ([39] ++ s ++ [39]). split; [reflexivity|]. split; auto.
  assert (HN : s = [] -> head_not 39 r) by (intros E; destruct R as [R|R]; [congruence|destruct r; simpl in *; auto]).
  eexists. eexists. split.
  - unfold val_p. cbn [val]. eapply val_string.
    + rewrite <- !app_assoc. apply string_literal; auto.
    + simpl; auto.
  - reflexivity.
Qed.
Print Assumptions C38_literal_string_reads.

Example C38_ex : literal_body (ulit "C:\dir\é") /\ ~ literal_body (lit "it's") /\
  literal_string (ulit "C:\dir\é") <> None /\ literal_string (lit "it's") = None /\ (ulit "C:\dir\é" <> [] \/ hd 0 [39] <> 39).
Proof.
  split; [apply validate_literal; vm_compute; reflexivity|].
  split; [intros H; apply validate_literal in H; vm_compute in H; discriminate|].
  vm_compute. repeat split; try discriminate. left. discriminate.
Qed.

(** ** C39: false as stated *)
Theorem C39_ml_string_refuted :
  (exists v t st c r, ml_basic_string [34] = Some v /\ show_value v = Ok t /\
     val_p (new_parser true) t = Ok (st, Done r c) /\ r <> [] /\ to_val c.(c_val) <> Ok v) /\
  (exists v t st c r, ml_literal_string [39] = Some v /\ show_value v = Ok t /\
     val_p (new_parser true) t = Ok (st, Done r c) /\ r <> [] /\ to_val c.(c_val) <> Ok v).
Proof.
  split; repeat eexists; try (vm_compute; reflexivity); discriminate.
Qed.
Print Assumptions C39_ml_string_refuted.

(** which strings are accepted *)
Theorem C39_ml_string_ok : forall s,
  (ml_basic_string s <> None <-> ml_basic_body s) /\
  (ml_literal_string s <> None <-> ml_literal_body s).
Proof.
  intros s. unfold ml_basic_string, ml_literal_string, checked.
  pose proof (validate_ml_basic s) as V. pose proof (validate_ml_literal s) as W.
  destruct (validate (VString s SMLBasic)); destruct (validate (VString s SMLLiteral));
    split; split; intros H; try congruence; try (apply V; auto; fail); try (apply W; auto; fail);
    exfalso; try (apply V in H; discriminate); try (apply W in H; discriminate).
Qed.
Print Assumptions C39_ml_string_ok.

(** an accepted string reads back if the delimiter does not occur before the end *)
Theorem C39_ml_string_partial : forall s v r st,
  (ml_basic_string s = Some v /\ closes_at_end 34 s) \/
  (ml_literal_string s = Some v /\ closes_at_end 39 s) ->
  exists t, show_value v = Ok t /\
    exists st' c, val_p st (t ++ r) = Ok (st', Done r c) /\ to_val c.(c_val) = Ok v.
Proof.
  intros s v r st [[H C]|[H C]].
  - unfold ml_basic_string, checked in H.
    destruct (validate (VString s SMLBasic)) eqn:V; [|discriminate]. inversion H; subst.
    apply validate_ml_basic in V. exists ([34;34;34] ++ s ++ [34;34;34]). split; [reflexivity|].
    eexists. eexists. split.
    + unfold val_p. cbn [val]. eapply val_string; [|simpl; auto].
      rewrite <- !app_assoc. apply string_ml_basic; auto.
    + reflexivity.
  - unfold ml_literal_string, checked in H.
    destruct (validate (VString s SMLLiteral)) eqn:V; [|discriminate]. inversion H; subst.
    apply validate_ml_literal in V. exists ([39;39;39] ++ s ++ [39;39;39]). split; [reflexivity|].
    eexists. eexists. split.
    + unfold val_p. cbn [val]. eapply val_string; [|simpl; auto].
      rewrite <- !app_assoc. apply string_ml_literal; auto.
    + reflexivity.
Qed.
Print Assumptions C39_ml_string_partial.

Lemma C39_ex_closes : closes_at_end 34 (lit "a" ++ [10; 34] ++ lit "b").
Proof.
  intros a b H. do 8 (destruct a as [|? a]; [try discriminate; cbn in H; congruence|cbn in H; inversion H; subst; clear H;
    match goal with H : _ = _ |- _ => rename H into H0 end; rename H0 into H]).
  all: destruct a; discriminate.
Qed.
Example C39_ex : closes_at_end 34 (lit "a" ++ [10; 34] ++ lit "b") /\
  ml_basic_string (lit "a" ++ [10; 34] ++ lit "b") <> None.
Proof. split; [exact C39_ex_closes|vm_compute; discriminate]. Qed.
