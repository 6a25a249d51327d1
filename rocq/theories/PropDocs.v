(** Updates of values in documents, without conditions on the state of the parser. *)
From Coq Require Import Lia ZifyBool ZifyNat ZifyN.
From Verif Require Import Str Regex Types Ast State Nom Keys Grammar Api Facts Spec ApiSpec IdFacts WriteFacts SetFacts ApiFacts UpdateFacts.
From Verif Require Import TypesFacts DateFacts NumFacts StringFacts ScalarFacts FlatFacts PropTypes PropFlat PropApi DocSpec.
From Verif Require Import PathFacts SectFacts LookFacts RereadFacts PropNest.

(** ** How indices are written *)
(** the number that a list of decimal digits stands for *)
Fixpoint number_of (acc : N) (l : str) : N :=
  match l with [] => acc | c :: l' => number_of (10 * acc + (c - 48)) l' end.
(** decimal notation: digits, no leading zero except for the number 0 *)
Definition decimal (n : N) (t : str) : Prop :=
  t <> [] /\ Forall (fun c => 48 <= c <= 57) t /\ number_of 0 t = n /\ (forall r, t = 48 :: r -> r = []).

Lemma number_dval : forall l a, number_of a l = dval a l.
Proof.
  induction l as [|c l IH]; intros a; auto. cbn [number_of]. rewrite IH. unfold dval. cbn [fold_left]. f_equal. lia.
Qed.
Lemma dec_decimal : forall n, decimal n (dec n).
Proof.
  intros n. destruct (dec_spec n) as (A & B & C & D & E).
  assert (F : Forall (fun c => 48 <= c <= 57) (dec n)) by (apply Forall_forall; intros c I; apply (dec_digits n); auto).
  split; auto. split; auto. split; [rewrite number_dval; auto|].
  intros r H. destruct (N.eq_dec n 0) as [Z|Z].
  - rewrite (E Z) in H. congruence.
  - destruct (D Z) as (c & t & X & Y). rewrite X in H. inversion H. lia.
Qed.
(** there is only one such text, so [dec] in the statements of this development
    is the ordinary way to write an index *)
Lemma number_ge : forall l a, a <= number_of a l.
Proof. induction l as [|c l IH]; intros a; cbn [number_of]; [lia|]. specialize (IH (10 * a + (c - 48))). lia. Qed.
Lemma number_snoc : forall l a c, number_of a (l ++ [c]) = 10 * number_of a l + (c - 48).
Proof. induction l as [|x l IH]; intros a c; cbn [number_of app]; auto. Qed.
Definition digits_nz (t : str) : Prop := Forall (fun c => 48 <= c <= 57) t /\ forall r, t <> 48 :: r.
Lemma nz_zero : forall t, digits_nz t -> number_of 0 t = 0 -> t = [].
Proof.
  intros [|c t] [F Z] E; auto. exfalso. cbn [number_of] in E. pose proof (number_ge t (10 * 0 + (c - 48))). inversion F; subst.
  apply (Z t). f_equal. lia.
Qed.
Lemma nz_front : forall t c, digits_nz (t ++ [c]) -> digits_nz t.
Proof.
  intros t c [F Z]. apply Forall_app in F as [F _]. split; auto. intros r ->. apply (Z (r ++ [c])). reflexivity.
Qed.
Lemma nz_inj : forall t u, digits_nz t -> digits_nz u -> number_of 0 t = number_of 0 u -> t = u.
Proof.
  induction t as [|c t IH] using rev_ind; intros u T U E.
  - symmetry. apply nz_zero; auto.
  - destruct u as [|d u _] using rev_ind.
    { apply nz_zero in E; auto. }
    rewrite !number_snoc in E. assert (c = d).
    { destruct T as [T _], U as [U _]. apply Forall_app in T as [_ T]. apply Forall_app in U as [_ U]. inversion T; inversion U; subst. lia. }
    subst d. f_equal. apply IH; [eapply nz_front; eauto|eapply nz_front; eauto|]. lia.
Qed.
Lemma decimal_unique : forall n t, decimal n t -> t = dec n.
Proof.
  intros n t D. pose proof (dec_decimal n) as D2. revert D D2. generalize (dec n). intros u (A & B & C & E) (A' & B' & C' & E').
  destruct t as [|c t _] using rev_ind; [congruence|]. destruct u as [|d u _] using rev_ind; [congruence|].
  apply Forall_app in B as [B1 B2]. apply Forall_app in B' as [B1' B2']. inversion B2; inversion B2'; subst.
  rewrite !number_snoc in C'. assert (c = d) by lia. subst d. f_equal. apply nz_inj; [| |lia]; (split; auto).
  - intros r ->. specialize (E (r ++ [c]) eq_refl). destruct r; discriminate.
  - intros r ->. specialize (E' (r ++ [c]) eq_refl). destruct r; discriminate.
Qed.

Theorem C46_index_text : forall n t, t = dec n <-> decimal n t.
Proof. intros n t. split; [intros ->; apply dec_decimal|apply decimal_unique]. Qed.
Print Assumptions C46_index_text.
Example C46_index_text_ex : decimal 120 (lit "120").
Proof.
  split; [discriminate|]. split; [repeat constructor; vm_compute; discriminate|]. split; [reflexivity|]. intros r H. discriminate.
Qed.

Lemma line_addr : forall ls t k v p, lines_ok ls -> In (t, k, v) (pairs (body ls)) -> good_path p ->
  address t k ++ path_text p <> [] /\ address t k ++ path_text p <> root_key.
Proof.
  intros ls t k v p OK I G. pose proof (bare_lines ls OK) as B.
  assert (X : good_addr (ext (aof t k) p)).
  { apply good_ext; auto. apply aof_good; [eapply bare_tables; eauto; eapply pairs_declared; eauto|].
    destruct B as [_ _ B]. rewrite Forall_forall in B. apply (B _ I). }
  rewrite <- aof_text, <- atext_ext. split; [apply atext_ne|apply atext_root]; auto.
Qed.

Lemma path_idx : forall x p i, x ++ path_text (p ++ [PIdx i]) = (x ++ path_text p) ++ lit "[" ++ dec i ++ lit "]".
Proof. intros. rewrite path_app. unfold path_text at 2. cbn [map concat step_text]. rewrite app_nil_r, app_assoc. auto. Qed.
Lemma path_key : forall x p k, x ++ path_text (p ++ [PKey k]) = (x ++ path_text p) ++ lit "." ++ k.
Proof. intros. rewrite path_app. unfold path_text at 2. cbn [map concat step_text]. rewrite app_nil_r, app_assoc. auto. Qed.
Lemma at_path_app : forall p q v, at_path v (p ++ q) = match at_path v p with Some w => at_path w q | None => None end.
Proof.
  induction p as [|[i|k] p IH]; intros q v; auto; cbn [app at_path].
  - destruct v; auto. destruct (nth_error l (N.to_nat i)); auto.
  - destruct v; auto. destruct (first_value k l); auto.
Qed.

(** ** C24 in documents *)
Theorem C24_documents_partial : forall ovf ls t k v p old new, lines_ok ls -> distinct (body ls) -> plain_headers (body ls) ->
  In (t, k, v) (pairs (body ls)) -> good_path p -> at_path v p = Some (VArray old) ->
  flat new -> ~ same_shape (VArray old) (VArray new) ->
  let key := address t k ++ path_text p in
  exists s s', parse (new_parser ovf) (lines_text ls) = Ok (s, Full) /\
    set_value s key (VArray new) = Ok (s', true) /\ get_value s' key = Ok (Some (VArray new)) /\
    get_children s' key = Some (Count (N.of_nat (length new))) /\
    (forall i, get_value s' (key ++ lit "[" ++ dec i ++ lit "]") = Ok (nth_error new (N.to_nat i))) /\
    other_same key s s'.
Proof.
  intros ovf ls t k v p old new OK DS PH I G AT F NS key.
  destruct (lines_parse ovf ls OK DS PH) as (s & P & RA). destruct (line_addr ls t k v p OK I G) as [NE NR].
  destruct (look_value ls s OK DS RA t k v p I G) as [GV GC]. rewrite AT in GV, GC.
  destruct (C24_resize_partial ovf s key (VArray old) new (N.of_nat (length old))) as (s' & A & B & C & D & E & _); auto.
  - eapply R_parse; [apply R_new|exact P].
  - intros i L. unfold key. rewrite <- path_idx.
    destruct (look_value ls s OK DS RA t k v (p ++ [PIdx i]) I) as [_ X].
    { apply Forall_app. split; auto. constructor; [exact Logic.I|constructor]. }
    rewrite X, at_path_app, AT. cbn [at_path]. rewrite (proj2 (nth_error_None old (N.to_nat i))) by lia. reflexivity.
  - exists s, s'. auto 8.
Qed.
Print Assumptions C24_documents_partial.
Example C24_documents_ex : exists v, lines_ok sect_lines /\ distinct (body sect_lines) /\ plain_headers (body sect_lines) /\
  In (TName (lit "owner"), lit "pos", v) (pairs (body sect_lines)) /\ good_path [PKey (lit "y")] /\
  at_path v [PKey (lit "y")] = Some (VArray [VBoolean true]) /\
  flat [int "1"; int "2"] /\ ~ same_shape (VArray [VBoolean true]) (VArray [int "1"; int "2"]).
Proof.
  eexists. split; [apply sect_ok|]. split; [apply sect_distinct|]. split; [apply sect_plain|].
  split; [right; right; left; reflexivity|]. split; [constructor; [bare|constructor]|]. split; [reflexivity|].
  split; [|apply other_length; discriminate].
  intros x [<-|[<-|[]]]; vm_compute; auto.
Qed.

(** ** C25 in documents *)
Theorem C25_documents_partial : forall ovf ls t k v p old new, lines_ok ls -> distinct (body ls) -> plain_headers (body ls) ->
  In (t, k, v) (pairs (body ls)) -> good_path p -> at_path v p = Some (VInlineTable old) ->
  flat2 new -> NoDup (map fst new) -> (forall x, In x new -> key_name (fst x)) ->
  ~ same_shape (VInlineTable old) (VInlineTable new) ->
  let key := address t k ++ path_text p in
  exists s s' added, parse (new_parser ovf) (lines_text ls) = Ok (s, Full) /\
    set_value s key (VInlineTable new) = Ok (s', true) /\ get_value s' key = Ok (Some (VInlineTable new)) /\
    get_children s' key = Some (Keys (map fst old ++ added)) /\
    (forall k, In k added <-> In k (map fst new) /\ ~ In k (map fst old)) /\
    (forall more, map fst new = map fst old ++ more -> added = more) /\
    (forall k x, In (k, x) new -> get_value s' (key ++ lit "." ++ k) = Ok (Some x)) /\
    (forall k, In k (map fst old) -> ~ In k (map fst new) -> get_value s' (key ++ lit "." ++ k) = Ok None) /\
    other_same key s s'.
Proof.
  intros ovf ls t k v p old new OK DS PH I G AT F ND BK NS key.
  destruct (lines_parse ovf ls OK DS PH) as (s & P & RA). destruct (line_addr ls t k v p OK I G) as [NE NR].
  destruct (look_value ls s OK DS RA t k v p I G) as [GV GC]. rewrite AT in GV, GC.
  destruct (C25_table_children_partial ovf s key (VInlineTable old) new (map fst old)) as (s' & added & R); auto.
  - eapply R_parse; [apply R_new|exact P].
  - intros x IX NX. unfold key. rewrite <- path_key.
    destruct (look_value ls s OK DS RA t k v (p ++ [PKey x]) I) as [_ X].
    { apply Forall_app. split; auto. constructor; [|constructor]. apply in_map_iff in IX as (y & <- & IY). apply BK; auto. }
    rewrite X, at_path_app, AT. cbn [at_path]. replace (first_value x old) with (@None value); [reflexivity|].
    clear - NX. symmetry. induction old as [|[a b] old IH]; auto. cbn [first_value map fst In] in *.
    destruct (same_key x a) eqn:SK; [|tauto]. apply same_key_eq in SK. subst. tauto.
  - exists s, s', added. tauto.
Qed.
Print Assumptions C25_documents_partial.
Example C25_documents_ex : exists v, 
  In (TName (lit "owner"), lit "pos", v) (pairs (body sect_lines)) /\ good_path [] /\
  at_path v [] = Some (VInlineTable [(lit "x", int "1"); (lit "y", VArray [VBoolean true])]) /\
  flat2 [(lit "z", int "1")] /\ NoDup (map fst [(lit "z", int "1")]) /\ key_name (lit "z").
Proof.
  eexists. split; [right; right; left; reflexivity|]. split; [constructor|]. split; [reflexivity|].
  split; [|split; [repeat constructor; auto|bare]]. intros x [<-|[]]; vm_compute; auto.
Qed.
