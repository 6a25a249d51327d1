(** Properties of lookups in documents with nested values, tables and arrays of tables. *)
From Coq Require Import Lia ZifyBool ZifyNat ZifyN.
From Verif Require Import Str Regex Types Ast State Nom Keys Grammar Api Facts Spec ApiSpec.
From Verif Require Import TypesFacts DateFacts NumFacts StringFacts ScalarFacts FlatFacts PropTypes PropFlat DocSpec SectFacts LookFacts RereadFacts.

(** a document of several sections, used by the examples *)
Definition sect_lines : list (str * dline) :=
  [ ([], DBlank [] (Some (lit " settings")));
    ([10], DLine [] (lit "ports") (lit " ") (lit " ") (VArray [VInteger (lit "80"); VInteger (lit "443")]) (lit "[80, 443 ]") [] None);
    ([10], DTable [] [] (lit "owner") [] [] None);
    ([10], DLine (lit "  ") (lit "name") (lit " ") (lit " ") (VString (lit "tom") SBasic) ([34] ++ lit "tom" ++ [34]) (lit " ") (Some (lit "x")));
    ([13; 10], DLine [] (lit "pos") (lit " ") (lit " ")
       (VInlineTable [(lit "x", VInteger (lit "1")); (lit "y", VArray [VBoolean true])]) (lit "{x=1, y=[true]}") [] None);
    ([10], DArray [] [] (lit "srv") [] [] None);
    ([10], DLine [] (lit "ip") [] [] (VInteger (lit "1")) (lit "1") [] None);
    ([10], DArray [] (lit " ") (lit "srv") [] [] None);
    ([10], DLine [] (lit "ip") [] [] (VInteger (lit "2")) (lit "2") [] None);
    ([10], DLine [] (lit """up time""") [] [] (VBoolean true) (lit "true") [] None);
    ([10], DArray [] [] (lit "db") [] [] None);
    ([10], DLine [] (lit "ip") [] [] (VInteger (lit "3")) (lit "3") [] None);
    ([10], DBlank [] None) ].

Lemma plain_no_arrays : forall l, array_names l = [] -> plain_headers l.
Proof.
  intros l H l1 l2 w0 w1 n w2 w3 c ->. exfalso.
  assert (A : forall a b, array_names (a ++ b) = array_names a ++ array_names b).
  { clear. induction a as [|d a IH]; intros b; [|destruct d]; cbn [app array_names]; rewrite ?IH; auto. }
  rewrite A in H. apply app_eq_nil in H as [_ H]. discriminate.
Qed.

Lemma after_elem : forall l, table_names l = [] ->
  table_after TRoot [] l = TRoot \/ exists m i x, table_after TRoot [] l = TElem m i /\ array_names l = x ++ [m].
Proof.
  intros l. assert (G : forall l t seen, table_names l = [] -> (array_names l = [] /\ table_after t seen l = t) \/
    exists m i x, table_after t seen l = TElem m i /\ array_names l = x ++ [m]).
  { clear. induction l as [|d l IH]; intros t seen H; [left; auto|].
    destruct d; cbn [table_names table_after array_names] in *; try discriminate; auto.
    right. destruct (IH (TElem name (times name seen)) (name :: seen) H) as [[A B]|(m & i & x & A & B)].
    - rewrite A, B. exists name, (times name seen), []. auto.
    - rewrite A, B. exists m, i, (name :: x). auto. }
  intros H. destruct (G l TRoot [] H) as [[_ A]|A]; auto.
Qed.

Lemma repeat_split : forall (a b : str) m n x y, repeat a m ++ repeat b n = x ++ y ->
  exists i j, (i <= m)%nat /\ (j <= n)%nat /\ (j = 0%nat \/ i = m) /\ x = repeat a i ++ repeat b j.
Proof.
  intros a b m n x. revert m n. induction x as [|c x IH]; intros m n y H.
  - exists 0%nat, 0%nat. repeat split; auto; lia.
  - destruct m as [|m].
    + destruct n as [|n]; [discriminate|]. cbn [repeat app] in H. inversion H as [[E H1]]; subst.
      destruct (IH 0%nat n y H1) as (i & j & I & J & _ & E). exists 0%nat, (S j). assert (i = 0%nat) by lia. subst i.
      repeat split; try lia. cbn [repeat app] in *. congruence.
    + cbn [repeat app] in H. inversion H as [[E H1]]; subst. destruct (IH m n y H1) as (i & j & I & J & K & E).
      exists (S i), j. repeat split; try lia. cbn [repeat app]. congruence.
Qed.

Lemma plain_two : forall l a b m n, table_names l = [] -> array_names l = repeat a m ++ repeat b n ->
  (forall r, b <> a ++ r) -> plain_headers l.
Proof.
  intros l a b m n T A NP l1 l2 w0 w1 h w2 w3 c ->.
  assert (AA : forall a b, array_names (a ++ b) = array_names a ++ array_names b).
  { clear. induction a as [|d a IH]; intros b; [|destruct d]; cbn [app array_names]; rewrite ?IH; auto. }
  assert (TA : forall a b, table_names (a ++ b) = table_names a ++ table_names b).
  { clear. induction a as [|d a IH]; intros b; [|destruct d]; cbn [app table_names]; rewrite ?IH; auto. }
  rewrite AA in A. rewrite TA in T. apply app_eq_nil in T as [T _]. cbn [array_names] in A.
  destruct (after_elem l1 T) as [->|(x & i & y & -> & Y)]; auto.
  rewrite Y in A. symmetry in A. destruct (repeat_split _ _ _ _ _ _ A) as (p & q & _ & _ & Z & E).
  assert (F : (y ++ [x]) ++ h :: array_names l2 = ((y ++ [x]) ++ [h]) ++ array_names l2) by (rewrite <- !app_assoc; auto).
  rewrite F in A. destruct (repeat_split _ _ _ _ _ _ A) as (p' & q' & P' & Q' & Z' & E').
  destruct q' as [|q'].
  - cbn [repeat] in E'. rewrite app_nil_r in E'. left. assert (X : In x (repeat a p')) by (rewrite <- E', !in_app_iff; cbn [In]; auto).
    assert (H : In h (repeat a p')) by (rewrite <- E', !in_app_iff; cbn [In]; auto).
    apply repeat_spec in X, H. congruence.
  - assert (h = b) as ->.
    { replace (S q') with (q' + 1)%nat in E' by lia. rewrite repeat_app, app_assoc in E'.
      apply app_inj_tail in E' as [_ E']. auto. }
    assert (X : In x (repeat a p' ++ repeat b (S q'))) by (rewrite <- E', !in_app_iff; cbn [In]; auto).
    apply in_app_or in X as [X|X]; apply repeat_spec in X; subst x; auto.
Qed.

(** the examples' document meets the hypotheses *)
Ltac chars :=
  unfold com_ok, comment_text, blanks;
  match goal with |- Forall _ ?l => let l' := eval vm_compute in l in change l with l' end;
  repeat (apply Forall_cons; [unfold bare_char, digit; lia|]); apply Forall_nil.
Ltac bare := solve [left; split; [discriminate|chars]|quoted].
Ltac ints := apply Sp_scalar, Sc_int; exists []; eexists; split; [reflexivity|]; split; [left; reflexivity|];
  match goal with |- int_body ?l => let l' := eval vm_compute in l in change l with l' end;
  do 2 eexists; split; [reflexivity|]; split; [unfold digit; lia|]; split;
  [repeat (apply DT_digit; [unfold digit; lia|]); apply DT_nil|discriminate].
Ltac nogap := apply G_ws; repeat (apply BL_char; [lia|]); apply BL_nil.

Lemma sect_ok : lines_ok sect_lines.
Proof.
  unfold sect_lines, lines_ok. split; [reflexivity|]. split; [split; chars|].
  repeat apply Forall_cons; [..|apply Forall_nil]; cbn [fst snd]; (split; [unfold line_end; auto|]);
    cbn [dline_ok]; repeat match goal with |- _ /\ _ => split end; try solve [chars|bare|exact I|ints|apply Sp_scalar, Sc_true].
  - change (lit "[80, 443 ]") with (lit "[" ++ [] ++ (lit "80" ++ [] ++ lit "," ++ [32] ++ (lit "443" ++ [32])) ++ lit "]").
    apply Sp_array; [nogap| |].
    + apply El_cons; [ints|chars|nogap|]. apply El_last; [ints|nogap].
    + intros a b [<-|[<-|[]]] [<-|[<-|[]]]; reflexivity.
  - apply Sp_scalar, Sc_basic. match goal with |- basic_body ?l => let l' := eval vm_compute in l in change l with l' end.
    repeat (apply BB_char; [lia|lia|lia|]). apply BB_nil.
  - change (lit "{x=1, y=[true]}") with (lit "{" ++ [] ++ (lit "x" ++ [] ++ lit "=" ++ [] ++ lit "1" ++ [] ++ lit "," ++ [32] ++
      (lit "y" ++ [] ++ lit "=" ++ [] ++ (lit "[" ++ [] ++ (lit "true" ++ []) ++ lit "]") ++ [])) ++ lit "}").
    apply Sp_inline; [chars| |].
    + apply Fl_cons; [bare|chars|chars|ints|chars|nogap|]. apply Fl_last; [bare|chars|chars| |nogap].
      apply Sp_array; [nogap| |].
      * apply El_last; [apply Sp_scalar, Sc_true|nogap].
      * intros a b [<-|[]] [<-|[]]; reflexivity.
    + vm_compute. repeat constructor; cbn [In]; intros H; repeat destruct H as [H|H]; try discriminate; auto.
Qed.
Lemma sect_distinct : distinct (body sect_lines).
Proof.
  constructor.
  - vm_compute. repeat constructor; cbn [In]; intros H; repeat destruct H as [H|H]; try discriminate; auto.
  - vm_compute. repeat constructor; cbn [In]; intros H; repeat destruct H as [H|H]; try discriminate; auto.
  - intros n H. vm_compute in H. destruct H as [<-|[]]. vm_compute. intros H; repeat destruct H as [H|H]; try discriminate; auto.
  - intros k v H. vm_compute in H. destruct H as [H|H].
    + inversion H; subst. vm_compute. split; intros X; repeat destruct X as [X|X]; try discriminate; auto.
    + repeat destruct H as [H|H]; try discriminate; destruct H.
Qed.
Lemma sect_plain : plain_headers (body sect_lines).
Proof.
  apply plain_from_headers. vm_compute. repeat split; auto. right. intros r H. discriminate.
Qed.

(** ** C15 *)
Theorem C15_array_index : forall ovf ls, lines_ok ls -> distinct (body ls) -> plain_headers (body ls) ->
  exists s, parse (new_parser ovf) (lines_text ls) = Ok (s, Full) /\
    forall t k vs, In (t, k, VArray vs) (pairs (body ls)) ->
      get_value s (address t k) = Ok (Some (VArray vs)) /\
      get_children s (address t k) = Some (Count (N.of_nat (length vs))) /\
      forall i, get_value s (address t k ++ lit "[" ++ dec i ++ lit "]") = Ok (nth_error vs (N.to_nat i)) /\
        (N.of_nat (length vs) <= i -> get_children s (address t k ++ lit "[" ++ dec i ++ lit "]") = None).
Proof.
  intros ovf ls OK DS PH. destruct (lines_parse ovf ls OK DS PH) as (s & P & RA). exists s. split; auto.
  intros t k vs I. destruct (look_value ls s OK DS RA t k (VArray vs) [] I) as [V C]; [constructor|].
  change (path_text []) with (@nil N) in V, C. rewrite app_nil_r in V, C. split; [exact V|]. split; [exact C|]. intros i.
  destruct (look_value ls s OK DS RA t k (VArray vs) [PIdx i] I) as [V1 C1]; [constructor; [exact Logic.I|constructor]|].
  assert (E : path_text [PIdx i] = lit "[" ++ dec i ++ lit "]") by apply app_nil_r. rewrite E in V1, C1.
  cbn [at_path] in V1, C1. split.
  - rewrite V1. destruct (nth_error vs (N.to_nat i)); auto.
  - intros L. rewrite C1. destruct (nth_error vs (N.to_nat i)) eqn:X; auto.
    assert (Y : nth_error vs (N.to_nat i) <> None) by congruence. apply nth_error_Some in Y. lia.
Qed.
Print Assumptions C15_array_index.
Example C15_ex : lines_ok sect_lines /\ distinct (body sect_lines) /\ plain_headers (body sect_lines) /\
  In (TRoot, lit "ports", VArray [VInteger (lit "80"); VInteger (lit "443")]) (pairs (body sect_lines)) /\
  address TRoot (lit "ports") ++ lit "[" ++ dec 1 ++ lit "]" = lit "ports[1]".
Proof. split; [apply sect_ok|]. split; [apply sect_distinct|]. split; [apply sect_plain|]. split; [left; reflexivity|vm_compute; reflexivity]. Qed.

Lemma top_keys : forall l, array_names l = [] -> top_names TRoot l = keys_in TRoot (pairs l) ++ table_names l.
Proof.
  assert (A : forall l t seen, t <> TRoot -> array_names l = [] ->
    top_names t l = table_names l /\ keys_in TRoot (placed t seen l) = []).
  { induction l as [|d l IH]; intros t seen N H; [auto|]. destruct d; cbn [top_names table_names array_names placed] in *; auto.
    - destruct (IH t seen N H) as [X Y]. unfold keys_in in *. cbn [filter fst]. destruct (taddr_dec t TRoot); [congruence|].
      rewrite X. destruct t; [congruence| |]; auto.
    - destruct (IH (TName name) seen ltac:(discriminate) H) as [X Y]. rewrite X. auto.
    - discriminate. }
  intros l H. unfold pairs. generalize (@nil str) as seen. induction l as [|d l IH]; intros seen; [auto|].
  destruct d; cbn [top_names table_names array_names placed] in *; auto.
  - unfold keys_in in *. cbn [filter fst map snd app]. destruct (taddr_dec TRoot TRoot); [|congruence]. cbn [map app]. f_equal. auto.
  - destruct (A l (TName name) seen ltac:(discriminate) H) as [X Y]. rewrite X, Y. auto.
  - discriminate.
Qed.
Lemma nodup_keys_in : forall t l, NoDup (map fst l) -> NoDup (keys_in t l).
Proof.
  intros t l. induction l as [|[[t0 k] v] l IH]; intros H; [constructor|]. cbn [map fst] in H. inversion H as [|? ? N D]; subst.
  unfold keys_in in *. cbn [filter fst]. destruct (taddr_dec t0 t) as [->|]; auto. cbn [map snd fst]. constructor; auto.
  intros I. apply keys_in_in in I as [v' I]. apply N. apply (in_map fst) in I. exact I.
Qed.
Lemma top_nodup : forall l, distinct l -> array_names l = [] -> first_keys [] (top_names TRoot l) = top_names TRoot l.
Proof.
  intros l [D1 D2 D3 D4] A. apply first_keys_nodup; [|intros k _ []]. rewrite (top_keys l A).
  pose proof (nodup_keys_in TRoot _ D1) as N1. assert (DJ : forall k, In k (keys_in TRoot (pairs l)) -> ~ In k (table_names l)).
  { intros k I. apply keys_in_in in I as [v I]. apply (D4 _ _ I). }
  induction (keys_in TRoot (pairs l)) as [|k r IH]; auto. inversion N1; subst. cbn [app]. constructor.
  - intros I. apply in_app_or in I as [I|I]; auto. apply (DJ k); auto. left; auto.
  - apply IH; auto. intros x X. apply DJ. right; auto.
Qed.

(** ** C16: no arrays of tables; the values may be nested *)
Theorem C16_sections : forall ovf ls, lines_ok ls -> distinct (body ls) -> array_names (body ls) = [] ->
  exists s, parse (new_parser ovf) (lines_text ls) = Ok (s, Full) /\
    (forall n k v, In (TName n, k, v) (pairs (body ls)) -> get_value s (n ++ lit "." ++ k) = Ok (Some v)) /\
    (forall n, In n (table_names (body ls)) -> get_children s n = Some (Keys (keys_in (TName n) (pairs (body ls))))) /\
    get_children s [] = Some (Keys (top_names TRoot (body ls))).
Proof.
  intros ovf ls OK DS NA. destruct (lines_parse ovf ls OK DS (plain_no_arrays _ NA)) as (s & P & RA). exists s. split; auto.
  split; [|split].
  - intros n k v I. destruct (look_value ls s OK DS RA (TName n) k v [] I) as [V C]; [constructor|].
    change (path_text []) with (@nil N) in V. rewrite app_nil_r in V. exact V.
  - intros n I. apply (look_table ls s OK RA n I).
  - rewrite (look_root ls s RA), top_nodup; auto.
Qed.
Print Assumptions C16_sections.
Example C16_ex : lines_ok (firstn 5 sect_lines) /\ distinct (body (firstn 5 sect_lines)) /\ array_names (body (firstn 5 sect_lines)) = [] /\
  In (TName (lit "owner"), lit "name", VString (lit "tom") SBasic) (pairs (body (firstn 5 sect_lines))) /\
  keys_in (TName (lit "owner")) (pairs (body (firstn 5 sect_lines))) = [lit "name"; lit "pos"].
Proof.
  split; [|split; [|split; [reflexivity|split; [right; left; reflexivity|vm_compute; reflexivity]]]].
  - pose proof sect_ok as (A & B & C). split; [exact A|]. split; [exact B|]. cbn [firstn].
    do 4 (inversion C as [|? ? ? C']; subst; clear C; rename C' into C; apply Forall_cons; [assumption|]). apply Forall_nil.
  - apply (distinct_prefix (body (firstn 5 sect_lines)) (body (skipn 5 sect_lines))). apply sect_distinct.
Qed.

(** ** C17 *)

(** false as stated: an array whose name continues the name of the one before *)
Theorem C17_prefix_refuted : exists s,
  parse (new_parser true) (lit "[[foo]]" ++ [10] ++ lit "[[foobar]]" ++ [10] ++ lit "x = 1") = Ok (s, Full) /\
  get_value s (lit "foobar[0].x") = Ok None /\ get_children s (lit "foobar") = None.
Proof. eexists. split; [vm_compute; reflexivity|]. vm_compute. auto. Qed.
Print Assumptions C17_prefix_refuted.

(** the documents whose headers are [m] times [[a]] and then [n] times [[b]],
    where [b] does not continue [a] *)
Theorem C17_siblings_partial : forall ovf ls a b m n, lines_ok ls -> distinct (body ls) ->
  table_names (body ls) = [] -> array_names (body ls) = repeat a m ++ repeat b n -> a <> b -> (forall r, b <> a ++ r) ->
  exists s, parse (new_parser ovf) (lines_text ls) = Ok (s, Full) /\
    (forall x i k v, In (TElem x i, k, v) (pairs (body ls)) ->
       get_value s (x ++ lit "[" ++ dec i ++ lit "]." ++ k) = Ok (Some v)) /\
    ((0 < m)%nat -> get_children s a = Some (Count (N.of_nat m))) /\
    ((0 < n)%nat -> get_children s b = Some (Count (N.of_nat n))).
Proof.
  intros ovf ls a b m n OK DS T A NE NP.
  destruct (lines_parse ovf ls OK DS (plain_two _ _ _ _ _ T A NP)) as (s & P & RA). exists s. split; auto.
  assert (X : forall x y k, x <> y -> filter (same_key x) (repeat y k) = []).
  { intros x y k N. induction k as [|k IH]; auto. cbn [repeat filter]. destruct (same_key x y) eqn:E; auto.
    apply same_key_eq in E. congruence. }
  assert (Y : forall x k, length (filter (same_key x) (repeat x k)) = k).
  { intros x k. induction k as [|k IH]; auto. cbn [repeat filter]. rewrite same_key_refl. cbn [length]. auto. }
  split; [|split].
  - intros x i k v I. destruct (look_value ls s OK DS RA (TElem x i) k v [] I) as [V C]; [constructor|].
    change (path_text []) with (@nil N) in V. rewrite app_nil_r in V. cbn [address tname at_path] in V.
    rewrite <- !app_assoc in V. exact V.
  - intros M. destruct (look_array ls s OK RA a) as [C _].
    { rewrite A. apply in_or_app. left. destruct m; [lia|]. left; auto. }
    rewrite C. unfold times. rewrite A, filter_app, (X a b), app_nil_r, Y by congruence. auto.
  - intros M. destruct (look_array ls s OK RA b) as [C _].
    { rewrite A. apply in_or_app. right. destruct n; [lia|]. left; auto. }
    rewrite C. unfold times. rewrite A, filter_app, (X b a) by congruence. cbn [app]. rewrite Y; auto.
Qed.
Print Assumptions C17_siblings_partial.
Example C17_ex : let ls := (([] : str), DBlank [] None) :: skipn 5 sect_lines in
  lines_ok ls /\ distinct (body ls) /\ table_names (body ls) = [] /\
  array_names (body ls) = repeat (lit "srv") 2 ++ repeat (lit "db") 1 /\ (forall r, lit "db" <> lit "srv" ++ r) /\
  In (TElem (lit "db") 0, lit "ip", VInteger (lit "3")) (pairs (body ls)).
Proof.
  cbv zeta. split; [|split; [|split; [|split; [|split]]]].
  - pose proof sect_ok as (_ & _ & C). split; [reflexivity|]. split; [split; [chars|exact I]|].
    do 4 (inversion C as [|? ? ? C']; subst; clear C; rename C' into C). exact C.
  - constructor.
    + vm_compute. repeat constructor; cbn [In]; intros H; repeat destruct H as [H|H]; try discriminate; auto.
    + constructor.
    + intros n [].
    + intros k v H. exfalso. vm_compute in H. repeat destruct H as [H|H]; try discriminate; auto.
  - reflexivity.
  - reflexivity.
  - intros r H. discriminate.
  - vm_compute. tauto.
Qed.

(** ** C46 *)
Theorem C46_paths : forall ovf ls, lines_ok ls -> distinct (body ls) -> plain_headers (body ls) ->
  exists s, parse (new_parser ovf) (lines_text ls) = Ok (s, Full) /\
    (forall t k v p, In (t, k, v) (pairs (body ls)) -> good_path p ->
       get_value s (address t k ++ path_text p) = Ok (at_path v p) /\
       get_children s (address t k ++ path_text p) = option_map kids_of (at_path v p)) /\
    (forall x w, get_value s x = Ok (Some w) ->
       exists t k v p, In (t, k, v) (pairs (body ls)) /\ at_path v p = Some w /\ x = address t k ++ path_text p).
Proof.
  intros ovf ls OK DS PH. destruct (lines_parse ovf ls OK DS PH) as (s & P & RA). exists s. split; auto. split.
  - intros t k v p I G. apply (look_value ls s OK DS RA t k v p I G).
  - intros x w H. destruct (look_only_value ls s OK DS RA x w H) as (t & k & v & p & A & _ & B & C). eauto 8.
Qed.
Print Assumptions C46_paths.
Example C46_ex : lines_ok sect_lines /\ distinct (body sect_lines) /\ plain_headers (body sect_lines) /\
  exists v, In (TName (lit "owner"), lit "pos", v) (pairs (body sect_lines)) /\
    good_path [PKey (lit "y"); PIdx 0] /\ at_path v [PKey (lit "y"); PIdx 0] = Some (VBoolean true) /\
    address (TName (lit "owner")) (lit "pos") ++ path_text [PKey (lit "y"); PIdx 0] = lit "owner.pos.y[0]".
Proof.
  split; [apply sect_ok|]. split; [apply sect_distinct|]. split; [apply sect_plain|]. eexists. split; [right; right; left; reflexivity|].
  split; [|split; reflexivity]. constructor; [bare|]. constructor; [exact I|constructor].
Qed.

(** ** C47 *)
Theorem C47_tables : forall ovf ls, lines_ok ls -> distinct (body ls) -> plain_headers (body ls) ->
  exists s, parse (new_parser ovf) (lines_text ls) = Ok (s, Full) /\
    get_children s [] = Some (Keys (first_keys [] (top_names TRoot (body ls)))) /\
    (forall n, In n (table_names (body ls)) -> get_children s n = Some (Keys (keys_in (TName n) (pairs (body ls))))) /\
    (forall n, In n (array_names (body ls)) ->
       get_children s n = Some (Count (times n (array_names (body ls)))) /\ get_value s n = Ok None) /\
    (forall n i, i < times n (array_names (body ls)) ->
       get_children s (tname (TElem n i)) = Some (Keys (keys_in (TElem n i) (pairs (body ls)))) /\
       get_value s (tname (TElem n i)) = Ok None) /\
    (forall x ch, get_children s x = Some ch ->
       x = [] \/ x = root_key \/ In x (table_names (body ls)) \/ In x (array_names (body ls)) \/
       (exists n i, i < times n (array_names (body ls)) /\ x = tname (TElem n i)) \/
       exists t k v p w, In (t, k, v) (pairs (body ls)) /\ at_path v p = Some w /\ x = address t k ++ path_text p).
Proof.
  intros ovf ls OK DS PH. destruct (lines_parse ovf ls OK DS PH) as (s & P & RA). exists s. split; auto.
  split; [apply (look_root ls s RA)|]. split; [intros n I; apply (look_table ls s OK RA n I)|].
  split; [intros n I; apply (look_array ls s OK RA n I)|]. split; [intros n i I; apply (look_elem ls s OK RA n i I)|].
  intros x ch H. destruct (look_only ls s RA x ch H) as [C|[C|[C|[C|[C|(t & k & v & p & w & A & _ & B & C)]]]]]; auto 8.
  right; right; right; right; right. eauto 10.
Qed.
Print Assumptions C47_tables.
Example C47_ex : lines_ok sect_lines /\ distinct (body sect_lines) /\ plain_headers (body sect_lines) /\
  first_keys [] (top_names TRoot (body sect_lines)) = [lit "ports"; lit "owner"; lit "srv"; lit "db"] /\
  times (lit "srv") (array_names (body sect_lines)) = 2 /\
  keys_in (TElem (lit "srv") 1) (pairs (body sect_lines)) = [lit "ip"; lit """up time"""].
Proof.
  split; [apply sect_ok|]. split; [apply sect_distinct|]. split; [apply sect_plain|]. vm_compute. auto.
Qed.

(** ** C43 *)

(** false as stated: the constructors that take text accept a sign in a date *)
Theorem C43_sign_refuted : exists v s s1 s2 t, date_from_str (lit "+201") (lit "01") (lit "01") = Some v /\
  parse (new_parser true) (lit "a = 1") = Ok (s, Full) /\ set_value s (lit "a") v = Ok (s1, true) /\ show_parser s1 = Ok t /\
  parse (new_parser true) t = Ok (s2, Partial [] 1) /\ get_value s2 (lit "a") = Ok (Some (VInteger (lit "+201"))).
Proof. do 5 eexists. repeat (split; [vm_compute; reflexivity|]). vm_compute. reflexivity. Qed.
Print Assumptions C43_sign_refuted.

(** the scalars of the claim, apart from date-times built from texts with signs;
    also integers, floats and multi-line strings that are spelled correctly *)
Inductive readable : value -> Prop :=
| Rd_basic : forall s v, basic_string s = Some v -> readable v
| Rd_literal : forall s v, literal_string s = Some v -> readable v
| Rd_bool : forall b, readable (VBoolean b)
| Rd_int : forall z, readable (value_int z)
| Rd_text : forall s v, datetime_parse s = Ok (Some v) -> readable v
| Rd_date : forall y m d v, date_from_int y m d = Some v -> readable v
| Rd_datetime : forall y mo d h mi s v, datetime_from_int y mo d h mi s = Some v -> readable v
| Rd_frac : forall y mo d h mi s f v, f <= 18446744073709551615 -> datetime_frac_from_int y mo d h mi s f = Some v -> readable v
| Rd_zulu : forall y mo d h mi s v, datetime_zulu_from_int y mo d h mi s = Some v -> readable v
| Rd_full_zulu : forall y mo d h mi s f v, f <= 18446744073709551615 ->
    datetime_full_zulu_from_int y mo d h mi s f = Some v -> readable v
| Rd_offset : forall y mo d h mi s c oh om v, datetime_offset_from_int y mo d h mi s c oh om = Some v -> readable v
| Rd_full : forall y mo d h mi s f c oh om v, f <= 18446744073709551615 ->
    datetime_full_from_int y mo d h mi s f c oh om = Some v -> readable v
| Rd_digits : forall d, datetime_digits d -> validate (VDateTime d) = true -> readable (VDateTime d)
| Rd_toml_int : forall s, toml_int s -> readable (VInteger s)
| Rd_toml_float : forall s, toml_float s -> readable (VFloat s)
| Rd_ml_basic : forall s v, ml_basic_string s = Some v -> closes_at_end 34 s -> readable v
| Rd_ml_literal : forall s v, ml_literal_string s = Some v -> closes_at_end 39 s -> readable v.

Lemma toml_int_dec : forall z, toml_int (dec_z z).
Proof.
  intros z. apply (int_spelling_toml z). unfold dec_z. destruct (Z.ltb_spec z 0).
  - right. split; [lia|]. exists (dec (Z.to_N (- z))). split; auto. apply dec_numeral.
  - left. split; [lia|]. apply dec_numeral.
Qed.
Lemma readable_scalar : forall v, readable v -> scalar v (spelling v).
Proof.
  assert (B : forall r ok txt v, builds r ok txt -> r = Some v -> scalar v (spelling v)).
  { intros r ok txt v [_ H] E. apply H in E as (_ & _ & E). eapply datetime_parse_scalar; eauto. }
  assert (K : forall w v, checked w = Some v -> v = w /\ validate w = true).
  { intros w v H. unfold checked in H. destruct (validate w); inversion H; auto. }
  intros v H. destruct H.
  - apply K in H as [-> H]. apply Sc_basic, validate_basic; auto.
  - apply K in H as [-> H]. apply Sc_literal, validate_literal; auto.
  - destruct b; [apply Sc_true|apply Sc_false].
  - apply Sc_int, toml_int_dec.
  - eapply datetime_parse_scalar; eauto.
  - eapply B; eauto. apply C33_date_from_int.
  - eapply B; eauto. apply C33_datetime_from_int.
  - destruct (C33_datetime_frac_from_int y mo d h mi s f H) as (t & _ & X). eapply B; eauto.
  - eapply B; eauto. apply C33_datetime_zulu_from_int.
  - destruct (C33_datetime_full_zulu_from_int y mo d h mi s f H) as (t & _ & X). eapply B; eauto.
  - eapply B; eauto. apply C33_datetime_offset_from_int.
  - destruct (C33_datetime_full_from_int y mo d h mi s f c oh om H) as (t & _ & X). eapply B; eauto.
  - apply Sc_date. split; auto. apply datetime_validate_digits; auto.
  - apply Sc_int; auto.
  - apply Sc_float; auto.
  - apply K in H as [-> H]. apply Sc_ml_basic; auto. apply validate_ml_basic; auto.
  - apply K in H as [-> H]. apply Sc_ml_literal; auto. apply validate_ml_literal; auto.
Qed.

(** [ls v t]: a document with the line [k = t]; the value there is replaced *)
Theorem C43_update_partial : forall ovf l1 nl w0 k w1 w2 v t w3 c l2 v',
  let ls := fun v t => l1 ++ (nl, DLine w0 k w1 w2 v t w3 c) :: l2 in
  let key := address (table_after TRoot [] (body l1)) k in
  lines_ok (ls v t) -> distinct (body (ls v t)) -> plain_headers (body (ls v t)) ->
  (forall x, In x (pairs (body (ls v t))) -> filled (snd x)) -> scalar_value v -> readable v' ->
  exists s s1 s2, parse (new_parser ovf) (lines_text (ls v t)) = Ok (s, Full) /\
    set_value s key v' = Ok (s1, true) /\ show_parser s1 = Ok (lines_text (ls v' (spelling v'))) /\
    parse (new_parser ovf) (lines_text (ls v' (spelling v'))) = Ok (s2, Full) /\
    get_value s2 key = Ok (Some v') /\
    forall x, x <> key -> get_children s2 x = get_children s x /\ get_value s2 x = get_value s x.
Proof.
  intros ovf l1 nl w0 k w1 w2 v t w3 c l2 v' ls key OK DS PH FI SV RD. apply Forall_forall in FI.
  destruct (update_scalar l1 l2 nl w0 k w1 w2 w3 c ovf v t v' OK DS PH FI SV (readable_scalar _ RD))
    as (s & s1 & s2 & A & B & C & D & E & F).
  exists s, s1, s2. split; [exact A|]. split; [exact B|].
  assert (TX : lines_text (ls v' (spelling v')) = before_value l1 nl w0 k w1 w2 ++ spelling v' ++ after_value l2 w3 c)
    by apply text_value.
  rewrite TX. auto.
Qed.
Print Assumptions C43_update_partial.
Example C43_ex : exists v,
  let ls := firstn 8 sect_lines ++ (([10] : str), DLine [] (lit "ip") [] [] (VInteger (lit "2")) (lit "2") [] None) :: skipn 9 sect_lines in
  ls = sect_lines /\ lines_ok ls /\ distinct (body ls) /\ plain_headers (body ls) /\
  (forall x, In x (pairs (body ls)) -> filled (snd x)) /\
  address (table_after TRoot [] (body (firstn 8 sect_lines))) (lit "ip") = lit "srv[1].ip" /\
  datetime_offset_from_int 1979 5 27 7 32 0 45 7 5 = Some v /\ readable v /\ spelling v = lit "1979-05-27T07:32:00-07:05".
Proof.
  eexists. cbv zeta. split; [reflexivity|]. split; [apply sect_ok|]. split; [apply sect_distinct|]. split; [apply sect_plain|].
  split; [|split; [reflexivity|split; [vm_compute; reflexivity|split; [|vm_compute; reflexivity]]]].
  - vm_compute. intros x H. repeat destruct H as [<-|H]; try destruct H; repeat split; discriminate.
  - apply (Rd_offset 1979 5 27 7 32 0 45 7 5). vm_compute. reflexivity.
Qed.

(** ** C48 *)
Theorem C48_array_update : forall ovf l1 nl w0 k w1 w2 v t w3 c l2 l,
  let ls := fun v t => l1 ++ (nl, DLine w0 k w1 w2 v t w3 c) :: l2 in
  let key := address (table_after TRoot [] (body l1)) k in
  let txt := lines_text (ls (VArray l) (lit "[" ++ comma_list (map spelling l) ++ lit "]")) in
  lines_ok (ls v t) -> distinct (body (ls v t)) -> plain_headers (body (ls v t)) ->
  (forall x, In x (pairs (body (ls v t))) -> filled (snd x)) ->
  (forall x, In x l -> readable x) -> uniform l -> ~ same_shape v (VArray l) ->
  exists s s1 s2, parse (new_parser ovf) (lines_text (ls v t)) = Ok (s, Full) /\
    set_value s key (VArray l) = Ok (s1, true) /\ show_parser s1 = Ok txt /\
    parse (new_parser ovf) txt = Ok (s2, Full) /\
    (forall p, good_path p -> get_value s2 (key ++ path_text p) = Ok (at_path (VArray l) p)) /\
    forall x, (forall p, x <> key ++ path_text p) -> get_children s2 x = get_children s x /\ get_value s2 x = get_value s x.
Proof.
  intros ovf l1 nl w0 k w1 w2 v t w3 c l2 l ls key txt OK DS PH FI SC UN NS. apply Forall_forall in FI.
  assert (SC' : Forall (fun x => scalar x (spelling x)) l) by (apply Forall_forall; intros x I; apply readable_scalar; auto).
  pose proof (update_array l1 l2 nl w0 k w1 w2 w3 c ovf v t l OK DS PH FI SC' UN NS) as H. cbv zeta in H.
  assert (TX : txt = before_value l1 nl w0 k w1 w2 ++ lit "[" ++ comma_list (map spelling l) ++ lit "]" ++ after_value l2 w3 c).
  { unfold txt, ls. pose proof (text_value l1 l2 nl w0 k w1 w2 w3 c (VArray l) (lit "[" ++ comma_list (map spelling l) ++ lit "]")) as X.
    unfold with_value in X. rewrite X. unfold before_value, after_value. rewrite <- !app_assoc. reflexivity. }
  rewrite TX. exact H.
Qed.
Print Assumptions C48_array_update.
Theorem C48_inline_update : forall ovf l1 nl w0 k w1 w2 v t w3 c l2 l,
  let ls := fun v t => l1 ++ (nl, DLine w0 k w1 w2 v t w3 c) :: l2 in
  let key := address (table_after TRoot [] (body l1)) k in
  let fs := comma_list (map (fun kv => fst kv ++ lit " = " ++ spelling (snd kv)) l) in
  let txt := lines_text (ls (VInlineTable l) (lit "{ " ++ fs ++ lit " }")) in
  lines_ok (ls v t) -> distinct (body (ls v t)) -> plain_headers (body (ls v t)) ->
  (forall x, In x (pairs (body (ls v t))) -> filled (snd x)) -> l <> [] ->
  (forall x, In x l -> key_name (fst x) /\ readable (snd x)) -> NoDup (map fst l) -> ~ same_shape v (VInlineTable l) ->
  exists s s1 s2, parse (new_parser ovf) (lines_text (ls v t)) = Ok (s, Full) /\
    set_value s key (VInlineTable l) = Ok (s1, true) /\ show_parser s1 = Ok txt /\
    parse (new_parser ovf) txt = Ok (s2, Full) /\
    (forall p, good_path p -> get_value s2 (key ++ path_text p) = Ok (at_path (VInlineTable l) p)) /\
    forall x, (forall p, x <> key ++ path_text p) -> get_children s2 x = get_children s x /\ get_value s2 x = get_value s x.
Proof.
  intros ovf l1 nl w0 k w1 w2 v t w3 c l2 l ls key fs txt OK DS PH FI NE SC ND NS. apply Forall_forall in FI.
  assert (SC' : Forall (fun x => key_name (fst x) /\ scalar (snd x) (spelling (snd x))) l).
  { apply Forall_forall. intros x I. destruct (SC x I). split; auto. apply readable_scalar; auto. }
  pose proof (update_table l1 l2 nl w0 k w1 w2 w3 c ovf v t l OK DS PH FI NE SC' ND NS) as H. cbv zeta in H. fold fs in H.
  assert (TX : txt = before_value l1 nl w0 k w1 w2 ++ lit "{ " ++ fs ++ lit " }" ++ after_value l2 w3 c).
  { unfold txt, ls. pose proof (text_value l1 l2 nl w0 k w1 w2 w3 c (VInlineTable l) (lit "{ " ++ fs ++ lit " }")) as X.
    unfold with_value in X. rewrite X. unfold before_value, after_value. rewrite <- !app_assoc. reflexivity. }
  rewrite TX. exact H.
Qed.
Print Assumptions C48_inline_update.
Example C48_ex : let l := [(lit "a", VInteger (lit "1")); (lit "b", VBoolean false)] in
  uniform [VInteger (lit "1"); VInteger (lit "2")] /\ ~ same_shape (VInteger (lit "2")) (VArray [VInteger (lit "1"); VInteger (lit "2")]) /\
  l <> [] /\ (forall x, In x l -> key_name (fst x) /\ readable (snd x)) /\ NoDup (map fst l) /\
  ~ same_shape (VInteger (lit "2")) (VInlineTable l).
Proof.
  cbv zeta. split; [intros a b [<-|[<-|[]]] [<-|[<-|[]]]; reflexivity|]. split; [intros H; inversion H; subst; auto|].
  split; [discriminate|]. split; [|split].
  - intros x [<-|[<-|[]]]; cbn [fst snd]; (split; [bare|]); [apply (Rd_int 1)|apply Rd_bool].
  - vm_compute. repeat constructor; cbn [In]; intros H; repeat destruct H as [H|H]; try discriminate; auto.
  - intros H. inversion H; subst; auto.
Qed.
