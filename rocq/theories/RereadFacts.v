(** Printing after an update, and reading the result again. *)
From Coq Require Import Lia ZifyBool ZifyNat ZifyN.
From Verif Require Import Str Regex Types Ast State Nom Keys Grammar Api Facts Spec.
From Verif Require Import RegexFacts NomFacts TypesFacts DateFacts NumFacts StringFacts ScalarFacts.
From Verif Require Import LineFacts FlatFacts RoundTrip ParseFacts WalkFacts IdFacts WriteFacts SetFacts ApiSpec ApiFacts UpdateFacts.
From Verif Require Import DocSpec PathFacts NestFacts SectFacts LookFacts.

(** ** [plain_headers] line by line *)
Fixpoint plain_from (t : taddr) (seen : list str) (l : list dline) : Prop :=
  match l with
  | [] => True
  | DTable _ _ n _ _ _ :: l' => plain_from (TName n) seen l'
  | DArray _ _ n _ _ _ :: l' =>
      match t with TRoot => True | TName _ => ~ In n seen | TElem m _ => m = n \/ forall r, n <> m ++ r end /\
      plain_from (TElem n (times n seen)) (n :: seen) l'
  | _ :: l' => plain_from t seen l'
  end.
Lemma plain_from_headers : forall l, plain_from TRoot [] l -> plain_headers l.
Proof.
  intros l H l1 l2 w0 w1 n w2 w3 c ->.
  assert (G : forall l1 t seen, plain_from t seen (l1 ++ DArray w0 w1 n w2 w3 c :: l2) ->
    match table_after t seen l1 with TRoot => True | TName _ => ~ In n (rev (array_names l1) ++ seen)
    | TElem m _ => m = n \/ forall r, n <> m ++ r end).
  { clear. induction l1 as [|d l1 IH]; intros t seen H.
    - destruct H as [H _]. exact H.
    - destruct d; cbn [app plain_from table_after array_names rev] in *; try (apply IH in H; exact H).
      destruct H as [_ H]. apply IH in H. rewrite <- app_assoc. exact H. }
  apply G in H. destruct (table_after TRoot [] l1); auto. rewrite app_nil_r in H. rewrite <- in_rev in H. exact H.
Qed.
Lemma headers_plain_from : forall l, plain_headers l -> plain_from TRoot [] l.
Proof.
  intros l H.
  assert (G : forall l2 l1, l = l1 ++ l2 -> plain_from (table_after TRoot [] l1) (rev (array_names l1)) l2).
  { induction l2 as [|d l2 IH]; intros l1 E; [exact I|].
    assert (E1 : l = (l1 ++ [d]) ++ l2) by (rewrite <- app_assoc; exact E). pose proof (IH _ E1) as X.
    rewrite after_app, array_names_app, rev_app_distr, app_nil_r in X.
    destruct d; cbn [plain_from table_after array_names rev app] in *; try exact X.
    split; [|exact X]. pose proof (H _ _ _ _ _ _ _ _ E) as Y. destruct (table_after TRoot [] l1); auto.
    rewrite <- in_rev. exact Y. }
  exact (G l [] eq_refl).
Qed.
Lemma plain_app : forall a b t seen, plain_from t seen (a ++ b) <->
  plain_from t seen a /\ plain_from (table_after t seen a) (rev (array_names a) ++ seen) b.
Proof.
  induction a as [|d a IH]; intros b t seen; [cbn; tauto|].
  destruct d; cbn [app plain_from table_after array_names rev]; rewrite ?IH, <- ?app_assoc; cbn [app]; tauto.
Qed.

(** ** Another value on one line *)
Section Swap.
  Variables (l1 l2 : list (str * dline)) (nl w0 k w1 w2 w3 : str) (c : option str).
  Definition with_value (v : value) (t : str) : list (str * dline) := l1 ++ (nl, DLine w0 k w1 w2 v t w3 c) :: l2.
  Definition its_table : taddr := table_after TRoot [] (body l1).

  Lemma body_value : forall v t, body (with_value v t) = body l1 ++ DLine w0 k w1 w2 v t w3 c :: body l2.
  Proof. intros. unfold with_value, body. rewrite map_app. reflexivity. Qed.
  Lemma tables_value : forall v t, table_names (body (with_value v t)) = table_names (body l1) ++ table_names (body l2).
  Proof. intros. rewrite body_value, table_names_app. reflexivity. Qed.
  Lemma arrays_value : forall v t, array_names (body (with_value v t)) = array_names (body l1) ++ array_names (body l2).
  Proof. intros. rewrite body_value, array_names_app. reflexivity. Qed.
  Definition pairs_after := placed its_table (rev (array_names (body l1)) ++ []) (body l2).
  Lemma pairs_value : forall v t, pairs (body (with_value v t)) = pairs (body l1) ++ (its_table, k, v) :: pairs_after.
  Proof. intros. rewrite body_value. unfold pairs. rewrite placed_app. reflexivity. Qed.
  Lemma tops_value : forall v t, top_names TRoot (body (with_value v t)) = top_names TRoot (body l1) ++ top_names its_table (DLine w0 k w1 w2 v t w3 c :: body l2).
  Proof. intros. rewrite body_value. apply top_app. Qed.

  Lemma keys_value : forall t0 v t v' t', keys_in t0 (pairs (body (with_value v t))) = keys_in t0 (pairs (body (with_value v' t'))).
  Proof.
    intros. rewrite !pairs_value, !keys_in_app. f_equal. unfold keys_in. cbn [filter fst].
    destruct (taddr_dec its_table t0); reflexivity.
  Qed.
  Lemma pairs_other : forall v t v' t' t0 k0 v0, In (t0, k0, v0) (pairs (body (with_value v t))) ->
    In (t0, k0, v0) (pairs (body (with_value v' t'))) \/ (t0, k0, v0) = (its_table, k, v).
  Proof. intros until v0. rewrite !pairs_value, !in_app_iff. cbn [In]. intuition. Qed.
  Lemma pairs_here : forall v t, In (its_table, k, v) (pairs (body (with_value v t))).
  Proof. intros. rewrite pairs_value, in_app_iff. cbn [In]. auto. Qed.

  Lemma distinct_value : forall v t v' t', distinct (body (with_value v t)) -> distinct (body (with_value v' t')).
  Proof.
    intros v t v' t' [D1 D2 D3 D4]. constructor.
    - rewrite !pairs_value, !map_app in *. exact D1.
    - rewrite tables_value in *. exact D2.
    - rewrite tables_value, arrays_value in *. exact D3.
    - intros k0 v0 I. rewrite tables_value, arrays_value in *. apply (pairs_other v' t' v t) in I as [I|I]; [eapply D4; eauto|].
      injection I as X -> ->. eapply D4. rewrite X. apply pairs_here.
  Qed.
  Lemma plain_value : forall v t v' t', plain_headers (body (with_value v t)) -> plain_headers (body (with_value v' t')).
  Proof.
    intros v t v' t' H. apply plain_from_headers. apply headers_plain_from in H. rewrite !body_value in *.
    apply plain_app. apply plain_app in H. exact H.
  Qed.
  Lemma ok_value : forall v t v' t', lines_ok (with_value v t) -> spells v' t' -> lines_ok (with_value v' t').
  Proof.
    intros v t v' t' OK SP. unfold with_value in *. destruct l1 as [|[n0 d0] r]; cbn [app lines_ok] in *.
    - destruct OK as (A & (B1 & B2 & B3 & B4 & B5 & B6 & B7) & C). split; auto. split; [|exact C]. cbn [dline_ok]. auto 8.
    - destruct OK as (A & B & C). split; auto. split; auto. apply Forall_app in C as [C1 C2]. apply Forall_app. split; auto.
      inversion C2 as [|? ? C3 C4]; subst. apply Forall_cons; auto. cbn [fst snd dline_ok] in *.
      destruct C3 as (X & (B1 & B2 & B3 & B4 & B5 & B6 & B7)). auto 10.
  Qed.
  Lemma text_value : forall v t, lines_text (with_value v t) =
    (lines_text l1 ++ nl ++ w0 ++ k ++ w1 ++ lit "=" ++ w2) ++ t ++ (w3 ++ com_text c ++ lines_text l2).
  Proof. intros. unfold with_value, lines_text. rewrite map_app, concat_app. cbn [map concat fst snd dline_text]. rewrite <- !app_assoc. reflexivity. Qed.
End Swap.

(** ** Valid scalars *)
Lemma digit_tail_ascii : forall t, digit_tail t -> ascii t.
Proof. intros t H. induction H; repeat (apply Forall_cons; [unfold digit in *; lia|]); auto; apply Forall_nil. Qed.
Lemma int_body_ascii : forall t, int_body t -> ascii t.
Proof. intros t (c & r & -> & D & T & _). apply Forall_cons; [unfold digit in *; lia|]. apply digit_tail_ascii; auto. Qed.
Lemma sign_ascii : forall t, sign t -> ascii t.
Proof. intros t [-> | [-> | ->]]; repeat (apply Forall_cons; [lia|]); apply Forall_nil. Qed.
Lemma toml_int_ascii : forall t, toml_int t -> ascii t.
Proof. intros t (sg & b & -> & S & B). apply Forall_app. split; [apply sign_ascii|apply int_body_ascii]; auto. Qed.
Lemma toml_float_ascii : forall t, toml_float t -> ascii t.
Proof.
  intros t (sg & b & f & e & -> & S & B & H).
  assert (F : frac_part f -> ascii f).
  { intros (c & t & -> & D & T). repeat (apply Forall_cons; [unfold digit in *; lia|]). apply digit_tail_ascii; auto. }
  assert (E : exp_part e -> ascii e).
  { intros (x & sg' & b' & -> & X & S' & B'). apply Forall_cons; [lia|]. apply Forall_app.
    split; [apply sign_ascii|apply int_body_ascii]; auto. }
  apply Forall_app. split; [apply sign_ascii; auto|]. apply Forall_app. split; [apply int_body_ascii; auto|]. apply Forall_app.
  destruct H as [[H1 H2]|[[H1 ->]|[-> H2]]]; split; solve [apply F; auto|apply E; auto|apply Forall_nil].
Qed.

Lemma scalar_spelling : forall v t, scalar v t -> t = spelling v /\ scalar_value v.
Proof. intros v t H. destruct H; split; try reflexivity; exact I. Qed.

Lemma scalar_validate : forall v t, scalar v t -> validate v = true.
Proof.
  intros v t H. destruct H as [t H|t H| | |d H|b H|b H|b H _|b H _]; try reflexivity.
  - apply validate_integer_ascii; [apply toml_int_ascii; auto|]. exists t, []. rewrite app_nil_r. auto.
  - apply validate_float_ascii; [apply toml_float_ascii; auto|]. exists t, []. rewrite app_nil_r. auto.
  - destruct H as [D [R F]]. cbn [validate]. apply datetime_validate_digits; auto.
  - apply validate_basic; auto.
  - apply validate_literal; auto.
  - apply validate_ml_basic; auto.
  - apply validate_ml_literal; auto.
Qed.

(** what datetime_parse accepts *)
Lemma datetime_parse_scalar : forall s v, datetime_parse s = Ok (Some v) -> scalar v (spelling v).
Proof.
  unfold datetime_parse. intros s v H. apply rbind_ok in H as ([s1 r] & H1 & H).
  destruct r as [[|c rest] o| |]; try discriminate. inversion H as [E]. clear H.
  unfold checked in E. destruct (validate (VDateTime o)) eqn:V; [|discriminate]. inversion E; subst.
  unfold date_time in H1. apply rbind_ok in H1 as ([s2 r2] & H2 & H1).
  destruct r2; try discriminate. cbn [validate] in V. apply dti_done in H2 as (-> & -> & D).
  destruct (datetime_validate a) eqn:V2.
  - inversion H1; subst. apply Sc_date. pose proof V2 as X. apply datetime_validate_digits in X; auto. split; auto.
  - apply rbind_ok in H1 as ([[? ?] ?] & _ & H1). inversion H1; subst. congruence.
Qed.

(** ** Values without empty inline tables can be printed *)
Lemma filled_printable : forall t v, to_val t = Ok v -> filled v -> tv_printable t.
Proof.
  induction t using tval_ind'; intros v E F; cbn [to_val] in E; try (constructor; fail).
  - apply rbind_ok in E as (l & R & E). inversion E; subst. clear E. cbn [filled] in F. constructor.
    revert l R F. induction H as [|x xs P Q IH]; intros l R F; [constructor|]. apply rmap_cons in R as (a & b & E & R & ->).
    destruct F as [F1 F2]. constructor; [eapply P; eauto|eapply IH; eauto].
  - apply rbind_ok in E as (l & R & E). inversion E; subst. clear E. cbn [filled] in F. destruct F as [N F]. constructor.
    { intros ->. inversion R; subst. auto. }
    clear N. revert l R F. induction H as [|x xs P Q IH]; intros l R F; [constructor|]. apply rmap_cons in R as (a & b & E & R & ->).
    apply rbind_ok in E as (y & E & E2). inversion E2; subst. cbn [snd] in F.
    destruct F as [F1 F2]. constructor; [eapply P; eauto|eapply IH; eauto].
Qed.

Lemma forall2_all_l : forall A B (R : A -> B -> Prop) a b x, Forall2 R a b -> In x a -> exists y, In y b /\ R x y.
Proof.
  intros A B R a b x F. induction F as [|u w a b H F IH]; intros I; [destruct I|]. destruct I as [<-|I].
  - exists w. split; auto. left; auto.
  - destruct (IH I) as (y & X & Y). exists y. split; auto. right; auto.
Qed.

Lemma reads_src : forall ls s, reads_as ls s -> toml_src s.(p_root) = lines_text ls.
Proof.
  intros ls s [_ H]. unfold toml_src, lines_text. induction H as [|x e ls es [N [T _]] F IH]; auto.
  cbn [map concat]. f_equal; auto. unfold ne_src. rewrite N, T. reflexivity.
Qed.

Lemma reads_show : forall ovf ls s, parse (new_parser ovf) (lines_text ls) = Ok (s, Full) -> reads_as ls s ->
  Forall (fun x => filled (snd x)) (pairs (body ls)) -> show_parser s = Ok (lines_text ls).
Proof.
  intros ovf ls s P RA F. destruct (parse_show _ _ _ _ P) as (rest & _ & _ & SH). apply SH. split.
  - unfold doc_printable. apply Forall_forall. intros e I. unfold ex_printable. destruct (e_keyval (ne_expr e)) as [kv|] eqn:K; auto.
    assert (IC : In kv.(kv_val) (cells_in (p_root s))).
    { unfold cells_in. apply in_flat_map. exists e. split; auto. unfold ecell. rewrite K. left; auto. }
    destruct (forall2_all_l _ _ _ _ _ _ (mi_cells _ _ _ (ra_map _ _ RA)) IC) as (x & IX & TV & _).
    eapply filled_printable; eauto. rewrite Forall_forall in F. apply F; auto.
  - symmetry. apply reads_src; auto.
Qed.

(** ** The place of a line's value *)
Lemma cells_count : forall l r, Forall2 line_read l r -> forall t seen, length (cells_in r) = length (placed t seen (body l)).
Proof.
  intros l r H. induction H as [|[n d] e l r [N [_ M]] F IH]; intros t seen; [reflexivity|].
  cbn [fst snd] in *. cbn [cells_in flat_map body map snd]. rewrite app_length. unfold ecell.
  destruct d; cbn [placed]; try (rewrite M; apply IH). destruct M as [cl ->]. cbn [e_keyval length Nat.add]. f_equal. apply IH.
Qed.

Lemma forall2_middle : forall A B (R : A -> B -> Prop) a1 x a2 b1 y b2, Forall2 R (a1 ++ x :: a2) (b1 ++ y :: b2) ->
  length a1 = length b1 -> R x y.
Proof.
  induction a1 as [|u a1 IH]; intros x a2 [|w b1] y b2 H L; try discriminate; cbn [app] in H; inversion H; subst; auto.
  eapply IH; eauto.
Qed.

Section Place.
  Variables (l1 l2 : list (str * dline)) (nl w0 k w1 w2 w3 : str) (c : option str).
  Let doc v t := with_value l1 l2 nl w0 k w1 w2 w3 c v t.
  Let T := its_table l1.
  Definition before_value : str := lines_text l1 ++ nl ++ w0 ++ k ++ w1 ++ lit "=" ++ w2.
  Definition after_value : str := w3 ++ com_text c ++ lines_text l2.

  Lemma src_part : forall l r, Forall2 line_read l r -> toml_src r = lines_text l.
  Proof.
    intros l r H. unfold toml_src, lines_text. induction H as [|x e ls es [N [Tx _]] F IH]; auto.
    cbn [map concat]. f_equal; auto. unfold ne_src. rewrite N, Tx. reflexivity.
  Qed.

  Lemma line_place : forall v t s, reads_as (doc v t) s -> key_at s (address T k) before_value after_value.
  Proof.
    intros v t s [M R]. unfold doc, with_value in R. apply Forall2_app_inv_l in R as (r1 & r2' & R1 & R2 & RT).
    inversion R2 as [|? e ? r2 L R3]; subst. destruct L as [NL [_ [cl E]]]. cbn [fst snd] in *.
    pose proof (mi_cells _ _ _ M) as F. rewrite RT in F. unfold doc in F. rewrite pairs_value in F.
    unfold cells_in in F. rewrite flat_map_app in F. cbn [flat_map] in F. unfold ecell at 2 in F. rewrite E in F.
    cbn [e_keyval kv_val app] in F. apply forall2_middle in F as [_ F]; [|apply (cells_count l1 r1 R1 TRoot [])].
    cbn [fst snd] in F. destruct (F [] cl eq_refl) as [_ G]. change (path_text []) with (@nil N) in G. rewrite app_nil_r in G.
    exists cl. split.
    - unfold valof. fold T in G. rewrite G. reflexivity.
    - rewrite RT. destruct e as [en ee]. cbn [ne_nl ne_expr] in *. subst en ee.
      unfold before_value, after_value. rewrite <- (src_part l1 r1 R1), <- (src_part l2 r2 R3).
      pose proof (Lo_doc cl r1 r2 nl {| ws1 := w0; ws2 := w3 |} k {| ws1 := w1; ws2 := w2 |} cl None c [] [] (Lo_here cl)) as X.
      cbn [ws1 ws2 app] in X. rewrite app_nil_r in X. destruct c; exact X.
  Qed.

  (** the other addresses *)
  Lemma others_half : forall v t v' t' s s', lines_ok (doc v t) -> lines_ok (doc v' t') -> distinct (body (doc v t)) ->
    reads_as (doc v t) s -> reads_as (doc v' t') s' ->
    forall x ch, (forall p, good_path p -> at_path v p <> None -> x <> address T k ++ path_text p) ->
    get_children s x = Some ch -> get_children s' x = Some ch /\ get_value s' x = get_value s x.
  Proof.
    intros v t v' t' s s' OK OK' DS RA RA' x ch NX H.
    assert (DS' : distinct (body (doc v' t'))) by (eapply distinct_value; exact DS).
    assert (TN : forall a b, table_names (body (doc a b)) = table_names (body l1) ++ table_names (body l2)) by (intros; apply tables_value).
    assert (AN : forall a b, array_names (body (doc a b)) = array_names (body l1) ++ array_names (body l2)) by (intros; apply arrays_value).
    assert (KN : forall t0, keys_in t0 (pairs (body (doc v t))) = keys_in t0 (pairs (body (doc v' t')))) by (intros; apply keys_value).
    assert (NIL : forall l z, lines_ok l -> reads_as l z -> get_value z [] = Ok None).
    { intros l z O Z. unfold get_value. destruct (hget [] (p_map z)) as [hv|] eqn:HG; auto. exfalso.
      apply (mi_only _ _ _ (ra_map _ _ Z)) in HG as [HG|(a & K & HG)]; [discriminate|].
      apply (atext_ne a); auto. eapply known_good; eauto. apply bare_lines; auto. }
    assert (TOP : first_keys [] (top_names TRoot (body (doc v t))) = first_keys [] (top_names TRoot (body (doc v' t'))))
      by (unfold doc; rewrite !tops_value; reflexivity).
    pose proof (look_only _ _ RA x ch H) as Y. destruct Y as [->|[->|[Y|[Y|[(n & i & Y & ->)|(t0 & k0 & v0 & p & w & I & G & AP & ->)]]]]].
    - rewrite (NIL _ _ OK RA), (NIL _ _ OK' RA'). split; auto. rewrite <- H, (look_root _ _ RA), (look_root _ _ RA'), TOP. auto.
    - assert (GC : forall z l, reads_as l z -> get_children z root_key = get_children z [] /\ get_value z root_key = Ok None).
      { intros z l Z. split; [reflexivity|]. unfold get_value. rewrite (mi_root _ _ _ (ra_map _ _ Z)). reflexivity. }
      destruct (GC s _ RA) as [A B], (GC s' _ RA') as [A' B']. rewrite B, B'. split; auto.
      rewrite <- H, A, A', (look_root _ _ RA), (look_root _ _ RA'), TOP. auto.
    - destruct (look_table _ _ OK RA x Y) as [A B]. rewrite TN in Y. rewrite <- (TN v' t') in Y.
      destruct (look_table _ _ OK' RA' x Y) as [A' B']. rewrite A', B', B, <- KN, <- A. auto.
    - destruct (look_array _ _ OK RA x Y) as [A B]. rewrite AN in Y. rewrite <- (AN v' t') in Y.
      destruct (look_array _ _ OK' RA' x Y) as [A' B']. rewrite A', B', B, AN, <- (AN v t), <- A. auto.
    - destruct (look_elem _ _ OK RA n i Y) as [A B]. rewrite AN in Y. rewrite <- (AN v' t') in Y.
      destruct (look_elem _ _ OK' RA' n i Y) as [A' B']. rewrite A', B', B, <- KN, <- A. auto.
    - apply (pairs_other _ _ _ _ _ _ _ _ _ v t v' t') in I as J. destruct J as [J|J].
      + destruct (look_value _ _ OK DS RA t0 k0 v0 p I G) as [A B]. destruct (look_value _ _ OK' DS' RA' t0 k0 v0 p J G) as [A' B'].
        rewrite A, A', B', <- B. auto.
      + injection J as -> -> ->. exfalso. apply (NX p G); auto. congruence.
  Qed.

  Lemma others_same : forall v t v' t' s s', lines_ok (doc v t) -> lines_ok (doc v' t') -> distinct (body (doc v t)) ->
    reads_as (doc v t) s -> reads_as (doc v' t') s' ->
    forall x, (forall p, good_path p -> at_path v p <> None \/ at_path v' p <> None -> x <> address T k ++ path_text p) ->
    get_children s' x = get_children s x /\ get_value s' x = get_value s x.
  Proof.
    intros v t v' t' s s' OK OK' DS RA RA' x NX.
    assert (DS' : distinct (body (doc v' t'))) by (eapply distinct_value; exact DS).
    destruct (get_children s x) as [ch|] eqn:A.
    - eapply others_half with (v := v) (v' := v'); eauto.
    - destruct (get_children s' x) as [ch|] eqn:A'.
      + destruct (others_half v' t' v t s' s OK' OK DS' RA' RA x ch) as [X Y]; auto. congruence.
      + destruct x as [|a x]; [rewrite (look_root _ _ RA) in A; discriminate|].
        unfold get_children, get_value in *. destruct (hget (a :: x) (p_map s)), (hget (a :: x) (p_map s')); try discriminate. auto.
  Qed.

  (** printing the updated document and reading it again *)
  Lemma reread : forall ovf v t v' t', lines_ok (doc v t) -> distinct (body (doc v t)) -> plain_headers (body (doc v t)) ->
    spells v' t' -> exists s', parse (new_parser ovf) (before_value ++ t' ++ after_value) = Ok (s', Full) /\
      get_value s' (address T k) = Ok (Some v') /\
      (forall p, good_path p -> get_value s' (address T k ++ path_text p) = Ok (at_path v' p)) /\
      forall s, reads_as (doc v t) s -> forall x,
        (forall p, good_path p -> at_path v p <> None \/ at_path v' p <> None -> x <> address T k ++ path_text p) ->
        get_children s' x = get_children s x /\ get_value s' x = get_value s x.
  Proof.
    intros ovf v t v' t' OK DS PH SP.
    assert (OK' : lines_ok (doc v' t')) by (eapply ok_value; eauto).
    assert (DS' : distinct (body (doc v' t'))) by (eapply distinct_value; exact DS).
    assert (PH' : plain_headers (body (doc v' t'))) by (eapply plain_value; exact PH).
    destruct (lines_parse ovf _ OK' DS' PH') as (s' & P & RA'). exists s'.
    unfold doc in P. rewrite text_value in P. split; [exact P|].
    assert (LV : forall p, good_path p -> get_value s' (address T k ++ path_text p) = Ok (at_path v' p)).
    { intros p G. apply (look_value _ _ OK' DS' RA' T k v' p); auto. apply pairs_here. }
    split; [|split; [exact LV|]].
    - pose proof (LV [] (Forall_nil _)) as X. change (path_text []) with (@nil N) in X. rewrite app_nil_r in X. exact X.
    - intros s RA x NX. apply (others_same v t v' t' s s' OK OK' DS RA RA' x NX).
  Qed.

  (** a scalar replaces a scalar *)
  Lemma update_scalar : forall ovf v t v' , lines_ok (doc v t) -> distinct (body (doc v t)) -> plain_headers (body (doc v t)) ->
    Forall (fun x => filled (snd x)) (pairs (body (doc v t))) -> scalar_value v -> scalar v' (spelling v') ->
    exists s s1 s2, parse (new_parser ovf) (lines_text (doc v t)) = Ok (s, Full) /\
      set_value s (address T k) v' = Ok (s1, true) /\
      show_parser s1 = Ok (before_value ++ spelling v' ++ after_value) /\
      parse (new_parser ovf) (before_value ++ spelling v' ++ after_value) = Ok (s2, Full) /\
      get_value s2 (address T k) = Ok (Some v') /\
      forall x, x <> address T k -> get_children s2 x = get_children s x /\ get_value s2 x = get_value s x.
  Proof.
    intros ovf v t v' OK DS PH FI SV SC.
    destruct (lines_parse ovf _ OK DS PH) as (s & P & RA).
    pose proof (reads_show ovf _ s P RA FI) as SH. pose proof (line_place v t s RA) as KA.
    assert (GV : get_value s (address T k) = Ok (Some v)).
    { destruct (look_value _ _ OK DS RA T k v [] (pairs_here _ _ _ _ _ _ _ _ _ _ _) (Forall_nil _)) as [X _].
      change (path_text []) with (@nil N) in X. rewrite app_nil_r in X. exact X. }
    assert (R : reach ovf s) by (eapply R_parse; [apply R_new|exact P]).
    destruct (reach_wf _ _ R) as (h & W). pose proof (scalar_spelling _ _ SC) as [_ SV'].
    destruct (set_scalar_all h s (address T k) v v' W (reach_shape _ _ R) GV SV SV' (scalar_validate _ _ SC)) as (s1 & A & _ & _ & _ & D).
    destruct (D _ _ _ KA SH) as [_ SH1].
    destruct (reread ovf v t v' (spelling v') OK DS PH (Sp_scalar _ _ SC)) as (s2 & P2 & G2 & _ & O2).
    exists s, s1, s2. repeat (split; [assumption|]). intros x NX. apply O2; auto. intros p G [Q|Q] E;
      (destruct p as [|[i|kk] p]; [change (path_text []) with (@nil N) in E; rewrite app_nil_r in E; auto| |]);
      apply Q; [destruct v|destruct v|destruct v'|destruct v']; try reflexivity; try destruct SV; destruct SV'.
  Qed.

  (** an array or inline table of scalars replaces a value of another shape *)
  Lemma update_array : forall ovf v t l, lines_ok (doc v t) -> distinct (body (doc v t)) -> plain_headers (body (doc v t)) ->
    Forall (fun x => filled (snd x)) (pairs (body (doc v t))) ->
    Forall (fun x => scalar x (spelling x)) l -> uniform l -> ~ same_shape v (VArray l) ->
    let txt := before_value ++ lit "[" ++ comma_list (map spelling l) ++ lit "]" ++ after_value in
    exists s s1 s2, parse (new_parser ovf) (lines_text (doc v t)) = Ok (s, Full) /\
      set_value s (address T k) (VArray l) = Ok (s1, true) /\
      show_parser s1 = Ok txt /\ parse (new_parser ovf) txt = Ok (s2, Full) /\
      (forall p, good_path p -> get_value s2 (address T k ++ path_text p) = Ok (at_path (VArray l) p)) /\
      forall x, (forall p, x <> address T k ++ path_text p) ->
        get_children s2 x = get_children s x /\ get_value s2 x = get_value s x.
  Proof.
    intros ovf v t l OK DS PH FI SC UN NS txt.
    destruct (lines_parse ovf _ OK DS PH) as (s & P & RA).
    pose proof (reads_show ovf _ s P RA FI) as SH. pose proof (line_place v t s RA) as KA.
    assert (GV : get_value s (address T k) = Ok (Some v)).
    { destruct (look_value _ _ OK DS RA T k v [] (pairs_here _ _ _ _ _ _ _ _ _ _ _) (Forall_nil _)) as [X _].
      change (path_text []) with (@nil N) in X. rewrite app_nil_r in X. exact X. }
    assert (NR : address T k <> root_key).
    { intros E. rewrite E in GV. unfold get_value in GV. rewrite (mi_root _ _ _ (ra_map _ _ RA)) in GV. discriminate. }
    assert (R : reach ovf s) by (eapply R_parse; [apply R_new|exact P]).
    destruct (reach_wf _ _ R) as (h & W).
    assert (FL : flat l).
    { intros x I. rewrite Forall_forall in SC. pose proof (SC x I) as X. split; [apply (scalar_spelling _ _ X)|eapply scalar_validate; eauto]. }
    destruct (set_flat_array h s (address T k) v l W (reach_shape _ _ R) NR GV FL NS) as (s1 & A & _ & _ & _ & _ & D).
    destruct (D _ _ _ KA SH) as [_ SH1].
    assert (SP : spells (VArray l) (lit "[" ++ [] ++ comma_list (map spelling l) ++ lit "]")).
    { apply Sp_array; auto; [apply G_ws, BL_nil|]. clear - SC. induction l as [|x l IH]; [apply El_nil|]. inversion SC as [|? ? S1 S2]; subst.
      destruct l as [|y l].
      - cbn [map comma_list]. rewrite <- (app_nil_r (spelling x)). apply El_last; [apply Sp_scalar; auto|apply G_ws, BL_nil].
      - change (comma_list (map spelling (x :: y :: l))) with (spelling x ++ [] ++ lit "," ++ [32] ++ comma_list (map spelling (y :: l))).
        apply El_cons; [apply Sp_scalar; auto|constructor|apply G_ws, BL_char; [auto|apply BL_nil]|auto]. }
    destruct (reread ovf v t _ _ OK DS PH SP) as (s2 & P2 & _ & G2 & O2).
    assert (TX : txt = before_value ++ (lit "[" ++ [] ++ comma_list (map spelling l) ++ lit "]") ++ after_value).
    { unfold txt. rewrite <- !app_assoc. reflexivity. }
    exists s, s1, s2. split; [exact P|]. split; [exact A|]. split; [exact SH1|]. split; [rewrite TX; exact P2|]. split; [exact G2|].
    intros x NX. apply O2; auto.
  Qed.

  Lemma update_table : forall ovf v t l, lines_ok (doc v t) -> distinct (body (doc v t)) -> plain_headers (body (doc v t)) ->
    Forall (fun x => filled (snd x)) (pairs (body (doc v t))) -> l <> [] ->
    Forall (fun x => key_name (fst x) /\ scalar (snd x) (spelling (snd x))) l -> NoDup (map fst l) -> ~ same_shape v (VInlineTable l) ->
    let txt := before_value ++ lit "{ " ++ comma_list (map (fun kv => fst kv ++ lit " = " ++ spelling (snd kv)) l) ++ lit " }" ++ after_value in
    exists s s1 s2, parse (new_parser ovf) (lines_text (doc v t)) = Ok (s, Full) /\
      set_value s (address T k) (VInlineTable l) = Ok (s1, true) /\
      show_parser s1 = Ok txt /\ parse (new_parser ovf) txt = Ok (s2, Full) /\
      (forall p, good_path p -> get_value s2 (address T k ++ path_text p) = Ok (at_path (VInlineTable l) p)) /\
      forall x, (forall p, x <> address T k ++ path_text p) ->
        get_children s2 x = get_children s x /\ get_value s2 x = get_value s x.
  Proof.
    intros ovf v t l OK DS PH FI NE SC ND NS txt.
    destruct (lines_parse ovf _ OK DS PH) as (s & P & RA).
    pose proof (reads_show ovf _ s P RA FI) as SH. pose proof (line_place v t s RA) as KA.
    assert (GV : get_value s (address T k) = Ok (Some v)).
    { destruct (look_value _ _ OK DS RA T k v [] (pairs_here _ _ _ _ _ _ _ _ _ _ _) (Forall_nil _)) as [X _].
      change (path_text []) with (@nil N) in X. rewrite app_nil_r in X. exact X. }
    assert (NR : address T k <> root_key).
    { intros E. rewrite E in GV. unfold get_value in GV. rewrite (mi_root _ _ _ (ra_map _ _ RA)) in GV. discriminate. }
    assert (R : reach ovf s) by (eapply R_parse; [apply R_new|exact P]).
    destruct (reach_wf _ _ R) as (h & W).
    assert (FL : flat2 l).
    { intros x I. rewrite Forall_forall in SC. pose proof (SC x I) as [_ X]. split; [apply (scalar_spelling _ _ X)|eapply scalar_validate; eauto]. }
    destruct (set_flat_table h s (address T k) v l W (reach_shape _ _ R) NR GV FL NS) as (s1 & A & _ & _ & _ & _ & D).
    destruct (D _ _ _ NE KA SH) as [_ SH1].
    set (f := fun kv : str * value => fst kv ++ lit " = " ++ spelling (snd kv)) in *.
    assert (SP : spells (VInlineTable l) (lit "{" ++ [32] ++ (comma_list (map f l) ++ [32]) ++ lit "}")).
    { apply Sp_inline; auto; [apply Forall_cons; [auto|apply Forall_nil]|]. clear - SC NE. induction l as [|[x vx] l IH]; [congruence|].
      inversion SC as [|? ? [S0 S1] S2]; subst. cbn [fst snd] in *.
      destruct l as [|y l].
      - change (comma_list (map f [(x, vx)]) ++ [32]) with ((x ++ [32] ++ lit "=" ++ [32] ++ spelling vx) ++ [32]).
        rewrite <- !app_assoc. apply Fl_last; auto; try (apply Forall_cons; [auto|apply Forall_nil]); [apply Sp_scalar; auto|].
        apply G_ws, BL_char; [auto|apply BL_nil].
      - change (comma_list (map f ((x, vx) :: y :: l))) with
          ((x ++ [32] ++ lit "=" ++ [32] ++ spelling vx) ++ [] ++ lit "," ++ [32] ++ comma_list (map f (y :: l))).
        rewrite <- !app_assoc. apply Fl_cons; auto; try (apply Forall_cons; [auto|apply Forall_nil]); try apply Forall_nil; [apply Sp_scalar; auto| |].
        + apply G_ws, BL_char; [auto|apply BL_nil].
        + apply IH; auto. discriminate. }
    destruct (reread ovf v t _ _ OK DS PH SP) as (s2 & P2 & _ & G2 & O2).
    assert (TX : txt = before_value ++ (lit "{" ++ [32] ++ (comma_list (map f l) ++ [32]) ++ lit "}") ++ after_value).
    { unfold txt. rewrite <- !app_assoc. reflexivity. }
    exists s, s1, s2. split; [exact P|]. split; [exact A|]. split; [exact SH1|]. split; [rewrite TX; exact P2|]. split; [exact G2|].
    intros x NX. apply O2; auto.
  Qed.
End Place.
