(** Whole documents of lines and sections, and what the lookups say about them. *)
From Coq Require Import Lia ZifyBool ZifyNat ZifyN.
From Verif Require Import Str Regex Types Ast State Nom Keys Grammar Api Facts Spec.
From Verif Require Import RegexFacts NomFacts TypesFacts DateFacts NumFacts StringFacts ScalarFacts.
From Verif Require Import LineFacts FlatFacts RoundTrip WalkFacts IdFacts WriteFacts ApiSpec ApiFacts DocSpec PathFacts NestFacts SectFacts.

(** ** Reading all lines *)
Definition ecell (e : expression) : list cell :=
  match e.(e_keyval) with Some kv => [kv.(kv_val)] | None => [] end.
(** what is read from a line *)
Definition mirrors (d : dline) (e : expression) : Prop :=
  ex_src e = dline_text d /\
  match d with
  | DLine w0 k w1 w2 v t w3 c => exists cl, e = {| e_ws := {| ws1 := w0; ws2 := w3 |};
      e_keyval := Some (KeyVal k {| ws1 := w1; ws2 := w2 |} cl); e_table := None; e_comment := c |}
  | _ => e.(e_keyval) = None
  end.

Lemma step_any : forall l cs s d r, dinv l cs s -> Forall dline_ok (l ++ [d]) -> distinct (l ++ [d]) -> plain_headers (l ++ [d]) ->
  line_start r -> exists s' e, expression_p s (dline_text d ++ r) = Ok (s', Done r e) /\
    dinv (l ++ [d]) (cs ++ ecell e) s' /\ mirrors d e.
Proof.
  intros l cs s d r DI OK DS PH R.
  enough (X : exists s' e, expression_p s (dline_text d ++ r) = Ok (s', Done r e) /\
    dinv (l ++ [d]) (cs ++ ecell e) s' /\ match d with
  | DLine w0 k w1 w2 v t w3 c => exists cl, e = {| e_ws := {| ws1 := w0; ws2 := w3 |};
      e_keyval := Some (KeyVal k {| ws1 := w1; ws2 := w2 |} cl); e_table := None; e_comment := c |}
  | _ => e.(e_keyval) = None
  end).
  { destruct X as (s' & e & E & I & M). exists s', e. split; auto. split; auto. split; auto.
    apply reads_expression in E. apply app_inv_tail in E. auto. }
  destruct d as [w c|w0 k w1 w2 v t w3 c|w0 w1 n w2 w3 c|w0 w1 n w2 w3 c].
  - assert (D : dline_ok (DBlank w c)) by (apply Forall_app in OK as [_ OK]; inversion OK; auto).
    destruct (step_blank l cs s w c r DI D R) as [E I]. exists s. eexists. split; [exact E|]. cbn [ecell e_keyval mirrors]. rewrite app_nil_r. auto.
  - destruct (step_line l cs s w0 k w1 w2 v t w3 c r DI OK DS R) as (s' & cl & E & I). exists s'. eexists. split; [exact E|].
    cbn [ecell e_keyval mirrors kv_val]. eauto.
  - destruct (step_table l cs s w0 w1 n w2 w3 c r DI OK DS R) as (s' & tt & E & I). exists s'. eexists. split; [exact E|].
    cbn [ecell e_keyval mirrors]. rewrite app_nil_r. auto.
  - destruct (step_array l cs s w0 w1 n w2 w3 c r DI OK DS PH R) as (s' & tt & E & I). exists s'. eexists. split; [exact E|].
    cbn [ecell e_keyval mirrors]. rewrite app_nil_r. auto.
Qed.

Lemma dinv_lines : forall l cs s n, dinv l cs s -> dinv l cs (add_lines n s).
Proof. intros l cs s n [A B C D E F]. constructor; auto. Qed.

Lemma lines_start : forall l, Forall (fun x : str * dline => line_end (fst x) /\ dline_ok (snd x)) l -> line_start (lines_text l).
Proof.
  intros [|[nl it] l] H; [left; auto|]. inversion H; subst. destruct H2 as [H2 _].
  right. exists nl. eexists. split; auto. unfold lines_text. cbn [map concat fst snd]. rewrite <- app_assoc. reflexivity.
Qed.

Definition cells_in (es : toml) : list cell := flat_map (fun x => ecell x.(ne_expr)) es.

(** what is read from a line with the line end before it *)
Definition line_read (x : str * dline) (e : nl_expression) : Prop :=
  e.(ne_nl) = fst x /\ mirrors (snd x) e.(ne_expr).

Lemma lines_loop : forall ls l cs s n, dinv l cs s -> Forall dline_ok l ->
  Forall (fun x : str * dline => line_end (fst x) /\ dline_ok (snd x)) ls ->
  distinct (l ++ map snd ls) -> plain_headers (l ++ map snd ls) -> (length (lines_text ls) < n)%nat ->
  exists s' es, many_loop n nl_expression_p s (lines_text ls) = Ok (s', Done [] es) /\
    dinv (l ++ map snd ls) (cs ++ cells_in es) s' /\ Forall2 line_read ls es.
Proof.
  induction ls as [|[nl d] ls IH]; intros l cs s n DI OK LO DS PH L.
  - destruct n; [cbn in L; lia|]. exists s, []. cbn [map cells_in flat_map]. rewrite !app_nil_r. split; [reflexivity|]. split; [exact DI|constructor].
  - inversion LO as [|? ? [NL OD] LO']; subst. cbn [fst snd map] in *.
    assert (SP : l ++ d :: map snd ls = (l ++ [d]) ++ map snd ls) by (rewrite <- app_assoc; reflexivity). rewrite SP in *.
    assert (OK1 : Forall dline_ok (l ++ [d])) by (apply Forall_app; split; auto).
    destruct (step_any l cs (add_lines 1 s) d (lines_text ls)) as (s1 & e & E & DI1 & MR).
    { apply dinv_lines; auto. } { auto. } { eapply distinct_prefix; eauto. } { eapply plain_prefix; eauto. } { apply lines_start; auto. }
    assert (TX : lines_text ((nl, d) :: ls) = nl ++ dline_text d ++ lines_text ls)
      by (unfold lines_text; cbn [map concat fst snd]; rewrite <- app_assoc; auto).
    rewrite TX in *. rewrite !app_length in L. pose proof (line_end_length nl NL).
    destruct n as [|n]; [lia|].
    destruct (IH (l ++ [d]) (cs ++ ecell e) s1 n DI1 OK1 LO' DS PH ltac:(lia)) as (s2 & es & E2 & DI2 & MR2).
    exists s2, ({| ne_nl := nl; ne_expr := e |} :: es). split; [|split].
    + cbn [many_loop]. destruct (nl ++ dline_text d ++ lines_text ls) as [|c x] eqn:F.
      { apply (f_equal (@length N)) in F. rewrite app_length in F. simpl in F. lia. }
      rewrite <- F. unfold nl_expression_p at 1. erewrite bind_ok by (apply newline_ok; auto).
      erewrite bind_ok by exact E. cbn [rbind ret].
      assert (Nat.eqb (length (lines_text ls)) (length (nl ++ dline_text d ++ lines_text ls)) = false) as ->.
      { apply Nat.eqb_neq. rewrite !app_length. lia. }
      rewrite E2. reflexivity.
    + cbn [cells_in flat_map ne_expr]. rewrite app_assoc. exact DI2.
    + constructor; auto. split; auto.
Qed.

Lemma dinv_new : forall ovf, dinv [] [] (new_parser ovf).
Proof.
  intros ovf. constructor; try reflexivity.
  - cbn. auto.
  - constructor.
    + reflexivity.
    + intros n [].
    + intros n [].
    + intros n i I. cbn in I. lia.
    + constructor.
    + intros x hv H. left. destruct (list_eq_dec N.eq_dec x root_key) as [|N]; auto. exfalso.
      cbn [new_parser p_map] in H. rewrite hget_hput_other in H; auto. discriminate.
Qed.

Definition body (ls : list (str * dline)) : list dline := map snd ls.
Record reads_as (ls : list (str * dline)) (s : pst) : Prop := {
  ra_map : mapinv (body ls) (cells_in s.(p_root)) s.(p_map);
  ra_root : Forall2 line_read ls s.(p_root) }.

Lemma lines_parse : forall ovf ls, lines_ok ls -> distinct (body ls) -> plain_headers (body ls) ->
  exists s, parse (new_parser ovf) (lines_text ls) = Ok (s, Full) /\ reads_as ls s.
Proof.
  intros ovf [|[nl d] ls] OK DS PH; [destruct OK|]. destruct OK as (-> & OD & LO).
  change (distinct ([d] ++ body ls)) in DS. change (plain_headers ([d] ++ body ls)) in PH.
  destruct (step_any [] [] (new_parser ovf) d (lines_text ls)) as (s1 & e & E & DI1 & MR).
  { apply dinv_new. } { apply Forall_cons; auto. } { eapply distinct_prefix; eauto. } { eapply plain_prefix; eauto. } { apply lines_start; auto. }
  destruct (lines_loop ls [d] (ecell e) s1 (S (length (lines_text ls))) DI1) as (s2 & es & E2 & DI2 & MR2); auto.
  assert (T : toml_p (new_parser ovf) (lines_text ((([] : str), d) :: ls)) = Ok (s2, Done [] ({| ne_nl := []; ne_expr := e |} :: es))).
  { unfold toml_p. change (lines_text ((([] : str), d) :: ls)) with (([] ++ dline_text d) ++ lines_text ls). cbn [app].
    erewrite bind_ok by exact E. erewrite bind_ok; [reflexivity|]. exact E2. }
  eexists. split.
  - unfold parse. rewrite T. cbn [rbind]. cbn [p_errors set_leftover set_root]. rewrite (dn_errors _ _ _ DI2). reflexivity.
  - constructor; cbn [p_root p_map set_leftover set_root].
    + apply (dn_map _ _ _ DI2).
    + constructor; auto. split; auto.
Qed.

(** ** Lookups *)
Lemma forall2_in : forall A B (R : A -> B -> Prop) a b y, Forall2 R a b -> In y b -> exists x, In x a /\ R x y.
Proof.
  intros A B R a b y F. induction F as [|u w a b H F IH]; intros I; [destruct I|]. destruct I as [<-|I].
  - exists u. split; auto. left; auto.
  - destruct (IH I) as (x & X & Y). exists x. split; auto. right; auto.
Qed.

Lemma pair_unique : forall l t k v v', distinct l -> In (t, k, v) (pairs l) -> In (t, k, v') (pairs l) -> v = v'.
Proof.
  intros l t k v v' [D _ _ _] A B. revert D A B. generalize (pairs l). induction l0 as [|[[t0 k0] v0] ps IH]; intros D A B; [destruct A|].
  cbn [map fst] in D. inversion D; subst. destruct A as [A|A], B as [B|B].
  - congruence.
  - exfalso. inversion A; subst. apply H1. apply (in_map fst) in B. exact B.
  - exfalso. inversion B; subst. apply H1. apply (in_map fst) in A. exact A.
  - auto.
Qed.

(** an address of a value belongs to one line *)
Lemma known_value : forall l t k v p, distinct l -> In (t, k, v) (pairs l) ->
  known l (ext (aof t k) p) -> exists w, at_path v p = Some w.
Proof.
  intros l t k v p D I K. pose proof D as [D1 D2 D3 D4].
  assert (DT : declared l t) by (eapply pairs_declared; eauto).
  assert (AT : forall n i, i < times n (array_names l) -> In n (array_names l)) by (intros n i A1; apply times_in; lia).
  remember (ext (aof t k) p) as a eqn:E. destruct K as [n J|n J|n i J|t' k' v' p' w J G W].
  - exfalso. destruct t; cbn [aof ext fst snd app] in E; inversion E; subst. apply D4 in I. tauto.
  - exfalso. destruct t; cbn [aof ext fst snd app] in E; inversion E; subst. apply D4 in I. tauto.
  - exfalso. destruct t; cbn [aof ext fst snd app] in E; inversion E; subst. apply D4 in I. apply I. eauto.
  - assert (DT' : declared l t') by (eapply pairs_declared; eauto). pose proof I as I0. pose proof J as J0.
    destruct t as [|m|m j], t' as [|m'|m' j']; cbn [aof ext fst snd app declared] in *; inversion E; subst;
      try (exfalso; destruct (D4 _ _ I0) as [X Y]; solve [apply X; eauto|apply Y; eauto]);
      try (exfalso; destruct (D4 _ _ J0) as [X Y]; solve [apply X; eauto|apply Y; eauto]);
      exists w; (rewrite (pair_unique l _ _ _ _ D I J); auto).
Qed.

Section Look.
  Variable ls : list (str * dline).
  Variable s : pst.
  Hypothesis OK : lines_ok ls.
  Hypothesis DS : distinct (body ls).
  Hypothesis RA : reads_as ls s.

  Lemma ok_lines : Forall dline_ok (body ls).
  Proof using OK.
    clear DS RA. destruct ls as [|[nl d] r]; [destruct OK|]. destruct OK as (_ & A & B). cbn [body map snd]. constructor; auto.
    clear - B. induction B as [|[a b] r [X Y] B IH]; constructor; auto.
  Qed.
  Lemma bare_lines : bare_doc (body ls).
  Proof using OK. apply ok_bare, ok_lines. Qed.

  Lemma cell_of : forall t k v, In (t, k, v) (pairs (body ls)) -> exists c, In c (cells_in s.(p_root)) /\ to_val c.(c_val) = Ok v /\
    forall p y, tat c p = Some y -> good_path p /\ hget (address t k ++ path_text p) s.(p_map) = held y.
  Proof using RA.
    intros t k v I. pose proof (mi_cells _ _ _ (ra_map _ _ RA)) as F. apply (forall2_in _ _ _ _ _ _ F) in I as (c & IC & H).
    cbn [fst snd] in H. exists c. split; auto.
  Qed.

  Lemma bound_value : forall t k v p, In (t, k, v) (pairs (body ls)) -> good_path p ->
    match at_path v p with
    | Some w => exists y, hget (address t k ++ path_text p) s.(p_map) = held y /\ to_val y.(c_val) = Ok w
    | None => hget (address t k ++ path_text p) s.(p_map) = None
    end.
  Proof using OK DS RA.
    intros t k v p I G. destruct (cell_of t k v I) as (c & _ & TV & H). pose proof (tat_at p c v TV) as X.
    destruct (at_path v p) as [w|] eqn:AP.
    - destruct X as (y & Y & Z). exists y. split; auto. apply H; auto.
    - destruct (hget (address t k ++ path_text p) (p_map s)) as [hv|] eqn:HG; auto. exfalso.
      pose proof bare_lines as B.
      assert (GA : good_addr (ext (aof t k) p)).
      { apply good_ext; auto. apply aof_good; [eapply bare_tables; eauto; eapply pairs_declared; eauto|].
        destruct B as [_ _ B]. rewrite Forall_forall in B. apply (B _ I). }
      rewrite <- aof_text, <- atext_ext in HG.
      apply (mi_only _ _ _ (ra_map _ _ RA)) in HG as [HG|(a & K & HG)].
      + apply (atext_root _ GA); auto.
      + apply atext_inj in HG; auto; [|eapply known_good; eauto]. subst a.
        destruct (known_value _ _ _ _ _ DS I K). congruence.
  Qed.

  Lemma look_value : forall t k v p, In (t, k, v) (pairs (body ls)) -> good_path p ->
    get_value s (address t k ++ path_text p) = Ok (at_path v p) /\
    get_children s (address t k ++ path_text p) = option_map kids_of (at_path v p).
  Proof using OK DS RA.
    intros t k v p I G. pose proof (bound_value t k v p I G) as H.
    assert (NE : address t k ++ path_text p <> []).
    { rewrite <- aof_text, <- atext_ext. apply atext_ne. pose proof bare_lines as B. apply good_ext; auto.
      apply aof_good; [eapply bare_tables; eauto; eapply pairs_declared; eauto|].
      destruct B as [_ _ B]. rewrite Forall_forall in B. apply (B _ I). }
    unfold get_value, get_children. destruct (address t k ++ path_text p) as [|a x] eqn:A; [congruence|]. rewrite <- A in *.
    destruct (at_path v p) as [w|].
    - destruct H as (y & -> & TV). unfold held. cbn [hv_value hv_subkeys option_map]. rewrite TV. cbn [rbind].
      rewrite (tkids_of _ _ TV). auto.
    - rewrite H. auto.
  Qed.

  Lemma bare_ne : forall n, key_name n -> n <> [].
  Proof. intros n A. apply key_ne; auto. Qed.

  Lemma look_root : get_children s [] = Some (Keys (first_keys [] (top_names TRoot (body ls)))).
  Proof using RA. unfold get_children. rewrite (mi_root _ _ _ (ra_map _ _ RA)). reflexivity. Qed.

  Lemma look_table : forall n, In n (table_names (body ls)) ->
    get_children s n = Some (Keys (keys_in (TName n) (pairs (body ls)))) /\ get_value s n = Panic.
  Proof using OK RA.
    intros n I. destruct (mi_table _ _ _ (ra_map _ _ RA) n I) as [id H].
    pose proof bare_lines as [B _ _]. rewrite Forall_forall in B. pose proof (bare_ne _ (B _ I)) as N.
    unfold get_children, get_value. destruct n as [|a n]; [congruence|]. rewrite H. auto.
  Qed.

  Lemma look_array : forall n, In n (array_names (body ls)) ->
    get_children s n = Some (Count (times n (array_names (body ls)))) /\ get_value s n = Ok None.
  Proof using OK RA.
    intros n I. pose proof (mi_array _ _ _ (ra_map _ _ RA) n I) as H.
    pose proof bare_lines as [_ B _]. rewrite Forall_forall in B. pose proof (bare_ne _ (B _ I)) as N.
    unfold get_children, get_value. destruct n as [|a n]; [congruence|]. rewrite H. auto.
  Qed.

  Lemma look_elem : forall n i, i < times n (array_names (body ls)) ->
    get_children s (tname (TElem n i)) = Some (Keys (keys_in (TElem n i) (pairs (body ls)))) /\ get_value s (tname (TElem n i)) = Ok None.
  Proof using OK RA.
    intros n i I. pose proof (mi_elem _ _ _ (ra_map _ _ RA) n i I) as H.
    assert (N : tname (TElem n i) <> []) by (cbn [tname]; destruct n; discriminate).
    unfold get_children, get_value. destruct (tname (TElem n i)) as [|a x]; [congruence|]. rewrite H. auto.
  Qed.

  (** nothing else is known *)
  Lemma look_only : forall x ch, get_children s x = Some ch ->
    x = [] \/ x = root_key \/ In x (table_names (body ls)) \/ In x (array_names (body ls)) \/
    (exists n i, i < times n (array_names (body ls)) /\ x = tname (TElem n i)) \/
    exists t k v p w, In (t, k, v) (pairs (body ls)) /\ good_path p /\ at_path v p = Some w /\ x = address t k ++ path_text p.
  Proof using RA.
    intros x ch H. unfold get_children in H. destruct x as [|a x]; auto. set (y := a :: x) in *.
    destruct (hget y (p_map s)) as [hv|] eqn:HG; [|discriminate].
    apply (mi_only _ _ _ (ra_map _ _ RA)) in HG as [HG|(b & K & HG)]; auto. right; right.
    destruct K as [n J|n J|n i J|t k v p w J G W].
    - left. unfold atext in HG. cbn [fst snd] in HG. change (path_text []) with (@nil N) in HG. rewrite app_nil_r in HG. congruence.
    - right; left. unfold atext in HG. cbn [fst snd] in HG. change (path_text []) with (@nil N) in HG. rewrite app_nil_r in HG. congruence.
    - right; right; left. exists n, i. split; auto. rewrite elem_text. auto.
    - right; right; right. exists t, k, v, p, w. rewrite atext_ext, aof_text in HG. auto.
  Qed.

  Lemma get_kids : forall x w, x <> [] -> get_value s x = Ok (Some w) -> exists ch, get_children s x = Some ch.
  Proof.
    clear. intros x w N H. unfold get_value, get_children in *. destruct x as [|a x]; [congruence|].
    destruct (hget (a :: x) (p_map s)); [eauto|discriminate].
  Qed.

  Lemma look_only_value : forall x w, get_value s x = Ok (Some w) ->
    exists t k v p, In (t, k, v) (pairs (body ls)) /\ good_path p /\ at_path v p = Some w /\ x = address t k ++ path_text p.
  Proof using OK DS RA.
    intros x w H. assert (N : x <> []).
    { intros ->. unfold get_value in H. destruct (hget [] (p_map s)) as [hv|] eqn:HG; [|discriminate].
      apply (mi_only _ _ _ (ra_map _ _ RA)) in HG as [HG|(a & K & HG)]; [discriminate|].
      apply (atext_ne a); auto. eapply known_good; eauto using bare_lines. }
    destruct (get_kids x w N H) as [ch C]. apply look_only in C as [C|[C|[C|[C|[(n & i & C & E)|(t & k & v & p & w' & I & G & AP & E)]]]]].
    - congruence.
    - subst x. unfold get_value in H. rewrite (mi_root _ _ _ (ra_map _ _ RA)) in H. discriminate.
    - apply look_table in C as [_ C]. congruence.
    - apply look_array in C as [_ C]. congruence.
    - subst x. apply look_elem in C as [_ C]. congruence.
    - destruct (look_value t k v p I G) as [V _]. rewrite AP in V. subst x. rewrite H in V. inversion V; subst. exists t, k, v, p. auto.
  Qed.
End Look.
