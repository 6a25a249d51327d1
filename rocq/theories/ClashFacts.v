(** A header of an array of tables with a name that a table or a key has. *)
From Coq Require Import Lia ZifyBool ZifyNat ZifyN.
From Verif Require Import Str Regex Types Ast State Nom Keys Grammar Api Facts Spec.
From Verif Require Import NomFacts ScalarFacts LineFacts FlatFacts RoundTrip ParseFacts Effects IdFacts DocSpec MixSpec PathFacts NestFacts SectFacts LookFacts.
From Verif Require Import HeadSpec SafeFacts TotalFacts CountFacts DotSpec DotFacts FaultSpec FaultFacts TreeActs ClashSpec.

Lemma gatk_arr_eq : forall m k k1 rest fk, gatk_arr m (k :: k1 :: rest) fk =
  match hget (fk ++ k) m with
  | None => Panic
  | Some hv =>
      let? fk := match hv.(hv_subkeys) with
        | Count c => if str_eqb (fk ++ k) root_key then Ok [] else Ok ((fk ++ k) ++ idx_str c ++ lit ".")
        | Keys l => if vcontains l k1 || match rest with [] => true | _ => false end
            then (if str_eqb (fk ++ k) root_key then Ok [] else Ok ((fk ++ k) ++ lit ".")) else Panic
        end in gatk_arr m (k1 :: rest) fk
  end.
Proof. reflexivity. Qed.

Lemma gatk_arr_run : forall m names q, Forall key_name q -> Forall key_name names -> names <> [] ->
  (forall a x b, names = a ++ x :: b -> a <> [] -> exists pv l, dent m (q ++ a) = Some (HashValue pv (Keys l)) /\ In x l) ->
  gatk_arr m names (dpre q) = Ok (dpre (q ++ removelast names)).
Proof.
  intros m. induction names as [|n names IH]; intros q FQ F N H; [congruence|]. destruct names as [|n2 names].
  - cbn [removelast gatk_arr]. rewrite app_nil_r. auto.
  - inversion F as [|? ? B F']; subst. rewrite gatk_arr_eq. rewrite <- dotted_snoc, <- dpar_snoc.
    destruct (H [n] n2 names eq_refl ltac:(discriminate)) as (pv & l & D & I). unfold dent in D. rewrite D. cbn [hv_subkeys].
    apply vcontains_in in I. rewrite I. cbn [orb].
    assert (FN : Forall key_name (q ++ [n])) by (apply bare_app; auto).
    destruct (str_eqb_spec (dpar (q ++ [n])) root_key) as [Q|_]. { exfalso. rewrite dpar_snoc in Q. apply dotted_root in Q; auto. }
    cbn [rbind]. assert (E2 : dpar (q ++ [n]) ++ lit "." = dpre (q ++ [n])) by (rewrite dpar_snoc; unfold dpre; destruct (q ++ [n]) eqn:Q; auto; destruct q; discriminate).
    rewrite E2, IH; auto; [|discriminate|].
    + cbn [removelast]. rewrite <- app_assoc. reflexivity.
    + intros a x b E NA. destruct (H (n :: a) x b) as (pv' & l' & D' & I'); [cbn [app]; congruence|discriminate|].
      exists pv', l'. rewrite <- app_assoc. auto.
Qed.

Lemma clash_act : forall w1 w2 n ks s pv ch, let P := n :: map wk_key ks in
  s.(p_keychain) = [] -> one_table s -> Forall key_name P -> tabs_ok s.(p_map) [] P ->
  dent s.(p_map) P = Some (HashValue pv ch) -> pv <> None \/ (exists l, ch = Keys l) ->
  (forall c, ch = Count c -> s.(p_ovf) = true -> c <> 0) ->
  exists i s' tt, array_table_act w1 w2 n ks (fold_left (fun s k => push_key (KStr k) s) P s) = Ok (s', tt) /\
    s'.(p_errors) = s.(p_errors) ++ [EInvalidTable (dotted_name P ++ idx_str i) s.(p_line) []].
Proof.
  intros w1 w2 n ks s pv ch P K TA F TO OLD BAD OV. set (w := {| wk_ws := {| ws1 := w1; ws2 := w2 |}; wk_key := n |}).
  set (t := w :: ks). assert (MT : map wk_key t = P) by reflexivity. set (res := TArrayOf t).
  unfold array_table_act. change (table_new {| ws1 := w1; ws2 := w2 |} n ks) with t. fold res.
  assert (LP : S (length ks) = length P) by (unfold P; cbn [length]; rewrite map_length; auto). rewrite LP, drop_keys by auto.
  cbn [rbind]. cbv zeta.
  assert (LT : (if is_top_std_table (p_tables s) then (vpop (p_tables s), vpop (p_tindex s))
     else (p_tables s, p_tindex s)) = ([], [])).
  { destruct TA as [[-> ->]|(t' & -> & ->)]; reflexivity. }
  rewrite LT. change (vlast (@nil table_type)) with (@None table_type). cbv iota beta. cbn [set_array_error p_map p_ovf].
  change (vpush [] res) with [TArrayOf t]. change (vpush [] 0) with [0].
  destruct (ait_run t [] (p_map s) true (Forall_nil _)) as (m1 & E1 & A1 & B1); [rewrite MT; auto|rewrite MT; auto|].
  rewrite MT in A1, B1. cbn [app] in A1, B1. cbn [dpar] in E1.
  assert (IM : add_implicit_tables (p_ovf s) (p_map s) [] [] res = Ok m1).
  { unfold add_implicit_tables. cbn [get_array_table_key length gatk_loop rbind negb].
    change (vlast (@nil table_type)) with (@None table_type). cbv iota beta. change ([] ++ root_key) with root_key.
    rewrite str_eqb_refl. cbn [Nat.sub skipn]. exact E1. }
  rewrite IM. cbn [rbind].
  assert (PN : P <> []) by discriminate.
  assert (PNE : forall a x b, P = a ++ x :: b -> dpar a <> dpar P).
  { intros a x b E Q. destruct (bare_part _ a x b F E) as (BA & _ & _). apply dpar_inj in Q; auto. subst a.
    apply (f_equal (@length str)) in E. rewrite app_length in E. cbn [length] in E. lia. }
  assert (TP : hget (dotted_name P) m1 = Some (HashValue pv ch)).
  { rewrite <- dpar_dotted by auto. rewrite B1; [exact OLD|]. intros a x b E Q. eapply PNE; eauto. }
  assert (IN : forall a x b, P = a ++ x :: b -> exists pv l, dent m1 a = Some (HashValue pv (Keys l)) /\ In x l).
  { intros a x b E. rewrite (A1 a x b E). do 2 eexists. split; [reflexivity|].
    unfold vinsert. destruct (vcontains _ x) eqn:V; cbn [fst]; [apply vcontains_in; auto|]. unfold vpush. apply in_app_iff. right. left. auto. }
  assert (GA : gatk_arr m1 (root_key :: P) [] = Ok (dpre (removelast P))).
  { unfold P at 1. rewrite gatk_arr_eq. cbn [app]. destruct (IN [] n (map wk_key ks) eq_refl) as (pv' & l' & D & I). unfold dent in D. cbn [dpar] in D.
    rewrite D. cbn [hv_subkeys]. apply vcontains_in in I. rewrite I. cbn [orb]. rewrite str_eqb_refl. cbn [rbind].
    change (@nil N) with (dpre []). change (n :: map wk_key ks) with P. rewrite gatk_arr_run; auto.
    intros a x b E NA. apply (IN a x b E). }
  assert (D : dpre (removelast P) ++ last P [] = dotted_name P).
  { rewrite <- dotted_snoc. rewrite <- app_removelast_last by auto. auto. }
  assert (LK : last (root_key :: P) [] = last P []) by reflexivity.
  unfold get_array_table_key. cbn [length gatk_loop vindex nth_error rbind skipn].
  unfold get_last_keys. rewrite MT, GA. cbn [rbind]. rewrite LK, D, TP. cbn [hv_value hv_subkeys].
  assert (V : match pv with Some _ => false | None => match ch with Count _ => true | Keys _ => false end end = false).
  { destruct pv; auto. destruct BAD as [BAD|[l ->]]; [congruence|auto]. }
  rewrite V.
  assert (IX : exists i, match ch with Count c => dec_usize (p_ovf s) c | Keys _ => Ok 0 end = Ok i).
  { destruct ch as [c|l]; [|eauto]. unfold dec_usize. destruct (N.eqb_spec c 0) as [Q|Q]; [|eauto].
    destruct (p_ovf s) eqn:O; [|eauto]. exfalso. apply (OV c); auto. }
  destruct IX as [i IX].
  rewrite IX. cbn [rbind Nat.sub Nat.ltb Nat.leb negb]. exists i. eexists. exists res. split; [reflexivity|]. reflexivity.
Qed.

(** ** The map below the lines of a document *)
Lemma front_tables : forall g cs m P, hmap g cs m -> P <> [] -> reached g (removelast P) ->
  (forall a n b, P = a ++ n :: b -> b <> [] -> In n (table_keys a g)) -> tabs_ok m [] P.
Proof.
  intros g cs m P MI N R NM. split.
  - destruct (hm_tab _ _ _ MI [] (or_introl eq_refl)) as (pv & D & _). eauto.
  - intros a n b E NB. left. cbn [app].
    assert (RA : forall x y, removelast P = x ++ y -> reached g x).
    { intros x y Q. rewrite Q in R. destruct R as [R|R]; [left; apply app_eq_nil in R as [-> _]; auto|right; eapply table_of_front; eauto]. }
    assert (RL : removelast P = (a ++ [n]) ++ removelast b).
    { rewrite E. rewrite removelast_app by discriminate. destruct b as [|y b]; [congruence|]. cbn [removelast]. rewrite <- app_assoc. reflexivity. }
    destruct (hm_tab _ _ _ MI a) as (pv & D & _). { eapply (RA a ([n] ++ removelast b)). rewrite RL, <- app_assoc. auto. }
    destruct (hm_tab _ _ _ MI (a ++ [n])) as (pv2 & D2 & _). { eapply RA; eauto. }
    rewrite D. cbn [hkids]. split; [eapply NM; eauto|eauto].
Qed.

Lemma taken_front : forall g P, taken g P -> reached g (removelast P) /\
  (forall a n b, P = a ++ n :: b -> b <> [] -> In n (table_keys a g)).
Proof.
  intros g P T.
  assert (PR : forall a n b, P = a ++ n :: b -> b <> [] -> table_of g (a ++ [n])).
  { intros a n b E NB. destruct T as [T|(p & k & v & EP & I)].
    - apply (table_of_front g (a ++ [n]) b). rewrite <- app_assoc. cbn [app]. rewrite <- E. auto.
    - destruct (exists_last NB) as (b0 & y & ->). rewrite EP in E.
      assert (Q : p ++ [k] = ((a ++ [n]) ++ b0) ++ [y]) by (rewrite E, <- !app_assoc; auto). apply app_inj_tail in Q as [-> _].
      apply entries_reached in I as [I|I]; [destruct a; discriminate|]. eapply table_of_front; eauto. }
  split.
  - destruct P as [|x P0] using rev_ind; [left; auto|]. clear IHP0. rewrite removelast_last. destruct P0 as [|y P1] using rev_ind; [left; auto|].
    clear IHP1. right. apply (PR P1 y [x]); [rewrite <- app_assoc; auto|discriminate].
  - intros a n b E NB. apply table_keys_in, named_iff. left. eapply PR; eauto.
Qed.

Lemma taken_entry : forall g cs m P, hmap g cs m -> hbare g -> hdistinct g -> P <> [] -> taken g P ->
  exists pv ch, dent m P = Some (HashValue pv ch) /\ (pv <> None \/ exists l, ch = Keys l) /\
    forall c, ch = Count c -> exists p k v, P = p ++ [k] /\ In (p, k, v) (entries g) /\ kids_of v = Count c.
Proof.
  intros g cs m P MI B DS N [T|(p & k & v & EP & I)].
  - destruct (hm_tab _ _ _ MI P (or_intror T)) as (pv & D & _). exists pv. eexists. split; [exact D|]. split; [eauto|]. discriminate.
  - destruct (forall2_in _ _ _ _ _ _ (hm_cells _ _ _ MI) I) as (cl & _ & TV & H). cbn [fst snd] in *.
    destruct (H [] cl eq_refl) as [_ X]. cbn [path_text map concat] in X. rewrite app_nil_r in X. unfold held in X.
    exists (Some cl), (tkids (c_val cl)). split; [unfold dent; rewrite dpar_dotted by auto; rewrite EP; exact X|]. split; [left; discriminate|].
    intros c Q. exists p, k, v. split; auto. split; auto. rewrite <- (tkids_of _ _ TV). auto.
Qed.

(** ** The text after the lines *)
Lemma runs_after : forall ovf ls r s s2 rest t, ls <> [] -> runs ovf ls r s ->
  toml_p (new_parser ovf) (hdoc_text ls ++ r) = Ok (s2, Done rest t) ->
  exists n es, many_loop n nl_expression_p s r = Ok (s2, Done rest es).
Proof.
  intros ovf [|x l] r s s2 rest t N H T; [congruence|]. destruct H as [es H].
  unfold toml_p in T. apply bind_done in T as (s1 & j & e & E & T). apply bind_done in T as (s3 & j2 & k & M & T).
  inversion T; subst. unfold nl_expressions, many0 in M. specialize (H (S (length j))). unfold read_on in H. rewrite E in H. cbn [rbind] in H.
  rewrite Nat.add_comm in H. rewrite (many_mono _ _ _ _ _) in H by (rewrite M; discriminate). rewrite M in H. cbn [rbind with_front] in H.
  exists (S (length j)). destruct (many_loop (S (length j)) nl_expression_p s r) as [[s4 [j4 k4| |]]| |]; cbn [rbind with_front] in H; try discriminate.
  inversion H; subst. eauto.
Qed.

(** the overflow checks are on or off for the whole text *)
Definition ovf_same (s s' : pst) : Prop := s'.(p_ovf) = s.(p_ovf).
Lemma ovf_trans : forall a b c, ovf_same a b -> ovf_same b c -> ovf_same a c.
Proof. unfold ovf_same. congruence. Qed.
Lemma ovf_insert : forall s c s', insert_keyval_into_map s c = Ok s' -> ovf_same s s'.
Proof. intros s c s' H. apply insert_effect in H as [(fk & v & ->)|(m & ->)]; reflexivity. Qed.
Lemma ovf_std : forall w1 w2 k l s s' t, std_table_act w1 w2 k l s = Ok (s', t) -> ovf_same s s'.
Proof. intros w1 w2 k l s s' t H. apply std_table_effect in H as [_ [(kc & ts & ti & tk & ->)|(kc & ts & ti & m & ->)]]; reflexivity. Qed.
Lemma ovf_arr : forall w1 w2 k l s s' t, array_table_act w1 w2 k l s = Ok (s', t) -> ovf_same s s'.
Proof. intros w1 w2 k l s s' t H. apply array_table_effect in H as [_ [(kc & ts & ti & m & tk & ->)|(kc & ts & ti & m & ->)]]; reflexivity. Qed.
Lemma ovf_expression : pres ovf_same expression_p.
Proof.
  apply pres_expression; try (intros; reflexivity); [exact ovf_trans|exact ovf_insert|exact ovf_std|exact ovf_arr].
Qed.
Lemma loop_pres : forall R : pst -> pst -> Prop, (forall s, R s s) -> (forall a b c, R a b -> R b c -> R a c) ->
  (forall n s, R s (add_lines n s)) -> pres R expression_p ->
  pres R nl_expression_p.
Proof.
  intros R RR RT RL E. unfold nl_expression_p. apply pres_bind; auto; [apply pres_newline; auto|]. intros x.
  apply pres_bind; auto. intros y. apply pres_ret; auto.
Qed.
Lemma ovf_toml : pres ovf_same toml_p.
Proof.
  unfold toml_p. apply pres_bind; [exact ovf_trans|exact ovf_expression|]. intros e.
  apply pres_bind; [exact ovf_trans| |intros l; apply pres_ret; reflexivity].
  apply pres_many0; [reflexivity|exact ovf_trans|]. apply loop_pres; try (intros; reflexivity); [exact ovf_trans|exact ovf_expression].
Qed.

Lemma clash_parse : forall ovf ls g fs b nl w0 w1 n more w2 w3 c z, wdoc_ok ls -> faulty ls g fs b -> line_end nl ->
  hline_ok (HHead w0 w1 n more w2 w3 c) -> line_start z -> taken g (head_path n more) ->
  (ovf = true -> forall p k v, head_path n more = p ++ [k] -> In (p, k, v) (entries g) -> kids_of v <> Count 0) ->
  forall s r, parse (new_parser ovf) (hdoc_text ls ++ nl ++ arr_text w0 w1 n more w2 w3 c ++ z) = Ok (s, r) ->
  exists i kvs, nth_error s.(p_errors) (length fs) =
    Some (EInvalidTable (dotted_name (head_path n more) ++ step_text (PIdx i)) (1 + line_feeds (hdoc_text ls ++ nl)) kvs).
Proof.
  intros ovf ls g fs b nl w0 w1 n more w2 w3 c z OK FA LE HL LS TK OV s r PA. set (P := head_path n more) in *.
  destruct (faulty_run ovf ls g fs b FA (or_intror OK) (nl ++ arr_text w0 w1 n more w2 w3 c ++ z)) as (s0 & cs & RU & FI & OL).
  { right. right. eauto. }
  destruct (parse_inv _ _ _ _ PA) as (s1 & rest & t & T & _ & -> & _). clear PA. cbn [p_errors set_leftover set_root].
  assert (NL : ls <> []) by (intros ->; destruct OK).
  destruct (runs_after _ _ _ _ _ _ _ NL RU T) as (nn & es & M).
  assert (OG : Forall wline_ok g) by (eapply faulty_ok; eauto; apply wdoc_lines; auto).
  pose proof (wok_bare _ OG) as BG. destruct (faulty_good _ _ _ _ FA) as [DS _].
  destruct HL as (W0 & W1 & BN & BM & W2 & W3 & CO).
  assert (FP : Forall key_name P).
  { constructor; auto. apply Forall_forall. intros x I. apply in_map_iff in I as (y & <- & I). rewrite Forall_forall in BM. apply BM in I. tauto. }
  assert (PN : P <> []) by discriminate.
  set (sa := add_lines 1 s0).
  assert (OVS : p_ovf sa = ovf).
  { change (p_ovf s0 = ovf). pose proof (ovf_toml _ _ _ _ T) as O1. change (p_ovf s1 = ovf) in O1.
    assert (O2 : ovf_same s0 s1).
    { revert M. apply (pres_loop ovf_same); [reflexivity|exact ovf_trans|]. apply loop_pres; try (intros; reflexivity); [exact ovf_trans|exact ovf_expression]. }
    unfold ovf_same in O2. congruence. }
  clear T. pose proof (finv_lines _ _ _ _ _ 1 FI) as FA1. fold sa in FA1. pose proof (finv_pre _ _ _ _ _ FA1) as HP. pose proof (fv_map _ _ _ _ _ FA1) as MI.
  destruct (taken_front _ _ TK) as [TR TN].
  pose proof (front_tables g cs _ P MI PN TR TN) as TO.
  destruct (taken_entry g cs _ P MI BG DS PN TK) as (pv & ch & DE & BAD & CC).
  destruct (dot_arr_read w1 n more w2 (w3 ++ com_text c ++ z) sa W1 BN BM W2) as (ks & KS & RD).
  destruct (clash_act w1 w2 n ks sa pv ch) as (i & s' & tt & AC & ER); try (rewrite KS; assumption).
  { apply (hp_keys _ _ _ _ HP). } { apply (hp_tables _ _ _ _ HP). } { exact BAD. }
  { intros cc Q O. rewrite OVS in O. destruct (CC cc Q) as (p & k & v & EP & I & KO). intros ->. eapply OV; eauto. }
  rewrite KS in AC, ER. change (n :: map snd more) with P in AC, ER.
  apply RD in AC. exists i.
  assert (EX : expression_p sa (arr_text w0 w1 n more w2 w3 c ++ z) =
    Ok (s', Done z {| e_ws := {| ws1 := w0; ws2 := w3 |}; e_keyval := None; e_table := Some tt; e_comment := c |})).
  { unfold arr_text. replace (w0 ++ lit "[[" ++ w1 ++ n ++ concat (map more_text more) ++ w2 ++ lit "]]" ++ w3 ++ com_text c)
      with (w0 ++ (lit "[[" ++ w1 ++ n ++ concat (map more_text more) ++ w2 ++ lit "]]") ++ w3 ++ com_text c) by (rewrite <- !app_assoc; auto).
    apply header_tail; auto. intros x. simpl. lia. }
  destruct nn as [|nn]; [discriminate M|]. cbn [many_loop] in M. pose proof (line_end_length nl LE) as LN.
  destruct (nl ++ arr_text w0 w1 n more w2 w3 c ++ z) as [|x y] eqn:Q.
  { apply (f_equal (@length N)) in Q. rewrite app_length in Q. simpl in Q. lia. }
  rewrite <- Q in M. unfold nl_expression_p at 1 in M. erewrite bind_ok in M by (apply newline_ok; auto).
  erewrite bind_ok in M by exact EX. cbn [rbind ret] in M.
  assert (Nat.eqb (length z) (length (nl ++ arr_text w0 w1 n more w2 w3 c ++ z)) = false) as LZ.
  { apply Nat.eqb_neq. rewrite !app_length. lia. }
  rewrite LZ in M. apply rbind_ok in M as ([s3 r3] & M & M2).
  assert (G : errors_grow s' s1).
  { assert (s3 = s1) as <- by (destruct r3; inversion M2; auto). revert M. apply (pres_loop errors_grow); [exact DocFacts.grow_refl|exact grow_trans|].
    apply loop_pres; [exact DocFacts.grow_refl|exact grow_trans|intros; apply grow_same; reflexivity|exact grow_expression]. }
  assert (LNO : p_line sa = 1 + line_feeds (hdoc_text ls ++ nl)).
  { unfold sa. change (p_line (add_lines 1 s0)) with (p_line s0 + 1). rewrite OL, line_feeds_app. assert (line_feeds nl = 1) as -> by (destruct LE as [-> | ->]; reflexivity). lia. }
  rewrite LNO in ER.
  destruct G as (aa & bb & E1 & K). rewrite ER in K. apply Forall2_app_inv_l in K as (a1 & a2 & K1 & K2 & ->).
  inversion K2 as [|? e ? ? KE KN]; subst. inversion KN; subst.
  assert (LF : length fs = length a1).
  { rewrite <- (forall2_len _ _ _ _ _ K1). change (p_errors sa) with (p_errors s0). apply (forall2_len _ _ _ _ _ (fv_errors _ _ _ _ _ FI)). }
  rewrite E1, LF, <- app_assoc, nth_error_app2, Nat.sub_diag by lia. cbn [app nth_error].
  change (step_text (PIdx i)) with (idx_str i).
  destruct KE as [<-|(k' & l' & u & v & EA & -> & _)]; [eauto|]. inversion EA; subst. eauto.
Qed.
