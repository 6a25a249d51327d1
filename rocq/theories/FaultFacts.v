(** Documents with wrong table headers and repeated keys. *)
From Coq Require Import Lia ZifyBool ZifyNat ZifyN.
From Verif Require Import Str Regex Types Ast State Nom Keys Grammar Api Facts Spec.
From Verif Require Import NomFacts ScalarFacts LineFacts FlatFacts RoundTrip ParseFacts IdFacts DocSpec MixSpec PathFacts NestFacts SectFacts LookFacts.
From Verif Require Import HeadSpec SafeFacts TotalFacts CountFacts DotSpec DotFacts FaultSpec.

Lemma last_head_cur : forall l p, last_head p l = cur_from p l.
Proof. reflexivity. Qed.

(** ** A header that cannot be added *)
Lemma gatk_std_bad : forall m names q v pk, Forall key_name names ->
  (v = false \/ exists a b, names = a ++ b /\ a <> [] /\ b <> [] /\ key_has_value m (dpar (q ++ a)) = true) ->
  exists pk', gatk_std m names v (dpre q) pk = (false, dpre (q ++ removelast names), pk').
Proof.
  intros m. induction names as [|n names IH]; intros q v pk F H.
  - destruct H as [-> | (a & b & E & NA & _)]; [|destruct a; [congruence|discriminate]]. cbn [gatk_std removelast]. rewrite app_nil_r. eauto.
  - inversion F as [|? ? B F']; subst. destruct names as [|n2 names].
    + destruct H as [-> | (a & b & E & NA & NB & _)].
      * cbn [gatk_std removelast]. rewrite app_nil_r. eauto.
      * exfalso. destruct a as [|x a]; [congruence|]. cbn [app] in E. inversion E as [[E1 E2]].
        symmetry in E2. apply app_eq_nil in E2 as [_ ->]. congruence.
    + rewrite gatk_std_eq, bare_not_root by auto.
      assert (E : dpre q ++ n = dpar (q ++ [n])) by (rewrite dpar_snoc, dotted_snoc; auto). rewrite E.
      assert (E2 : dpar (q ++ [n]) ++ lit "." = dpre (q ++ [n])) by (rewrite dpar_snoc; unfold dpre; destruct (q ++ [n]) eqn:Q; auto; destruct q; discriminate).
      rewrite E2. edestruct (IH (q ++ [n])) as (pk' & X); [auto| |rewrite X].
      * destruct H as [-> | (a & b & EQ & NA & NB & HV)]; [left; auto|].
        destruct a as [|x a]; [congruence|]. cbn [app] in EQ. inversion EQ; subst x. destruct a as [|y a].
        -- left. cbn [app] in HV. rewrite HV. apply Bool.andb_false_r.
        -- right. exists (y :: a), b. rewrite <- app_assoc. cbn [app] in *. repeat split; auto. discriminate.
      * rewrite <- app_assoc. eauto.
Qed.
Lemma gatk_bad : forall ovf m t, Forall key_name (map wk_key t) -> t <> [] ->
  (exists a b, map wk_key t = a ++ b /\ a <> [] /\ key_has_value m (dotted_name a) = true) ->
  exists pk, get_array_table_key ovf m [TStandard t] [0] = Ok (false, dotted_name (map wk_key t), pk).
Proof.
  intros ovf m t F N (a & b & E & NA & HV). unfold get_array_table_key. cbn [length gatk_loop vindex nth_error rbind skipn].
  assert (NM : map wk_key t <> []) by (destruct t; [congruence|discriminate]).
  unfold get_last_keys.
  assert (SK : forall v pk, gatk_std m (root_key :: map wk_key t) v [] pk = gatk_std m (map wk_key t) v [] pk).
  { intros v0 pk0. destruct (map wk_key t); [congruence|]. rewrite gatk_std_eq, str_eqb_refl. auto. }
  assert (LK : last (root_key :: map wk_key t) [] = last (map wk_key t) []).
  { destruct (map wk_key t); [congruence|reflexivity]. }
  rewrite SK, LK.
  assert (D : dpre (removelast (map wk_key t)) ++ last (map wk_key t) [] = dotted_name (map wk_key t)).
  { rewrite <- dotted_snoc. rewrite <- app_removelast_last by auto. auto. }
  destruct b as [|x b].
  - rewrite app_nil_r in E. subst a.
    destruct (gatk_std_name m (map wk_key t) [] true root_key F NM) as (v & pk & X). cbn [app dpre] in X. rewrite X, D, HV.
    rewrite Bool.andb_false_r. eauto.
  - destruct (gatk_std_bad m (map wk_key t) [] true root_key F) as (pk & X).
    { right. exists a, (x :: b). repeat split; auto; [discriminate|]. cbn [app]. rewrite dpar_dotted; auto. }
    cbn [app dpre] in X. rewrite X, D. cbn [andb]. eauto.
Qed.

Lemma bad_act : forall w1 w2 n ks s, let P := n :: map wk_key ks in
  s.(p_keychain) = [] -> one_table s -> Forall key_name P ->
  (exists a b, P = a ++ b /\ a <> [] /\ key_has_value s.(p_map) (dotted_name a) = true) \/
  (forall a b, P = a ++ b -> a <> [] -> key_has_value s.(p_map) (dotted_name a) = false) /\
  (key_has_children_with_values s.(p_map) (dpar (removelast P)) = Ok true \/
   key_has_children_with_values s.(p_map) (dpar (removelast P)) = Ok false /\
   exists id ch, dent s.(p_map) P = Some (HashValue (Some (Cell id TTable)) ch)) ->
  exists t, std_table_act w1 w2 n ks (fold_left (fun s k => push_key (KStr k) s) P s) =
    Ok (set_array_error true (push_error (EInvalidTable (dotted_name P) s.(p_line) []) (set_tables [] [] s)), t).
Proof.
  intros w1 w2 n ks s P K TA F H. set (w := {| wk_ws := {| ws1 := w1; ws2 := w2 |}; wk_key := n |}).
  set (t := w :: ks). assert (MT : map wk_key t = P) by reflexivity. set (res := TStandard t).
  unfold std_table_act. change (table_new {| ws1 := w1; ws2 := w2 |} n ks) with t. fold res.
  assert (LP : S (length ks) = length P) by (unfold P; cbn [length]; rewrite map_length; auto). rewrite LP, drop_keys by auto.
  cbn [rbind]. cbv zeta.
  assert (LT : (if is_top_std_table (p_tables s) || equal_key_length res (p_tables s) then (vpop (p_tables s), vpop (p_tindex s))
     else (p_tables s, p_tindex s)) = ([], [])).
  { destruct TA as [[-> ->]|(t' & -> & ->)]; reflexivity. }
  rewrite LT. change (vlast (@nil table_type)) with (@None table_type). cbv iota beta.
  change (vpush [] res) with [TStandard t]. change (vpush [] 0) with [0]. change (vlast (@nil table_type)) with (@None table_type). cbv iota beta.
  assert (NT : t <> []) by discriminate.
  destruct H as [H|(NV & H)].
  - destruct (gatk_bad (p_ovf s) (p_map s) t) as (pk & X); rewrite ?MT; auto. rewrite X, MT. cbn [rbind negb]. eauto.
  - assert (X : get_array_table_key (p_ovf s) (p_map s) [TStandard t] [0] = Ok (true, dotted_name P, dpar (removelast P))).
    { rewrite gatk_dotted, MT; rewrite ?MT; auto. }
    rewrite X. cbn [rbind negb]. destruct H as [H|(H & id & ch & OLD)]; rewrite H; cbn [rbind].
    + eauto.
    + unfold dent in OLD. rewrite <- (dpar_dotted P) by discriminate. rewrite OLD. cbn [c_val]. rewrite dpar_dotted by discriminate. eauto.
Qed.

(** ** The state *)
Record finv (fs : list fault) (b : bool) (g : list hline) (cs : list cell) (s : pst) : Prop := {
  fv_keys : s.(p_keychain) = [];
  fv_types : s.(p_atypes) = [];
  fv_errors : Forall2 reported fs s.(p_errors);
  fv_aerr : s.(p_array_error) = b;
  fv_tables : if b then s.(p_tables) = [] /\ s.(p_tindex) = [] else htabs (hcur g) s;
  fv_map : hmap g cs s.(p_map) }.

Lemma finv_pre : forall fs b g cs s, finv fs b g cs s -> hpre s.(p_errors) g cs s.
Proof.
  intros fs b g cs s [A B C D E F]. constructor; auto. destruct b; [left; auto|eapply htabs_one; eauto].
Qed.
Lemma finv_dinv : forall fs g cs s, finv fs false g cs s -> hdinv s.(p_errors) g cs s.
Proof. intros fs g cs s [A B C D E F]. constructor; auto. Qed.
Lemma dinv_finv : forall fs g cs s, hdinv s.(p_errors) g cs s -> Forall2 reported fs s.(p_errors) -> finv fs false g cs s.
Proof. intros fs g cs s [A B C D E F] R. constructor; auto. Qed.

Lemma wok_bare : forall l, Forall wline_ok l -> hbare l.
Proof.
  induction l as [|d l IH] using rev_ind; intros H; [repeat constructor|].
  apply Forall_app in H as [H D]. inversion D as [|? ? OK _]; subst. destruct (IH H) as [A B].
  constructor; [rewrite heads_snoc|rewrite entries_snoc]; apply Forall_app; split; auto.
  - destruct d as [| |w0 w1 n m w2 w3 c]; try apply Forall_nil. destruct OK as (_ & _ & BN & BM & _). apply Forall_cons; [|apply Forall_nil].
    constructor; auto. apply Forall_forall. intros x I. apply in_map_iff in I as (y & <- & I). rewrite Forall_forall in BM. apply BM in I. tauto.
  - destruct d; try apply Forall_nil. destruct OK as (_ & BK & _). apply Forall_cons; [exact BK|apply Forall_nil].
Qed.

(** the faults of a value and the errors *)
Lemma vlast_reported : forall fs f es, Forall2 reported (fs ++ [f]) es -> exists e, vlast es = Some e /\ reported f e.
Proof.
  intros fs f es H. apply Forall2_app_inv_l in H as (a & b & _ & H & ->). inversion H as [|? e ? ? R N]; subst. inversion N; subst.
  exists e. rewrite vlast_app. auto.
Qed.
Lemma noted_notes : forall p ln fs l fs', noted p ln fs l fs' -> forall lo hi es es', notes (dotted_name p) l lo hi es es' ->
  l = [] \/ (lo = ln /\ hi = ln) -> Forall2 reported fs es -> Forall2 reported fs' es'.
Proof.
  intros p ln fs l fs' H.
  assert (SNOC : forall fs es f e, Forall2 reported fs es -> reported f e -> Forall2 reported (fs ++ [f]) (vpush es e)).
  { intros. apply Forall2_app; auto. }
  assert (PN : forall r i, dotted_name p ++ path_text r ++ step_text (PIdx i) = place_name p (r ++ [PIdx i])).
  { intros r i. unfold place_name, path_text. rewrite map_app, concat_app. cbn [map concat]. rewrite app_nil_r. auto. }
  induction H as [fs|fs r d l fs' H IH|r i l fs' H IH|fs q x lx r i l fs' NP H IH|fs f r i l fs' HP H IH]; intros lo hi es es' NT EQ RE.
  - inversion NT; subst. auto.
  - destruct EQ as [EQ|[-> ->]]; [discriminate|]. inversion NT as [|? ? ? ln' ? ? ? LE NT']; subst. pose proof (notes_le _ _ _ _ _ _ NT').
    assert (ln' = ln) as -> by lia. eapply IH; eauto. cbn [note]. apply SNOC; auto. cbn [reported]. auto.
  - destruct EQ as [EQ|[-> ->]]; [discriminate|]. inversion NT as [|? ? ? ln' ? ? ? LE NT']; subst. pose proof (notes_le _ _ _ _ _ _ NT').
    assert (ln' = ln) as -> by lia. eapply IH; eauto. inversion RE; subst. cbn [note vlast]. repeat constructor.
  - destruct EQ as [EQ|[-> ->]]; [discriminate|]. inversion NT as [|? ? ? ln' ? ? ? LE NT']; subst. pose proof (notes_le _ _ _ _ _ _ NT').
    assert (ln' = ln) as -> by lia. eapply IH; eauto. destruct (vlast_reported _ _ _ RE) as (e & V & R). cbn [note]. rewrite V.
    destruct e as [k l0|k l0 v0|k l0 kvs|k l0 t0]; cbn [reported] in R; try contradiction. destruct R as [-> ->]. rewrite PN.
    destruct (starts_with (place_name q x) (place_name p (r ++ [PIdx i]))) eqn:Q.
    { apply starts_with_app in Q as [z Q]. apply NP in Q. contradiction. }
    apply SNOC; auto. cbn [reported]. auto.
  - destruct EQ as [EQ|[-> ->]]; [discriminate|]. inversion NT as [|? ? ? ln' ? ? ? LE NT']; subst. pose proof (notes_le _ _ _ _ _ _ NT').
    assert (ln' = ln) as -> by lia. eapply IH; eauto. destruct (vlast_reported _ _ _ RE) as (e & V & R). cbn [note]. rewrite V.
    destruct e as [k l0|k l0 v0|k l0 kvs|k l0 t0]; auto. destruct f; cbn [reported] in R; try contradiction. destruct R as [-> ->].
    rewrite PN. assert (starts_with (place_name p0 r0) (place_name p (r ++ [PIdx i])) = true) as ->; auto.
    apply starts_with_app. exact HP.
Qed.

Lemma finv_good : forall fs g cs s d r, finv fs false g cs s -> Forall wline_ok (g ++ [d]) -> hdistinct (g ++ [d]) -> parents_empty (g ++ [d]) ->
  line_start r -> exists s' e ers', expression_p s (hline_text d ++ r) = Ok (s', Done r e) /\ hdinv ers' (g ++ [d]) (cs ++ ecell e) s' /\
    match d with
    | HPair _ k _ _ v _ _ _ => notes (dotted_name (hcur g ++ [k])) (vfaults v) s.(p_line) s'.(p_line) s.(p_errors) ers'
    | _ => ers' = s.(p_errors)
    end.
Proof.
  intros fs g cs s d r FI OK DS PH R. pose proof (finv_dinv _ _ _ _ FI) as DI. pose proof (wok_bare _ OK) as B.
  assert (OD : wline_ok d) by (apply Forall_app in OK as [_ OK]; inversion OK; auto).
  destruct d as [w c|w0 k w1 w2 v t w3 c|w0 w1 n m w2 w3 c].
  - destruct (hstep_blank _ g cs s w c r DI OD R) as [E I]. exists s. do 2 eexists. split; [exact E|]. cbn [ecell e_keyval]. rewrite app_nil_r. split; eauto.
  - destruct OD as (W0 & BK & W1 & W2 & SP & W3 & CO).
    destruct (hstep_line_notes _ g cs s w0 k w1 w2 v t w3 c r DI) as (s' & cl & ers' & E & I & NT); auto.
    exists s'. do 2 eexists. split; [exact E|]. split; eauto.
  - destruct (hstep_head _ g cs s w0 w1 n m w2 w3 c r (hdinv_pre _ _ _ _ DI) B OD DS PH R) as (s' & tt & E & I). exists s'. do 2 eexists. split; [exact E|].
    cbn [ecell e_keyval]. rewrite app_nil_r. split; eauto.
Qed.
Lemma finv_open : forall fs b g cs s w0 w1 n m w2 w3 c r, let d := HHead w0 w1 n m w2 w3 c in
  finv fs b g cs s -> hbare (g ++ [d]) -> hline_ok d -> hdistinct (g ++ [d]) -> parents_empty (g ++ [d]) ->
  line_start r -> exists s' e, expression_p s (hline_text d ++ r) = Ok (s', Done r e) /\ ecell e = [] /\ finv fs false (g ++ [d]) cs s'.
Proof.
  intros fs b g cs s w0 w1 n m w2 w3 c r d FI B OK DS PH R. destruct (hstep_head _ _ _ _ _ _ _ _ _ _ _ _ (finv_pre _ _ _ _ _ FI) B OK DS PH R) as (s' & tt & E & DI).
  exists s'. eexists. split; [exact E|]. split; [reflexivity|]. pose proof (hn_errors _ _ _ _ DI) as X. apply dinv_finv; [rewrite X; auto|]. rewrite X. apply (fv_errors _ _ _ _ _ FI).
Qed.

(** a wrong header *)
Lemma table_not_key : forall g q p k v r, hdistinct g -> In (p, k, v) (entries g) -> reached g q -> q <> p ++ k :: r.
Proof.
  intros g q p k v r D I R ->. destruct R as [R|R]; [destruct p; discriminate|]. apply (hd_apart _ D p k v I).
  apply (table_of_front g (p ++ [k]) r). rewrite <- app_assoc. exact R.
Qed.

Lemma entry_has_value : forall g cs m p k v, hmap g cs m -> In (p, k, v) (entries g) -> exists cl ch,
  hget (dotted_name (p ++ [k])) m = Some (HashValue (Some cl) ch) /\ to_val cl.(c_val) = Ok v.
Proof.
  intros g cs m p k v MI I. destruct (forall2_in _ _ _ _ _ _ (hm_cells _ _ _ MI) I) as (cl & _ & TV & H). cbn [fst snd] in *.
  destruct (H [] cl eq_refl) as [_ X]. change (path_text []) with (@nil N) in X. rewrite app_nil_r in X. unfold held in X. eauto.
Qed.

(** what the map says about a name, whatever the name is *)
Lemma entry_any : forall g cs m q hv, hbare g -> hdistinct g -> hmap g cs m -> q <> [] -> Forall key_name q ->
  hget (dotted_name q) m = Some hv ->
  table_of g q \/ exists p k v r, In (p, k, v) (entries g) /\ q = p ++ k :: r.
Proof.
  intros g cs m q hv B D MI NQ BQ H. rewrite <- aq_text in H. assert (GQ : good_addr (aq q)) by (apply aq_good; auto).
  apply (hm_only _ _ _ MI) in H as [H|(a & K & H)]; [apply atext_root in H; auto; contradiction|].
  apply atext_inj in H; auto; [|eapply hknown_good; eauto]. destruct K as [q' N' T'|p k v r' w I G W].
  - left. assert (q = q') as ->; auto. apply dotted_inj; auto. { eapply bare_table_of; eauto. } rewrite <- !aq_text. congruence.
  - right. destruct (aq_ext _ _ _ NQ (snoc_ne p k) H) as [t ->]. exists p, k, v, t. rewrite <- app_assoc. auto.
Qed.

Lemma prefix_value : forall m P, (exists a b, P = a ++ b /\ a <> [] /\ key_has_value m (dotted_name a) = true) \/
  (forall a b, P = a ++ b -> a <> [] -> key_has_value m (dotted_name a) = false).
Proof.
  intros m P. induction P as [|x P IH] using rev_ind.
  - right. intros a b E N. symmetry in E. apply app_eq_nil in E as [-> _]. congruence.
  - destruct IH as [(a & b & -> & N & H)|IH].
    + left. exists a, (b ++ [x]). rewrite <- app_assoc. auto.
    + destruct (key_has_value m (dotted_name (P ++ [x]))) eqn:H.
      * left. exists (P ++ [x]), []. rewrite app_nil_r. repeat split; auto. apply snoc_ne.
      * right. intros a b E N. destruct b as [|y b _] using rev_ind; [rewrite app_nil_r in E; subst a; auto|].
        rewrite app_assoc in E. apply app_inj_tail in E as [E _]. eapply IH; eauto.
Qed.

Lemma clash_bad : forall g cs m P, hbare g -> hdistinct g -> hmap g cs m -> P <> [] -> Forall key_name P -> clash g P ->
  (exists a b, P = a ++ b /\ a <> [] /\ key_has_value m (dotted_name a) = true) \/
  (forall a b, P = a ++ b -> a <> [] -> key_has_value m (dotted_name a) = false) /\
  (key_has_children_with_values m (dpar (removelast P)) = Ok true \/
   key_has_children_with_values m (dpar (removelast P)) = Ok false /\
   exists id ch, dent m P = Some (HashValue (Some (Cell id TTable)) ch)).
Proof.
  intros g cs m P B D MI NP BP CL.
  assert (KV : forall p k v, In (p, k, v) (entries g) -> key_has_value m (dotted_name (p ++ [k])) = true).
  { intros p k v I. destruct (entry_has_value _ _ _ _ _ _ MI I) as (cl & ch & X & TV). unfold key_has_value. rewrite X. cbn [hv_value].
    destruct (c_val cl); auto. discriminate TV. }
  destruct (prefix_value m P) as [H|NV]; [left; auto|].
  destruct CL as [CL|[(a & k & v & b & I & ->)|(a & n & k & v & -> & NA & I)]].
  - right. split; auto.
    assert (SPL : P = removelast P ++ [last P []]) by (apply app_removelast_last; auto).
    assert (RP : reached g (removelast P)). { right. exists [last P []]. rewrite <- SPL. auto. }
    destruct (hm_tab _ _ _ MI _ RP) as (pv & X & _).
    assert (TP : reached g P). { right. exists []. rewrite app_nil_r. auto. }
    destruct (hm_tab _ _ _ MI _ TP) as (pv' & X' & [[_ [id ->]]|[Y _]]); [|contradiction].
    unfold key_has_children_with_values. destruct (str_eqb (dpar (removelast P)) root_key); [right; eauto|].
    unfold dent in X. rewrite X. cbn [hv_subkeys]. destruct (existsb _ _); [left|right]; eauto.
  - left. exists (a ++ [k]), b. rewrite <- app_assoc. repeat split; auto; [apply snoc_ne|]. eapply KV; eauto.
  - right. split; auto. left. rewrite removelast_last. unfold key_has_children_with_values.
    assert (RA : reached g a) by (eapply entries_reached; eauto).
    assert (Q : str_eqb (dpar a) root_key = false).
    { apply str_eqb_neq. rewrite dpar_dotted by auto. apply dotted_root. apply app_bare in BP; tauto. }
    rewrite Q. destruct (hm_tab _ _ _ MI _ RA) as (pv & X & _). unfold dent in X. rewrite X. cbn [hv_subkeys]. f_equal.
    apply existsb_exists. exists k. split.
    + apply table_keys_in, named_iff. right. eauto.
    + rewrite dpar_dotted by auto. specialize (KV a k v I). rewrite dotted_snoc in KV. unfold dpre in KV. destruct a; [congruence|].
      rewrite <- app_assoc in KV. exact KV.
Qed.

Lemma finv_head : forall fs b g cs s w0 w1 n m w2 w3 c r, let d := HHead w0 w1 n m w2 w3 c in
  finv fs b g cs s -> hbare g -> hdistinct g -> hline_ok d -> clash g (head_path n m) -> line_start r ->
  exists s' e, expression_p s (hline_text d ++ r) = Ok (s', Done r e) /\ ecell e = [] /\
    finv (fs ++ [FHead (head_path n m) s.(p_line) []]) true g cs s'.
Proof.
  intros fs b g cs s w0 w1 n m w2 w3 c r d FI B DS OK CL R. destruct OK as (W0 & W1 & BN & BM & W2 & W3 & CO).
  pose proof FI as [KC TY ER AE TA MI].
  destruct (dot_read w1 n m w2 (w3 ++ com_text c ++ r) s W1 BN BM W2) as (ks & MK & RD).
  assert (PK : n :: map wk_key ks = head_path n m) by (unfold head_path; congruence).
  assert (BP : Forall key_name (head_path n m)).
  { constructor; auto. apply Forall_forall. intros x I. apply in_map_iff in I as (y & <- & I). rewrite Forall_forall in BM. apply BM in I. tauto. }
  destruct (bad_act w1 w2 n ks s) as (tt & E); auto.
  { destruct b; [left; auto|eapply htabs_one; eauto]. }
  { rewrite PK. auto. }
  { rewrite PK. eapply clash_bad; eauto. unfold head_path. discriminate. }
  rewrite PK in E. eexists. eexists. split; [|split].
  - replace (hline_text d) with (w0 ++ (lit "[" ++ w1 ++ n ++ concat (map more_text m) ++ w2 ++ lit "]") ++ w3 ++ com_text c)
      by (unfold d; cbn [hline_text]; rewrite <- !app_assoc; reflexivity).
    apply header_tail; auto; [intros x; simpl; lia|]. apply RD. exact E.
  - reflexivity.
  - constructor; auto.
    + unfold set_array_error, push_error. cbn [p_errors set_errors set_tables]. apply Forall2_app; auto. constructor; [|constructor].
      cbn [reported]. repeat split; auto. constructor.
Qed.

(** ** Key/value lines *)
Lemma line_act : forall w0 k w1 w2 t w3 c r s s1 cl s2,
  blanks w0 -> key_name k -> blanks w1 -> blanks w2 -> blanks w3 -> com_ok c -> line_start r ->
  no_blank (t ++ w3 ++ com_text c ++ r) ->
  val_p (push_key (KStr k) s) (t ++ w3 ++ com_text c ++ r) = Ok (s1, Done (w3 ++ com_text c ++ r) cl) ->
  keyval_act k {| ws1 := w1; ws2 := w2 |} cl s1 = Ok (s2, KeyVal k {| ws1 := w1; ws2 := w2 |} cl) ->
  expression_p s ((w0 ++ k ++ w1 ++ lit "=" ++ w2 ++ t ++ w3 ++ com_text c) ++ r) =
  Ok (s2, Done r {| e_ws := {| ws1 := w0; ws2 := w3 |};
         e_keyval := Some (KeyVal k {| ws1 := w1; ws2 := w2 |} cl); e_table := None; e_comment := c |}).
Proof.
  intros w0 k w1 w2 t w3 c r s s1 cl s2 W0 K W1 W2 W3 C R NB V I.
  rewrite <- !app_assoc. pose proof (key_head k K) as (a & b & E & A).
  assert (NB0 : forall x, no_blank (k ++ x)).
  { intros. subst. simpl. unfold bare_char in A. lia. }
  unfold expression_p. erewrite alt_err.
  2:{ apply table_comment_err; auto. subst. simpl. unfold bare_char in A. lia. }
  apply alt_ok, complete_ok. unfold keyval_comment. erewrite bind_ok by (apply ws_ok; auto).
  erewrite bind_ok.
  2:{ unfold keyval_p, keyval_p_. erewrite bind_ok.
      2:{ apply key_p_bare; auto. apply (blanks_app_head (fun c => ~ bare_char c)); auto; try (unfold bare_char; lia). simpl. unfold bare_char; lia. }
      erewrite bind_ok by (apply keyval_sep_ok; auto). erewrite bind_ok by exact V. unfold act. rewrite I. reflexivity. }
  erewrite bind_ok by (apply ws_ok; auto; apply com_no_blank; auto).
  erewrite bind_ok by (apply opt_comment; auto). reflexivity.
Qed.

Lemma first_value_hput : forall k k' v m, first_value k (hput k' v m) = if Spec.same_key k k' then Some v else first_value k m.
Proof.
  intros k k' v m. induction m as [|[a b] m IH].
  - reflexivity.
  - cbn [hput]. destruct (str_eqb_spec k' a) as [->|N]; cbn [first_value].
    + destruct (Spec.same_key k a); auto.
    + rewrite IH. destruct (Spec.same_key k a) eqn:A; auto. apply same_key_eq in A. subst a. destruct (Spec.same_key k k') eqn:C; auto.
      apply same_key_eq in C. congruence.
Qed.
Lemma last_value_snoc : forall k l k' v o, last_value k (l ++ [(k', v)]) o = if Spec.same_key k k' then Some v else last_value k l o.
Proof. intros k l k' v. induction l as [|[a b] l IH]; intros o; cbn [app last_value]; auto. Qed.
Lemma in_hput : forall k (v : value) m x, In x (map fst (hput k v m)) -> x = k \/ In x (map fst m).
Proof.
  intros k v. induction m as [|[a b] m IH]; intros x H; cbn [hput] in H.
  - destruct H as [H|[]]. left. symmetry. exact H.
  - destruct (str_eqb k a); cbn [map fst In] in *; [right; exact H|]. destruct H as [H|H]; [tauto|]. apply IH in H. tauto.
Qed.
Lemma nodup_hput : forall k (v : value) m, NoDup (map fst m) -> NoDup (map fst (hput k v m)).
Proof.
  intros k v m D. induction m as [|[a b] m IH]; cbn [hput]; [repeat constructor; auto|]. cbn [map fst] in D.
  inversion D; subst. destruct (str_eqb_spec k a) as [->|N]; cbn [map fst]; [constructor; auto|].
  constructor; auto. intros H. apply in_hput in H as [H|H]; congruence.
Qed.

Lemma finv_pair : forall fs P ln kvs g cs s w0 k w1 w2 v t w3 c r, let d := HPair w0 k w1 w2 v t w3 c in
  finv (fs ++ [FHead P ln kvs]) true g cs s -> wline_ok d -> scalar v t -> line_start r ->
  exists s' e, expression_p s (hline_text d ++ r) = Ok (s', Done r e) /\
    Forall (fun c => to_val c.(c_val) = Ok v) (ecell e) /\ finv (fs ++ [FHead P ln (kvs ++ [(k, v)])]) true g cs s'.
Proof.
  intros fs P ln kvs g cs s w0 k w1 w2 v t w3 c r d [KC TY ER AE TA MI] (W0 & BK & W1 & W2 & _ & W3 & CO) SC R.
  apply Forall2_app_inv_l in ER as (es & e1 & RS & R1 & EQ). inversion R1 as [|? e ? ? RE R2]; subst. inversion R2; subst. clear R1 R2.
  destruct e as [| |name ln' m|]; cbn [reported] in RE; try contradiction. destruct RE as (-> & -> & ND & FV).
  set (sp := push_key (KStr k) s). set (s1 := after_scalar t sp).
  set (s2 := pop_key (set_errors (es ++ [EInvalidTable (dotted_name P) ln (hput k v m)]) s1)).
  exists s2. eexists. split; [|split].
  - cbn [hline_text d]. unfold d. cbn [hline_text]. apply line_act with (s1 := s1) (cl := Cell sp.(p_next) (tval_of v)); auto.
    + apply scalar_no_blank with (v := v); auto.
    + apply val_scalar_; auto. apply ends_after; auto.
    + unfold keyval_act. replace (p_array_error s1) with true by (rewrite <- AE; reflexivity). 
      change (p_errors s1) with (p_errors s). rewrite EQ, vlast_app, vpop_app. unfold vpush. cbn [rbind c_val].
      rewrite (to_val_of v t SC). cbn [rbind]. reflexivity.
  - cbn [ecell e_keyval]. constructor; [|constructor]. cbn [kv_val c_val]. apply (to_val_of v t SC).
  - constructor; auto.
    + cbn. unfold vpush, vpop. rewrite removelast_last. auto.
    + apply Forall2_app; auto. constructor; [|constructor]. cbn [reported]. repeat split; auto using nodup_hput.
      intros x. rewrite first_value_hput, last_value_snoc, FV. auto.
Qed.

Lemma finv_blank : forall fs b g cs s w c r, finv fs b g cs s -> hline_ok (HBlank w c) -> line_start r ->
  exists e, expression_p s (hline_text (HBlank w c) ++ r) = Ok (s, Done r e) /\ ecell e = [].
Proof.
  intros fs b g cs s w c r FI OK R. eexists. split; [apply (istep_blank s w c OK r R)|reflexivity].
Qed.

(** a key that is given again *)
Lemma finv_again : forall fs g cs s w0 k w1 w2 v t w3 c r, let d := HPair w0 k w1 w2 v t w3 c in
  finv fs false g cs s -> hbare g -> wline_ok d -> scalar v t -> line_start r ->
  (exists v0, In (hcur g, k, v0) (entries g)) \/ In (hcur g ++ [k]) (heads g) ->
  exists s' e, expression_p s (hline_text d ++ r) = Ok (s', Done r e) /\
    Forall (fun c => to_val c.(c_val) = Ok v) (ecell e) /\
    finv (fs ++ [FKey (hcur g ++ [k]) s'.(p_line) v]) false g cs s'.
Proof.
  intros fs g cs s w0 k w1 w2 v t w3 c r d FI B (W0 & BK & W1 & W2 & _ & W3 & CO) SC R AG.
  pose proof (hcur_vctx _ _ _ _ (finv_dinv _ _ _ _ FI) B) as VC. destruct FI as [KC TY ER AE TA MI].
  set (sp := push_key (KStr k) s). set (s1 := after_scalar t sp). set (A := dotted_name (hcur g ++ [k])).
  assert (KP : p_keychain s1 = [KStr k]). { cbn. unfold vpush. rewrite KC. auto. }
  assert (K1 : keyval_keys s1 = Ok (A, dpar (hcur g))).
  { rewrite (vx_keys _ _ _ _ VC s1).
    - rewrite KP, chain_one. unfold A. rewrite dotted_snoc. reflexivity.
    - constructor; reflexivity.
    - intros x [].
    - rewrite KP. exists k, []. split; auto. apply key_ne; auto. }
  assert (HV : exists cl ch, hget A (p_map s) = Some (HashValue (Some cl) ch)).
  { destruct AG as [(v0 & I)|I].
    - destruct (entry_has_value _ _ _ _ _ _ MI I) as (cl & ch & X & _). eauto.
    - destruct (hm_tab _ _ _ MI (hcur g ++ [k])) as (pv & X & [[_ [id ->]]|[N _]]).
      + right. exists []. rewrite app_nil_r. auto.
      + unfold dent in X. rewrite dpar_snoc in X. eauto.
      + contradiction. }
  destruct HV as (c0 & ch & HV).
  set (s2 := pop_key (push_error (EDuplicateKey A (p_line s1) v) s1)).
  exists s2. eexists. split; [|split].
  - unfold d. cbn [hline_text]. apply line_act with (s1 := s1) (cl := Cell sp.(p_next) (tval_of v)); auto.
    + apply scalar_no_blank with (v := v); auto.
    + apply val_scalar_; auto. apply ends_after; auto.
    + unfold keyval_act. replace (p_array_error s1) with false by (rewrite <- AE; reflexivity).
      unfold insert_keyval_into_map. rewrite K1. cbn [rbind]. change (p_map s1) with (p_map s). rewrite HV. cbn [c_val].
      rewrite (to_val_of v t SC). reflexivity.
  - cbn [ecell e_keyval]. constructor; [|constructor]. cbn [kv_val c_val]. apply (to_val_of v t SC).
  - constructor; auto.
    + cbn. unfold vpush, vpop. rewrite removelast_last. auto.
    + apply Forall2_app; auto. constructor; [|constructor]. cbn [reported]. auto.
Qed.

Lemma finv_lines : forall fs b g cs s n, finv fs b g cs s -> finv fs b g cs (add_lines n s).
Proof. intros fs b g cs s n [A B C D E F]. constructor; auto. Qed.
Lemma finv_new : forall ovf, finv [] false [] [] (new_parser ovf).
Proof. intros ovf. destruct (hdinv_new ovf) as [A B C D E F]. constructor; auto. rewrite C. constructor. Qed.

(** ** Line numbers *)
Lemma layout_le : forall v, layout_lines v <= line_feeds (tsrc v).
Proof.
  induction v as [| | | |vals n1 n2 IH| |kvs ws IH|] using tval_ind'; cbn [layout_lines tsrc]; try lia.
  - rewrite !line_feeds_app, !gaps_show.
    assert (total (map (fun a => layout_lines (c_val (av_val a)) + gaps_lines (av_nls a)) vals) <= line_feeds (concat (map (av_src_ tsrc) vals))); [|lia].
    induction IH as [|a l A IH X]; [cbn; lia|]. cbn [map concat total fold_right]. rewrite line_feeds_app. fold (total (map (fun a => layout_lines (c_val (av_val a)) + gaps_lines (av_nls a)) l)).
    unfold av_src_ at 1. rewrite !line_feeds_app, gaps_show. lia.
  - rewrite !line_feeds_app.
    assert (total (map (fun k => layout_lines (c_val (kv_val (tk_kv k))) + gaps_lines (tk_nls k)) kvs) <= line_feeds (concat (map (tk_src_ tsrc) kvs))); [|lia].
    induction IH as [|a l A IH X]; [cbn; lia|]. cbn [map concat total fold_right]. rewrite line_feeds_app. fold (total (map (fun k => layout_lines (c_val (kv_val (tk_kv k))) + gaps_lines (tk_nls k)) l)).
    unfold tk_src_ at 1, sep_src. rewrite !line_feeds_app, gaps_show. lia.
Qed.
Lemma scalar_layout : forall v t x, scalar v t -> to_val x = Ok v -> layout_lines x = 0.
Proof.
  intros v t x SC E. destruct x; try reflexivity; cbn [to_val] in E.
  - exfalso. match type of E with rbind ?m _ = _ => destruct m; cbn [rbind] in E; try discriminate end. inversion E; subst. inversion SC.
  - exfalso. match type of E with rbind ?m _ = _ => destruct m; cbn [rbind] in E; try discriminate end. inversion E; subst. inversion SC.
Qed.
Lemma ecell_lines : forall e v t, scalar v t -> Forall (fun c => to_val c.(c_val) = Ok v) (ecell e) -> expr_lines e = 0.
Proof.
  intros e v t SC F. unfold ecell, expr_lines in *. destruct (e_keyval e) as [kv|]; auto. inversion F; subst. eapply scalar_layout; eauto.
Qed.
Lemma ecell_none : forall e, ecell e = [] -> expr_lines e = 0.
Proof. intros e H. unfold ecell, expr_lines in *. destruct (e_keyval e); [discriminate|auto]. Qed.

Lemma step_src : forall s d r s' e, expression_p s (hline_text d ++ r) = Ok (s', Done r e) -> ex_src e = hline_text d.
Proof. intros s d r s' e E. apply reads_expression in E. apply app_inv_tail in E. auto. Qed.
Lemma step_count : forall s d r s' e, expression_p s (hline_text d ++ r) = Ok (s', Done r e) -> line_start r -> expr_lines e = 0 ->
  s'.(p_line) = s.(p_line) + line_feeds (hline_text d).
Proof.
  intros s d r s' e E R Z. pose proof (step_src _ _ _ _ _ E) as S. apply expr_count in E; [rewrite S, Z in E; lia|].
  apply plain_head. apply line_start_head in R. destruct r; auto. unfold bare_char. lia.
Qed.
Lemma pair_feeds : forall w0 k w1 w2 v t w3 c, wline_ok (HPair w0 k w1 w2 v t w3 c) -> ~ In 10 t -> line_feeds (hline_text (HPair w0 k w1 w2 v t w3 c)) = 0.
Proof.
  intros w0 k w1 w2 v t w3 c (W0 & BK & W1 & W2 & _ & W3 & CO) NT. cbn [hline_text]. rewrite !line_feeds_app, (ws_lf w0), (ws_lf w1), (ws_lf w2), (ws_lf w3) by auto. rewrite (no_lf t NT).
  rewrite (bare_lf k BK).
  assert (C : line_feeds (com_text c) = 0); [|rewrite C; reflexivity].
  destruct c as [c|]; [|reflexivity]. cbn [com_text com_ok] in *. rewrite line_feeds_app. rewrite (no_lf c); [reflexivity|].
  intros I. unfold comment_text in CO. rewrite Forall_forall in CO. apply CO in I. lia.
Qed.

(** ** Reading all lines *)
Definition with_front (es : list nl_expression) (r : ires (list nl_expression)) : ires (list nl_expression) :=
  match r with Done j l => Done j (es ++ l) | Error => Error | Incomplete => Incomplete end.
Definition read_on (n : nat) (s : pst) (i : str) : res (pst * ires (list nl_expression)) :=
  let? (s1, r) := expression_p s i in
  match r with
  | Done j e => let? (s2, r2) := many_loop n nl_expression_p s1 j in Ok (s2, with_front [{| ne_nl := []; ne_expr := e |}] r2)
  | Error => Ok (s1, Error)
  | Incomplete => Ok (s1, Incomplete)
  end.
(** after the lines [ls] the state is [s] and [r] is left *)
Definition runs (ovf : bool) (ls : list (str * hline)) (r : str) (s : pst) : Prop :=
  match ls with
  | [] => s = new_parser ovf
  | _ :: l' => exists es, forall n, read_on (length l' + n) (new_parser ovf) (hdoc_text ls ++ r) =
      let? (s', x) := many_loop n nl_expression_p s r in Ok (s', with_front es x)
  end.
Lemma hdoc_text_app : forall a b, hdoc_text (a ++ b) = hdoc_text a ++ hdoc_text b.
Proof. intros a b. unfold hdoc_text. rewrite map_app, concat_app. auto. Qed.
Lemma hdoc_text_one : forall nl d, hdoc_text [(nl, d)] = nl ++ hline_text d.
Proof. intros nl d. unfold hdoc_text. cbn [map concat fst snd]. apply app_nil_r. Qed.

Definition at_line (ls : list (str * hline)) (s : pst) : pst := match ls with [] => s | _ => add_lines 1 s end.
Definition front_ok (ls : list (str * hline)) (nl : str) : Prop := match ls with [] => nl = [] | _ => line_end nl end.
Lemma runs_snoc : forall ovf ls nl d r s s' e, runs ovf ls (nl ++ hline_text d ++ r) s -> front_ok ls nl ->
  expression_p (at_line ls s) (hline_text d ++ r) = Ok (s', Done r e) -> runs ovf (ls ++ [(nl, d)]) r s'.
Proof.
  intros ovf [|x l] nl d r s s' e H F E.
  - cbn [runs front_ok at_line] in *. subst. cbn [app length]. exists [{| ne_nl := []; ne_expr := e |}]. intros n.
    rewrite hdoc_text_one. cbn [app Nat.add]. unfold read_on. rewrite E. reflexivity.
  - cbn [runs front_ok at_line] in *. destruct H as [es H]. cbn [app]. exists (es ++ [{| ne_nl := nl; ne_expr := e |}]). intros n.
    rewrite app_length. cbn [length]. replace (length l + 1 + n)%nat with (length l + S n)%nat by lia.
    change (x :: l ++ [(nl, d)]) with ((x :: l) ++ [(nl, d)]). rewrite hdoc_text_app, hdoc_text_one, <- !app_assoc. rewrite H. clear H.
    pose proof (line_end_length nl F) as LN.
    cbn [many_loop]. destruct (nl ++ hline_text d ++ r) as [|c y] eqn:Q.
    { apply (f_equal (@length N)) in Q. rewrite app_length in Q. simpl in Q. lia. }
    rewrite <- Q. unfold nl_expression_p at 1. erewrite bind_ok by (apply newline_ok; auto).
    erewrite bind_ok by exact E. cbn [rbind ret].
    assert (Nat.eqb (length r) (length (nl ++ hline_text d ++ r)) = false) as ->.
    { apply Nat.eqb_neq. rewrite !app_length. lia. }
    destruct (many_loop n nl_expression_p s' r) as [[s2 [j k| |]]| |]; cbn [rbind]; try reflexivity.
    cbn [with_front]. rewrite <- app_assoc. reflexivity.
Qed.
Lemma many_mono : forall A (p : P A) n s i, many_loop n p s i <> Fuel -> forall k, many_loop (n + k) p s i = many_loop n p s i.
Proof.
  intros A p. induction n as [|n IH]; intros s i H k; [exfalso; apply H; reflexivity|]. cbn [many_loop Nat.add] in *. destruct i as [|c i]; auto.
  destruct (p s (c :: i)) as [[s1 r]| |]; cbn [rbind] in *; auto. destruct r as [j a| |]; auto.
  destruct (Nat.eqb (length j) (length (c :: i))); auto. rewrite IH; auto. intros E. rewrite E in H. auto.
Qed.
Lemma runs_parse : forall ovf ls s, ls <> [] -> runs ovf ls [] s -> exists t, toml_p (new_parser ovf) (hdoc_text ls) = Ok (s, Done [] t).
Proof.
  intros ovf [|x l] s N H; [congruence|]. destruct H as [es H]. rewrite app_nil_r in H. set (i := hdoc_text (x :: l)) in *.
  specialize (H 1%nat). unfold read_on in H.
  assert (NF : toml_p (new_parser ovf) i <> Fuel) by (eapply nf_toml; apply le_n). unfold toml_p, bind in *.
  destruct (expression_p (new_parser ovf) i) as [[s1 [j e| |]]| |] eqn:E; cbn [rbind] in *; try discriminate H.
  unfold nl_expressions, many0 in *.
  assert (M : many_loop (S (length j)) nl_expression_p s1 j = many_loop (length l + 1) nl_expression_p s1 j).
  { rewrite <- (many_mono _ _ (S (length j)) _ _) with (k := (length l + 1)%nat). 2:{ intros F. rewrite F in NF. auto. }
    rewrite Nat.add_comm. apply many_mono. intros F. rewrite F in H. discriminate H. }
  rewrite M. destruct (many_loop (length l + 1) nl_expression_p s1 j) as [[s2 r]| |]; cbn [rbind many_loop] in *; try discriminate H.
  inversion H; subst. destruct r as [j2 k| |]; cbn [with_front] in *; try discriminate. inversion H2; subst. eauto.
Qed.

(** ** Documents with faults *)
Lemma faulty_ok : forall ls g fs b, faulty ls g fs b -> Forall wline_ok (map snd ls) -> Forall wline_ok g.
Proof.
  induction 1; intros OK; auto; rewrite map_app in OK; apply Forall_app in OK as [A B]; auto; cbn [map snd] in B; apply Forall_app; split; auto.
Qed.
Lemma faulty_good : forall ls g fs b, faulty ls g fs b -> hdistinct g /\ parents_empty g.
Proof.
  induction 1; auto. split.
  - constructor; try constructor. intros p k v [].
  - intros l1 l2 w0 w1 n m w2 w3 c p x E. destruct l1; discriminate.
Qed.
Lemma wdoc_lines : forall l, wdoc_ok l -> Forall wline_ok (map snd l).
Proof.
  intros [|[nl d] r] OK; [destruct OK|]. destruct OK as (_ & A & B). cbn [map snd]. constructor; auto.
  apply Forall_forall. intros x I. apply in_map_iff in I as (y & <- & I). rewrite Forall_forall in B. apply B in I. tauto.
Qed.
Lemma wdoc_snoc : forall ls nl d, wdoc_ok (ls ++ [(nl, d)]) -> front_ok ls nl /\ wline_ok d /\ (ls = [] \/ wdoc_ok ls).
Proof.
  intros [|[nl0 d0] l] nl d; cbn [app wdoc_ok front_ok]; [tauto|]. intros (A & B & C). apply Forall_app in C as [C D].
  inversion D as [|? ? [X Y] _]; subst. cbn [fst snd] in *. repeat split; auto.
Qed.
Lemma front_feeds : forall ls nl s, front_ok ls nl -> (at_line ls s).(p_line) = s.(p_line) + line_feeds nl.
Proof.
  intros [|x l] nl s H; cbn [front_ok at_line] in *.
  - subst. cbn [line_feeds]. lia.
  - destruct H as [-> | ->]; reflexivity.
Qed.
Lemma front_start : forall ls nl d r, front_ok ls nl -> ls <> [] -> line_start (nl ++ hline_text d ++ r).
Proof. intros [|x l] nl d r F N; [congruence|]. right. cbn [front_ok] in F. eauto. Qed.

Lemma forall2_len : forall A B (R : A -> B -> Prop) l m, Forall2 R l m -> length l = length m.
Proof. induction 1; cbn [length]; auto. Qed.
Lemma app_split : forall A (a b c d : list A), a ++ b = c ++ d -> length a = length c -> a = c /\ b = d.
Proof.
  induction a as [|x a IH]; intros b [|y c] d E L; cbn [length app] in *; try discriminate; auto. inversion E; subst.
  apply IH in H1 as [-> ->]; auto.
Qed.
Lemma expr_le : forall e, expr_lines e <= line_feeds (ex_src e).
Proof.
  intros e. unfold expr_lines, ex_src. rewrite !line_feeds_app. destruct (e_keyval e) as [kv|]; [|lia].
  unfold kv_src, sep_src. rewrite !line_feeds_app. pose proof (layout_le (c_val (kv_val kv))). lia.
Qed.
Lemma good_lines : forall ers' g cs s s0 s' d r e fs b, expression_p s0 (hline_text d ++ r) = Ok (s', Done r e) -> wline_ok d -> same_text d ->
  finv fs b g cs s -> hdinv ers' (g ++ [d]) (cs ++ ecell e) s' -> expr_lines e = 0.
Proof.
  intros ers' g cs s s0 s' d r e fs b E OD ST FI FI'.
  pose proof (hm_cells _ _ _ (fv_map _ _ _ _ _ FI)) as C. pose proof (hm_cells _ _ _ (hn_map _ _ _ _ FI')) as C'.
  unfold entries in C'. rewrite entries_app in C'. fold (entries g) in C'. apply Forall2_app_inv_r in C' as (c1 & c2 & C1 & C2 & EQ).
  assert (c1 = cs /\ c2 = ecell e) as [-> ->].
  { apply forall2_len in C. apply forall2_len in C1. apply app_split in EQ as [X Y]; [auto|congruence]. }
  destruct d as [w c|w0 k w1 w2 v t w3 c|w0 w1 n m w2 w3 c]; cbn [entries_from] in C2.
  - inversion C2. apply ecell_none. auto.
  - destruct ST as [SC|NL].
    + apply (ecell_lines e v t SC). inversion C2 as [|x y l l' X Y]; subst. inversion Y; subst. constructor; [|constructor]. cbn [snd] in X. tauto.
    + pose proof (expr_le e). rewrite (step_src _ _ _ _ _ E), (pair_feeds _ _ _ _ _ _ _ _ OD NL) in H. lia.
  - inversion C2. apply ecell_none. auto.
Qed.

Definition on_line (ls : list (str * hline)) (s : pst) : Prop := s.(p_line) = 1 + line_feeds (hdoc_text ls).
Lemma faulty_run : forall ovf ls g fs b, faulty ls g fs b -> ls = [] \/ wdoc_ok ls -> forall r, ls = [] \/ line_start r ->
  exists s cs, runs ovf ls r s /\ finv fs b g cs s /\ on_line ls s.
Proof.
  intros ovf. induction 1 as [|ls g fs nl d fs' FA IH ST DS PH NO|ls g fs nl w0 w1 n m w2 w3 c d FA IH DS PH|ls g fs b nl w0 w1 n m w2 w3 c FA IH CL
    |ls g fs p ln kvs nl w0 k w1 w2 v t w3 c FA IH SC|ls g fs nl w c FA IH|ls g fs nl w0 k w1 w2 v t w3 c FA IH SC p AG]; intros OK r R.
  1:{ exists (new_parser ovf), []. split; [reflexivity|]. split; [apply finv_new|reflexivity]. }
  all: destruct R as [R|R]; [destruct ls; discriminate|].
  all: destruct OK as [OK|OK]; [destruct ls; discriminate|].
  all: pose proof OK as OK0; apply wdoc_lines in OK0; rewrite map_app in OK0; cbn [map snd] in OK0.
  all: apply Forall_app in OK0 as [OKL OKD]; apply wdoc_snoc in OK as (FR & OD & OK).
  all: pose proof (faulty_ok _ _ _ _ FA OKL) as OG; pose proof (faulty_good _ _ _ _ FA) as [DG PG].
  all: match goal with |- context [runs _ (_ ++ [(?x, ?dd)])] => destruct (IH OK (x ++ hline_text dd ++ r)) as (s & cs & RU & FI & OL);
    [destruct ls; [left; auto|right; eapply front_start; eauto; discriminate]|] end.
  all: assert (FI1 : forall fs b g cs, finv fs b g cs s -> finv fs b g cs (at_line ls s)) by (intros; destruct ls; auto; apply finv_lines; auto).
  all: apply FI1 in FI; clear FI1; pose proof (front_feeds ls nl s FR) as LN; unfold on_line in *.
  all: assert (ST1 : forall d s' e, expression_p (at_line ls s) (hline_text d ++ r) = Ok (s', Done r e) -> expr_lines e = 0 ->
       p_line s' = 1 + line_feeds (hdoc_text (ls ++ [(nl, d)])))
    by (intros d' s' e E Z; rewrite (step_count _ _ _ _ _ E R Z), hdoc_text_app, hdoc_text_one, !line_feeds_app; lia).
  - destruct (finv_good fs g cs (at_line ls s) d r) as (s' & e & ers' & E & DI' & NT); auto. { apply Forall_app; auto. }
    pose proof (good_lines _ _ _ _ _ _ _ _ _ _ _ E OD ST FI DI') as Z.
    exists s', (cs ++ ecell e). split; [eapply runs_snoc; eauto|]. split; [|apply ST1 with (e := e); auto].
    pose proof (hn_errors _ _ _ _ DI') as X. apply dinv_finv; [rewrite X; auto|]. rewrite X. pose proof (fv_errors _ _ _ _ _ FI) as RE.
    destruct d as [w c|w0 k w1 w2 v t w3 c|w0 w1 n m w2 w3 c]; try (rewrite NO, NT; exact RE).
    eapply noted_notes; [exact NO|exact NT| |exact RE]. destruct ST as [SC|NL]; [left; eapply scalar_faults; eauto|right].
    rewrite (step_count _ _ _ _ _ E R Z), (pair_feeds _ _ _ _ _ _ _ _ OD NL), line_feeds_app. lia.
  - destruct (finv_open fs true g cs (at_line ls s) w0 w1 n m w2 w3 c r) as (s' & e & E & Z & FI'); auto. { apply wok_bare. apply Forall_app; auto. }
    exists s', cs. split; [eapply runs_snoc; eauto|]. split; auto. apply ST1 with (e := e); auto. apply ecell_none; auto.
  - destruct (finv_head fs b g cs (at_line ls s) w0 w1 n m w2 w3 c r) as (s' & e & E & Z & FI'); auto. { apply wok_bare; auto. }
    exists s', cs. split; [eapply runs_snoc; eauto|]. split; [|apply ST1 with (e := e); auto; apply ecell_none; auto].
    rewrite line_feeds_app. replace (1 + (line_feeds (hdoc_text ls) + line_feeds nl)) with (p_line (at_line ls s)) by lia. auto.
  - destruct (finv_pair fs p ln kvs g cs (at_line ls s) w0 k w1 w2 v t w3 c r) as (s' & e & E & Z & FI'); auto.
    exists s', cs. split; [eapply runs_snoc; eauto|]. split; auto. apply ST1 with (e := e); auto. eapply ecell_lines; eauto.
  - destruct (finv_blank fs true g cs (at_line ls s) w c r FI OD R) as (e & E & Z).
    exists (at_line ls s), cs. split; [eapply runs_snoc; eauto|]. split; auto. apply ST1 with (e := e); auto. apply ecell_none; auto.
  - destruct (finv_again fs g cs (at_line ls s) w0 k w1 w2 v t w3 c r) as (s' & e & E & Z & FI'); auto. { apply wok_bare; auto. }
    exists s', cs. assert (L : p_line s' = 1 + line_feeds (hdoc_text (ls ++ [(nl, HPair w0 k w1 w2 v t w3 c)]))).
    { apply ST1 with (e := e); auto. eapply ecell_lines; eauto. }
    split; [eapply runs_snoc; eauto|]. split; auto. rewrite <- L. exact FI'.
Qed.

Lemma faulty_parse : forall ovf ls g fs b, wdoc_ok ls -> faulty ls g fs b ->
  exists s cs, parse (new_parser ovf) (hdoc_text ls) = Ok (s, match s.(p_errors) with [] => Full | es => FullError es end) /\
    Forall2 reported fs s.(p_errors) /\ hmap g cs s.(p_map).
Proof.
  intros ovf ls g fs b OK FA. destruct (faulty_run ovf ls g fs b FA (or_intror OK) [] (or_intror (or_introl eq_refl))) as (s & cs & RU & FI & _).
  destruct (runs_parse ovf ls s) as [t T]; auto. { intros ->. destruct OK. }
  exists (set_leftover [] (set_root t s)), cs. split; [|split].
  - unfold parse. rewrite T. cbn [rbind]. cbn [p_errors set_leftover set_root]. destruct (p_errors s); reflexivity.
  - cbn [p_errors set_leftover set_root]. apply (fv_errors _ _ _ _ _ FI).
  - cbn [p_root p_map set_leftover set_root]. apply (fv_map _ _ _ _ _ FI).
Qed.

Lemma reported_from : forall fs es, Forall2 reported fs es -> forall e, In e es -> exists f, In f fs /\ reported f e.
Proof.
  induction 1 as [|f e fs es R H IH]; intros x I; [destruct I|]; destruct I as [<-|I]; [exists f; cbn [In]; auto|]. destruct (IH x I) as (g & G & Q). exists g. cbn [In]. auto.
Qed.
Lemma reported_to : forall fs es, Forall2 reported fs es -> forall f, In f fs -> exists e, In e es /\ reported f e.
Proof.
  induction 1 as [|f e fs es R H IH]; intros x I; [destruct I|]; destruct I as [<-|I]; [exists e; cbn [In]; auto|]. destruct (IH x I) as (g & G & Q). exists g. cbn [In]. auto.
Qed.
