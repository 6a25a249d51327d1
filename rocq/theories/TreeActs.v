(** Documents with nested arrays of tables: the effect of headers. *)
From Coq Require Import Lia ZifyBool ZifyNat ZifyN.
From Verif Require Import Str Regex Types Ast State Nom Keys Grammar Api Facts Spec.
From Verif Require Import RegexFacts NomFacts TypesFacts DateFacts NumFacts StringFacts ScalarFacts.
From Verif Require Import LineFacts FlatFacts RoundTrip WalkFacts IdFacts WriteFacts ApiSpec ApiFacts DocSpec PathFacts NestFacts SectFacts LookFacts DotSpec DotFacts TreeSpec TreeView TreeStack.

(** ** Reading the header of an array of tables *)
Lemma dot_arr_read : forall w1 n more w2 r s, blanks w1 -> key_name n ->
  Forall (fun x : str * str * str => blanks (fst (fst x)) /\ blanks (snd (fst x)) /\ key_name (snd x)) more -> blanks w2 ->
  exists ks, map wk_key ks = map snd more /\ forall s' tt,
  array_table_act w1 w2 n ks (fold_left (fun s k => push_key (KStr k) s) (head_path n more) s) = Ok (s', tt) ->
  table_p s ((lit "[[" ++ w1 ++ n ++ concat (map more_text more) ++ w2 ++ lit "]]") ++ r) = Ok (s', Done r tt).
Proof.
  intros w1 n more w2 r s W1 B F W2.
  destruct (subkeys_loop more (push_key (KStr n) s) (S (length (concat (map more_text more) ++ w2 ++ lit "]" ++ lit "]" ++ r))) w2 (lit "]" ++ r) F W2 ltac:(lia)) as (ks & E & M).
  exists ks. split; auto. intros s' tt A. rewrite <- !app_assoc. unfold table_p. apply alt_ok.
  apply complete_ok. unfold array_table. erewrite bind_ok by apply tag_ok.
  erewrite bind_ok.
  2:{ apply ws_ok; auto. apply key_head in B as (c & u & -> & C). simpl. unfold bare_char in C. lia. }
  erewrite bind_ok.
  2:{ apply key_p_bare; auto. destruct more as [|[[a' b'] k'] more].
      - cbn [map concat app]. apply (blanks_app_head (fun c => ~ bare_char c)); auto; unfold bare_char; simpl; lia.
      - cbn [map concat]. unfold more_text at 1. cbn [fst snd]. rewrite <- !app_assoc. inversion F as [|? ? (A' & _ & _) _]; subst. cbn [fst] in A'.
        apply (blanks_app_head (fun c => ~ bare_char c)); auto; unfold bare_char; simpl; lia. }
  erewrite bind_ok by exact E.
  erewrite bind_ok. 2:{ apply (ws_ok w2 (lit "]]" ++ r)); auto. simpl; lia. }
  erewrite bind_ok by apply tag_ok. unfold act. cbn [head_path fold_left] in A. rewrite A. reflexivity.
Qed.

(** ** The tables of the state *)
Definition ttabs (st : stack) (tab : option str) (s : pst) : Prop := exists ts, stackof st ts /\
  match tab with
  | None => s.(p_tables) = ts /\ s.(p_tindex) = map snd st /\
            match st with [] => s.(p_last_table) = None | _ => exists tb, s.(p_last_table) = Some (TArrayOf tb) end
  | Some t => exists tb, s.(p_tables) = ts ++ [TStandard tb] /\ s.(p_tindex) = map snd st ++ [0] /\
            s.(p_last_table) = Some (TStandard tb) /\ map wk_key tb = map fst st ++ [t]
  end.

Lemma top_array : forall st ts, stackof st ts -> is_top_std_table ts = false.
Proof.
  intros st ts S. destruct S as [|st ts n i tb S M]; [reflexivity|]. unfold is_top_std_table. rewrite vlast_app. reflexivity.
Qed.
Lemma top_name : forall st ts, stackof st ts -> match vlast ts with
  | None => st = [] /\ ts = []
  | Some l => st <> [] /\ format_tt_keys l = dotted_name (map fst st) /\ length (tt_table l) = length st
  end.
Proof.
  intros st ts S. destruct S as [|st ts n i tb S M]; [split; reflexivity|]. rewrite vlast_app. split; [destruct st; discriminate|].
  unfold format_tt_keys. rewrite format_dotted. cbn [tt_table]. rewrite M, map_app. split; auto.
  rewrite <- (map_length wk_key), M, !app_length, map_length. reflexivity.
Qed.

(** ** A table header *)
Lemma std_pop_sub : forall a b ts tb t, stackof (a ++ b) ts -> sgood (a ++ b) -> key_name t -> map wk_key tb = map fst a ++ [t] ->
  (forall f x r, map fst b = f :: x -> t <> f ++ r) ->
  exists ta, stackof a ta /\ match vlast ts with
    | None => (ts, map snd (a ++ b))
    | Some l =>
        if str_eqb (format_tt_keys (TStandard tb)) (format_tt_keys l) then (ts, map snd (a ++ b))
        else if is_subtable_of (TStandard tb) l then (ts, map snd (a ++ b))
        else let (x, y) := pop_until_sub (TStandard tb) (rev ts) (rev (map snd (a ++ b))) in (rev x, rev y)
    end = (ta, map snd a).
Proof.
  intros a b ts tb t S G B M H. pose proof (top_name _ _ S) as T.
  assert (FT : format_tt_keys (TStandard tb) = dotted_name (map fst a ++ [t])).
  { unfold format_tt_keys. rewrite format_dotted. cbn [tt_table]. rewrite M. auto. }
  destruct b as [|x b].
  - rewrite app_nil_r in *. exists ts. split; auto. destruct (vlast ts) as [l|]; auto. destruct T as (N & T & _).
    unfold is_subtable_of. change (format_keys (tt_table l)) with (format_tt_keys l). change (format_keys (tt_table (TStandard tb))) with (format_tt_keys (TStandard tb)).
    rewrite T, FT, starts_snoc. destruct (str_eqb (dotted_name (map fst a ++ [t])) (dotted_name (map fst a))); auto.
  - destruct (vlast ts) as [l|].
    2:{ destruct T as [T _]. destruct a; discriminate T. }
    destruct T as (N & T & _).
    assert (NI : starts_with (dotted_name (map fst (a ++ x :: b))) (dotted_name (map fst a ++ [t])) = false).
    { rewrite map_app. cbn [map]. apply not_inside; auto.
      - change (fst x :: map fst b) with (map fst (x :: b)). rewrite <- map_app. apply sgood_names; auto.
      - intros _ r. eapply H. reflexivity. }
    unfold is_subtable_of at 1. change (format_keys (tt_table l)) with (format_tt_keys l). change (format_keys (tt_table (TStandard tb))) with (format_tt_keys (TStandard tb)).
    rewrite T, FT, NI. destruct (str_eqb_spec (dotted_name (map fst a ++ [t])) (dotted_name (map fst (a ++ x :: b)))) as [Q|_].
    { exfalso. rewrite Q in NI. apply not_true_iff_false in NI. apply NI. apply starts_iff. exists []. rewrite app_nil_r. auto. }
    destruct (pop_sub_stack (x :: b) a ts tb t) as (ta & SA & E); auto; [discriminate|]. exists ta. split; auto. rewrite E, !rev_involutive. auto.
Qed.
Lemma std_pops : forall a b tab s tb t, ttabs (a ++ b) tab s -> sgood (a ++ b) -> key_name t -> map wk_key tb = map fst a ++ [t] ->
  (forall f x r, map fst b = f :: x -> x = [] /\ tab = None \/ t <> f ++ r) ->
  exists ta, stackof a ta /\
    (let '(ts, ti) := if is_top_std_table s.(p_tables) || equal_key_length (TStandard tb) s.(p_tables)
       then (vpop s.(p_tables), vpop s.(p_tindex)) else (s.(p_tables), s.(p_tindex)) in
     match vlast ts with
     | None => (ts, ti)
     | Some l =>
        if str_eqb (format_tt_keys (TStandard tb)) (format_tt_keys l) then (ts, ti)
        else if is_subtable_of (TStandard tb) l then (ts, ti)
        else let (x, y) := pop_until_sub (TStandard tb) (rev ts) (rev ti) in (rev x, rev y)
     end) = (ta, map snd a).
Proof.
  intros a b tab s tb t (ts & S & T) G B M H. destruct tab as [u|].
  - destruct T as (tu & T1 & T2 & _ & _). rewrite T1, T2. unfold is_top_std_table. rewrite vlast_app. cbn [orb]. rewrite !vpop_app.
    eapply std_pop_sub; eauto. intros f x r Q. destruct (H f x r Q) as [[_ X]|X]; [discriminate X|auto].
  - destruct T as (T1 & T2 & _). rewrite T1, T2. rewrite (top_array _ _ S). cbn [orb].
    assert (EL : equal_key_length (TStandard tb) ts = true <-> length b = 1%nat).
    { unfold equal_key_length. pose proof (top_name _ _ S) as TN. destruct (vlast ts) as [l|] eqn:V.
      - destruct TN as (N & _ & LT). rewrite Nat.eqb_eq. cbn [tt_table]. rewrite LT, <- (map_length wk_key), M, !app_length, map_length. cbn [length]. lia.
      - destruct TN as [TN _]. apply app_eq_nil in TN as [_ ->]. cbn [length]. split; discriminate. }
    destruct (equal_key_length (TStandard tb) ts) eqn:EK.
    2:{ eapply std_pop_sub; eauto. intros f x r Q. destruct (H f x r Q) as [[X _]|X]; auto. exfalso. subst x.
        apply (f_equal (@length str)) in Q. rewrite map_length in Q. cbn [length] in Q. apply EL in Q. discriminate Q. }
    clear EL. unfold equal_key_length in EK. pose proof (top_name _ _ S) as TN. destruct (vlast ts) as [l|] eqn:V; [|discriminate EK].
    destruct TN as (N & _ & LT). apply Nat.eqb_eq in EK. cbn [tt_table] in EK. rewrite LT in EK.
    rewrite <- (map_length wk_key), M, !app_length, map_length in EK. cbn [length] in EK.
    destruct b as [|[n i] [|z b]]; cbn [length] in EK; try lia.
    apply so_snoc_inv in S as (ts0 & t0 & -> & S & _). rewrite map_app. cbn [map snd]. rewrite !vpop_app.
    destruct (std_pop_sub a [] ts0 tb t) as (ta & SA & E); rewrite ?app_nil_r in *; auto.
    + apply sgood_app in G; tauto.
    + intros f x r Q. discriminate Q.
    + exists ta. split; auto.
Qed.

Lemma name_apart : forall a t, sgood a -> key_name t -> aplace_of a t <> root_key /\ aplace_of a t <> ppar (sp a) /\ aplace_of a t <> [].
Proof.
  intros a t G B. pose proof (sp_good _ G) as GP. rewrite aplace_pt by auto.
  assert (GK : gplace (sp a ++ [PKey t])) by (apply gplace_key; auto). split; [apply pt_root; auto using snoc_place|]. split; [|apply pt_ne; auto using snoc_place].
  intros E. rewrite <- ppar_pt in E by apply snoc_place. apply ppar_inj in E; auto.
  apply (f_equal (@length pstep)) in E. rewrite app_length in E. cbn [length] in E. lia.
Qed.
Lemma ppar_root : forall a, sgood a -> a <> [] -> ppar (sp a) <> root_key.
Proof. intros a G N. rewrite ppar_pt by (apply sp_ne; auto). apply pt_root; [apply sp_ne; auto|apply sp_good; auto]. Qed.
Lemma ppar_array : forall a n b, sgood a -> key_name n -> sgood b -> aplace_of a n <> ppar (sp b).
Proof.
  intros a n b G B GB E. rewrite aplace_pt in E by auto. rewrite <- ppar_pt in E by apply snoc_place.
  apply ppar_inj in E; [|apply gplace_key; auto using sp_good|apply sp_good; auto]. destruct (snoc_inv _ b) as [->|(b' & [n' i'] & ->)].
  - destruct (sp a); discriminate E.
  - rewrite sp_snoc in E. apply app_inj_tail in E as [_ E]. discriminate.
Qed.

Lemma tab_act : forall w1 w2 n ks s a b a' b' tab t pv kk rv rk, let P := n :: map wk_key ks in
  s.(p_keychain) = [] -> ttabs (a' ++ b') tab s -> map fst a' = map fst a -> map fst b' = map fst b -> ((length a <= 1)%nat \/ a' = a) -> sgood (a ++ b) -> P = map fst a ++ [t] -> key_name t ->
  (forall f x r, map fst b = f :: x -> x = [] /\ tab = None \/ t <> f ++ r) -> arrs s.(p_map) (a ++ b) ->
  hget root_key s.(p_map) = Some (HashValue rv (Keys rk)) -> hget (ppar (sp a)) s.(p_map) = Some (HashValue pv (Keys kk)) ->
  hget (aplace_of a t) s.(p_map) = None -> hget [] s.(p_map) = None ->
  exists s' tt, std_table_act w1 w2 n ks (fold_left (fun s k => push_key (KStr k) s) P s) = Ok (s', tt) /\
    s'.(p_keychain) = [] /\ s'.(p_atypes) = s.(p_atypes) /\ s'.(p_errors) = s.(p_errors) /\ s'.(p_array_error) = false /\
    ttabs a' (Some t) s' /\
    hget root_key s'.(p_map) = Some (HashValue rv (Keys (fst (vinsert rk t)))) /\
    (exists id, hget (aplace_of a t) s'.(p_map) = Some (hv_table_keys id)) /\
    (a <> [] -> hget (ppar (sp a)) s'.(p_map) = Some (HashValue pv (Keys (fst (vinsert kk t))))) /\
    (forall y, y <> root_key -> y <> aplace_of a t -> y <> ppar (sp a) -> hget y s'.(p_map) = hget y s.(p_map)).
Proof.
  intros w1 w2 n ks s a b a' b' tab t pv kk rv rk P K TA NA' NB' XA G EP BT H A R PP NT H0.
  set (w := {| wk_ws := {| ws1 := w1; ws2 := w2 |}; wk_key := n |}). set (tb := w :: ks).
  assert (MT : map wk_key tb = map fst a ++ [t]) by (rewrite <- EP; reflexivity).
  apply sgood_app in G as G2. destruct G2 as [GA GB].
  assert (AA : arrs (p_map s) a) by (eapply arrs_front; eauto).
  assert (RT : rooted (p_map s)) by (exists rv, rk; auto).
  destruct (name_apart a t GA BT) as (N1 & N2 & N3).
  unfold std_table_act. change (table_new {| ws1 := w1; ws2 := w2 |} n ks) with tb.
  assert (LP : S (length ks) = length P) by (unfold P; cbn [length]; rewrite map_length; auto). rewrite LP, drop_keys by auto.
  cbn [rbind]. cbv zeta.
  assert (G' : sgood (a' ++ b')) by (apply sgood_names; rewrite map_app, NA', NB', <- map_app; apply sgood_names; auto).
  destruct (std_pops a' b' tab s tb t TA G' BT) as (ta & SA' & E); [rewrite NA'; auto|rewrite NB'; auto|].
  assert (SA : stackof a ta) by (eapply so_names; eauto).
  pose proof (names_length _ _ NA') as LA.
  destruct (if is_top_std_table (p_tables s) || equal_key_length (TStandard tb) (p_tables s) then (vpop (p_tables s), vpop (p_tindex s))
     else (p_tables s, p_tindex s)) as [ts0 ti0]. rewrite E. clear E ts0 ti0.
  pose proof (top_name _ _ SA) as TN.
  assert (FT : format_tt_keys (TStandard tb) = dotted_name (map fst a ++ [t])).
  { unfold format_tt_keys. rewrite format_dotted. cbn [tt_table]. rewrite MT. auto. }
  assert (NC : (match vlast ta with Some l => str_eqb (format_tt_keys (TStandard tb)) (format_tt_keys l) | None => false end) = false).
  { destruct (vlast ta) as [l|]; auto. destruct TN as (NA & TN & _). rewrite TN, FT.
    destruct (str_eqb_spec (dotted_name (map fst a ++ [t])) (dotted_name (map fst a))) as [Q|]; auto. exfalso.
    apply dotted_inj in Q.
    - apply (f_equal (@length str)) in Q. rewrite app_length in Q. cbn [length] in Q. lia.
    - apply snoc_ne.
    - destruct a; [congruence|discriminate].
    - apply bare_app; [apply sgood_names; auto|constructor; auto].
    - apply sgood_names; auto. }
  rewrite NC. unfold vpush.
  rewrite (gatk_tab (p_ovf s) (p_map s) a ta tb t (map snd a' ++ [0]) []) by (auto; rewrite app_length, LA; cbn [length]; lia).
  assert (KV : key_has_value (p_map s) (aplace_of a t) = false) by (unfold key_has_value; rewrite NT; auto). rewrite KV. cbn [rbind negb].
  unfold key_has_children_with_values. rewrite str_eqb_refl. cbn [rbind]. rewrite NT.
  rewrite (implicit_name (p_ovf s) (p_map s) a ta (map snd a') (TStandard tb) tb t pv kk); auto. cbn [rbind].
  set (m1 := hput (ppar (sp a)) (HashValue pv (Keys (fst (vinsert kk t)))) (p_map s)).
  assert (LK : last (map wk_key tb) [] = t) by (rewrite MT; apply last_last). rewrite LK.
  assert (ATS : add_to_table_set m1 ta (map snd a') t = Ok m1).
  { unfold add_to_table_set. destruct (snoc_inv _ a) as [->|(a2 & [n' i'] & ->)].
    - destruct a' as [|z' a']; [|discriminate NA']. apply so_nil_inv in SA. subst ta. cbn [map get_key_parent length gkp_loop rbind]. unfold m1. rewrite hget_hput_other by discriminate. rewrite H0. auto.
    - apply so_snoc_inv in SA as (ts0 & t0 & -> & SA & M0). apply sgood_app in GA as [GA' BN]. apply Forall_inv in BN. cbn [fst] in *.
      assert (XI : exists i2, map snd a' = map snd a2 ++ [i2]).
      { destruct XA as [XA| ->]; [|exists i'; rewrite map_app; auto]. rewrite app_length in XA. cbn [length] in XA. destruct a2 as [|y a2]; [|cbn [length] in XA; lia].
        destruct a' as [|[n2 i2] [|z' a']]; try discriminate NA'. exists i2. reflexivity. }
      destruct XI as [i2 XI]. rewrite (gkp_top a2 ts0 t0 n' i2 (map snd a')); auto. cbn [rbind].
      unfold m1. rewrite hget_hput_other by (apply ppar_array; auto; apply sgood_app; split; auto; constructor; auto).
      rewrite (AA a2 n' i' []) by auto. reflexivity. }
  rewrite ATS. cbn [rbind]. cbv [new_cell]. cbv iota beta. cbn [c_id].
  assert (M1N : hget (aplace_of a t) m1 = None) by (unfold m1; rewrite hget_hput_other by auto; auto). rewrite M1N.
  rewrite hget_hput_other by auto.
  assert (M1R : exists rk', hget root_key m1 = Some (HashValue rv (Keys rk')) /\ fst (vinsert rk' t) = fst (vinsert rk t)).
  { unfold m1. destruct a as [|x a].
    - cbn [sp flat_map ppar] in *. rewrite hget_hput_same. rewrite R in PP. injection PP as -> ->. eexists. split; [reflexivity|]. apply vinsert_twice.
    - rewrite hget_hput_other by (intros Q; symmetry in Q; revert Q; apply ppar_root; auto; discriminate). exists rk. auto. }
  destruct M1R as (rk' & M1R & VI). rewrite M1R. cbn [hv_subkeys hv_value rbind]. rewrite VI.
  eexists. exists (TStandard tb). split; [reflexivity|].
  cbn [p_keychain p_atypes p_errors p_array_error set_last_table set_array_error set_map set_tables set_next set_keychain p_map].
  split; auto. split; auto. split; auto. split; auto. split; [|split; [|split; [|split]]].
  - exists ta. split; auto. exists tb. cbn. rewrite NA'. auto.
  - apply hget_hput_same.
  - exists s.(p_next). rewrite hget_hput_other by auto. apply hget_hput_same.
  - intros NA. rewrite hget_hput_other by (apply ppar_root; auto). rewrite hget_hput_other by auto. apply hget_hput_same.
  - intros y Y1 Y2 Y3. rewrite !hget_hput_other by auto. unfold m1. apply hget_hput_other; auto.
Qed.

(** ** The header of an array of tables *)
Definition arr_pops (tb : table) (s : pst) : list table_type * list N :=
  if is_top_std_table s.(p_tables) then (vpop s.(p_tables), vpop s.(p_tindex)) else (s.(p_tables), s.(p_tindex)).
Lemma arr_top : forall st tab s tb, ttabs st tab s -> exists ts, stackof st ts /\ arr_pops tb s = (ts, map snd st).
Proof.
  intros st tab s tb (ts & S & T). exists ts. split; auto. unfold arr_pops. destruct tab as [u|].
  - destruct T as (tu & T1 & T2 & _ & _). rewrite T1, T2. unfold is_top_std_table. rewrite vlast_app, !vpop_app. auto.
  - destruct T as (T1 & T2 & _). rewrite T1, T2, (top_array _ _ S). auto.
Qed.

(** what the last part of the action does *)
Lemma arr_finish : forall ovf m st ts tb n j ti j0, stackof st ts -> map wk_key tb = map fst st ++ [n] -> sgood st -> key_name n -> rooted m -> arrs m st ->
  length ti = length st ->
  (hget (aplace_of st n) m = Some (HashValue None (Count (j + 1))) \/ (hget (aplace_of st n) m = None /\ j = 0 /\ j0 = 0)) ->
  get_array_table_key ovf m (ts ++ [TArrayOf tb]) (ti ++ [j0]) = Ok (true, aplace_of st n ++ idx_str j, aplace_of st n) /\
  exists m', m' = hput (aplace_of st n ++ idx_str j) hv_none_keys (if hmem (aplace_of st n) m then m else hput (aplace_of st n) hv_one_count m) /\
    hget (aplace_of st n ++ idx_str j) m' = Some hv_none_keys /\
    hget (aplace_of st n) m' = Some (HashValue None (Count (j + 1))) /\
    forall y, y <> aplace_of st n -> y <> aplace_of st n ++ idx_str j -> hget y m' = hget y m.
Proof.
  intros ovf m st ts tb n j ti j0 S M G B R A LT J. split.
  - apply gatk_top; auto.
    + rewrite app_length. cbn [length]. lia.
    + destruct J as [J|(J & -> & ->)]; auto. right. split; auto. rewrite nth_error_app2, LT, Nat.sub_diag by lia. reflexivity.
  - eexists. split; [reflexivity|].
    assert (NE : aplace_of st n <> aplace_of st n ++ idx_str j).
    { intros Q. apply (f_equal (@length N)) in Q. rewrite app_length in Q. unfold idx_str in Q. rewrite !app_length in Q. cbn [length lit] in Q.
      change (length (lit "[")) with 1%nat in Q. lia. }
    split; [apply hget_hput_same|]. split.
    + rewrite hget_hput_other by auto. unfold hmem. destruct J as [J|(J & -> & _)]; rewrite J; cbn [is_some]; [auto|]. rewrite hget_hput_same. reflexivity.
    + intros y Y1 Y2. rewrite hget_hput_other by auto. destruct (hmem (aplace_of st n) m); auto. apply hget_hput_other; auto.
Qed.

(** a new array in the last element of all the open ones, or at the top *)
Lemma new_act : forall w1 w2 n ks s st sh tab a a' t pv kk, let P := n :: map wk_key ks in
  s.(p_keychain) = [] -> ttabs sh tab s -> map fst sh = map fst st -> sgood st -> P = map fst a ++ [t] -> key_name t ->
  ((a = st /\ a' = sh) \/ (a = [] /\ a' = [] /\ forall f x r, map fst st = f :: x -> t <> f ++ r)) -> arrs s.(p_map) st -> rooted s.(p_map) ->
  hget (ppar (sp a)) s.(p_map) = Some (HashValue pv (Keys kk)) ->
  hget (aplace_of a t) s.(p_map) = None ->
  exists s' tt, array_table_act w1 w2 n ks (fold_left (fun s k => push_key (KStr k) s) P s) = Ok (s', tt) /\
    s'.(p_keychain) = [] /\ s'.(p_atypes) = s.(p_atypes) /\ s'.(p_errors) = s.(p_errors) /\ s'.(p_array_error) = false /\
    ttabs (a' ++ [(t, 0)]) None s' /\
    hget (pt (sp (a ++ [(t, 0)]))) s'.(p_map) = Some hv_none_keys /\
    hget (aplace_of a t) s'.(p_map) = Some (HashValue None (Count 1)) /\
    hget (ppar (sp a)) s'.(p_map) = Some (HashValue pv (Keys (fst (vinsert kk t)))) /\
    (forall y, y <> aplace_of a t -> y <> ppar (sp a) -> y <> pt (sp (a ++ [(t, 0)])) -> hget y s'.(p_map) = hget y s.(p_map)).
Proof.
  intros w1 w2 n ks s st sh tab a a' t pv kk P K TA NS G EP BT H A R PP NT.
  set (w := {| wk_ws := {| ws1 := w1; ws2 := w2 |}; wk_key := n |}). set (tb := w :: ks).
  assert (MT : map wk_key tb = map fst a ++ [t]) by (rewrite <- EP; reflexivity).
  assert (GA : sgood a) by (destruct H as [[-> _]|(-> & _)]; auto; apply Forall_nil).
  assert (AA : arrs (p_map s) a) by (destruct H as [[-> _]|(-> & _)]; auto; intros x n' i y Q; destruct x; discriminate Q).
  destruct (name_apart a t GA BT) as (N1 & N2 & N3).
  unfold array_table_act. change (table_new {| ws1 := w1; ws2 := w2 |} n ks) with tb.
  assert (LP : S (length ks) = length P) by (unfold P; cbn [length]; rewrite map_length; auto). rewrite LP, drop_keys by auto.
  cbn [rbind]. cbv zeta.
  assert (NA' : map fst a' = map fst a) by (destruct H as [[-> ->]|(-> & -> & _)]; auto). pose proof (names_length _ _ NA') as LA.
  destruct (arr_top sh tab s tb TA) as (ts & ST' & E). assert (ST : stackof st ts) by (eapply so_names; eauto).
  pose proof (names_length _ _ NS) as LS. unfold arr_pops in E. rewrite E. clear E.
  cbn [set_array_error p_map p_ovf].
  set (m1 := hput (ppar (sp a)) (HashValue pv (Keys (fst (vinsert kk t)))) (p_map s)).
  pose proof (top_name _ _ ST) as TN.
  assert (FT : format_tt_keys (TArrayOf tb) = dotted_name (map fst a ++ [t])).
  { unfold format_tt_keys. rewrite format_dotted. cbn [tt_table]. rewrite MT. auto. }
  assert (BP : Forall key_name (map fst a ++ [t])) by (apply bare_app; [apply sgood_names; auto|constructor; auto]).
  assert (M1R : rooted m1).
  { destruct R as (rv & rk & R). unfold m1, rooted. destruct (list_eq_dec N.eq_dec root_key (ppar (sp a))) as [<-|Q].
    - rewrite hget_hput_same. eauto.
    - rewrite hget_hput_other by auto. eauto. }
  assert (M1A : arrs m1 a).
  { intros x n' i y Q. unfold m1. rewrite hget_hput_other; [eauto|]. apply ppar_array; auto; subst a; apply sgood_app in GA as [GX GY]; auto. apply Forall_inv in GY; auto. }
  assert (M1N : hget (aplace_of a t) m1 = None) by (unfold m1; rewrite hget_hput_other by auto; auto).
  assert (MID : exists ta, stackof a ta /\ (match vlast ts with
     | Some l => if str_eqb (format_tt_keys (TArrayOf tb)) (format_tt_keys l) then
          let? (m, ti) := increment_array_table_index (p_map s) ts (map snd sh) in Ok (m, ts, ti)
        else if is_subtable_of (TArrayOf tb) l then
          let? m := add_implicit_tables (p_ovf s) (p_map s) ts (map snd sh) (TArrayOf tb) in Ok (m, vpush ts (TArrayOf tb), vpush (map snd sh) 0)
        else
          let (a, b) := pop_until_key (format_tt_keys (TArrayOf tb)) (rev ts) (rev (map snd sh)) in
          match rev a with
          | _ :: _ => let? (m, ti) := increment_array_table_index (p_map s) (rev a) (rev b) in Ok (m, rev a, ti)
          | [] =>
              let? m := add_implicit_tables (p_ovf s) (p_map s) (rev a) (rev b) (TArrayOf tb) in
              let? pk := get_key_parent (vpush (rev a) (TArrayOf tb)) (vpush (rev b) 0) in
              if hmem pk m
              then let? (m, ti) := increment_array_table_index m (vpush (rev a) (TArrayOf tb)) (vpush (rev b) 0) in Ok (m, vpush (rev a) (TArrayOf tb), ti)
              else Ok (m, vpush (rev a) (TArrayOf tb), vpush (rev b) 0)
          end
     | None => let? m := add_implicit_tables (p_ovf s) (p_map s) ts (map snd sh) (TArrayOf tb) in Ok (m, vpush ts (TArrayOf tb), vpush (map snd sh) 0)
     end) = Ok (m1, ta ++ [TArrayOf tb], map snd a' ++ [0])).
  { destruct H as [[-> ->]|(-> & -> & H)].
    - exists ts. split; auto. rewrite (implicit_name (p_ovf s) (p_map s) st ts (map snd sh) (TArrayOf tb) tb t pv kk) by auto. fold m1. cbn [rbind].
      destruct (vlast ts) as [l|]; auto. destruct TN as (NA & TN & _). rewrite TN, FT.
      destruct (str_eqb_spec (dotted_name (map fst st ++ [t])) (dotted_name (map fst st))) as [Q|_].
      { exfalso. apply dotted_inj in Q; auto.
        - apply (f_equal (@length str)) in Q. rewrite app_length in Q. cbn [length] in Q. lia.
        - apply snoc_ne.
        - destruct st; [congruence|discriminate].
        - apply sgood_names; auto. }
      unfold is_subtable_of. change (format_keys (tt_table l)) with (format_tt_keys l). change (format_keys (tt_table (TArrayOf tb))) with (format_tt_keys (TArrayOf tb)).
      rewrite TN, FT, starts_snoc. reflexivity.
    - exists []. split; [apply SO_nil|].
      assert (IM : add_implicit_tables (p_ovf s) (p_map s) [] [] (TArrayOf tb) = Ok m1).
      { apply (implicit_name (p_ovf s) (p_map s) [] [] [] (TArrayOf tb) tb t pv kk SO_nil); auto. }
      destruct (vlast ts) as [l|].
      2:{ destruct TN as [-> ->]. destruct sh; [|discriminate NS]. cbn [map]. rewrite IM. reflexivity. }
      destruct TN as (NA & TN & _). rewrite TN. cbn [map app] in FT. rewrite FT. destruct (map fst st) as [|f x] eqn:MS; [destruct st; [congruence|discriminate MS]|].
      assert (BS : Forall key_name (f :: x)) by (rewrite <- MS; apply sgood_names; auto).
      assert (NI : starts_with (dotted_name (f :: x)) (dotted_name [t]) = false).
      { apply (not_inside [] f x t); auto. intros _ r. eapply H; eauto. }
      destruct (str_eqb_spec (dotted_name [t]) (dotted_name (f :: x))) as [Q|_].
      { exfalso. rewrite Q in NI. apply not_true_iff_false in NI. apply NI. apply starts_iff. exists []. rewrite app_nil_r. auto. }
      unfold is_subtable_of. change (format_keys (tt_table l)) with (format_tt_keys l). change (format_keys (tt_table (TArrayOf tb))) with (format_tt_keys (TArrayOf tb)).
      rewrite TN, FT, NI. rewrite (pop_key_none sh ts [t]); auto; [|apply sgood_names; rewrite NS; auto|discriminate|].
      + cbn [rev app]. rewrite IM. cbn [rbind]. unfold vpush. cbn [app].
        pose proof (gkp_top [] [] tb t 0 [0] SO_nil MT (Forall_nil _) BT eq_refl) as GK. cbn [app] in GK. rewrite GK. cbn [rbind]. unfold hmem. rewrite M1N. reflexivity.
      + intros u v Q. destruct u as [|[f' i'] u]; [discriminate|]. rewrite Q in NS. cbn [map app fst] in NS. injection NS as NS _. subst f'.
        intros Z. cbn [map fst] in Z. injection Z as -> _. apply (H t x []); [|rewrite app_nil_r; auto]. auto. }
  destruct MID as (ta & SA & MID). cbv zeta in MID. rewrite MID. clear MID. cbn [rbind].
  destruct (arr_finish (p_ovf s) m1 a ta tb t 0 (map snd a') 0 SA MT GA BT M1R M1A LA) as (E & m' & EM & F1 & F2 & F3); auto.
  rewrite E. cbn [rbind negb]. rewrite <- EM. eexists. exists (TArrayOf tb). split; [reflexivity|].
  cbn [p_keychain p_atypes p_errors p_array_error set_last_table set_array_error set_map set_tables set_next set_keychain p_map].
  split; auto. split; auto. split; auto. split; auto. rewrite pt_snoc by auto. split; [|split; [|split; [|split]]]; auto.
  - exists (ta ++ [TArrayOf tb]). split; [apply SO_snoc; [eapply so_names; eauto|rewrite NA'; auto]|]. cbn. rewrite map_app. split; auto. split; auto.
    destruct (a' ++ [(t, 0)]) eqn:Q; [destruct a'; discriminate Q|]. eauto.
  - rewrite F3; auto. { unfold m1. apply hget_hput_same. }
    rewrite <- pt_snoc by auto. assert (GS : sgood (a ++ [(t, 0)])) by (apply sgood_app; split; auto; constructor; auto).
    rewrite <- ppar_pt by (apply sp_ne; destruct a; discriminate). intros Q. apply ppar_inj in Q; auto using sp_good.
    rewrite sp_snoc in Q. apply (f_equal (@length pstep)) in Q. rewrite !app_length in Q. cbn [length] in Q. lia.
  - intros y Y1 Y2 Y3. rewrite F3 by auto. unfold m1. apply hget_hput_other; auto.
Qed.

(** another element of an open array *)
Lemma next_act : forall w1 w2 n ks s a t i i' b b' tab, let P := n :: map wk_key ks in
  s.(p_keychain) = [] -> ttabs (a ++ (t, i') :: b') tab s -> map fst b' = map fst b -> sgood (a ++ (t, i) :: b) -> P = map fst a ++ [t] ->
  arrs s.(p_map) (a ++ (t, i) :: b) -> rooted s.(p_map) ->
  exists s' tt, array_table_act w1 w2 n ks (fold_left (fun s k => push_key (KStr k) s) P s) = Ok (s', tt) /\
    s'.(p_keychain) = [] /\ s'.(p_atypes) = s.(p_atypes) /\ s'.(p_errors) = s.(p_errors) /\ s'.(p_array_error) = false /\
    ttabs (a ++ [(t, i' + 1)]) None s' /\
    hget (pt (sp (a ++ [(t, i + 1)]))) s'.(p_map) = Some hv_none_keys /\
    hget (aplace_of a t) s'.(p_map) = Some (HashValue None (Count (i + 1 + 1))) /\
    (forall y, y <> aplace_of a t -> y <> pt (sp (a ++ [(t, i + 1)])) -> hget y s'.(p_map) = hget y s.(p_map)).
Proof.
  intros w1 w2 n ks s a t i i' b b' tab P K TA NB' G EP A R.
  set (w := {| wk_ws := {| ws1 := w1; ws2 := w2 |}; wk_key := n |}). set (tb := w :: ks).
  assert (MT : map wk_key tb = map fst a ++ [t]) by (rewrite <- EP; reflexivity).
  apply sgood_app in G as G2. destruct G2 as [GA GB]. apply Forall_inv in GB as BT. cbn [fst] in BT.
  replace (a ++ (t, i) :: b) with ((a ++ [(t, i)]) ++ b) in * by (rewrite <- app_assoc; auto).
  replace (a ++ (t, i') :: b') with ((a ++ [(t, i')]) ++ b') in * by (rewrite <- app_assoc; auto).
  assert (G' : sgood ((a ++ [(t, i')]) ++ b')) by (apply sgood_names; apply sgood_names in G; rewrite !map_app, NB' in *; exact G).
  assert (GAT : sgood (a ++ [(t, i)])) by (apply sgood_app in G; tauto).
  assert (AA : arrs (p_map s) a) by (rewrite <- app_assoc in A; eapply arrs_front; eauto).
  destruct (name_apart a t GA BT) as (N1 & N2 & N3).
  unfold array_table_act. change (table_new {| ws1 := w1; ws2 := w2 |} n ks) with tb.
  assert (LP : S (length ks) = length P) by (unfold P; cbn [length]; rewrite map_length; auto). rewrite LP, drop_keys by auto.
  cbn [rbind]. cbv zeta.
  destruct (arr_top _ tab s tb TA) as (ts & ST & E). unfold arr_pops in E. rewrite E. clear E.
  cbn [set_array_error p_map p_ovf].
  rename ST into ST'. assert (ST : stackof ((a ++ [(t, i)]) ++ b) ts) by (eapply so_names; [exact ST'|]; rewrite !map_app, NB'; reflexivity).
  pose proof (top_name _ _ ST') as TN.
  assert (FT : format_tt_keys (TArrayOf tb) = dotted_name (map fst a ++ [t])).
  { unfold format_tt_keys. rewrite format_dotted. cbn [tt_table]. rewrite MT. auto. }
  assert (BP : Forall key_name (map fst a ++ [t])) by (apply bare_app; [apply sgood_names; auto|constructor; auto]).
  assert (CNT : hget (aplace_of a t) (p_map s) = Some (HashValue None (Count (i + 1)))).
  { apply (A a t i b). rewrite <- app_assoc. auto. }
  set (m1 := hput (aplace_of a t) (HashValue None (Count (i + 1 + 1))) (p_map s)).
  assert (INC : forall ta t0, stackof a ta -> map wk_key t0 = map fst a ++ [t] ->
     increment_array_table_index (p_map s) (ta ++ [TArrayOf t0]) (map snd (a ++ [(t, i')])) = Ok (m1, map snd a ++ [i' + 1])).
  { intros ta t0 SA M0. unfold increment_array_table_index. rewrite (gkp_top a ta t0 t i') by (auto; rewrite map_app; auto). cbn [rbind].
    rewrite CNT. cbn [hv_subkeys hv_value]. fold m1. rewrite map_app. cbn [map snd]. rewrite vlast_app, vpop_app. reflexivity. }
  assert (MID : exists ta t0, stackof a ta /\ map wk_key t0 = map fst a ++ [t] /\ (match vlast ts with
     | Some l => if str_eqb (format_tt_keys (TArrayOf tb)) (format_tt_keys l) then
          let? (m, ti) := increment_array_table_index (p_map s) ts (map snd ((a ++ [(t, i')]) ++ b')) in Ok (m, ts, ti)
        else if is_subtable_of (TArrayOf tb) l then
          let? m := add_implicit_tables (p_ovf s) (p_map s) ts (map snd ((a ++ [(t, i')]) ++ b')) (TArrayOf tb) in Ok (m, vpush ts (TArrayOf tb), vpush (map snd ((a ++ [(t, i')]) ++ b')) 0)
        else
          let (a, b) := pop_until_key (format_tt_keys (TArrayOf tb)) (rev ts) (rev (map snd ((a ++ [(t, i')]) ++ b'))) in
          match rev a with
          | _ :: _ => let? (m, ti) := increment_array_table_index (p_map s) (rev a) (rev b) in Ok (m, rev a, ti)
          | [] =>
              let? m := add_implicit_tables (p_ovf s) (p_map s) (rev a) (rev b) (TArrayOf tb) in
              let? pk := get_key_parent (vpush (rev a) (TArrayOf tb)) (vpush (rev b) 0) in
              if hmem pk m
              then let? (m, ti) := increment_array_table_index m (vpush (rev a) (TArrayOf tb)) (vpush (rev b) 0) in Ok (m, vpush (rev a) (TArrayOf tb), ti)
              else Ok (m, vpush (rev a) (TArrayOf tb), vpush (rev b) 0)
          end
     | None => let? m := add_implicit_tables (p_ovf s) (p_map s) ts (map snd ((a ++ [(t, i')]) ++ b')) (TArrayOf tb) in Ok (m, vpush ts (TArrayOf tb), vpush (map snd ((a ++ [(t, i')]) ++ b')) 0)
     end) = Ok (m1, ta ++ [TArrayOf t0], map snd a ++ [i' + 1])).
  { destruct (vlast ts) as [l|].
    2:{ destruct TN as [TN _]. destruct a; discriminate TN. }
    destruct TN as (NA & TN & _). rewrite TN, FT. clear ST. rename ST' into ST. destruct b' as [|x b'].
    - rewrite app_nil_r in *. apply so_snoc_inv in ST as (ts0 & t0 & -> & SA & M0). cbn [fst] in M0. exists ts0, t0. split; auto. split; auto.
      rewrite map_app. cbn [map fst]. rewrite str_eqb_refl. rewrite INC by auto. reflexivity.
    - destruct (pop_key_stack (x :: b') (a ++ [(t, i')]) ts (map fst a ++ [t])) as (ta & SA & E); auto; [apply snoc_ne|destruct a; discriminate|rewrite map_app; auto|].
      apply so_snoc_inv in SA as (ts0 & t0 & -> & SA & M0). cbn [fst] in M0. exists ts0, t0. split; auto. split; auto.
      assert (NI : starts_with (dotted_name (map fst ((a ++ [(t, i')]) ++ x :: b'))) (dotted_name (map fst a ++ [t])) = false).
      { rewrite !map_app. cbn [map fst]. apply starts_longer; [|discriminate|apply snoc_ne].
        apply sgood_names in G'. rewrite !map_app in G'. exact G'. }
      destruct (str_eqb_spec (dotted_name (map fst a ++ [t])) (dotted_name (map fst ((a ++ [(t, i')]) ++ x :: b')))) as [Q|_].
      { exfalso. rewrite Q in NI. apply not_true_iff_false in NI. apply NI. apply starts_iff. exists []. rewrite app_nil_r. auto. }
      unfold is_subtable_of. change (format_keys (tt_table l)) with (format_tt_keys l). change (format_keys (tt_table (TArrayOf tb))) with (format_tt_keys (TArrayOf tb)).
      rewrite TN, FT, NI, E. rewrite !rev_involutive. destruct (ts0 ++ [TArrayOf t0]) eqn:Q; [destruct ts0; discriminate Q|]. rewrite <- Q. rewrite INC by auto. reflexivity. }
  destruct MID as (ta & t0 & SA & M0 & MID). cbv zeta in MID. rewrite MID. clear MID. cbn [rbind].
  assert (M1R : rooted m1).
  { destruct R as (rv & rk & R). unfold m1, rooted. rewrite hget_hput_other by auto. eauto. }
  assert (M1A : arrs m1 a).
  { intros x n' i2 y Q. unfold m1. rewrite hget_hput_other; [eauto|]. rewrite !aplace_pt; auto; [|subst a; apply sgood_app in GA; tauto].
    assert (GX : sgood x /\ key_name n') by (subst a; apply sgood_app in GA as [GX GY]; split; auto; apply Forall_inv in GY; auto). destruct GX.
    intros Z. apply pt_inj in Z; auto using snoc_place, gplace_key, sp_good. apply app_inj_tail in Z as [Z _].
    rewrite Q, sp_app in Z. apply (f_equal (@length pstep)) in Z. rewrite app_length in Z. cbn [sp flat_map app length] in Z. lia. }
  destruct (arr_finish (p_ovf s) m1 a ta t0 t (i + 1) (map snd a) (i' + 1) SA M0 GA BT M1R M1A (map_length _ _)) as (E & m' & EM & F1 & F2 & F3).
  { left. unfold m1. apply hget_hput_same. }
  rewrite E. cbn [rbind negb]. rewrite <- EM. eexists. exists (TArrayOf tb). split; [reflexivity|].
  cbn [p_keychain p_atypes p_errors p_array_error set_last_table set_array_error set_map set_tables set_next set_keychain p_map].
  split; auto. split; auto. split; auto. split; auto. rewrite pt_snoc by auto. split; [|split; [|split]]; auto.
  - exists (ta ++ [TArrayOf t0]). split; [apply SO_snoc; auto|]. cbn. rewrite map_app. split; auto. split; auto.
    destruct (a ++ [(t, i' + 1)]) eqn:Q; [destruct a; discriminate Q|]. eauto.
  - intros y Y1 Y2. rewrite F3 by auto. unfold m1. apply hget_hput_other; auto.
Qed.

(** another element of an array at the top that is not open *)
Lemma back_act : forall w1 w2 t s st tab pv kk c,
  s.(p_keychain) = [] -> ttabs st tab s -> sgood st -> st <> [] -> key_name t ->
  (forall f x r, map fst st = f :: x -> t <> f ++ r) ->
  hget root_key s.(p_map) = Some (HashValue pv (Keys kk)) -> In t kk ->
  hget (aplace_of [] t) s.(p_map) = Some (HashValue None (Count c)) -> 0 < c ->
  exists s' tt, array_table_act w1 w2 t [] (fold_left (fun s k => push_key (KStr k) s) [t] s) = Ok (s', tt) /\
    s'.(p_keychain) = [] /\ s'.(p_atypes) = s.(p_atypes) /\ s'.(p_errors) = s.(p_errors) /\ s'.(p_array_error) = false /\
    ttabs [(t, 1)] None s' /\
    hget (pt (sp [(t, c)])) s'.(p_map) = Some hv_none_keys /\
    hget (aplace_of [] t) s'.(p_map) = Some (HashValue None (Count (c + 1))) /\
    (forall y, y <> aplace_of [] t -> y <> pt (sp [(t, c)]) -> hget y s'.(p_map) = hget y s.(p_map)).
Proof.
  intros w1 w2 t s st tab pv kk c K TA G NE BT H PP IK CT CP.
  set (w := {| wk_ws := {| ws1 := w1; ws2 := w2 |}; wk_key := t |}). set (tb := [w] : table).
  assert (MT : map wk_key tb = map fst (@nil (str * N)) ++ [t]) by reflexivity.
  assert (GA : sgood []) by apply Forall_nil.
  assert (AA : arrs (p_map s) []) by (intros x n' i y Q; destruct x; discriminate Q).
  destruct (name_apart [] t GA BT) as (N1 & N2 & N3). change (ppar (sp [])) with root_key in N2.
  unfold array_table_act. change (table_new {| ws1 := w1; ws2 := w2 |} t []) with tb.
  change (S (length [])) with (length [t]). rewrite drop_keys by auto.
  cbn [rbind]. cbv zeta.
  destruct (arr_top st tab s tb TA) as (ts & ST & E). unfold arr_pops in E. rewrite E. clear E.
  cbn [set_array_error p_map p_ovf].
  pose proof (top_name _ _ ST) as TN.
  assert (FT : format_tt_keys (TArrayOf tb) = dotted_name [t]).
  { unfold format_tt_keys. rewrite format_dotted. reflexivity. }
  set (m0 := hput root_key (HashValue pv (Keys kk)) (p_map s)).
  assert (H0 : forall y, hget y m0 = hget y (p_map s)).
  { intros y. unfold m0. destruct (list_eq_dec N.eq_dec y root_key) as [->|Q]; [rewrite hget_hput_same; auto|apply hget_hput_other; auto]. }
  set (m1 := hput (aplace_of [] t) (HashValue None (Count (c + 1))) m0).
  assert (IM : add_implicit_tables (p_ovf s) (p_map s) [] [] (TArrayOf tb) = Ok m0).
  { rewrite (implicit_name (p_ovf s) (p_map s) [] [] [] (TArrayOf tb) tb t pv kk SO_nil); auto; [|exists pv, kk; auto].
    rewrite vinsert_old by auto. reflexivity. }
  pose proof (gkp_top [] [] tb t 0 [0] SO_nil MT GA BT eq_refl) as GK. cbn [app] in GK.
  destruct (vlast ts) as [l|]; [|destruct TN as [TN _]; congruence].
  destruct TN as (_ & TN & _). rewrite TN, FT. destruct (map fst st) as [|f x] eqn:MS; [destruct st; [congruence|discriminate MS]|].
  assert (BS : Forall key_name (f :: x)) by (rewrite <- MS; apply sgood_names; auto).
  assert (NI : starts_with (dotted_name (f :: x)) (dotted_name [t]) = false).
  { apply (not_inside [] f x t); auto. intros _ r. eapply H; eauto. }
  destruct (str_eqb_spec (dotted_name [t]) (dotted_name (f :: x))) as [Q|_].
  { exfalso. rewrite Q in NI. apply not_true_iff_false in NI. apply NI. apply starts_iff. exists []. rewrite app_nil_r. auto. }
  unfold is_subtable_of. change (format_keys (tt_table l)) with (format_tt_keys l). change (format_keys (tt_table (TArrayOf tb))) with (format_tt_keys (TArrayOf tb)).
  rewrite TN, FT, NI. rewrite (pop_key_none st ts [t]); auto; [|discriminate|].
  2:{ intros u v Q. destruct u as [|[f' i'] u]; [discriminate|]. rewrite Q in MS. cbn [map app] in MS. injection MS as MS _. subst f'.
      intros Z. cbn [map fst] in Z. injection Z as -> _. apply (H t x []); [|rewrite app_nil_r; auto]. auto. }
  cbn [rev app]. rewrite IM. cbn [rbind]. unfold vpush. cbn [app]. rewrite GK. cbn [rbind].
  unfold hmem at 1. rewrite H0, CT. cbn [is_some].
  unfold increment_array_table_index. rewrite GK. cbn [rbind]. rewrite H0, CT. cbn [hv_subkeys hv_value]. fold m1.
  change (vlast [0]) with (Some 0). cbv iota. change (vpush (vpop [0]) (0 + 1)) with [1]. cbn [rbind].
  assert (M1R : rooted m1).
  { exists pv, kk. unfold m1. rewrite hget_hput_other by auto. rewrite H0. auto. }
  assert (M1A : arrs m1 []) by (intros x' n' i y Q; destruct x'; discriminate Q).
  destruct (arr_finish (p_ovf s) m1 [] [] tb t c [] 1 SO_nil MT GA BT M1R M1A eq_refl) as (E & m' & EM & F1 & F2 & F3).
  { left. unfold m1. apply hget_hput_same. }
  cbn [app] in E. rewrite E. cbn [rbind negb]. rewrite <- EM. eexists. exists (TArrayOf tb). split; [reflexivity|].
  cbn [p_keychain p_atypes p_errors p_array_error set_last_table set_array_error set_map set_tables set_next set_keychain p_map].
  change [(t, 1)] with (([] : stack) ++ [(t, 1)]). change [(t, c)] with (([] : stack) ++ [(t, c)]).
  split; auto. split; auto. split; auto. split; auto. rewrite pt_snoc by auto. split; [|split; [|split]]; auto.
  - exists ([] ++ [TArrayOf tb]). split; [apply SO_snoc; auto; apply SO_nil|]. cbn. split; auto. split; auto. eauto.
  - intros y Y1 Y2. rewrite F3 by auto. unfold m1. rewrite hget_hput_other by auto. apply H0.
Qed.
